(** * Accumulation of rounding errors. *)
From Coq Require Import Reals Lra Lia Arith Bool.
From Verif Require Import Base Alg Inst Mat SpecMat LemMat LemOps LemHelpers ModelOps RSum ModelFl SpecFl.
Open Scope outcome_scope.
Local Open Scope R_scope.

(** c is a product of at most k factors 1+d or 1/(1+d), |d| <= u *)
Definition fac (u : R) (k : nat) (c : R) : Prop := (1 - u) ^ k <= c /\ c * (1 - u) ^ k <= 1.
(** c is a product of at most k factors 1+d *)
Definition near (u : R) (k : nat) (c : R) : Prop := (1 - u) ^ k <= c <= (1 + u) ^ k.

Lemma pow_1mu u k : 0 <= u < 1 -> 0 < (1 - u) ^ k <= 1.
Proof. intros H. split; [apply pow_lt; lra|]. induction k; cbn; [lra|]. assert (0 < (1 - u) ^ k) by (apply pow_lt; lra). nra. Qed.
Lemma pow_1pu u k : 0 <= u -> 1 <= (1 + u) ^ k.
Proof. intros H. apply pow_R1_Rle. lra. Qed.
Lemma fac_pos u k c : 0 <= u < 1 -> fac u k c -> 0 < c.
Proof. intros H [K _]. pose proof (pow_1mu u k H). lra. Qed.
Lemma fac_1 u : 0 <= u < 1 -> fac u 0 1.
Proof. intros _. unfold fac. cbn. lra. Qed.
Lemma fac_le u k m c : 0 <= u < 1 -> (k <= m)%nat -> fac u k c -> fac u m c.
Proof.
  intros H Hk F. pose proof (fac_pos u k c H F) as P. destruct F as [F1 F2]. replace m with (k + (m - k))%nat by lia. unfold fac. rewrite pow_add.
  pose proof (pow_1mu u k H). pose proof (pow_1mu u (m - k) H). split; nra.
Qed.
Lemma fac_mul u k m c d : 0 <= u < 1 -> fac u k c -> fac u m d -> fac u (k + m) (c * d).
Proof.
  intros H F G. pose proof (fac_pos u k c H F). pose proof (fac_pos u m d H G). destruct F as [F1 F2], G as [G1 G2]. unfold fac. rewrite pow_add.
  pose proof (pow_1mu u k H) as [P1 P2]. pose proof (pow_1mu u m H) as [P3 P4]. split; [apply Rmult_le_compat; lra|].
  replace (c * d * ((1 - u) ^ k * (1 - u) ^ m)) with ((c * (1 - u) ^ k) * (d * (1 - u) ^ m)) by ring.
  apply (Rle_trans _ (1 * 1)); [|lra]. apply Rmult_le_compat; [nra|nra|exact F2|exact G2].
Qed.
Lemma fac_inv u k c : 0 <= u < 1 -> fac u k c -> fac u k (/ c).
Proof.
  intros H F. pose proof (fac_pos u k c H F) as P. destruct F as [F1 F2]. pose proof (pow_1mu u k H). split.
  - apply (Rmult_le_reg_l c); [exact P|]. rewrite Rinv_r by lra. exact F2.
  - apply (Rmult_le_reg_l c); [exact P|]. rewrite <- Rmult_assoc, Rinv_r by lra. lra.
Qed.
Lemma fac_d u d : 0 <= u < 1 -> Rabs d <= u -> fac u 1 (1 + d).
Proof. intros H K. unfold fac. cbn.  assert (- u <= d <= u) by (unfold Rabs in K; destruct (Rcase_abs d); lra). split; nra. Qed.
Lemma fac_err u k c : 0 <= u < 1 -> fac u k c -> Rabs (c - 1) <= bwd u k.
Proof.
  intros H F. pose proof (fac_pos u k c H F) as P. destruct F as [F1 F2]. pose proof (pow_1mu u k H) as [Q1 Q2]. unfold bwd. set (t := (1 - u) ^ k) in *.
  assert (I : c <= / t). { apply (Rmult_le_reg_r t); [exact Q1|]. rewrite Rinv_l by lra. exact F2. }
  assert (J : 1 - t <= / t - 1). { apply (Rmult_le_reg_r t); [exact Q1|]. replace ((/ t - 1) * t) with (/ t * t - t) by ring. rewrite Rinv_l by lra. nra. }
  unfold Rabs. destruct (Rcase_abs (c - 1)); lra.
Qed.
Lemma near_mul u k m c d : 0 <= u < 1 -> near u k c -> near u m d -> near u (k + m) (c * d).
Proof.
  intros H [F1 F2] [G1 G2]. unfold near. rewrite !pow_add. pose proof (pow_1mu u k H). pose proof (pow_1mu u m H). split; apply Rmult_le_compat; lra.
Qed.
Lemma near_le u k m c : 0 <= u < 1 -> (k <= m)%nat -> near u k c -> near u m c.
Proof.
  intros H Hk [F1 F2]. replace m with (k + (m - k))%nat by lia. unfold near. rewrite !pow_add. pose proof (pow_1mu u k H). pose proof (pow_1mu u (m - k) H).
  pose proof (pow_1pu u (m - k) ltac:(lra)). split; [nra|]. assert (0 <= (1 + u) ^ k) by lra. nra.
Qed.
Lemma near_d u d : 0 <= u < 1 -> Rabs d <= u -> near u 1 (1 + d).
Proof. intros H K. unfold near. cbn. assert (- u <= d <= u) by (unfold Rabs in K; destruct (Rcase_abs d); lra). lra. Qed.
Lemma near_1 u : near u 0 1.
Proof. unfold near. cbn. lra. Qed.
Lemma pow_mirror u k : 0 <= u < 1 -> 1 - (1 - u) ^ k <= (1 + u) ^ k - 1.
Proof.
  intros H. assert (G : 2 <= (1 + u) ^ k + (1 - u) ^ k); [|lra]. induction k as [|k IH]; cbn; [lra|]. pose proof (pow_1mu u k H). pose proof (pow_1pu u k ltac:(lra)). nra.
Qed.
Lemma near_err u k c : 0 <= u < 1 -> near u k c -> Rabs (c - 1) <= fwd u k.
Proof. intros H [F1 F2]. pose proof (pow_mirror u k H). unfold fwd. unfold Rabs. destruct (Rcase_abs (c - 1)); lra. Qed.
Lemma fwd_mono u k m : 0 <= u -> (k <= m)%nat -> fwd u k <= fwd u m.
Proof. intros H K. unfold fwd. pose proof (Rle_pow (1 + u) k m ltac:(lra) K). lra. Qed.
Lemma bwd_nonneg u k : 0 <= u < 1 -> 0 <= bwd u k.
Proof. intros H. pose proof (fac_err u k 1 H) as F. rewrite Rminus_diag_eq, Rabs_R0 in F by reflexivity. apply F. apply (fac_le u 0); [exact H|lia|apply fac_1; exact H]. Qed.
Lemma fwd_nonneg u k : 0 <= u -> 0 <= fwd u k.
Proof. intros H. unfold fwd. pose proof (pow_1pu u k H). lra. Qed.
Lemma bwd_mono u k m : 0 <= u < 1 -> (k <= m)%nat -> bwd u k <= bwd u m.
Proof.
  intros H K. unfold bwd. replace m with (k + (m - k))%nat by lia. rewrite pow_add. pose proof (pow_1mu u k H). pose proof (pow_1mu u (m - k) H).
  apply Rplus_le_compat_r. apply Rinv_le_contravar; nra.
Qed.
(** the usual closed form k u / (1 - k u) *)
Lemma bernoulli_minus u k : 0 <= u < 1 -> 1 - INR k * u <= (1 - u) ^ k.
Proof. intros H. induction k as [|k IH]; [cbn; lra|]. rewrite S_INR. cbn [pow]. pose proof (pos_INR k). nra. Qed.
Lemma bwd_gamma u k : 0 <= u < 1 -> INR k * u < 1 -> bwd u k <= INR k * u / (1 - INR k * u).
Proof.
  intros H K. unfold bwd. pose proof (bernoulli_minus u k H). replace (INR k * u / (1 - INR k * u)) with (/ (1 - INR k * u) - 1) by (field; lra).
  apply Rplus_le_compat_r. apply Rinv_le_contravar; lra.
Qed.
Lemma fwd_bwd u k : 0 <= u < 1 -> fwd u k <= bwd u k.
Proof.
  intros H. unfold fwd, bwd. apply Rplus_le_compat_r. pose proof (pow_1mu u k H). apply (Rmult_le_reg_r ((1 - u) ^ k)); [lra|]. rewrite Rinv_l by lra. rewrite <- Rpow_mult_distr.
  apply (Rle_trans _ (1 ^ k)); [|rewrite pow1; lra]. apply pow_incr. nra.
Qed.

Section R1.
Variables (u : R) (rnd : R -> R).
Hypothesis RN : rounding u rnd.
Lemma u_rng : 0 <= u < 1.
Proof. apply RN. Qed.
Lemma rnd_d x : exists d, Rabs d <= u /\ rnd x = x * (1 + d).
Proof.
  destruct RN as (Hu & E & _). destruct (Req_dec x 0) as [->|Hx].
  - exists 0. rewrite Rabs_R0. split; [lra|]. specialize (E 0). rewrite Rabs_R0, Rmult_0_r in E. assert (rnd 0 - 0 = 0). { destruct (Req_dec (rnd 0 - 0) 0) as [Z|Z]; [exact Z|]. pose proof (Rabs_pos_lt _ Z). lra. } lra.
  - exists ((rnd x - x) / x). split; [|field; exact Hx]. unfold Rdiv. rewrite Rabs_mult, Rabs_inv. pose proof (Rabs_pos_lt x Hx). apply (Rmult_le_reg_r (Rabs x)); [assumption|].
    rewrite Rmult_assoc, Rinv_l, Rmult_1_r by lra. apply E.
Qed.
Lemma rnd_0 : rnd 0 = 0.
Proof. destruct (rnd_d 0) as (d & _ & E). rewrite E. ring. Qed.
Lemma rnd_near x : exists c, near u 1 c /\ rnd x = x * c.
Proof. destruct (rnd_d x) as (d & K & E). exists (1 + d). split; [apply near_d; [apply u_rng|exact K]|exact E]. Qed.
Lemma rnd_fac x : exists c, fac u 1 c /\ rnd x = x * c.
Proof. destruct (rnd_d x) as (d & K & E). exists (1 + d). split; [apply fac_d; [apply u_rng|exact K]|exact E]. Qed.
Lemma rnd_nz x : x <> 0 -> rnd x <> 0.
Proof. intros H. destruct (rnd_fac x) as (c & F & ->). pose proof (fac_pos u 1 c u_rng F). nra. Qed.

(** sums of products in floating point *)
Definition fsum (n : nat) (f : nat -> R) : R := @sum R (FlOps rnd) n f.
Lemma fsum_S n f : fsum (S n) f = rnd (fsum n f + f n).
Proof. reflexivity. Qed.
Lemma dot_near (x y : nat -> R) n : exists c : nat -> R, (forall i, (i < n)%nat -> near u n (c i)) /\ fsum n (fun i => rnd (x i * y i)) = Sum n (fun i => x i * y i * c i).
Proof.
  induction n as [|n IH].
  - exists (fun _ => 1). split; [lia|reflexivity].
  - destruct IH as (c & Hc & E). rewrite fsum_S. destruct (rnd_near (x n * y n)) as (b & Hb & Eb). destruct n as [|n].
    + exists (fun _ => b). split; [intros i Hi; exact Hb|]. cbn [fsum sum FlOps f0 Sum fadd ROps]. unfold fsum. cbn [sum FlOps f0]. rewrite Rplus_0_l.
      destruct RN as (_ & _ & ID). rewrite ID, Eb. ring.
    + rewrite E, Eb. destruct (rnd_near (Sum (S n) (fun i => x i * y i * c i) + x (S n) * y (S n) * b)) as (e & He & ->).
      exists (fun i => if (i =? S n)%nat then b * e else c i * e). split.
      * intros i Hi. destruct (Nat.eqb_spec i (S n)).
        -- apply (near_le u 2); [apply u_rng|lia|]. apply (near_mul u 1 1); [apply u_rng|assumption|assumption].
        -- replace (S (S n)) with (S n + 1)%nat by lia. apply near_mul; [apply u_rng|apply Hc; lia|exact He].
      * change (Sum (S (S n)) ?f) with (Sum (S n) f + f (S n)). cbn beta. rewrite Nat.eqb_refl.
        rewrite (S_ext (S n) (fun i => x i * y i * (if (i =? S n)%nat then b * e else c i * e)) (fun i => (x i * y i * c i) * e)).
        -- rewrite S_mul_r. ring.
        -- intros i Hi. destruct (Nat.eqb_spec i (S n)); [lia|]. ring.
Qed.
Lemma near_sum_err n (t c : nat -> R) k : (forall i, (i < n)%nat -> near u k (c i)) ->
  Rabs (Sum n (fun i => t i * c i) - Sum n t) <= fwd u k * Sum n (fun i => Rabs (t i)).
Proof.
  intros H. induction n as [|n IH].
  - cbn. rewrite Rminus_0_r, Rabs_R0, Rmult_0_r. lra.
  - change (Sum (S n) ?f) with (Sum n f + f n) in *. cbn beta.
    replace (Sum n (fun i => t i * c i) + t n * c n - (Sum n t + t n)) with ((Sum n (fun i => t i * c i) - Sum n t) + t n * (c n - 1)) by ring.
    eapply Rle_trans; [apply Rabs_triang|]. rewrite Rabs_mult. specialize (IH ltac:(intros i Hi; apply H; lia)).
    pose proof (near_err u k (c n) u_rng (H n ltac:(lia))). pose proof (Rabs_pos (t n)). change (Sum (S n) (fun i => Rabs (t i))) with (Sum n (fun i => Rabs (t i)) + Rabs (t n)). nra.
Qed.
Lemma fsum_err (x y : nat -> R) n : Rabs (fsum n (fun i => rnd (x i * y i)) - Sum n (fun i => x i * y i)) <= fwd u n * Sum n (fun i => Rabs (x i * y i)).
Proof. destruct (dot_near x y n) as (c & Hc & ->). apply (near_sum_err n (fun i => x i * y i) c n Hc). Qed.

(** v minus products, one after the other *)
Fixpoint subs (v : R) (x y : nat -> R) (k : nat) : R := match k with O => v | S j => rnd (subs v x y j - rnd (x j * y j)) end.
Lemma subs_back v x y k : exists c, (forall i, (i <= k)%nat -> fac u k (c i)) /\ v = subs v x y k * c k + Sum k (fun i => x i * y i * c i).
Proof.
  induction k as [|k IH].
  - exists (fun _ => 1). split; [intros; apply fac_1; apply u_rng|]. cbn. ring.
  - destruct IH as (c & Hc & E). cbn [subs]. set (s := subs v x y k) in *. destruct (rnd_fac (x k * y k)) as (b & Hb & Eb). rewrite Eb.
    destruct (rnd_fac (s - x k * y k * b)) as (e & He & Ee). pose proof (fac_pos u 1 e u_rng He) as Pe.
    exists (fun i => if (i =? S k)%nat then / e * c k else if (i =? k)%nat then b * c k else c i). split.
    + intros i Hi. destruct (Nat.eqb_spec i (S k)).
      * apply (fac_mul u 1 k); [apply u_rng|apply fac_inv; [apply u_rng|exact He]|apply Hc; lia].
      * destruct (Nat.eqb_spec i k).
        -- apply (fac_mul u 1 k); [apply u_rng|exact Hb|apply Hc; lia].
        -- apply (fac_le u k); [apply u_rng|lia|apply Hc; lia].
    + rewrite Nat.eqb_refl. rewrite Ee. change (Sum (S k) ?f) with (Sum k f + f k). cbn beta. rewrite Nat.eqb_refl. destruct (Nat.eqb_spec k (S k)); [lia|].
      rewrite (S_ext k _ (fun i => x i * y i * c i)).
      2:{ intros i Hi. destruct (Nat.eqb_spec i (S k)); [lia|]. destruct (Nat.eqb_spec i k); [lia|]. reflexivity. }
      rewrite E at 1. field. lra.
Qed.
End R1.
(** choosing one witness per index *)
Lemma fin_choice {Y} (P : nat -> Y -> Prop) (y0 : Y) n : (forall i, (i < n)%nat -> exists y, P i y) -> exists f, forall i, (i < n)%nat -> P i (f i).
Proof.
  induction n as [|n IH]; intros H; [exists (fun _ => y0); lia|]. destruct IH as (f & Hf); [intros i Hi; apply H; lia|]. destruct (H n ltac:(lia)) as (y & Hy).
  exists (fun i => if (i =? n)%nat then y else f i). intros i Hi. destruct (Nat.eqb_spec i n); [subst; exact Hy|apply Hf; lia].
Qed.
