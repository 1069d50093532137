(** * The determinant of a matrix exponential is the exponential of the trace *)
From Coq Require Import Reals Arith Bool Lia Lra Psatz.
From Verif Require Import Base Alg Mat SpecMat Inst RSum RMat SpecLin LemDet LemDetMul LemDetMore SpecExp LemExp LemExp2 LemFlChol3 LemFlDet2.
Local Open Scope R_scope.
Arguments infinite_sum : simpl never.

Lemma abs_eq_0 x : Rabs x = 0 -> x = 0.
Proof. intros H. destruct (Req_dec x 0) as [E|E]; [exact E|]. apply Rabs_no_R0 in E. contradiction. Qed.
Definition tr (n : nat) (A : rmat) : R := Sum n (fun i => A i i).
Lemma tr_bound n A e : (forall i j, (i < n)%nat -> (j < n)%nat -> Rabs (A i j) <= e) -> Rabs (tr n A) <= INR n * e.
Proof. intros H. unfold tr. eapply Rle_trans; [apply S_abs|]. rewrite <- S_cst'. apply S_le. intros i Hi. apply H; assumption. Qed.
(** a matrix with a small first row has a small determinant *)
Lemma det_small_row n (a : nat -> nat -> R) e : 0 <= e -> (forall j, (j < S n)%nat -> Rabs (a 0%nat j) <= e) -> (forall i j, (0 < i < S n)%nat -> (j < S n)%nat -> Rabs (a i j) <= 2) ->
  Rabs (@det R ROps (S n) a) <= INR (fact (S n)) * 2 ^ S n * e.
Proof.
  intros E0 H0 H. set (b := fun i j => match i with O => a 0%nat j / e | S _ => a i j end). destruct E0 as [E0|<-].
  - assert (K : @det R ROps (S n) a = e * @det R ROps (S n) b).
    { apply (@D_scale R ROps RLaws (S n) (@det R ROps (S n)) (@det_alternating R ROps RLaws (S n)) 0 e b a).
      - lia.
      - intros r j Hr Hj Hn. destruct r; [lia|reflexivity].
      - intros j Hj. unfold b. cbn [fmul ROps]. field. lra. }
    rewrite K, Rabs_mult, (Rabs_right e) by lra. rewrite Rmult_comm. apply Rmult_le_compat_r; [lra|]. apply det_bound; [|lra]. intros i j Hi Hj. destruct i as [|i]; cbn [b].
    + unfold Rdiv. rewrite Rabs_mult, (Rabs_right (/ e)) by (left; apply Rinv_0_lt_compat; exact E0). apply Rmult_le_reg_r with e; [exact E0|]. rewrite Rmult_assoc, Rinv_l by lra. specialize (H0 j Hj). lra.
    + apply H; lia.
  - assert (K : @det R ROps (S n) a = 0).
    { apply (@D_zero_row R ROps RLaws (S n) (@det R ROps (S n)) (@det_alternating R ROps RLaws (S n)) 0 a); [lia|]. intros j Hj. specialize (H0 j Hj). apply abs_eq_0. pose proof (Rabs_pos (a 0%nat j)). lra. }
    rewrite K, Rabs_R0. lra.
Qed.
(** det (1 + X) = 1 + tr X up to second order *)
Lemma det_second n : exists K, 0 <= K /\ forall (X : rmat) e, 0 <= e <= 1 -> (forall i j, (i < n)%nat -> (j < n)%nat -> Rabs (X i j) <= e) ->
  Rabs (@det R ROps n (fun i j => delta i j + X i j) - 1 - tr n X) <= K * e ^ 2.
Proof.
  induction n as [|n (K & K0 & IH)].
  { exists 0. split; [lra|]. intros X e He _. unfold tr. cbn [det sum f0 f1 ROps]. replace (1 - 1 - 0) with 0 by ring. rewrite Rabs_R0. nra. }
  exists (INR n + 2 * K + INR n * (INR (fact n) * 2 ^ n)). pose proof (pos_INR n) as Pn. pose proof (fact_pos n) as Pf. pose proof (pow_lt 2 n ltac:(lra)) as P2.
  split; [assert (0 <= INR n * (INR (fact n) * 2 ^ n)) by (apply Rmult_le_pos; [exact Pn|nra]); lra|].
  intros X e [E0 E1] HX. rewrite det_S_R, S_first. unfold tr. rewrite S_first.
  replace (@sgn R ROps 0) with 1 by reflexivity.
  rewrite (@det_ext R ROps n (fun r c => @delta R ROps (skip 0 r) (S c) + X (skip 0 r) (S c)) (fun r c => delta r c + X (S r) (S c))) by (intros r c Hr Hc; unfold skip; cbn [Nat.ltb Nat.leb]; f_equal; unfold delta; cbn [Nat.eqb]; reflexivity).
  specialize (IH (fun r c => X (S r) (S c)) e (conj E0 E1)). specialize (IH ltac:(intros; apply HX; lia)). unfold tr in IH.
  assert (Ht : Rabs (tr n (fun r c => X (S r) (S c))) <= INR n * e) by (apply tr_bound; intros; apply HX; lia). unfold tr in Ht.
  set (d := @det R ROps n (fun r c => delta r c + X (S r) (S c))) in *. set (t := Sum n (fun i => X (S i) (S i))) in *. pose proof (HX 0%nat 0%nat ltac:(lia) ltac:(lia)) as H00. set (x := X 0%nat 0%nat) in *.
  assert (HR : Rabs (Sum n (fun i => @sgn R ROps (S i) * (delta (S i) 0%nat + X (S i) 0%nat) * @det R ROps n (fun r c => delta (skip (S i) r) (S c) + X (skip (S i) r) (S c)))) <= INR n * (INR (fact n) * 2 ^ n) * e ^ 2).
  { eapply Rle_trans; [apply S_abs|]. apply (Rle_trans _ (Sum n (fun _ => INR (fact n) * 2 ^ n * e ^ 2))); [|right; rewrite S_cst'; ring]. apply S_le. intros i Hi. rewrite !Rabs_mult, sgn_abs, Rmult_1_l.
    replace (@delta R ROps (S i) 0%nat) with 0 by reflexivity. rewrite Rplus_0_l. replace (INR (fact n) * 2 ^ n * e ^ 2) with (e * (INR (fact n) * 2 ^ n * e)) by ring. apply Rmult_le_compat; try apply Rabs_pos; [apply HX; lia|].
    destruct n as [|n']; [lia|]. apply det_small_row; [exact E0| |].
    - intros j Hj. unfold skip. cbn [Nat.ltb Nat.leb]. replace (@delta R ROps 0%nat (S j)) with 0 by reflexivity. rewrite Rplus_0_l. apply HX; lia.
    - intros r c Hr Hc. eapply Rle_trans; [apply Rabs_triang|]. assert (Rabs (X (skip (S i) r) (S c)) <= e) by (apply HX; [apply skip_lt'; lia|lia]). assert (Rabs (@delta R ROps (skip (S i) r) (S c)) <= 1) by (unfold delta; destruct (Nat.eqb_spec (skip (S i) r) (S c)); cbn [f0 f1 ROps]; [rewrite Rabs_R1|rewrite Rabs_R0]; lra). lra. }
  match goal with |- Rabs (_ + ?q - 1 - _) <= _ => set (rest := q) in * end. replace (@delta R ROps 0%nat 0%nat) with 1 by reflexivity.
  replace (1 * (1 + x) * d + rest - 1 - (x + t)) with ((d - 1 - t) * (1 + x) + x * t + rest) by ring.
  eapply Rle_trans; [apply Rabs_triang|]. eapply Rle_trans; [apply Rplus_le_compat_r; apply Rabs_triang|]. rewrite !Rabs_mult.
  assert (A1 : Rabs (1 + x) <= 2). { eapply Rle_trans; [apply Rabs_triang|]. rewrite Rabs_R1. lra. }
  assert (A2 : Rabs (d - 1 - t) * Rabs (1 + x) <= K * e ^ 2 * 2) by (apply Rmult_le_compat; try apply Rabs_pos; assumption).
  assert (A3 : Rabs x * Rabs t <= e * (INR n * e)) by (apply Rmult_le_compat; try apply Rabs_pos; assumption).
  lra.
Qed.
(** the exponential of a small matrix, up to second order *)
Lemma exp_second n A a E h : norm_le n A a -> 0 <= h -> 0 <= a -> h * a <= 1 -> is_exp n (fun i j => h * A i j) E ->
  forall i j, (i < n)%nat -> (j < n)%nat -> Rabs (E i j - delta i j - h * A i j) <= exp 1 * (h * a) ^ 2.
Proof.
  intros HA H0 A0 Hh HE i j Hi Hj. assert (NA : norm_le n (fun i j => h * A i j) (h * a)). { pose proof (norm_scale n A a h HA) as N. rewrite (Rabs_right h) in N by lra. exact N. }
  assert (P2 : norm_le n (fun i j => mpow n (fun i j => h * A i j) 2 i j / INR (fact 2)) ((h * a) ^ 2)).
  { apply (norm_mono n _ (Rabs (/ 2) * (h * a) ^ 2)); [rewrite Rabs_right by lra; pose proof (pow2_ge_0 (h * a)); lra|]. apply (norm_ext n (fun i j => / 2 * mpow n (fun i j => h * A i j) 2 i j)); [intros; cbn [fact Nat.mul Nat.add]; replace (INR 2) with 2 by (cbn; ring); unfold Rdiv; ring|]. apply norm_scale. apply norm_mpow; [apply Rmult_le_pos; assumption|exact NA]. }
  pose proof (tail_bound n _ E 2 ((h * a) ^ 2) (norm_mono n _ _ _ Hh NA) HE (pow2_ge_0 _) P2) as T. pose proof (norm_entry n _ _ i j Hi Hj T) as T'. cbn beta in T'. unfold psum in T'. rewrite !S_S in T'. change (Sum 0 ?f) with 0 in T'.
  cbn [mpow fact Nat.mul Nat.add] in T'. rewrite (mm_delta_r n _ i j Hj) in T'. change (INR 1) with 1 in T'. rewrite (Rmult_comm (exp 1)). eapply Rle_trans; [|exact T']. right. f_equal. field.
Qed.
Lemma exp_small x : Rabs x <= 1 -> Rabs (exp x - 1 - x) <= exp 1 * x ^ 2.
Proof.
  intros H. assert (HE : is_exp 1 (fun i j => 1 * (fun _ _ => x) i j) (fun _ _ => exp x)).
  { rewrite is_exp_iff. intros i j Hi Hj. apply (cv_ext (spsum x)); [|apply spsum_cv]. intros N. unfold psum, spsum. apply S_ext. intros k Hk. f_equal. rewrite mpow_scale, pow1, Rmult_1_l. clear Hk. replace i with 0%nat by lia. replace j with 0%nat by lia. induction k as [|k IH]; [reflexivity|]. cbn [mpow pow]. unfold mm. change (Sum 1 ?f) with (0 + f 0%nat). cbn beta. rewrite <- IH. ring. }
  assert (NA : norm_le 1 (fun _ _ => x) (Rabs x)). { intros i Hi. change (Sum 1 ?f) with (0 + f 0%nat). cbn beta. lra. }
  pose proof (exp_second 1 (fun _ _ => x) (Rabs x) _ 1 NA ltac:(lra) (Rabs_pos x) ltac:(lra) HE 0%nat 0%nat ltac:(lia) ltac:(lia)) as B. cbn beta in B. replace (@delta R ROps 0%nat 0%nat) with 1 in B by reflexivity.
  rewrite !Rmult_1_l, RPow_abs, (Rabs_right (x ^ 2)) in B by (apply Rle_ge, pow2_ge_0). exact B.
Qed.
Lemma pow_diff (x y b : R) m : Rabs x <= b -> Rabs y <= b -> Rabs (x ^ S m - y ^ S m) <= INR (S m) * b ^ m * Rabs (x - y).
Proof.
  intros Hx Hy. assert (B : 0 <= b) by (pose proof (Rabs_pos x); lra). induction m as [|m IH]; [cbn [pow INR]; rewrite !Rmult_1_r, Rmult_1_l; lra|].
  replace (x ^ S (S m) - y ^ S (S m)) with (x * (x ^ S m - y ^ S m) + (x - y) * y ^ S m) by (cbn [pow]; ring). eapply Rle_trans; [apply Rabs_triang|]. rewrite !Rabs_mult, <- RPow_abs.
  assert (A1 : Rabs x * Rabs (x ^ S m - y ^ S m) <= b * (INR (S m) * b ^ m * Rabs (x - y))) by (apply Rmult_le_compat; try apply Rabs_pos; assumption).
  assert (A2 : Rabs y ^ S m <= b ^ S m) by (apply pow_incr; split; [apply Rabs_pos|exact Hy]).
  assert (A3 : Rabs (x - y) * Rabs y ^ S m <= Rabs (x - y) * b ^ S m) by (apply Rmult_le_compat_l; [apply Rabs_pos|exact A2]).
  rewrite (S_INR (S m)). cbn [pow] in *. lra.
Qed.
Lemma det_sq n X s : @det R ROps n (sq_iter n X s) = @det R ROps n X ^ (2 ^ s).
Proof.
  induction s as [|s IH]; [cbn [sq_iter Nat.pow pow]; ring|]. cbn [sq_iter]. refine (eq_trans (@det_mul R ROps RLaws n (sq_iter n X s) (sq_iter n X s)) _). cbn [fmul ROps]. rewrite IH. rewrite <- pow_add. f_equal. cbn [Nat.pow]. lia.
Qed.
Lemma exp_mul_nat x m : exp (INR m * x) = exp x ^ m.
Proof. induction m as [|m IH]; [cbn [INR pow]; rewrite Rmult_0_l; apply exp_0|]. rewrite S_INR. cbn [pow]. rewrite <- IH, <- exp_plus. f_equal. ring. Qed.
Lemma INR_pow2 s : INR (2 ^ s) = 2 ^ s.
Proof. rewrite pow_INR. reflexivity. Qed.

Theorem det_exp n A E : is_exp n A E -> @det R ROps n E = exp (tr n A).
Proof.
  intros HE. destruct (some_norm n A) as (a & A0 & NA). destruct (det_second n) as (K & K0 & HK). pose proof (exp_pos 1) as P1. pose proof (exp_ineq1_le 1) as P1'.
  set (t := tr n A). set (e1 := exp 1) in *. set (c := a * (1 + e1)). assert (C0 : 0 <= c) by (unfold c; nra). pose proof (pos_INR n) as Pn.
  set (K1 := K * c ^ 2 + INR n * (e1 * a ^ 2)). assert (K10 : 0 <= K1). { unfold K1. pose proof (pow2_ge_0 c). pose proof (pow2_ge_0 a). assert (0 <= INR n * (e1 * a ^ 2)) by (apply Rmult_le_pos; nra). nra. }
  set (K2 := K1 + e1 * t ^ 2). set (G := Rabs t + K1 + e1 * t ^ 2). assert (K20 : 0 <= K2) by (unfold K2; pose proof (pow2_ge_0 t); nra). pose proof (Rabs_pos t) as Pt.
  assert (Main : forall s, c / 2 ^ s <= 1 -> a / 2 ^ s <= 1 -> Rabs t / 2 ^ s <= 1 -> Rabs (@det R ROps n E - exp t) <= K2 * exp G / 2 ^ s).
  { intros s Hc Ha Ht. pose proof (pow_lt 2 s ltac:(lra)) as P2. set (h := / 2 ^ s) in *. assert (H0 : 0 < h) by (apply Rinv_0_lt_compat; exact P2). assert (H1 : h <= 1). { unfold h. rewrite <- Rinv_1. apply Rinv_le_contravar; [lra|]. apply pow_R1_Rle. lra. }
    unfold Rdiv in Hc, Ha, Ht. fold h in Hc, Ha, Ht. destruct (exp_exists n (fun i j => h * A i j)) as [Eh Hh].
    pose proof (exp_second n A a Eh h NA ltac:(lra) A0 ltac:(lra) Hh) as Sec. fold e1 in Sec.
    assert (Hd : @det R ROps n E = @det R ROps n Eh ^ (2 ^ s)).
    { rewrite <- det_sq. apply (@det_ext R ROps). intros i j Hi Hj. refine (exp_unique n A E _ HE _ i j Hi Hj). refine (is_exp_ext n _ _ _ _ _ _ (sq_exp n _ Eh s Hh)); [intros; cbn beta; unfold h; field; lra|reflexivity]. }
    set (x := @det R ROps n Eh) in *. set (y := exp (h * t)).
    assert (Hy : exp t = y ^ (2 ^ s)). { unfold y. rewrite <- exp_mul_nat. f_equal. rewrite INR_pow2. unfold h. field. lra. }
    (* second order *)
    set (X := fun i j => Eh i j - @delta R ROps i j). assert (HX : forall i j, (i < n)%nat -> (j < n)%nat -> Rabs (X i j) <= h * c).
    { intros i j Hi Hj. unfold X. replace (Eh i j - delta i j) with ((Eh i j - delta i j - h * A i j) + h * A i j) by ring. eapply Rle_trans; [apply Rabs_triang|]. specialize (Sec i j Hi Hj). pose proof (norm_entry n A a i j Hi Hj NA) as NE. rewrite (Rabs_mult h), (Rabs_right h) by lra.
      assert (h * Rabs (A i j) <= h * a) by (apply Rmult_le_compat_l; lra). assert ((h * a) ^ 2 <= h * a) by (assert (0 <= h * a) by nra; assert (h * a <= 1) by lra; nra). unfold c. assert (e1 * (h * a) ^ 2 <= e1 * (h * a)) by (apply Rmult_le_compat_l; lra). lra. }
    assert (Hx : Rabs (x - 1 - h * t) <= K1 * h ^ 2).
    { specialize (HK X (h * c)). assert (HC : 0 <= h * c <= 1) by (split; [nra|lra]). specialize (HK HC HX).
      rewrite (@det_ext R ROps n (fun i j => delta i j + X i j) Eh) in HK by (intros; unfold X; ring). fold x in HK.
      assert (HT : Rabs (tr n X - h * t) <= INR n * (e1 * (h * a) ^ 2)).
      { unfold t, tr. rewrite <- S_mul_l, <- S_sub. apply (tr_bound n (fun i j => X i j - h * A i j)). intros i j Hi Hj. apply Sec; assumption. }
      replace (x - 1 - h * t) with ((x - 1 - tr n X) + (tr n X - h * t)) by ring. eapply Rle_trans; [apply Rabs_triang|]. eapply Rle_trans; [apply Rplus_le_compat; [exact HK|exact HT]|]. right. unfold K1. ring. }
    assert (Hty : Rabs (y - 1 - h * t) <= e1 * t ^ 2 * h ^ 2).
    { unfold y. eapply Rle_trans; [apply exp_small; rewrite Rabs_mult, (Rabs_right h) by lra; lra|]. right. fold e1. ring. }
    assert (Hxy : Rabs (x - y) <= K2 * h ^ 2). { replace (x - y) with ((x - 1 - h * t) - (y - 1 - h * t)) by ring. unfold Rminus at 1. eapply Rle_trans; [apply Rabs_triang|]. rewrite Rabs_Ropp. unfold K2. lra. }
    assert (Hh2 : h ^ 2 <= h) by nra. pose proof (pow2_ge_0 t) as Pt2.
    assert (Bnd : forall z k, 0 <= k -> k <= K1 + e1 * t ^ 2 -> Rabs (z - 1 - h * t) <= k * h ^ 2 -> Rabs z <= exp (h * G)).
    { intros z k k0 kG Hz. eapply Rle_trans; [|apply exp_ineq1_le]. replace z with ((z - 1 - h * t) + (1 + h * t)) by ring. eapply Rle_trans; [apply Rabs_triang|]. assert (Rabs (1 + h * t) <= 1 + h * Rabs t). { eapply Rle_trans; [apply Rabs_triang|]. rewrite Rabs_R1, Rabs_mult, (Rabs_right h) by lra. lra. }
      assert (k * h ^ 2 <= (K1 + e1 * t ^ 2) * h) by (apply Rmult_le_compat; [exact k0|nra|exact kG|exact Hh2]). unfold G. lra. }
    assert (E2 : 0 <= e1 * t ^ 2) by nra.
    pose proof (Bnd x K1 ltac:(lra) ltac:(lra) Hx) as Bx. pose proof (Bnd y (e1 * t ^ 2) E2 ltac:(lra) Hty) as By.
    rewrite Hd, Hy. assert (N0 : (2 ^ s <> 0)%nat) by (apply Nat.pow_nonzero; lia). destruct (2 ^ s)%nat as [|m] eqn:Em; [lia|]. eapply Rle_trans; [apply (pow_diff x y (exp (h * G)) m Bx By)|].
    assert (Hm : INR (S m) = 2 ^ s) by (rewrite <- Em; apply INR_pow2).
    assert (G0 : 0 <= G) by (unfold G; lra).
    assert (Em' : exp (h * G) ^ m <= exp G). { rewrite <- exp_mul_nat. assert (L : INR m * (h * G) <= G). { assert (INR m <= 2 ^ s) by (rewrite <- Hm, S_INR; lra). assert (INR m * h <= 1) by (apply Rle_trans with (2 ^ s * h); [apply Rmult_le_compat_r; lra|right; unfold h; field; lra]). nra. }
      destruct L as [L|L]; [left; apply exp_increasing; exact L|right; rewrite L; reflexivity]. }
    rewrite Hm. assert (Q : 2 ^ s * exp (h * G) ^ m * Rabs (x - y) <= 2 ^ s * exp G * (K2 * h ^ 2)). { apply Rmult_le_compat; [apply Rmult_le_pos; [lra|apply pow_le; left; apply exp_pos]|apply Rabs_pos| |exact Hxy]. apply Rmult_le_compat_l; [lra|exact Em']. }
    eapply Rle_trans; [exact Q|]. right. unfold h. field. lra. }
  (* the bound tends to zero *)
  assert (Arch : forall z, exists s, z <= 2 ^ s).
  { intros z. destruct (Pow_x_infinity 2 ltac:(rewrite Rabs_right; lra) z) as [k Hk]. exists k. specialize (Hk k (le_n k)). rewrite Rabs_right in Hk by (left; apply pow_lt; lra). lra. }
  apply Rminus_diag_uniq, abs_eq_0. apply Rle_antisym; [|apply Rabs_pos]. apply Rnot_lt_le. intros D. set (d := Rabs (@det R ROps n E - exp t)) in *. pose proof (exp_pos G) as PG.
  set (z := c + a + Rabs t + 2 * (K2 * exp G) / d). assert (Z0 : 0 <= K2 * exp G) by nra.
  assert (Q0 : 0 <= 2 * (K2 * exp G) / d) by (unfold Rdiv; apply Rmult_le_pos; [lra|left; apply Rinv_0_lt_compat; exact D]).
  destruct (Arch z) as [s Hs]. pose proof (pow_lt 2 s ltac:(lra)) as P2. unfold z in Hs.
  assert (Div : forall q, q <= 2 ^ s -> q / 2 ^ s <= 1) by (intros q Hq; apply Rmult_le_reg_r with (2 ^ s); [exact P2|]; unfold Rdiv; rewrite Rmult_assoc, Rinv_l by lra; lra).
  specialize (Main s (Div c ltac:(lra)) (Div a ltac:(lra)) (Div (Rabs t) ltac:(lra))). fold d in Main.
  assert (L : 2 * (K2 * exp G) <= d * 2 ^ s). { apply Rle_trans with (2 * (K2 * exp G) / d * d); [right; field; lra|]. rewrite Rmult_comm. apply Rmult_le_compat_l; lra. }
  assert (M : d * 2 ^ s <= K2 * exp G). { apply Rle_trans with (K2 * exp G / 2 ^ s * 2 ^ s); [apply Rmult_le_compat_r; lra|right; field; lra]. }
  assert (0 < d * 2 ^ s) by (apply Rmult_lt_0_compat; assumption). lra.
Qed.
