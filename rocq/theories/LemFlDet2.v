(** * determinant.h with rounding: backward error and growth; the effect of a perturbation on a determinant. *)
From Coq Require Import Reals Lra Lia Arith Bool.
From Verif Require Import Base Alg Inst Mat SpecMat LemMat SpecLin LemLin LemDet LemDetMul LemDetMore LemLU RSum ModelFl SpecFl LemFl LemFlChol LemFlChol2 LemFlChol3 SpecFlGauss LemFlGauss LemFlGauss2 LemFlDet.
Local Open Scope R_scope.

Definition ulo (l : nat -> nat -> R) (r k : nat) : R := if (k <? r)%nat then l r k else if (r =? k)%nat then 1 else 0.
Definition upd (A : mat R) (k j : nat) : R := if (k <=? j)%nat then mel A k j else 0.

Section E.
Variables (u : R) (rnd : R -> R).
Hypothesis RN : rounding u rnd.
Let U := u_rng u rnd RN.

Definition dlu_eqs (n : nat) (a : nat -> nat -> R) (m : nat) (A : mat R) (s : nat -> nat) (l : nat -> nat -> R) : Prop :=
  (forall r j, (j < m)%nat -> (r <= j)%nat -> mel A r j = subs rnd (a (s r) j) (l r) (fun k => mel A k j) r) /\
  (forall r j, (j < m)%nat -> (j < r < n)%nat -> exists g, fac u 2 g /\ subs rnd (a (s r) j) (l r) (fun k => mel A k j) j = mel A j j * l r j * g) /\
  (forall r k, (k < m)%nat -> (k < r < n)%nat -> Rabs (l r k) <= (1 + u) ^ 2).
Lemma dinv_lu n a A d s t l e : det_inv u rnd n a n A d s t l e -> dlu_eqs n a n A s l.
Proof.
  intros (_ & _ & _ & _ & IN & IM & IL & IU & _). split; [|split; [|intros r k Hk Hr; eapply Rle_trans; [apply IM; assumption|cbn [pow]; nra]]].
  - intros r j Hj Hr. apply IU; lia.
  - intros r j Hj Hr. rewrite (IL r j) by lia. apply (div_term u rnd RN). apply IN. exact Hj.
Qed.
Lemma dstop_lu n a i A d s t l e : (i < n)%nat -> det_inv u rnd n a i A d s t l e -> (forall r, (i <= r < n)%nat -> mel A r i = 0) ->
  dlu_eqs n a (S i) A s (fun r k => if (k =? i)%nat then 0 else l r k).
Proof.
  intros Hi (_ & _ & _ & _ & IN & IM & IL & IU & IA & _) Z. set (l' := fun r k => if (k =? i)%nat then 0 else l r k).
  assert (SB : forall v r y k, (k <= i)%nat -> subs rnd v (l' r) y k = subs rnd v (l r) y k).
  { intros v r y k Hk. apply subs_ext; [reflexivity| |reflexivity]. intros m Hm. unfold l'. destruct (Nat.eqb_spec m i); [lia|reflexivity]. }
  split; [|split].
  - intros r j Hj Hr. rewrite SB by lia. destruct (Nat.eq_dec r i) as [->|]; [apply IA; lia|apply IU; lia].
  - intros r j Hj Hr. rewrite SB by lia. unfold l'. destruct (Nat.eqb_spec j i) as [->|].
    + exists 1. split; [apply (fac_le u 0); [exact U|lia|apply fac_1; exact U]|]. rewrite <- IA by lia. rewrite Z by lia. ring.
    + rewrite (IL r j) by lia. apply (div_term u rnd RN). apply IN. lia.
  - intros r k Hk Hr. unfold l'. destruct (Nat.eqb_spec k i); [rewrite Rabs_R0; apply pow_le; lra|]. eapply Rle_trans; [apply IM; lia|cbn [pow]; nra].
Qed.
Lemma dlu_terms n a m A s l r j : dlu_eqs n a m A s l -> (j < m)%nat -> (m <= n)%nat -> (r < n)%nat ->
  exists g, (forall k, fac u n (g k)) /\ a (s r) j = Sum n (fun k => ulo l r k * upd A k j * g k).
Proof.
  intros (E1 & E2 & _) Hj Hm Hr. assert (F1 : forall k, fac u k 1) by (intros k; apply (fac_le u 0); [exact U|lia|apply fac_1; exact U]).
  destruct (le_lt_dec r j) as [Hjr|Hjr].
  - destruct (subs_back u rnd RN (a (s r) j) (l r) (fun k => mel A k j) r) as (g & Hg & G). rewrite <- E1 in G by lia.
    exists (fun k => if (k <=? r)%nat then g k else 1). split.
    + intros k. destruct (Nat.leb_spec k r); [apply (fac_le u r); [exact U|lia|apply Hg; assumption]|apply F1].
    + rewrite (S_cut n r); [|lia|].
      * rewrite Nat.leb_refl. unfold ulo at 2, upd at 2. rewrite Nat.ltb_irrefl, Nat.eqb_refl. destruct (Nat.leb_spec r j); [|lia].
        rewrite G, Rplus_comm. f_equal; [|ring]. apply S_ext. intros k Hk. unfold ulo, upd. destruct (Nat.ltb_spec k r), (Nat.leb_spec k j), (Nat.leb_spec k r); try lia. reflexivity.
      * intros k Hk. unfold ulo. destruct (Nat.ltb_spec k r), (Nat.eqb_spec r k); try lia. ring.
  - destruct (E2 r j Hj ltac:(lia)) as (h & Fh & Eh). destruct (subs_back u rnd RN (a (s r) j) (l r) (fun k => mel A k j) j) as (g & Hg & G). rewrite Eh in G.
    exists (fun k => if (k <? j)%nat then g k else if (k =? j)%nat then g k * h else 1). split.
    + intros k. destruct (Nat.ltb_spec k j); [apply (fac_le u j); [exact U|lia|apply Hg; lia]|]. destruct (Nat.eqb_spec k j); [|apply F1].
      apply (fac_le u (j + 2)); [exact U|lia|]. apply fac_mul; [exact U|apply Hg; lia|exact Fh].
    + rewrite (S_cut n j); [|lia|].
      * rewrite Nat.ltb_irrefl, Nat.eqb_refl. unfold ulo at 2, upd at 2. rewrite Nat.leb_refl. destruct (Nat.ltb_spec j r); [|lia].
        rewrite G, Rplus_comm. f_equal; [|ring]. apply S_ext. intros k Hk. unfold ulo, upd. destruct (Nat.ltb_spec k r), (Nat.leb_spec k j), (Nat.ltb_spec k j); try lia. reflexivity.
      * intros k Hk. unfold upd. destruct (Nat.leb_spec k j); [lia|]. ring.
Qed.
Local Notation rho := (rho u).
Lemma dsubs_growth n a m A s l M : dlu_eqs n a m A s l -> (forall r, (r < n)%nat -> (s r < n)%nat) -> (forall i j, (i < n)%nat -> (j < n)%nat -> Rabs (a i j) <= M) -> (m <= n)%nat ->
  forall k r j, (k <= r < n)%nat -> (k <= j < m)%nat -> Rabs (subs rnd (a (s r) j) (l r) (fun i => mel A i j) k) <= M * rho ^ k.
Proof.
  intros (E1 & E2 & E3) Hs HM Hm. induction k as [|k IH]; intros r j Hr Hj.
  - cbn [subs pow]. rewrite Rmult_1_r. apply HM; [apply Hs; lia|lia].
  - cbn [subs]. set (x := subs rnd (a (s r) j) (l r) (fun i => mel A i j) k). assert (X : Rabs x <= M * rho ^ k) by (apply IH; lia).
    set (Q := M * rho ^ k) in *. assert (Q0 : 0 <= Q) by (pose proof (Rabs_pos x); lra).
    assert (T : Rabs (l r k * mel A k j) <= (1 + u) ^ 2 * Q). { rewrite Rabs_mult. rewrite (E1 k j) by lia. apply Rmult_le_compat; try apply Rabs_pos; [apply E3; lia|apply IH; lia]. }
    pose proof (rnd_abs u rnd RN (x - rnd (l r k * mel A k j))) as B1. pose proof (rnd_abs u rnd RN (l r k * mel A k j)) as B2. pose proof (Rabs_triang x (- rnd (l r k * mel A k j))) as B3. rewrite Rabs_Ropp in B3. fold (x - rnd (l r k * mel A k j)) in B3.
    replace (M * rho ^ S k) with (Q * rho) by (unfold Q; cbn [pow]; ring). unfold LemFlGauss2.rho.
    assert (B2' : Rabs (rnd (l r k * mel A k j)) <= (1 + u) ^ 3 * Q). { eapply Rle_trans; [exact B2|]. replace ((1 + u) ^ 3 * Q) with ((1 + u) * ((1 + u) ^ 2 * Q)) by ring. apply Rmult_le_compat_l; lra. }
    eapply Rle_trans; [exact B1|]. pose proof (pow_1pu u 3 ltac:(lra)) as P3. apply (Rle_trans _ ((1 + u) * (Q + (1 + u) ^ 3 * Q))); [apply Rmult_le_compat_l; lra|].
    replace (Q * (2 * (1 + u) ^ 4)) with ((1 + u) * ((1 + u) ^ 3 * Q + (1 + u) ^ 3 * Q)) by ring. apply Rmult_le_compat_l; [lra|]. assert (1 * Q <= (1 + u) ^ 3 * Q) by (apply Rmult_le_compat_r; lra).
    lra.
Qed.
Lemma dlu_total n a m A s l M r j : dlu_eqs n a m A s l -> (forall r, (r < n)%nat -> (s r < n)%nat) -> (forall i j, (i < n)%nat -> (j < n)%nat -> Rabs (a i j) <= M) -> (m <= n)%nat ->
  (r < n)%nat -> (j < m)%nat -> abs_lu n (ulo l) (upd A) r j <= growth u n * M.
Proof.
  intros E Hs HM Hm Hr Hj. assert (M0 : 0 <= M) by (eapply Rle_trans; [apply Rabs_pos|apply (HM r j); lia]).
  pose proof (dsubs_growth n a m A s l M E Hs HM Hm) as G. destruct E as (E1 & E2 & E3).
  unfold abs_lu. apply (Rle_trans _ (Sum n (fun k => (1 + u) ^ 2 * M * rho ^ k))).
  - apply S_mono. intros k Hk. assert (B : 0 <= M * rho ^ k) by (apply Rmult_le_pos; [exact M0|left; apply (rho_pow_pos u rnd RN)]). pose proof (pow_1pu u 2 ltac:(lra)) as P2.
    assert (B2 : 0 <= (1 + u) ^ 2 * M * rho ^ k) by (rewrite Rmult_assoc; apply Rmult_le_pos; lra). rewrite Rabs_mult. unfold upd. destruct (Nat.leb_spec k j); [|rewrite Rabs_R0, Rmult_0_r; exact B2].
    unfold ulo. destruct (Nat.ltb_spec k r).
    + rewrite (E1 k j) by lia. rewrite Rmult_assoc. apply Rmult_le_compat; try apply Rabs_pos; [|apply G; lia]. apply E3; lia.
    + destruct (Nat.eqb_spec r k) as [->|]; [|rewrite Rabs_R0, Rmult_0_l; exact B2]. rewrite Rabs_R1, Rmult_1_l. rewrite (E1 k j) by lia. eapply Rle_trans; [apply G; lia|]. rewrite Rmult_assoc.
      rewrite <- (Rmult_1_l (M * rho ^ k)) at 1. apply Rmult_le_compat_r; assumption.
  - rewrite S_mul_l. unfold growth. fold rho. pose proof (rho_sum u rnd RN n). assert (0 <= (1 + u) ^ 2 * M) by (apply Rmult_le_pos; [apply pow_le; lra|exact M0]).
    replace ((1 + u) ^ 2 * rho ^ n * M) with ((1 + u) ^ 2 * M * rho ^ n) by ring. apply Rmult_le_compat_l; assumption.
Qed.
(** the product of the factors differs from the (permuted) matrix by the rounding errors *)
Lemma dlu_err n a m A s l M r j : dlu_eqs n a m A s l -> (forall r, (r < n)%nat -> (s r < n)%nat) -> (forall i j, (i < n)%nat -> (j < n)%nat -> Rabs (a i j) <= M) -> (m <= n)%nat ->
  (r < n)%nat -> (j < m)%nat -> Rabs (Sum n (fun k => ulo l r k * upd A k j) - a (s r) j) <= bwd u n * (growth u n * M).
Proof.
  intros E Hs HM Hm Hr Hj. destruct (dlu_terms n a m A s l r j E Hj Hm Hr) as (h & Hh & G). rewrite G, Rabs_minus_sym.
  rewrite (S_ext n (fun k => ulo l r k * upd A k j) (fun k => ulo l r k * upd A k j * 1)) by (intros; ring).
  assert (B0 : bwd u 0 = 0) by (unfold bwd; cbn [pow]; field). rewrite <- (Rplus_0_r (bwd u n)), <- B0.
  eapply Rle_trans; [apply (fac_sum_err u rnd RN n (fun k => ulo l r k * upd A k j) h (fun _ => 1) n 0); intros k Hk; [apply Hh|apply fac_1; exact U]|].
  rewrite B0, Rplus_0_r. apply Rmult_le_compat_l; [apply bwd_nonneg; exact U|]. apply (dlu_total n a m A s l M); assumption.
Qed.
End E.

(** ** Determinants of triangular products *)
Lemma det_unit_lower n (l : nat -> nat -> R) : @det R ROps n (ulo l) = 1.
Proof.
  rewrite <- (@det_tr R ROps RLaws). rewrite (@det_upper R ROps RLaws).
  - apply (@prod_one R ROps RLaws). intros i Hi. unfold ulo. rewrite Nat.ltb_irrefl, Nat.eqb_refl. reflexivity.
  - intros r c Hc Hr. unfold ulo. destruct (Nat.ltb_spec r c), (Nat.eqb_spec c r); try lia. reflexivity.
Qed.
Lemma det_lu n (l : nat -> nat -> R) A : @det R ROps n (fun r j => Sum n (fun k => ulo l r k * upd A k j)) = @prod_ R ROps n (fun k => mel A k k).
Proof.
  refine (eq_trans (@det_mul R ROps RLaws n (ulo l) (upd A)) _). rewrite det_unit_lower. rewrite (@det_upper R ROps RLaws n (upd A)).
  - rewrite (@prod_ext R ROps n (fun i => upd A i i) (fun k => mel A k k)); [cbn [fmul ROps]; ring|]. intros i Hi. unfold upd. rewrite Nat.leb_refl. reflexivity.
  - intros r c Hc Hr. unfold upd. destruct (Nat.leb_spec r c); [lia|reflexivity].
Qed.

(** ** The size of a determinant and of its change *)
Lemma sgn_abs i : Rabs (@sgn R ROps i) = 1.
Proof. unfold sgn. destruct (Nat.even i); cbn [f1 fopp ROps]; [apply Rabs_R1|rewrite Rabs_Ropp; apply Rabs_R1]. Qed.
Lemma det_S_R n (a : nat -> nat -> R) : @det R ROps (S n) a = Sum (S n) (fun i => @sgn R ROps i * a i 0%nat * @det R ROps n (fun r c => a (skip i r) (S c))).
Proof. reflexivity. Qed.
Lemma S_cst' n (c : R) : Sum n (fun _ => c) = INR n * c.
Proof. induction n as [|n IH]; [cbn; ring|]. change (Sum (S n) ?f) with (Sum n f + f n). rewrite IH, S_INR. ring. Qed.
Lemma skip_lt' i r n : (r < n)%nat -> (skip i r < S n)%nat.
Proof. intros H. unfold skip. destruct (r <? i)%nat; lia. Qed.
Lemma det_bound n : forall (a : nat -> nat -> R) M, (forall i j, (i < n)%nat -> (j < n)%nat -> Rabs (a i j) <= M) -> 0 <= M -> Rabs (@det R ROps n a) <= INR (fact n) * M ^ n.
Proof.
  induction n as [|n IH]; intros a M HM M0; [cbn; rewrite Rabs_R1; lra|]. rewrite det_S_R. eapply Rle_trans; [apply S_abs_le|].
  apply (Rle_trans _ (Sum (S n) (fun _ => M * (INR (fact n) * M ^ n)))).
  - apply S_mono. intros i Hi. rewrite !Rabs_mult, sgn_abs, Rmult_1_l. apply Rmult_le_compat; try apply Rabs_pos; [apply HM; lia|]. apply IH; [|exact M0]. intros r c Hr Hc. apply HM; [apply skip_lt'; exact Hr|lia].
  - right. rewrite S_cst'. change (fact (S n)) with (S n * fact n)%nat. rewrite mult_INR. cbn [pow]. ring.
Qed.
Lemma det_change n : forall (a e : nat -> nat -> R) M eps, (forall i j, (i < n)%nat -> (j < n)%nat -> Rabs (a i j) <= M) -> (forall i j, (i < n)%nat -> (j < n)%nat -> Rabs (e i j) <= eps) -> 0 <= M -> 0 <= eps ->
  Rabs (@det R ROps n (fun i j => a i j + e i j) - @det R ROps n a) <= INR (fact n) * ((M + eps) ^ n - M ^ n).
Proof.
  induction n as [|n IH]; intros a e M eps HM HE M0 E0; [cbn; unfold Rminus; rewrite !Rplus_opp_r, Rabs_R0; lra|]. rewrite !det_S_R, <- S_sub. eapply Rle_trans; [apply S_abs_le|].
  apply (Rle_trans _ (Sum (S n) (fun _ => M * (INR (fact n) * ((M + eps) ^ n - M ^ n)) + eps * (INR (fact n) * (M + eps) ^ n)))).
  - apply S_mono. intros i Hi. set (d1 := @det R ROps n (fun r c => a (skip i r) (S c) + e (skip i r) (S c))). set (d0 := @det R ROps n (fun r c => a (skip i r) (S c))).
    replace (@sgn R ROps i * (a i 0%nat + e i 0%nat) * d1 - @sgn R ROps i * a i 0%nat * d0) with (@sgn R ROps i * (a i 0%nat * (d1 - d0) + e i 0%nat * d1)) by ring.
    rewrite Rabs_mult, sgn_abs, Rmult_1_l. eapply Rle_trans; [apply Rabs_triang|]. rewrite !Rabs_mult. apply Rplus_le_compat.
    + apply Rmult_le_compat; try apply Rabs_pos; [apply HM; lia|]. apply (IH (fun r c => a (skip i r) (S c)) (fun r c => e (skip i r) (S c))); [| |exact M0|exact E0]; intros r c Hr Hc; [apply HM|apply HE]; try lia; apply skip_lt'; exact Hr.
    + apply Rmult_le_compat; try apply Rabs_pos; [apply HE; lia|]. apply det_bound; [|lra]. intros r c Hr Hc. eapply Rle_trans; [apply Rabs_triang|]. apply Rplus_le_compat; [apply HM|apply HE]; try lia; apply skip_lt'; exact Hr.
  - right. rewrite S_cst'. change (fact (S n)) with (S n * fact n)%nat. rewrite mult_INR. cbn [pow]. ring.
Qed.
(** a determinant along a straight line is continuous *)
Lemma det_continuous n : forall (a e : nat -> nat -> R), continuity (fun x => @det R ROps n (fun i j => a i j + x * e i j)).
Proof.
  induction n as [|n IH]; intros a e; [apply continuity_const; intros x y; reflexivity|].
  assert (G : forall m, continuity (fun x => Sum m (fun i => @sgn R ROps i * (a i 0%nat + x * e i 0%nat) * @det R ROps n (fun r c => a (skip i r) (S c) + x * e (skip i r) (S c))))).
  { induction m as [|m IHm]; [apply continuity_const; intros x y; reflexivity|].
    apply (continuity_plus (fun x => Sum m (fun i => @sgn R ROps i * (a i 0%nat + x * e i 0%nat) * @det R ROps n (fun r c => a (skip i r) (S c) + x * e (skip i r) (S c)))) (fun x => @sgn R ROps m * (a m 0%nat + x * e m 0%nat) * @det R ROps n (fun r c => a (skip m r) (S c) + x * e (skip m r) (S c)))); [exact IHm|].
    apply (continuity_mult (fun x => @sgn R ROps m * (a m 0%nat + x * e m 0%nat)) (fun x => @det R ROps n (fun r c => a (skip m r) (S c) + x * e (skip m r) (S c)))); [|apply (IH (fun r c => a (skip m r) (S c)) (fun r c => e (skip m r) (S c)))].
    apply derivable_continuous. reg. }
  exact (G (S n)).
Qed.
Lemma same_sign n (a e : nat -> nat -> R) : (forall x, 0 <= x <= 1 -> @det R ROps n (fun i j => a i j + x * e i j) <> 0) ->
  0 < @det R ROps n a * @det R ROps n (fun i j => a i j + e i j).
Proof.
  intros H. set (f := fun x => @det R ROps n (fun i j => a i j + x * e i j)). assert (C : continuity f) by apply det_continuous.
  assert (F0 : f 0 = @det R ROps n a) by (unfold f; apply (@det_ext R ROps); intros; ring).
  assert (F1 : f 1 = @det R ROps n (fun i j => a i j + e i j)) by (unfold f; apply (@det_ext R ROps); intros; ring).
  rewrite <- F0, <- F1. pose proof (H 0 ltac:(lra)) as N0. pose proof (H 1 ltac:(lra)) as N1. fold (f 0) in N0. fold (f 1) in N1.
  destruct (Rlt_le_dec 0 (f 0 * f 1)) as [|L]; [assumption|exfalso].
  destruct (IVT_cor f 0 1 C ltac:(lra) L) as (z & Hz & Ez). exact (H z Hz Ez).
Qed.
