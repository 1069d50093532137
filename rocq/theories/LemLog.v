(** * The Taylor series and the scaling of the matrix logarithm *)
From Coq Require Import Reals ZArith Arith Bool Lia Lra Setoid Morphisms.
From Verif Require Import Base Alg Inst Mat SpecMat SpecLin LemMat LemOps LemObjects LemHelpers ModelOps ModelObjects ModelHelpers ModelGauss RSum RDeriv LemEig LemEig3 ModelExp SpecExp LemExp LemExp2 RMat LemSqrt PropSqrt.
Open Scope outcome_scope.
Local Open Scope R_scope.

(** ** scalar facts *)
Lemma Rabs_le_inv x a : Rabs x <= a -> - a <= x <= a.
Proof. intros H. pose proof (Rle_abs x). pose proof (Rle_abs (- x)) as H2. rewrite Rabs_Ropp in H2. lra. Qed.
Lemma deriv_nonneg f f' : (forall c, 0 <= c <= 1 -> derivable_pt_lim f c (f' c)) -> (forall c, 0 <= c <= 1 -> 0 <= f' c) -> f 0 <= f 1.
Proof. intros D P. destruct (MVT_cor2 f f' 0 1 ltac:(lra) D) as (c & E & Hc). specialize (P c ltac:(lra)). lra. Qed.
Definition lser (x : R) (N : nat) : R := Sum N (fun i => (-1) ^ i * x ^ S i / (INR i + 1)).
Lemma D_pow k x t : derivable_pt_lim (fun t => (t * x) ^ S k) t ((INR k + 1) * (t * x) ^ k * x).
Proof.
  apply (D_eq _ _ (INR (S k) * (t * x) ^ (pred (S k)) * x)); [|cbn [pred]; rewrite S_INR; ring].
  apply (D_comp (fun t => t * x) (fun y => y ^ S k)); [|apply derivable_pt_lim_pow].
  apply (D_eq _ _ (1 * x + t * 0)); [|ring]. apply (D_mult (fun t => t) (fun _ => x)); [apply D_id|apply D_const].
Qed.
Lemma D_lser N x t : 1 + t * x <> 0 -> derivable_pt_lim (fun t => lser (t * x) N) t (x * (1 - (- (t * x)) ^ N) / (1 + t * x)).
Proof.
  intros H. induction N as [|N I].
  - apply (D_eq _ _ 0); [|cbn [pow]; field; exact H]. apply (D_ext (fun _ => 0)); [apply D_const|reflexivity].
  - apply (D_eq _ _ (x * (1 - (- (t * x)) ^ N) / (1 + t * x) + (-1) ^ N / (INR N + 1) * ((INR N + 1) * (t * x) ^ N * x))).
    + apply (D_ext (fun t => lser (t * x) N + (-1) ^ N / (INR N + 1) * (t * x) ^ S N)).
      * apply D_plus; [exact I|]. apply D_scal. apply D_pow.
      * intros y. unfold lser. rewrite (S_S N). cbn beta. unfold Rdiv. ring.
    + pose proof (pos_INR N). cbn [pow]. replace ((- (t * x)) ^ N) with ((-1) ^ N * (t * x) ^ N) by (rewrite <- Rpow_mult_distr; f_equal; ring).
      generalize ((-1) ^ N) ((t * x) ^ N). intros e w. field. split; [exact H|lra].
Qed.
Lemma pow_le1 x N : 0 <= x <= 1 -> 0 <= x ^ N <= 1.
Proof. intros H. split; [apply pow_le; lra|]. induction N as [|N I]; cbn [pow]; [lra|]. pose proof (pow_le x N ltac:(lra)). nra. Qed.
Lemma ln_series x N : Rabs x <= 1 / 2 -> Rabs (ln (1 + x) - lser x N) <= 2 * (Rabs x ^ S N / (INR N + 1)).
Proof.
  intros Hx. pose proof (Rabs_pos x) as Px. assert (Bx : -(1 / 2) <= x <= 1 / 2) by (apply Rabs_le_inv in Hx; exact Hx).
  pose proof (pos_INR N) as PN. set (a := Rabs x) in *. set (B := fun t => 2 * (a ^ S N / (INR N + 1)) * t ^ S N).
  set (B' := fun t => 2 * a ^ S N * t ^ N).
  assert (DB : forall t, derivable_pt_lim B t (B' t)).
  { intros t. unfold B, B'. apply (D_eq _ _ (2 * (a ^ S N / (INR N + 1)) * (INR (S N) * t ^ pred (S N)))); [|cbn [pred]; rewrite S_INR; field; lra]. apply D_scal. apply derivable_pt_lim_pow. }
  set (G := fun t => ln (1 + t * x) - lser (t * x) N). set (G' := fun t => x * (- (t * x)) ^ N / (1 + t * x)).
  assert (Pos : forall t, 0 <= t <= 1 -> 1 / 2 <= 1 + t * x) by (intros t Ht; nra).
  assert (DG : forall t, 0 <= t <= 1 -> derivable_pt_lim G t (G' t)).
  { intros t Ht. pose proof (Pos t Ht). unfold G, G'. apply (D_eq _ _ (x / (1 + t * x) - x * (1 - (- (t * x)) ^ N) / (1 + t * x))); [|field; lra].
    apply D_minus; [|apply D_lser; lra]. apply (D_ln (fun t => 1 + t * x)); [|lra]. apply (D_eq _ _ (0 + (1 * x + t * 0))); [|ring]. apply D_plus; [apply D_const|]. apply (D_mult (fun t => t) (fun _ => x)); [apply D_id|apply D_const]. }
  assert (BG : forall t, 0 <= t <= 1 -> Rabs (G' t) <= B' t).
  { intros t Ht. pose proof (Pos t Ht) as Q. unfold G', B', Rdiv. rewrite Rabs_mult, Rabs_mult, <- RPow_abs, Rabs_Ropp, Rabs_mult, (Rabs_right t) by lra. rewrite (Rabs_right (/ (1 + t * x))) by (apply Rle_ge; left; apply Rinv_0_lt_compat; lra). fold a.
    assert (Iv : / (1 + t * x) <= 2). { apply Rmult_le_reg_l with (1 + t * x); [lra|]. rewrite Rinv_r by lra. lra. } rewrite Rpow_mult_distr. cbn [pow].
    assert (W : 0 <= a * (t ^ N * a ^ N)) by (repeat apply Rmult_le_pos; try exact Px; apply pow_le; lra). apply Rle_trans with (a * (t ^ N * a ^ N) * 2); [apply Rmult_le_compat_l; assumption|]. right. ring. }
  assert (U1 : (fun t => B t - G t) 0 <= (fun t => B t - G t) 1).
  { apply (deriv_nonneg (fun t => B t - G t) (fun t => B' t - G' t)); [intros c Hc; apply D_minus; [apply DB|apply DG; exact Hc]|]. intros c Hc. specialize (BG c Hc). apply Rabs_le_inv in BG. lra. }
  assert (U2 : (fun t => B t + G t) 0 <= (fun t => B t + G t) 1).
  { apply (deriv_nonneg (fun t => B t + G t) (fun t => B' t + G' t)); [intros c Hc; apply D_plus; [apply DB|apply DG; exact Hc]|]. intros c Hc. specialize (BG c Hc). apply Rabs_le_inv in BG. lra. }
  cbn beta in U1, U2. assert (G0 : G 0 = 0). { unfold G, lser. rewrite Rmult_0_l, Rplus_0_r, ln_1, S_zero; [ring|]. intros i Hi. cbn [pow]. unfold Rdiv. ring. }
  assert (B0 : B 0 = 0) by (unfold B; cbn [pow]; ring). assert (B1 : B 1 = 2 * (a ^ S N / (INR N + 1))) by (unfold B; rewrite pow1; ring). assert (G1 : G 1 = ln (1 + x) - lser x N) by (unfold G; rewrite !Rmult_1_l; reflexivity).
  rewrite G0, B0, B1, G1 in *. apply Rabs_le. split; lra.
Qed.
(** ** the Taylor loop *)
Definition lterm (n : nat) (X : rmat) (k : nat) : rmat := fun i j => (-1) ^ k * mpow n X (S k) i j.
Definition lpart (n : nat) (X : rmat) (N : nat) : rmat := fun i j => Sum N (fun k => lterm n X k i j / (INR k + 1)).
Lemma lterm_S n X k : meq n (mm n (mscal (-1) (lterm n X k)) X) (lterm n X (S k)).
Proof.
  intros i j Hi Hj. assert (E : mm n (mpow n X (S k)) X i j = mpow n X (S (S k)) i j).
  { replace (S (S k)) with (S k + 1)%nat by lia. rewrite mpow_add by exact Hi. apply mm_ext; [reflexivity|]. intros l Hl. cbn [mpow]. rewrite mm_delta_r by exact Hj. reflexivity. }
  unfold lterm. cbn [pow]. rewrite <- E. unfold mm. rewrite <- S_mul_l. apply S_ext. intros l Hl. unfold mscal, lterm. ring.
Qed.
Section L.
Variable added : R -> R -> R.
Definition lstop (n : nat) (X : rmat) (K : nat) : Prop := forall i j, (i < n)%nat -> (j < n)%nat -> added (lpart n X K i j) (lterm n X K i j / (INR K + 1)) = 0.
Lemma log_step n x fuel (X F S : mat R) K : mat_is X n n x -> mat_is F n n (lterm n x K) -> mat_is S n n (lpart n x K) ->
  (lstop n x K /\ log_loop added (Datatypes.S fuel) X F S (INR K + 1) = Ok S) \/
  (~ lstop n x K /\ exists F' S', mat_is F' n n (lterm n x (Datatypes.S K)) /\ mat_is S' n n (lpart n x (Datatypes.S K)) /\
    log_loop added (Datatypes.S fuel) X F S (INR K + 1) = log_loop added fuel X F' S' (INR (Datatypes.S K) + 1)).
Proof.
  intros HX HF HS. cbn [log_loop]. pose proof (pos_INR K). destruct (divs_is n F _ (INR K + 1) ltac:(lra) HF) as (t & E1 & Ht). rewrite E1. cbn [bind].
  destruct (grow_is added n S t _ _ HS Ht) as (d & -> & Hd). cbn [bind]. destruct (norm_test n d _ Hd) as (nd & -> & T). cbn [bind]. destruct (R_ltb 0 nd) eqn:Q.
  - right. split; [intros C; apply T in C; congruence|]. destruct (add_assign_is n S t _ _ HS Ht) as (S' & -> & HS'). cbn [bind]. destruct (neg_is n F _ HF) as (g & -> & Hg). cbn [bind].
    destruct (mul_is n g X _ _ Hg HX) as (F' & -> & HF'). cbn [bind]. exists F', S'. split; [|split; [exact HS'|rewrite S_INR; reflexivity]].
    apply (is_ext n F' _ _ HF'). intros i j Hi Hj. rewrite <- (lterm_S n x K i j Hi Hj). apply mm_ext; [|reflexivity]. intros l Hl. unfold mscal. ring.
  - left. split; [exact (proj1 T eq_refl)|reflexivity].
Qed.
Lemma log_loop_ok n x (X : mat R) : mat_is X n n x -> forall fuel K (F S L : mat R), mat_is F n n (lterm n x K) -> mat_is S n n (lpart n x K) -> log_loop added fuel X F S (INR K + 1) = Ok L ->
  exists N, mat_is L n n (lpart n x N) /\ lstop n x N.
Proof.
  intros HX. induction fuel as [|fuel I]; intros K F S L HF HS E; [discriminate|]. destruct (log_step n x fuel X F S K HX HF HS) as [(St & R')|(_ & F' & S' & HF' & HS' & R')]; rewrite R' in E.
  - injection E as <-. exists K. split; assumption.
  - exact (I (Datatypes.S K) F' S' L HF' HS' E).
Qed.
Lemma log_loop_ends n x (X : mat R) N : mat_is X n n x -> lstop n x N -> forall fuel K (F S : mat R), (K <= N)%nat -> (N < K + fuel)%nat -> mat_is F n n (lterm n x K) -> mat_is S n n (lpart n x K) ->
  exists L, log_loop added fuel X F S (INR K + 1) = Ok L.
Proof.
  intros HX St. induction fuel as [|fuel I]; intros K F S H1 H2 HF HS; [lia|]. destruct (log_step n x fuel X F S K HX HF HS) as [(_ & R')|(C & F' & S' & HF' & HS' & R')]; [exists S; exact R'|]. rewrite R'.
  assert (K <> N) by (intros ->; contradiction). apply (I (Datatypes.S K)); try assumption; lia.
Qed.
Lemma log_loop_mono (X : mat R) : forall fuel K (F S L : mat R), log_loop added fuel X F S K = Ok L -> forall fuel', (fuel <= fuel')%nat -> log_loop added fuel' X F S K = Ok L.
Proof.
  induction fuel as [|fuel I]; intros K F S L E fuel' H; [discriminate|]. destruct fuel' as [|fuel']; [lia|]. cbn [log_loop] in *.
  destruct (mdivs F K) as [t| | | | |]; cbn [bind] in *; try discriminate. destruct (grow added S t) as [d| | | | |]; cbn [bind] in *; try discriminate. destruct (norminf_mat d) as [nd| | | | |]; cbn [bind] in *; try discriminate. destruct (R_ltb 0 nd); [|exact E].
  destruct (madd_assign S t) as [S'| | | | |]; cbn [bind] in *; try discriminate. destruct (mneg F) as [g| | | | |]; cbn [bind] in *; try discriminate. destruct (mmul g X) as [F'| | | | |]; cbn [bind] in *; try discriminate. apply (I (K + 1) F' S'); [exact E|lia].
Qed.
Lemma minus_id_is n (m : mat R) a : mat_is m n n a -> gives_mat (mat_minus_identity m (hscale HOne 1)) n n (fun i j => a i j - delta i j).
Proof.
  intros (M1 & M2 & M3). unfold hscale. cbn [mat_minus_identity held_val]. rewrite same_size_eq by congruence. cbn [bind].
  destruct (@add_identity_ok R ROps (fopp (fmul f1 1)) m false ltac:(congruence)) as (w & E & W1 & W2 & W3). exists w. split; [exact E|]. split; [congruence|]. split; [congruence|]. intros i j Hi Hj. rewrite W3 by congruence. cbn zeta. rewrite M3 by assumption. unfold delta. destruct (i =? j)%nat; cbn [f0 f1 fopp fmul fadd ROps]; ring.
Qed.
Lemma log_taylor_start n (m : mat R) a x : mat_is m n n a -> meq n (fun i j => a i j - delta i j) x -> exists X F S, mat_is X n n x /\ mat_is F n n (lterm n x 0) /\ mat_is S n n (lpart n x 0) /\
  forall fuel, log_taylor added fuel m = log_loop added fuel X F S (INR 0 + 1).
Proof.
  intros Hm Hx. pose proof Hm as (M1 & M2 & M3). destruct (minus_id_is n m a Hm) as (X & E & HX0). pose proof (is_ext n X _ _ HX0 Hx) as HX. destruct (zeros_ok n) as (S & E2 & HS). exists X, X, S. split; [exact HX|]. split; [|split; [exact HS|]].
  - apply (is_ext n X _ _ HX). intros i j Hi Hj. unfold lterm. cbn [mpow pow]. rewrite mm_delta_r by exact Hj. ring.
  - intros fuel. unfold log_taylor. rewrite same_size_eq by congruence. cbn [bind]. rewrite E. cbn [bind]. rewrite M1, M2, E2. cbn [bind INR]. rewrite Rplus_0_l. reflexivity.
Qed.
End L.
Lemma geom_half N : Sum N (fun k => (1 / 2) ^ S k) <= 1.
Proof. assert (E : Sum N (fun k => (1 / 2) ^ S k) = 1 - (1 / 2) ^ N). { induction N as [|N I]; [cbn [sum pow]; cbn [f0 ROps]; ring|]. rewrite S_S, I. cbn [pow]. field. } rewrite E. pose proof (pow_lt (1 / 2) N ltac:(lra)). lra. Qed.
Lemma lterm_norm n X k : norm_le n X (1 / 2) -> norm_le n (fun i j => lterm n X k i j / (INR k + 1)) ((1 / 2) ^ S k).
Proof.
  intros HX. pose proof (pos_INR k) as Pk. pose proof (norm_mpow n X (1 / 2) (S k) ltac:(lra) HX) as NP. apply (norm_ext n (fun i j => ((-1) ^ k / (INR k + 1)) * mpow n X (S k) i j)).
  - intros i j _ _. unfold lterm. field. lra.
  - eapply norm_mono; [|apply norm_scale; exact NP]. pose proof (pow_le (1 / 2) (S k) ltac:(lra)) as PP. unfold Rdiv. rewrite Rabs_mult, <- RPow_abs. replace (Rabs (-1)) with 1 by (rewrite Rabs_left; lra). rewrite pow1, Rmult_1_l. rewrite Rabs_right by (apply Rle_ge; left; apply Rinv_0_lt_compat; lra).
    assert (Iv : / (INR k + 1) <= 1). { apply Rmult_le_reg_l with (INR k + 1); [lra|]. rewrite Rinv_r by lra. lra. } unfold Rdiv in PP. nra.
Qed.
Lemma lpart_norm n X N : norm_le n X (1 / 2) -> norm_le n (lpart n X N) 1.
Proof.
  intros HX. eapply norm_mono; [apply (geom_half N)|]. apply (norm_sum n N (fun k i j => lterm n X k i j / (INR k + 1)) (fun k => (1 / 2) ^ S k)). intros k Hk. apply lterm_norm. exact HX.
Qed.
(** the series of a matrix with a full set of eigenvectors *)
Lemma lterm_eig n P Q x k : inverse_pair n P Q -> meq n (lterm n (eigmat n P x Q) k) (eigmat n P (fun l => (-1) ^ k * x l ^ S k) Q).
Proof. intros PQ. change (meq n (mscal ((-1) ^ k) (mpow n (eigmat n P x Q) (S k))) (eigmat n P (fun l => (-1) ^ k * x l ^ S k) Q)). rewrite (conj_pow n P Q PQ), (conj_scal n P Q). reflexivity. Qed.
Lemma lpart_eig n P Q x N : inverse_pair n P Q -> meq n (lpart n (eigmat n P x Q) N) (eigmat n P (fun l => lser (x l) N) Q).
Proof.
  intros PQ i j Hi Hj. unfold lpart, lser. transitivity (Sum N (fun k => Sum n (fun l => P i l * ((-1) ^ k * x l ^ S k / (INR k + 1)) * Q l j))).
  - apply S_ext. intros k Hk. rewrite (lterm_eig n P Q x k PQ i j Hi Hj). unfold eigmat, Rdiv. rewrite <- S_mul_r. apply S_ext; intros; ring.
  - rewrite S_swap. apply S_ext. intros l Hl. rewrite <- S_mul_l, <- S_mul_r. reflexivity.
Qed.
