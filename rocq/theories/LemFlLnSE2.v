(** * How the linear part of the logarithm of a rigid motion depends on the rotation and on the translation. *)
From Coq Require Import Reals Lra Lia Psatz Bool.
From Verif Require Import Base Alg Inst ModelLie SpecLie LemLie LemSO3 LemSO3c ModelSE SpecSE LemSE LemSE3 SpecFlSO3 LemFro LemFlSO3 LemFlSO3b LemFlSO3d SpecFlSE3 LemFlSE3 LemFlLn LemFlLn2 LemFlLnSE RDeriv.
Local Open Scope R_scope.

Lemma vback_inverts a t S0 v : dot3 a a = 1 -> 0 < t -> S0 * (t / 2) = sin (t / 2) -> S0 <> 0 -> vback a (t / 2) S0 (swept a t (scale3 (1 / t) v)) = v.
Proof.
  intros A T E N. rewrite vback_comb by exact N. rewrite <- Etr_swept. unfold Etr. rewrite comb_scale_arg, comb_comb by assumption. rewrite <- (comb_id a v) at 2.
  set (h := t / 2) in *. assert (Et : t = 2 * h) by (unfold h; field). rewrite Et, sin_2a, cos_2a_sin. pose proof (sin2_cos2 h) as P. unfold Rsqr in P.
  f_equal.
  - replace (_ - _) with (2 * sin h * (sin h * sin h + cos h * cos h) / (2 * h * S0)) by (field; lra). rewrite P, <- E. field. lra.
  - field. lra.
  - field. lra.
Qed.
Lemma vback_0 a S0 p : S0 = 1 -> vback a 0 S0 p = p.
Proof. intros ->. unfold vback, rotate. rewrite Ropp_0, cos_0, sin_0. dv. lie_unfold. f_equal; field. Qed.
Lemma vback_carried a t S0 v p : dot3 a a = 1 -> 0 <= t -> S0 * (t / 2) = sin (t / 2) -> 48 / 100 <= S0 -> (t = 0 -> S0 = 1) -> carried (scale3 t a) v p <-> v = vback a (t / 2) S0 p.
Proof.
  intros A T E N Z. destruct (Req_dec t 0) as [->|T0].
  - assert (W : scale3 0 a = zero3) by (unfold scale3, zero3; f_equal; ring). rewrite W. replace (0 / 2) with 0 by field. rewrite (vback_0 a S0 p (Z eq_refl)). unfold carried. split; [intros [H _]; symmetry; apply H; reflexivity|intros ->; split; [reflexivity|intros Q; destruct (Q eq_refl)]].
  - assert (L : len3 (scale3 t a) = t) by (rewrite len3_sc, (unit_len a A), Rabs_right by lra; ring). assert (W : scale3 t a <> zero3) by (intros Q; rewrite Q, len3_0 in L; lra).
    assert (Di : direction (scale3 t a) = a) by (unfold direction; rewrite L, scale3_comm; replace (1 / t * t) with 1 by (field; lra); apply scale3_1). unfold carried. rewrite L, Di. split.
    + intros [_ H]. rewrite (H W). symmetry. apply vback_inverts; lra.
    + intros ->. split; [intros Q; destruct (W Q)|]. intros _. symmetry. apply vback_reaches; lra.
Qed.
Lemma sinc_lip h h' S0 S1 : 0 <= h <= 7 / 4 -> 0 <= h' <= 7 / 4 -> S0 * h = sin h -> S1 * h' = sin h' -> (h = 0 -> S0 = 1) -> (h' = 0 -> S1 = 1) -> Rabs (S0 - S1) <= Rabs (h - h').
Proof.
  assert (K : forall h h' S0 S1, 0 <= h <= 7 / 4 -> 0 <= h' <= 7 / 4 -> S0 * h = sin h -> S1 * h' = sin h' -> (h = 0 -> S0 = 1) -> (h' = 0 -> S1 = 1) -> h < h' -> Rabs (S1 - S0) <= Rabs (h' - h)).
  { clear. intros h h' S0 S1 H H' E E' Z Z' L. rewrite (Rabs_right (h' - h)) by lra. pose proof PI2_3_2 as P3. destruct (Req_dec h 0) as [->|N].
    - rewrite (Z eq_refl). destruct (sin_bounds h' ltac:(lra) ltac:(lra)) as [[A B] _]. assert (S1 <= 1). { apply (Rmult_le_reg_r h'); [lra|]. rewrite E'. pose proof (sin_abs h' ltac:(lra)) as SA. apply Rabs_le_between in SA. lra. }
      assert (1 - h' * h' / 6 <= S1) by (apply (Rmult_le_reg_r h'); [lra|]; rewrite E'; nra). apply Rabs_le_between. nra.
    - assert (ES : S0 = sin h / h) by (rewrite <- E; field; exact N). assert (ES1 : S1 = sin h' / h') by (rewrite <- E'; field; lra).
      destruct (MVT_cor2 (fun x => sin x / x) (fun x => (cos x * x - sin x) / (x * x)) h h' L) as (c & M & C).
      { intros c C. pose proof (derivable_pt_lim_div sin id c (cos c) 1 (derivable_pt_lim_sin c) (derivable_pt_lim_id c) ltac:(unfold id; lra)) as D. unfold div_fct, id in D. replace ((cos c * c - sin c) / (c * c)) with ((cos c * c - 1 * sin c) / (c)²) by (unfold Rsqr; field; lra). exact D. }
      cbn beta in M. rewrite ES, ES1, M, Rabs_mult, (Rabs_right (h' - h)) by lra. rewrite <- (Rmult_1_l (h' - h)) at 2. apply Rmult_le_compat_r; [lra|].
      destruct (sin_bounds c ltac:(lra) ltac:(lra)) as [[A B] _]. pose proof (sin_abs c ltac:(lra)) as SA. apply Rabs_le_between in SA. destruct (one_cos c ltac:(lra)) as [[C0 C1] C2].
      pose proof (COS_bound c) as CB. assert (X : Rabs (cos c * c - sin c) <= c * c).
      { apply Rabs_le_between. assert (c * (1 - cos c) <= c * (c * c / 2)) by (apply Rmult_le_compat_l; lra). assert (c * (c * c / 2) <= c * c) by nra. assert (c ^ 3 / 6 <= c * c) by nra. assert (cos c * c <= c) by nra. lra. }
      unfold Rdiv. rewrite Rabs_mult, (Rabs_right (/ (c * c))) by (left; apply Rinv_0_lt_compat; nra). apply (Rmult_le_reg_r (c * c)); [nra|]. rewrite Rmult_assoc, Rinv_l by nra. lra. }
  intros H H' E E' Z Z'. destruct (Rtotal_order h h') as [L|[L|L]].
  - rewrite (Rabs_minus_sym S0), (Rabs_minus_sym h). apply K; assumption.
  - subst h'. destruct (Req_dec h 0) as [Q|Q]; [rewrite (Z Q), (Z' Q)|assert (S0 = S1) as -> by (apply (Rmult_eq_reg_r h); [lra|exact Q])]; rewrite !Rminus_diag_eq by reflexivity; lra.
  - apply K; assumption.
Qed.
Lemma axis_diff a b p : len3 (sub3 (scale3 (dot3 a p) a) (scale3 (dot3 b p) b)) <= (len3 a + len3 b) * (len3 (sub3 a b) * len3 p).
Proof.
  replace (sub3 (scale3 (dot3 a p) a) (scale3 (dot3 b p) b)) with (add3 (scale3 (dot3 a p) (sub3 a b)) (scale3 (dot3 (sub3 a b) p) b)) by (dv; lie_unfold; f_equal; ring).
  eapply Rle_trans; [apply len3_add|]. rewrite !len3_sc. pose proof (cs3_len a p). pose proof (cs3_len (sub3 a b) p).
  assert (Rabs (dot3 a p) * len3 (sub3 a b) <= len3 a * len3 p * len3 (sub3 a b)) by (apply Rmult_le_compat_r; [apply len3_nonneg|assumption]). assert (Rabs (dot3 (sub3 a b) p) * len3 b <= len3 (sub3 a b) * len3 p * len3 b) by (apply Rmult_le_compat_r; [apply len3_nonneg|assumption]). lra.
Qed.
Lemma vback_lin a h S0 p q : sub3 (vback a h S0 p) (vback a h S0 q) = vback a h S0 (sub3 p q).
Proof. unfold vback, rotate. dv. lie_unfold. f_equal; ring. Qed.
Lemma half_exp a p t : dot3 a a = 1 -> 0 <= t -> mv3 (exp3 (scale3 (- (1 / 2)) (scale3 t a))) p = rotate a (- (t / 2)) p.
Proof.
  intros A T. replace (scale3 (- (1 / 2)) (scale3 t a)) with (scale3 (t / 2) (neg3 a)) by apply half_neg.
  rewrite exp3_unit by (try lra; rewrite neg_unit; exact A). rewrite rot_matrix_act. apply rotate_neg.
Qed.
Lemma core_len a p t S0 : dot3 a a = 1 -> 0 <= t -> 48 / 100 <= S0 <= 1 -> len3 (sub3 (rotate a (- (t / 2)) p) (scale3 ((1 - S0) * dot3 a p) a)) <= 152 / 100 * len3 p.
Proof.
  intros A T Sr. assert (R0 : len3 (rotate a (- (t / 2)) p) = len3 p) by (rewrite <- (half_exp a p t A T); apply rotation_len, exp3_rotation).
  eapply Rle_trans; [apply len3_sub_le|]. rewrite R0, len3_sc, (unit_len a A), Rabs_mult, (Rabs_right (1 - S0)) by lra. pose proof (cs3_len a p) as CB. rewrite (unit_len a A) in CB.
  assert ((1 - S0) * Rabs (dot3 a p) <= 52 / 100 * len3 p) by (apply Rmult_le_compat; try lra; apply Rabs_pos). lra.
Qed.
Lemma vback_len a t S0 p : dot3 a a = 1 -> 0 <= t <= 35 / 10 -> 48 / 100 <= S0 <= 1 -> len3 (vback a (t / 2) S0 p) <= 32 / 10 * len3 p.
Proof.
  intros A T Sr. unfold vback. rewrite len3_sc. pose proof (core_len a p t S0 A (proj1 T) Sr) as L. pose proof (len3_nonneg p).
  assert (I0 : 0 <= 1 / S0 <= 20835 / 10000). { split; [left; apply Rdiv_lt_0_compat; lra|]. apply (Rmult_le_reg_r S0); [lra|]. replace (1 / S0 * S0) with 1 by (field; lra). lra. }
  rewrite Rabs_right by lra. eapply Rle_trans; [apply Rmult_le_compat; [lra|apply len3_nonneg|exact (proj2 I0)|exact L]|]. lra.
Qed.
Lemma split_n x k a y k' b : sub3 (sub3 x (scale3 k a)) (sub3 y (scale3 k' b)) = sub3 (sub3 x y) (sub3 (scale3 k a) (scale3 k' b)).
Proof. apply sub_4. Qed.
Lemma split_axis d d' a b p : sub3 (scale3 (d * dot3 a p) a) (scale3 (d' * dot3 b p) b) = add3 (scale3 d (sub3 (scale3 (dot3 a p) a) (scale3 (dot3 b p) b))) (scale3 ((d - d') * dot3 b p) b).
Proof. dv. lie_unfold. f_equal; ring. Qed.
Lemma split_scale k k' x y : sub3 (scale3 k x) (scale3 k' y) = add3 (scale3 k (sub3 x y)) (scale3 (k - k') y).
Proof. dv. lie_unfold. f_equal; ring. Qed.
Lemma turn_axis t t' a b : scale3 t (sub3 a b) = add3 (sub3 (scale3 t a) (scale3 t' b)) (scale3 (t' - t) b).
Proof. dv. lie_unfold. f_equal; ring. Qed.
Lemma mv_sub m n p : sub3 (mv3 m p) (mv3 n p) = mv3 (subM m n) p.
Proof. unfold subM. dv. lie_unfold. f_equal; ring. Qed.
Lemma vback_lip a b t t' S0 S1 p : dot3 a a = 1 -> dot3 b b = 1 -> 0 <= t <= 35 / 10 -> 0 <= t' <= 35 / 10 ->
  S0 * (t / 2) = sin (t / 2) -> S1 * (t' / 2) = sin (t' / 2) -> 48 / 100 <= S0 <= 1 -> 48 / 100 <= S1 <= 1 -> (t = 0 -> S0 = 1) -> (t' = 0 -> S1 = 1) -> 1 - S0 <= t / 2 * (t / 2) / 6 ->
  len3 (sub3 (vback a (t / 2) S0 p) (vback b (t' / 2) S1 p)) <= 20 * len3 (sub3 (scale3 t a) (scale3 t' b)) * len3 p.
Proof.
  intros A B T T' E E' Sr Sr' Z Z' Dl. set (e := len3 (sub3 (scale3 t a) (scale3 t' b))). pose proof (len3_nonneg p) as P0. assert (e0 : 0 <= e) by apply len3_nonneg.
  assert (eP : 0 <= e * len3 p) by (apply Rmult_le_pos; assumption).
  assert (La : len3 (scale3 t a) = t) by (rewrite len3_sc, (unit_len a A), Rabs_right by lra; ring). assert (Lb : len3 (scale3 t' b) = t') by (rewrite len3_sc, (unit_len b B), Rabs_right by lra; ring).
  assert (Dt : Rabs (t - t') <= e). { pose proof (len3_near (scale3 t a) (scale3 t' b)) as N1. pose proof (len3_near (scale3 t' b) (scale3 t a)) as N2. rewrite (len3_sub_sym (scale3 t' b)) in N2. fold e in N1, N2. rewrite La, Lb in N1, N2. apply Rabs_le_between. lra. }
  assert (DS : Rabs (S0 - S1) <= e / 2). { eapply Rle_trans; [apply (sinc_lip (t / 2) (t' / 2)); try assumption; lra|]. apply Rabs_le_between in Dt. apply Rabs_le_between. lra. }
  assert (Rd : len3 (sub3 (rotate a (- (t / 2)) p) (rotate b (- (t' / 2)) p)) <= 5 * (e * len3 p)).
  { rewrite <- (half_exp a p t A (proj1 T)), <- (half_exp b p t' B (proj1 T')), mv_sub. eapply Rle_trans; [apply len_mv|]. pose proof (exp3_lipschitz (scale3 (- (1 / 2)) (scale3 t a)) (scale3 (- (1 / 2)) (scale3 t' b))) as X.
    rewrite sc_sub_v, len3_sc, Rabs_left in X by lra. fold e in X. unfold dist in X. eapply Rle_trans; [apply Rmult_le_compat_r; [exact P0|exact X]|]. lra. }
  assert (Ax : t * len3 (sub3 a b) <= 2 * e). { pose proof (turn_axis t t' a b) as X. apply (f_equal len3) in X. rewrite len3_sc, Rabs_right in X by lra. rewrite X. eapply Rle_trans; [apply len3_add|]. fold e. rewrite len3_sc, (unit_len b B), Rabs_minus_sym. lra. }
  assert (Nd : len3 (sub3 (scale3 ((1 - S0) * dot3 a p) a) (scale3 ((1 - S1) * dot3 b p) b)) <= 11 / 10 * (e * len3 p)).
  { rewrite split_axis. eapply Rle_trans; [apply len3_add|]. rewrite !len3_sc, (unit_len b B), Rabs_mult. pose proof (axis_diff a b p) as AD. rewrite (unit_len a A), (unit_len b B) in AD. pose proof (cs3_len b p) as CB. rewrite (unit_len b B) in CB.
    replace (1 - S0 - (1 - S1)) with (- (S0 - S1)) by ring. rewrite Rabs_Ropp, (Rabs_right (1 - S0)) by lra.
    assert (X2 : Rabs (S0 - S1) * Rabs (dot3 b p) <= e / 2 * len3 p) by (apply Rmult_le_compat; try apply Rabs_pos; lra).
    pose proof (len3_nonneg (sub3 a b)) as Lab. assert (Lp : 0 <= len3 (sub3 a b) * len3 p) by (apply Rmult_le_pos; assumption).
    assert (X1 : (1 - S0) * len3 (sub3 (scale3 (dot3 a p) a) (scale3 (dot3 b p) b)) <= t / 2 * (t / 2) / 6 * ((1 + 1) * (len3 (sub3 a b) * len3 p))) by (apply Rmult_le_compat; try lra; apply len3_nonneg).
    assert (X3 : t * len3 (sub3 a b) * len3 p <= 2 * e * len3 p) by (apply Rmult_le_compat_r; assumption).
    assert (X4 : t * (t * len3 (sub3 a b) * len3 p) <= 35 / 10 * (2 * e * len3 p)) by (apply Rmult_le_compat; try lra; apply Rmult_le_pos; [apply Rmult_le_pos; lra|exact P0]). lra. }
  unfold vback. rewrite split_scale. eapply Rle_trans; [apply len3_add|]. rewrite !len3_sc, split_n.
  assert (I0 : 0 <= 1 / S0 <= 20835 / 10000). { split; [left; apply Rdiv_lt_0_compat; lra|]. apply (Rmult_le_reg_r S0); [lra|]. replace (1 / S0 * S0) with 1 by (field; lra). lra. }
  assert (I1 : 0 <= 1 / S1 <= 20835 / 10000). { split; [left; apply Rdiv_lt_0_compat; lra|]. apply (Rmult_le_reg_r S1); [lra|]. replace (1 / S1 * S1) with 1 by (field; lra). lra. }
  rewrite (Rabs_right (1 / S0)) by lra. pose proof (len3_sub_le (sub3 (rotate a (- (t / 2)) p) (rotate b (- (t' / 2)) p)) (sub3 (scale3 ((1 - S0) * dot3 a p) a) (scale3 ((1 - S1) * dot3 b p) b))) as Y.
  assert (Y1 : 1 / S0 * len3 (sub3 (sub3 (rotate a (- (t / 2)) p) (rotate b (- (t' / 2)) p)) (sub3 (scale3 ((1 - S0) * dot3 a p) a) (scale3 ((1 - S1) * dot3 b p) b))) <= 20835 / 10000 * (61 / 10 * (e * len3 p))) by (apply Rmult_le_compat; try lra; apply len3_nonneg).
  assert (Y2 : Rabs (1 / S0 - 1 / S1) * len3 (sub3 (rotate b (- (t' / 2)) p) (scale3 ((1 - S1) * dot3 b p) b)) <= 44 / 10 * (e / 2) * (152 / 100 * len3 p)).
  { apply Rmult_le_compat; [apply Rabs_pos|apply len3_nonneg| |apply core_len; [assumption|lra|assumption]]. replace (1 / S0 - 1 / S1) with ((S1 - S0) * (1 / S0 * (1 / S1))) by (field; lra). rewrite Rabs_mult, Rabs_minus_sym.
    assert (I2 : 0 <= 1 / S0 * (1 / S1) <= 44 / 10) by (split; [apply Rmult_le_pos; lra|]; apply (Rle_trans _ (20835 / 10000 * (20835 / 10000))); [apply Rmult_le_compat; lra|lra]).
    rewrite (Rabs_right (1 / S0 * (1 / S1))) by lra. rewrite Rmult_comm. apply Rmult_le_compat; try lra. apply Rabs_pos. }
  lra.
Qed.
