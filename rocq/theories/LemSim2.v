(** * Accuracy of the Taylor branches of compute_rodrigues_coefficients_sim3. *)
From Coq Require Import Reals ZArith Lra Bool Psatz Arith Lia.
From Verif Require Import Base Alg Mat Inst ModelLie SpecLie LemLie LemSO3 LemSO3b LemSE ModelSE ModelSim SpecSim LemSim RDeriv.
Local Open Scope R_scope.

Lemma gap F G f g e x : 0 <= x -> F 0 = G 0 -> (forall y, derivable_pt_lim F y (f y)) -> (forall y, derivable_pt_lim G y (g y)) ->
  (forall y, 0 <= y <= x -> Rabs (f y - g y) <= e) -> Rabs (F x - G x) <= e * x.
Proof.
  intros Hx H0 HF HG He. destruct (Req_dec x 0) as [->|N]; [rewrite H0, Rminus_diag_eq, Rabs_R0 by reflexivity; lra|].
  destruct (MVT_cor2 (fun y => F y - G y) (fun y => f y - g y) 0 x ltac:(lra)) as (c & E & B).
  { intros c _. apply D_minus; auto. }
  cbv beta in E. replace (F x - G x) with ((f c - g c) * (x - 0)) by lra. rewrite Rabs_mult, (Rabs_right (x - 0)) by lra.
  rewrite Rminus_0_r. apply Rmult_le_compat_r; [lra|]. apply He. lra.
Qed.
Lemma gap1 F G f g e : F 0 = G 0 -> (forall y, derivable_pt_lim F y (f y)) -> (forall y, derivable_pt_lim G y (g y)) ->
  (forall y, 0 <= y <= 1 -> Rabs (f y - g y) <= e) -> Rabs (F 1 - G 1) <= e.
Proof. intros H0 HF HG He. rewrite <- (Rmult_1_r e). apply (gap F G f g); auto. lra. Qed.

Lemma gapv F G f g e v : F 1 = v -> F 0 = G 0 -> (forall y, derivable_pt_lim F y (f y)) -> (forall y, derivable_pt_lim G y (g y)) ->
  (forall y, 0 <= y <= 1 -> Rabs (f y - g y) <= e) -> Rabs (v - G 1) <= e.
Proof. intros <-. apply gap1. Qed.

Lemma exp_small y : Rabs y <= 1 / 2 -> exp y <= 2.
Proof.
  intros H. assert (exp (- y) >= 1 / 2). { pose proof (exp_ineq1_le (- y)). assert (Rabs y >= y) by (apply Rle_ge, Rle_abs). lra. }
  rewrite <- (Ropp_involutive y), exp_Ropp. assert (0 < exp (- y)) by apply exp_pos.
  replace 2 with (/ (1 / 2)) by field. apply Rinv_le_contravar; lra.
Qed.
Ltac dstep := first [apply D_const | apply D_id | apply d_exp | apply d_cos | apply d_sin | apply D_plus | apply D_minus | apply D_mult | apply D_opp].
Ltac der := repeat dstep.
(** exp against its quadratic Taylor polynomial *)
Definition T2 (y : R) : R := 1 + y + y * y / 2.
Lemma exp_T2 s y : Rabs s <= 1 / 2 -> 0 <= y <= 1 -> Rabs (exp (s * y) - T2 (s * y)) <= 2 * Rabs s ^ 3.
Proof.
  intros Hs Hy. pose proof (Rabs_pos s) as P.
  assert (B0 : forall x, 0 <= x <= 1 -> Rabs (exp (s * x)) <= 2).
  { intros x Hx. rewrite Rabs_right by (apply Rle_ge, Rlt_le, exp_pos). apply exp_small. rewrite Rabs_mult, (Rabs_right x) by lra. nra. }
  assert (B1 : forall x, 0 <= x <= 1 -> Rabs (exp (s * x) - 1) <= 2 * Rabs s).
  { intros x Hx. eapply Rle_trans; [apply (gap (fun y => exp (s * y)) (fun _ => 1) (fun y => s * exp (s * y)) (fun _ => 0) (2 * Rabs s) x)|].
    - lra.
    - rewrite Rmult_0_r, exp_0. reflexivity.
    - intros z. apply d_exp.
    - intros z. apply D_const.
    - intros z Hz. rewrite Rminus_0_r, Rabs_mult. pose proof (B0 z ltac:(lra)). nra.
    - nra. }
  assert (B2 : forall x, 0 <= x <= 1 -> Rabs (exp (s * x) - (1 + s * x)) <= 2 * Rabs s ^ 2).
  { intros x Hx. eapply Rle_trans; [apply (gap (fun y => exp (s * y)) (fun y => 1 + s * y) (fun y => s * exp (s * y)) (fun _ => s) (2 * Rabs s ^ 2) x)|].
    - lra.
    - rewrite !Rmult_0_r, exp_0. ring.
    - intros z. apply d_exp.
    - intros z. eapply D_eq; [apply D_plus; [apply D_const|apply d_lin]|ring].
    - intros z Hz. replace (s * exp (s * z) - s) with (s * (exp (s * z) - 1)) by ring. rewrite Rabs_mult. pose proof (B1 z ltac:(lra)). nra.
    - assert (0 <= Rabs s ^ 2) by nra. nra. }
  eapply Rle_trans; [apply (gap (fun y => exp (s * y)) (fun y => T2 (s * y)) (fun y => s * exp (s * y)) (fun y => s * (1 + s * y)) (2 * Rabs s ^ 3) y)|].
  - lra.
  - unfold T2. rewrite !Rmult_0_r, exp_0. field.
  - intros z. apply d_exp.
  - intros z. unfold T2. eapply D_eq; [apply D_plus; [apply D_plus; [apply D_const|apply d_lin]|unfold Rdiv; apply D_mult; [apply D_mult; apply d_lin|apply D_const]]|cbn beta; field].
  - intros z Hz. replace (s * exp (s * z) - s * (1 + s * z)) with (s * (exp (s * z) - (1 + s * z))) by ring. rewrite Rabs_mult. pose proof (B2 z ltac:(lra)).
    replace (2 * Rabs s ^ 3) with (Rabs s * (2 * Rabs s ^ 2)) by ring. apply Rmult_le_compat_l; auto.
  - assert (0 <= Rabs s ^ 3) by (apply pow_le; auto). nra.
Qed.
Lemma exp_max s y : 0 <= y <= 1 -> 0 < exp (s * y) <= Rmax 1 (exp s).
Proof.
  intros Hy. split; [apply exp_pos|]. destruct (Rle_dec 0 s) as [P|P].
  - eapply Rle_trans; [|apply Rmax_r]. destruct (Req_dec (s * y) s) as [->|]; [lra|]. left. apply exp_increasing. nra.
  - eapply Rle_trans; [|apply Rmax_l]. rewrite <- exp_0. destruct (Req_dec (s * y) 0) as [->|]; [lra|]. left. apply exp_increasing. nra.
Qed.

(** the length of a combination *)
Lemma comb_len a z1 z2 l u e : dot3 a a = 1 -> 0 <= e -> Rabs z1 <= e -> Rabs z2 <= e -> Rabs l <= e -> len3 (comb a z1 z2 l u) <= 2 * e * len3 u.
Proof.
  intros Ha He H1 H2 Hl.
  assert (E : dot3 (comb a z1 z2 l u) (comb a z1 z2 l u) = (z1 * z1 + z2 * z2) * (dot3 u u - dot3 a u * dot3 a u) + l * l * (dot3 a u * dot3 a u)).
  { assert (G : dot3 (comb a z1 z2 l u) (comb a z1 z2 l u) = z1 * z1 * (dot3 u u - 2 * (dot3 a u * dot3 a u) + dot3 a u * dot3 a u * dot3 a a)
       + z2 * z2 * (dot3 a a * dot3 u u - dot3 a u * dot3 a u) + l * l * (dot3 a u * dot3 a u) * dot3 a a + 2 * z1 * l * (dot3 a u * dot3 a u) * (1 - dot3 a a)).
    { unfold comb. clear. destruct a as [a1 a2 a3], u as [u1 u2 u3]. lie_unfold. ring. }
    rewrite G, Ha. ring. }
  assert (C : 0 <= dot3 u u - dot3 a u * dot3 a u).
  { replace (dot3 u u - dot3 a u * dot3 a u) with (dot3 (cross3 a u) (cross3 a u)); [apply dot3_nonneg|].
    transitivity (dot3 a a * dot3 u u - dot3 a u * dot3 a u); [clear; destruct a as [a1 a2 a3], u as [u1 u2 u3]; lie_unfold; ring|rewrite Ha; ring]. }
  assert (Q : forall z, Rabs z <= e -> z * z <= e * e).
  { intros z Hz. rewrite <- (Rabs_right (z * z)) by (apply Rle_ge, Rle_0_sqr). rewrite Rabs_mult. apply Rmult_le_compat; auto; apply Rabs_pos. }
  pose proof (Q _ H1). pose proof (Q _ H2). pose proof (Q _ Hl). assert (0 <= dot3 a u * dot3 a u) by apply Rle_0_sqr.
  unfold len3. rewrite E.
  apply Rsqr_incr_0_var; [|apply Rmult_le_pos; [lra|apply sqrt_pos]]. unfold Rsqr. rewrite sqrt_sqrt.
  - replace (2 * e * sqrt (dot3 u u) * (2 * e * sqrt (dot3 u u))) with (4 * (e * e) * (sqrt (dot3 u u) * sqrt (dot3 u u))) by ring.
    rewrite sqrt_sqrt by apply dot3_nonneg.
    assert ((z1 * z1 + z2 * z2) * (dot3 u u - dot3 a u * dot3 a u) <= 2 * (e * e) * (dot3 u u - dot3 a u * dot3 a u)) by (apply Rmult_le_compat_r; lra).
    assert (l * l * (dot3 a u * dot3 a u) <= e * e * (dot3 a u * dot3 a u)) by (apply Rmult_le_compat_r; lra).
    assert (0 <= e * e) by apply Rle_0_sqr. nra.
  - rewrite <- E. apply dot3_nonneg.
Qed.
Lemma comb_sub a z1 z2 l y1 y2 m u : sub3 (comb a z1 z2 l u) (comb a y1 y2 m u) = comb a (z1 - y1) (z2 - y2) (l - m) u.
Proof. unfold comb. set (k := dot3 a u). clearbody k. dv. lie_unfold. f_equal; ring. Qed.

(** ** small log-scale, rotation not small *)
Lemma rod_small_scale s t c0 c1 c2 : Rabs s < 1 / 10 ^ 6 -> 1 / 10 ^ 6 <= Rabs t -> rod_coeffs s t = (c0, c1, c2) ->
  Rabs (c0 - Zc s 1) <= 2 * Rabs s ^ 3 /\ Rabs (c0 - c2 * (t * t) - Xc s t 1) <= 2 * Rabs s ^ 3 /\ Rabs (c1 * t - Yc s t 1) <= 2 * Rabs s ^ 3.
Proof.
  intros Hs Ht. assert (Nt : t <> 0) by (intros ->; rewrite Rabs_R0 in Ht; lra).
  unfold rod_coeffs. rewrite (R_ltb_t (Rabs s)) by exact Hs. rewrite R_ltb_f by exact Ht. cbn [andb]. intros E; injection E as <- <- <-.
  split; [|split].
  - apply (gapv (fun y => y + s * (y * y) / 2 + s * s * (y * y * y) / 6) (Zc s) (fun y => T2 (s * y)) (fun y => exp (s * y))).
    + cbn beta; field.
    + cbn beta. rewrite Zc_0. field.
    + intros y. unfold Rdiv. eapply D_eq; [der|unfold T2; cbn beta; field].
    + intros y. apply d_Zc.
    + intros y Hy. rewrite Rabs_minus_sym. apply exp_T2; [lra|exact Hy].
  - apply (gapv (fun y => sin (t * y) / t + s * (cos (t * y) + t * y * sin (t * y) - 1) / (t * t)
        + s * s / 2 * (t * t * (y * y) * sin (t * y) + 2 * t * y * cos (t * y) - 2 * sin (t * y)) / (t * t * t)) (Xc s t) (fun y => T2 (s * y) * cos (t * y)) (fun y => exp (s * y) * cos (t * y))).
    + cbn beta; rewrite !Rmult_1_r; field; exact Nt.
    + cbn beta. rewrite Xc_0, !Rmult_0_r, sin_0, cos_0. field. exact Nt.
    + intros y. unfold Rdiv. eapply D_eq; [der|unfold T2; cbn beta; field; exact Nt].
    + intros y. apply d_Xc.
    + intros y Hy. rewrite <- Rmult_minus_distr_r, Rabs_mult, Rabs_minus_sym. pose proof (exp_T2 s y ltac:(lra) Hy).
      pose proof (Rabs_pos (exp (s * y) - T2 (s * y))). pose proof (Rabs_pos (cos (t * y))).
      assert (Rabs (cos (t * y)) <= 1) by (apply Rabs_le, COS_bound). nra.
  - apply (gapv (fun y => (1 - cos (t * y)) / t + s * (sin (t * y) - t * y * cos (t * y)) / (t * t)
        + s * s / 2 * (2 * t * y * sin (t * y) - t * t * (y * y) * cos (t * y) + 2 * cos (t * y) - 2) / (t * t * t)) (Yc s t) (fun y => T2 (s * y) * sin (t * y)) (fun y => exp (s * y) * sin (t * y))).
    + cbn beta; rewrite !Rmult_1_r; field; exact Nt.
    + cbn beta. rewrite Yc_0, !Rmult_0_r, sin_0, cos_0. field. exact Nt.
    + intros y. unfold Rdiv. eapply D_eq; [der|unfold T2; cbn beta; field; exact Nt].
    + intros y. apply d_Yc.
    + intros y Hy. rewrite <- Rmult_minus_distr_r, Rabs_mult, Rabs_minus_sym. pose proof (exp_T2 s y ltac:(lra) Hy).
      pose proof (Rabs_pos (exp (s * y) - T2 (s * y))). pose proof (Rabs_pos (sin (t * y))).
      assert (Rabs (sin (t * y)) <= 1) by (apply Rabs_le, SIN_bound). nra.
Qed.

(** ** small rotation, log-scale not small *)
Lemma pow_le1 x n : 0 <= x <= 1 -> 0 <= x ^ n <= 1.
Proof. intros H. induction n; cbn [pow]; [lra|]. nra. Qed.
Lemma small_powers t y k : 0 <= t -> 0 <= y <= 1 -> 0 <= (t * y) ^ k <= t ^ k.
Proof. intros Ht Hy. split; [apply pow_le; nra|]. apply pow_incr. nra. Qed.
Lemma rod_small_angle s t c0 c1 c2 : 1 / 10 ^ 6 <= Rabs s -> 0 <= t < 1 / 10 ^ 6 -> rod_coeffs s t = (c0, c1, c2) ->
  c0 = Zc s 1 /\ Rabs (c0 - c2 * (t * t) - Xc s t 1) <= Rmax 1 (exp s) * (t ^ 6 / 720) /\ Rabs (c1 * t - Yc s t 1) <= Rmax 1 (exp s) * (t ^ 5 / 120).
Proof.
  intros Hs Ht. assert (Ns : s <> 0) by (intros ->; rewrite Rabs_R0 in Hs; lra).
  unfold rod_coeffs. rewrite (R_ltb_f (Rabs s)) by exact Hs. rewrite (Rabs_right t) by lra. rewrite R_ltb_t by lra. cbn [andb]. intros E; injection E as <- <- <-.
  pose proof PI2_3_2 as HPI. 
  split; [|split].
  - unfold Zc. rewrite R_eqb_f by exact Ns. rewrite Rmult_1_r. reflexivity.
  - apply (gapv (fun y => (exp (s * y) - 1) / s - t * t / 2 * ((exp (s * y) * (s * s * (y * y) - 2 * s * y + 2) - 2) / (s * s * s))
        + t * t * t * t / 24 * ((exp (s * y) * (s * s * s * s * (y * y * y * y) - 4 * s * s * s * (y * y * y) + 12 * s * s * (y * y) - 24 * s * y + 24) - 24) / (s * s * s * s * s))) (Xc s t) (fun y => exp (s * y) * (1 - (t * y) ^ 2 / 2 + (t * y) ^ 4 / 24)) (fun y => exp (s * y) * cos (t * y))).
    + cbn beta; rewrite !Rmult_1_r; field; exact Ns.
    + cbn beta. rewrite Xc_0, !Rmult_0_r, exp_0. field. exact Ns.
    + intros y. unfold Rdiv. eapply D_eq; [der|cbn beta; field; exact Ns].
    + intros y. apply d_Xc.
    + intros y Hy. rewrite <- Rmult_minus_distr_l, Rabs_mult. pose proof (exp_max s y Hy). rewrite (Rabs_right (exp (s * y))) by lra.
      apply Rmult_le_compat; [lra|apply Rabs_pos|lra|]. 
      destruct (cos_bounds (t * y) ltac:(nra) ltac:(nra)) as [B1 B2]. pose proof (small_powers t y 6 ltac:(lra) Hy). apply Rabs_le. lra.
  - apply (gapv (fun y => t * ((exp (s * y) * (s * y - 1) + 1) / (s * s))
        - t * t * t / 6 * ((exp (s * y) * (s * s * s * (y * y * y) - 3 * s * s * (y * y) + 6 * s * y - 6) + 6) / (s * s * s * s))) (Yc s t) (fun y => exp (s * y) * (t * y - (t * y) ^ 3 / 6)) (fun y => exp (s * y) * sin (t * y))).
    + cbn beta; rewrite !Rmult_1_r; field; exact Ns.
    + cbn beta. rewrite Yc_0, !Rmult_0_r, exp_0. field. exact Ns.
    + intros y. unfold Rdiv. eapply D_eq; [der|cbn beta; field; exact Ns].
    + intros y. apply d_Yc.
    + intros y Hy. rewrite <- Rmult_minus_distr_l, Rabs_mult. pose proof (exp_max s y Hy). rewrite (Rabs_right (exp (s * y))) by lra.
      apply Rmult_le_compat; [lra|apply Rabs_pos|lra|].
      destruct (sin_bounds (t * y) ltac:(nra) ltac:(nra)) as [B1 B2]. pose proof (small_powers t y 5 ltac:(lra) Hy). apply Rabs_le. lra.
Qed.

(** ** both small: the constant terms 1/2 and 1/6 are lost *)
Lemma rod_both_small s t c0 c1 c2 : Rabs s < 1 / 10 ^ 6 -> 0 <= t < 1 / 10 ^ 6 -> rod_coeffs s t = (c0, c1, c2) ->
  Rabs (c0 - Zc s 1) <= 2 * Rabs s ^ 3 /\ Rabs (c0 - c2 * (t * t) - Xc s t 1) <= 2 * Rabs s ^ 3 + 3 * t /\ Rabs (c1 * t - Yc s t 1) <= 3 * t.
Proof.
  intros Hs Ht. pose proof PI2_3_2 as HPI.
  unfold rod_coeffs. rewrite (R_ltb_t (Rabs s)) by exact Hs. rewrite (Rabs_right t) by lra. rewrite R_ltb_t by lra. cbn [andb].
  change (Z.quot 1 2) with 0%Z. change (Z.quot 1 6) with 0%Z. intros E; injection E as <- <- <-.
  apply Rabs_def2 in Hs as Hs'. destruct Hs' as [Hs1 Hs2].
  assert (Z : Rabs (1 + s / 2 + s * s / 6 - Zc s 1) <= 2 * Rabs s ^ 3).
  { apply (gapv (fun y => y + s * (y * y) / 2 + s * s * (y * y * y) / 6) (Zc s) (fun y => T2 (s * y)) (fun y => exp (s * y))).
    + cbn beta; field.
    + cbn beta. rewrite Zc_0. field.
    + intros y. unfold Rdiv. eapply D_eq; [der|unfold T2; cbn beta; field].
    + intros y. apply d_Zc.
    + intros y Hy. rewrite Rabs_minus_sym. apply exp_T2; [lra|exact Hy]. }
  assert (B0 : forall x, 0 <= x <= 1 -> 0 < exp (s * x) <= 2).
  { intros x Hx. split; [apply exp_pos|]. apply exp_small. rewrite Rabs_mult, (Rabs_right x) by lra. pose proof (Rabs_pos s). nra. }
  assert (Y : Rabs (0 - Yc s t 1) <= 2 * t).
  { apply (gap1 (fun _ => 0) _ (fun _ => 0) (fun y => exp (s * y) * sin (t * y))).
    - rewrite Yc_0. reflexivity.
    - intros y. apply D_const.
    - intros y. apply d_Yc.
    - intros y Hy. rewrite Rminus_0_l, Rabs_Ropp, Rabs_mult. pose proof (B0 y Hy). rewrite (Rabs_right (exp (s * y))) by lra.
      destruct (sin_bounds (t * y) ltac:(nra) ltac:(nra)) as [B1 _]. pose proof (small_powers t y 3 ltac:(lra) Hy). pose proof (small_powers t y 5 ltac:(lra) Hy). pose proof (small_powers t y 1 ltac:(lra) Hy).
      set (w := t * y) in *. assert (A1 : 0 <= w) by (unfold w; nra). assert (A2 : w <= t) by (unfold w; nra).
      assert (C : 0 <= w * w) by (apply Rmult_le_pos; auto). assert (D : w * w <= 1) by (apply Rle_trans with (1 * 1); [apply Rmult_le_compat; lra|lra]).
      assert (A3 : 0 <= w ^ 3) by (apply pow_le; auto). assert (A4 : w ^ 3 <= w) by (replace (w ^ 3) with (w * w * w) by ring; rewrite <- (Rmult_1_l w) at 4; apply Rmult_le_compat_r; auto).
      assert (A5 : w ^ 5 <= w ^ 3) by (replace (w ^ 5) with (w * w * w ^ 3) by ring; rewrite <- (Rmult_1_l (w ^ 3)) at 2; apply Rmult_le_compat_r; auto).
      rewrite Rabs_right by lra. assert (Sn : sin w <= t) by lra. apply Rmult_le_compat; lra. }
  assert (X : Rabs (Zc s 1 - Xc s t 1) <= 2 * t).
  { apply (gap1 (Zc s) (Xc s t) (fun y => exp (s * y)) (fun y => exp (s * y) * cos (t * y))).
    - rewrite Zc_0, Xc_0. reflexivity.
    - intros y. apply d_Zc.
    - intros y. apply d_Xc.
    - intros y Hy. replace (exp (s * y) - exp (s * y) * cos (t * y)) with (exp (s * y) * (1 - cos (t * y))) by ring. rewrite Rabs_mult.
      pose proof (B0 y Hy). rewrite (Rabs_right (exp (s * y))) by lra. destruct (cos_bounds (t * y) ltac:(nra) ltac:(nra)) as [B1 _].
      pose proof (small_powers t y 2 ltac:(lra) Hy). assert (t ^ 2 <= t) by nra. pose proof (COS_bound (t * y)). rewrite Rabs_right by lra. nra. }
  assert (S2 : 0 <= s * s <= 1 / 10 ^ 6) by nra. assert (TT : 0 <= t * t <= 1 / 10 ^ 6) by nra.
  split; [exact Z|]. split.
  - match goal with |- Rabs ?x <= _ => replace x with ((1 + s / 2 + s * s / 6 - Zc s 1) + (Zc s 1 - Xc s t 1) - (0 + s / 8 - t * t / 120 + s * s / 20) * (t * t)) by ring end.
    eapply Rle_trans; [apply Rabs_triang|]. rewrite Rabs_Ropp.
    assert (Rabs ((0 + s / 8 - t * t / 120 + s * s / 20) * (t * t)) <= t).
    { rewrite Rabs_mult, (Rabs_right (t * t)) by lra. assert (Rabs (0 + s / 8 - t * t / 120 + s * s / 20) <= 1) by (apply Rabs_le; lra).
      pose proof (Rabs_pos (0 + s / 8 - t * t / 120 + s * s / 20)). nra. }
    eapply Rle_trans; [apply Rplus_le_compat; [apply Rabs_triang|exact H]|]. lra.
  - match goal with |- Rabs ?x <= _ => replace x with ((0 - Yc s t 1) + (0 + s / 3 - t * t / 24 + s * s / 8) * t) by ring end.
    eapply Rle_trans; [apply Rabs_triang|].
    assert (Rabs ((0 + s / 3 - t * t / 24 + s * s / 8) * t) <= t).
    { rewrite Rabs_mult, (Rabs_right t) by lra. assert (Rabs (0 + s / 3 - t * t / 24 + s * s / 8) <= 1) by (apply Rabs_le; lra).
      pose proof (Rabs_pos (0 + s / 3 - t * t / 24 + s * s / 8)). nra. }
    lra.
Qed.
