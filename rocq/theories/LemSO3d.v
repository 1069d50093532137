(** * SO3: derivative of exp at zero, ln(exp w) in the Taylor range, SO2 lemmas. *)
From Coq Require Import Reals Lra Bool Psatz Arith Lia.
From Verif Require Import Base Alg Inst ModelLie SpecLie LemLie LemSO3 LemSO3b LemSO3c.
Local Open Scope R_scope.


Lemma cubic_derivative a b c d : derivable_pt_lim (fun t => a + b * t + c * (t * t) + d * (t * t * t)) 0 b.
Proof.
  cut (derivable_pt_lim (fun t => a + b * t + c * (t * t) + d * (t * t * t)) 0 (0 + b * 1 + c * (1 * 0 + 0 * 1) + d * ((1 * 0 + 0 * 1) * 0 + 0 * 0 * 1))).
  { intros H. replace (0 + b * 1 + c * (1 * 0 + 0 * 1) + d * ((1 * 0 + 0 * 1) * 0 + 0 * 0 * 1)) with b in H by ring. exact H. }
  apply (derivable_pt_lim_plus (fun t => a + b * t + c * (t * t)) (fun t => d * (t * t * t))).
  apply (derivable_pt_lim_plus (fun t => a + b * t) (fun t => c * (t * t))).
  apply (derivable_pt_lim_plus (fun t => a) (fun t => b * t)).
  - apply derivable_pt_lim_const.
  - apply (derivable_pt_lim_scal id), derivable_pt_lim_id.
  - apply (derivable_pt_lim_scal (fun t => t * t)). apply (derivable_pt_lim_mult id id); apply derivable_pt_lim_id.
  - apply (derivable_pt_lim_scal (fun t => t * t * t)). apply (derivable_pt_lim_mult (fun t => t * t) id); [|apply derivable_pt_lim_id].
    apply (derivable_pt_lim_mult id id); apply derivable_pt_lim_id.
Qed.

Lemma so3_exp_derivative w : exists f : R -> M3, (forall t, so3_exp (scale3 t w) = Ok (f t)) /\
  forall i j, (i < 3)%nat -> (j < 3)%nat -> derivable_pt_lim (fun t => ent (f t) i j) 0 (ent (hat w) i j).
Proof.
  exists (fun t => match so3_exp (scale3 t w) with Ok m => m | _ => id3 end). split.
  { intros t. destruct (so3_exp_form (scale3 t w)) as (A & B & E & _). rewrite E. reflexivity. }
  intros i j Hi Hj.
  set (D := dot3 w w). assert (HD : 0 <= D) by apply dot3_nonneg.
  set (r := 1 / (10 ^ 4 * (1 + D))).
  assert (Hr : 0 < r). { apply Rdiv_lt_0_compat; lra. }
  assert (Hr2 : r * r * D < 1 / 10 ^ 8).
  { unfold r. replace (1 / (10 ^ 4 * (1 + D)) * (1 / (10 ^ 4 * (1 + D))) * D) with (1 / 10 ^ 8 * (D / ((1 + D) * (1 + D)))) by (field; lra).
    assert (D / ((1 + D) * (1 + D)) < 1); [|lra].
    apply (Rmult_lt_reg_r ((1 + D) * (1 + D))); [nra|]. replace (D / ((1 + D) * (1 + D)) * ((1 + D) * (1 + D))) with D by (field; lra). nra. }
  set (g := fun t => rodrigues (scale3 t w) (1 - 1 / 6 * (t * t * D)) (1 / 2)).
  apply (derivable_pt_lim_locally_ext (fun t => ent (g t) i j) _ 0 (- r) r); [lra| |].
  { intros t Ht. f_equal. unfold so3_exp, so3_coeffs.
    replace (dot3 (scale3 t w) (scale3 t w)) with (t * t * D) by (rewrite dot3_scale_l, dot3_scale_r; unfold D; ring).
    rewrite R_ltb_t; [cbn [bind]; reflexivity|]. apply Rle_lt_trans with (r * r * D); [|exact Hr2].
    apply Rmult_le_compat_r; [exact HD|nra]. }
  assert (Loc : forall a b c d f l, (forall t, f t = a + b * t + c * (t * t) + d * (t * t * t)) -> b = l -> derivable_pt_lim f 0 l).
  { intros a b c d f l E <-. apply (derivable_pt_lim_locally_ext (fun t => a + b * t + c * (t * t) + d * (t * t * t)) _ 0 (-1) 1); [lra|intros; symmetry; apply E|apply cubic_derivative]. }
  clearbody D. clear - Loc Hi Hj.
  unfold g, rodrigues, ent, comp3, hat. destruct w as [x y z].
  destruct i as [|[|[|i]]]; [| | |lia]; (destruct j as [|[|[|j]]]; [| | |lia]); cbn [vx vy vz r0 r1 r2 scale3].
  - apply (Loc 1 0 (- (1 / 2) * (y * y + z * z)) 0); [intros; field|reflexivity].
  - apply (Loc 0 (- z) (1 / 2 * (x * y)) (1 / 6 * D * z)); [intros; field|reflexivity].
  - apply (Loc 0 y (1 / 2 * (x * z)) (- (1 / 6) * D * y)); [intros; field|reflexivity].
  - apply (Loc 0 z (1 / 2 * (x * y)) (- (1 / 6) * D * z)); [intros; field|reflexivity].
  - apply (Loc 1 0 (- (1 / 2) * (x * x + z * z)) 0); [intros; field|reflexivity].
  - apply (Loc 0 (- x) (1 / 2 * (y * z)) (1 / 6 * D * x)); [intros; field|reflexivity].
  - apply (Loc 0 (- y) (1 / 2 * (x * z)) (1 / 6 * D * y)); [intros; field|reflexivity].
  - apply (Loc 0 x (1 / 2 * (y * z)) (- (1 / 6) * D * x)); [intros; field|reflexivity].
  - apply (Loc 1 0 (- (1 / 2) * (x * x + y * y)) 0); [intros; field|reflexivity].
Qed.

(** asin near zero *)
Lemma sin_gap a b : 0 <= a -> a <= b -> b <= 1 -> (b - a) / 2 <= sin b - sin a.
Proof.
  intros Ha Hab Hb. destruct Hab as [Hab| ->]; [|lra].
  destruct (MVT_cor2 sin cos a b Hab) as (c & Ec & Hc); [intros; apply derivable_pt_lim_sin|].
  rewrite Ec. assert (1 / 2 <= cos c).
  { destruct (cos_bounds c) as [[G _] _]; [lra|pose proof PI2_3_2; lra|]. replace (c ^ 2) with (c * c) in G by ring.
    assert (c * c <= 1 * 1) by (apply Rmult_le_compat; lra). lra. }
  replace ((b - a) / 2) with (1 / 2 * (b - a)) by field. apply Rmult_le_compat_r; lra.
Qed.
Lemma asin_close t s d : 0 < t <= 1 / 100 -> 0 <= d <= t / 4 -> Rabs (s - sin t) <= d -> Rabs (asin s - t) <= 2 * d.
Proof.
  intros Ht Hd Hs. assert (Q : -d <= s - sin t <= d) by (revert Hs; unfold Rabs; destruct Rcase_abs; lra).
  assert (P3 : 3 < PI) by (pose proof PI2_3_2; lra).
  assert (Sb : 0 <= sin t <= t).
  { destruct (sin_bounds t) as [[G1 G2] _]; [lra|lra|]. split; [apply sin_ge_0; lra|].
    assert (t ^ 5 / 120 <= t ^ 3 / 6); [|lra].
    replace (t ^ 5) with (t ^ 3 * (t * t)) by ring. assert (0 < t ^ 3) by (apply pow_lt; lra).
    assert (t ^ 3 * (t * t) <= t ^ 3 * 1) by (apply Rmult_le_compat_l; nra). lra. }
  assert (Rs : -1 <= s <= 1) by lra.
  pose proof (asin_bound s) as Ab. pose proof (sin_asin s Rs) as Es. set (u := asin s) in *.
  apply Rabs_le. split.
  - destruct (Rle_dec (t - 2 * d) u) as [G|G]; [lra|exfalso].
    assert (sin u < sin (t - 2 * d)) by (apply sin_increasing_1; lra).
    pose proof (sin_gap (t - 2 * d) t). lra.
  - destruct (Rle_dec u (t + 2 * d)) as [G|G]; [lra|exfalso].
    assert (sin (t + 2 * d) < sin u) by (apply sin_increasing_1; lra).
    pose proof (sin_gap t (t + 2 * d)). lra.
Qed.

(** ln(exp w) when exp uses a Taylor branch *)
Lemma so3_ln_exp_small thr w m : 0 < thr < 999 / 1000 -> 0 < dot3 w w < 1 / 10 ^ 6 -> so3_exp w = Ok m ->
  exists k, so3_ln thr m = Ok (scale3 k w) /\ Rabs (k - 1) <= 1 / 10 ^ 17.
Proof.
  intros Hthr Hw Em.
  assert (Wn : w <> zero3) by (intros ->; revert Hw; lie_unfold; lra).
  pose proof (len3_pos w Wn) as L. pose proof (len3_sq w) as S2. set (t := len3 w) in *.
  rewrite <- S2 in Hw. assert (Lt : t < 1 / 1000) by nra.
  assert (P3 : 3 < PI) by (pose proof PI2_3_2; lra).
  assert (Coef : exists A B, m = rodrigues w A B /\ 9 / 10 < A < 11 / 10 /\ 0 < B < 6 / 10 /\ Rabs (A * t - sin t) <= 5 / 10 ^ 18 * t).
  { revert Em. unfold so3_exp, so3_coeffs. rewrite <- S2.
    destruct (sin_bounds t) as [[s1 s2] s3]; [lra|lra|].
    assert (T2 : 0 < t * t) by nra.
    assert (T4 : 0 < t * t * (t * t) /\ t * t * (t * t) < 1 / 10 ^ 12).
    { split; [apply Rmult_lt_0_compat; auto|]. apply Rlt_trans with (1 / 10 ^ 6 * (t * t)); [apply Rmult_lt_compat_r; lra|lra]. }
    destruct (R_ltb (t * t) (1 / 10 ^ 8)) eqn:E1.
    - apply R_ltb_spec in E1. cbn [bind]. intros E; injection E as <-.
      exists (1 - 1 / 6 * (t * t)), (1 / 2). split; [reflexivity|]. split; [lra|]. split; [lra|].
      replace ((1 - 1 / 6 * (t * t)) * t) with (t - t ^ 3 / 6) by field.
      assert (t ^ 5 / 120 <= 5 / 10 ^ 18 * t).
      { replace (t ^ 5) with (t * t * (t * t) * t) by ring.
        assert (t * t * (t * t) < 1 / 10 ^ 16).
        { apply Rlt_trans with (1 / 10 ^ 8 * (t * t)); [apply Rmult_lt_compat_r; auto|lra]. }
        assert (t * t * (t * t) * t <= 1 / 10 ^ 16 * t) by (apply Rmult_le_compat_r; lra). lra. }
      apply Rabs_le. lra.
    - rewrite R_ltb_t by lra. cbn [bind]. intros E; injection E as <-.
      exists (1 - t * t * (1 / 6) * (1 - 1 / 20 * (t * t))), (1 / 2 - 1 / 4 * (1 / 6) * (t * t)). split; [reflexivity|].
      split; [lra|]. split; [lra|].
      replace ((1 - t * t * (1 / 6) * (1 - 1 / 20 * (t * t))) * t) with (t - t ^ 3 / 6 + t ^ 5 / 120) by field.
      assert (t ^ 7 / 5040 <= 5 / 10 ^ 18 * t).
      { replace (t ^ 7) with (t * t * (t * t * (t * t)) * t) by ring.
        assert (t * t * (t * t * (t * t)) < 1 / 10 ^ 18).
        { apply Rlt_trans with (1 / 10 ^ 6 * (t * t * (t * t))); [apply Rmult_lt_compat_r; lra|lra]. }
        assert (t * t * (t * t * (t * t)) * t <= 1 / 10 ^ 18 * t) by (apply Rmult_le_compat_r; lra). lra. }
      apply Rabs_le. lra. }
  destruct Coef as (A & B & -> & HA & HB & HS).
  set (res := scale3 A w).
  assert (Er : mk3 ((vy (r2 (rodrigues w A B)) - vz (r1 (rodrigues w A B))) / 2)
                   ((vz (r0 (rodrigues w A B)) - vx (r2 (rodrigues w A B))) / 2)
                   ((vx (r1 (rodrigues w A B)) - vy (r0 (rodrigues w A B))) / 2) = res).
  { unfold rodrigues, res. clear. dv. lie_unfold. f_equal; field. }
  unfold so3_ln. rewrite Er.
  replace ((vx (r0 (rodrigues w A B)) + vy (r1 (rodrigues w A B)) + vz (r2 (rodrigues w A B)) - 1) * (1 / 2)) with (1 - B * (t * t)).
  2: { rewrite S2. unfold rodrigues. clear. dv. lie_unfold. field. }
  rewrite R_ltb_t by nra.
  assert (Sn : sqrt (dot3 res res) = A * t).
  { unfold res. rewrite dot3_scale_l, dot3_scale_r, <- S2. replace (A * (A * (t * t))) with (A * t * (A * t)) by ring. apply sqrt_square. nra. }
  rewrite Sn. assert (At : 0 < A * t) by (apply Rmult_lt_0_compat; lra).
  rewrite R_ltb_t by exact At. rewrite Rdiv_ok by lra. cbn [bind].
  exists (asin (A * t) / t). split.
  - f_equal. unfold res. rewrite scale3_comm. f_equal. field. split; lra.
  - replace (asin (A * t) / t - 1) with ((asin (A * t) - t) / t) by (field; lra).
    unfold Rdiv at 1. rewrite Rabs_mult, (Rabs_right (/ t)) by (apply Rle_ge, Rlt_le, Rinv_0_lt_compat; lra).
    assert (G : Rabs (asin (A * t) - t) <= 2 * (5 / 10 ^ 18 * t)) by (apply asin_close; [lra|lra|exact HS]).
    apply (Rmult_le_reg_r t); [lra|]. rewrite Rmult_assoc, Rinv_l by lra. lra.
Qed.
