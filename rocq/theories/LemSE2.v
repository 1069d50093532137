(** * Lemmas on SO2 and SE2; exp and ln of SE3. *)
From Coq Require Import Reals Lra Bool Psatz Arith Lia.
From Verif Require Import Base Alg Mat SpecMat LemMat ModelOps LemOps Inst ModelLie SpecLie LemLie LemSO3 LemSO3b LemSO3c LemSO3d ModelSE SpecSE LemSE.
Local Open Scope R_scope.

Lemma se3_exp_ln thr T w : 0 < thr < 1 -> rotation (rot T) -> so3_ln thr (rot T) = Ok w ->
  (w = zero3 \/ 2 / 1000 <= len3 w) ->
  exists v, se3_ln thr T = Ok v /\ ang v = w /\ se3_exp v = Ok T.
Proof.
  intros Hthr Hm Ew Hw. destruct T as [m p]. cbn [rot] in *.
  destruct (so3_ln_ok thr m Hthr Hm) as (a & t & Ua & Bt & E & M).
  rewrite E in Ew. injection Ew as <-.
  assert (L : len3 (scale3 t a) = t) by (rewrite len3_scale by lra; unfold len3; rewrite Ua, sqrt_1; ring).
  destruct Hw as [Z|Z].
  - assert (T0 : t = 0).
    { rewrite <- L, Z. unfold len3. replace (dot3 zero3 zero3) with 0 by (lie_unfold; ring). apply sqrt_0. }
    subst t. rewrite rot_matrix_0 in M. subst m.
    exists (mk6 p zero3). split; [|split; [auto|rewrite se3_exp_trans; reflexivity]].
    unfold se3_ln. cbn [rot trans]. rewrite E. cbn [bind]. rewrite Z.
    replace (dot3 zero3 zero3) with 0 by (lie_unfold; ring). rewrite sqrt_0.
    rewrite !R_ltb_f by lra. cbn [bind].
    replace (scale3 (- (1 / 2)) zero3) with zero3 by (lie_unfold; f_equal; ring).
    rewrite so3_exp_zero. cbn [bind]. rewrite Rdiv_ok by lra. cbn [bind]. do 2 f_equal.
    clear. dv. lie_unfold. f_equal; field.
  - rewrite L in Z. eexists. split; [exact (se3_ln_large thr m a t p Hthr Hm Ua (conj Z (proj2 Bt)) E M)|]. cbn [ang]. split; [reflexivity|].
    rewrite (se3_exp_large a t) by (auto; lra). rewrite M. do 2 f_equal.
    unfold Etr. rewrite comb_scale_arg, comb_comb by exact Ua.
    assert (Sp : 0 < sin (t / 2)) by (apply sin_gt_0; lra).
    pose proof (trig1 (t / 2)) as T1.
    assert (S2 : sin t = 2 * sin (t / 2) * cos (t / 2)) by (rewrite <- sin_2a; f_equal; field).
    assert (C2 : cos t = 1 - 2 * (sin (t / 2) * sin (t / 2))).
    { replace t with (2 * (t / 2)) at 1 by field. rewrite cos_2a. lra. }
    rewrite S2, C2. set (s := sin (t / 2)) in *. set (c := cos (t / 2)) in *.
    transitivity (comb a 1 0 1 p); [|apply comb_id]. f_equal.
    + transitivity (s * s + c * c); [field; lra|exact T1].
    + field. lra.
    + field. lra.
Qed.
Lemma se3_ln_exp thr u w T : 0 < thr < 1 -> 2 / 1000 <= len3 w -> len3 w < PI -> se3_exp (mk6 u w) = Ok T ->
  se3_ln thr T = Ok (mk6 u w).
Proof.
  intros Hthr L1 L2 E.
  assert (Hw : w <> zero3). { intros ->. revert L1. unfold len3. replace (dot3 zero3 zero3) with 0 by (lie_unfold; ring). rewrite sqrt_0. lra. }
  pose proof (unit3_len w Hw) as Ua. pose proof (scale_unit w Hw) as Sw.
  set (t := len3 w) in *. set (a := scale3 (1 / t) w) in *. clearbody a t.
  rewrite <- Sw in *. rewrite (se3_exp_large a t) in E by (auto; lra). injection E as <-.
  pose proof (rot_matrix_rotation a t Ua) as Hr.
  assert (El : so3_ln thr (rot_matrix a t) = Ok (scale3 t a)).
  { destruct (so3_ln_ok thr (rot_matrix a t) Hthr Hr) as (b & r & Ub & Br & El & Mb). rewrite El. f_equal. symmetry.
    apply rot_matrix_inj; auto. lra. }
  rewrite (se3_ln_large thr (rot_matrix a t) a t _ Hthr Hr Ua ltac:(lra) El eq_refl). do 2 f_equal.
  unfold Etr. rewrite comb_scale_arg, comb_comb by exact Ua.
  assert (Sp : 0 < sin (t / 2)) by (apply sin_gt_0; lra).
  pose proof (trig1 (t / 2)) as T1.
  assert (S2 : sin t = 2 * sin (t / 2) * cos (t / 2)) by (rewrite <- sin_2a; f_equal; field).
  assert (C2 : cos t = 1 - 2 * (sin (t / 2) * sin (t / 2))).
  { replace t with (2 * (t / 2)) at 1 by field. rewrite cos_2a. lra. }
  rewrite S2, C2. set (s := sin (t / 2)) in *. set (c := cos (t / 2)) in *.
  transitivity (comb a 1 0 1 u); [|apply comb_id]. f_equal.
  + transitivity (s * s + c * c); [field; lra|exact T1].
  + field. lra.
  + field. lra.
Qed.

(** derivative of exp at zero *)
Definition hatm (v : V6) (r c : nat) : R :=
  if (r <? 3)%nat then (if (c <? 3)%nat then ent (hat (ang v)) r c else comp3 (lin v) r) else 0.
Lemma gen6_hatm v r c : (r < 4)%nat -> (c < 4)%nat -> gen6 v r c = hatm v r c.
Proof.
  intros Hr Hc. unfold gen6, hatm, ent, comp3, hat. cbn [sum].
  destruct r as [|[|[|[|r]]]]; [| | | |lia]; (destruct c as [|[|[|[|c]]]]; [| | | |lia]);
  cbn -[Rmult Rplus Ropp IZR]; cbn [fadd f0 ROps]; ring.
Qed.
Lemma se3_exp_derivative v : exists f : R -> SE3, (forall t, se3_exp (mk6 (scale3 t (lin v)) (scale3 t (ang v))) = Ok (f t)) /\
  forall r c, (r < 4)%nat -> (c < 4)%nat -> derivable_pt_lim (fun t => hom3 (f t) r c) 0 (hatm v r c).
Proof.
  destruct v as [u w]. cbn [lin ang].
  exists (fun t => match se3_exp (mk6 (scale3 t u) (scale3 t w)) with Ok m => m | _ => se3_default end). split.
  { intros t. unfold se3_exp. cbn [lin ang].
    destruct (R_ltb (dot3 (scale3 t w) (scale3 t w)) (1 / 10 ^ 8)) eqn:E1; [reflexivity|].
    destruct (R_ltb (dot3 (scale3 t w) (scale3 t w)) (1 / 10 ^ 6)) eqn:E2; [reflexivity|].
    rewrite Rdiv_ok; [reflexivity|]. fold (len3 (scale3 t w)). apply R_ltb_false in E2.
    assert (0 < len3 (scale3 t w)); [|lra]. apply len3_pos. intros Z. rewrite Z in E2. revert E2. lie_unfold. lra. }
  intros i j Hi Hj.
  set (D := dot3 w w). assert (HD : 0 <= D) by apply dot3_nonneg.
  set (r := 1 / (10 ^ 4 * (1 + D))).
  assert (Hr : 0 < r). { apply Rdiv_lt_0_compat; lra. }
  assert (Hr2 : r * r * D < 1 / 10 ^ 8).
  { unfold r. replace (1 / (10 ^ 4 * (1 + D)) * (1 / (10 ^ 4 * (1 + D))) * D) with (1 / 10 ^ 8 * (D / ((1 + D) * (1 + D)))) by (field; lra).
    assert (D / ((1 + D) * (1 + D)) < 1); [|lra].
    apply (Rmult_lt_reg_r ((1 + D) * (1 + D))); [nra|]. replace (D / ((1 + D) * (1 + D)) * ((1 + D) * (1 + D))) with D by (field; lra). nra. }
  set (g := fun t => mkSE3 (rodrigues (scale3 t w) (1 - 1 / 6 * (t * t * D)) (1 / 2))
     (add3 (scale3 t u) (scale3 (1 / 2) (cross3 (scale3 t w) (scale3 t u))))).
  apply (derivable_pt_lim_locally_ext (fun t => hom3 (g t) i j) _ 0 (- r) r); [lra| |].
  { intros t Ht. f_equal. unfold se3_exp. cbn [lin ang].
    replace (dot3 (scale3 t w) (scale3 t w)) with (t * t * D) by (rewrite dot3_scale_l, dot3_scale_r; unfold D; ring).
    rewrite R_ltb_t; [reflexivity|]. apply Rle_lt_trans with (r * r * D); [|exact Hr2].
    apply Rmult_le_compat_r; [exact HD|nra]. }
  assert (Loc : forall a b c d f l, (forall t, f t = a + b * t + c * (t * t) + d * (t * t * t)) -> b = l -> derivable_pt_lim f 0 l).
  { intros a b c d f l E <-. apply (derivable_pt_lim_locally_ext (fun t => a + b * t + c * (t * t) + d * (t * t * t)) _ 0 (-1) 1); [lra|intros; symmetry; apply E|apply cubic_derivative]. }
  clearbody D. clear - Loc Hi Hj.
  unfold g, hom3, hatm, rodrigues, ent, comp3, hat. destruct w as [x y z], u as [a b c].
  destruct i as [|[|[|[|i]]]]; [| | | |lia]; (destruct j as [|[|[|[|j]]]]; [| | | |lia]);
    cbn [vx vy vz r0 r1 r2 scale3 add3 cross3 rot trans Nat.ltb Nat.leb lin ang].
  - apply (Loc 1 0 (- (1 / 2) * (y * y + z * z)) 0); [intros; field|reflexivity].
  - apply (Loc 0 (- z) (1 / 2 * (x * y)) (1 / 6 * D * z)); [intros; field|reflexivity].
  - apply (Loc 0 y (1 / 2 * (x * z)) (- (1 / 6) * D * y)); [intros; field|reflexivity].
  - apply (Loc 0 a (1 / 2 * (y * c - z * b)) 0); [intros; field|reflexivity].
  - apply (Loc 0 z (1 / 2 * (x * y)) (- (1 / 6) * D * z)); [intros; field|reflexivity].
  - apply (Loc 1 0 (- (1 / 2) * (x * x + z * z)) 0); [intros; field|reflexivity].
  - apply (Loc 0 (- x) (1 / 2 * (y * z)) (1 / 6 * D * x)); [intros; field|reflexivity].
  - apply (Loc 0 b (1 / 2 * (z * a - x * c)) 0); [intros; field|reflexivity].
  - apply (Loc 0 (- y) (1 / 2 * (x * z)) (1 / 6 * D * y)); [intros; field|reflexivity].
  - apply (Loc 0 x (1 / 2 * (y * z)) (- (1 / 6) * D * x)); [intros; field|reflexivity].
  - apply (Loc 1 0 (- (1 / 2) * (x * x + y * y)) 0); [intros; field|reflexivity].
  - apply (Loc 0 c (1 / 2 * (x * b - y * a)) 0); [intros; field|reflexivity].
  - apply (Loc 0 0 0 0); [intros; field|reflexivity].
  - apply (Loc 0 0 0 0); [intros; field|reflexivity].
  - apply (Loc 0 0 0 0); [intros; field|reflexivity].
  - apply (Loc 1 0 0 0); [intros; field|reflexivity].
Qed.

(** ** Two dimensions *)
Ltac unfold2 := unfold so2_mul, so2_mul_assign, so2_inverse, so2_act, so2_act_left, mm2, mv2, vm2, tr2, id2,
    add2, sub2, neg2, scale2, dot2, det2 in *; cbn [ux uy s0 s1] in *.
Lemma rotation2_form m : rotation2 m -> exists c s, c * c + s * s = 1 /\ m = mkM2 (mk2 c (- s)) (mk2 s c).
Proof.
  intros [(A & B & C) D]. destruct m as [[a b] [c d]]. unfold2. exists a, c.
  assert (E1 : d = a). { transitivity (d * (a * a + b * b)); [rewrite A; ring|]. transitivity (a * (a * d - b * c) + b * (a * c + b * d)); [ring|rewrite D, C; ring]. }
  assert (E2 : b = - c). { transitivity (b * (c * c + d * d)); [rewrite B; ring|]. transitivity (d * (a * c + b * d) - c * (a * d - b * c)); [ring|rewrite D, C; ring]. }
  subst d b. split; [lra|reflexivity].
Qed.
Lemma form_rotation2 c s : c * c + s * s = 1 -> rotation2 (mkM2 (mk2 c (- s)) (mk2 s c)).
Proof. intros H. unfold rotation2, orthonormal2. unfold2. repeat split; lra. Qed.

Lemma atan2_ok c s : c * c + s * s = 1 -> cos (atan2 s c) = c /\ sin (atan2 s c) = s /\ - PI < atan2 s c <= PI.
Proof.
  intros H. unfold atan2. pose proof PI_RGT_0 as Pp.
  destruct (R_ltb 0 c) eqn:E1.
  - apply R_ltb_spec in E1. pose proof (atan_bound (s / c)) as B.
    assert (Sq : sqrt (1 + (s / c)²) = 1 / c).
    { unfold Rsqr. replace (1 + s / c * (s / c)) with (1 / c * (1 / c)).
      - apply sqrt_square. apply Rlt_le, Rdiv_lt_0_compat; lra.
      - replace (1 / c * (1 / c)) with ((c * c + s * s) / c * (1 / c)) by (rewrite H; reflexivity). field. lra. }
    rewrite cos_atan, sin_atan, Sq. repeat split; try (field; lra); lra.
  - apply R_ltb_false in E1. destruct (R_ltb c 0) eqn:E2.
    + apply R_ltb_spec in E2.
      assert (Sq : sqrt (1 + (s / c)²) = - 1 / c).
      { unfold Rsqr. replace (1 + s / c * (s / c)) with (- 1 / c * (- 1 / c)).
        - apply sqrt_square. apply Rlt_le. replace (-1 / c) with (1 / - c) by (field; lra). apply Rdiv_lt_0_compat; lra.
        - replace (- 1 / c * (- 1 / c)) with ((c * c + s * s) / c * (1 / c)) by (rewrite H; field; lra). field. lra. }
      pose proof (atan_bound (s / c)) as B.
      destruct (R_ltb s 0) eqn:E3.
      * apply R_ltb_spec in E3.
        assert (P : 0 < s / c) by (replace (s / c) with ((- s) / (- c)) by (field; lra); apply Rdiv_lt_0_compat; lra).
        apply atan_increasing in P. rewrite atan_0 in P.
        replace (atan (s / c) - PI) with (- (PI - atan (s / c))) by ring.
        rewrite cos_neg, sin_neg, <- (cos_neg (PI - atan (s / c))).
        replace (- (PI - atan (s / c))) with (atan (s / c) - PI) at 1 by ring.
        rewrite sin_PI_x. rewrite cos_minus, cos_PI, sin_PI, cos_atan, sin_atan, Sq.
        repeat split; try (field; lra); lra.
      * apply R_ltb_false in E3. rewrite neg_cos, neg_sin, cos_atan, sin_atan, Sq.
        assert (P : s / c <= 0).
        { replace (s / c) with (- (s * / - c)) by (field; lra). assert (0 <= s * / - c); [|lra].
          apply Rmult_le_pos; [lra|apply Rlt_le, Rinv_0_lt_compat; lra]. }
        assert (atan (s / c) <= 0).
        { destruct P as [P|P]; [apply atan_increasing in P; rewrite atan_0 in P; lra|rewrite P, atan_0; lra]. }
        repeat split; try (field; lra); lra.
    + apply R_ltb_false in E2. assert (c = 0) by lra. subst c.
      destruct (R_ltb 0 s) eqn:E3.
      * apply R_ltb_spec in E3. assert (s = 1) by nra. subst s. rewrite cos_PI2, sin_PI2. repeat split; lra.
      * apply R_ltb_false in E3. assert (s = -1) by nra. subst s.
        rewrite R_ltb_t by lra. rewrite cos_neg, sin_neg, cos_PI2, sin_PI2. repeat split; lra.
Qed.
Lemma cos_one x : cos x = 1 -> - (2 * PI) < x < 2 * PI -> x = 0.
Proof.
  intros H B. assert (S0 : sin (x / 2) = 0).
  { assert (C : cos x = 1 - 2 * (sin (x / 2) * sin (x / 2))).
    { replace x with (2 * (x / 2)) at 1 by field. rewrite cos_2a. pose proof (trig1 (x / 2)). lra. }
    assert (Z : sin (x / 2) * sin (x / 2) = 0) by lra. apply Rmult_integral in Z. tauto. }
  destruct (Rtotal_order x 0) as [L|[E|G]]; [|exact E|]; exfalso.
  - assert (0 < sin (- (x / 2))) by (apply sin_gt_0; lra). rewrite sin_neg in H0. lra.
  - assert (0 < sin (x / 2)) by (apply sin_gt_0; lra). lra.
Qed.
Lemma angle_unique a b : cos a = cos b -> sin a = sin b -> - PI < a <= PI -> - PI < b <= PI -> a = b.
Proof.
  intros C S Ha Hb. assert (a - b = 0); [|lra]. apply cos_one; [|lra].
  rewrite cos_minus, C, S. pose proof (trig1 b). lra.
Qed.

(** complex multiplication in the plane *)
Definition comb2 (z1 z2 : R) (p : V2) : V2 := mk2 (z1 * ux p - z2 * uy p) (z2 * ux p + z1 * uy p).
Lemma comb2_comb2 y1 y2 z1 z2 p : comb2 y1 y2 (comb2 z1 z2 p) = comb2 (y1 * z1 - y2 * z2) (y1 * z2 + y2 * z1) p.
Proof. unfold comb2. cbn [ux uy]. f_equal; ring. Qed.
Lemma comb2_id p : comb2 1 0 p = p.
Proof. destruct p as [px py]. unfold comb2. cbn [ux uy]. f_equal; ring. Qed.
Lemma so2_exp_comb t p : so2_act (so2_exp t) p = comb2 (cos t) (sin t) p.
Proof. unfold so2_exp, comb2. destruct p as [px py]. unfold2. f_equal; ring. Qed.
Lemma so2_exp_add s t : so2_mul (so2_exp s) (so2_exp t) = so2_exp (s + t).
Proof. unfold so2_exp. rewrite cos_plus, sin_plus. unfold2. f_equal; f_equal; ring. Qed.
Lemma so2_exp_0 : so2_exp 0 = id2.
Proof. unfold so2_exp, id2. rewrite cos_0, sin_0, Ropp_0. reflexivity. Qed.
Lemma so2_exp_rotation t : rotation2 (so2_exp t).
Proof. apply form_rotation2. pose proof (trig1 t). lra. Qed.
Lemma so2_exp_ln m : rotation2 m -> so2_exp (so2_ln m) = m /\ - PI < so2_ln m <= PI.
Proof.
  intros H. destruct (rotation2_form m H) as (c & s & E & ->). unfold so2_ln, so2_exp. cbn [ux uy s0 s1].
  destruct (atan2_ok c s E) as (-> & -> & B). split; auto.
Qed.
Lemma so2_ln_exp t : - PI < t <= PI -> so2_ln (so2_exp t) = t.
Proof.
  intros H. unfold so2_ln, so2_exp. cbn [ux uy s0 s1].
  destruct (atan2_ok (cos t) (sin t)) as (C & S & B); [pose proof (trig1 t); lra|]. apply angle_unique; auto.
Qed.
(** translation of the SE2 exponential *)
Definition Etr2 (t : R) (u : V2) : V2 := comb2 (sin t) (1 - cos t) u.
Lemma se2_exp_large t x y : 1 / 1000 <= Rabs t ->
  se2_exp (mk3 x y t) = Ok (mkSE2 (so2_exp t) (comb2 (sin t / t) ((1 - cos t) / t) (mk2 x y))).
Proof.
  intros H. assert (T2 : 1 / 10 ^ 6 <= t * t).
  { replace (t * t) with (Rabs t * Rabs t); [nra|]. rewrite <- Rabs_mult. apply Rabs_right. nra. }
  assert (Tn : t <> 0) by nra.
  unfold se2_exp. cbn [vx vy vz]. rewrite !R_ltb_f by lra. rewrite Rdiv_ok by exact Tn. cbn [bind].
  unfold so2_exp. cbn [s0 s1 ux uy]. do 2 f_equal. unfold comb2. unfold2. f_equal; field; exact Tn.
Qed.
Lemma se2_exp_trans x y : se2_exp (mk3 x y 0) = Ok (mkSE2 id2 (mk2 x y)).
Proof.
  unfold se2_exp. cbn [vx vy vz]. rewrite R_ltb_t by lra. rewrite so2_exp_0. do 2 f_equal. unfold2. f_equal; ring.
Qed.
Lemma se2_exp_any t x y : t = 0 \/ 1 / 1000 <= Rabs t ->
  se2_exp (mk3 (t * x) (t * y) t) = Ok (mkSE2 (so2_exp t) (Etr2 t (mk2 x y))).
Proof.
  intros [->|H].
  - replace (0 * x) with 0 by ring. replace (0 * y) with 0 by ring. rewrite se2_exp_trans, so2_exp_0.
    do 2 f_equal. unfold Etr2, comb2. rewrite sin_0, cos_0. cbn [ux uy]. f_equal; ring.
  - rewrite se2_exp_large by exact H. do 2 f_equal.
    assert (t <> 0) by (intros ->; rewrite Rabs_R0 in H; lra). unfold Etr2, comb2. cbn [ux uy]. f_equal; field; auto.
Qed.
Lemma se2_exp_ln T : rotation2 (rot2 T) -> (so2_ln (rot2 T) = 0 \/ 1 / 1000 <= Rabs (so2_ln (rot2 T))) ->
  exists v, se2_ln T = Ok v /\ vz v = so2_ln (rot2 T) /\ se2_exp v = Ok T.
Proof.
  intros Hr Ht. destruct T as [m p]. cbn [rot2] in *. destruct (so2_exp_ln m Hr) as [Em Bt].
  unfold se2_ln. cbn [rot2 trans2]. set (t := so2_ln m) in *. clearbody t.
  destruct Ht as [->|Ht].
  - rewrite Rabs_R0, R_ltb_f by lra. cbn [bind]. rewrite Rdiv_ok by lra. cbn [bind].
    eexists. split; [reflexivity|]. cbn [vz]. split; [reflexivity|].
    replace (0 * - (1 / 2)) with 0 by ring. rewrite so2_exp_0. rewrite so2_exp_0 in Em. subst m.
    rewrite se2_exp_trans. do 2 f_equal. destruct p as [x y]. unfold2. f_equal; field.
  - assert (Tn : t <> 0) by (intros ->; rewrite Rabs_R0 in Ht; lra).
    rewrite R_ltb_t by lra. rewrite Rdiv_ok by exact Tn. cbn [bind].
    assert (Sn : sin (t / 2) <> 0).
    { destruct (Rlt_dec 0 t) as [P|P]; [assert (0 < sin (t / 2)) by (apply sin_gt_0; lra); lra|].
      assert (0 < sin (- (t / 2))) by (apply sin_gt_0; lra). rewrite sin_neg in H. lra. }
    assert (Hsh : 2 * (sin (t / 2) / t) <> 0).
    { intros Z. apply Sn. apply (f_equal (fun z => z * t / 2)) in Z. transitivity (2 * (sin (t / 2) / t) * t / 2); [field; exact Tn|rewrite Z; field]. }
    rewrite Rdiv_ok by exact Hsh. cbn [bind]. rewrite so2_exp_comb.
    eexists. split; [reflexivity|]. cbn [vz]. split; [reflexivity|].
    rewrite se2_exp_large by exact Ht. rewrite Em. do 2 f_equal.
    replace (t * - (1 / 2)) with (- (t / 2)) by field. rewrite cos_neg, sin_neg.
    assert (S2 : sin t = 2 * sin (t / 2) * cos (t / 2)) by (rewrite <- sin_2a; f_equal; field).
    pose proof (trig1 (t / 2)) as T1.
    assert (C2 : cos t = 1 - 2 * (sin (t / 2) * sin (t / 2))).
    { replace t with (2 * (t / 2)) at 1 by field. rewrite cos_2a. lra. }
    rewrite S2, C2. set (s := sin (t / 2)) in *. set (c := cos (t / 2)) in *.
    rewrite <- (comb2_id p) at 3.
    transitivity (comb2 (s * s + c * c) 0 p); [|rewrite T1; reflexivity].
    destruct p as [x y]. unfold comb2, scale2. cbn [ux uy]. f_equal; field; split; auto.
Qed.
Lemma se2_ln_exp v T : (vz v = 0 \/ 1 / 1000 <= Rabs (vz v)) -> - PI < vz v <= PI -> se2_exp v = Ok T -> se2_ln T = Ok v.
Proof.
  intros Ht B E. destruct v as [x y t]. cbn [vz] in *. unfold se2_ln.
  destruct Ht as [->|Ht].
  - rewrite se2_exp_trans in E. injection E as <-. cbn [rot2 trans2].
    rewrite <- so2_exp_0, so2_ln_exp by lra. rewrite Rabs_R0, R_ltb_f by lra. cbn [bind]. rewrite Rdiv_ok by lra. cbn [bind].
    replace (0 * - (1 / 2)) with 0 by ring. rewrite so2_exp_0. f_equal. unfold2. f_equal; field.
  - rewrite se2_exp_large in E by exact Ht. injection E as <-. cbn [rot2 trans2].
    rewrite so2_ln_exp by exact B.
    assert (Tn : t <> 0) by (intros ->; rewrite Rabs_R0 in Ht; lra).
    rewrite R_ltb_t by lra. rewrite Rdiv_ok by exact Tn. cbn [bind].
    assert (Sn : sin (t / 2) <> 0).
    { destruct (Rlt_dec 0 t) as [P|P]; [assert (0 < sin (t / 2)) by (apply sin_gt_0; lra); lra|].
      assert (0 < sin (- (t / 2))) by (apply sin_gt_0; lra). rewrite sin_neg in H. lra. }
    assert (Hsh : 2 * (sin (t / 2) / t) <> 0).
    { intros Z. apply Sn. apply (f_equal (fun z => z * t / 2)) in Z. transitivity (2 * (sin (t / 2) / t) * t / 2); [field; exact Tn|rewrite Z; field]. }
    rewrite Rdiv_ok by exact Hsh. cbn [bind]. rewrite so2_exp_comb.
    replace (t * - (1 / 2)) with (- (t / 2)) by field. rewrite cos_neg, sin_neg.
    assert (S2 : sin t = 2 * sin (t / 2) * cos (t / 2)) by (rewrite <- sin_2a; f_equal; field).
    pose proof (trig1 (t / 2)) as T1.
    assert (C2 : cos t = 1 - 2 * (sin (t / 2) * sin (t / 2))).
    { replace t with (2 * (t / 2)) at 1 by field. rewrite cos_2a. lra. }
    rewrite S2, C2. set (s := sin (t / 2)) in *. set (c := cos (t / 2)) in *.
    f_equal. unfold comb2, scale2. cbn [ux uy]. f_equal.
    + transitivity ((s * s + c * c) * x); [field; split; auto|rewrite T1; ring].
    + transitivity ((s * s + c * c) * y); [field; split; auto|rewrite T1; ring].
Qed.
