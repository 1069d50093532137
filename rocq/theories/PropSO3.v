(** * C52 C53 C54 C55 C56: rotations in three dimensions. *)
From Coq Require Import Reals Lra Bool Psatz Arith Lia.
From Verif Require Import Base Alg Mat SpecMat LemMat ModelOps LemOps Inst SpecLin ModelLie SpecLie LemLie LemSO3 LemSO3b LemSO3c LemSO3d.
Local Open Scope R_scope.

(** ** C52: group and action *)
Theorem C52_action : forall A B v, so3_act (so3_mul A B) v = so3_act A (so3_act B v) /\
  so3_act_left v (so3_mul A B) = so3_act_left (so3_act_left v A) B /\ so3_act so3_default v = v.
Proof. intros. split; [apply mm3_act|]. split; [apply vm3_act|apply mv3_id]. Qed.
Theorem C52_associative : forall A B C, so3_mul (so3_mul A B) C = so3_mul A (so3_mul B C) /\
  so3_mul so3_default A = A /\ so3_mul A so3_default = A.
Proof. intros. split; [apply mm3_assoc|]. split; [apply mm3_id_l|apply mm3_id_r]. Qed.
Theorem C52_inverse : forall A, rotation A ->
  so3_mul A (so3_inverse A) = so3_default /\ so3_mul (so3_inverse A) A = so3_default /\
  forall v, so3_act (so3_inverse A) (so3_act A v) = v /\ so3_act A (so3_act (so3_inverse A) v) = v /\ so3_act_left v A = so3_act (so3_inverse A) v.
Proof.
  intros A H. pose proof (rotation_tr_l A H) as L. pose proof (rotation_tr_r A H) as R.
  split; [exact R|]. split; [exact L|]. intros v.
  unfold so3_act, so3_inverse, so3_act_left. rewrite <- !mm3_act, L, R, mv3_id. split; [|split]; auto. apply vm3_tr.
Qed.
Theorem C52_closed : forall A B, rotation A -> rotation B ->
  rotation so3_default /\ rotation (so3_mul A B) /\ rotation (so3_inverse A) /\ so3_mul_assign A B = so3_mul A B.
Proof. intros A B HA HB. split; [apply rotation_id|]. split; [apply rotation_mul; auto|]. split; [apply rotation_inv; auto|reflexivity]. Qed.
(** rotations keep lengths, angles and handedness, and their adjoint is the action *)
Theorem C52_isometry : forall A u v, rotation A ->
  dot3 (so3_act A u) (so3_act A v) = dot3 u v /\ so3_act A (cross3 u v) = cross3 (so3_act A u) (so3_act A v).
Proof. intros A u v H. split; [apply rotation_dot|apply mv3_cross]; auto. Qed.
(** A hat(v) A^-1 = hat(adjoint v): the adjoint conjugates the generators *)
Theorem C52_adjoint : forall A v, rotation A -> so3_mul (so3_mul A (hat v)) (so3_inverse A) = hat (so3_adjoint A v).
Proof.
  intros A v H. unfold so3_adjoint, so3_act. rewrite <- (rotation_cof A H) at 3.
  unfold cof3. clear H. dv. lie_unfold. f_equal; f_equal; ring.
Qed.

(** The record operations are the library's matrix and vector operations (ModelOps.v). *)
Definition to_mat (m : M3) : mat R := mkmat 3 3 (ent m).
Definition to_vec (v : V3) : vec R := mkvec 3 (comp3 v).
Ltac three i H := destruct i as [|[|[|i]]]; [| | |exfalso; clear - H; cbn in H; lia].
Theorem C52_core_operations : forall A B v,
  gives_mat (mmul (to_mat A) (to_mat B)) 3 3 (ent (so3_mul A B)) /\
  gives_vec (mv (to_mat A) (to_vec v)) 3 (comp3 (so3_act A v)) /\
  gives_vec (vm (to_vec v) (to_mat A)) 3 (comp3 (so3_act_left v A)) /\
  mat_is (tr (to_mat A)) 3 3 (ent (so3_inverse A)) /\
  det 3 (ent A) = det3 A.
Proof.
  intros A B v. split; [|split; [|split; [|split]]].
  - eapply gives_mat_ext; [apply mmul_ok; reflexivity|reflexivity|reflexivity|]. intros i j Hi Hj.
    dv. three i Hi; three j Hj; cbn [mel mcols to_mat sum]; unfold ent, comp3; lie_unfold; cbn [fadd fmul f0 ROps]; ring.
  - eapply gives_vec_ext; [apply mv_ok; reflexivity|reflexivity|]. intros i Hi.
    dv. three i Hi; cbn [mel mcols vat to_mat to_vec sum]; unfold ent, comp3; lie_unfold; cbn [fadd fmul f0 ROps]; ring.
  - eapply gives_vec_ext; [apply vm_ok; reflexivity|reflexivity|]. intros i Hi.
    dv. three i Hi; cbn [mel mrows vat to_mat to_vec sum]; unfold ent, comp3; lie_unfold; cbn [fadd fmul f0 ROps]; ring.
  - split; [reflexivity|]. split; [reflexivity|]. intros i j Hi Hj. dv. three i Hi; three j Hj; reflexivity.
  - unfold det, skip, sgn. dv. unfold ent, comp3, det3. cbn. ring.
Qed.
Print Assumptions C52_action.
Print Assumptions C52_inverse.
Print Assumptions C52_adjoint.
Print Assumptions C52_core_operations.
Example C52_nonvacuous : rotation (mkM (mk3 0 (-1) 0) (mk3 1 0 0) (mk3 0 0 1)) /\
  so3_act (mkM (mk3 0 (-1) 0) (mk3 1 0 0) (mk3 0 0 1)) (mk3 1 2 3) = mk3 (-2) 1 3.
Proof. unfold rotation, orthonormal. lie_unfold. repeat split; try ring. f_equal; ring. Qed.

(** ** C53: coerce *)
(** Positive determinant (so independent rows): a rotation q with m = L q, L lower triangular with a positive diagonal. *)
Theorem C53_coerce : forall m, 0 < det3 m -> exists q, so3_of_matrix m = Ok q /\ rotation q /\
  exists l00 l10 l11 l20 l21 l22, 0 < l00 /\ 0 < l11 /\ 0 < l22 /\
    r0 m = scale3 l00 (r0 q) /\ r1 m = add3 (scale3 l10 (r0 q)) (scale3 l11 (r1 q)) /\
    r2 m = add3 (add3 (scale3 l20 (r0 q)) (scale3 l21 (r1 q))) (scale3 l22 (r2 q)).
Proof.
  intros m H. destruct (coerce_cases m) as [[_ Z]|(q & Ho & L & [(D & Dq & E)|(D & _)])]; [lra| |lra].
  exists q. split; [exact E|]. split; [split; auto|exact L].
Qed.
Theorem C53_keeps_rotations : forall m, rotation m -> so3_of_matrix m = Ok m.
Proof. exact coerce_rotation. Qed.
(** Dependent rows: no finite result; left-handed rows: the assertion stops the program. *)
Theorem C53_rejects : forall m, (det3 m = 0 -> so3_of_matrix m = NonFinite) /\ (det3 m < 0 -> so3_of_matrix m = Abort DAssert).
Proof. intros m. destruct (coerce_cases m) as [[E Z]|(q & Ho & L & [(D & Dq & E)|(D & _ & E)])]; split; intros; auto; lra. Qed.
Theorem C53_idempotent : forall m q, so3_of_matrix m = Ok q -> so3_of_matrix q = Ok q.
Proof.
  intros m q Eq. destruct (coerce_cases m) as [[E Z]|(q' & Ho & L & [(D & Dq & E)|(D & _ & E)])]; unfold so3_of_matrix in *; rewrite E in Eq; try discriminate.
  injection Eq as <-. apply coerce_rotation. split; auto.
Qed.

(** SO2 *)
Lemma unit2_ok v : dot2 v v <> 0 -> exists k, 0 < k /\ k * k * dot2 v v = 1 /\ unit2 v = Ok (scale2 k v).
Proof.
  intros H. assert (P : 0 < dot2 v v) by (unfold dot2 in *; nra).
  pose proof (sqrt_lt_R0 _ P) as Sp. pose proof (sqrt_sqrt (dot2 v v) ltac:(lra)) as Ss.
  exists (1 / sqrt (dot2 v v)). split; [apply Rdiv_lt_0_compat; lra|]. split.
  - rewrite <- Ss at 3. field. lra.
  - unfold unit2. rewrite Rdiv_ok by lra. reflexivity.
Qed.
Theorem C53_so2_coerce : forall m, det2 m <> 0 -> exists q, so2_of_matrix m = Ok q /\ orthonormal2 q /\
  (0 < det2 m -> det2 q = 1) /\ (det2 m < 0 -> det2 q = -1) /\ exists k, 0 < k /\ s0 m = scale2 k (s0 q).
Proof.
  assert (G : forall m, det2 m <> 0 -> exists q, so2_coerce m = Ok q /\ orthonormal2 q /\
     (exists l, 0 < l /\ det2 q = l * det2 m) /\ (exists k, 0 < k /\ s0 q = scale2 k (s0 m))).
  { intros m H. unfold so2_coerce.
    assert (Z0 : dot2 (s0 m) (s0 m) <> 0).
    { intros Z. apply H. unfold det2, dot2 in *. assert (ux (s0 m) = 0) by nra. assert (uy (s0 m) = 0) by nra. nra. }
    destruct (unit2_ok _ Z0) as (k & Kp & Kn & ->). cbn [bind].
    set (a := scale2 k (s0 m)). set (b := sub2 (s1 m) (scale2 (dot2 a (s1 m)) a)).
    assert (Ua : dot2 a a = 1) by (unfold a, scale2, dot2 in *; cbn [ux uy]; lra).
    assert (Pb : dot2 a b = 0).
    { transitivity (dot2 a (s1 m) * (1 - dot2 a a)); [unfold b, sub2, scale2, dot2; cbn [ux uy]; ring|rewrite Ua; ring]. }
    assert (Db : ux a * uy b - uy a * ux b = k * det2 m).
    { unfold b, sub2, scale2, det2. cbn [ux uy]. unfold a, scale2. cbn [ux uy]. ring. }
    assert (Zb : dot2 b b <> 0).
    { intros Z. assert (ux b = 0) by (unfold dot2 in *; nra). assert (uy b = 0) by (unfold dot2 in *; nra).
      apply H. rewrite H0, H1 in Db. assert (k * det2 m = 0) by lra. apply Rmult_integral in H2. lra. }
    destruct (unit2_ok _ Zb) as (l & Lp & Ln & ->). cbn [bind].
    eexists; split; [reflexivity|]. split; [|split].
    - unfold orthonormal2. cbn [s0 s1]. repeat split; auto.
      + unfold scale2, dot2 in *. cbn [ux uy]. lra.
      + transitivity (l * dot2 a b); [unfold scale2, dot2; cbn [ux uy]; ring|rewrite Pb; ring].
    - exists (l * k). split; [nra|]. unfold det2 at 1. cbn [s0 s1 scale2 ux uy].
      transitivity (l * (ux a * uy b - uy a * ux b)); [ring|rewrite Db; ring].
    - exists k. split; auto. }
  assert (D1 : forall q, orthonormal2 q -> det2 q * det2 q = 1).
  { intros q (A & B & C). transitivity (dot2 (s0 q) (s0 q) * dot2 (s1 q) (s1 q) - dot2 (s0 q) (s1 q) * dot2 (s0 q) (s1 q));
    [unfold det2, dot2; ring|rewrite A, B, C; ring]. }
  intros m H. destruct (G m H) as (q & Eq & Ho & (l & Lp & Dq) & (k & Kp & Sk)).
  assert (Hq : det2 q <> 0) by (rewrite Dq; intros Z; apply Rmult_integral in Z; lra).
  destruct (G q Hq) as (q' & Eq' & Ho' & (l' & Lp' & Dq') & (k' & Kp' & Sk')).
  unfold so2_of_matrix. rewrite Eq. cbn [bind]. exists q'. split; [exact Eq'|]. split; [exact Ho'|].
  pose proof (D1 q' Ho') as N. rewrite Dq, <- Rmult_assoc in Dq'. assert (LL : 0 < l' * l) by nra.
  split; [intros; assert (0 < det2 q') by nra; nra|]. split; [intros; assert (det2 q' < 0) by nra; nra|].
  exists (/ k' * / k). split; [apply Rmult_lt_0_compat; apply Rinv_0_lt_compat; auto|].
  rewrite Sk', Sk. destruct (s0 m) as [x y]. unfold scale2. cbn [ux uy]. f_equal; field; lra.
Qed.
(** SO2 does not check handedness: a reflection is accepted and the SO2 is not a rotation. *)
Theorem C53_so2_reflection_refuted :
  ~ (forall m q, so2_of_matrix m = Ok q -> rotation2 q).
Proof.
  intros H. destruct (C53_so2_coerce (mkM2 (mk2 1 0) (mk2 0 (-1)))) as (q & E & _ & _ & N & _).
  - unfold det2; cbn [s0 s1 ux uy]; lra.
  - destruct (H _ _ E) as [_ D]. rewrite N in D by (unfold det2; cbn [s0 s1 ux uy]; lra). lra.
Qed.
Print Assumptions C53_coerce.
Print Assumptions C53_keeps_rotations.
Print Assumptions C53_so2_coerce.
Print Assumptions C53_so2_reflection_refuted.
Example C53_nonvacuous : 0 < det3 (mkM (mk3 2 0 0) (mk3 1 3 0) (mk3 5 1 4)) /\ det3 (mkM (mk3 1 0 0) (mk3 0 1 0) (mk3 0 0 (-1))) < 0
  /\ det3 (mkM (mk3 1 2 3) (mk3 2 4 6) (mk3 0 0 1)) = 0.
Proof. lie_unfold. repeat split; lra. Qed.

(** ** C54: rotation from two vectors *)
(** Non-zero vectors that do not point in opposite directions. *)
Theorem C54_takes_a_to_b : forall a b, a <> zero3 -> b <> zero3 -> (forall k, k < 0 -> b <> scale3 k a) ->
  exists m, so3_of_vectors a b = Ok m /\ rotation m /\
    so3_act m (scale3 (1 / len3 a) a) = scale3 (1 / len3 b) b /\ so3_act m (cross3 a b) = cross3 a b.
Proof.
  intros a b Ha Hb Hn. destruct (V3_dec (cross3 a b) zero3) as [Z|Z]; [|apply of_vectors_ok, Z].
  rewrite (of_vectors_parallel a b Z). pose proof (cross_zero_parallel a b Ha Z) as E.
  assert (Da : 0 < dot3 a a). { pose proof (len3_pos a Ha). rewrite <- len3_sq. nra. }
  destruct (Rlt_dec (dot3 a b) 0) as [L|L].
  { exfalso. apply (Hn (dot3 a b / dot3 a a)); [|exact E]. unfold Rdiv. apply Ropp_lt_cancel.
    rewrite Ropp_0, Ropp_mult_distr_l. apply Rmult_lt_0_compat; [lra|apply Rinv_0_lt_compat, Da]. }
  exists id3. split; [reflexivity|]. split; [apply rotation_id|]. unfold so3_act. rewrite !mv3_id. split; [|reflexivity].
  set (k := dot3 a b / dot3 a a) in *.
  assert (Kp : 0 < k).
  { destruct (Rtotal_order k 0) as [K|[K|K]]; auto; exfalso.
    - exact (Hn k K E).
    - apply Hb. rewrite E, K. clear. dv. lie_unfold. f_equal; ring. }
  rewrite E, len3_scale, scale3_comm by lra. f_equal. pose proof (len3_pos a Ha). field. lra.
Qed.
(** a zero vector gives the identity; opposite directions fail the assertion *)
Theorem C54_degenerate : forall a b, (a = zero3 \/ b = zero3 -> so3_of_vectors a b = Ok id3) /\
  (a <> zero3 -> (exists k, k < 0 /\ b = scale3 k a) -> so3_of_vectors a b = Abort DAssert).
Proof.
  intros a b. split.
  - intros H. assert (Z : cross3 a b = zero3) by (destruct H as [-> | ->]; dv; lie_unfold; f_equal; ring).
    rewrite (of_vectors_parallel a b Z). destruct (Rlt_dec _ 0) as [L|L]; [exfalso|reflexivity].
    revert L. destruct H as [-> | ->]; dv; lie_unfold; lra.
  - intros Ha (k & Hk & ->). rewrite of_vectors_parallel by (clear; dv; lie_unfold; f_equal; ring).
    destruct (Rlt_dec _ 0) as [L|L]; [reflexivity|]. exfalso; apply L. rewrite dot3_scale_r.
    pose proof (len3_pos a Ha). rewrite <- len3_sq. assert (0 < len3 a * len3 a) by nra. nra.
Qed.
Print Assumptions C54_takes_a_to_b.
Print Assumptions C54_degenerate.
Example C54_nonvacuous : exists a b, a <> zero3 /\ b <> zero3 /\ (forall k, k < 0 -> b <> scale3 k a) /\ cross3 a b <> zero3.
Proof.
  exists (mk3 1 0 0), (mk3 1 1 0). unfold zero3, scale3, cross3. cbn [vx vy vz].
  repeat split; intros; intros E; injection E; intros; lra.
Qed.

(** ** C55: the exponential *)
(** |w| >= 1/1000: exactly the rotation about w by the angle |w|, with trace 1+2cos|w|. *)
Theorem C55_rotation_about_axis : forall w, 1 / 10 ^ 6 <= dot3 w w -> exists m, so3_exp w = Ok m /\ rotation m /\
  (forall p, so3_act m p = rotate (scale3 (1 / len3 w) w) (len3 w) p) /\ trace3 m = 1 + 2 * cos (len3 w).
Proof.
  intros w H. exists (exp3 w). split; [apply so3_exp_large, H|]. split; [apply exp3_rotation|]. split; [intros p; apply rot_matrix_act|].
  assert (Hw : w <> zero3). { intros ->. revert H. lie_unfold. lra. }
  rewrite exp3_rodrigues, rodrigues_trace, <- len3_sq by exact Hw. pose proof (len3_pos w Hw). field. lra.
Qed.
(** |w| < 1/1000: a result within 1e-17 of the true rotation in every entry (the Taylor branches). *)
Theorem C55_small_angles : forall w, dot3 w w < 1 / 10 ^ 6 -> exists m q, so3_exp w = Ok m /\ rotation q /\
  (w = zero3 -> m = id3) /\ (w <> zero3 -> forall p, so3_act q p = rotate (scale3 (1 / len3 w) w) (len3 w) p) /\
  forall i j, Rabs (ent m i j - ent q i j) <= 1 / 10 ^ 17.
Proof.
  intros w H. destruct (so3_exp_close w H) as (m & E & ((a1 & a2 & a3) & (b1 & b2 & b3) & (c1 & c2 & c3))).
  exists m, (exp3 w). split; [exact E|]. split; [apply exp3_rotation|].
  split; [intros ->; rewrite so3_exp_zero in E; congruence|].
  split; [intros _ p; apply rot_matrix_act|].
  intros i j. unfold ent, comp3. destruct i as [|[|i]]; destruct j as [|[|j]]; assumption.
Qed.
(** For every w, including the Taylor range: the axis is fixed and exp(-w) is the transpose. *)
Theorem C55_axis_and_inverse : forall w, exists m, so3_exp w = Ok m /\ so3_act m w = w /\ so3_exp (neg3 w) = Ok (so3_inverse m).
Proof.
  intros w. destruct (so3_exp_form w) as (A & B & E & E'). exists (rodrigues w A B). split; [exact E|].
  split; [apply rodrigues_fix|]. rewrite E'. unfold so3_inverse. rewrite rodrigues_tr. reflexivity.
Qed.
(** Rotations about one axis compose by adding angles. *)
Theorem C55_one_parameter : forall a s t, dot3 a a = 1 ->
  (s = 0 \/ 1 / 1000 <= Rabs s) -> (t = 0 \/ 1 / 1000 <= Rabs t) -> (s + t = 0 \/ 1 / 1000 <= Rabs (s + t)) ->
  exists ms mt, so3_exp (scale3 s a) = Ok ms /\ so3_exp (scale3 t a) = Ok mt /\ so3_exp (scale3 (s + t) a) = Ok (so3_mul ms mt).
Proof.
  intros a s t Ha Hs Ht Hst.
  assert (G : forall u, (u = 0 \/ 1 / 1000 <= Rabs u) -> so3_exp (scale3 u a) = Ok (rot_matrix a u)).
  { intros u Hu. rewrite <- (exp3_unit a u Ha). destruct Hu as [->|Hu].
    - rewrite exp3_unit, rot_matrix_0 by exact Ha. replace (scale3 0 a) with zero3 by (clear; dv; lie_unfold; f_equal; ring). apply so3_exp_zero.
    - apply so3_exp_large. rewrite dot3_scale_l, dot3_scale_r, Ha.
      replace (u * (u * 1)) with (Rabs u * Rabs u); [|rewrite <- Rabs_mult, Rabs_right; [ring|apply Rle_ge, Rle_0_sqr]]. nra. }
  exists (rot_matrix a s), (rot_matrix a t). rewrite !G by assumption. split; [auto|]. split; [auto|].
  unfold so3_mul. rewrite rot_matrix_add by exact Ha. reflexivity.
Qed.
(** The derivative of t -> exp(t w) at 0 is w0 G0 + w1 G1 + w2 G2, whose application is generator_field. *)
Theorem C55_derivative : forall w, exists f : R -> M3, (forall t, so3_exp (scale3 t w) = Ok (f t)) /\
  forall i j, (i < 3)%nat -> (j < 3)%nat -> derivable_pt_lim (fun t => ent (f t) i j) 0
    (vx w * ent (so3_generator 0) i j + vy w * ent (so3_generator 1) i j + vz w * ent (so3_generator 2) i j).
Proof.
  intros w. destruct (so3_exp_derivative w) as (f & E & D). exists f. split; [exact E|]. intros i j Hi Hj.
  replace (vx w * ent (so3_generator 0) i j + vy w * ent (so3_generator 1) i j + vz w * ent (so3_generator 2) i j) with (ent (hat w) i j); [apply D; auto|].
  unfold so3_generator, hat, ent, comp3. three i Hi; three j Hj; cbn [r0 r1 r2 vx vy vz]; ring.
Qed.
Theorem C55_generator_field : forall i p, (i < 3)%nat -> so3_generator_field i p = mv3 (so3_generator i) p /\
  so3_generator i = hat (mk3 (if Nat.eqb i 0 then 1 else 0) (if Nat.eqb i 1 then 1 else 0) (if Nat.eqb i 2 then 1 else 0)).
Proof.
  intros i p Hi. unfold so3_generator, so3_generator_field, hat. three i Hi; dv; cbn [Nat.eqb]; lie_unfold; (split; [f_equal; ring|f_equal; f_equal; ring]).
Qed.
(** The Taylor branch is an approximation: its determinant is not exactly 1. *)
Theorem C55_taylor_branch_inexact : forall w, 0 < dot3 w w < 1 / 10 ^ 8 -> exists m, so3_exp w = Ok m /\ det3 m <> 1.
Proof.
  intros w H. unfold so3_exp, so3_coeffs. rewrite R_ltb_t by lra. cbn [bind]. eexists; split; [reflexivity|].
  rewrite rodrigues_det. set (d := dot3 w w) in *. intros E.
  assert (Z : d * d * (1 / 36 * d - 1 / 12) = 0) by lra.
  apply Rmult_integral in Z. destruct Z as [Z|Z]; [apply Rmult_integral in Z|]; lra.
Qed.
Print Assumptions C55_rotation_about_axis.
Print Assumptions C55_small_angles.
Print Assumptions C55_one_parameter.
Print Assumptions C55_derivative.
Example C55_nonvacuous : exists w, 1 / 10 ^ 6 <= dot3 w w /\ w <> zero3 /\ (exists v, v <> zero3 /\ dot3 v v < 1 / 10 ^ 6).
Proof.
  exists (mk3 1 2 2). split; [lie_unfold; lra|]. split; [intros E; injection E; lra|].
  exists (mk3 (1 / 10 ^ 4) 0 0). split; [intros E; injection E; lra|lie_unfold; lra].
Qed.

(** ** C56: the logarithm *)
(** For every rotation: ln succeeds, |ln R| <= pi, and R is the rotation about ln R by |ln R|;
    exp(ln R) is R itself, or within 1e-17 per entry when the angle is in exp's Taylor range. *)
Theorem C56_exp_ln : forall thr m, 0 < thr < 1 -> rotation m -> exists w, so3_ln thr m = Ok w /\ len3 w <= PI /\
  (w <> zero3 -> forall p, so3_act m p = rotate (scale3 (1 / len3 w) w) (len3 w) p) /\ (w = zero3 -> m = id3) /\
  (w = zero3 \/ 1 / 1000 <= len3 w -> so3_exp w = Ok m) /\
  (len3 w < 1 / 1000 -> exists m', so3_exp w = Ok m' /\ forall i j, Rabs (ent m' i j - ent m i j) <= 1 / 10 ^ 17).
Proof.
  intros thr m Ht Hm. destruct (so3_ln_ok thr m Ht Hm) as (a & t & Ua & Bt & E & M).
  exists (scale3 t a). split; [exact E|].
  assert (L : len3 (scale3 t a) = t).
  { rewrite len3_scale by lra. unfold len3. rewrite Ua, sqrt_1. ring. }
  assert (Ex : exp3 (scale3 t a) = m) by (rewrite exp3_unit; auto).
  split; [lra|]. split; [intros _ p; rewrite <- Ex; apply rot_matrix_act|].
  split; [intros Z; rewrite <- Ex, Z; apply exp3_zero|]. rewrite L.
  split.
  - intros [Z|Z].
    + rewrite Z, so3_exp_zero, <- exp3_zero, <- Z, Ex. reflexivity.
    + rewrite so3_exp_large, Ex; [reflexivity|]. rewrite <- len3_sq, L. nra.
  - intros Z. destruct (so3_exp_close (scale3 t a)) as (m' & E' & ((a1 & a2 & a3) & (b1 & b2 & b3) & (c1 & c2 & c3))); [rewrite <- len3_sq, L; nra|].
    exists m'. split; [exact E'|]. rewrite Ex in *. intros i j. unfold ent, comp3. destruct i as [|[|i]]; destruct j as [|[|j]]; assumption.
Qed.
(** ln(exp w) = w for |w| < pi; in exp's Taylor range up to a relative error of 1e-17. *)
Theorem C56_ln_exp : forall thr w m, 0 < thr < 1 -> len3 w < PI -> (w = zero3 \/ 1 / 1000 <= len3 w) ->
  so3_exp w = Ok m -> so3_ln thr m = Ok w.
Proof.
  intros thr w m Ht Hl Hw Em.
  assert (Em' : m = exp3 w).
  { destruct Hw as [->|Hw]; [rewrite so3_exp_zero in Em; rewrite exp3_zero; congruence|].
    rewrite so3_exp_large in Em; [congruence|]. rewrite <- len3_sq. nra. }
  destruct (so3_ln_ok thr m Ht) as (a & t & Ua & Bt & E & M); [rewrite Em'; apply exp3_rotation|].
  rewrite E. f_equal. destruct (V3_dec w zero3) as [->|Z].
  - rewrite exp3_zero in Em'. symmetry.
    replace zero3 with (scale3 0 (mk3 1 0 0)) by (lie_unfold; f_equal; ring).
    apply rot_matrix_inj; auto; [lie_unfold; ring|pose proof PI_RGT_0; lra|]. rewrite rot_matrix_0, M. auto.
  - rewrite <- (scale_unit w Z). symmetry. apply rot_matrix_inj; [apply unit3_len, Z|exact Ua| |exact Bt|].
    + split; [apply len3_nonneg|exact Hl].
    + rewrite M. symmetry; exact Em'.
Qed.
Theorem C56_ln_exp_small_angles : forall thr w m, 0 < thr < 999 / 1000 -> 0 < dot3 w w < 1 / 10 ^ 6 -> so3_exp w = Ok m ->
  exists k, so3_ln thr m = Ok (scale3 k w) /\ Rabs (k - 1) <= 1 / 10 ^ 17.
Proof. exact so3_ln_exp_small. Qed.
Print Assumptions C56_exp_ln.
Print Assumptions C56_ln_exp.
Print Assumptions C56_ln_exp_small_angles.
(** both extreme cases occur: a half turn (third branch) and a quarter turn *)
Example C56_nonvacuous : 0 < sqrt (1 / 2) < 999 / 1000 /\ rotation (mkM (mk3 (-1) 0 0) (mk3 0 (-1) 0) (mk3 0 0 1)) /\
  exists w, so3_ln (sqrt (1 / 2)) (mkM (mk3 (-1) 0 0) (mk3 0 (-1) 0) (mk3 0 0 1)) = Ok w /\ len3 w = PI.
Proof.
  assert (S2 : 0 < sqrt (1 / 2) < 999 / 1000).
  { pose proof (sqrt_lt_R0 (1 / 2) ltac:(lra)). pose proof (sqrt_sqrt (1 / 2) ltac:(lra)). split; nra. }
  split; [exact S2|].
  assert (Hr : rotation (mkM (mk3 (-1) 0 0) (mk3 0 (-1) 0) (mk3 0 0 1))) by (unfold rotation, orthonormal; lie_unfold; repeat split; ring).
  split; [exact Hr|]. destruct (so3_ln_ok (sqrt (1 / 2)) _ ltac:(lra) Hr) as (a & t & Ua & Bt & E & M).
  exists (scale3 t a). split; [exact E|]. rewrite len3_scale by lra. unfold len3. rewrite Ua, sqrt_1, Rmult_1_r.
  assert (C : cos t = -1).
  { assert (T : trace3 (rot_matrix a t) = -1) by (rewrite M; lie_unfold; ring).
    rewrite rot_matrix_rodrigues, rodrigues_trace, Ua in T by exact Ua. lra. }
  rewrite <- (acos_cos t) by exact Bt. rewrite C. replace (-1) with (-(1)) by lra. rewrite acos_opp, acos_1. ring.
Qed.
