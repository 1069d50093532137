(** * Lemmas on SO3: rotation from two vectors, exponential, logarithm. *)
From Coq Require Import Reals Lra Bool Psatz.
From Verif Require Import Base Alg Inst ModelLie SpecLie LemLie.
Local Open Scope R_scope.

(** ** Rotation taking one direction to another *)
Lemma frame_rotation u n : dot3 u u = 1 -> dot3 n n = 1 -> dot3 u n = 0 -> rotation (mkM u n (cross3 u n)).
Proof.
  intros A B C.
  assert (L : dot3 (cross3 u n) (cross3 u n) = 1).
  { transitivity (dot3 u u * dot3 n n - dot3 u n * dot3 u n); [dv; lie_unfold; ring|rewrite A, B, C; ring]. }
  split.
  - unfold orthonormal. cbn [r0 r1 r2]. repeat split; auto; clear; dv; lie_unfold; ring.
  - rewrite <- det3_rows. exact L.
Qed.
Lemma frame_act u n : dot3 u u = 1 -> dot3 u n = 0 -> mv3 (mkM u n (cross3 u n)) u = mk3 1 0 0.
Proof. intros A B. unfold mv3. cbn [r0 r1 r2]. rewrite A, (dot3_comm n), B. f_equal. clear; dv; lie_unfold; ring. Qed.
Lemma frame_act_n u n : dot3 n n = 1 -> dot3 u n = 0 -> mv3 (mkM u n (cross3 u n)) n = mk3 0 1 0.
Proof. intros A B. unfold mv3. cbn [r0 r1 r2]. rewrite A, B. f_equal. clear; dv; lie_unfold; ring. Qed.
Lemma mv3_scale m k v : mv3 m (scale3 k v) = scale3 k (mv3 m v).
Proof. dv. lie_unfold. f_equal; ring. Qed.

Lemma of_vectors_ok a b : cross3 a b <> zero3 ->
  exists m, so3_of_vectors a b = Ok m /\ rotation m /\
    mv3 m (scale3 (1 / len3 a) a) = scale3 (1 / len3 b) b /\ mv3 m (cross3 a b) = cross3 a b.
Proof.
  intros H. unfold so3_of_vectors.
  assert (Ha : a <> zero3) by (intros ->; apply H; clear; dv; lie_unfold; f_equal; ring).
  assert (Hb : b <> zero3) by (intros ->; apply H; clear; dv; lie_unfold; f_equal; ring).
  destruct (R_eqb (dot3 (cross3 a b) (cross3 a b)) 0) eqn:E.
  { apply R_eqb_spec in E. exfalso; apply H, dot3_zero, E. }
  rewrite (unit3_ok _ H), (unit3_ok a Ha), (unit3_ok b Hb). cbn [bind].
  pose proof (unit3_len _ H) as Un. pose proof (unit3_len a Ha) as Ua. pose proof (unit3_len b Hb) as Ub.
  set (n := scale3 (1 / len3 (cross3 a b)) (cross3 a b)) in *.
  set (ua := scale3 (1 / len3 a) a) in *. set (ub := scale3 (1 / len3 b) b) in *.
  assert (Pa : dot3 ua n = 0).
  { unfold ua, n. rewrite dot3_scale_l, dot3_scale_r. replace (dot3 a (cross3 a b)) with 0 by (clear; dv; lie_unfold; ring). ring. }
  assert (Pb : dot3 ub n = 0).
  { unfold ub, n. rewrite dot3_scale_l, dot3_scale_r. replace (dot3 b (cross3 a b)) with 0 by (clear; dv; lie_unfold; ring). ring. }
  pose proof (frame_rotation ua n Ua Un Pa) as Fa. pose proof (frame_rotation ub n Ub Un Pb) as Fb.
  eexists. split; [reflexivity|]. split; [apply rotation_mul; [apply rotation_inv, Fb|exact Fa]|].
  assert (G : forall p q, mv3 (mkM ub n (cross3 ub n)) p = q -> mv3 (tr3 (mkM ub n (cross3 ub n))) q = p).
  { intros p q <-. rewrite <- mm3_act, (rotation_tr_l _ Fb). apply mv3_id. }
  split.
  - rewrite mm3_act, (frame_act ua n Ua Pa). apply G, (frame_act ub n Ub Pb).
  - assert (N : mv3 (mm3 (tr3 (mkM ub n (cross3 ub n))) (mkM ua n (cross3 ua n))) n = n).
    { rewrite mm3_act, (frame_act_n ua n Un Pa). apply G, (frame_act_n ub n Un Pb). }
    rewrite <- (scale_unit _ H). fold n. rewrite mv3_scale, N. reflexivity.
Qed.

Lemma cross_zero_parallel a b : a <> zero3 -> cross3 a b = zero3 -> b = scale3 (dot3 a b / dot3 a a) a.
Proof.
  intros Ha H. assert (D : dot3 a a <> 0) by (intros E; apply Ha, dot3_zero, E).
  assert (G : scale3 (dot3 a a) b = scale3 (dot3 a b) a).
  { destruct a as [a0 a1 a2], b as [b0 b1 b2]. revert H. lie_unfold. intros H; injection H; intros H2 H1 H0.
    f_equal; apply Rminus_diag_uniq.
    - transitivity (a2 * (a2 * b0 - a0 * b2) - a1 * (a0 * b1 - a1 * b0)); [ring|rewrite H1, H2; ring].
    - transitivity (a0 * (a0 * b1 - a1 * b0) - a2 * (a1 * b2 - a2 * b1)); [ring|rewrite H0, H2; ring].
    - transitivity (a1 * (a1 * b2 - a2 * b1) - a0 * (a2 * b0 - a0 * b2)); [ring|rewrite H0, H1; ring]. }
  transitivity (scale3 (1 / dot3 a a) (scale3 (dot3 a a) b)).
  - set (k := dot3 a a) in *. clearbody k. clear - D. dv. lie_unfold. f_equal; field; auto.
  - rewrite G. set (k := dot3 a a) in *. set (l := dot3 a b) in *. clearbody k l. clear - D. dv. lie_unfold. f_equal; field; auto.
Qed.
Lemma len3_scale k v : 0 <= k -> len3 (scale3 k v) = k * len3 v.
Proof.
  intros H. unfold len3. rewrite dot3_scale_l, dot3_scale_r, <- Rmult_assoc.
  rewrite sqrt_mult; [|nra|apply dot3_nonneg]. rewrite sqrt_square; auto.
Qed.
Lemma of_vectors_parallel a b : cross3 a b = zero3 ->
  so3_of_vectors a b = if Rlt_dec (dot3 a b) 0 then Abort DAssert else Ok id3.
Proof.
  intros H. unfold so3_of_vectors. rewrite H.
  replace (dot3 zero3 zero3) with 0 by (lie_unfold; ring).
  rewrite (proj2 (R_eqb_spec 0 0)) by reflexivity. unfold assert_, R_ltb.
  destruct (Rlt_dec (dot3 a b) 0); reflexivity.
Qed.

(** ** Rodrigues *)
Lemma rodrigues_act w A B p :
  mv3 (rodrigues w A B) p = add3 (add3 (scale3 (1 - B * dot3 w w) p) (scale3 A (cross3 w p))) (scale3 (B * dot3 w p) w).
Proof. unfold rodrigues. dv. lie_unfold. f_equal; ring. Qed.
Lemma rodrigues_det w A B :
  det3 (rodrigues w A B) = A * A * dot3 w w + (1 - B * dot3 w w) * (1 - B * dot3 w w).
Proof. unfold rodrigues. dv. lie_unfold. ring. Qed.
Lemma rodrigues_rotation w A B : A * A - 2 * B + B * B * dot3 w w = 0 -> rotation (rodrigues w A B).
Proof.
  intros H. split.
  - apply orthonormal_mm.
    transitivity (let k := A * A - 2 * B + B * B * dot3 w w in
      mkM (mk3 (1 + k * (vy w * vy w + vz w * vz w)) (- k * (vx w * vy w)) (- k * (vx w * vz w)))
          (mk3 (- k * (vx w * vy w)) (1 + k * (vx w * vx w + vz w * vz w)) (- k * (vy w * vz w)))
          (mk3 (- k * (vx w * vz w)) (- k * (vy w * vz w)) (1 + k * (vx w * vx w + vy w * vy w)))).
    + unfold rodrigues. dv. lie_unfold. cbv zeta. f_equal; f_equal; ring.
    + cbv zeta. rewrite H. unfold id3. f_equal; f_equal; ring.
  - rewrite rodrigues_det.
    transitivity (1 + (A * A - 2 * B + B * B * dot3 w w) * dot3 w w); [ring|rewrite H; ring].
Qed.
Lemma rodrigues_tr w A B : tr3 (rodrigues w A B) = rodrigues (neg3 w) A B.
Proof. unfold rodrigues. dv. lie_unfold. f_equal; f_equal; ring. Qed.
Lemma rodrigues_fix w A B : mv3 (rodrigues w A B) w = w.
Proof. unfold rodrigues. dv. lie_unfold. f_equal; ring. Qed.
Lemma rodrigues_trace w A B : trace3 (rodrigues w A B) = 3 - 2 * B * dot3 w w.
Proof. unfold rodrigues. dv. lie_unfold. ring. Qed.
Lemma rodrigues_0 A B : rodrigues zero3 A B = id3.
Proof. unfold rodrigues. lie_unfold. f_equal; f_equal; ring. Qed.

(** The matrix of the rotation by [t] about the unit vector [a]. *)
Definition rot_matrix (a : V3) (t : R) : M3 :=
  mkM (mk3 (cos t + (1 - cos t) * (vx a * vx a)) ((1 - cos t) * (vx a * vy a) - sin t * vz a) ((1 - cos t) * (vx a * vz a) + sin t * vy a))
      (mk3 ((1 - cos t) * (vx a * vy a) + sin t * vz a) (cos t + (1 - cos t) * (vy a * vy a)) ((1 - cos t) * (vy a * vz a) - sin t * vx a))
      (mk3 ((1 - cos t) * (vx a * vz a) - sin t * vy a) ((1 - cos t) * (vy a * vz a) + sin t * vx a) (cos t + (1 - cos t) * (vz a * vz a))).
Lemma rot_matrix_act a t p : mv3 (rot_matrix a t) p = rotate a t p.
Proof. unfold rotate, rot_matrix. dv. lie_unfold. f_equal; ring. Qed.
Lemma rot_matrix_rodrigues a t : dot3 a a = 1 -> rot_matrix a t = rodrigues a (sin t) (1 - cos t).
Proof.
  unfold rot_matrix, rodrigues. destruct a as [a b c]. lie_unfold. intros H.
  assert (E : a * a = 1 - b * b - c * c) by lra.
  f_equal; f_equal; try ring; rewrite ?E; ring.
Qed.
Lemma trig1 t : sin t * sin t + cos t * cos t = 1.
Proof. pose proof (sin2_cos2 t) as H. unfold Rsqr in H. exact H. Qed.
Lemma rot_matrix_rotation a t : dot3 a a = 1 -> rotation (rot_matrix a t).
Proof.
  intros H. rewrite rot_matrix_rodrigues by exact H. apply rodrigues_rotation. rewrite H.
  pose proof (trig1 t). lra.
Qed.
Lemma rodrigues_scale a t A B : rodrigues (scale3 t a) A B = rodrigues a (A * t) (B * (t * t)).
Proof. unfold rodrigues. dv. lie_unfold. f_equal; f_equal; ring. Qed.
Lemma rot_matrix_neg a t : rot_matrix (neg3 a) t = rot_matrix a (- t).
Proof. unfold rot_matrix. rewrite cos_neg, sin_neg. dv. lie_unfold. f_equal; f_equal; ring. Qed.
Lemma rot_matrix_0 a : rot_matrix a 0 = id3.
Proof. unfold rot_matrix. rewrite cos_0, sin_0. dv. lie_unfold. f_equal; f_equal; ring. Qed.
Lemma rot_matrix_add a s t : dot3 a a = 1 -> mm3 (rot_matrix a s) (rot_matrix a t) = rot_matrix a (s + t).
Proof.
  intros H. unfold rot_matrix. rewrite cos_plus, sin_plus.
  generalize (cos s) (sin s) (cos t) (sin t). intros cs ss ct st.
  destruct a as [a b c]. lie_unfold.
  assert (E : a * a = 1 - b * b - c * c) by lra.
  f_equal; f_equal.
  all: match goal with |- ?l = ?r => cut (l - r = 0); [lra|] end.
  all: ring_simplify; replace (a ^ 4) with ((1 - b * b - c * c) ^ 2) by (rewrite <- E; ring);
       replace (a ^ 3) with (a * (1 - b * b - c * c)) by (rewrite <- E; ring);
       replace (a ^ 2) with (1 - b * b - c * c) by (rewrite <- E; ring); ring.
Qed.

Lemma R_ltb_t x y : x < y -> R_ltb x y = true. Proof. intros; apply R_ltb_spec; auto. Qed.
Lemma R_ltb_f x y : y <= x -> R_ltb x y = false. Proof. intros; apply R_ltb_false; auto. Qed.

(** The exact exponential: the rotation about w by the angle |w|. *)
Definition exp3 (w : V3) : M3 := rot_matrix (scale3 (1 / len3 w) w) (len3 w).
Lemma exp3_unit a t : dot3 a a = 1 -> exp3 (scale3 t a) = rot_matrix a t.
Proof.
  intros Ha. unfold exp3. set (w := scale3 t a).
  assert (L : len3 w = Rabs t).
  { unfold len3, w. rewrite dot3_scale_l, dot3_scale_r, Ha, Rmult_1_r. apply sqrt_Rsqr_abs. }
  rewrite L. unfold w. destruct (Rtotal_order t 0) as [H|[->|H]].
  - rewrite Rabs_left by auto.
    replace (scale3 (1 / - t) (scale3 t a)) with (neg3 a) by (clear - H; dv; lie_unfold; f_equal; field; lra).
    rewrite rot_matrix_neg. f_equal. ring.
  - rewrite Rabs_R0, !rot_matrix_0. reflexivity.
  - rewrite Rabs_right by lra.
    replace (scale3 (1 / t) (scale3 t a)) with a by (clear - H; dv; lie_unfold; f_equal; field; lra). reflexivity.
Qed.
Lemma exp3_zero : exp3 zero3 = id3.
Proof. unfold exp3. replace (len3 zero3) with 0; [apply rot_matrix_0|]. unfold len3. replace (dot3 zero3 zero3) with 0 by (lie_unfold; ring). rewrite sqrt_0; auto. Qed.
Lemma exp3_rodrigues w : w <> zero3 ->
  exp3 w = rodrigues w (sin (len3 w) / len3 w) ((1 - cos (len3 w)) / (len3 w * len3 w)).
Proof.
  intros H. pose proof (len3_pos w H) as L. pose proof (unit3_len w H) as U.
  unfold exp3. rewrite rot_matrix_rodrigues by exact U.
  transitivity (rodrigues (scale3 (len3 w) (scale3 (1 / len3 w) w)) (sin (len3 w) / len3 w) ((1 - cos (len3 w)) / (len3 w * len3 w))); [|rewrite (scale_unit w H); reflexivity].
  rewrite (rodrigues_scale (scale3 (1 / len3 w) w) (len3 w)).
  f_equal; field; lra.
Qed.
Lemma exp3_rotation w : rotation (exp3 w).
Proof.
  destruct (V3_dec w zero3) as [->|H]; [rewrite exp3_zero; apply rotation_id|].
  apply rot_matrix_rotation, unit3_len, H.
Qed.

Lemma so3_exp_large w : 1 / 10 ^ 6 <= dot3 w w -> so3_exp w = Ok (exp3 w).
Proof.
  intros H. assert (Hw : w <> zero3). { intros ->. revert H. lie_unfold. lra. }
  pose proof (len3_pos w Hw) as L.
  unfold so3_exp, so3_coeffs. rewrite !R_ltb_f by lra.
  fold (len3 w). rewrite Rdiv_ok by lra. cbn [bind]. f_equal.
  rewrite exp3_rodrigues by exact Hw. f_equal; field; lra.
Qed.
Lemma so3_exp_zero : so3_exp zero3 = Ok id3.
Proof.
  unfold so3_exp, so3_coeffs. replace (dot3 zero3 zero3) with 0 by (lie_unfold; ring).
  rewrite R_ltb_t by lra. cbn [bind]. rewrite rodrigues_0. reflexivity.
Qed.
Lemma so3_exp_form w : exists A B, so3_exp w = Ok (rodrigues w A B) /\ so3_exp (neg3 w) = Ok (rodrigues (neg3 w) A B).
Proof.
  unfold so3_exp.
  replace (dot3 (neg3 w) (neg3 w)) with (dot3 w w) by (dv; lie_unfold; ring).
  unfold so3_coeffs. destruct (R_ltb (dot3 w w) (1 / 10 ^ 8)); [cbn [bind]; eauto|].
  destruct (R_ltb (dot3 w w) (1 / 10 ^ 6)) eqn:E; [cbn [bind]; eauto|].
  apply R_ltb_false in E. rewrite Rdiv_ok; [cbn [bind]; eauto|].
  fold (len3 w). assert (0 < len3 w); [|lra]. apply len3_pos. intros ->. revert E. lie_unfold. lra.
Qed.

(** ** Accuracy of the Taylor branches *)
Lemma sin_bounds t : 0 <= t -> t <= PI ->
  t - t ^ 3 / 6 <= sin t <= t - t ^ 3 / 6 + t ^ 5 / 120 /\ t - t ^ 3 / 6 + t ^ 5 / 120 - t ^ 7 / 5040 <= sin t.
Proof.
  intros H0 H1. destruct (sin_bound t 0 H0 H1) as [A B]. destruct (sin_bound t 1 H0 H1) as [C _].
  unfold sin_approx, sin_term in *. cbn -[pow INR] in A, B, C. cbn [fact Nat.mul Nat.add] in *.
  rewrite ?INR_IZR_INZ in *. cbn [Z.of_nat] in *.
  repeat split; cbn -[IZR] in *; lra.
Qed.
