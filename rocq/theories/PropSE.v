(** * C57 C58 C59 C60: rigid transforms. *)
From Coq Require Import Reals Lra Bool Psatz Arith Lia.
From Verif Require Import Base Alg Mat SpecMat LemMat ModelOps LemOps Inst ModelLie SpecLie LemLie LemSO3 LemSO3b LemSO3c LemSO3d LemHelpers ModelSE SpecSE LemSE LemSE2 LemSE3 LemSE4.
Local Open Scope R_scope.

(** ** C57: SE3 is a group acting on points *)
Theorem C57_action : forall A B x, se3_act (se3_mul A B) x = se3_act A (se3_act B x) /\ se3_act se3_default x = x.
Proof.
  intros A B x. unfold se3_act, se3_mul, se3_default, so3_mul, so3_act, so3_default. cbn [rot trans].
  rewrite mv3_add, mm3_act, mv3_id, add3_assoc. split; auto. apply add3_0_l.
Qed.
Theorem C57_associative : forall A B C, se3_mul (se3_mul A B) C = se3_mul A (se3_mul B C) /\
  se3_mul se3_default A = A /\ se3_mul A se3_default = A.
Proof.
  intros A B C. unfold se3_mul, se3_default, so3_mul, so3_act, so3_default. cbn [rot trans].
  rewrite mm3_assoc, mv3_add, mm3_act, add3_assoc, mm3_id_l, mm3_id_r, mv3_id.
  split; [reflexivity|]. destruct A as [m t]. cbn [rot trans].
  split; f_equal; [apply add3_0_l|clear; dv; lie_unfold; f_equal; ring].
Qed.
Theorem C57_inverse : forall A, rotation (rot A) ->
  se3_mul A (se3_inverse A) = se3_default /\ se3_mul (se3_inverse A) A = se3_default /\
  forall x, se3_act (se3_inverse A) (se3_act A x) = x /\ se3_act A (se3_act (se3_inverse A) x) = x.
Proof.
  intros A H.
  assert (E1 : se3_mul A (se3_inverse A) = se3_default).
  { unfold se3_mul, se3_inverse, se3_default, so3_mul, so3_act, so3_default, so3_inverse. cbn [rot trans].
    rewrite mv3_neg, <- mm3_act, rotation_tr_r, mv3_id, add3_neg by exact H. reflexivity. }
  assert (E2 : se3_mul (se3_inverse A) A = se3_default).
  { unfold se3_mul, se3_inverse, se3_default, so3_mul, so3_act, so3_default, so3_inverse. cbn [rot trans].
    rewrite rotation_tr_l by exact H. rewrite add3_comm, add3_neg. reflexivity. }
  split; [exact E1|]. split; [exact E2|]. intros x.
  rewrite <- (proj1 (C57_action _ _ x)), E2, <- (proj1 (C57_action _ _ x)), E1. split; apply (C57_action A A x).
Qed.
Theorem C57_closed : forall A B, rotation (rot A) -> rotation (rot B) ->
  rotation (rot (se3_mul A B)) /\ rotation (rot (se3_inverse A)) /\ rotation (rot se3_default).
Proof. intros A B HA HB. split; [apply rotation_mul; auto|]. split; [apply rotation_inv; auto|apply rotation_id]. Qed.
(** the assignment forms, also when an object is multiplied by itself *)
Theorem C57_assignment : forall A B, se3_mul_assign A B = se3_mul A B /\ se3_mul_assign_self A = se3_mul A A /\ se3_left_multiply_by A B = se3_mul B A /\
  forall m, so3_mul_se3 m A = se3_mul (mkSE3 m zero3) A.
Proof.
  intros A B. split; [reflexivity|]. split; [reflexivity|]. split; [reflexivity|]. intros m.
  unfold so3_mul_se3, se3_mul. cbn [rot trans]. rewrite add3_0_l. reflexivity.
Qed.
Theorem C57_rigid : forall A x y, rotation (rot A) -> len3 (sub3 (se3_act A x) (se3_act A y)) = len3 (sub3 x y).
Proof.
  intros A x y H. unfold len3. f_equal. rewrite <- (rotation_dot (rot A) (sub3 x y) (sub3 x y) H).
  assert (E : sub3 (se3_act A x) (se3_act A y) = mv3 (rot A) (sub3 x y)).
  { unfold se3_act, so3_act. destruct A as [m t]. cbn [rot trans]. clear. dv. lie_unfold. f_equal; ring. }
  rewrite E. reflexivity.
Qed.
(** the homogeneous matrix of a product is the product, and all four products with vectors and matrices agree with it *)
Theorem C57_homogeneous : forall A B r c, (r < 4)%nat -> (c < 4)%nat ->
  hom3 (se3_mul A B) r c = times 4 (hom3 A) (hom3 B) r c.
Proof.
  intros A B r c Hr Hc.
  rewrite (times_ext 4 _ _ (blk (rot A) (trans A) 1) (blk (rot B) (trans B) 1)) by auto.
  rewrite blk_times by auto. rewrite hom3_blk. unfold se3_mul, so3_mul, so3_act. cbn [rot trans].
  rewrite scale3_1, Rmult_1_r. reflexivity.
Qed.
Theorem C57_homogeneous_vectors : forall A x,
  se3_act4 A (mk4 x 1) = mk4 (se3_act A x) 1 /\
  forall (g : nat -> R) i, (i < 4)%nat -> v4_at (se3_act4 A (v4_of g)) i = sum (F:=R) 4 (fun k => hom3 A i k * g k) /\
    v4_at (se3_act4_left (v4_of g) A) i = sum (F:=R) 4 (fun k => g k * hom3 A k i).
Proof.
  intros A x. split.
  - unfold se3_act4, se3_act. cbn [top w4]. f_equal. rewrite scale3_1. apply add3_comm.
  - intros g i Hi. destruct A as [[[m00 m01 m02] [m10 m11 m12] [m20 m21 m22]] [t0 t1 t2]].
    unfold se3_act4, se3_act4_left, v4_of, v4_at, hom3, ent, comp3, so3_act, so3_act_left.
    four i Hi; cbn [Nat.ltb Nat.leb sum fadd f0 ROps rot trans top w4 r0 r1 r2 vx vy vz]; lie_unfold; split; ring.
Qed.
Theorem C57_homogeneous_matrices : forall A M,
  (mrows M = 4%nat -> gives_mat (se3_mul_matrix A M) 4 (mcols M) (fun i j => sum (F:=R) 4 (fun k => hom3 A i k * mel M k j))) /\
  (mcols M = 4%nat -> gives_mat (se3_matrix_mul M A) (mrows M) 4 (fun i j => sum (F:=R) 4 (fun k => mel M i k * hom3 A k j))) /\
  (mrows M <> 4%nat -> se3_mul_matrix A M = Abort DSizeMismatch) /\ (mcols M <> 4%nat -> se3_matrix_mul M A = Abort DSizeMismatch).
Proof.
  intros A M. split; [|split; [|split]].
  - intros H. apply map_cols_ok; auto. intros g i Hi. apply C57_homogeneous_vectors; auto. exact zero3.
  - intros H. apply map_rows_ok; auto. intros g i Hi. apply C57_homogeneous_vectors; auto. exact zero3.
  - intros H. unfold se3_mul_matrix, map_cols. rewrite same_size_bad by auto. reflexivity.
  - intros H. unfold se3_matrix_mul, map_rows. rewrite same_size_bad by auto. reflexivity.
Qed.
Print Assumptions C57_action.
Print Assumptions C57_inverse.
Print Assumptions C57_homogeneous.
Print Assumptions C57_homogeneous_matrices.
Example C57_nonvacuous : exists A x, rotation (rot A) /\ se3_act A x = mk3 8 6 8 /\ se3_act (se3_mul A A) x = mk3 4 13 13.
Proof.
  exists (mkSE3 (mkM (mk3 0 (-1) 0) (mk3 1 0 0) (mk3 0 0 1)) (mk3 10 5 5)), (mk3 1 2 3).
  unfold rotation, orthonormal, se3_act, se3_mul, so3_act, so3_mul. cbn [rot trans]. lie_unfold.
  split; [|split]; [repeat split; ring|f_equal; ring|f_equal; ring].
Qed.

(** ** C58: the adjoint *)
Theorem C58_conjugates : forall T v r c, rotation (rot T) -> (r < 4)%nat -> (c < 4)%nat ->
  times 4 (times 4 (hom3 T) (gen6 v)) (hom3 (se3_inverse T)) r c = gen6 (se3_adjoint T v) r c.
Proof.
  intros T v r c H Hr Hc.
  assert (E1 : forall i j, (i < 4)%nat -> (j < 4)%nat -> times 4 (hom3 T) (gen6 v) i j = blk (mm3 (rot T) (hat (ang v))) (mv3 (rot T) (lin v)) 0 i j).
  { intros i j Hi Hj. rewrite (times_ext 4 _ _ (blk (rot T) (trans T) 1) (blk (hat (ang v)) (lin v) 0)); auto; [|intros; apply gen6_blk; auto].
    rewrite blk_times by auto. replace (1 * 0) with 0 by ring. f_equal. clear. set (x := mv3 (rot T) (lin v)). set (y := trans T). clearbody x y. dv. lie_unfold. f_equal; ring. }
  rewrite (times_ext 4 _ _ (blk (mm3 (rot T) (hat (ang v))) (mv3 (rot T) (lin v)) 0) (blk (rot (se3_inverse T)) (trans (se3_inverse T)) 1)); auto.
  rewrite blk_times by auto. rewrite gen6_blk by auto.
  unfold se3_inverse, se3_adjoint, so3_inverse, so3_act. cbn [rot trans lin ang].
  rewrite hat_conj by exact H. f_equal; [|ring].
  rewrite mv3_neg, <- mm3_act, hat_conj, hat_mv by exact H.
  clear. set (x := mv3 (rot T) (ang v)). set (y := mv3 (rot T) (lin v)). set (z := trans T). clearbody x y z. dv. lie_unfold. f_equal; ring.
Qed.
Theorem C58_multiplicative : forall A B v, rotation (rot A) ->
  se3_adjoint (se3_mul A B) v = se3_adjoint A (se3_adjoint B v) /\ se3_trinvadjoint (se3_mul A B) v = se3_trinvadjoint A (se3_trinvadjoint B v) /\
  se3_adjoint se3_default v = v.
Proof.
  intros A B v H. destruct A as [m t], B as [n s], v as [u w]. cbn [rot] in H.
  unfold se3_adjoint, se3_trinvadjoint, se3_mul, se3_default, so3_act, so3_mul, so3_default. cbn [rot trans lin ang].
  rewrite !mm3_act, !mv3_id, !mv3_add, (mv3_cross m s) by exact H. rewrite (mv3_cross m s) by exact H.
  set (x := mv3 m (mv3 n u)). set (y := mv3 m (mv3 n w)). set (z := mv3 m s). clearbody x y z. clear.
  split; [|split]; f_equal; dv; lie_unfold; f_equal; ring.
Qed.
(** trinvadjoint is the inverse transpose: it keeps the pairing of vectors with covectors *)
Theorem C58_inverse_transpose : forall T u v, rotation (rot T) ->
  sum (F:=R) 6 (fun i => v6_at (se3_trinvadjoint T u) i * v6_at (se3_adjoint T v) i) = sum (F:=R) 6 (fun i => v6_at u i * v6_at v i).
Proof.
  assert (G : forall u v, sum (F:=R) 6 (fun i => v6_at u i * v6_at v i) = dot3 (lin u) (lin v) + dot3 (ang u) (ang v)).
  { intros u v. cbn [sum v6_at fadd f0 ROps]. unfold dot3. ring. }
  intros T u v H. rewrite !G. unfold se3_trinvadjoint, se3_adjoint, so3_act. cbn [lin ang].
  rewrite <- (rotation_dot (rot T) (lin u) (lin v) H), <- (rotation_dot (rot T) (ang u) (ang v) H).
  set (a := mv3 (rot T) (lin u)). set (b := mv3 (rot T) (ang u)). set (c := mv3 (rot T) (lin v)). set (d := mv3 (rot T) (ang v)). set (t := trans T).
  clearbody a b c d t. clear. dv. lie_unfold. ring.
Qed.
Theorem C58_matrices : forall T M, mrows M = 6%nat -> mcols M = 6%nat ->
  (exists Ad : nat -> nat -> R, (forall g i, (i < 6)%nat -> v6_at (se3_adjoint T (v6_of g)) i = sum (F:=R) 6 (fun k => Ad i k * g k)) /\
    gives_mat (se3_adjoint_matrix T M) 6 6 (fun i j => sum (F:=R) 6 (fun k => sum (F:=R) 6 (fun l => Ad i k * mel M k l * Ad j l)))) /\
  (exists Ad : nat -> nat -> R, (forall g i, (i < 6)%nat -> v6_at (se3_trinvadjoint T (v6_of g)) i = sum (F:=R) 6 (fun k => Ad i k * g k)) /\
    gives_mat (se3_trinvadjoint_matrix T M) 6 6 (fun i j => sum (F:=R) 6 (fun k => sum (F:=R) 6 (fun l => Ad i k * mel M k l * Ad j l)))).
Proof.
  assert (L : forall f : V6 -> V6, (forall g i, (i < 6)%nat -> v6_at (f (v6_of g)) i = sum (F:=R) 6 (fun k => v6_at (f (v6_of (fun j => if (j =? k)%nat then 1 else 0))) i * g k)) ->
    forall M, mrows M = 6%nat -> mcols M = 6%nat -> exists Ad : nat -> nat -> R, (forall g i, (i < 6)%nat -> v6_at (f (v6_of g)) i = sum (F:=R) 6 (fun k => Ad i k * g k)) /\
    gives_mat (conj_matrix 6 (fun g => v6_at (f (v6_of g))) M) 6 6 (fun i j => sum (F:=R) 6 (fun k => sum (F:=R) 6 (fun l => Ad i k * mel M k l * Ad j l)))).
  { intros f Hf M H1 H2. exists (fun i k => v6_at (f (v6_of (fun j => if (j =? k)%nat then 1 else 0))) i). split; [exact Hf|].
    apply conj_matrix_ok; auto. }
  assert (six : forall P : nat -> Prop, P 0%nat -> P 1%nat -> P 2%nat -> P 3%nat -> P 4%nat -> P 5%nat -> forall i, (i < 6)%nat -> P i).
  { intros P H0 H1 H2 H3 H4 H5 i Hi. destruct i as [|[|[|[|[|[|i]]]]]]; auto; lia. }
  intros T M H1 H2. destruct T as [[[m00 m01 m02] [m10 m11 m12] [m20 m21 m22]] [t0 t1 t2]].
  split; apply L; auto; intros g i; revert i; apply six;
    unfold se3_adjoint, se3_trinvadjoint, v6_of, v6_at, so3_act; cbn [Nat.eqb sum fadd f0 ROps rot trans lin ang r0 r1 r2 vx vy vz]; lie_unfold; ring.
Qed.
Theorem C58_matrix_size_checked : forall T M, mrows M <> 6%nat \/ mcols M <> 6%nat ->
  se3_adjoint_matrix T M = Abort DSizeMismatch /\ se3_trinvadjoint_matrix T M = Abort DSizeMismatch.
Proof.
  intros T M H. unfold se3_adjoint_matrix, se3_trinvadjoint_matrix, conj_matrix, same_size.
  destruct (Nat.eqb_spec 6 (mcols M)); [|auto]. destruct (Nat.eqb_spec 6 (mrows M)); [|auto]. destruct H; congruence.
Qed.
Print Assumptions C58_conjugates.
Print Assumptions C58_inverse_transpose.
Print Assumptions C58_matrices.
Example C58_nonvacuous : exists T v, rotation (rot T) /\ se3_adjoint T v = mk6 (mk3 37 (-4) (-17)) (mk3 (-5) 4 6) /\ gen6 v 0 3 = 1.
Proof.
  exists (mkSE3 (mkM (mk3 0 (-1) 0) (mk3 1 0 0) (mk3 0 0 1)) (mk3 0 4 1)), (mk6 (mk3 1 (-17) (-37)) (mk3 4 5 6)).
  unfold rotation, orthonormal, se3_adjoint, so3_act, gen6. cbn [rot trans lin ang]. lie_unfold. split; [repeat split; ring|]. split; [|cbn; ring].
  f_equal; f_equal; ring.
Qed.

(** ** C59: exponential and logarithm *)
Theorem C59_swept : forall a u, swept a 0 u = zero3 /\
  forall t i, (i < 3)%nat -> derivable_pt_lim (fun s => comp3 (swept a s u) i) t (comp3 (rotate a t u) i).
Proof.
  intros a u. split; [|intros; apply swept_derivative; auto].
  unfold swept. rewrite sin_0, cos_0. set (k := dot3 a u). clearbody k. clear. dv. lie_unfold. f_equal; ring.
Qed.
(** screw motion: about the axis a, by the angle t, while translating with body velocity u / t *)
Theorem C59_screw : forall a t u, dot3 a a = 1 -> 1 / 1000 <= t ->
  exists T, se3_exp (mk6 u (scale3 t a)) = Ok T /\ rotation (rot T) /\ (forall p, so3_act (rot T) p = rotate a t p) /\
    trans T = swept a t (scale3 (1 / t) u).
Proof.
  intros a t u Ha Ht. exists (mkSE3 (rot_matrix a t) (Etr a t (scale3 (1 / t) u))). split; [apply se3_exp_large; auto|].
  split; [apply rot_matrix_rotation; auto|]. split; [intros; apply rot_matrix_act|reflexivity].
Qed.
Theorem C59_pure_translation : forall u, se3_exp (mk6 u zero3) = Ok (mkSE3 so3_default u).
Proof. exact se3_exp_trans. Qed.
(** the two Taylor branches; the first drops a term and is the less accurate one *)
Theorem C59_small_angles : forall a t u, dot3 a a = 1 -> 0 < t < 1 / 1000 ->
  exists T Q, se3_exp (mk6 u (scale3 t a)) = Ok T /\ rotation Q /\ (forall p, mv3 Q p = rotate a t p) /\ closeM (1 / 10 ^ 17) (rot T) Q /\
    (t < 1 / 10 ^ 4 -> len3 (sub3 (trans T) (swept a t (scale3 (1 / t) u))) <= 4 / 10 ^ 9 * len3 u) /\
    (1 / 10 ^ 4 <= t -> len3 (sub3 (trans T) (swept a t (scale3 (1 / t) u))) <= 1 / 10 ^ 17 * len3 u).
Proof.
  intros a t u Ha Ht. destruct (se3_exp_close a t u Ha Ht) as (T & E & C & B1 & B2).
  exists T, (rot_matrix a t). split; [exact E|]. split; [apply rot_matrix_rotation; auto|]. split; [intros; apply rot_matrix_act|].
  split; [exact C|].
  replace (swept a t (scale3 (1 / t) u)) with (scale3 (1 / t) (swept a t u)); [auto|].
  change (scale3 (1 / t) (Etr a t u) = Etr a t (scale3 (1 / t) u)). unfold Etr. rewrite comb_scale, comb_scale_arg. reflexivity.
Qed.
Theorem C59_one_parameter : forall a u s t, dot3 a a = 1 ->
  (s = 0 \/ 1 / 1000 <= Rabs s) -> (t = 0 \/ 1 / 1000 <= Rabs t) -> (s + t = 0 \/ 1 / 1000 <= Rabs (s + t)) ->
  exists A B C, se3_exp (mk6 (scale3 s u) (scale3 s a)) = Ok A /\ se3_exp (mk6 (scale3 t u) (scale3 t a)) = Ok B /\
    se3_exp (mk6 (scale3 (s + t) u) (scale3 (s + t) a)) = Ok C /\ se3_mul A B = C.
Proof.
  intros a u s t Ha Hs Ht Hst. do 3 eexists. rewrite !se3_exp_any by auto.
  split; [reflexivity|]. split; [reflexivity|]. split; [reflexivity|]. apply se3_group, Ha.
Qed.
Theorem C59_inverse : forall u w T, (w = zero3 \/ 1 / 1000 <= len3 w) -> se3_exp (mk6 u w) = Ok T -> se3_exp (mk6 (neg3 u) (neg3 w)) = Ok (se3_inverse T).
Proof.
  assert (Uniq : forall A B, rotation (rot A) -> se3_mul A B = se3_default -> B = se3_inverse A).
  { intros A B H E. rewrite <- (proj1 (proj2 (C57_associative B B B))). rewrite <- (proj1 (proj2 (C57_inverse A H))).
    rewrite (proj1 (C57_associative (se3_inverse A) A B)), E. apply (C57_associative (se3_inverse A) A B). }
  intros u w T Hw E. destruct (V3_dec w zero3) as [->|Hz].
  - replace (neg3 zero3) with zero3 by (lie_unfold; f_equal; ring). rewrite se3_exp_trans in *. injection E as <-. f_equal.
    unfold se3_inverse. cbn [rot trans]. apply SE3_eq; cbn [rot trans]; unfold so3_inverse, so3_act; clear; dv; lie_unfold; repeat f_equal; ring.
  - destruct Hw as [?|Hw]; [contradiction|].
    pose proof (unit3_len w Hz) as Ua. pose proof (scale_unit w Hz) as Sw. set (t := len3 w) in *. set (a := scale3 (1 / t) w) in *. clearbody a t.
    assert (Su : u = scale3 t (scale3 (1 / t) u)) by (rewrite scale3_comm; rewrite <- (scale3_1 u) at 1; f_equal; field; lra).
    assert (N : forall v, neg3 (scale3 t v) = scale3 (- t) v) by (intros; clear; dv; lie_unfold; f_equal; ring).
    rewrite <- Sw in *. rewrite Su in *. rewrite !N. rewrite se3_exp_any in * by (auto; rewrite ?Rabs_Ropp, Rabs_right; lra).
    injection E as <-. f_equal. apply Uniq; [apply rot_matrix_rotation; auto|]. rewrite se3_group by exact Ua.
    replace (t + - t) with 0 by ring. rewrite rot_matrix_0. unfold se3_default, so3_default. f_equal.
    apply (C59_swept a).
Qed.
Theorem C59_exp_ln : forall thr T w, 0 < thr < 1 -> rotation (rot T) -> so3_ln thr (rot T) = Ok w -> (w = zero3 \/ 2 / 1000 <= len3 w) ->
  exists v, se3_ln thr T = Ok v /\ se3_exp v = Ok T.
Proof. intros thr T w H1 H2 H3 H4. destruct (se3_exp_ln thr T w H1 H2 H3 H4) as (v & E & _ & E'). exists v. auto. Qed.
Theorem C59_ln_exp : forall thr v T, 0 < thr < 1 -> 2 / 1000 <= len3 (ang v) < PI -> se3_exp v = Ok T -> se3_ln thr T = Ok v.
Proof. intros thr [u w] T H1 [H2 H3] E. cbn [ang] in *. eapply se3_ln_exp; eauto. Qed.
(** derivative at zero: the generators *)
(** the logarithm's small-angle branches: the linear part is within 2e-11 of the velocity u whose screw motion reaches the translation *)
Theorem C59_ln_small_angles : forall thr T w a t u, 0 < thr < 1 -> rotation (rot T) -> so3_ln thr (rot T) = Ok w ->
  dot3 a a = 1 -> w = scale3 t a -> 0 < t <= 1 / 1000 -> swept a t (scale3 (1 / t) u) = trans T ->
  exists v, se3_ln thr T = Ok v /\ ang v = w /\ forall i, (i < 3)%nat -> Rabs (comp3 (lin v) i - comp3 u i) <= 2 / 10 ^ 11 * len3 (trans T).
Proof. exact se3_ln_small. Qed.
Theorem C59_derivative : forall v, exists f : R -> SE3, (forall t, se3_exp (mk6 (scale3 t (lin v)) (scale3 t (ang v))) = Ok (f t)) /\
  forall r c, (r < 4)%nat -> (c < 4)%nat -> derivable_pt_lim (fun t => hom3 (f t) r c) 0 (gen6 v r c).
Proof.
  intros v. destruct (se3_exp_derivative v) as (f & E & D). exists f. split; [exact E|].
  intros r c Hr Hc. rewrite gen6_hatm by auto. apply D; auto.
Qed.
Theorem C59_generator_field : forall i p r, (i < 6)%nat -> (r < 4)%nat -> se3_generator_field i p r = sum (F:=R) 4 (fun c => se3_generator i r c * p c).
Proof.
  intros i p r Hi Hr. unfold se3_generator_field, se3_generator.
  destruct i as [|[|[|[|[|[|i]]]]]]; [| | | | | |lia]; four r Hr; cbn -[Rmult Rplus Ropp IZR]; cbn [fadd f0 ROps]; ring.
Qed.
Print Assumptions C59_screw.
Print Assumptions C59_small_angles.
Print Assumptions C59_inverse.
Print Assumptions C59_exp_ln.
Print Assumptions C59_ln_exp.
Print Assumptions C59_derivative.
Example C59_nonvacuous : exists a t u, dot3 a a = 1 /\ 2 / 1000 <= len3 (scale3 t a) < PI /\ u <> zero3 /\ cross3 a u <> zero3.
Proof.
  exists (mk3 0 0 1), 1, (mk3 1 0 0). assert (E : len3 (scale3 1 (mk3 0 0 1)) = 1).
  { unfold len3. replace (dot3 _ _) with 1 by (lie_unfold; ring). apply sqrt_1. }
  rewrite E. pose proof PI2_3_2. lie_unfold. split; [ring|]. split; [lra|]. split; intros Z; injection Z; intros; lra.
Qed.

(** ** C60: two dimensions *)
Theorem C60_so2_group : forall A B C, so2_mul (so2_mul A B) C = so2_mul A (so2_mul B C) /\ so2_mul id2 A = A /\ so2_mul A id2 = A /\
  so2_mul_assign A B = so2_mul A B /\
  (forall v, so2_act (so2_mul A B) v = so2_act A (so2_act B v) /\ so2_act_left v (so2_mul A B) = so2_act_left (so2_act_left v A) B) /\
  (rotation2 A -> so2_mul A (so2_inverse A) = id2 /\ so2_mul (so2_inverse A) A = id2) /\
  (rotation2 A -> rotation2 B -> rotation2 (so2_mul A B) /\ rotation2 (so2_inverse A)).
Proof.
  intros A B C. split; [|split; [|split; [|split; [|split; [|split]]]]].
  - destruct A as [[? ?] [? ?]], B as [[? ?] [? ?]], C as [[? ?] [? ?]]. unfold2. f_equal; f_equal; ring.
  - destruct A as [[? ?] [? ?]]. unfold2. f_equal; f_equal; ring.
  - destruct A as [[? ?] [? ?]]. unfold2. f_equal; f_equal; ring.
  - reflexivity.
  - intros v. destruct A as [[? ?] [? ?]], B as [[? ?] [? ?]], v as [? ?]. unfold2. split; f_equal; ring.
  - intros H. destruct (rotation2_form A H) as (c & s & E & ->). unfold2. split; f_equal; f_equal; lra.
  - intros HA HB. destruct (rotation2_form A HA) as (c & s & E & ->), (rotation2_form B HB) as (c' & s' & E' & ->). split.
    + replace (so2_mul _ _) with (mkM2 (mk2 (c * c' - s * s') (- (c * s' + s * c'))) (mk2 (c * s' + s * c') (c * c' - s * s'))).
      * apply form_rotation2. transitivity ((c * c + s * s) * (c' * c' + s' * s')); [ring|rewrite E, E'; ring].
      * unfold2. f_equal; f_equal; ring.
    + replace (so2_inverse _) with (mkM2 (mk2 c (- - s)) (mk2 (- s) c)); [apply form_rotation2; lra|unfold2; f_equal; f_equal; ring].
Qed.
Theorem C60_so2_exp_ln : (forall s t, so2_mul (so2_exp s) (so2_exp t) = so2_exp (s + t)) /\
  (forall t, rotation2 (so2_exp t) /\ (forall x y, so2_act (so2_exp t) (mk2 x y) = mk2 (cos t * x - sin t * y) (sin t * x + cos t * y))) /\
  (forall m, rotation2 m -> so2_exp (so2_ln m) = m /\ - PI < so2_ln m <= PI) /\
  (forall t, - PI < t <= PI -> so2_ln (so2_exp t) = t).
Proof.
  split; [exact so2_exp_add|]. split; [|split; [exact so2_exp_ln|exact so2_ln_exp]].
  intros t. split; [apply so2_exp_rotation|]. intros x y. rewrite so2_exp_comb. reflexivity.
Qed.
Theorem C60_so2_generator : forall p, so2_act so2_generator p = mk2 (- uy p) (ux p) /\
  forall i j, (i < 2)%nat -> (j < 2)%nat -> derivable_pt_lim (fun t => el22 (so2_exp t) i j) 0 (el22 so2_generator i j).
Proof.
  intros p. split; [unfold so2_generator; destruct p as [x y]; unfold2; f_equal; ring|].
  assert (Cd : derivable_pt_lim cos 0 0) by (rewrite <- sin_0 at 2; rewrite <- (Ropp_involutive (sin 0)); replace (- - sin 0) with (- sin 0) by (rewrite sin_0; ring); apply derivable_pt_lim_cos).
  assert (Sd : derivable_pt_lim sin 0 1) by (rewrite <- cos_0; apply derivable_pt_lim_sin).
  intros i j Hi Hj. destruct i as [|[|i]]; [| |lia]; (destruct j as [|[|j]]; [| |lia]); cbn [el22 el2 so2_exp so2_generator s0 s1 ux uy]; auto.
  apply (derivable_pt_lim_opp sin 0 1 Sd).
Qed.
Theorem C60_se2_group : forall A B C, se2_mul (se2_mul A B) C = se2_mul A (se2_mul B C) /\ se2_mul se2_default A = A /\ se2_mul A se2_default = A /\
  se2_mul_assign A B = se2_mul A B /\
  (forall v, se2_act (se2_mul A B) v = se2_act A (se2_act B v)) /\
  (rotation2 (rot2 A) -> se2_mul A (se2_inverse A) = se2_default /\ se2_mul (se2_inverse A) A = se2_default).
Proof.
  intros A B C. split; [|split; [|split; [|split; [|split]]]].
  - destruct A as [[[? ?] [? ?]] [? ?]], B as [[[? ?] [? ?]] [? ?]], C as [[[? ?] [? ?]] [? ?]]. unfold se2_mul. cbn [rot2 trans2]. unfold2. f_equal; f_equal; [f_equal|f_equal|..]; ring.
  - destruct A as [[[? ?] [? ?]] [? ?]]. unfold se2_mul, se2_default. cbn [rot2 trans2]. unfold2. f_equal; f_equal; [f_equal|f_equal|..]; ring.
  - destruct A as [[[? ?] [? ?]] [? ?]]. unfold se2_mul, se2_default. cbn [rot2 trans2]. unfold2. f_equal; f_equal; [f_equal|f_equal|..]; ring.
  - reflexivity.
  - intros [? ?]. destruct A as [[[? ?] [? ?]] [? ?]], B as [[[? ?] [? ?]] [? ?]]. unfold se2_act, se2_mul. cbn [rot2 trans2]. unfold2. f_equal; ring.
  - intros H. destruct A as [m [x y]]. cbn [rot2] in H. destruct (rotation2_form m H) as (c & s & E & ->).
    unfold se2_mul, se2_inverse, se2_default. cbn [rot2 trans2]. unfold2. split; (f_equal; f_equal; [f_equal|f_equal|..]); try lra.
    + transitivity (x - (c * c + s * s) * x); [ring|rewrite E; ring].
    + transitivity (y - (c * c + s * s) * y); [ring|rewrite E; ring].
Qed.
Theorem C60_se2_homogeneous : forall A (g : nat -> R) i M, (i < 3)%nat ->
  v3_at (se2_act3 A (v3_of g)) i = sum (F:=R) 3 (fun k => hom2 A i k * g k) /\
  v3_at (se2_act3_left (v3_of g) A) i = sum (F:=R) 3 (fun k => g k * hom2 A k i) /\
  (mrows M = 3%nat -> gives_mat (se2_mul_matrix A M) 3 (mcols M) (fun i j => sum (F:=R) 3 (fun k => hom2 A i k * mel M k j))) /\
  (mcols M = 3%nat -> gives_mat (se2_matrix_mul M A) (mrows M) 3 (fun i j => sum (F:=R) 3 (fun k => mel M i k * hom2 A k j))).
Proof.
  assert (V : forall A (g : nat -> R) i, (i < 3)%nat -> v3_at (se2_act3 A (v3_of g)) i = sum (F:=R) 3 (fun k => hom2 A i k * g k) /\
    v3_at (se2_act3_left (v3_of g) A) i = sum (F:=R) 3 (fun k => g k * hom2 A k i)).
  { intros A g i Hi. destruct A as [[[m00 m01] [m10 m11]] [t0 t1]].
    unfold se2_act3, se2_act3_left, v3_of, v3_at, hom2, el22, el2. destruct i as [|[|[|i]]]; [| | |lia];
    cbn [Nat.ltb Nat.leb sum fadd f0 ROps rot2 trans2 vx vy vz]; unfold2; split; ring. }
  intros A g i M Hi. split; [apply V; auto|]. split; [apply V; auto|]. split; intros H.
  - apply map_cols_ok; auto. intros; apply V; auto.
  - apply map_rows_ok; auto. intros; apply V; auto.
Qed.
Theorem C60_se2_adjoint : forall T v r c, rotation2 (rot2 T) -> (r < 3)%nat -> (c < 3)%nat ->
  times 3 (times 3 (hom2 T) (gen3 v)) (hom2 (se2_inverse T)) r c = gen3 (se2_adjoint T v) r c.
Proof.
  intros T v r c H Hr Hc. destruct T as [m [x y]], v as [a b w]. cbn [rot2] in H. destruct (rotation2_form m H) as (p & q & E & ->).
  assert (W : forall z, (p * p + q * q) * z = z) by (intros; rewrite E; ring).
  unfold times, hom2, gen3, se2_inverse, se2_adjoint, se2_generator, ent, comp3, el22, el2, v3_at. clear H.
  destruct r as [|[|[|r]]]; [| | |lia]; (destruct c as [|[|[|c]]]; [| | |lia]); cbn [Nat.ltb Nat.leb sum fadd f0 ROps rot2 trans2 vx vy vz r0 r1 r2]; unfold2; try ring.
  - transitivity (- ((p * p + q * q) * w)); [ring|rewrite W; ring].
  - rewrite <- (W (w * y)). ring.
  - transitivity ((p * p + q * q) * w); [ring|rewrite W; ring].
  - rewrite <- (W (w * x)). ring.
Qed.
Theorem C60_se2_adjoint_matrix : forall T M, mrows M = 3%nat -> mcols M = 3%nat ->
  exists Ad : nat -> nat -> R, (forall g i, (i < 3)%nat -> v3_at (se2_adjoint T (v3_of g)) i = sum (F:=R) 3 (fun k => Ad i k * g k)) /\
    gives_mat (se2_adjoint_matrix T M) 3 3 (fun i j => sum (F:=R) 3 (fun k => sum (F:=R) 3 (fun l => Ad i k * mel M k l * Ad j l))).
Proof.
  intros T M H1 H2. exists (fun i k => v3_at (se2_adjoint T (v3_of (fun j => if (j =? k)%nat then 1 else 0))) i).
  assert (Hf : forall g i, (i < 3)%nat -> v3_at (se2_adjoint T (v3_of g)) i = sum (F:=R) 3 (fun k => v3_at (se2_adjoint T (v3_of (fun j => if (j =? k)%nat then 1 else 0))) i * g k)).
  { intros g i Hi. destruct T as [[[m00 m01] [m10 m11]] [t0 t1]]. unfold se2_adjoint, v3_of, v3_at. destruct i as [|[|[|i]]]; [| | |lia];
    cbn [Nat.eqb sum fadd f0 ROps rot2 trans2 vx vy vz]; unfold2; ring. }
  split; [exact Hf|]. apply conj_matrix_ok; auto.
Qed.
(** exact away from the Taylor range, and for pure translations *)
Theorem C60_se2_exp_ln : forall T, rotation2 (rot2 T) -> (so2_ln (rot2 T) = 0 \/ 1 / 1000 <= Rabs (so2_ln (rot2 T))) ->
  exists v, se2_ln T = Ok v /\ vz v = so2_ln (rot2 T) /\ se2_exp v = Ok T.
Proof. exact se2_exp_ln. Qed.
Theorem C60_se2_ln_exp : forall v T, (vz v = 0 \/ 1 / 1000 <= Rabs (vz v)) -> - PI < vz v <= PI -> se2_exp v = Ok T -> se2_ln T = Ok v.
Proof. exact se2_ln_exp. Qed.
(** for every angle, also in the small-angle branches, the translation of SE2's exponential is that of SE3's for the same motion in the plane
    (whose accuracy is C59_screw, C59_small_angles), and the rotation is exact *)
Theorem C60_se2_in_se3 : forall x y t, exists S T, se2_exp (mk3 x y t) = Ok S /\ se3_exp (mk6 (mk3 x y 0) (mk3 0 0 t)) = Ok T /\
  trans T = mk3 (ux (trans2 S)) (uy (trans2 S)) 0 /\ rot2 S = so2_exp t.
Proof. exact se2_in_se3. Qed.
Theorem C60_se2_one_parameter : forall x y s t,
  (s = 0 \/ 1 / 1000 <= Rabs s) -> (t = 0 \/ 1 / 1000 <= Rabs t) -> (s + t = 0 \/ 1 / 1000 <= Rabs (s + t)) ->
  exists A B C, se2_exp (mk3 (s * x) (s * y) s) = Ok A /\ se2_exp (mk3 (t * x) (t * y) t) = Ok B /\
    se2_exp (mk3 ((s + t) * x) ((s + t) * y) (s + t)) = Ok C /\ se2_mul A B = C.
Proof.
  intros x y s t Hs Ht Hst. do 3 eexists. rewrite !se2_exp_any by auto. split; [reflexivity|]. split; [reflexivity|]. split; [reflexivity|].
  unfold se2_mul. cbn [rot2 trans2]. rewrite so2_exp_add, so2_exp_comb. f_equal. unfold Etr2, comb2. rewrite sin_plus, cos_plus. unfold2. f_equal; ring.
Qed.
Print Assumptions C60_so2_group.
Print Assumptions C60_so2_exp_ln.
Print Assumptions C60_se2_adjoint.
Print Assumptions C60_se2_exp_ln.
Print Assumptions C60_se2_ln_exp.
Example C60_nonvacuous : exists T v, rotation2 (rot2 T) /\ se2_act T (mk2 1 2) = mk2 8 6 /\ vz v = 1 /\ - PI < vz v <= PI /\ 1 / 1000 <= Rabs (vz v).
Proof.
  exists (mkSE2 (mkM2 (mk2 0 (-1)) (mk2 1 0)) (mk2 10 5)), (mk3 4 5 1). cbn [vz rot2].
  split; [unfold rotation2, orthonormal2; unfold2; repeat split; ring|].
  split; [unfold se2_act; cbn [rot2 trans2]; unfold2; f_equal; ring|]. pose proof PI2_3_2. rewrite Rabs_right by lra. repeat split; lra.
Qed.
