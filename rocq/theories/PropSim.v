(** * C61 C62 C63: similarity transforms. *)
From Coq Require Import Reals ZArith Lra Bool Psatz Arith Lia.
From Verif Require Import Base Alg Mat SpecMat LemMat ModelOps LemOps Inst SpecLin LemLin ModelGauss LemGauss ModelLie SpecLie LemLie LemSO3 LemSO3b LemSO3c LemSO3d LemHelpers ModelSE SpecSE LemSE LemSE2 LemSE3 ModelSim SpecSim LemSim LemSim2.
Local Open Scope R_scope.

(** ** C61: similarity transforms form a group acting on points *)
Theorem C61_sim3_action : forall A B x, sim3_act (sim3_mul A B) x = sim3_act A (sim3_act B x) /\ sim3_act sim3_default x = x /\
  sim3_act (sim3_mul_se3 A (mkSE3 (mrot B) (mtrans B))) x = sim3_act A (se3_act (mkSE3 (mrot B) (mtrans B)) x).
Proof.
  intros A B x. destruct A as [m t a], B as [n s b].
  unfold sim3_act, sim3_mul, sim3_default, sim3_mul_se3, se3_act, so3_mul, so3_act, so3_default. cbn [mrot mtrans mscl rot trans].
  split; [|split].
  - rewrite !mm3_act, !mv3_scale, !mv3_add, !mv3_scale. set (p := mv3 m (mv3 n x)). set (q := mv3 m s). clearbody p q. clear. dv. lie_unfold. f_equal; ring.
  - rewrite mv3_id. clear. dv. lie_unfold. f_equal; ring.
  - unfold sim3_act, sim3_mul, so3_act, so3_mul, sim3_default. cbn [mrot mtrans mscl]. rewrite mm3_act, !mv3_scale, !mv3_add. set (p := mv3 m (mv3 n x)). set (q := mv3 m s). clearbody p q. clear. dv. lie_unfold. f_equal; ring.
Qed.
Theorem C61_sim3_associative : forall A B C, sim3_mul (sim3_mul A B) C = sim3_mul A (sim3_mul B C) /\
  sim3_mul sim3_default A = A /\ sim3_mul A sim3_default = A.
Proof.
  intros A B C. destruct A as [m t a], B as [n s b], C as [o r c].
  unfold sim3_mul, sim3_default, so3_mul, so3_act, so3_default. cbn [mrot mtrans mscl].
  split; [|split].
  - rewrite mm3_assoc, mm3_act, !mv3_scale, !mv3_add, !mv3_scale. f_equal; [|ring].
    set (p := mv3 m (mv3 n r)). set (q := mv3 m s). clearbody p q. clear. dv. lie_unfold. f_equal; ring.
  - rewrite mm3_id_l, mv3_id. f_equal; [|ring]. clear. dv. lie_unfold. f_equal; ring.
  - rewrite mm3_id_r. f_equal; [|ring]. clear. dv. lie_unfold. f_equal; ring.
Qed.
Theorem C61_sim3_inverse : forall A, rotation (mrot A) -> mscl A <> 0 -> exists B, sim3_inverse A = Ok B /\
  sim3_mul A B = sim3_default /\ sim3_mul B A = sim3_default /\ rotation (mrot B) /\ (0 < mscl A -> 0 < mscl B) /\
  forall x, sim3_act B (sim3_act A x) = x /\ sim3_act A (sim3_act B x) = x.
Proof.
  intros A H Hs. unfold sim3_inverse. rewrite Rdiv_ok by exact Hs. cbn [bind]. eexists. split; [reflexivity|].
  set (B := mkSIM3 _ _ _).
  assert (E1 : sim3_mul A B = sim3_default).
  { unfold B, sim3_mul, sim3_default, so3_mul, so3_act, so3_default, so3_inverse. cbn [mrot mtrans mscl].
    rewrite rotation_tr_r by exact H. rewrite mv3_scale, mv3_neg, mv3_scale, <- mm3_act, rotation_tr_r, mv3_id by exact H.
    f_equal; [|field; exact Hs]. destruct (mtrans A) as [t0 t1 t2]. lie_unfold. f_equal; field; exact Hs. }
  assert (E2 : sim3_mul B A = sim3_default).
  { unfold B, sim3_mul, sim3_default, so3_mul, so3_act, so3_default, so3_inverse. cbn [mrot mtrans mscl].
    rewrite rotation_tr_l by exact H. rewrite mv3_scale, add3_comm, add3_neg. f_equal. field; exact Hs. }
  split; [exact E1|]. split; [exact E2|]. split; [apply rotation_inv; exact H|]. split.
  - intros P. cbn [mscl B]. apply Rdiv_lt_0_compat; lra.
  - intros x. rewrite <- (proj1 (C61_sim3_action _ _ x)), E2, <- (proj1 (C61_sim3_action _ _ x)), E1. split; apply (C61_sim3_action A A x).
Qed.
(** a zero scale has no inverse *)
Theorem C61_sim3_zero_scale : forall A, mscl A = 0 -> sim3_inverse A = NonFinite.
Proof. intros A H. unfold sim3_inverse, div. rewrite H. cbn [feqb ROps]. rewrite R_eqb_t by reflexivity. reflexivity. Qed.
Theorem C61_sim3_assignment : forall A B, sim3_mul_assign A B = sim3_mul A B /\ sim3_left_multiply_by A B = sim3_mul B A /\ sim3_mul_assign_self A = sim3_mul A A.
Proof. intros A B. split; [reflexivity|]. split; reflexivity. Qed.
Theorem C61_sim3_scales_lengths : forall A x y, rotation (mrot A) -> len3 (sub3 (sim3_act A x) (sim3_act A y)) = Rabs (mscl A) * len3 (sub3 x y).
Proof.
  intros A x y H. unfold len3.
  assert (E : sub3 (sim3_act A x) (sim3_act A y) = scale3 (mscl A) (mv3 (mrot A) (sub3 x y))).
  { unfold sim3_act, so3_act. destruct A as [m t s]. cbn [mrot mtrans mscl]. clear. dv. lie_unfold. f_equal; ring. }
  rewrite E, dot3_scale_l, dot3_scale_r, (rotation_dot (mrot A) _ _ H), <- Rmult_assoc, sqrt_mult.
  - f_equal. fold (Rsqr (mscl A)). apply sqrt_Rsqr_abs.
  - apply Rle_0_sqr.
  - apply dot3_nonneg.
Qed.
Theorem C61_sim3_homogeneous : forall A B (g : nat -> R) i j, (i < 4)%nat -> (j < 4)%nat ->
  homs3 (sim3_mul A B) i j = times 4 (homs3 A) (homs3 B) i j /\
  v4_at (sim3_act4 A (v4_of g)) i = sum (F:=R) 4 (fun k => homs3 A i k * g k) /\
  v4_at (sim3_act4_left (v4_of g) A) i = sum (F:=R) 4 (fun k => g k * homs3 A k i).
Proof.
  intros A B g i j Hi Hj.
  destruct A as [[[m00 m01 m02] [m10 m11 m12] [m20 m21 m22]] [t0 t1 t2] a], B as [[[n00 n01 n02] [n10 n11 n12] [n20 n21 n22]] [p0 p1 p2] b].
  split; [|split].
  - unfold times, homs3, sim3_mul, ent, comp3, so3_mul, so3_act.
    four i Hi; four j Hj; cbn [Nat.ltb Nat.leb sum fadd f0 ROps mrot mtrans mscl r0 r1 r2 vx vy vz]; lie_unfold; ring.
  - unfold sim3_act4, v4_of, v4_at, homs3, ent, comp3, so3_act, so3_act_left.
    four i Hi; cbn [Nat.ltb Nat.leb sum fadd f0 ROps mrot mtrans mscl top w4 r0 r1 r2 vx vy vz]; lie_unfold; ring.
  - unfold sim3_act4_left, v4_of, v4_at, homs3, ent, comp3, so3_act, so3_act_left.
    four i Hi; cbn [Nat.ltb Nat.leb sum fadd f0 ROps mrot mtrans mscl top w4 r0 r1 r2 vx vy vz]; lie_unfold; ring.
Qed.
Theorem C61_sim3_homogeneous_matrices : forall A M,
  (mrows M = 4%nat -> gives_mat (sim3_mul_matrix A M) 4 (mcols M) (fun i j => sum (F:=R) 4 (fun k => homs3 A i k * mel M k j))) /\
  (mcols M = 4%nat -> gives_mat (sim3_matrix_mul M A) (mrows M) 4 (fun i j => sum (F:=R) 4 (fun k => mel M i k * homs3 A k j))) /\
  (mrows M <> 4%nat -> sim3_mul_matrix A M = Abort DSizeMismatch) /\ (mcols M <> 4%nat -> sim3_matrix_mul M A = Abort DSizeMismatch).
Proof.
  intros A M. split; [|split; [|split]].
  - intros H. apply map_cols_ok; auto. intros g i Hi. apply (C61_sim3_homogeneous A A g i 0); auto; lia.
  - intros H. apply map_rows_ok; auto. intros g i Hi. apply (C61_sim3_homogeneous A A g i 0); auto; lia.
  - intros H. unfold sim3_mul_matrix, map_cols. rewrite same_size_bad by auto. reflexivity.
  - intros H. unfold sim3_matrix_mul, map_rows. rewrite same_size_bad by auto. reflexivity.
Qed.
Theorem C61_sim2_group : forall A B C x, sim2_mul (sim2_mul A B) C = sim2_mul A (sim2_mul B C) /\ sim2_mul sim2_default A = A /\ sim2_mul A sim2_default = A /\
  sim2_mul_assign A B = sim2_mul A B /\ sim2_act (sim2_mul A B) x = sim2_act A (sim2_act B x) /\ sim2_act sim2_default x = x.
Proof.
  intros [[[m00 m01] [m10 m11]] [t0 t1] a] [[[n00 n01] [n10 n11]] [p0 p1] b] [[[o00 o01] [o10 o11]] [q0 q1] c] [x0 x1].
  unfold sim2_mul, sim2_mul_assign, sim2_mul, sim2_default, sim2_act. cbn [mrot2 mtrans2 mscl2]. unfold2. cbn [ux uy s0 s1].
  repeat split; repeat (f_equal; try ring).
Qed.
Theorem C61_sim2_inverse : forall A, rotation2 (mrot2 A) -> mscl2 A <> 0 -> exists B, sim2_inverse A = Ok B /\
  sim2_mul A B = sim2_default /\ sim2_mul B A = sim2_default /\ rotation2 (mrot2 B).
Proof.
  intros [m [t0 t1] a] H Hs. cbn [mrot2 mscl2] in *. destruct (rotation2_form m H) as (c & s & E & ->).
  unfold sim2_inverse. cbn [mrot2 mtrans2 mscl2]. rewrite Rdiv_ok by exact Hs. cbn [bind]. eexists. split; [reflexivity|].
  assert (E' : s * s = 1 - c * c) by lra.
  unfold sim2_mul, sim2_default. cbn [mrot2 mtrans2 mscl2]. unfold2. cbn [ux uy s0 s1].
  split; [|split].
  - f_equal; [f_equal; f_equal; lra| |field; exact Hs].
    f_equal; field_simplify; try exact Hs; replace (s ^ 2) with (1 - c * c) by (rewrite <- E'; ring); field; exact Hs.
  - f_equal; [f_equal; f_equal; lra| |field; exact Hs]. f_equal; field; exact Hs.
  - rewrite <- (Ropp_involutive s) at 1. apply (form_rotation2 c (- s)). lra.
Qed.
Theorem C61_sim2_homogeneous : forall A B (g : nat -> R) i j M, (i < 3)%nat -> (j < 3)%nat ->
  homs2 (sim2_mul A B) i j = times 3 (homs2 A) (homs2 B) i j /\
  v3_at (sim2_act3 A (v3_of g)) i = sum (F:=R) 3 (fun k => homs2 A i k * g k) /\
  v3_at (sim2_act3_left (v3_of g) A) i = sum (F:=R) 3 (fun k => g k * homs2 A k i) /\
  (mrows M = 3%nat -> gives_mat (sim2_mul_matrix A M) 3 (mcols M) (fun i j => sum (F:=R) 3 (fun k => homs2 A i k * mel M k j))) /\
  (mcols M = 3%nat -> gives_mat (sim2_matrix_mul M A) (mrows M) 3 (fun i j => sum (F:=R) 3 (fun k => mel M i k * homs2 A k j))).
Proof.
  intros A B g i j M Hi Hj.
  assert (G1 : forall (g : nat -> R) i, (i < 3)%nat -> v3_at (sim2_act3 A (v3_of g)) i = sum (F:=R) 3 (fun k => homs2 A i k * g k)).
  { clear. intros g i Hi. destruct A as [[[m00 m01] [m10 m11]] [t0 t1] a]. unfold sim2_act3, v3_of, v3_at, homs2, el22, el2.
    destruct i as [|[|[|i]]]; [| | |lia]; cbn [Nat.ltb Nat.leb sum fadd f0 ROps mrot2 mtrans2 mscl2 ux uy s0 s1 vx vy vz]; unfold2; cbn [ux uy s0 s1]; ring. }
  assert (G2 : forall (g : nat -> R) i, (i < 3)%nat -> v3_at (sim2_act3_left (v3_of g) A) i = sum (F:=R) 3 (fun k => g k * homs2 A k i)).
  { clear. intros g i Hi. destruct A as [[[m00 m01] [m10 m11]] [t0 t1] a]. unfold sim2_act3_left, v3_of, v3_at, homs2, el22, el2.
    destruct i as [|[|[|i]]]; [| | |lia]; cbn [Nat.ltb Nat.leb sum fadd f0 ROps mrot2 mtrans2 mscl2 ux uy s0 s1 vx vy vz]; unfold2; cbn [ux uy s0 s1]; ring. }
  split; [|split; [|split; [|split]]]; auto.
  - clear G1 G2. destruct A as [[[m00 m01] [m10 m11]] [t0 t1] a], B as [[[n00 n01] [n10 n11]] [q0 q1] b].
    unfold times, homs2, sim2_mul, el22, el2.
    destruct i as [|[|[|i]]]; [| | |lia]; (destruct j as [|[|[|j]]]; [| | |lia]); cbn [Nat.ltb Nat.leb sum fadd f0 ROps mrot2 mtrans2 mscl2 ux uy s0 s1]; unfold2; cbn [ux uy s0 s1]; ring.
  - intros H. apply map_cols_ok; auto.
  - intros H. apply map_rows_ok; auto.
Qed.
Print Assumptions C61_sim3_inverse.
Print Assumptions C61_sim3_homogeneous_matrices.
Print Assumptions C61_sim2_group.
Example C61_nonvacuous : exists A x, rotation (mrot A) /\ 0 < mscl A /\ sim3_act A x = mk3 6 7 11 /\ sim3_act (sim3_mul A A) x = mk3 (-4) 17 27.
Proof.
  exists (mkSIM3 (mkM (mk3 0 (-1) 0) (mk3 1 0 0) (mk3 0 0 1)) (mk3 10 5 5) 2), (mk3 1 2 3).
  unfold rotation, orthonormal, sim3_act, sim3_mul, so3_act, so3_mul. cbn [mrot mtrans mscl]. lie_unfold.
  split; [repeat split; ring|]. split; [lra|]. split; f_equal; ring.
Qed.

(** ** C62: exponential and logarithm *)
Lemma path_unique a t s u P Q : sim_path a t s u P -> sim_path a t s u Q -> P 1 = Q 1.
Proof.
  intros [P0 HP] [Q0 HQ]. apply comp3_ext. intros i Hi.
  assert (D : forall x, derivable_pt_lim (fun y => comp3 (P y) i - comp3 (Q y) i) x 0).
  { intros x. eapply d_eq; [apply (derivable_pt_lim_minus (fun y => comp3 (P y) i) (fun y => comp3 (Q y) i)); [apply HP|apply HQ]; exact Hi|ring]. }
  destruct (MVT_cor2 (fun y => comp3 (P y) i - comp3 (Q y) i) (fun _ => 0) 0 1 ltac:(lra) (fun c _ => D c)) as (c & E & _).
  cbv beta in E. rewrite P0, Q0 in E. lra.
Qed.
(** A constant velocity in the algebra moves the origin with velocity exp(s x) R(t x) u; the exponential is the transform at
    time one: the rotation by t about a, the scale e^s, and the point reached. [P] is determined by these data (C62_path_unique). *)
Theorem C62_path_unique : forall a t s u, (exists P, sim_path a t s u P) /\ forall P Q, sim_path a t s u P -> sim_path a t s u Q -> P 1 = Q 1.
Proof. intros a t s u. split; [eexists; apply path_comb|apply path_unique]. Qed.
Theorem C62_sim3_exp : forall a t s u, dot3 a a = 1 -> (t = 0 \/ 1 / 1000 <= t) -> (s = 0 \/ 1 / 10 ^ 6 <= Rabs s) ->
  exists T, sim3_exp (mk7 u (scale3 t a) s) = Ok T /\ (forall p, so3_act (mrot T) p = rotate a t p) /\ mscl T = exp s /\
    forall P, sim_path a t s u P -> mtrans T = P 1.
Proof.
  intros a t s u Ha Ht Hs. assert (T0 : 0 <= t) by (destruct Ht; lra).
  destruct (rod_coeffs s t) as [[c0 c1] c2] eqn:Ec.
  assert (Ht' : t = 0 \/ 1 / 10 ^ 6 <= Rabs t) by (destruct Ht; [left; auto|right; rewrite Rabs_right; lra]).
  destruct (rod_exact _ _ _ _ _ Hs Ht' Ec) as (E0 & E1 & E2).
  rewrite (sim3_exp_form a t s u c0 c1 c2 Ha T0 Ec), so3_exp_axis by auto. cbn [bind]. eexists. split; [reflexivity|]. cbn [mrot mtrans mscl].
  split; [intros p; apply rot_matrix_act|]. split; [reflexivity|]. intros P HP. rewrite E1, E2, E0.
  apply (path_unique a t s u _ P (path_comb a t s u) HP).
Qed.
(** Where the coefficients come from Taylor polynomials the point reached is right up to third order in a tiny log-scale and up to
    fifth order in a tiny rotation; when both are tiny (and the rotation is not zero) only up to first order in the rotation, and
    C62_sim3_tiny_refuted shows that the first order is indeed lost. *)
Theorem C62_sim3_exp_accuracy : forall a t s u, dot3 a a = 1 -> 0 <= t ->
  exists T, sim3_exp (mk7 u (scale3 t a) s) = Ok T /\ mscl T = exp s /\ forall P, sim_path a t s u P ->
    (Rabs s < 1 / 10 ^ 6 -> 1 / 10 ^ 6 <= t -> len3 (sub3 (mtrans T) (P 1)) <= 4 * Rabs s ^ 3 * len3 u) /\
    (Rabs s < 1 / 10 ^ 6 -> t = 0 -> len3 (sub3 (mtrans T) (P 1)) <= 4 * Rabs s ^ 3 * len3 u) /\
    (1 / 10 ^ 6 <= Rabs s -> t < 1 / 10 ^ 6 -> len3 (sub3 (mtrans T) (P 1)) <= Rmax 1 (exp s) * t ^ 5 / 60 * len3 u) /\
    (1 / 10 ^ 6 <= Rabs s -> 1 / 10 ^ 6 <= t -> mtrans T = P 1) /\
    (Rabs s < 1 / 10 ^ 6 -> t < 1 / 10 ^ 6 -> len3 (sub3 (mtrans T) (P 1)) <= (4 * Rabs s ^ 3 + 6 * t) * len3 u).
Proof.
  intros a t s u Ha T0. destruct (rod_coeffs s t) as [[c0 c1] c2] eqn:Ec. rewrite (sim3_exp_form a t s u c0 c1 c2 Ha T0 Ec).
  assert (Ex : exists r, so3_exp (scale3 t a) = Ok r) by (destruct (so3_exp_form (scale3 t a)) as (A & B & E & _); eauto).
  destruct Ex as [r ->]. cbn [bind]. eexists. split; [reflexivity|]. cbn [mtrans mscl]. split; [reflexivity|]. intros P HP.
  rewrite (path_unique _ _ _ _ P _ HP (path_comb a t s u)).
  assert (S3 : 0 <= Rabs s ^ 3) by (apply pow_le, Rabs_pos). assert (At : Rabs t = t) by (apply Rabs_right; lra).
  assert (G : forall e, 0 <= e -> Rabs (c0 - Zc s 1) <= e -> Rabs (c0 - c2 * (t * t) - Xc s t 1) <= e -> Rabs (c1 * t - Yc s t 1) <= e ->
    len3 (sub3 (comb a (c0 - c2 * (t * t)) (c1 * t) c0 u) (comb a (Xc s t 1) (Yc s t 1) (Zc s 1) u)) <= 2 * e * len3 u).
  { intros e He H0 H1 H2. rewrite comb_sub. apply comb_len; auto. }
  split; [|split; [|split; [|split]]].
  - intros Hs Ht. replace (4 * Rabs s ^ 3) with (2 * (2 * Rabs s ^ 3)) by ring.
    destruct (rod_small_scale s t c0 c1 c2 Hs ltac:(rewrite At; exact Ht) Ec) as (E0 & E1 & E2). apply G; auto. lra.
  - intros Hs Ht. replace (4 * Rabs s ^ 3) with (2 * (2 * Rabs s ^ 3)) by ring.
    destruct (rod_both_small s t c0 c1 c2 Hs ltac:(lra) Ec) as (E0 & E1 & E2). apply G; auto; rewrite Ht in *; lra.
  - intros Hs Ht. replace (Rmax 1 (exp s) * t ^ 5 / 60) with (2 * (Rmax 1 (exp s) * (t ^ 5 / 120))) by field.
    destruct (rod_small_angle s t c0 c1 c2 Hs ltac:(lra) Ec) as (E0 & E1 & E2).
    assert (M : 1 <= Rmax 1 (exp s)) by apply Rmax_l. assert (T5 : 0 <= t ^ 5) by (apply pow_le; auto).
    assert (T6 : t ^ 6 <= t ^ 5) by (replace (t ^ 6) with (t * t ^ 5) by ring; rewrite <- (Rmult_1_l (t ^ 5)) at 2; apply Rmult_le_compat_r; lra).
    assert (B : 0 <= Rmax 1 (exp s) * (t ^ 5 / 120)) by (apply Rmult_le_pos; lra).
    apply G; auto.
    + rewrite E0, Rminus_diag_eq, Rabs_R0 by reflexivity. exact B.
    + eapply Rle_trans; [exact E1|]. apply Rmult_le_compat_l; lra.
  - intros Hs Ht. destruct (rod_exact s t c0 c1 c2 (or_intror Hs) ltac:(right; rewrite At; exact Ht) Ec) as (E0 & E1 & E2). rewrite E1, E2, E0. reflexivity.
  - intros Hs Ht. replace (4 * Rabs s ^ 3 + 6 * t) with (2 * (2 * Rabs s ^ 3 + 3 * t)) by ring.
    destruct (rod_both_small s t c0 c1 c2 Hs ltac:(lra) Ec) as (E0 & E1 & E2). apply G; lra.
Qed.
(** exp undoes ln *)
Theorem C62_sim3_exp_ln : forall thr T v, 0 < thr < 1 -> rotation (mrot T) -> sim3_ln thr T = Ok v ->
  (ang7 v = zero3 \/ 1 / 1000 <= len3 (ang7 v)) -> sim3_exp v = Ok T.
Proof. exact sim3_exp_ln. Qed.
(** ln has a result on every transform with positive scale whose rotation and log-scale are zero or not tiny *)
Theorem C62_sim3_ln_total : forall thr T, 0 < thr < 1 -> rotation (mrot T) -> 0 < mscl T -> (ln (mscl T) = 0 \/ 1 / 10 ^ 6 <= Rabs (ln (mscl T))) ->
  exists w, so3_ln thr (mrot T) = Ok w /\ ((w = zero3 \/ 1 / 10 ^ 6 <= len3 w) -> exists v, sim3_ln thr T = Ok v /\ ang7 v = w /\ sc7 v = ln (mscl T)).
Proof.
  intros thr T Hthr Hr Hs Hl. destruct (so3_ln_ok thr (mrot T) Hthr Hr) as (b & r & Ub & Br & E & M).
  exists (scale3 r b). split; [exact E|]. intros Hw.
  destruct (sim3_ln_total thr T (scale3 r b) E) as (v & Ev); auto.
  - rewrite len3_scale by lra. unfold len3. rewrite Ub, sqrt_1. lra.
  - destruct Hw as [Z|Z]; [left|right].
    + rewrite Z. unfold len3. replace (dot3 zero3 zero3) with 0 by (lie_unfold; ring). apply sqrt_0.
    + pose proof (len3_nonneg (scale3 r b)). rewrite Rabs_right by lra. exact Z.
  - exists v. split; [exact Ev|]. destruct (sim3_ln_result thr T v Ev) as (E1 & _ & E2 & _). rewrite E in E1. injection E1 as E1. auto.
Qed.
Theorem C62_sim3_ln_exp : forall thr v T, 0 < thr < 1 -> (ang7 v = zero3 \/ 1 / 1000 <= len3 (ang7 v)) -> len3 (ang7 v) < PI ->
  (sc7 v = 0 \/ 1 / 10 ^ 6 <= Rabs (sc7 v)) -> sim3_exp v = Ok T -> sim3_ln thr T = Ok v.
Proof. exact sim3_ln_exp. Qed.
(** no logarithm for a scale that is not positive *)
Theorem C62_ln_needs_positive_scale : forall thr T U, 0 < thr < 1 -> rotation (mrot T) -> mscl T <= 0 -> mscl2 U <= 0 ->
  sim3_ln thr T = NonFinite /\ sim2_ln U = NonFinite.
Proof.
  intros thr T U Hthr Hr Hs Hu. destruct (so3_ln_ok thr (mrot T) Hthr Hr) as (b & r & Ub & Br & E & M).
  unfold sim3_ln, sim2_ln, log_. rewrite E. cbn [bind]. rewrite !R_ltb_f by lra. auto.
Qed.
(** 1/2 and 1/6 are integer divisions, so when both the rotation and the log-scale are tiny the exponential drops the whole
    first-order effect of the rotation: with scale zero it even disagrees with SE3 on the side to which the point moves. *)
Theorem C62_sim3_tiny_refuted : exists a t u, dot3 a a = 1 /\ 0 < t < 1 / 10 ^ 6 /\
  exists T, sim3_exp (mk7 u (scale3 t a) 0) = Ok T /\ forall P, sim_path a t 0 u P -> vz (mtrans T) < 0 < vz (P 1).
Proof.
  exists (mk3 1 0 0), (5 / 10 ^ 7), (mk3 0 1 0). set (t := 5 / 10 ^ 7). assert (Ht : t = 5 / 10 ^ 7) by reflexivity.
  split; [lie_unfold; ring|]. split; [lra|].
  assert (Ha : dot3 (mk3 1 0 0) (mk3 1 0 0) = 1) by (lie_unfold; ring).
  assert (Ec : rod_coeffs 0 t = (1 + 0 / 2 + 0 * 0 / 6, IZR (Z.quot 1 2) + 0 / 3 - t * t / 24 + 0 * 0 / 8, IZR (Z.quot 1 6) + 0 / 8 - t * t / 120 + 0 * 0 / 20)).
  { unfold rod_coeffs. rewrite Rabs_R0, (R_ltb_t 0) by lra. rewrite (Rabs_right t) by lra. rewrite R_ltb_t by lra. reflexivity. }
  rewrite (sim3_exp_form _ t 0 _ _ _ _ Ha ltac:(lra) Ec).
  assert (Ex : exists r, so3_exp (scale3 t (mk3 1 0 0)) = Ok r) by (destruct (so3_exp_form (scale3 t (mk3 1 0 0))) as (A & B & E & _); eauto).
  destruct Ex as [r ->]. cbn [bind]. eexists. split; [reflexivity|]. cbn [mtrans]. intros P HP.
  rewrite (path_unique _ _ _ _ P _ HP (path_comb (mk3 1 0 0) t 0 (mk3 0 1 0))).
  change (Z.quot 1 2) with 0%Z. change (Z.quot 1 6) with 0%Z. unfold comb. lie_unfold.
  split.
  - assert (0 < t * t * t) by (repeat apply Rmult_lt_0_compat; lra). lra.
  - unfold Yc. rewrite R_eqb_f by nra. rewrite !Rmult_1_r.
    assert (C1 : cos t < 1).
    { rewrite <- cos_0. apply cos_decreasing_1; try lra; pose proof PI2_3_2; pose proof PI2_RGT_0; lra. }
    rewrite Rmult_0_l, exp_0.
    assert (0 < (0 - (1 * cos t - 1) * t) / (0 * 0 + t * t)). { apply Rdiv_lt_0_compat; nra. } 
    match goal with |- 0 < ?x => replace x with ((0 - (1 * cos t - 1) * t) / (0 * 0 + t * t)) by (field; nra) end. exact H.
Qed.
(** SIM2: the coefficient of the velocity is the third one instead of the first minus theta^2 times the third, so a pure
    translation is not translated, and the identity has no logarithm. *)
Theorem C62_sim2_refuted : (forall x y, mtrans2 (sim2_exp (mkW4 (mk2 x y) 0 0)) = mk2 0 0) /\ sim2_ln sim2_default = NonFinite.
Proof.
  assert (Ec : rod_coeffs 0 0 = (1 + 0 / 2 + 0 * 0 / 6, IZR (Z.quot 1 2) + 0 / 3 - 0 * 0 / 24 + 0 * 0 / 8, IZR (Z.quot 1 6) + 0 / 8 - 0 * 0 / 120 + 0 * 0 / 20)).
  { unfold rod_coeffs. rewrite Rabs_R0, (R_ltb_t 0) by lra. reflexivity. }
  split.
  - intros x y. unfold sim2_exp. cbn [wsc wang wlin]. rewrite Ec. cbn [mtrans2].
    change (Z.quot 1 2) with 0%Z. change (Z.quot 1 6) with 0%Z. unfold2. cbn [ux uy]. f_equal; field.
  - unfold sim2_ln, sim2_default. cbn [mrot2 mscl2 mtrans2].
    assert (L : so2_ln id2 = 0). { rewrite <- so2_exp_0. apply so2_ln_exp. pose proof PI_RGT_0. lra. }
    rewrite L. unfold log_. rewrite R_ltb_t by lra. cbn [bind]. rewrite ln_1, Ec.
    match goal with |- context [gaussian_elimination ?W ?b] => destruct (gaussian_elimination_ok 2 W b eq_refl eq_refl eq_refl) as [[N _]|[_ ->]]; [|reflexivity] end.
    exfalso. specialize (N (fun _ => 1)). assert (A : (1 : R) = 0); [|lra]. apply (N ltac:(intros i Hi; clear; change (Z.quot 1 2) with 0%Z; change (Z.quot 1 6) with 0%Z;
      destruct i as [|[|i]]; cbn [sum fadd f0 ROps sim2_W mel]; cbn; field) 0%nat). lia.
Qed.
(** What does hold in two dimensions: rotation and scale of the exponential, and exp undoes ln whenever ln has a result. Missing: the
    translation (refuted above). *)
Theorem C62_sim2_partial : forall v T, (mrot2 (sim2_exp v) = so2_exp (wang v) /\ mscl2 (sim2_exp v) = exp (wsc v)) /\
  (rotation2 (mrot2 T) -> sim2_ln T = Ok v -> sim2_exp v = T).
Proof.
  intros v T. split; [unfold sim2_exp; destruct (rod_coeffs (wsc v) (wang v)) as [[c0 c1] c2]; auto|].
  intros Hr. unfold sim2_ln, log_. destruct (R_ltb 0 (mscl2 T)) eqn:Es; cbn [bind]; try discriminate. apply R_ltb_spec in Es.
  destruct (rod_coeffs (ln (mscl2 T)) (so2_ln (mrot2 T))) as [[c0 c1] c2] eqn:Ec.
  match goal with |- context [gaussian_elimination ?W ?b] => destruct (gaussian_elimination_ok 2 W b eq_refl eq_refl eq_refl) as [[_ (x & -> & Lx & Sx)]|[_ ->]]; [|discriminate] end.
  cbn [bind]. intros E; injection E as <-. unfold sim2_exp. cbn [wsc wang wlin]. rewrite Ec, exp_ln by exact Es.
  rewrite (proj1 (so2_exp_ln _ Hr)). pose proof (Sx 0%nat ltac:(lia)) as S0. pose proof (Sx 1%nat ltac:(lia)) as S1.
  cbn [vat] in S0, S1. cbn [sum fadd fmul f0 ROps sim2_W mel] in S0, S1. cbn [mel sim2_W] in S0, S1.
  destruct T as [m [t0 t1] k]. cbn [mrot2 mtrans2 mscl2 ux uy] in *. f_equal. unfold add2, scale2. cbn [ux uy].
  f_equal; [rewrite <- S0|rewrite <- S1]; ring.
Qed.
Theorem C62_generator_field : forall i p r, (i < 7)%nat -> (r < 4)%nat -> sim3_generator_field i p r = sum (F:=R) 4 (fun c => sim3_generator i r c * p c).
Proof.
  intros i p r Hi Hr. four r Hr; (destruct i as [|[|[|[|[|[|[|i]]]]]]]; [| | | | | | |lia]);
    unfold sim3_generator_field, sim3_generator, se3_generator_field, se3_generator; cbn; ring.
Qed.
Print Assumptions C62_sim3_exp.
Print Assumptions C62_sim3_exp_accuracy.
Print Assumptions C62_sim3_exp_ln.
Print Assumptions C62_sim3_ln_exp.
Print Assumptions C62_sim3_tiny_refuted.
Print Assumptions C62_sim2_refuted.
Print Assumptions C62_sim2_partial.
Example C62_nonvacuous : exists a t s u, dot3 a a = 1 /\ 1 / 1000 <= t < PI /\ 1 / 10 ^ 6 <= Rabs s /\ cross3 a u <> zero3 /\ len3 (scale3 t a) = t.
Proof.
  exists (mk3 0 0 1), 1, (-1), (mk3 1 2 3). split; [lie_unfold; ring|]. split; [pose proof PI2_3_2; lra|]. split; [rewrite Rabs_left; lra|].
  split; [lie_unfold; intros E; injection E; lra|]. unfold len3. replace (dot3 _ _) with 1 by (lie_unfold; ring). apply sqrt_1.
Qed.

(** ** C63: the adjoint *)
Definition scl3 (k : R) (m : M3) : M3 := mkM (scale3 k (r0 m)) (scale3 k (r1 m)) (scale3 k (r2 m)).
Definition addm (m n : M3) : M3 := mkM (add3 (r0 m) (r0 n)) (add3 (r1 m) (r1 n)) (add3 (r2 m) (r2 n)).
Lemma homs3_blk A i j : homs3 A i j = blk (scl3 (mscl A) (mrot A)) (mtrans A) 1 i j.
Proof.
  destruct A as [[[m00 m01 m02] [m10 m11 m12] [m20 m21 m22]] t a]. unfold homs3, blk, scl3, ent, comp3. cbn [mrot mtrans mscl r0 r1 r2].
  destruct i as [|[|[|i]]]; cbn [Nat.ltb Nat.leb]; destruct j as [|[|[|j]]]; cbn [Nat.ltb Nat.leb]; lie_unfold; reflexivity.
Qed.
Lemma gen7_blk w i j : (i < 4)%nat -> (j < 4)%nat -> gen7 w i j = blk (addm (scl3 (sc7 w) id3) (hat (ang7 w))) (lin7 w) 0 i j.
Proof.
  intros Hi Hj. destruct w as [[u0 u1 u2] [w0 w1 w2] s]. four i Hi; four j Hj; unfold gen7, blk, addm, scl3, hat, id3, v7_at, v6_at; cbn; ring.
Qed.
Lemma scl3_l s a b : mm3 (scl3 s a) b = scl3 s (mm3 a b).
Proof. unfold scl3. dv. lie_unfold. f_equal; f_equal; ring. Qed.
Lemma scl3_r s a b : mm3 a (scl3 s b) = scl3 s (mm3 a b).
Proof. unfold scl3. dv. lie_unfold. f_equal; f_equal; ring. Qed.
Lemma addm_l a b c : mm3 (addm a b) c = addm (mm3 a c) (mm3 b c).
Proof. unfold addm. dv. lie_unfold. f_equal; f_equal; ring. Qed.
Lemma addm_r a b c : mm3 a (addm b c) = addm (mm3 a b) (mm3 a c).
Proof. unfold addm. dv. lie_unfold. f_equal; f_equal; ring. Qed.
Lemma scl3_addm s a b : scl3 s (addm a b) = addm (scl3 s a) (scl3 s b).
Proof. unfold addm, scl3. dv. lie_unfold. f_equal; f_equal; ring. Qed.
Lemma scl3_scl3 s k a : scl3 s (scl3 k a) = scl3 (s * k) a.
Proof. unfold scl3. dv. lie_unfold. f_equal; f_equal; ring. Qed.
Lemma scl3_mv s a p : mv3 (scl3 s a) p = scale3 s (mv3 a p).
Proof. unfold scl3. dv. lie_unfold. f_equal; ring. Qed.
Lemma addm_mv a b p : mv3 (addm a b) p = add3 (mv3 a p) (mv3 b p).
Proof. unfold addm. dv. lie_unfold. f_equal; ring. Qed.
Lemma conj_mm s k R H N sg : s * k = 1 ->
  mm3 (mm3 (scl3 s R) (addm (scl3 sg id3) H)) (scl3 k N) = addm (scl3 sg (mm3 R N)) (mm3 (mm3 R H) N).
Proof.
  intros E. rewrite scl3_r, scl3_l, scl3_l, scl3_scl3, addm_r, scl3_r, mm3_id_r, addm_l, scl3_l. replace (k * s) with 1 by lra.
  generalize (addm (scl3 sg (mm3 R N)) (mm3 (mm3 R H) N)). clear. intros m. unfold scl3. dv. lie_unfold. f_equal; f_equal; ring.
Qed.
Lemma conj_mv s R H sg p : mv3 (mm3 (scl3 s R) (addm (scl3 sg id3) H)) p = scale3 s (add3 (scale3 sg (mv3 R p)) (mv3 R (mv3 H p))).
Proof. rewrite mm3_act, scl3_mv, addm_mv, scl3_mv, mv3_id, mv3_add, mv3_scale. reflexivity. Qed.
(** Conjugating the matrix of an algebra element by a similarity gives the matrix of this element *)
Theorem C63_conjugation : forall T v B r c, rotation (mrot T) -> sim3_inverse T = Ok B -> (r < 4)%nat -> (c < 4)%nat ->
  times 4 (times 4 (homs3 T) (gen7 v)) (homs3 B) r c =
  gen7 (mk7 (sub3 (add3 (scale3 (mscl T) (so3_act (mrot T) (lin7 v))) (cross3 (mtrans T) (so3_act (mrot T) (ang7 v)))) (scale3 (sc7 v) (mtrans T)))
            (so3_act (mrot T) (ang7 v)) (sc7 v)) r c.
Proof.
  intros T v B r c H E Hr Hc. unfold sim3_inverse in E. destruct (Req_dec (mscl T) 0) as [Z|Z].
  { unfold div in E. rewrite Z in E. cbn [feqb ROps] in E. rewrite R_eqb_t in E by reflexivity. discriminate. }
  rewrite Rdiv_ok in E by exact Z. cbn [bind] in E. injection E as <-.
  destruct T as [m t s], v as [u w sg]. cbn [mrot mtrans mscl lin7 ang7 sc7] in *.
  rewrite gen7_blk by auto. cbn [lin7 ang7 sc7].
  assert (E1 : forall i j, (i < 4)%nat -> (j < 4)%nat -> times 4 (homs3 (mkSIM3 m t s)) (gen7 (mk7 u w sg)) i j =
     blk (mm3 (scl3 s m) (addm (scl3 sg id3) (hat w))) (mv3 (scl3 s m) u) 0 i j).
  { intros i j Hi Hj. rewrite (times_ext 4 _ _ (blk (scl3 s m) t 1) (blk (addm (scl3 sg id3) (hat w)) u 0)); auto;
      [|intros; rewrite homs3_blk; reflexivity|intros; rewrite gen7_blk by auto; reflexivity].
    rewrite blk_times by auto. replace (1 * 0) with 0 by ring. f_equal. clear. set (x := mv3 (scl3 s m) u). clearbody x. dv. lie_unfold. f_equal; ring. }
  rewrite (times_ext 4 _ _ (blk (mm3 (scl3 s m) (addm (scl3 sg id3) (hat w))) (mv3 (scl3 s m) u) 0)
     (blk (scl3 (1 / s) (so3_inverse m)) (neg3 (scale3 (1 / s) (so3_act (so3_inverse m) t))) 1)); auto; [|intros; rewrite homs3_blk; reflexivity].
  rewrite blk_times by auto. unfold so3_inverse, so3_act.
  rewrite conj_mm by (field; exact Z). rewrite conj_mv, hat_conj, (rotation_tr_r m H) by exact H.
  f_equal; [|ring].
  rewrite mv3_neg, mv3_scale, <- mm3_act, (rotation_tr_r m H), mv3_id. rewrite <- mm3_act, mv3_neg, mv3_scale, <- mm3_act, hat_conj, hat_mv by exact H.
  assert (Es : mv3 (scl3 s m) u = scale3 s (mv3 m u)) by (clear; unfold scl3; dv; lie_unfold; f_equal; ring). rewrite Es.
  set (x := mv3 m w). set (y := mv3 m u). clearbody x y. clear - Z. destruct x as [x0 x1 x2], y as [y0 y1 y2], t as [t0 t1 t2]. lie_unfold. f_equal; field; exact Z.
Qed.
(** the adjoint differs from it: for scale 2 no value of the unset element makes it right, and the unset element is part of the result *)
Theorem C63_sim3_refuted : exists T v B, rotation (mrot T) /\ 0 < mscl T /\ sim3_inverse T = Ok B /\
  forall junk, times 4 (times 4 (homs3 T) (gen7 v)) (homs3 B) 0 3 <> gen7 (sim3_adjoint junk T v) 0 3.
Proof.
  exists (mkSIM3 id3 zero3 2), (mk7 (mk3 1 0 0) zero3 0).
  destruct (C61_sim3_inverse (mkSIM3 id3 zero3 2) rotation_id ltac:(cbn [mscl]; lra)) as (B & EB & _).
  exists B. split; [exact rotation_id|]. split; [cbn [mscl]; lra|]. split; [exact EB|]. intros junk.
  rewrite (C63_conjugation (mkSIM3 id3 zero3 2) _ B 0 3 rotation_id EB) by lia. rewrite !gen7_blk by lia.
  unfold blk, comp3, sim3_adjoint. cbn [Nat.ltb Nat.leb mrot mtrans mscl lin7 ang7 sc7]. unfold so3_act. rewrite !mv3_id. lie_unfold. lra.
Qed.
Theorem C63_scale_element_refuted : forall T v junk, sc7 (sim3_adjoint junk T v) = junk /\ sc7 (sim3_trinvadjoint junk T v) = junk.
Proof. split; reflexivity. Qed.
(** What holds: for rigid transforms and velocities without scale the six elements that are set are the right ones, and
    trinvadjoint is the inverse transpose on them. Missing: other scales, and the seventh element. *)
Theorem C63_sim3_partial : forall T v junk, rotation (mrot T) -> mscl T = 1 -> sc7 v = 0 ->
  (exists B, sim3_inverse T = Ok B /\ forall r c, (r < 4)%nat -> (c < 4)%nat ->
    times 4 (times 4 (homs3 T) (gen7 v)) (homs3 B) r c = gen7 (mk7 (lin7 (sim3_adjoint junk T v)) (ang7 (sim3_adjoint junk T v)) 0) r c) /\
  forall u, sum (F:=R) 6 (fun i => v7_at (sim3_trinvadjoint junk T u) i * v7_at (sim3_adjoint junk T v) i) = sum (F:=R) 6 (fun i => v7_at u i * v7_at v i).
Proof.
  intros T v junk H Hs Hz. split.
  - destruct (C61_sim3_inverse T H ltac:(lra)) as (B & EB & _). exists B. split; [exact EB|]. intros r c Hr Hc.
    rewrite (C63_conjugation T v B r c H EB Hr Hc), Hs, Hz. f_equal. f_equal. unfold sim3_adjoint. cbn [lin7 ang7].
    unfold so3_act. set (x := mv3 (mrot T) (ang7 v)). set (y := mv3 (mrot T) (lin7 v)). set (t := mtrans T). clearbody x y t. clear. dv. lie_unfold. f_equal; ring.
  - intros u.
    assert (G : forall u v, sum (F:=R) 6 (fun i => v7_at u i * v7_at v i) = dot3 (lin7 u) (lin7 v) + dot3 (ang7 u) (ang7 v)).
    { clear. intros u v. cbn [sum v7_at v6_at lin ang fadd f0 ROps Nat.ltb Nat.leb]. unfold dot3. ring. }
    rewrite !G. unfold sim3_trinvadjoint, sim3_adjoint, so3_act. cbn [lin7 ang7].
    rewrite <- (rotation_dot (mrot T) (lin7 u) (lin7 v) H), <- (rotation_dot (mrot T) (ang7 u) (ang7 v) H).
    set (a := mv3 (mrot T) (lin7 u)). set (b := mv3 (mrot T) (ang7 u)). set (c := mv3 (mrot T) (lin7 v)). set (d := mv3 (mrot T) (ang7 v)). set (t := mtrans T).
    clearbody a b c d t. clear. dv. lie_unfold. ring.
Qed.
Theorem C63_sim2_conjugation : forall T v B r c, rotation2 (mrot2 T) -> sim2_inverse T = Ok B -> (r < 3)%nat -> (c < 3)%nat ->
  times 3 (times 3 (homs2 T) (gen4 v)) (homs2 B) r c =
  gen4 (mkW4 (sub2 (add2 (scale2 (mscl2 T) (so2_act (mrot2 T) (wlin v))) (scale2 (wang v) (mk2 (uy (mtrans2 T)) (- ux (mtrans2 T))))) (scale2 (wsc v) (mtrans2 T))) (wang v) (wsc v)) r c.
Proof.
  intros [m [t0 t1] s] [[u0 u1] w sg] B r c H E Hr Hc. unfold sim2_inverse in E. cbn [mrot2 mtrans2 mscl2] in *. destruct (Req_dec s 0) as [Z|Z].
  { unfold div in E. rewrite Z in E. cbn [feqb ROps] in E. rewrite R_eqb_t in E by reflexivity. discriminate. }
  rewrite Rdiv_ok in E by exact Z. cbn [bind] in E. injection E as <-.
  destruct (rotation2_form m H) as (k & l & Ek & ->). clear H. assert (El : l * l = 1 - k * k) by lra.
  unfold times, gen4, homs2, el22, el2, w4_at, sim2_generator, ent, comp3.
  destruct r as [|[|[|r]]]; [| | |lia]; (destruct c as [|[|[|c]]]; [| | |lia]); clear Hr Hc;
    cbn [Nat.ltb Nat.leb sum fadd f0 ROps mrot2 mtrans2 mscl2 wlin wang wsc r0 r1 r2 vx vy vz]; unfold2; cbn [ux uy s0 s1];
    field_simplify; try exact Z; replace (l ^ 2) with (1 - k * k) by (rewrite <- El; ring); field; exact Z.
Qed.
Theorem C63_sim2_refuted : exists T v B, rotation2 (mrot2 T) /\ 0 < mscl2 T /\ sim2_inverse T = Ok B /\
  (forall junk, times 3 (times 3 (homs2 T) (gen4 v)) (homs2 B) 0 2 <> gen4 (sim2_adjoint junk T v) 0 2) /\ forall junk U w, wsc (sim2_adjoint junk U w) = junk.
Proof.
  assert (Hr : rotation2 id2) by (rewrite <- so2_exp_0; apply so2_exp_rotation).
  exists (mkSIM2 id2 (mk2 0 0) 2), (mkW4 (mk2 1 0) 0 0).
  destruct (C61_sim2_inverse (mkSIM2 id2 (mk2 0 0) 2) Hr ltac:(cbn [mscl2]; lra)) as (B & EB & _).
  exists B. split; [exact Hr|]. split; [cbn [mscl2]; lra|]. split; [exact EB|]. split; [|reflexivity]. intros junk.
  rewrite (C63_sim2_conjugation (mkSIM2 id2 (mk2 0 0) 2) _ B 0 2 Hr EB) by lia.
  unfold gen4, sim2_adjoint, w4_at, sim2_generator, ent, comp3. cbn [sum fadd f0 ROps mrot2 mtrans2 mscl2 wlin wang wsc r0 r1 r2 vx vy vz]. unfold2. cbn [ux uy s0 s1]. lra.
Qed.
Theorem C63_sim2_partial : forall T v junk, rotation2 (mrot2 T) -> mscl2 T = 1 -> wsc v = 0 ->
  exists B, sim2_inverse T = Ok B /\ forall r c, (r < 3)%nat -> (c < 3)%nat ->
    times 3 (times 3 (homs2 T) (gen4 v)) (homs2 B) r c = gen4 (mkW4 (wlin (sim2_adjoint junk T v)) (wang (sim2_adjoint junk T v)) 0) r c.
Proof.
  intros T v junk H Hs Hz. destruct (C61_sim2_inverse T H ltac:(lra)) as (B & EB & _). exists B. split; [exact EB|]. intros r c Hr Hc.
  rewrite (C63_sim2_conjugation T v B r c H EB Hr Hc), Hs, Hz. f_equal. f_equal. unfold sim2_adjoint. cbn [wlin wang].
  set (y := so2_act (mrot2 T) (wlin v)). clearbody y. destruct (mtrans2 T) as [t0 t1], y as [y0 y1]. unfold2. cbn [ux uy]. f_equal; ring.
Qed.
Print Assumptions C63_conjugation.
Print Assumptions C63_sim3_refuted.
Print Assumptions C63_sim3_partial.
Print Assumptions C63_sim2_conjugation.
Print Assumptions C63_sim2_refuted.
Print Assumptions C63_sim2_partial.
Example C63_nonvacuous : exists T v, rotation (mrot T) /\ mscl T = 1 /\ sc7 v = 0 /\ cross3 (mtrans T) (ang7 v) <> zero3.
Proof.
  exists (mkSIM3 id3 (mk3 1 2 3) 1), (mk7 (mk3 4 5 6) (mk3 0 0 1) 0). split; [exact rotation_id|]. split; [reflexivity|]. split; [reflexivity|].
  cbn [mtrans ang7]. lie_unfold. intros E; injection E; lra.
Qed.
