(** * Lemmas on SE3 and SE2. *)
From Coq Require Import Reals Lra Bool Psatz Arith Lia.
From Verif Require Import Base Alg Mat SpecMat LemMat ModelOps LemOps Inst ModelLie SpecLie LemLie LemSO3 LemSO3b LemSO3c LemSO3d ModelSE.
Local Open Scope R_scope.

Lemma SE3_eq A B : rot A = rot B -> trans A = trans B -> A = B.
Proof. destruct A, B; cbn; intros -> ->; reflexivity. Qed.
Lemma mv3_add m u v : mv3 m (add3 u v) = add3 (mv3 m u) (mv3 m v).
Proof. dv. lie_unfold. f_equal; ring. Qed.
Lemma mv3_neg m u : mv3 m (neg3 u) = neg3 (mv3 m u).
Proof. dv. lie_unfold. f_equal; ring. Qed.
Lemma add3_assoc u v w : add3 (add3 u v) w = add3 u (add3 v w).
Proof. dv. lie_unfold. f_equal; ring. Qed.
Lemma add3_comm u v : add3 u v = add3 v u.
Proof. dv. lie_unfold. f_equal; ring. Qed.
Lemma add3_0_l u : add3 zero3 u = u.
Proof. dv. lie_unfold. f_equal; ring. Qed.
Lemma add3_neg u : add3 u (neg3 u) = zero3.
Proof. dv. lie_unfold. f_equal; ring. Qed.

(** Operators commuting with the rotations about a: z1 + i z2 across the axis, l along it. *)
Definition comb (a : V3) (z1 z2 l : R) (p : V3) : V3 :=
  add3 (add3 (scale3 z1 (sub3 p (scale3 (dot3 a p) a))) (scale3 z2 (cross3 a p))) (scale3 (l * dot3 a p) a).
Lemma comb_dot a z1 z2 l p : dot3 a a = 1 -> dot3 a (comb a z1 z2 l p) = l * dot3 a p.
Proof.
  intros H. transitivity (z1 * dot3 a p * (1 - dot3 a a) + l * dot3 a p * dot3 a a).
  - unfold comb. clear H. dv. lie_unfold. ring.
  - rewrite H. ring.
Qed.
Lemma comb_cross a z1 z2 l p : dot3 a a = 1 -> cross3 a (comb a z1 z2 l p) = comb a (- z2) z1 0 p.
Proof.
  intros H. transitivity (add3 (scale3 z1 (cross3 a p)) (scale3 z2 (sub3 (scale3 (dot3 a p) a) (scale3 (dot3 a a) p)))).
  - unfold comb. clear H. dv. lie_unfold. f_equal; ring.
  - rewrite H. unfold comb. set (k := dot3 a p). clearbody k. clear H. dv. lie_unfold. f_equal; ring.
Qed.
Lemma comb_comb a y1 y2 k z1 z2 l p : dot3 a a = 1 ->
  comb a y1 y2 k (comb a z1 z2 l p) = comb a (y1 * z1 - y2 * z2) (y1 * z2 + y2 * z1) (k * l) p.
Proof.
  intros H. unfold comb at 1. rewrite comb_dot, comb_cross by exact H. unfold comb.
  set (q := dot3 a p). clearbody q. clear H. dv. lie_unfold. f_equal; ring.
Qed.
Lemma comb_add a y1 y2 k z1 z2 l p : add3 (comb a y1 y2 k p) (comb a z1 z2 l p) = comb a (y1 + z1) (y2 + z2) (k + l) p.
Proof. unfold comb. set (q := dot3 a p). clearbody q. dv. lie_unfold. f_equal; ring. Qed.
Lemma comb_scale a z1 z2 l k p : scale3 k (comb a z1 z2 l p) = comb a (k * z1) (k * z2) (k * l) p.
Proof. unfold comb. set (q := dot3 a p). clearbody q. dv. lie_unfold. f_equal; ring. Qed.
Lemma comb_scale_arg a z1 z2 l k p : comb a z1 z2 l (scale3 k p) = comb a (k * z1) (k * z2) (k * l) p.
Proof. unfold comb. rewrite dot3_scale_r. set (q := dot3 a p). clearbody q. dv. lie_unfold. f_equal; ring. Qed.
Lemma comb_id a p : comb a 1 0 1 p = p.
Proof. unfold comb. set (q := dot3 a p). clearbody q. dv. lie_unfold. f_equal; ring. Qed.
Lemma comb_neg_axis a z1 z2 l p : comb (neg3 a) z1 z2 l p = comb a z1 (- z2) l p.
Proof. unfold comb. dv. lie_unfold. f_equal; ring. Qed.
Lemma rotate_comb a t p : rotate a t p = comb a (cos t) (sin t) 1 p.
Proof. unfold rotate, comb. set (q := dot3 a p). clearbody q. dv. lie_unfold. f_equal; ring. Qed.
Lemma rodrigues_comb a t A B p : dot3 a a = 1 ->
  mv3 (rodrigues (scale3 t a) A B) p = comb a (1 - B * (t * t)) (A * t) 1 p.
Proof.
  intros H. rewrite rodrigues_scale, rodrigues_act, H. unfold comb. set (q := dot3 a p). clearbody q. clear H. dv. lie_unfold. f_equal; ring.
Qed.
(** the translation of the exponential: the integral of the rotation *)
Definition Etr (a : V3) (t : R) (u : V3) : V3 := comb a (sin t) (1 - cos t) t u.
Lemma trans_comb a t B C u : dot3 a a = 1 ->
  add3 (add3 u (scale3 B (cross3 (scale3 t a) u))) (scale3 C (cross3 (scale3 t a) (cross3 (scale3 t a) u)))
  = comb a (1 - C * (t * t)) (B * t) 1 u.
Proof.
  intros H.
  transitivity (add3 (add3 u (scale3 (B * t) (cross3 a u))) (scale3 (C * (t * t)) (sub3 (scale3 (dot3 a u) a) (scale3 (dot3 a a) u)))).
  - clear H. dv. lie_unfold. f_equal; ring.
  - rewrite H. unfold comb. set (q := dot3 a u). clearbody q. clear H. dv. lie_unfold. f_equal; ring.
Qed.

Lemma se3_exp_large a t u : dot3 a a = 1 -> 1 / 1000 <= t ->
  se3_exp (mk6 u (scale3 t a)) = Ok (mkSE3 (rot_matrix a t) (Etr a t (scale3 (1 / t) u))).
Proof.
  intros Ha Ht. unfold se3_exp. cbn [lin ang].
  assert (D : dot3 (scale3 t a) (scale3 t a) = t * t) by (rewrite dot3_scale_l, dot3_scale_r, Ha; ring).
  rewrite D. assert (T2 : 1 / 10 ^ 6 <= t * t) by nra.
  rewrite !R_ltb_f by lra. rewrite sqrt_square by lra. rewrite Rdiv_ok by lra. cbn [bind].
  f_equal. f_equal.
  - rewrite rodrigues_scale, rot_matrix_rodrigues by exact Ha. f_equal; field; lra.
  - rewrite trans_comb by exact Ha. unfold Etr. rewrite comb_scale_arg. f_equal; field; lra.
Qed.
Lemma se3_exp_trans u : se3_exp (mk6 u zero3) = Ok (mkSE3 id3 u).
Proof.
  unfold se3_exp. cbn [lin ang]. replace (dot3 zero3 zero3) with 0 by (lie_unfold; ring).
  rewrite R_ltb_t by lra. rewrite rodrigues_0. f_equal. f_equal. dv. lie_unfold. f_equal; ring.
Qed.
Lemma se3_exp_any a t u : dot3 a a = 1 -> (t = 0 \/ 1 / 1000 <= Rabs t) ->
  se3_exp (mk6 (scale3 t u) (scale3 t a)) = Ok (mkSE3 (rot_matrix a t) (Etr a t u)).
Proof.
  intros Ha [->|Ht].
  - replace (scale3 0 a) with zero3 by (clear; dv; lie_unfold; f_equal; ring).
    rewrite se3_exp_trans, rot_matrix_0. do 2 f_equal. unfold Etr, comb. rewrite sin_0, cos_0.
    set (q := dot3 a u). clearbody q. clear. dv. lie_unfold. f_equal; ring.
  - destruct (Rle_dec 0 t) as [P|P].
    + rewrite Rabs_right in Ht by lra. rewrite (se3_exp_large a t) by auto. do 2 f_equal. unfold Etr. rewrite !comb_scale_arg. f_equal; field; lra.
    + rewrite Rabs_left in Ht by lra.
      replace (scale3 t a) with (scale3 (- t) (neg3 a)) by (clear; dv; lie_unfold; f_equal; ring).
      rewrite (se3_exp_large (neg3 a) (- t)); [|rewrite <- Ha; clear; dv; lie_unfold; ring|lra].
      rewrite rot_matrix_neg, Ropp_involutive. do 2 f_equal. unfold Etr. rewrite cos_neg, sin_neg, comb_neg_axis, !comb_scale_arg. f_equal; field; lra.
Qed.
Lemma se3_group a s t u : dot3 a a = 1 ->
  se3_mul (mkSE3 (rot_matrix a s) (Etr a s u)) (mkSE3 (rot_matrix a t) (Etr a t u)) = mkSE3 (rot_matrix a (s + t)) (Etr a (s + t) u).
Proof.
  intros Ha. unfold se3_mul. cbn [rot trans]. f_equal; [apply rot_matrix_add, Ha|].
  unfold so3_act. rewrite rot_matrix_act, rotate_comb. unfold Etr. rewrite comb_comb, comb_add by exact Ha.
  rewrite cos_plus, sin_plus. f_equal; ring.
Qed.

(** exp(ln T) *)
Lemma se3_ln_large thr m a t p : 0 < thr < 1 -> rotation m -> dot3 a a = 1 -> 2 / 1000 <= t <= PI ->
  so3_ln thr m = Ok (scale3 t a) -> rot_matrix a t = m ->
  se3_ln thr (mkSE3 m p) = Ok (mk6 (comb a (cos (t / 2) / (2 * (sin (t / 2) / t))) (- sin (t / 2) / (2 * (sin (t / 2) / t))) 1 p) (scale3 t a)).
Proof.
  intros Hthr Hm Ha Ht E M. unfold se3_ln. cbn [rot trans]. rewrite E. cbn [bind].
  assert (D : dot3 (scale3 t a) (scale3 t a) = t * t) by (rewrite dot3_scale_l, dot3_scale_r, Ha; ring).
  rewrite D, sqrt_square by lra. rewrite !R_ltb_t by lra. rewrite Rdiv_ok by lra. cbn [bind].
  assert (Sp : 0 < sin (t / 2)) by (apply sin_gt_0; lra).
  set (sh := sin (t / 2) / t). assert (Hsh : 0 < sh) by (apply Rdiv_lt_0_compat; lra).
  replace (scale3 (- (1 / 2)) (scale3 t a)) with (scale3 (- (t / 2)) a) by (rewrite scale3_comm; f_equal; field).
  rewrite so3_exp_large; [|rewrite dot3_scale_l, dot3_scale_r, Ha; nra].
  rewrite exp3_unit by exact Ha. cbn [bind]. rewrite Rdiv_ok by nra. cbn [bind].
  rewrite Rdiv_ok by lra. cbn [bind]. f_equal. f_equal.
  unfold so3_act. rewrite rot_matrix_act, rotate_comb, cos_neg, sin_neg.
  replace (scale3 (dot3 p (scale3 t a) * (1 - 2 * sh) / (t * t)) (scale3 t a)) with (comb a 0 0 (1 - 2 * sh) p).
  2: { rewrite scale3_comm, dot3_scale_r, (dot3_comm p a). unfold comb. set (q := dot3 a p). clearbody q.
       assert (t <> 0) by lra. clear - H. dv. lie_unfold. f_equal; field; auto. }
  replace (sub3 (comb a (cos (t / 2)) (- sin (t / 2)) 1 p) (comb a 0 0 (1 - 2 * sh) p)) with (comb a (cos (t / 2)) (- sin (t / 2)) (2 * sh) p).
  2: { unfold comb. set (q := dot3 a p). clearbody q. clear. dv. lie_unfold. f_equal; ring. }
  rewrite comb_scale. f_equal; field; lra.
Qed.
