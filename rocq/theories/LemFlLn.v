(** * The exponential of a rotation vector is Lipschitz; the inverse trigonometric functions away from their ends. *)
From Coq Require Import Reals Lra Lia Psatz.
From Verif Require Import Base Alg Inst ModelLie SpecLie LemLie LemSO3 LemSO3c SpecFl LemFl SpecFlSO3 LemFro LemFlSO3 LemFlSO3d LemFlSE3.
Local Open Scope R_scope.

Lemma fro_scale k m : fro (scaleM k m) = Rabs k * fro m.
Proof.
  unfold fro. replace (dot3 (r0 (scaleM k m)) (r0 (scaleM k m)) + dot3 (r1 (scaleM k m)) (r1 (scaleM k m)) + dot3 (r2 (scaleM k m)) (r2 (scaleM k m))) with (Rsqr k * (dot3 (r0 m) (r0 m) + dot3 (r1 m) (r1 m) + dot3 (r2 m) (r2 m)))
    by (unfold Rsqr; clear; dv; unfold scaleM; lie_unfold; ring).
  rewrite sqrt_mult; [|apply Rle_0_sqr|]. { rewrite sqrt_Rsqr_abs. reflexivity. }
  pose proof (dot3_nonneg (r0 m)). pose proof (dot3_nonneg (r1 m)). pose proof (dot3_nonneg (r2 m)). lra.
Qed.
Lemma fro_outer a b : fro (outer3 a b) = len3 a * len3 b.
Proof.
  unfold fro. replace (dot3 (r0 (outer3 a b)) (r0 (outer3 a b)) + dot3 (r1 (outer3 a b)) (r1 (outer3 a b)) + dot3 (r2 (outer3 a b)) (r2 (outer3 a b))) with (dot3 a a * dot3 b b)
    by (clear; dv; unfold outer3; lie_unfold; ring).
  apply sqrt_mult; apply dot3_nonneg.
Qed.
Lemma fro_hat w : fro (hat w) <= 3 / 2 * len3 w.
Proof.
  pose proof (len3_nonneg w). pose proof (len3_sq w) as S. apply sq_le; [lra|]. rewrite fro_sq. replace (ip (hat w) (hat w)) with (2 * dot3 w w) by (unfold ip, hat; clear; dv; lie_unfold; ring).
  rewrite <- S. nra.
Qed.
Lemma unit_len a : dot3 a a = 1 -> len3 a = 1.
Proof. intros H. unfold len3. rewrite H. apply sqrt_1. Qed.
(** same axis *)
Lemma rot_angle a t s : dot3 a a = 1 -> dist (rot_matrix a t) (rot_matrix a s) <= 3 * Rabs (t - s).
Proof.
  intros A. destruct (sin_lip t s) as [Hs Hc]. unfold dist.
  replace (subM (rot_matrix a t) (rot_matrix a s)) with (addM (scaleM (cos t - cos s) (subM id3 (outer3 a a))) (scaleM (sin t - sin s) (hat a)))
    by (unfold subM, addM, scaleM, rot_matrix, outer3, hat, id3; clear; dv; lie_unfold; f_equal; f_equal; ring).
  eapply Rle_trans; [apply fro_add|]. rewrite !fro_scale. pose proof (fro_hat a) as H. rewrite (unit_len a A) in H.
  assert (P : fro (subM id3 (outer3 a a)) <= 3 / 2).
  { apply sq_le; [lra|]. rewrite fro_sq. replace (ip (subM id3 (outer3 a a)) (subM id3 (outer3 a a))) with (3 - 2 * dot3 a a + dot3 a a * dot3 a a) by (unfold ip, subM, outer3, id3; clear; dv; lie_unfold; ring). rewrite A. lra. }
  pose proof (Rabs_pos (cos t - cos s)). pose proof (Rabs_pos (sin t - sin s)).
  assert (Rabs (cos t - cos s) * fro (subM id3 (outer3 a a)) <= Rabs (t - s) * (3 / 2)) by (apply Rmult_le_compat; auto; apply fro_nonneg).
  assert (Rabs (sin t - sin s) * fro (hat a) <= Rabs (t - s) * (3 / 2)) by (apply Rmult_le_compat; auto; [apply fro_nonneg|lra]). lra.
Qed.
(** same angle *)
Lemma rot_axis a b t : dot3 a a = 1 -> dot3 b b = 1 -> 0 <= t -> dist (rot_matrix a t) (rot_matrix b t) <= 7 / 2 * t * len3 (sub3 a b).
Proof.
  intros A B T. unfold dist.
  replace (subM (rot_matrix a t) (rot_matrix b t)) with (addM (scaleM (1 - cos t) (addM (outer3 a (sub3 a b)) (outer3 (sub3 a b) b))) (scaleM (sin t) (hat (sub3 a b))))
    by (unfold subM, addM, scaleM, rot_matrix, outer3, hat; clear; dv; lie_unfold; f_equal; f_equal; ring).
  eapply Rle_trans; [apply fro_add|]. rewrite !fro_scale. destruct (one_cos t T) as [[C0 _] C1]. rewrite (Rabs_right (1 - cos t)) by lra. pose proof (sin_abs t T) as S1. pose proof (Rabs_pos (sin t)).
  pose proof (fro_hat (sub3 a b)) as H1. pose proof (fro_add (outer3 a (sub3 a b)) (outer3 (sub3 a b) b)) as H2. rewrite !fro_outer, (unit_len a A), (unit_len b B) in H2. pose proof (len3_nonneg (sub3 a b)).
  assert ((1 - cos t) * fro (addM (outer3 a (sub3 a b)) (outer3 (sub3 a b) b)) <= t * (2 * len3 (sub3 a b))) by (apply Rmult_le_compat; [lra|apply fro_nonneg|lra|lra]).
  assert (Rabs (sin t) * fro (hat (sub3 a b)) <= t * (3 / 2 * len3 (sub3 a b))) by (apply Rmult_le_compat; [lra|apply fro_nonneg|lra|lra]). lra.
Qed.
Lemma rot_lip a b t s : dot3 a a = 1 -> dot3 b b = 1 -> 0 <= t -> 0 <= s -> dist (rot_matrix a t) (rot_matrix b s) <= 10 * len3 (sub3 (scale3 t a) (scale3 s b)).
Proof.
  intros A B T Hs. pose proof (rot_angle a t s A) as H1. pose proof (rot_axis a b s A B Hs) as H2. pose proof (dist_tri (rot_matrix a t) (rot_matrix a s) (rot_matrix b s)) as H3.
  set (D := len3 (sub3 (scale3 t a) (scale3 s b))) in *.
  assert (L1 : Rabs (t - s) <= D).
  { pose proof (len3_near (scale3 t a) (scale3 s b)) as N1. pose proof (len3_near (scale3 s b) (scale3 t a)) as N2. rewrite (len3_sub_sym (scale3 s b)) in N2. fold D in N1, N2.
    rewrite !len3_sc, (unit_len a A), (unit_len b B), (Rabs_right t), (Rabs_right s) in N1, N2 by lra. apply Rabs_le_between. lra. }
  assert (L2 : s * len3 (sub3 a b) <= 2 * D).
  { replace (s * len3 (sub3 a b)) with (len3 (sub3 (scale3 s a) (scale3 s b))).
    - eapply Rle_trans; [apply (len3_tri _ (scale3 t a))|]. fold D. replace (sub3 (scale3 s a) (scale3 t a)) with (scale3 (s - t) a) by (clear; dv; lie_unfold; f_equal; ring).
      rewrite len3_sc, (unit_len a A), Rmult_1_r, <- Rabs_Ropp. replace (- (s - t)) with (t - s) by ring. lra.
    - replace (sub3 (scale3 s a) (scale3 s b)) with (scale3 s (sub3 a b)) by (clear; dv; lie_unfold; f_equal; ring). rewrite len3_sc, Rabs_right by lra. reflexivity. }
  lra.
Qed.
Lemma polar w : exists a t, dot3 a a = 1 /\ 0 <= t /\ w = scale3 t a /\ t = len3 w.
Proof.
  destruct (V3_dec w zero3) as [->|W].
  - exists (mk3 1 0 0), 0. split; [lie_unfold; ring|]. split; [lra|]. split; [unfold scale3, zero3; cbn; f_equal; ring|]. symmetry. apply len3_0.
  - pose proof (len3_pos w W) as L. exists (direction w), (len3 w). split; [|split; [lra|split; [|reflexivity]]].
    + rewrite <- len3_sq, (direction_len w W). ring.
    + unfold direction. rewrite scale3_comm. replace (len3 w * (1 / len3 w)) with 1 by (field; lra). rewrite scale3_1. reflexivity.
Qed.
Lemma exp3_lipschitz w z : dist (exp3 w) (exp3 z) <= 10 * len3 (sub3 w z).
Proof.
  destruct (polar w) as (a & t & A & T & Ew & _). destruct (polar z) as (b & s & B & Hs & Ez & _). subst w z. rewrite !exp3_unit by assumption. apply rot_lip; assumption.
Qed.
(** half a turn one way and the other *)
Lemma rot_flip a t s : dot3 a a = 1 -> dist (rot_matrix (neg3 a) t) (rot_matrix a s) <= 3 * Rabs (2 * PI - t - s).
Proof.
  intros A. replace (rot_matrix (neg3 a) t) with (rot_matrix a (2 * PI - t)).
  - replace (2 * PI - t - s) with ((2 * PI - t) - s) by ring. apply rot_angle, A.
  - unfold rot_matrix. assert (C : cos (2 * PI - t) = cos t). { replace (2 * PI - t) with (- t + 2 * INR 1 * PI) by (cbn; ring). rewrite cos_period. apply cos_neg. }
    assert (Hs : sin (2 * PI - t) = - sin t). { replace (2 * PI - t) with (- t + 2 * INR 1 * PI) by (cbn; ring). rewrite sin_period. apply sin_neg. }
    rewrite C, Hs. clear. dv. lie_unfold. f_equal; f_equal; ring.
Qed.

(** ** asin and acos *)
Lemma asin_lip x y : 0 <= x <= 4 / 5 -> 0 <= y <= 4 / 5 -> Rabs (asin x - asin y) <= 5 / 3 * Rabs (x - y).
Proof.
  assert (W : forall x y, 0 <= x <= 4 / 5 -> 0 <= y <= 4 / 5 -> x < y -> Rabs (asin x - asin y) <= 5 / 3 * Rabs (x - y)).
  { clear. intros x y X Y L. pose proof (asin_bound x) as Bx. pose proof (asin_bound y) as By. pose proof (sin_asin x ltac:(lra)) as Sx. pose proof (sin_asin y ltac:(lra)) as Sy.
    assert (M : asin x < asin y). { apply sin_increasing_0; try lra. }
    assert (A0 : 0 <= asin x). { destruct (Rle_lt_dec 0 (asin x)) as [P|P]; [exact P|]. pose proof (sin_lt_0_var (asin x) ltac:(pose proof PI_RGT_0; lra) P). lra. }
    destruct (MVT_cor2 sin cos (asin x) (asin y) M) as (c & E & H); [intros; apply derivable_pt_lim_sin|]. rewrite Sx, Sy in E.
    assert (Cc : 3 / 5 <= cos c).
    { assert (cos (asin y) <= cos c) by (apply cos_decr_1; lra). rewrite (cos_asin y) in H0 by lra. assert (3 / 5 <= sqrt (1 - y²)); [|lra].
      rewrite <- (sqrt_square (3 / 5)) by lra. apply sqrt_le_1_alt. unfold Rsqr. nra. }
    rewrite !Rabs_left by lra. nra. }
  intros X Y. destruct (Rtotal_order x y) as [L|[L|L]]; [apply W; assumption| |].
  - subst. replace (asin y - asin y) with 0 by ring. replace (y - y) with 0 by ring. rewrite Rabs_R0. lra.
  - rewrite (Rabs_minus_sym (asin x)), (Rabs_minus_sym x). apply W; assumption.
Qed.
Lemma acos_lip x y : -3 / 4 <= x <= 3 / 4 -> -3 / 4 <= y <= 3 / 4 -> Rabs (acos x - acos y) <= 20 / 13 * Rabs (x - y).
Proof.
  assert (W : forall x y, -3 / 4 <= x <= 3 / 4 -> -3 / 4 <= y <= 3 / 4 -> x < y -> Rabs (acos x - acos y) <= 20 / 13 * Rabs (x - y)).
  { clear. intros x y X Y L. destruct (acos_props x ltac:(lra)) as (Bx & Cx & _). destruct (acos_props y ltac:(lra)) as (By & Cy & _).
    assert (M : acos y < acos x). { apply cos_decreasing_0; lra. }
    destruct (MVT_cor2 cos (fun z => - sin z) (acos y) (acos x) M) as (c & E & H); [intros; apply derivable_pt_lim_cos|]. rewrite Cx, Cy in E.
    assert (C1 : cos (acos x) <= cos c) by (apply cos_decr_1; lra). assert (C2 : cos c <= cos (acos y)) by (apply cos_decr_1; lra). rewrite Cx in C1. rewrite Cy in C2.
    assert (Hs : 0 <= sin c) by (apply sin_ge_0; lra). pose proof (sin2_cos2 c) as S2. unfold Rsqr in S2.
    assert (13 / 20 <= sin c) by (apply sq_le; [exact Hs|nra]).
    rewrite (Rabs_right (acos x - acos y)), (Rabs_left (x - y)) by lra. nra. }
  intros X Y. destruct (Rtotal_order x y) as [L|[L|L]]; [apply W; assumption| |].
  - subst. replace (acos y - acos y) with 0 by ring. replace (y - y) with 0 by ring. rewrite Rabs_R0. lra.
  - rewrite (Rabs_minus_sym (acos x)), (Rabs_minus_sym x). apply W; assumption.
Qed.
