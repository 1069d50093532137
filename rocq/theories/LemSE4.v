(** * Accuracy of the SE3 logarithm at small angles; SE2 inside SE3. *)
From Coq Require Import Reals Lra Bool Psatz Arith Lia.
From Verif Require Import Base Alg Mat SpecMat LemMat ModelOps LemOps Inst ModelLie SpecLie LemLie LemSO3 LemSO3b LemSO3c LemSO3d LemHelpers ModelSE SpecSE LemSE LemSE2 LemSE3.
Local Open Scope R_scope.
Lemma comp_len v i : Rabs (comp3 v i) <= len3 v.
Proof.
  unfold len3. rewrite <- (sqrt_Rsqr_abs (comp3 v i)). apply sqrt_le_1_alt. unfold Rsqr. destruct v as [x y z]. unfold dot3. cbn [vx vy vz].
  destruct i as [|[|i]]; cbn [comp3 vx vy vz]; nra.
Qed.
Lemma dot_unit_len a p : dot3 a a = 1 -> Rabs (dot3 a p) <= len3 p.
Proof.
  intros H. unfold len3. rewrite <- (sqrt_Rsqr_abs (dot3 a p)). apply sqrt_le_1_alt. unfold Rsqr.
  assert (G : 0 <= dot3 (cross3 a p) (cross3 a p)) by apply dot3_nonneg.
  replace (dot3 (cross3 a p) (cross3 a p)) with (dot3 a a * dot3 p p - dot3 a p * dot3 a p) in G by (clear; dv; lie_unfold; ring).
  rewrite H in G. lra.
Qed.
Lemma comb_comp_le a z1 z2 l p e i : dot3 a a = 1 -> Rabs z1 <= e -> Rabs z2 <= e -> Rabs l <= e -> Rabs (comp3 (comb a z1 z2 l p) i) <= 3 * e * len3 p.
Proof.
  intros Ha H1 H2 H3.
  assert (E : comp3 (comb a z1 z2 l p) i = comp3 (comb a z1 z2 0 p) i + l * (dot3 a p * comp3 a i)).
  { unfold comb. set (q := dot3 a p). clearbody q. clear. destruct i as [|[|i]]; dv; lie_unfold; cbn [comp3]; lie_unfold; ring. }
  rewrite E. eapply Rle_trans; [apply Rabs_triang|].
  assert (A : Rabs (comp3 (comb a z1 z2 0 p) i) <= 2 * e * len3 p) by (eapply Rle_trans; [apply comp_len|apply comb_len_le; auto]).
  assert (B : Rabs (l * (dot3 a p * comp3 a i)) <= e * len3 p).
  { rewrite !Rabs_mult. apply Rmult_le_compat; auto using Rabs_pos; [apply Rmult_le_pos; apply Rabs_pos|].
    rewrite <- (Rmult_1_r (len3 p)). apply Rmult_le_compat; auto using Rabs_pos; [apply dot_unit_len; auto|].
    eapply Rle_trans; [apply comp_len|]. unfold len3. rewrite Ha, sqrt_1. lra. }
  lra.
Qed.
Lemma closeM_comp e m n p i : 0 <= e -> closeM e m n -> Rabs (comp3 (mv3 m p) i - comp3 (mv3 n p) i) <= 3 * e * len3 p.
Proof.
  intros He (H0 & H1 & H2).
  assert (G : forall x y, close3 e x y -> Rabs (dot3 x p - dot3 y p) <= 3 * e * len3 p).
  { intros x y (Hx & Hy & Hz). replace (dot3 x p - dot3 y p) with ((vx x - vx y) * vx p + (vy x - vy y) * vy p + (vz x - vz y) * vz p) by (unfold dot3; ring).
    assert (K : forall u v, Rabs u <= e -> Rabs v <= len3 p -> Rabs (u * v) <= e * len3 p).
    { intros u v Hu Hv. rewrite Rabs_mult. apply Rmult_le_compat; auto using Rabs_pos. }
    pose proof (K _ _ Hx (comp_len p 0)) as K0. pose proof (K _ _ Hy (comp_len p 1)) as K1. pose proof (K _ _ Hz (comp_len p 2)) as K2. cbn [comp3] in K0, K1, K2.
    eapply Rle_trans; [apply Rabs_triang|]. eapply Rle_trans; [apply Rplus_le_compat_r, Rabs_triang|]. lra. }
  destruct i as [|[|i]]; cbn [comp3 mv3 vx vy vz]; apply G; auto.
Qed.
Lemma se3_ln_small thr T w a t u : 0 < thr < 1 -> rotation (rot T) -> so3_ln thr (rot T) = Ok w -> dot3 a a = 1 -> w = scale3 t a -> 0 < t <= 1 / 1000 ->
  swept a t (scale3 (1 / t) u) = trans T ->
  exists v, se3_ln thr T = Ok v /\ ang v = w /\ forall i, (i < 3)%nat -> Rabs (comp3 (lin v) i - comp3 u i) <= 2 / 10 ^ 11 * len3 (trans T).
Proof.
  intros Hthr Hr El Ha -> Ht Hu. set (p := trans T) in *.
  assert (D : dot3 (scale3 t a) (scale3 t a) = t * t) by (rewrite dot3_scale_l, dot3_scale_r, Ha; ring).
  assert (P3 : 3 < PI) by (pose proof PI2_3_2; lra).
  set (h := t / 2). assert (Hh : 0 < h <= 1 / 2000) by (unfold h; lra). assert (Et : t = 2 * h) by (unfold h; field).
  destruct (sin_bounds h) as [[b1 b2] b3]; [lra|lra|]. destruct (cos_bounds h) as [[q1 q2] q3]; [lra|lra|].
  pose proof (trig1 h) as T1.
  set (s := sin h) in *. set (c := cos h) in *.
  assert (Hh2 : 0 < h * h <= 1 / 4000000) by nra.
  assert (Hh3 : 0 < h * (h * h) <= h * (1 / 4000000)) by (split; [apply Rmult_lt_0_compat; lra|apply Rmult_le_compat_l; lra]).
  assert (Hh5 : 0 < h * (h * h * (h * h)) <= h * (1 / (16 * 10 ^ 12))).
  { split; [repeat apply Rmult_lt_0_compat; lra|]. apply Rmult_le_compat_l; [lra|].
    apply Rle_trans with (1 / 4000000 * (1 / 4000000)); [apply Rmult_le_compat; lra|lra]. }
  replace (h ^ 3) with (h * (h * h)) in * by ring. replace (h ^ 5) with (h * (h * h * (h * h))) in * by ring. replace (h ^ 2) with (h * h) in * by ring.
  clear b3 q3. replace (h ^ 4) with (h * h * (h * h)) in * by ring.
  assert (Hh53 : h * (h * h * (h * h)) <= h * (h * h) * (1 / 4000000)).
  { rewrite (Rmult_assoc h (h * h)). apply Rmult_le_compat_l; [lra|]. apply Rmult_le_compat_l; lra. }
  assert (Hs : 0 < s) by lra.
  (* the exact inverse *)
  assert (EU : u = comb a (h * c / s) (- h) 1 p).
  { rewrite <- Hu. change (swept a t (scale3 (1 / t) u)) with (Etr a t (scale3 (1 / t) u)). unfold Etr. rewrite comb_scale_arg, comb_comb by exact Ha.
    assert (S2 : sin t = 2 * s * c) by (rewrite Et; apply sin_2a). assert (C2 : cos t = 1 - 2 * s * s) by (rewrite Et; apply cos_2a_sin).
    rewrite S2, C2, Et. transitivity (comb a 1 0 1 u); [symmetry; apply comb_id|]. f_equal.
    - transitivity (s * s + c * c); [symmetry; exact T1|]. field. lra.
    - field. lra.
    - field. lra. }
  (* the half rotation *)
  destruct (so3_exp_close (scale3 (- (1 / 2)) (scale3 t a))) as (m & Em & Cm).
  { rewrite !dot3_scale_l, !dot3_scale_r, Ha. nra. }
  assert (Eh : exp3 (scale3 (- (1 / 2)) (scale3 t a)) = rot_matrix (neg3 a) h).
  { replace (scale3 (- (1 / 2)) (scale3 t a)) with (scale3 h (neg3 a)) by (unfold h; clear; dv; lie_unfold; f_equal; field).
    apply exp3_unit. transitivity (dot3 a a); [clear; dv; lie_unfold; ring|exact Ha]. }
  rewrite Eh in Cm.
  assert (Eq : mv3 (rot_matrix (neg3 a) h) p = comb a c (- s) 1 p) by (rewrite rot_matrix_act, rotate_comb, comb_neg_axis; reflexivity).
  unfold se3_ln. rewrite El. cbn [bind]. fold p. rewrite D. replace (sqrt (t * t)) with t by (symmetry; apply sqrt_square; lra).
  rewrite Em. cbn [bind]. rewrite (R_ltb_f (1 / 1000)) by lra. fold h. fold s.
  assert (K : exists k, 1 <= k <= 2 /\
     (bind (if R_ltb (1 / 10 ^ 5) t then div (F:=R) s t else Ok (1 / 2)) (fun shtot => bind (div (F:=R) 1 (2 * shtot)) (fun k => Ok k)) = Ok k) /\
     Rabs (k * c - h * c / s) <= 5 / 10 ^ 12 /\ Rabs (k * - s - - h) <= 5 / 10 ^ 12 /\ Rabs (k * (1 - t * t / 24) - 1) <= 5 / 10 ^ 12).
  { destruct (Rlt_dec (1 / 10 ^ 5) t) as [L|L].
    - exists (h / s). rewrite R_ltb_t by exact L. rewrite Rdiv_ok by lra. cbn [bind]. rewrite Rdiv_ok.
      2:{ rewrite Et. intros Z. assert (2 * (s / (2 * h)) * h = s) by (field; lra). rewrite Z in H. lra. }
      cbn [bind].
      assert (K1 : 1 <= h / s <= 2).
      { assert (Q : h / s * s = h) by (field; lra). split; apply (Rmult_le_reg_r s); try exact Hs; rewrite Q; lra. }
      split; [exact K1|]. split; [f_equal; rewrite Et; field; lra|].
      split; [|split].
      + replace (h / s * c - h * c / s) with 0 by (field; lra). rewrite Rabs_R0. lra.
      + replace (h / s * - s - - h) with 0 by (field; lra). rewrite Rabs_R0. lra.
      + assert (G : Rabs ((h / s * (1 - t * t / 24) - 1) * s) <= 5 / 10 ^ 12 * s).
        { replace ((h / s * (1 - t * t / 24) - 1) * s) with (h - h * (h * h) / 6 - s) by (rewrite Et; field; lra). apply Rabs_le. split; lra. }
        rewrite <- Rabs_mul_r in G by lra. apply (Rmult_le_reg_r s); lra.
    - exists 1. rewrite R_ltb_f by lra. cbn [bind]. rewrite Rdiv_ok by lra. cbn [bind].
      assert (Hx : h <= 1 / (2 * 10 ^ 5)) by (unfold h; lra). assert (h * h <= 1 / (4 * 10 ^ 10)) by nra.
      assert (h * (h * h) <= h * (1 / (4 * 10 ^ 10))) by (apply Rmult_le_compat_l; lra).
      split; [lra|]. split; [f_equal; lra|]. split; [|split].
      + assert (G : Rabs ((1 * c - h * c / s) * s) <= 5 / 10 ^ 12 * s).
        { replace ((1 * c - h * c / s) * s) with (c * (s - h)) by (field; lra). rewrite Rabs_mult.
          apply Rle_trans with (1 * Rabs (s - h)); [apply Rmult_le_compat_r; [apply Rabs_pos|]|].
          - apply Rabs_le. unfold c. pose proof (COS_bound h). lra.
          - rewrite Rmult_1_l. apply Rabs_le. split; lra. }
        rewrite <- Rabs_mul_r in G by lra. apply (Rmult_le_reg_r s); lra.
      + apply Rabs_le. split; lra.
      + apply Rabs_le. rewrite Et. split; nra. }
  destruct K as (k & Kb & Ek & K1 & K2 & K3).
  assert (Q : forall v', bind (if R_ltb (1 / 10 ^ 5) t then div (F:=R) s t else Ok (1 / 2)) (fun shtot => bind (div (F:=R) 1 (2 * shtot)) (fun k => Ok (mk6 (scale3 k v') (scale3 t a)))) = Ok (mk6 (scale3 k v') (scale3 t a))).
  { intros v'. destruct (if R_ltb (1 / 10 ^ 5) t then div (F:=R) s t else Ok (1 / 2)); cbn [bind] in *; try discriminate.
    destruct (div (F:=R) 1 (2 * a0)); cbn [bind] in *; try discriminate. injection Ek as ->. reflexivity. }
  eexists. split; [rewrite <- Q; reflexivity|]. split; [reflexivity|]. cbn [lin]. intros i Hi.
  unfold so3_act. rewrite EU.
  assert (E2 : comp3 (scale3 k (sub3 (mv3 m p) (scale3 (dot3 p (scale3 t a) / 24) (scale3 t a)))) i - comp3 (comb a (h * c / s) (- h) 1 p) i =
     k * (comp3 (mv3 m p) i - comp3 (mv3 (rot_matrix (neg3 a) h) p) i) + comp3 (comb a (k * c - h * c / s) (k * - s - - h) (k * (1 - t * t / 24) - 1) p) i).
  { rewrite Eq, <- comb_sub, dot3_scale_r. set (z := mv3 m p). clearbody z.
    assert (Ed : dot3 p a = dot3 a p) by (clear; unfold dot3; ring). rewrite Ed. unfold comb. set (d := dot3 a p). clearbody d.
    generalize (h * c / s). intros x. clear. destruct i as [|[|i]]; dv; lie_unfold; cbn [comp3]; lie_unfold; field. }
  rewrite E2. eapply Rle_trans; [apply Rabs_triang|].
  pose proof (closeM_comp (1 / 10 ^ 17) m _ p i ltac:(lra) Cm) as B1.
  pose proof (comb_comp_le a _ _ _ p (5 / 10 ^ 12) i Ha K1 K2 K3) as B2. pose proof (len3_nonneg p) as Lp.
  assert (B3 : Rabs (k * (comp3 (mv3 m p) i - comp3 (mv3 (rot_matrix (neg3 a) h) p) i)) <= 2 * (3 * (1 / 10 ^ 17) * len3 p)).
  { rewrite Rabs_mult, (Rabs_right k) by lra. apply Rmult_le_compat; auto using Rabs_pos; lra. }
  lra.
Qed.
(** SE2's exponential is SE3's, in the plane *)
Lemma se2_in_se3 x y t : exists S T, se2_exp (mk3 x y t) = Ok S /\ se3_exp (mk6 (mk3 x y 0) (mk3 0 0 t)) = Ok T /\
  trans T = mk3 (ux (trans2 S)) (uy (trans2 S)) 0 /\ rot2 S = so2_exp t.
Proof.
  unfold se2_exp, se3_exp. cbn [vx vy vz lin ang].
  assert (D : dot3 (mk3 0 0 t) (mk3 0 0 t) = t * t) by (unfold dot3; cbn [vx vy vz]; ring). rewrite D.
  destruct (R_ltb (t * t) (1 / 10 ^ 8)) eqn:E1.
  - eexists _, _. split; [reflexivity|]. split; [reflexivity|]. split; [|reflexivity]. cbn [trans trans2]. unfold add2, scale2. cbn [ux uy]. lie_unfold. f_equal; ring.
  - destruct (R_ltb (t * t) (1 / 10 ^ 6)) eqn:E2.
    + cbn [bind]. eexists _, _. split; [reflexivity|]. split; [reflexivity|]. split; [|reflexivity]. cbn [trans trans2]. unfold add2, scale2. cbn [ux uy]. lie_unfold. f_equal; field.
    + assert (P : 1 / 10 ^ 6 <= t * t). { destruct (Rle_dec (1 / 10 ^ 6) (t * t)); auto. rewrite R_ltb_t in E2 by lra. discriminate. }
      assert (N : t <> 0) by (intros ->; lra).
      fold (Rsqr t). rewrite sqrt_Rsqr_abs. assert (N' : Rabs t <> 0) by (apply Rabs_no_R0; auto).
      rewrite !Rdiv_ok by auto. cbn [bind]. eexists _, _. split; [reflexivity|]. split; [reflexivity|]. split; [|reflexivity].
      cbn [trans trans2]. unfold add2, scale2, so2_exp. cbn [ux uy s0 s1]. unfold Rsqr in *.
      unfold Rabs in *. destruct (Rcase_abs t); rewrite ?cos_neg, ?sin_neg; lie_unfold; f_equal; field; lra.
Qed.
