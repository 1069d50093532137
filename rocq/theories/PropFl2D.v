(** * C99: SO2 in floating point. *)
From Coq Require Import Reals Lra Lia Bool.
From Flocq Require Import Core.
From Verif Require Import Base Alg Inst RSum ModelLie SpecLie LemLie LemSO3b ModelSE ModelFl ModelFlSO3 ModelFlSE3 SpecFl LemFl LemFlChol ExFl SpecFlSO3 SpecFlHist LemFro LemFlSO3 LemFlSO3b LemFlSO3c LemFlSO3d PropFlSO3 PropSE ModelFl2D SpecFl2D LemFl2D.
Open Scope outcome_scope.
Local Open Scope R_scope.

(** Without rounding, and with the true sine, cosine and atan2, these are the functions of C53 and C60. *)
Theorem C99_model_is_exact_model : let id := fun x : R => x in
  (forall m, fl_so2_coerce id m = so2_coerce m) /\ (forall m, fl_so2_of_matrix id m = so2_of_matrix m) /\ (forall t, fl_so2_exp sin cos t = so2_exp t) /\
  (forall m, fl_so2_ln atan2 m = so2_ln m) /\ (forall a b, fl_mm2 id a b = so2_mul a b) /\ (forall m v, fl_mv2 id m v = so2_act m v).
Proof.
  cbv zeta. assert (D : forall a b, fl_dot2 (fun x => x) a b = dot2 a b) by (intros; unfold fl_dot2, dot2; ring).
  assert (Un : forall v, fl_unit2 (fun x => x) v = unit2 v) by (intros; unfold fl_unit2, unit2; rewrite D; reflexivity).
  assert (Bx : forall X Y (o : outcome X) (f g : X -> outcome Y), (forall x, f x = g x) -> bind o f = bind o g) by (intros X Y [] f g H; cbn; auto).
  assert (Co : forall m, fl_so2_coerce (fun x => x) m = so2_coerce m).
  { intros m. unfold fl_so2_coerce, so2_coerce. rewrite Un. apply Bx. intros a. rewrite D, Un. reflexivity. }
  split; [exact Co|]. split; [|split; [reflexivity|split; [reflexivity|split]]].
  - intros m. unfold fl_so2_of_matrix, so2_of_matrix. rewrite Co. apply Bx. exact Co.
  - intros a b. unfold fl_mm2, so2_mul, mm2, fl_vm2, vm2. rewrite !D. reflexivity.
  - intros m v. unfold fl_mv2, so2_act, mv2. rewrite !D. reflexivity.
Qed.
Lemma turns_is t r : turns t r <-> r = so2_exp t.
Proof.
  split.
  - intros H. pose proof (H 1 0) as A. pose proof (H 0 1) as B. destruct r as [[a b] [c d]]. unfold mv2, dot2 in *. cbn [s0 s1 ux uy] in *. injection A as A1 A2. injection B as B1 B2. unfold so2_exp. f_equal; f_equal; lra.
  - intros -> x y. unfold mv2, so2_exp, dot2. cbn [s0 s1 ux uy]. f_equal; ring.
Qed.
Lemma fro2_le4 a b c d k : 0 <= k -> Rabs a <= k -> Rabs b <= k -> Rabs c <= k -> Rabs d <= k -> fro2 (mkM2 (mk2 a b) (mk2 c d)) <= 2 * k.
Proof.
  intros K A B C D. unfold fro2, dot2. cbn [s0 s1 ux uy]. rewrite <- (sqrt_square (2 * k)) by lra. apply sqrt_le_1_alt.
  assert (Q : forall x, Rabs x <= k -> x * x <= k * k). { intros x H. rewrite <- (Rabs_right (x * x)) by nra. rewrite Rabs_mult. apply Rmult_le_compat; try apply Rabs_pos; assumption. }
  pose proof (Q a A). pose proof (Q b B). pose proof (Q c C). pose proof (Q d D). lra.
Qed.
Lemma dist2_refl a : dist2 a a = 0.
Proof. rewrite <- dist_up. apply dist_refl. Qed.
Lemma dist2_tri a b c : dist2 a c <= dist2 a b + dist2 b c.
Proof. rewrite <- !dist_up. apply dist_tri. Qed.
Lemma dist2_sym a b : dist2 a b = dist2 b a.
Proof. rewrite <- !dist_up. apply dist_sym. Qed.
Lemma dist2_nonneg a b : 0 <= dist2 a b.
Proof. rewrite <- dist_up. apply dist_nonneg. Qed.
Lemma dist2_tr a b : dist2 (tr2 a) (tr2 b) = dist2 a b.
Proof. rewrite <- !dist_up, <- !tr_up. apply dist_tr. Qed.

Section S.
Variables (u : R) (rnd : R -> R).
Hypothesis RN : rounding u rnd.
Hypothesis U : u <= 1 / 6800.
Variables (s : R) (fsin fcos : R -> R).
Hypothesis TR : trig s fsin fcos.
Let U' : u <= 1 / 1000. Proof. lra. Qed.
(** from an angle: as near to the rotation as the library's sine and cosine are *)
Theorem C99_exp t : exists r, rotation2 r /\ turns t r /\ dist2 (fl_so2_exp fsin fcos t) r <= exp_error2 s.
Proof.
  exists (so2_exp t). split; [apply C60_so2_exp_ln|]. split; [apply turns_is; reflexivity|]. unfold dist2, subM2, fl_so2_exp, so2_exp, sub2. cbn [s0 s1 ux uy].
  destruct (TR t) as [A B]. assert (0 <= s) by (eapply Rle_trans; [apply Rabs_pos|exact A]). apply fro2_le4; try assumption. replace (- fsin t - - sin t) with (- (fsin t - sin t)) by ring. rewrite Rabs_Ropp. exact A.
Qed.
Theorem C99_product a b p q d e : rotation2 p -> rotation2 q -> dist2 a p <= d -> dist2 b q <= e ->
  rotation2 (mm2 p q) /\ dist2 (fl_mm2 rnd a b) (mm2 p q) <= (1 + d) * (1 + e) * mul_growth u - 1.
Proof.
  intros P Q D E. apply rot_up in P, Q. split; [apply rot_up; rewrite <- mm_up; apply rotation_mul; assumption|]. rewrite <- dist_up in D, E.
  pose proof (C94_product u rnd RN (upM a) (upM b) (upM p) (upM q) d e P Q D E) as X. destruct (fl_mm_up u rnd RN a b) as (r & Er). rewrite Er, mm_up in X. eapply Rle_trans; [apply dist_top|exact X].
Qed.
Theorem C99_inverse a p d : rotation2 p -> dist2 a p <= d -> rotation2 (tr2 p) /\ mm2 (tr2 p) p = id2 /\ dist2 (tr2 a) (tr2 p) <= d.
Proof.
  intros P D. rewrite dist2_tr. destruct (C60_so2_group p p p) as (_ & _ & _ & _ & _ & I & R). split; [apply (R P P)|]. split; [apply (I P)|exact D].
Qed.
(** coerce() on any matrix that is not too flat, and of an object that has drifted *)
Theorem C99_coerce m : 0 < det2 m -> 3400 * u * skewness2 m <= 1 -> exists q t, fl_so2_coerce rnd m = Ok q /\ so2_coerce m = Ok t /\ rotation2 t /\ dist2 q t <= 326 * u * skewness2 m.
Proof.
  intros D K. rewrite <- det_up in D. rewrite <- skew_up in *. destruct (fl_coerce_ok u rnd RN U' (upM m) ltac:(lra) K) as [G _]. destruct (G D) as (q & t & E & T & Q & B).
  destruct (coerce_up m t T) as (t' & T' & ->). destruct (fl_coerce_up u rnd RN m q E) as (x & r & X & ->). exists x, t'. do 2 (split; [assumption|]). split; [apply rot_up, Q|]. eapply Rle_trans; [apply dist_top|exact B].
Qed.
Theorem C99_repair m q d : rotation2 q -> dist2 m q <= d -> d <= 1 / 10 ->
  exists x t, fl_so2_coerce rnd m = Ok x /\ rotation2 t /\ dist2 x t <= 652 * u /\ dist2 t q <= 62 * d.
Proof.
  intros Q D D1. apply rot_up in Q. rewrite <- dist_up in D. destruct (near_skewness (upM m) (upM q) d Q D D1) as [P K]. rewrite det_up in P. rewrite skew_up in K.
  pose proof (u_rng u rnd RN) as Hu. assert (Ku : u * skewness2 m <= u * 2) by (apply Rmult_le_compat_l; lra).
  destruct (C99_coerce m P ltac:(lra)) as (x & t & E & T & Rt & Dx). exists x, t. split; [exact E|]. split; [exact Rt|]. split; [lra|].
  destruct (coerce_near (upM m) (upM q) d Q D D1) as (t' & T' & _ & D'). destruct (coerce_up m t' T') as (z & Z & ->). rewrite T in Z. injection Z as <-. rewrite dist_up in D'. exact D'.
Qed.
Theorem C99_of_matrix m : 0 < det2 m -> 3400 * u * skewness2 m <= 1 ->
  exists q t r, fl_so2_of_matrix rnd m = Ok q /\ so2_coerce m = Ok t /\ rotation2 t /\ dist2 q t <= of_matrix_error2 u m /\ rotation2 r /\ dist2 q r <= 652 * u.
Proof.
  intros D K. destruct (C99_coerce m D K) as (q & t & E & T & Q & B). destruct (C99_repair q t _ Q B ltac:(lra)) as (x & r & X & Rr & B1 & B2).
  exists x, t, r. unfold fl_so2_of_matrix. rewrite E. cbn [bind]. do 3 (split; [assumption|]). split; [|split; assumption].
  pose proof (dist2_tri x r t). unfold of_matrix_error2. lra.
Qed.
(** every history *)
Theorem C99_history h : tame2 u s h -> exists q t, fl_run2 rnd fsin fcos h = Ok q /\ exactly2 h t /\ rotation2 t /\ dist2 q t <= error2 u s h /\
  exists r, rotation2 r /\ dist2 q r <= drift2 u s h.
Proof.
  pose proof (u_rng u rnd RN) as Hu. induction h as [|w|m|x IHx y IHy|x IHx|x IHx]; cbn [tame2 fl_run2 exactly2 error2 drift2]; intros H.
  - assert (rotation2 id2) by (apply rot_up, rotation_id). exists id2, id2. rewrite dist2_refl. do 3 (split; [solve [auto]|]). split; [lra|]. exists id2. rewrite dist2_refl. split; [assumption|lra].
  - destruct (C99_exp w) as (r & Rr & T & D). eexists _, r. split; [reflexivity|]. do 3 (split; [assumption|]). exists r. split; assumption.
  - destruct H as [P K]. destruct (C99_of_matrix m P K) as (q & t & r & E & T & Rt & D & Rr & Dr). exists q, t. do 4 (split; [assumption|]). exists r. split; assumption.
  - destruct H as [Hx Hy]. destruct (IHx Hx) as (a & p & Ea & Tp & Rp & Dp & ra & Rra & Da). destruct (IHy Hy) as (b & q & Eb & Tq & Rq & Dq & rb & Rrb & Db).
    rewrite Ea. cbn [bind]. rewrite Eb. cbn [bind]. destruct (C99_product a b p q _ _ Rp Rq Dp Dq) as [R1 D1]. destruct (C99_product a b ra rb _ _ Rra Rrb Da Db) as [R2 D2].
    exists (fl_mm2 rnd a b), (mm2 p q). split; [reflexivity|]. split; [exists p, q; repeat split; assumption|]. do 2 (split; [assumption|]). exists (mm2 ra rb). split; assumption.
  - destruct (IHx H) as (a & p & Ea & Tp & Rp & Dp & ra & Rra & Da). rewrite Ea. cbn [bind]. destruct (C99_inverse a p _ Rp Dp) as (R1 & _ & D1). destruct (C99_inverse a ra _ Rra Da) as (R2 & _ & D2).
    exists (tr2 a), (tr2 p). split; [reflexivity|]. split; [exists p; split; [assumption|reflexivity]|]. do 2 (split; [assumption|]). exists (tr2 ra). split; assumption.
  - destruct H as [Hx K]. destruct (IHx Hx) as (a & p & Ea & Tp & Rp & Dp & ra & Rra & Da). rewrite Ea. cbn [bind].
    destruct (C99_repair a ra _ Rra Da K) as (q & t & E & Rt & D1 & D2). exists q, p. split; [exact E|]. do 2 (split; [assumption|]). split; [|exists t; split; assumption].
    pose proof (dist2_tri q t p). pose proof (dist2_tri t ra p). pose proof (dist2_tri ra a p). rewrite (dist2_sym ra a) in *. lra.
Qed.
(** what it means to be within d of a rotation *)
Theorem C99_near_rotation q r d : rotation2 r -> dist2 q r <= d ->
  (forall v, Rabs (len2 (mv2 q v) - len2 v) <= d * len2 v) /\
  (forall v, len2 (sub2 (fl_mv2 rnd q v) (mv2 r v)) <= (d + 2 * (1 + d) * fwd u 3) * len2 v).
Proof.
  intros Q D. apply rot_up in Q. rewrite <- dist_up in D. destruct (C94_near_rotation u rnd RN (upM q) (upM r) d Q D) as (A & _ & _ & B).
  split; intros v; [specialize (A (up v))|specialize (B (up v))]; rewrite ?mv_up, ?(fl_mv_up u rnd RN), ?sub_up, ?len_up in *; assumption.
Qed.
End S.
