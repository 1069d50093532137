(** * C100: rigid motions of the plane (SE2) in floating point: the exponential, every history, points, ln and the round trips. *)
From Coq Require Import Reals Lra Lia Psatz Arith ZArith.
From Flocq Require Import Core.
From Verif Require Import Base Alg Inst ModelLie SpecLie LemLie LemSO3b ModelSE LemSE2 PropSE LemFro RSum ModelFl SpecFl LemFl LemFlChol SpecFlSO3 SpecFlHist LemFlSO3 LemFlSO3c LemFlSO3d ExFl ExFlSO3 PropFlSO3 ModelFlSE3 SpecFlSE3 LemFlSE3 PropFlSE3 SpecFlLn LemFlLnSE ModelFl2D SpecFl2D LemFl2D PropFl2D LemFlSE2 LemFlLn2D PropFlSO2Ln.
Open Scope outcome_scope.
Local Open Scope R_scope.

Lemma so2_se2_act m T p : se2_act (mkSE2 (mm2 m (rot2 T)) (mv2 m (trans2 T))) p = mv2 m (se2_act T p).
Proof. destruct m as [[c1 c2] [c3 c4]], T as [[[b1 b2] [b3 b4]] [b5 b6]], p as [p1 p2]. unfold se2_act, so2_act, mm2, vm2, tr2, mv2, add2, dot2. cbn [s0 s1 ux uy rot2 trans2]. f_equal; ring. Qed.
(** Without rounding, and with the true functions, these are the functions of C60. *)
Theorem C100_model_is_exact_model : let id := fun x : R => x in
  (forall T, fl_se2_inverse id T = se2_inverse T) /\ (forall A B, fl_se2_mul id A B = se2_mul A B) /\ (forall m T p, se2_act (fl_so2_mul_se2 id m T) p = mv2 m (se2_act T p)) /\
  (forall T x, fl_se2_act id T x = se2_act T x) /\ (forall mu, fl_se2_exp id sin cos mu = se2_exp mu) /\ (forall T, fl_se2_ln id sin cos atan2 T = se2_ln T).
Proof.
  destruct C99_model_is_exact_model as (_ & _ & _ & LN & MM & MV). cbv zeta in *. unfold so2_act in MV.
  split; [|split; [|split; [|split; [|split]]]]; intros.
  - unfold fl_se2_inverse, se2_inverse. rewrite MV. reflexivity.
  - unfold fl_se2_mul, se2_mul. rewrite MM, MV. reflexivity.
  - unfold fl_so2_mul_se2. rewrite MM, MV. apply so2_se2_act.
  - unfold fl_se2_act, se2_act. rewrite MV. reflexivity.
  - unfold fl_se2_exp, se2_exp. cbv zeta. destruct (R_ltb (vz mu * vz mu) (1 / 10 ^ 8)); [reflexivity|]. destruct (R_ltb (vz mu * vz mu) (1 / 10 ^ 6)); reflexivity.
  - unfold fl_se2_ln, se2_ln. cbv zeta. rewrite LN, MV.
    match goal with |- bind ?o _ = bind ?o' _ => change o with o'; destruct o' as [sh| | | | |] end; try reflexivity. cbn [bind].
    unfold div. change (@feqb R (FlOps (fun x : R => x))) with (@feqb R ROps). change (@f0 R (FlOps (fun x : R => x))) with (@f0 R ROps). destruct (@feqb R ROps (2 * sh) (@f0 R ROps)); [reflexivity|]. cbn [bind].
    unfold scale2. cbn [ux uy]. unfold so2_act. change (fl_so2_exp sin cos) with so2_exp. f_equal. f_equal; change (@fdiv R (FlOps (fun x : R => x))) with Rdiv; change (@fdiv R ROps) with Rdiv; change (@f1 R ROps) with 1; unfold Rdiv; ring.
Qed.
Lemma act2_ext m n : (forall p, mv2 m p = mv2 n p) -> m = n.
Proof. intros H. pose proof (H (mk2 1 0)) as A. pose proof (H (mk2 0 1)) as B. destruct m as [[a b] [c d]], n as [[a' b'] [c' d']]. unfold mv2, dot2 in *. cbn [s0 s1 ux uy] in *. injection A as A1 A2. injection B as B1 B2. f_equal; f_equal; lra. Qed.
Lemma se2_ext A B : (forall p, se2_act A p = se2_act B p) -> A = B.
Proof.
  destruct A as [[[a b] [c d]] [e f]], B as [[[a' b'] [c' d']] [e' f']]. intros H. pose proof (H (mk2 0 0)) as P. pose proof (H (mk2 1 0)) as Q. pose proof (H (mk2 0 1)) as Z.
  unfold se2_act, so2_act, mv2, add2, dot2 in *. cbn [s0 s1 ux uy rot2 trans2] in *. injection P as P1 P2. injection Q as Q1 Q2. injection Z as Z1 Z2. f_equal; f_equal; try f_equal; lra.
Qed.

Section S.
Variables (u : R) (rnd : R -> R).
Hypothesis RN : rounding u rnd.
Hypothesis U : u <= 1 / 6800.
Variables (s : R) (fsin fcos : R -> R).
Hypothesis TR : trig s fsin fcos.
Hypothesis Hs : s <= 1 / 10 ^ 6.
Notation ur := (u_rng u rnd RN).
(** ** the exponential *)
Theorem C100_exp mu : let v := mk2 (vx mu) (vy mu) in exists q T, fl_se2_exp rnd fsin fcos mu = Ok q /\ rotation2 (rot2 T) /\ turns (vz mu) (rot2 T) /\ carried2 (vz mu) v (trans2 T) /\
  dist2 (rot2 q) (rot2 T) <= exp_error2 s /\ len2 (sub2 (trans2 q) (trans2 T)) <= trans_exp_error2 u s * len2 v /\ len2 (trans2 T) <= len2 v.
Proof.
  cbv zeta. destruct (fl_se2_exp_ok u rnd RN U s fsin fcos TR Hs mu) as (q & E & Eq & D). destruct (C99_exp s fsin fcos TR (vz mu)) as (r & Rr & Tr & Dr). rewrite <- Eq in Dr.
  exists q, (mkSE2 r (vexp2 (vz mu) (mk2 (vx mu) (vy mu)))). cbn [rot2 trans2]. do 3 (split; [assumption|]). split; [apply carried2_is; reflexivity|]. split; [assumption|]. split; [exact D|apply vexp2_len].
Qed.
Lemma turn_ok2 m p e t' t d r : rotation2 p -> dist2 m p <= e -> len2 (sub2 t' t) <= d -> len2 t <= r -> len2 (sub2 (fl_mv2 rnd m t') (mv2 p t)) <= turned u e (r + d) - r.
Proof.
  intros P D T L. apply rot_up in P. rewrite <- dist_up in D. rewrite <- len_up, <- ?sub_up in T. rewrite <- len_up in L.
  pose proof (turn_ok u rnd RN (upM m) (upM p) e (up t') (up t) d r P D T L) as H. rewrite (fl_mv_up u rnd RN), mv_up, sub_up, len_up in H. exact H.
Qed.
Lemma sum_ok2 a b p q d e r1 r2 : len2 (sub2 a p) <= d -> len2 (sub2 b q) <= e -> len2 p <= r1 -> len2 q <= r2 -> len2 (sub2 (fl_add2 rnd a b) (add2 p q)) <= (1 + u) * ((r1 + d) + (r2 + e)) - (r1 + r2).
Proof.
  intros D E L1 L2. pose proof ur as Hu. pose proof (fl_add2_near u rnd RN a b p q d e D E) as A. pose proof (len2_add p q). assert (u * (len2 (add2 p q) + d + e) <= u * (r1 + r2 + d + e)) by (apply Rmult_le_compat_l; lra). lra.
Qed.
Lemma rot2_len p v : rotation2 p -> len2 (mv2 p v) = len2 v.
Proof. intros P. apply rot_up in P. rewrite <- !len_up, <- mv_up. apply rotation_len, P. Qed.
Lemma len2_neg v : len2 (neg2 v) = len2 v.
Proof. unfold len2, neg2, dot2. cbn [ux uy]. f_equal. ring. Qed.
Lemma rot2_mul p q : rotation2 p -> rotation2 q -> rotation2 (mm2 p q).
Proof. intros P Q. apply rot_up. rewrite <- mm_up. apply rotation_mul; apply rot_up; assumption. Qed.
(** ** every history *)
Theorem C100_history h : tame_motion2 u s h -> exists q T, fl_move2 rnd fsin fcos h = Ok q /\ precisely2 h T /\ rotation2 (rot2 T) /\
  dist2 (rot2 q) (rot2 T) <= turn_error2 u s h /\ len2 (sub2 (trans2 q) (trans2 T)) <= span2 u s h - reach2 h /\ len2 (trans2 T) <= reach2 h /\
  exists r, rotation2 r /\ dist2 (rot2 q) r <= turn_drift2 u s h.
Proof.
  pose proof ur as Hu. induction h as [|mu|g t|x IHx y IHy|x IHx|g x IHx]; cbn [tame_motion2 fl_move2 precisely2 turn_error2 turn_drift2 span2 reach2]; intros H.
  - assert (Rd : rotation2 (rot2 se2_default)) by (apply rot_up; apply rotation_id). exists se2_default, se2_default. rewrite dist2_refl, len2_self. split; [reflexivity|].
    split. { intros [x y]. unfold se2_default, se2_act, so2_act, id2, mv2, add2, dot2. cbn [s0 s1 ux uy rot2 trans2]. f_equal; ring. }
    split; [exact Rd|]. split; [lra|]. split; [lra|]. split. { unfold se2_default, len2, dot2. cbn [trans2 ux uy]. rewrite Rmult_0_l, Rplus_0_l, sqrt_0. lra. } exists (rot2 se2_default). rewrite dist2_refl. split; [exact Rd|lra].
  - destruct (C100_exp mu) as (q & T & E & RT & A & C & D & L & N). exists q, T. split; [exact E|]. split; [split; assumption|]. do 2 (split; [assumption|]). split; [lra|]. split; [assumption|]. exists (rot2 T). split; assumption.
  - destruct (C99_history u rnd RN U s fsin fcos TR g H) as (m & tm & E & X & Rt & D & r & Rr & Dr). rewrite E. cbn [bind]. exists (mkSE2 m t), (mkSE2 tm t). cbn [rot2 trans2]. rewrite len2_self.
    split; [reflexivity|]. split; [split; [exact X|reflexivity]|]. do 2 (split; [assumption|]). split; [lra|]. split; [lra|]. exists r. split; assumption.
  - destruct H as [Hx Hy]. destruct (IHx Hx) as (a & A & Ea & PA & RA & DA & TA & LA & ra & Rra & Dra). destruct (IHy Hy) as (b & B & Eb & PB & RB & DB & TB & LB & rb & Rrb & Drb).
    rewrite Ea. cbn [bind]. rewrite Eb. cbn [bind]. exists (fl_se2_mul rnd a b), (se2_mul A B). unfold fl_se2_mul. cbn [rot2 trans2 se2_mul]. split; [reflexivity|].
    split. { exists A, B. do 2 (split; [assumption|]). intros p. apply (C60_se2_group A B B). }
    split; [apply rot2_mul; assumption|]. split; [apply (C99_product u rnd RN); assumption|]. split; [|split].
    + pose proof (turn_ok2 (rot2 a) (rot2 A) _ (trans2 b) (trans2 B) _ _ RA DA TB LB) as G. replace (reach2 y + (span2 u s y - reach2 y)) with (span2 u s y) in G by ring.
      assert (N : len2 (so2_act (rot2 A) (trans2 B)) <= reach2 y) by (unfold so2_act; rewrite (rot2_len _ _ RA); exact LB).
      eapply Rle_trans; [apply (sum_ok2 (trans2 a) (fl_mv2 rnd (rot2 a) (trans2 b)) (trans2 A) (so2_act (rot2 A) (trans2 B)) _ _ _ _ TA G LA N)|]. lra.
    + eapply Rle_trans; [apply len2_add|]. unfold so2_act. rewrite (rot2_len _ _ RA). lra.
    + exists (mm2 ra rb). split; [apply rot2_mul; assumption|apply (C99_product u rnd RN); assumption].
  - destruct (IHx H) as (a & A & Ea & PA & RA & DA & TA & LA & ra & Rra & Dra). rewrite Ea. cbn [bind]. exists (fl_se2_inverse rnd a), (se2_inverse A). unfold fl_se2_inverse. cbn [rot2 trans2 se2_inverse].
    destruct (C99_inverse (rot2 a) (rot2 A) _ RA DA) as (RI & _ & DI). destruct (C99_inverse (rot2 a) ra _ Rra Dra) as (RI2 & _ & DI2).
    split; [reflexivity|]. split. { exists A. split; [exact PA|]. intros p. destruct (C60_se2_group (se2_inverse A) A A) as (_ & _ & _ & _ & M & _). rewrite <- M. destruct (C60_se2_group A A A) as (_ & _ & _ & _ & _ & I). rewrite (proj2 (I RA)).
      destruct p as [p1 p2]. unfold se2_default, se2_act, so2_act, id2, mv2, add2, dot2. cbn [s0 s1 ux uy rot2 trans2]. f_equal; ring. }
    unfold so2_inverse, so2_act. split; [exact RI|]. split; [exact DI|]. split; [|split].
    + pose proof (turn_ok2 (tr2 (rot2 a)) (tr2 (rot2 A)) _ (trans2 a) (trans2 A) _ _ RI DI TA LA) as G. replace (reach2 x + (span2 u s x - reach2 x)) with (span2 u s x) in G by ring.
      match goal with |- len2 ?v <= _ => replace v with (neg2 (sub2 (fl_mv2 rnd (tr2 (rot2 a)) (trans2 a)) (mv2 (tr2 (rot2 A)) (trans2 A)))) end; [rewrite len2_neg; exact G|].
      unfold neg2, sub2. cbn [ux uy]. f_equal; ring.
    + rewrite len2_neg, (rot2_len _ _ RI). exact LA.
    + exists (tr2 ra). split; assumption.
  - destruct H as [Hg Hx]. destruct (C99_history u rnd RN U s fsin fcos TR g Hg) as (m & tm & E & X & Rt & D & r & Rr & Dr). rewrite E. cbn [bind].
    destruct (IHx Hx) as (a & A & Ea & PA & RA & DA & TA & LA & ra & Rra & Dra). rewrite Ea. cbn [bind]. exists (fl_so2_mul_se2 rnd m a), (mkSE2 (mm2 tm (rot2 A)) (mv2 tm (trans2 A))). unfold fl_so2_mul_se2. cbn [rot2 trans2].
    split; [reflexivity|]. split. { exists tm, A. do 2 (split; [assumption|]). intros p. apply so2_se2_act. }
    split; [apply rot2_mul; assumption|]. split; [apply (C99_product u rnd RN); assumption|]. split; [|split].
    + pose proof (turn_ok2 m tm _ (trans2 a) (trans2 A) _ _ Rt D TA LA) as G. replace (reach2 x + (span2 u s x - reach2 x)) with (span2 u s x) in G by ring. exact G.
    + rewrite (rot2_len _ _ Rt). exact LA.
    + exists (mm2 r ra). split; [apply rot2_mul; assumption|apply (C99_product u rnd RN); assumption].
Qed.
(** ** a point moved by the computed object *)
Theorem C100_point h p : tame_motion2 u s h -> exists q T, fl_move2 rnd fsin fcos h = Ok q /\ precisely2 h T /\
  len2 (sub2 (fl_se2_act rnd q p) (se2_act T p)) <= (1 + u) * (span2 u s h + turned u (turn_error2 u s h) (len2 p)) - (reach2 h + len2 p).
Proof.
  intros H. destruct (C100_history h H) as (q & T & E & P & RT & D & L & N & _). exists q, T. do 2 (split; [assumption|]). unfold fl_se2_act, se2_act, so2_act.
  pose proof (turn_ok2 (rot2 q) (rot2 T) _ p p 0 (len2 p) RT D ltac:(rewrite len2_self; lra) ltac:(lra)) as G. rewrite Rplus_0_r in G.
  assert (M : len2 (mv2 (rot2 T) p) <= len2 p) by (rewrite (rot2_len _ _ RT); lra). eapply Rle_trans; [apply (sum_ok2 _ _ _ _ _ _ _ _ L G N M)|]. lra.
Qed.
(** ** how fast the bound grows: with the number of operations that a translation goes through *)
Let s0'' : 0 <= s. Proof. destruct (TR 0) as [H _]. pose proof (Rabs_pos (fsin 0 - sin 0)). lra. Qed.
Let growth : 1 <= mul_growth u. Proof. exact (growth_ge u rnd RN). Qed.
Lemma skewness2_nonneg m : 0 < det2 m -> 0 <= skewness2 m.
Proof. intros D. unfold skewness2. rewrite Rabs_right by lra. apply Rmult_le_pos; [apply Rmult_le_pos; apply len2_nonneg|left; apply Rinv_0_lt_compat, D]. Qed.
Lemma drift2_nonneg g : 0 <= drift2 u s g.
Proof.
  pose proof ur as Hu. pose proof s0''. pose proof growth as G. induction g as [|w|m|x IHx y IHy|x IHx|x IHx]; cbn [drift2]; unfold exp_error2; try lra.
  destruct (mul_mono _ _ _ IHx IHy G). lra.
Qed.
Lemma error2_nonneg g : tame2 u s g -> 0 <= error2 u s g.
Proof.
  pose proof ur as Hu. pose proof s0''. pose proof growth as G. induction g as [|w|m|x IHx y IHy|x IHx|x IHx]; cbn [tame2 error2]; unfold exp_error2; intros H'; try lra; auto.
  - destruct H' as [D _]. pose proof (skewness2_nonneg m D). unfold of_matrix_error2. assert (0 <= 20212 * u * skewness2 m) by (apply Rmult_le_pos; lra). lra.
  - destruct H' as [Hx Hy]. destruct (mul_mono _ _ _ (IHx Hx) (IHy Hy) G). specialize (IHx Hx). lra.
  - destruct H' as [Hx _]. specialize (IHx Hx). pose proof (drift2_nonneg x). lra.
Qed.
Lemma turn_nonneg2 h : tame_motion2 u s h -> 0 <= turn_error2 u s h.
Proof.
  pose proof growth as G. pose proof s0''. induction h as [|mu|g t|x IHx y IHy|x IHx|g x IHx]; cbn [tame_motion2 turn_error2]; unfold exp_error2; intros H'; try lra; auto.
  - apply error2_nonneg, H'.
  - destruct H' as [Hx Hy]. destruct (mul_mono _ _ _ (IHx Hx) (IHy Hy) G). specialize (IHx Hx). lra.
  - destruct H' as [Hg Hx]. destruct (mul_mono _ _ _ (error2_nonneg g Hg) (IHx Hx) G). pose proof (error2_nonneg g Hg). lra.
Qed.
Lemma reach2_nonneg h : 0 <= reach2 h.
Proof. induction h; cbn [reach2]; try lra; apply len2_nonneg. Qed.
Theorem C100_growth h e : tame_motion2 u s h -> turn_error2 u s h <= e -> reach2 h <= span2 u s h <= (1 + trans_exp_error2 u s) * ((1 + e) * mul_growth u) ^ depth2 h * reach2 h.
Proof.
  pose proof ur as Hu. pose proof s0'' as Hs0. pose proof growth as G. pose proof (one_step u rnd RN U) as O. pose proof (fwd_nonneg u 3 ltac:(lra)) as F. set (S := 1 + trans_exp_error2 u s). assert (S1 : 1 <= S) by (unfold S, trans_exp_error2; lra).
  revert e. induction h as [|mu|g t|x IHx y IHy|x IHx|g x IHx]; cbn [tame_motion2 turn_error2 span2 reach2 depth2 pow]; intros e H K.
  - lra.
  - fold S. pose proof (len2_nonneg (mk2 (vx mu) (vy mu))) as L. assert (1 * len2 (mk2 (vx mu) (vy mu)) <= S * len2 (mk2 (vx mu) (vy mu))) by (apply Rmult_le_compat_r; assumption). lra.
  - pose proof (len2_nonneg t). assert (1 * len2 t <= S * len2 t) by (apply Rmult_le_compat_r; assumption). lra.
  - destruct H as [Hx Hy]. pose proof (turn_nonneg2 x Hx) as Ex. pose proof (turn_nonneg2 y Hy) as Ey. destruct (mul_mono _ _ _ Ex Ey G) as [M1 M2].
    destruct (IHx e Hx ltac:(lra)) as [X1 X2]. destruct (IHy e Hy ltac:(lra)) as [Y1 Y2]. pose proof (reach2_nonneg x) as Rx. pose proof (reach2_nonneg y) as Ry.
    set (ex := turn_error2 u s x) in *. set (g := (1 + e) * mul_growth u) in *. assert (g1 : 1 <= g) by (unfold g; nra). set (n := max (depth2 x) (depth2 y)).
    assert (Px : g ^ depth2 x <= g ^ n) by (apply Rle_pow; [exact g1|apply Nat.le_max_l]). assert (Py : g ^ depth2 y <= g ^ n) by (apply Rle_pow; [exact g1|apply Nat.le_max_r]).
    assert (Pn : 1 <= g ^ n) by (apply pow_R1_Rle, g1). unfold turned. set (f := 1 + 2 * fwd u 3) in *. assert (f1 : 1 <= f) by (unfold f; lra). assert (ef : 1 <= (1 + ex) * f) by nra.
    assert (X3 : span2 u s x <= S * g ^ n * reach2 x) by (eapply Rle_trans; [exact X2|]; apply Rmult_le_compat_r; [lra|]; apply Rmult_le_compat_l; lra).
    assert (Y3 : span2 u s y <= S * g ^ n * reach2 y) by (eapply Rle_trans; [exact Y2|]; apply Rmult_le_compat_r; [lra|]; apply Rmult_le_compat_l; lra).
    set (w := S * g ^ n) in *. assert (w1 : 1 <= w) by (unfold w; nra). split.
    + assert (1 * span2 u s y <= (1 + ex) * f * span2 u s y) by (apply Rmult_le_compat_r; lra). assert (1 * (span2 u s x + (1 + ex) * f * span2 u s y) <= (1 + u) * (span2 u s x + (1 + ex) * f * span2 u s y)) by (apply Rmult_le_compat_r; lra). lra.
    + replace (S * (g * g ^ n) * (reach2 x + reach2 y)) with (g * (w * (reach2 x + reach2 y))) by (unfold w; ring).
      assert (A : span2 u s x + (1 + ex) * f * span2 u s y <= (1 + ex) * f * (w * (reach2 x + reach2 y))).
      { assert (1 * (w * reach2 x) <= (1 + ex) * f * (w * reach2 x)) by (apply Rmult_le_compat_r; [apply Rmult_le_pos; lra|exact ef]).
        assert ((1 + ex) * f * span2 u s y <= (1 + ex) * f * (w * reach2 y)) by (apply Rmult_le_compat_l; lra). lra. }
      assert (B : (1 + u) * ((1 + ex) * f) <= g). { unfold g. replace ((1 + u) * ((1 + ex) * f)) with ((1 + ex) * ((1 + u) * f)) by ring. apply Rmult_le_compat; try lra. apply Rmult_le_pos; lra. }
      apply (Rle_trans _ ((1 + u) * ((1 + ex) * f * (w * (reach2 x + reach2 y))))); [apply Rmult_le_compat_l; lra|].
      rewrite <- Rmult_assoc. apply Rmult_le_compat_r; [apply Rmult_le_pos; lra|exact B].
  - pose proof (turn_nonneg2 x H) as Ex. destruct (IHx e H ltac:(lra)) as [X1 X2]. pose proof (reach2_nonneg x) as Rx. set (ex := turn_error2 u s x) in *. set (g := (1 + e) * mul_growth u) in *.
    assert (g1 : 1 <= g) by (unfold g; nra). assert (Pn : 1 <= g ^ depth2 x) by (apply pow_R1_Rle, g1). unfold turned. set (f := 1 + 2 * fwd u 3) in *. assert (f1 : 1 <= f) by (unfold f; lra). assert (ef : 1 <= (1 + ex) * f) by nra. split.
    + assert (1 * span2 u s x <= (1 + ex) * f * span2 u s x) by (apply Rmult_le_compat_r; lra). lra.
    + assert (B : (1 + ex) * f <= g). { unfold g. apply Rmult_le_compat; try lra. assert (f <= (1 + u) * f) by nra. lra. }
      replace (S * (g * g ^ depth2 x) * reach2 x) with (g * (S * g ^ depth2 x * reach2 x)) by ring. apply Rmult_le_compat; lra.
  - destruct H as [Hg Hx]. pose proof (error2_nonneg g Hg) as Eg. pose proof (turn_nonneg2 x Hx) as Ex. destruct (mul_mono _ _ _ Eg Ex G) as [M1 M2].
    destruct (IHx e Hx ltac:(lra)) as [X1 X2]. pose proof (reach2_nonneg x) as Rx. set (ex := error2 u s g) in *. set (k := (1 + e) * mul_growth u) in *.
    assert (g1 : 1 <= k) by (unfold k; nra). assert (Pn : 1 <= k ^ depth2 x) by (apply pow_R1_Rle, g1). unfold turned. set (f := 1 + 2 * fwd u 3) in *. assert (f1 : 1 <= f) by (unfold f; lra). assert (ef : 1 <= (1 + ex) * f) by nra. split.
    + assert (1 * span2 u s x <= (1 + ex) * f * span2 u s x) by (apply Rmult_le_compat_r; lra). lra.
    + assert (B : (1 + ex) * f <= k). { unfold k. apply Rmult_le_compat; try lra. assert (f <= (1 + u) * f) by nra. lra. }
      replace (S * (k * k ^ depth2 x) * reach2 x) with (k * (S * k ^ depth2 x * reach2 x)) by ring. apply Rmult_le_compat; lra.
Qed.

(** ** the logarithm *)
Hypothesis RS : relative_sine s fsin.
Variable fatan2 : R -> R -> R.
Hypothesis AT : arctangent s fatan2.
Notation fln := (fl_se2_ln rnd fsin fcos fatan2).
Notation xy v := (mk2 (vx v) (vy v)).
Lemma lte2_pos : 0 <= ln_trans_error2 u s.
Proof. pose proof ur as Hu. pose proof s0''. unfold ln_trans_error2. lra. Qed.
Lemma sinc2_nz w : Rabs w <= 7 / 2 -> sinc2 (w / 2) <> 0.
Proof. intros W. destruct (sinc2_rng _ (half_ok2 w W)) as [S _]. lra. Qed.
Lemma ln_rng m r d : rotation2 r -> dist2 m r <= d -> d <= 1 / 4 -> Rabs (fl_so2_ln fatan2 m) <= PI + s /\ Rabs (fl_so2_ln fatan2 m) <= 7 / 2 /\ exists x, turns (fl_so2_ln fatan2 m) x /\ dist2 x r <= 2 * d + 2 * s.
Proof.
  intros Q D D4. destruct C60_so2_exp_ln as (_ & _ & L & _). destruct (L r Q) as [E B]. assert (T : turns (so2_ln r) r) by (apply turns_is; symmetry; exact E).
  destruct (C99_ln s fatan2 AT m r (so2_ln r) d T D D4 ltac:(apply Rabs_le_between; lra)) as (A & X & _). pose proof PI_347. split; [exact A|]. split; [lra|exact X].
Qed.
(** whatever the rotation: the call succeeds; with what it returns, the exact exponential is near the argument *)
Theorem C100_ln_backward T r d : rotation2 r -> dist2 (rot2 T) r <= d -> d <= 1 / 4 ->
  exists v X, fln T = Ok v /\ Rabs (vz v) <= PI + s /\ len2 (xy v) <= (25 / 12 + ln_trans_error2 u s) * len2 (trans2 T) /\ rotation2 (rot2 X) /\ turns (vz v) (rot2 X) /\ carried2 (vz v) (xy v) (trans2 X) /\
  dist2 (rot2 X) r <= 2 * d + 2 * s /\ len2 (sub2 (trans2 X) (trans2 T)) <= ln_trans_error2 u s * len2 (trans2 T).
Proof.
  intros Q D D4. destruct (ln_rng (rot2 T) r d Q D D4) as (W & W7 & x & Tx & Dx). destruct (se2_ln_ok u rnd RN U s fsin fcos TR RS Hs fatan2 T W7) as (v & E & Ev & L). rewrite <- Ev in *.
  exists v, (mkSE2 x (vexp2 (vz v) (xy v))). cbn [rot2 trans2]. split; [exact E|]. split; [exact W|]. destruct C60_so2_exp_ln as (_ & Rt & _). split; [|split; [apply turns_is in Tx; subst x; apply Rt|split; [exact Tx|split; [apply carried2_is; reflexivity|split; [exact Dx|]]]]].
  - pose proof (vback2_len (vz v) (trans2 T) W7). pose proof (len2_near (xy v) (vback2 (vz v) (trans2 T))). lra.
  - rewrite <- (vback2_to (vz v) (trans2 T) (sinc2_nz _ W7)) at 1. rewrite vexp2_sub. eapply Rle_trans; [apply vexp2_len|exact L].
Qed.
(** near the rigid motion by (w, v): rotation by w, and p is where the velocity v takes the origin *)
Theorem C100_ln_forward T r d w v p : turns w r -> carried2 w v p -> Rabs w < PI - 2 * d -> dist2 (rot2 T) r <= d -> d <= 1 / 4 ->
  exists mu, fln T = Ok mu /\ Rabs (vz mu - w) <= 2 * d + s /\ len2 (sub2 (xy mu) v) <= (ln_trans_error2 u s + 5 * (2 * d + s)) * len2 (trans2 T) + 25 / 12 * len2 (sub2 (trans2 T) p).
Proof.
  intros Tw Cw W D D4. pose proof (dist2_nonneg (rot2 T) r) as D0. assert (Q : rotation2 r) by (apply turns_is in Tw; subst r; apply C60_so2_exp_ln). destruct (ln_rng (rot2 T) r d Q D D4) as (_ & W7 & _). pose proof PI_347 as P3.
  destruct (C99_ln s fatan2 AT (rot2 T) r w d Tw D D4 ltac:(lra)) as (_ & _ & _ & A). specialize (A W). destruct (se2_ln_ok u rnd RN U s fsin fcos TR RS Hs fatan2 T W7) as (mu & E & Ev & L). rewrite <- Ev in *.
  exists mu. split; [exact E|]. split; [exact A|]. apply carried2_is in Cw. assert (W7' : Rabs w <= 7 / 2) by lra. rewrite <- (vback2_of w v (sinc2_nz w W7')), <- Cw.
  pose proof (vback2_lip (vz mu) w (trans2 T) W7 W7') as L1. pose proof (vback2_len w (sub2 (trans2 T) p) W7') as L2. rewrite <- vback2_sub in L2.
  pose proof (len2_tri (xy mu) (vback2 (vz mu) (trans2 T)) (vback2 w p)) as T1. pose proof (len2_tri (vback2 (vz mu) (trans2 T)) (vback2 w (trans2 T)) (vback2 w p)) as T2.
  assert (5 * Rabs (vz mu - w) * len2 (trans2 T) <= 5 * (2 * d + s) * len2 (trans2 T)) by (apply Rmult_le_compat_r; [apply len2_nonneg|lra]). lra.
Qed.
(** ** round trips *)
Theorem C100_exp_then_ln mu : Rabs (vz mu) < PI - 4 * s -> exists q nu, fl_se2_exp rnd fsin fcos mu = Ok q /\ fln q = Ok nu /\ Rabs (vz nu - vz mu) <= 5 * s /\
  len2 (sub2 (xy nu) (xy mu)) <= ((ln_trans_error2 u s + 25 * s) * (1 + trans_exp_error2 u s) + 25 / 12 * trans_exp_error2 u s) * len2 (xy mu).
Proof.
  intros W. destruct (C100_exp mu) as (q & T & E & Q & X & C & D & Dt & Lt). unfold exp_error2 in D.
  destruct (C100_ln_forward q (rot2 T) (2 * s) (vz mu) (xy mu) (trans2 T) X C ltac:(lra) D ltac:(lra)) as (nu & En & Da & Dl). exists q, nu. do 2 (split; [assumption|]). split; [lra|].
  pose proof (len2_near (trans2 q) (trans2 T)) as N. pose proof lte2_pos as l0. pose proof s0''.
  assert ((ln_trans_error2 u s + 5 * (2 * (2 * s) + s)) * len2 (trans2 q) <= (ln_trans_error2 u s + 5 * (2 * (2 * s) + s)) * ((1 + trans_exp_error2 u s) * len2 (xy mu))) by (apply Rmult_le_compat_l; lra). lra.
Qed.
Lemma carried2_unique w v p q : carried2 w v p -> carried2 w v q -> p = q.
Proof. intros P Q. apply carried2_is in P, Q. congruence. Qed.
Lemma turns_unique w x y : turns w x -> turns w y -> x = y.
Proof. intros P Q. apply turns_is in P, Q. congruence. Qed.
Theorem C100_ln_then_exp T r d : rotation2 r -> dist2 (rot2 T) r <= d -> d <= 1 / 4 -> exists mu q, fln T = Ok mu /\ fl_se2_exp rnd fsin fcos mu = Ok q /\
  dist2 (rot2 q) r <= 2 * d + 4 * s /\ len2 (sub2 (trans2 q) (trans2 T)) <= (ln_trans_error2 u s + trans_exp_error2 u s * (25 / 12 + ln_trans_error2 u s)) * len2 (trans2 T).
Proof.
  intros Q D D4. pose proof ur as Hu. pose proof s0''. destruct (C100_ln_backward T r d Q D D4) as (mu & X & E & La & Ll & QX & RX & CX & DX & TX).
  destruct (C100_exp mu) as (q & Y & Eq & QY & RY & CY & DY & TY & _). unfold exp_error2 in DY. exists mu, q. do 2 (split; [assumption|]).
  pose proof (turns_unique _ _ _ RY RX) as Er. pose proof (carried2_unique _ _ _ _ CY CX) as Et. rewrite Er in *. rewrite Et in *. split.
  - pose proof (dist2_tri (rot2 q) (rot2 X) r). lra.
  - pose proof (len2_tri (trans2 q) (trans2 X) (trans2 T)). assert (t0 : 0 <= trans_exp_error2 u s) by (unfold trans_exp_error2; lra).
    assert (trans_exp_error2 u s * len2 (xy mu) <= trans_exp_error2 u s * ((25 / 12 + ln_trans_error2 u s) * len2 (trans2 T))) by (apply Rmult_le_compat_l; lra). lra.
Qed.
Lemma precisely2_unique h : tame_motion2 u s h -> forall X Y, precisely2 h X -> precisely2 h Y -> X = Y.
Proof.
  induction h as [|mu|g t|x IHx y IHy|x IHx|g x IHx]; cbn [precisely2 tame_motion2]; intros TM X Y H H'.
  - apply se2_ext. intros p. rewrite H, H'. reflexivity.
  - destruct H as [R1 C1], H' as [R2 C2], X as [Xr Xt], Y as [Yr Yt]. cbn [rot2 trans2] in *. rewrite (turns_unique _ _ _ R1 R2), (carried2_unique _ _ _ _ C1 C2). reflexivity.
  - destruct H as [R1 C1], H' as [R2 C2], X as [Xr Xt], Y as [Yr Yt]. cbn [rot2 trans2] in *. rewrite (exactly2_unique _ _ _ R1 R2). congruence.
  - destruct H as (A & B & PA & PB & E), H' as (A' & B' & PA' & PB' & E'). apply se2_ext. intros p. rewrite E, E', (IHx (proj1 TM) _ _ PA PA'), (IHy (proj2 TM) _ _ PB PB'). reflexivity.
  - destruct H as (A & PA & E), H' as (A' & PA' & E'). pose proof (IHx TM _ _ PA PA') as K1. subst A'.
    destruct (C100_history x TM) as (q & T & _ & PT & QT & _). pose proof (IHx TM _ _ PA PT) as K2. rewrite <- K2 in QT. destruct (C60_se2_group A (se2_inverse A) A) as (_ & _ & _ & _ & M & I). specialize (I QT).
    apply se2_ext. intros p. assert (P : p = se2_act A (se2_act (se2_inverse A) p)). { rewrite <- M, (proj1 I). destruct p as [p1 p2]. unfold se2_default, se2_act, so2_act, id2, mv2, add2, dot2. cbn [s0 s1 ux uy rot2 trans2]. f_equal; ring. }
    rewrite P, E, E'. reflexivity.
  - destruct H as (m & A & Xm & PA & E), H' as (m' & A' & Xm' & PA' & E'). apply se2_ext. intros p. rewrite E, E', (exactly2_unique _ _ _ Xm Xm'), (IHx (proj2 TM) _ _ PA PA'). reflexivity.
Qed.
(** the logarithm of any history *)
Theorem C100_ln_history h X w v : tame_motion2 u s h -> turn_error2 u s h <= 1 / 4 -> precisely2 h X -> turns w (rot2 X) -> carried2 w v (trans2 X) -> Rabs w < PI - 2 * turn_error2 u s h ->
  exists q mu, fl_move2 rnd fsin fcos h = Ok q /\ fln q = Ok mu /\ Rabs (vz mu - w) <= 2 * turn_error2 u s h + s /\
  len2 (sub2 (xy mu) v) <= (ln_trans_error2 u s + 5 * (2 * turn_error2 u s h + s)) * span2 u s h + 25 / 12 * (span2 u s h - reach2 h).
Proof.
  intros Th E0 PX Xw Cw W. destruct (C100_history h Th) as (q & T & E & PT & QT & D & Dt & Lt & _). pose proof (precisely2_unique h Th X T PX PT). subst T.
  destruct (C100_ln_forward q (rot2 X) _ w v (trans2 X) Xw Cw W D E0) as (mu & Em & Da & Dl). exists q, mu. do 3 (split; [assumption|]).
  pose proof (len2_near (trans2 q) (trans2 X)) as N. pose proof lte2_pos as l0. pose proof (turn_nonneg2 h Th). pose proof s0''.
  assert ((ln_trans_error2 u s + 5 * (2 * turn_error2 u s h + s)) * len2 (trans2 q) <= (ln_trans_error2 u s + 5 * (2 * turn_error2 u s h + s)) * span2 u s h) by (apply Rmult_le_compat_l; lra). lra.
Qed.
End S.
(** IEEE double, library sine, cosine and arctangent to within four units: the numbers *)
Theorem C100_double fsin fcos fatan2 : let u := / 2 * bpow radix2 (-52) in trig (4 * u) fsin fcos -> relative_sine (4 * u) fsin -> arctangent (4 * u) fatan2 ->
  (forall h, tame_motion2 u (4 * u) h -> turn_error2 u (4 * u) h <= 1 / 10 ^ 11 -> INR (depth2 h) <= 1000 ->
     exists q T, fl_move2 rnd64 fsin fcos h = Ok q /\ precisely2 h T /\ rotation2 (rot2 T) /\ dist2 (rot2 q) (rot2 T) <= 1 / 10 ^ 11 /\ len2 (sub2 (trans2 q) (trans2 T)) <= 15 / 10 ^ 9 * reach2 h) /\
  (forall mu, Rabs (vz mu) <= 299 / 100 -> exists q nu, fl_se2_exp rnd64 fsin fcos mu = Ok q /\ fl_se2_ln rnd64 fsin fcos fatan2 q = Ok nu /\
     Rabs (vz nu - vz mu) <= 3 / 10 ^ 15 /\ len2 (sub2 (mk2 (vx nu) (vy nu)) (mk2 (vx mu) (vy mu))) <= 5 / 10 ^ 9 * len2 (mk2 (vx mu) (vy mu))) /\
  (forall T r, rotation2 r -> dist2 (rot2 T) r <= 1 / 10 ^ 11 -> exists mu q, fl_se2_ln rnd64 fsin fcos fatan2 T = Ok mu /\ fl_se2_exp rnd64 fsin fcos mu = Ok q /\
     dist2 (rot2 q) r <= 3 / 10 ^ 11 /\ len2 (sub2 (trans2 q) (trans2 T)) <= 5 / 10 ^ 9 * len2 (trans2 T)).
Proof.
  intros u TR RS AT. pose proof rnd64_rounding as RN. fold u in RN. assert (Us : 0 <= u <= 1112 / 10 ^ 19) by (unfold u; cbn; lra). pose proof PI2_3_2 as P3.
  assert (TE : 0 <= trans_exp_error2 u (4 * u) <= 2001 / 10 ^ 12) by (unfold trans_exp_error2; lra). assert (LE : 0 <= ln_trans_error2 u (4 * u) <= 301 / 10 ^ 13) by (unfold ln_trans_error2; lra). split; [|split].
  - intros h H E M. destruct (C100_history u rnd64 RN ltac:(lra) (4 * u) fsin fcos TR ltac:(lra) h H) as (q & T & R1 & R2 & R3 & R4 & R5 & R6 & _). exists q, T. do 3 (split; [assumption|]). split; [lra|].
    destruct (C100_growth u rnd64 RN ltac:(lra) (4 * u) fsin fcos TR h _ H E) as [_ B]. eapply Rle_trans; [exact R5|].
    pose proof (fwd3 u rnd64 RN ltac:(lra)) as F3. pose proof (fwd_nonneg u 3 ltac:(lra)) as F0. assert (Rh : 0 <= reach2 h) by (pose proof (len2_nonneg (trans2 T)); lra).
    set (y := (1 + 1 / 10 ^ 11) * mul_growth u - 1) in *. assert (Y : 0 <= y <= 1001 / 10 ^ 14) by (unfold y, mul_growth; lra).
    replace ((1 + 1 / 10 ^ 11) * mul_growth u) with (1 + y) in B by (unfold y; ring). pose proof (pow_exp y (depth2 h) ltac:(lra)) as A. pose proof (pos_INR (depth2 h)).
    assert (A2 : 0 <= INR (depth2 h) * y <= 1001 / 10 ^ 11). { split; [apply Rmult_le_pos; lra|]. apply (Rle_trans _ (1000 * (1001 / 10 ^ 14))); [apply Rmult_le_compat; lra|lra]. }
    pose proof (exp_small (INR (depth2 h) * y) ltac:(lra)) as X. set (t := trans_exp_error2 u (4 * u)) in *.
    assert (P : (1 + t) * (1 + y) ^ depth2 h <= 1 + 15 / 10 ^ 9). { apply (Rle_trans _ ((1 + 21 / 10 ^ 10) * (1 + 1202 / 10 ^ 11))); [apply Rmult_le_compat; try lra; apply pow_le; lra|lra]. }
    assert ((1 + t) * (1 + y) ^ depth2 h * reach2 h <= (1 + 15 / 10 ^ 9) * reach2 h) by (apply Rmult_le_compat_r; lra). lra.
  - intros mu W. destruct (C100_exp_then_ln u rnd64 RN ltac:(lra) (4 * u) fsin fcos TR ltac:(lra) RS fatan2 AT mu ltac:(lra)) as (q & nu & A & B & C & E).
    exists q, nu. do 2 (split; [assumption|]). split; [lra|]. eapply Rle_trans; [exact E|]. apply Rmult_le_compat_r; [apply len2_nonneg|].
    assert ((ln_trans_error2 u (4 * u) + 25 * (4 * u)) * (1 + trans_exp_error2 u (4 * u)) <= 302 / 10 ^ 13 * (1 + 1)) by (apply Rmult_le_compat; lra). lra.
  - intros T r Q D. destruct (C100_ln_then_exp u rnd64 RN ltac:(lra) (4 * u) fsin fcos TR ltac:(lra) RS fatan2 AT T r _ Q D ltac:(lra)) as (mu & q & A & B & C & E).
    exists mu, q. do 2 (split; [assumption|]). split; [lra|]. eapply Rle_trans; [exact E|]. apply Rmult_le_compat_r; [apply len2_nonneg|].
    assert (trans_exp_error2 u (4 * u) * (25 / 12 + ln_trans_error2 u (4 * u)) <= 2001 / 10 ^ 12 * (21 / 10)) by (apply Rmult_le_compat; lra). lra.
Qed.
(** the hypotheses are met: the true functions; a history with everything in it; a quarter turn with one entry disturbed, moved by (1,2), and what it is the motion of *)
Example C100_case : let u := / 2 * bpow radix2 (-52) in
  let h := MMul2 (MExp2 (mk3 1 2 2)) (MMul2 (MInv2 (MParts2 (Exp2 1) (mk2 5 0))) (MRot2 (Mul2 (Exp2 1) Default2) MDefault2)) in
  trig (4 * u) sin cos /\ relative_sine (4 * u) sin /\ arctangent (4 * u) atan2 /\ tame_motion2 u (4 * u) h /\ turn_error2 u (4 * u) h <= 1 / 10 ^ 11 /\ INR (depth2 h) <= 1000 /\ 5 <= reach2 h /\
  let r := mkM2 (mk2 0 (-1)) (mk2 1 0) in let T := mkSE2 (mkM2 (mk2 0 (-1)) (mk2 1 (1 / 10 ^ 12))) (mk2 1 2) in
  rotation2 r /\ turns (PI / 2) r /\ carried2 (PI / 2) (mk2 (3 * PI / 4) (PI / 4)) (trans2 T) /\ 0 < dist2 (rot2 T) r <= 1 / 10 ^ 11 /\ Rabs (PI / 2) < PI - 2 * (1 / 10 ^ 11).
Proof.
  cbv zeta. assert (Us : 0 <= / 2 * bpow radix2 (-52) <= 1112 / 10 ^ 19) by (cbn; lra). set (u := / 2 * bpow radix2 (-52)) in *. clearbody u. pose proof PI2_3_2 as P3.
  assert (Z : forall x : R, Rabs (x - x) <= 4 * u) by (intros x; rewrite Rminus_diag_eq, Rabs_R0 by reflexivity; lra).
  split; [intros x; split; apply Z|]. split; [intros x; rewrite Rminus_diag_eq, Rabs_R0 by reflexivity; apply Rmult_le_pos; [lra|apply Rabs_pos]|]. split; [intros y x; apply Z|]. split; [cbn; tauto|].
  assert (F : 0 <= mul_growth u - 1 <= 1 / 10 ^ 14). { unfold mul_growth, fwd. assert (0 <= u * u <= u * (1112 / 10 ^ 19)) by (split; [nra|apply Rmult_le_compat_l; lra]). assert (0 <= u * u * u <= u * 1) by (split; [apply Rmult_le_pos; lra|nra]). replace ((1 + u) ^ 3 - 1) with (3 * u + 3 * (u * u) + u * u * u) by ring. nra. }
  remember (mul_growth u) as g eqn:Eg.
  assert (st : forall a b i j, 0 <= a <= i -> 0 <= b <= j -> i <= 1 / 10 ^ 9 -> j <= 1 / 10 ^ 9 -> 0 <= (1 + a) * (1 + b) * g - 1 <= i + j + 1 / 10 ^ 13).
  { intros a b i j A B I J. assert (0 <= a * b <= 1 / 10 ^ 9 * (1 / 10 ^ 9)) by (split; [apply Rmult_le_pos; lra|apply Rmult_le_compat; lra]). set (k := (1 + a) * (1 + b)) in *. assert (1 <= k <= 1 + i + j + 1 / 10 ^ 18) by (unfold k; lra).
    replace (k * g - 1) with (k - 1 + k * (g - 1)) by ring. assert (0 <= k * (g - 1) <= 2 * (1 / 10 ^ 14)) by (split; [apply Rmult_le_pos; lra|apply Rmult_le_compat; lra]). lra. }
  cbn [turn_error2 error2]. rewrite <- !Eg. clear Eg. unfold exp_error2. set (e := 2 * (4 * u)). assert (He : 0 <= e <= 1 / 10 ^ 14) by (unfold e; lra). clearbody e.
  pose proof (st e 0 _ 0 He ltac:(lra) ltac:(lra) ltac:(lra)) as S1. pose proof (st _ 0 _ 0 S1 ltac:(lra) ltac:(lra) ltac:(lra)) as S2. pose proof (st e _ _ _ He S2 ltac:(lra) ltac:(lra)) as S3. pose proof (st e _ _ _ He S3 ltac:(lra) ltac:(lra)) as S4.
  split; [lra|]. split; [cbn; lra|]. split.
  { cbn [reach2 vx vy]. assert (len2 (mk2 5 0) = 5) as -> by (unfold len2, dot2; cbn [ux uy]; replace (5 * 5 + 0 * 0) with (5 * 5) by ring; apply sqrt_square; lra). pose proof (len2_nonneg (mk2 1 2)). lra. }
  split; [split; [unfold orthonormal2, dot2; cbn [s0 s1 ux uy]; repeat split; ring|unfold det2; cbn [s0 s1 ux uy]; ring]|]. split; [|split; [|split]].
  - intros x y. rewrite cos_PI2, sin_PI2. unfold mv2, dot2. cbn [s0 s1 ux uy]. f_equal; ring.
  - split; [intros N; lra|]. intros _. rewrite cos_PI2, sin_PI2. cbn [trans2 ux uy]. f_equal; field; lra.
  - unfold dist2, fro2, subM2, sub2, dot2. cbn [rot2 s0 s1 ux uy]. match goal with |- 0 < sqrt ?k <= _ => replace k with (1 / 10 ^ 12 * (1 / 10 ^ 12)) by field end. rewrite sqrt_square by lra. lra.
  - rewrite Rabs_right by lra. lra.
Qed.
Print Assumptions C100_model_is_exact_model. Print Assumptions C100_exp. Print Assumptions C100_point. Print Assumptions C100_growth.
Print Assumptions C100_ln_backward. Print Assumptions C100_ln_forward. Print Assumptions C100_exp_then_ln. Print Assumptions C100_ln_then_exp.
Print Assumptions C100_ln_history. Print Assumptions C100_double.
