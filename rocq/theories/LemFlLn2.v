(** * Error of SO3::ln. *)
From Coq Require Import Reals Lra Lia Psatz Bool.
From Verif Require Import Base Alg Inst ModelLie SpecLie LemLie LemSO3 LemSO3c ModelFl ModelFlSO3 SpecFl LemFl SpecFlSO3 LemFro LemFlSO3 LemFlSO3b LemFlSO3d LemFlSE3 ModelFlLn SpecFlLn LemFlChol LemFlLn.
Open Scope outcome_scope.
Local Open Scope R_scope.

(** ** exact parts of a rotation *)
Lemma cosm_rot a t : dot3 a a = 1 -> cosm (rot_matrix a t) = cos t.
Proof.
  intros A. unfold cosm. replace (trace3 (rot_matrix a t)) with (3 * cos t + (1 - cos t) * dot3 a a) by (unfold trace3, rot_matrix; clear; dv; lie_unfold; ring). rewrite A. field.
Qed.
Lemma anti_rot a t : anti (rot_matrix a t) = scale3 (sin t) a.
Proof. unfold anti, rot_matrix. dv. lie_unfold. f_equal; field. Qed.
Lemma symc_rot a t : dot3 a a = 1 -> symc (rot_matrix a t) = scaleM (1 - cos t) (outer3 a a).
Proof.
  intros A. unfold symc. rewrite (cosm_rot a t A). unfold rot_matrix, outer3, scaleM. clear A. dv. lie_unfold. f_equal; f_equal; field.
Qed.
Lemma ent_near m r d : dist m r <= d ->
  (Rabs (vx (r0 m) - vx (r0 r)) <= d /\ Rabs (vy (r0 m) - vy (r0 r)) <= d /\ Rabs (vz (r0 m) - vz (r0 r)) <= d) /\
  (Rabs (vx (r1 m) - vx (r1 r)) <= d /\ Rabs (vy (r1 m) - vy (r1 r)) <= d /\ Rabs (vz (r1 m) - vz (r1 r)) <= d) /\
  (Rabs (vx (r2 m) - vx (r2 r)) <= d /\ Rabs (vy (r2 m) - vy (r2 r)) <= d /\ Rabs (vz (r2 m) - vz (r2 r)) <= d).
Proof.
  intros H. unfold dist in H. destruct (fro_row_le (subM m r)) as (A & B & C). unfold subM in A, B, C at 1. cbn [r0 r1 r2] in A, B, C. unfold subM in C at 1. cbn [r0 r1 r2] in C.
  destruct (comp_len (sub3 (r0 m) (r0 r))) as (a1 & a2 & a3). destruct (comp_len (sub3 (r1 m) (r1 r))) as (b1 & b2 & b3). destruct (comp_len (sub3 (r2 m) (r2 r))) as (c1 & c2 & c3).
  unfold sub3 in a1, a2, a3, b1, b2, b3, c1, c2, c3 at 1. cbn [vx vy vz] in *. fold (sub3 (r0 m) (r0 r)) in *. fold (sub3 (r1 m) (r1 r)) in *. fold (sub3 (r2 m) (r2 r)) in *.
  repeat split; eapply Rle_trans; try eassumption; eapply Rle_trans; eassumption.
Qed.
Lemma rot_ent r : rotation r ->
  (Rabs (vx (r0 r)) <= 1 /\ Rabs (vy (r0 r)) <= 1 /\ Rabs (vz (r0 r)) <= 1) /\
  (Rabs (vx (r1 r)) <= 1 /\ Rabs (vy (r1 r)) <= 1 /\ Rabs (vz (r1 r)) <= 1) /\
  (Rabs (vx (r2 r)) <= 1 /\ Rabs (vy (r2 r)) <= 1 /\ Rabs (vz (r2 r)) <= 1).
Proof.
  intros [(A & B & C & _) _]. pose proof (comp_len (r0 r)) as P. pose proof (comp_len (r1 r)) as Q. pose proof (comp_len (r2 r)) as S0.
  rewrite (unit_len _ A) in P. rewrite (unit_len _ B) in Q. rewrite (unit_len _ C) in S0. tauto.
Qed.

Lemma sc_sub k k' w : sub3 (scale3 k w) (scale3 k' w) = scale3 (k - k') w.
Proof. dv. lie_unfold. f_equal; ring. Qed.
Lemma sc_sub_v k v w : sub3 (scale3 k v) (scale3 k w) = scale3 k (sub3 v w).
Proof. dv. lie_unfold. f_equal; ring. Qed.

Lemma z_sub k w : sub3 zero3 (scale3 k w) = scale3 (- k) w.
Proof. dv. unfold zero3. lie_unfold. f_equal; ring. Qed.

Section S.
Variables (u : R) (rnd : R -> R).
Hypothesis RN : rounding u rnd.
Hypothesis U : u <= 1 / 6800.
Notation ur := (u_rng u rnd RN).
Lemma U' : u <= 1 / 1000. Proof. lra. Qed.
Lemma rnd_to x y e b : Rabs (x - y) <= e -> Rabs x <= b -> Rabs (rnd x - y) <= e + u * b.
Proof.
  intros H B. pose proof (rnd_err u rnd RN x) as E. pose proof ur as Hu. replace (rnd x - y) with ((rnd x - x) + (x - y)) by ring. eapply Rle_trans; [apply Rabs_triang|].
  assert (u * Rabs x <= u * b) by (apply Rmult_le_compat_l; lra). lra.
Qed.
Lemma half_to x y e b : Rabs (x - y) <= e -> Rabs x <= b -> b <= 22 / 10 -> Rabs (rnd (rnd x / 2) - y / 2) <= e / 2 + 23 / 10 * u.
Proof.
  intros H B B2. pose proof ur as Hu. pose proof (rnd_to x y e b H B) as E. pose proof (rnd_err u rnd RN x) as E0. pose proof (Rabs_pos x).
  assert (u * Rabs x <= u * b) by (apply Rmult_le_compat_l; lra). assert (u * b <= u * (22 / 10)) by (apply Rmult_le_compat_l; lra).
  pose proof (rnd_to (rnd x / 2) (y / 2) ((e + u * b) / 2) (112 / 100)) as F.
  assert (A1 : Rabs (rnd x / 2 - y / 2) <= (e + u * b) / 2) by (apply Rabs_le_between in E; apply Rabs_le_between; lra).
  assert (A2 : Rabs (rnd x / 2) <= 112 / 100) by (apply Rabs_le_between in E0, B; apply Rabs_le_between; lra).
  specialize (F A1 A2). lra.
Qed.

Section R.
Variables (m r : M3) (d : R).
Hypothesis Q : rotation r.
Hypothesis D : dist m r <= d.
Hypothesis D1 : d <= 1 / 1000.
Definition e : R := 2 * d + 8 * u.
Lemma e_rng : 0 <= e <= 1 / 200 /\ u <= e / 8 /\ d <= e / 2 /\ 0 <= d.
Proof. pose proof ur. pose proof (dist_nonneg m r). unfold e. lra. Qed.
Ltac ab H := apply Rabs_le_between in H.
Lemma cosm_near : Rabs (fl_cosm rnd m - cosm r) <= e.
Proof.
  pose proof ur as Hu. destruct e_rng as (_ & _ & _ & D0). destruct (ent_near m r d D) as ((A & _ & _) & (_ & B & _) & (_ & _ & C)). destruct (rot_ent r Q) as ((A1 & _ & _) & (_ & B1 & _) & (_ & _ & C1)).
  unfold fl_cosm, cosm, trace3. ab A. ab B. ab C. ab A1. ab B1. ab C1.
  pose proof (rnd_to (vx (r0 m) + vy (r1 m)) (vx (r0 r) + vy (r1 r)) (2 * d) (21 / 10) ltac:(apply Rabs_le_between; lra) ltac:(apply Rabs_le_between; lra)) as E1.
  set (x1 := rnd (vx (r0 m) + vy (r1 m))) in *. ab E1.
  pose proof (rnd_to (x1 + vz (r2 m)) (vx (r0 r) + vy (r1 r) + vz (r2 r)) (3 * d + u * (21 / 10)) (31 / 10) ltac:(apply Rabs_le_between; lra) ltac:(apply Rabs_le_between; lra)) as E2.
  set (x2 := rnd (x1 + vz (r2 m))) in *. ab E2.
  pose proof (rnd_to (x2 - 1) (vx (r0 r) + vy (r1 r) + vz (r2 r) - 1) (3 * d + u * (21 / 10) + u * (31 / 10)) (42 / 10) ltac:(apply Rabs_le_between; lra) ltac:(apply Rabs_le_between; lra)) as E3.
  set (x3 := rnd (x2 - 1)) in *. ab E3.
  pose proof (rnd_to (x3 * (1 / 2)) ((vx (r0 r) + vy (r1 r) + vz (r2 r) - 1) / 2) ((3 * d + u * (21 / 10) + u * (31 / 10) + u * (42 / 10)) / 2) (22 / 10) ltac:(apply Rabs_le_between; lra) ltac:(apply Rabs_le_between; lra)) as E4.
  unfold e. lra.
Qed.
Lemma anti_near : len3 (sub3 (fl_anti rnd m) (anti r)) <= e.
Proof.
  pose proof ur as Hu. destruct e_rng as (_ & _ & _ & D0). destruct (ent_near m r d D) as ((_ & A2 & A3) & (B1 & _ & B3) & (C1 & C2 & _)). destruct (rot_ent r Q) as ((_ & a2 & a3) & (b1 & _ & b3) & (c1 & c2 & _)).
  ab A2. ab A3. ab B1. ab B3. ab C1. ab C2. ab a2. ab a3. ab b1. ab b3. ab c1. ab c2.
  assert (K : forall x y, Rabs (x - y) <= 2 * d -> Rabs x <= 21 / 10 -> Rabs (rnd (rnd x / 2) - y / 2) <= d + 23 / 10 * u).
  { intros x y H1 H2. pose proof (half_to x y (2 * d) (21 / 10) H1 H2 ltac:(lra)). lra. }
  eapply Rle_trans; [apply (len3_max _ (d + 23 / 10 * u))|unfold e; lra]; unfold fl_anti, anti, sub3; cbn [vx vy vz]; apply K; apply Rabs_le_between; lra.
Qed.
(** the parameters of the exact rotation *)
Variables (a : V3) (t : R).
Hypothesis A : dot3 a a = 1.
Hypothesis T : 0 <= t <= PI.
Hypothesis M : rot_matrix a t = r.
Lemma cn : Rabs (fl_cosm rnd m - cos t) <= e.
Proof. rewrite <- (cosm_rot a t A), M. exact cosm_near. Qed.
Lemma an : len3 (sub3 (fl_anti rnd m) (scale3 (sin t) a)) <= e.
Proof. rewrite <- (anti_rot a t), M. exact anti_near. Qed.
Lemma sin_t : 0 <= sin t.
Proof. apply sin_ge_0; lra. Qed.
Lemma len_sa : len3 (scale3 (sin t) a) = sin t.
Proof. rewrite len3_sc, (unit_len a A), Rabs_right by (pose proof sin_t; lra). ring. Qed.
Lemma n_near : Rabs (len3 (fl_anti rnd m) - sin t) <= e.
Proof.
  pose proof an as H. pose proof (len3_near (fl_anti rnd m) (scale3 (sin t) a)) as H1. pose proof (len3_near (scale3 (sin t) a) (fl_anti rnd m)) as H2. rewrite (len3_sub_sym (scale3 (sin t) a)) in H2. rewrite len_sa in H1, H2.
  apply Rabs_le_between. lra.
Qed.
Lemma s_val : exists k, Rabs (k - 1) <= 31 / 10 * u /\ Rabs (/ k - 1) <= 31 / 10 * u /\ 0 < k /\ rnd (sqrt (fl_dot3 rnd (fl_anti rnd m) (fl_anti rnd m))) = len3 (fl_anti rnd m) * k.
Proof.
  pose proof ur as Hu. destruct (fl_len u rnd RN U' (fl_anti rnd m)) as (k & F & E). exists k. pose proof (fac_pos u 3 k Hu F) as P. pose proof (bwd_num u rnd RN U' 3 ltac:(lia)) as B. replace (INR 3) with 3 in B by (cbn; lra).
  pose proof (fac_err u 3 k Hu F). pose proof (fac_err u 3 _ Hu (fac_inv u 3 k Hu F)). repeat split; lra.
Qed.
Lemma sin_small c0 : 68 / 100 <= c0 -> c0 <= Rabs (cos t) -> sin t <= 7333 / 10000.
Proof. intros H1 H2. pose proof sin_t. pose proof (sin2_cos2 t) as S2. unfold Rsqr in S2. assert (68 / 100 * (68 / 100) <= cos t * cos t) by (destruct (Rcase_abs (cos t)); [rewrite Rabs_left in H2 by lra|rewrite Rabs_right in H2 by lra]; nra). apply sq_le; [lra|nra]. Qed.

(** final multiplication by a scalar *)
Lemma scale_last k v : len3 (sub3 (fl_scale3 rnd k v) (scale3 k v)) <= u * (Rabs k * len3 v).
Proof.
  pose proof ur as Hu. rewrite <- len3_sc. replace (u * len3 (scale3 k v)) with (len3 (scale3 u (scale3 k v))) by (rewrite len3_sc, (Rabs_right u) by lra; reflexivity).
  apply len3_comp; unfold fl_scale3, scale3, sub3; cbn [vx vy vz]; rewrite (Rabs_mult u), (Rabs_right u) by lra; apply (rnd_err u rnd RN).
Qed.
Notation V := (fl_anti rnd m).
Notation Sa := (rnd (sqrt (fl_dot3 rnd (fl_anti rnd m) (fl_anti rnd m)))).
Lemma quot g : V <> zero3 -> exists l, (k <- @div R (FlOps rnd) g Sa ;; Ok (fl_scale3 rnd k V)) = Ok l /\ len3 (sub3 l (scale3 g (direction V))) <= 53 / 10 * u * Rabs g.
Proof.
  intros Vn. pose proof ur as Hu. destruct s_val as (k & K1 & K2 & K0 & ->). pose proof (len3_pos V Vn) as N. set (n := len3 V) in *.
  rewrite (fl_div_ok rnd g (n * k)) by nra. cbn [bind]. eexists. split; [reflexivity|]. set (K := rnd (g / (n * k))).
  pose proof (rnd_err u rnd RN (g / (n * k))) as E. fold K in E.
  assert (E1 : Rabs (K * n - g) <= 42 / 10 * u * Rabs g).
  { replace (K * n - g) with ((K - g / (n * k)) * n + g * (/ k - 1)) by (field; lra). eapply Rle_trans; [apply Rabs_triang|]. rewrite !Rabs_mult, (Rabs_right n) by lra.
    assert (Q1 : Rabs (g / (n * k)) * n = Rabs g * / k). { rewrite <- (Rabs_right n) at 2 by lra. rewrite <- Rabs_mult. replace (g / (n * k) * n) with (g * / k) by (field; lra). rewrite Rabs_mult, (Rabs_right (/ k)); [reflexivity|]. left. apply Rinv_0_lt_compat. exact K0. }
    assert (Rabs (K - g / (n * k)) * n <= u * Rabs (g / (n * k)) * n) by (apply Rmult_le_compat_r; [lra|exact E]).
    rewrite Rmult_assoc, Q1 in H. pose proof (Rabs_pos g). assert (Rabs g * Rabs (/ k - 1) <= Rabs g * (31 / 10 * u)) by (apply Rmult_le_compat_l; lra).
    assert (/ k <= 1 + 31 / 10 * u) by (apply Rabs_le_between in K2; lra). assert (u * (Rabs g * / k) <= u * (Rabs g * (1 + 31 / 10 * u))) by (apply Rmult_le_compat_l; [lra|apply Rmult_le_compat_l; lra]).
    assert (0 <= u * Rabs g) by (apply Rmult_le_pos; lra). assert (u * Rabs g * (31 / 10 * u) <= u * Rabs g * (1 / 10)) by (apply Rmult_le_compat_l; lra). lra. }
  pose proof (scale_last K V) as L. fold n in L. eapply Rle_trans; [apply (len3_tri _ (scale3 K V))|].
  replace (sub3 (scale3 K V) (scale3 g (direction V))) with (scale3 (K * n - g) (direction V)).
  - rewrite len3_sc, (direction_len V Vn), Rmult_1_r. pose proof (Rabs_pos g). assert (Rabs K * n <= 11 / 10 * Rabs g).
    { rewrite <- (Rabs_right n) at 1 by lra. rewrite <- Rabs_mult. replace (K * n) with (g + (K * n - g)) by ring. eapply Rle_trans; [apply Rabs_triang|]. assert (u * Rabs g <= 1 / 6800 * Rabs g) by (apply Rmult_le_compat_r; lra). lra. }
    assert (u * (Rabs K * n) <= u * (11 / 10 * Rabs g)) by (apply Rmult_le_compat_l; lra). lra.
  - unfold direction. fold n. clear - N. unfold scale3, sub3. cbn [vx vy vz]. f_equal; field; lra.
Qed.
Lemma stretch_asin : V <> zero3 -> len3 V <= 4 / 5 -> sin t <= 4 / 5 -> len3 (sub3 (scale3 (asin (len3 V)) (direction V)) (scale3 (asin (sin t)) a)) <= 5 * e.
Proof.
  intros Vn N1 N2. pose proof (len3_pos V Vn) as N. pose proof sin_t as S0. pose proof an as AN. pose proof n_near as NN. set (n := len3 V) in *. set (g := asin n / n).
  pose proof (asin_lip n (sin t) ltac:(lra) ltac:(lra)) as L1. pose proof (asin_lip n 0 ltac:(lra) ltac:(lra)) as L0. rewrite asin_0, !Rminus_0_r, (Rabs_right n) in L0 by lra.
  assert (G : Rabs g <= 5 / 3). { unfold g, Rdiv. rewrite Rabs_mult, (Rabs_right (/ n)) by (left; apply Rinv_0_lt_compat; exact N). apply (Rmult_le_reg_r n); [exact N|]. rewrite Rmult_assoc, Rinv_l, Rmult_1_r by lra. lra. }
  replace (sub3 (scale3 (asin n) (direction V)) (scale3 (asin (sin t)) a)) with (add3 (scale3 g (sub3 V (scale3 (sin t) a))) (scale3 (g * sin t - asin (sin t)) a))
    by (unfold g, direction; fold n; clear - N; unfold add3, scale3, sub3; cbn [vx vy vz]; f_equal; field; lra).
  eapply Rle_trans; [apply len3_add|]. rewrite !len3_sc, (unit_len a A), Rmult_1_r.
  assert (Rabs g * len3 (sub3 V (scale3 (sin t) a)) <= 5 / 3 * e) by (apply Rmult_le_compat; [apply Rabs_pos|apply len3_nonneg|exact G|exact AN]).
  assert (Rabs (g * sin t - asin (sin t)) <= 10 / 3 * e); [|lra].
  replace (g * sin t - asin (sin t)) with (- (g * (n - sin t)) + (asin n - asin (sin t))) by (unfold g; field; lra). eapply Rle_trans; [apply Rabs_triang|]. rewrite Rabs_Ropp, Rabs_mult.
  assert (Rabs g * Rabs (n - sin t) <= 5 / 3 * e) by (apply Rmult_le_compat; [apply Rabs_pos|apply Rabs_pos|exact G|exact NN]). lra.
Qed.
Variables (fasin facos : R -> R) (s thr pi : R).
Hypothesis IT : inverse_trig s fasin facos.
Hypothesis KO : constants s thr pi.
Hypothesis S1 : s <= 1 / 1000.
Lemma s_pos : 0 <= s.
Proof. destruct KO as [_ H]. pose proof (Rabs_pos (pi - PI)). lra. Qed.
Lemma asin_le x : 0 <= x <= 3 / 4 -> 0 <= asin x <= 5 / 4.
Proof.
  intros H. pose proof (asin_bound x) as B. split.
  - destruct (Rle_lt_dec 0 (asin x)) as [P|P]; [exact P|]. pose proof (sin_lt_0_var (asin x) ltac:(pose proof PI_RGT_0; lra) P) as N. rewrite sin_asin in N by lra. lra.
  - pose proof (asin_lip x 0 ltac:(lra) ltac:(lra)) as L. rewrite asin_0, !Rminus_0_r, (Rabs_right x) in L by lra. apply Rabs_le_between in L. lra.
Qed.
Lemma s_rng : sin t <= 7333 / 10000 -> 0 <= Sa <= 3 / 4 /\ len3 V <= 3 / 4 /\ Rabs (Sa - len3 V) <= 24 / 10 * u /\ Rabs (fasin Sa - asin (len3 V)) <= s + 4 * u.
Proof.
  intros H. pose proof ur as Hu. destruct e_rng as ((E0 & E1) & _). pose proof n_near as NN. apply Rabs_le_between in NN. pose proof (len3_nonneg V) as N0. destruct s_val as (k & K1 & _ & K0 & ->). set (n := len3 V) in *.
  assert (X : Rabs (n * k - n) <= 24 / 10 * u). { replace (n * k - n) with (n * (k - 1)) by ring. rewrite Rabs_mult, (Rabs_right n) by lra. assert (n * Rabs (k - 1) <= 74 / 100 * (31 / 10 * u)) by (apply Rmult_le_compat; try lra; apply Rabs_pos). lra. }
  pose proof X as X'. apply Rabs_le_between in X'. assert (0 <= n * k) by nra. split; [lra|]. split; [lra|]. split; [exact X|].
  pose proof (proj1 IT (n * k) ltac:(lra)) as F. pose proof (asin_lip (n * k) n ltac:(lra) ltac:(lra)) as L. replace (fasin (n * k) - asin n) with ((fasin (n * k) - asin (n * k)) + (asin (n * k) - asin n)) by ring.
  eapply Rle_trans; [apply Rabs_triang|]. lra.
Qed.
Lemma branch1 : thr < fl_cosm rnd m -> exists l, (if R_ltb 0 Sa then k <- @div R (FlOps rnd) (fasin Sa) Sa ;; Ok (fl_scale3 rnd k V) else Ok V) = Ok l /\ len3 (sub3 l (scale3 t a)) <= 5 * e + 11 * u + s.
Proof.
  intros H. pose proof ur as Hu. pose proof s_pos as Sp. destruct e_rng as ((E0 & E1) & _). destruct KO as [[T1 T2] _]. pose proof cn as C. apply Rabs_le_between in C.
  assert (Ct : 68 / 100 <= cos t) by lra. pose proof (sin_small (68 / 100) ltac:(lra) ltac:(rewrite Rabs_right by lra; lra)) as St. destruct (s_rng St) as (R1 & R2 & R3 & R4). pose proof sin_t as S0.
  assert (Tt : t = asin (sin t)). { assert (t <= PI / 2). { destruct (Rle_lt_dec t (PI / 2)) as [P|P]; [exact P|]. pose proof (cos_lt_0 t P ltac:(pose proof PI_RGT_0; lra)). lra. } symmetry. apply asin_sin. pose proof PI_RGT_0. lra. }
  pose proof n_near as NN. apply Rabs_le_between in NN. destruct (R_ltb 0 Sa) eqn:Z.
  - apply R_ltb_spec in Z. assert (Vn : V <> zero3). { intros Ev. destruct s_val as (k & _ & _ & _ & Es). rewrite Es, Ev, len3_0 in Z. lra. }
    destruct (quot (fasin Sa) Vn) as (l & -> & L). exists l. split; [reflexivity|]. pose proof (stretch_asin Vn ltac:(lra) ltac:(lra)) as P. rewrite <- Tt in P.
    pose proof (asin_le (len3 V) ltac:(pose proof (len3_nonneg V); lra)) as AL. assert (G : Rabs (fasin Sa) <= 13 / 10) by (apply Rabs_le_between in R4; apply Rabs_le_between; lra).
    assert (u * Rabs (fasin Sa) <= u * (13 / 10)) by (apply Rmult_le_compat_l; lra).
    pose proof (len3_tri l (scale3 (fasin Sa) (direction V)) (scale3 t a)) as T3. pose proof (len3_tri (scale3 (fasin Sa) (direction V)) (scale3 (asin (len3 V)) (direction V)) (scale3 t a)) as T4.
    rewrite sc_sub in T4.
    rewrite len3_sc, (direction_len V Vn), Rmult_1_r in T4. lra.
  - apply R_ltb_false in Z. assert (N0 : len3 V = 0). { destruct s_val as (k & _ & _ & K0 & Es). pose proof (len3_nonneg V). rewrite Es in Z. nra. }
    exists V. split; [reflexivity|]. apply len3_eq0 in N0. clear R1 R2 R3 R4 Z. rewrite N0, len3_0 in NN. rewrite N0. rewrite z_sub.
    rewrite len3_sc, (unit_len a A), Rmult_1_r, Rabs_Ropp. pose proof (asin_lip (sin t) 0 ltac:(lra) ltac:(lra)) as L. rewrite asin_0, <- Tt, !Rminus_0_r, (Rabs_right (sin t)) in L by lra. lra.
Qed.
Lemma branch2 : - thr < fl_cosm rnd m <= thr -> exists l, (k <- @div R (FlOps rnd) (facos (fl_cosm rnd m)) Sa ;; Ok (fl_scale3 rnd k V)) = Ok l /\ len3 (sub3 l (scale3 t a)) <= 12 * e + 18 * u + s.
Proof.
  intros H. pose proof ur as Hu. pose proof s_pos as Sp. destruct e_rng as ((E0 & E1) & _). destruct KO as [[T1 T2] _]. pose proof cn as C. pose proof C as C'. apply Rabs_le_between in C'. set (c := fl_cosm rnd m) in *.
  assert (St : 68 / 100 <= sin t). { pose proof sin_t as S0. pose proof (sin2_cos2 t) as S2. unfold Rsqr in S2. apply sq_le; [exact S0|]. assert (cos t * cos t <= 73 / 100 * (73 / 100)) by nra. nra. }
  assert (Sa0 : scale3 (sin t) a <> zero3). { intros Z. pose proof len_sa as L. rewrite Z, len3_0 in L. lra. }
  pose proof an as AN. assert (AN' : len3 (sub3 V (scale3 (sin t) a)) <= 3 / 2 * e * len3 (scale3 (sin t) a)) by (rewrite len_sa; nra).
  pose proof (near_nz V _ _ AN' ltac:(lra) Sa0) as Vn. pose proof (direction_near V _ _ Sa0 Vn AN') as DN.
  assert (Da : direction (scale3 (sin t) a) = a). { unfold direction. rewrite len_sa, scale3_comm. replace (1 / sin t * sin t) with 1 by (field; lra). apply scale3_1. } rewrite Da in DN.
  destruct (quot (facos c) Vn) as (l & -> & L). exists l. split; [reflexivity|].
  pose proof (proj2 IT c ltac:(lra)) as F. pose proof (acos_lip c (cos t) ltac:(lra) ltac:(lra)) as AL. rewrite (acos_cos t T) in AL. pose proof PI_4 as P4.
  assert (G : Rabs (facos c - t) <= s + 20 / 13 * e). { replace (facos c - t) with ((facos c - acos c) + (acos c - t)) by ring. eapply Rle_trans; [apply Rabs_triang|]. lra. }
  assert (Tm : t <= 32 / 10). { destruct (Rle_lt_dec t (32 / 10)) as [P|P]; [exact P|exfalso]. pose proof (acos_lip 0 (cos t) ltac:(lra) ltac:(lra)) as Q0. rewrite (acos_cos t T), acos_0 in Q0.
    assert (Rabs (0 - cos t) <= 73 / 100) by (apply Rabs_le_between; lra). apply Rabs_le_between in Q0. lra. }
  assert (Rabs (facos c) <= 33 / 10) by (apply Rabs_le_between in G; apply Rabs_le_between; lra). assert (u * Rabs (facos c) <= u * (33 / 10)) by (apply Rmult_le_compat_l; lra).
  pose proof (len3_tri l (scale3 (facos c) (direction V)) (scale3 t a)) as T3. pose proof (len3_tri (scale3 (facos c) (direction V)) (scale3 t (direction V)) (scale3 t a)) as T4.
  rewrite sc_sub, sc_sub_v in T4.
  rewrite !len3_sc, (direction_len V Vn), Rmult_1_r, (Rabs_right t) in T4 by lra. assert (t * len3 (sub3 (direction V) a) <= 32 / 10 * (2 * (3 / 2 * e))) by (apply Rmult_le_compat; try lra; apply len3_nonneg). lra.
Qed.
End R.
End S.
