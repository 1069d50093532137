(** * Error of SO3::ln: angles near half a turn, and the whole function. *)
From Coq Require Import Reals Lra Lia Psatz Bool.
From Verif Require Import Base Alg Inst ModelLie SpecLie LemLie LemSO3 LemSO3c ModelFl ModelFlSO3 SpecFl LemFl SpecFlSO3 LemFro LemFlSO3 LemFlSO3b LemFlSO3d LemFlSE3 LemFlChol ModelFlLn SpecFlLn LemFlLn LemFlLn2.
Open Scope outcome_scope.
Local Open Scope R_scope.

Lemma diag_rot a t : dot3 a a = 1 -> vx (r0 (rot_matrix a t)) - cos t = (1 - cos t) * (vx a * vx a) /\ vy (r1 (rot_matrix a t)) - cos t = (1 - cos t) * (vy a * vy a) /\ vz (r2 (rot_matrix a t)) - cos t = (1 - cos t) * (vz a * vz a).
Proof. intros _. unfold rot_matrix. dv. lie_unfold. repeat split; ring. Qed.
Lemma off_rot a t : let r := rot_matrix a t in (vx (r1 r) + vy (r0 r)) / 2 = (1 - cos t) * (vx a * vy a) /\ (vz (r0 r) + vx (r2 r)) / 2 = (1 - cos t) * (vx a * vz a) /\ (vy (r2 r) + vz (r1 r)) / 2 = (1 - cos t) * (vy a * vz a).
Proof. cbv zeta. unfold rot_matrix. dv. lie_unfold. repeat split; field. Qed.
Lemma sq_comp a : dot3 a a = 1 -> vx a * vx a + vy a * vy a + vz a * vz a = 1.
Proof. intros H. rewrite <- H. unfold dot3. ring. Qed.

Lemma dot_sc3 n g s v : dot3 (scale3 n (scale3 g v)) (scale3 s v) = g * (n * s) * dot3 v v.
Proof. dv. lie_unfold. ring. Qed.

Section S.
Variables (u : R) (rnd : R -> R).
Hypothesis RN : rounding u rnd.
Hypothesis U : u <= 1 / 6800.
Notation ur := (u_rng u rnd RN).
(** comparing rounded squares *)
Lemma cmp x y : rnd (x * x) <= rnd (y * y) -> Rabs y <= 21 / 10 -> Rabs x <= Rabs y + 1 / 1000.
Proof.
  intros H Y. pose proof ur as Hu. pose proof (rnd_err u rnd RN (x * x)) as X1. pose proof (rnd_err u rnd RN (y * y)) as Y1.
  rewrite (Rabs_right (x * x)) in X1 by nra. rewrite (Rabs_right (y * y)) in Y1 by nra. apply Rabs_le_between in X1, Y1.
  assert (Ex : x * x = Rabs x * Rabs x) by (rewrite <- Rabs_mult, Rabs_right by nra; ring). assert (Ey : y * y = Rabs y * Rabs y) by (rewrite <- Rabs_mult, Rabs_right by nra; ring).
  pose proof (Rabs_pos x) as Px. pose proof (Rabs_pos y) as Py.
  assert (K : (1 - u) * (x * x) <= (1 + u) * (y * y)) by lra. rewrite Ex, Ey in K. set (p := Rabs x) in *. set (q := Rabs y) in *. clearbody p q.
  clear - Hu U Y Px Py K. assert (p * p * (6799 / 6800) <= p * p * (1 - u)) by (apply Rmult_le_compat_l; nra). assert (q * q * (1 + u) <= q * q * (6801 / 6800)) by (apply Rmult_le_compat_l; nra).
  assert (Q2 : p * p <= q * q * (6801 / 6799)) by lra.
  assert (p <= q * (6801 / 6799)). { apply sq_le; nra. } lra.
Qed.
Section R.
Variables (m r : M3) (d : R).
Hypothesis Q : rotation r.
Hypothesis D : dist m r <= d.
Hypothesis D1 : d <= 1 / 1000.
Variables (a : V3) (t : R).
Hypothesis A : dot3 a a = 1.
Hypothesis T : 0 <= t <= PI.
Hypothesis M : rot_matrix a t = r.
Notation E := (e u d).
Notation C' := (fl_cosm rnd m).
Lemma erng : 0 <= E <= 1 / 200 /\ u <= E / 8 /\ d <= E / 2 /\ 0 <= d.
Proof. exact (e_rng u rnd RN U m r d D D1). Qed.
Lemma cnear : Rabs (C' - cos t) <= E.
Proof. exact (cn u rnd RN U m r d Q D D1 a t A M). Qed.
Lemma d_near x y c : Rabs (x - y) <= d -> Rabs y <= 1 -> Rabs (c - cos t) <= E -> Rabs (rnd (x - c) - (y - cos t)) <= 2 * E.
Proof.
  intros H Y Hc. pose proof ur as Hu. destruct erng as ((E0 & E1) & E2 & E3 & _). pose proof (COS_bound t) as CB. apply Rabs_le_between in H, Y, Hc.
  pose proof (rnd_to u rnd RN (x - c) (y - cos t) (d + E) (21 / 10) ltac:(apply Rabs_le_between; lra) ltac:(apply Rabs_le_between; lra)) as K. lra.
Qed.
Lemma h_near x y x' y' : Rabs (x - x') <= d -> Rabs (y - y') <= d -> Rabs x' <= 1 -> Rabs y' <= 1 -> Rabs (rnd (rnd (x + y) / 2) - (x' + y') / 2) <= 2 * E.
Proof.
  intros H H' X Y. pose proof ur as Hu. destruct erng as ((E0 & E1) & E2 & E3 & _). apply Rabs_le_between in H, H', X, Y.
  pose proof (half_to u rnd RN U (x + y) (x' + y') (2 * d) (21 / 10) ltac:(apply Rabs_le_between; lra) ltac:(apply Rabs_le_between; lra) ltac:(lra)) as K. lra.
Qed.
Lemma col_near : cos t <= - (68 / 100) -> exists k, Rabs k <= 1 /\ 53 / 100 <= (1 - cos t) * (k * k) /\ len3 (sub3 (fl_column rnd m C') (scale3 ((1 - cos t) * k) a)) <= 4 * E.
Proof.
  intros Ct. pose proof ur as Hu. destruct erng as ((E0 & E1) & E2 & E3 & _). pose proof cnear as CN. pose proof (COS_bound t) as CB.
  destruct (ent_near m r d D) as ((A1 & A2 & A3) & (B1 & B2 & B3) & (C1 & C2 & C3)). destruct (rot_ent r Q) as ((a1 & a2 & a3) & (b1 & b2 & b3) & (c1 & c2 & c3)).
  pose proof (d_near _ _ C' A1 a1 CN) as D0. pose proof (d_near _ _ C' B2 b2 CN) as D2. pose proof (d_near _ _ C' C3 c3 CN) as D3.
  pose proof (h_near _ _ _ _ B1 A2 b1 a2) as H01. pose proof (h_near _ _ _ _ A3 C1 a3 c1) as H02. pose proof (h_near _ _ _ _ C2 B3 c2 b3) as H12.
  clear A1 A2 A3 B1 B2 B3 C1 C2 C3 a1 a2 a3 b1 b2 b3 c1 c2 c3. rewrite <- M in D0, D2, D3, H01, H02, H12.
  destruct (diag_rot a t A) as (F0 & F1 & F2). destruct (off_rot a t) as (G0 & G1 & G2). rewrite F0 in D0. rewrite F1 in D2. rewrite F2 in D3. rewrite G0 in H01. rewrite G1 in H02. rewrite G2 in H12. clear F0 F1 F2 G0 G1 G2.
  unfold fl_column. set (x0 := rnd (vx (r0 m) - C')) in *. set (x1 := rnd (vy (r1 m) - C')) in *. set (x2 := rnd (vz (r2 m) - C')) in *.
  set (h01 := rnd (rnd (vx (r1 m) + vy (r0 m)) / 2)) in *. set (h02 := rnd (rnd (vz (r0 m) + vx (r2 m)) / 2)) in *. set (h12 := rnd (rnd (vy (r2 m) + vz (r1 m)) / 2)) in *. clearbody x0 x1 x2 h01 h02 h12.
  pose proof (sq_comp a A) as SQ. destruct (comp_len a) as (L0 & L1 & L2). rewrite (unit_len a A) in L0, L1, L2.
  set (p := 1 - cos t) in *. assert (P : 168 / 100 <= p <= 2) by (unfold p; lra).
  assert (N0 : 0 <= p * (vx a * vx a) <= 2) by (clear - P SQ; assert (0 <= vx a * vx a <= 1) by nra; nra). assert (N1 : 0 <= p * (vy a * vy a) <= 2) by (clear - P SQ; assert (0 <= vy a * vy a <= 1) by nra; nra). assert (N2 : 0 <= p * (vz a * vz a) <= 2) by (clear - P SQ; assert (0 <= vz a * vz a <= 1) by nra; nra).
  assert (Sm : p * (vx a * vx a) + p * (vy a * vy a) + p * (vz a * vz a) = p) by (transitivity (p * (vx a * vx a + vy a * vy a + vz a * vz a)); [ring|rewrite SQ; ring]).
  assert (B0 : Rabs (Rabs x0 - p * (vx a * vx a)) <= 2 * E). { rewrite <- (Rabs_right (p * (vx a * vx a))) by lra. eapply Rle_trans; [apply Rabs_triang_inv2|exact D0]. }
  assert (B1 : Rabs (Rabs x1 - p * (vy a * vy a)) <= 2 * E). { rewrite <- (Rabs_right (p * (vy a * vy a))) by lra. eapply Rle_trans; [apply Rabs_triang_inv2|exact D2]. }
  assert (B2 : Rabs (Rabs x2 - p * (vz a * vz a)) <= 2 * E). { rewrite <- (Rabs_right (p * (vz a * vz a))) by lra. eapply Rle_trans; [apply Rabs_triang_inv2|exact D3]. }
  apply Rabs_le_between in B0, B1, B2.
  assert (K : forall v w, len3 (sub3 v w) <= 4 * E <-> len3 (sub3 v w) <= 2 * (2 * E)) by (intros; lra).
  destruct (R_ltb (rnd (x1 * x1)) (rnd (x0 * x0)) && R_ltb (rnd (x2 * x2)) (rnd (x0 * x0))) eqn:Z.
  - apply andb_true_iff in Z. destruct Z as [Z1 Z2]. apply R_ltb_spec in Z1, Z2. pose proof (cmp x1 x0 ltac:(lra) ltac:(lra)) as W1. pose proof (cmp x2 x0 ltac:(lra) ltac:(lra)) as W2.
    exists (vx a). split; [exact L0|]. split; [lra|]. apply K. apply len3_max; unfold sub3, scale3; cbn [vx vy vz]; rewrite Rmult_assoc; assumption.
  - apply andb_false_iff in Z. assert (Zo : Rabs x0 <= Rabs x1 + 1 / 1000 \/ Rabs x0 <= Rabs x2 + 1 / 1000) by (destruct Z as [Z|Z]; apply R_ltb_false in Z; [left|right]; apply cmp; lra).
    destruct (R_ltb (rnd (x2 * x2)) (rnd (x1 * x1))) eqn:Y.
    + apply R_ltb_spec in Y. pose proof (cmp x2 x1 ltac:(lra) ltac:(lra)) as W. exists (vy a). split; [exact L1|]. split; [destruct Zo; lra|].
      apply K. apply len3_max; unfold sub3, scale3; cbn [vx vy vz]; rewrite Rmult_assoc; [rewrite (Rmult_comm (vy a) (vx a))| |]; assumption.
    + apply R_ltb_false in Y. pose proof (cmp x1 x2 ltac:(lra) ltac:(lra)) as W. exists (vz a). split; [exact L2|]. split; [destruct Zo; lra|].
      apply K. apply len3_max; unfold sub3, scale3; cbn [vx vy vz]; rewrite Rmult_assoc; [rewrite (Rmult_comm (vz a) (vx a))|rewrite (Rmult_comm (vz a) (vy a))|]; assumption.
Qed.
Variables (fasin facos : R -> R) (s thr pi : R).
Hypothesis IT : inverse_trig s fasin facos.
Hypothesis KO : constants s thr pi.
Hypothesis S1 : s <= 1 / 1000.
Notation V := (fl_anti rnd m).
Notation Sa := (rnd (sqrt (fl_dot3 rnd (fl_anti rnd m) (fl_anti rnd m)))).
Definition bound : R := 60 * E + 2 * s.
Definition close (l : V3) : Prop := len3 (sub3 l (scale3 t a)) <= bound \/ (len3 (sub3 l (scale3 (- t) a)) <= bound /\ PI - t <= bound).
Lemma angle_near : cos t <= - (68 / 100) -> sin t <= 7333 / 10000 /\ PI - t = asin (sin t) /\ Rabs (rnd (pi - fasin Sa) - t) <= 3 * E + 2 * s /\ len3 V <= 3 / 4.
Proof.
  intros Ct. pose proof ur as Hu. destruct erng as ((E0 & E1) & E2 & E3 & _). pose proof (sin_small t T (68 / 100) ltac:(lra) ltac:(rewrite Rabs_left by lra; lra)) as St. pose proof (sin_t t T) as S0.
  destruct (s_rng u rnd RN U m r d Q D D1 a t A T M fasin facos s IT St) as (R1 & R2 & R3 & R4). pose proof PI_4 as P4. pose proof PI_RGT_0 as P0. pose proof (s_pos s thr pi KO) as Sp. destruct KO as [_ PIe].
  assert (Tt : PI - t = asin (sin t)). { assert (PI / 2 <= t). { destruct (Rle_lt_dec (PI / 2) t) as [P|P]; [exact P|]. pose proof (cos_gt_0 t ltac:(lra) P). lra. } replace (sin t) with (sin (PI - t)) by (rewrite sin_minus, sin_PI, cos_PI; ring). symmetry. apply asin_sin. lra. }
  split; [exact St|]. split; [exact Tt|]. split; [|exact R2].
  pose proof (n_near u rnd RN U m r d Q D D1 a t A T M) as NN. pose proof (len3_nonneg V) as N0.
  pose proof (asin_lip (len3 V) (sin t) ltac:(lra) ltac:(lra)) as L. apply Rabs_le_between in R4, L, PIe.
  assert (X : Rabs (pi - fasin Sa - t) <= 2 * s + 4 * u + 5 / 3 * E) by (apply Rabs_le_between; lra).
  pose proof (rnd_to u rnd RN (pi - fasin Sa) t _ (41 / 10) X ltac:(apply Rabs_le_between in X; apply Rabs_le_between; lra)) as Y. lra.
Qed.
Lemma branch3 : C' <= - thr -> exists l,
  (let angle := rnd (pi - fasin Sa) in let q := fl_column rnd m C' in let q := if R_ltb (fl_dot3 rnd q V) 0 then fl_scale3 rnd (-1) q else q in q <- fl_unit3 rnd q ;; Ok (fl_scale3 rnd angle q)) = Ok l /\ close l.
Proof.
  intros H. pose proof ur as Hu. destruct erng as ((E0 & E1) & E2 & E3 & _). pose proof cnear as CN. apply Rabs_le_between in CN. pose proof (s_pos s thr pi KO) as Sp. pose proof (proj1 KO) as [T1 T2].
  assert (Ct : cos t <= - (68 / 100)) by lra. destruct (angle_near Ct) as (St & Tt & AG & NV). pose proof (sin_t t T) as S0. destruct (col_near Ct) as (k & K1 & K2 & QN). pose proof (COS_bound t) as CB.
  pose proof (an u rnd RN U m r d Q D D1 a t M) as AN. cbv zeta. set (q := fl_column rnd m C') in *. set (angle := rnd (pi - fasin Sa)) in *. clearbody q angle. set (p := 1 - cos t) in *. assert (P : 168 / 100 <= p <= 2) by (unfold p; lra).
  set (y := scale3 (p * k) a) in *. assert (Ly : len3 y = p * Rabs k) by (unfold y; rewrite len3_sc, (unit_len a A), Rabs_mult, (Rabs_right p) by lra; ring).
  assert (Kk : k * k = Rabs k * Rabs k) by (rewrite <- Rabs_mult, Rabs_right by nra; ring). pose proof (Rabs_pos k) as K0.
  assert (Ka : 1 / 2 <= Rabs k) by (apply sq_le; [exact K0|]; rewrite <- Kk; assert (p * (k * k) <= 2 * (k * k)) by (apply Rmult_le_compat_r; nra); lra).
  assert (Ly2 : 84 / 100 <= len3 y <= 2) by (rewrite Ly; assert (168 / 100 * (1 / 2) <= p * Rabs k <= 2 * 1) by (split; apply Rmult_le_compat; lra); lra).
  assert (Ys : exists g, (g = 1 \/ g = -1) /\ y = scale3 (len3 y) (scale3 g a)).
  { rewrite Ly. unfold y. destruct (Rcase_abs k) as [N|N].
    - exists (-1). split; [right; reflexivity|]. rewrite (Rabs_left k) by lra. rewrite scale3_comm. f_equal. ring.
    - exists 1. split; [left; reflexivity|]. rewrite (Rabs_right k) by lra. rewrite scale3_comm. f_equal. ring. }
  destruct Ys as (g & Hg & Ey). set (n := len3 y) in *.
  (* the computed dot product *)
  assert (Lq : len3 q <= 21 / 10) by (pose proof (len3_near q y) as LN; fold n in LN; lra).
  assert (Dd : Rabs (fl_dot3 rnd q V - g * (n * sin t)) <= 6 * E).
  { pose proof (fl_dot3_err' u rnd RN (U' u U) q V) as F. pose proof (dot_near3 y (scale3 (sin t) a) q V) as G. pose proof (len3_nonneg q). pose proof (len3_nonneg V). pose proof (len3_nonneg (sub3 q y)). pose proof (len3_nonneg (sub3 V (scale3 (sin t) a))).
    assert (Ed : dot3 y (scale3 (sin t) a) = g * (n * sin t)). { rewrite Ey. rewrite dot_sc3, A. ring. } rewrite Ed in G. fold n in G.
    assert (len3 q * len3 V <= 21 / 10 * (3 / 4)) by (apply Rmult_le_compat; lra). assert (301 / 100 * u * (len3 q * len3 V) <= 301 / 100 * u * (21 / 10 * (3 / 4))) by (apply Rmult_le_compat_l; lra).
    assert (len3 (sub3 q y) * len3 V <= 4 * E * (3 / 4)) by (apply Rmult_le_compat; lra). assert (n * len3 (sub3 V (scale3 (sin t) a)) <= 2 * E) by (apply Rmult_le_compat; lra).
    replace (fl_dot3 rnd q V - g * (n * sin t)) with ((fl_dot3 rnd q V - dot3 q V) + (dot3 q V - g * (n * sin t))) by ring. eapply Rle_trans; [apply Rabs_triang|]. lra. }
  set (f := R_ltb (fl_dot3 rnd q V) 0). set (g' := if f then - g else g). set (q' := if f then fl_scale3 rnd (-1) q else q).
  assert (G' : g' = 1 \/ (g' = -1 /\ sin t <= 8 * E)).
  { assert (W : n * sin t <= 6 * E -> sin t <= 8 * E) by (intros W; assert (84 / 100 * sin t <= n * sin t) by (apply Rmult_le_compat_r; lra); lra).
    unfold g'. destruct f eqn:Fq; unfold f in Fq; [apply R_ltb_spec in Fq|apply R_ltb_false in Fq]; destruct Hg as [-> | ->]; try (left; ring); right; (split; [ring|]); apply W; apply Rabs_le_between in Dd; lra. }
  assert (Q' : len3 (sub3 q' (scale3 n (scale3 g' a))) <= 5 * E).
  { unfold q', g'. destruct f; rewrite Ey in QN; [|lra]. eapply Rle_trans; [apply (len3_tri _ (scale3 (-1) q))|]. pose proof (scale_last u rnd RN (-1) q) as SL. rewrite (Rabs_left (-1)) in SL by lra.
    replace (scale3 n (scale3 (- g) a)) with (scale3 (-1) (scale3 n (scale3 g a))) by (rewrite !scale3_comm; f_equal; ring). rewrite sc_sub_v, len3_sc, (Rabs_left (-1)) by lra.
    assert (u * (- -1 * len3 q) <= u * (21 / 10)) by (apply Rmult_le_compat_l; lra). lra. }
  assert (G1 : Rabs g' = 1) by (destruct G' as [-> | [-> _]]; [rewrite Rabs_right by lra|rewrite Rabs_left by lra]; ring).
  assert (Ln : len3 (scale3 n (scale3 g' a)) = n) by (rewrite !len3_sc, G1, (unit_len a A), Rabs_right by lra; ring).
  assert (Nz : scale3 n (scale3 g' a) <> zero3) by (intros Z; rewrite Z, len3_0 in Ln; lra).
  assert (Dir : direction (scale3 n (scale3 g' a)) = scale3 g' a). { unfold direction. rewrite Ln, scale3_comm. replace (1 / n * n) with 1 by (field; lra). apply scale3_1. }
  destruct (fl_unit3_near u rnd RN (U' u U) q' _ (6 * E) Nz ltac:(rewrite Ln; assert (6 * E * (84 / 100) <= 6 * E * n) by (apply Rmult_le_compat_l; lra); lra) ltac:(lra)) as (w & -> & Wn). rewrite Dir in Wn. cbn [bind]. eexists. split; [reflexivity|].
  pose proof (scale_last u rnd RN angle w) as SL. pose proof PI_4 as P4.
  assert (Lw : len3 w <= 11 / 10) by (pose proof (len3_near w (scale3 g' a)) as LN; rewrite len3_sc, G1, (unit_len a A) in LN; lra).
  assert (Aa : Rabs angle <= 41 / 10) by (apply Rabs_le_between in AG; apply Rabs_le_between; lra).
  assert (X1 : u * (Rabs angle * len3 w) <= u * (46 / 10)) by (apply Rmult_le_compat_l; [lra|]; assert (Rabs angle * len3 w <= 41 / 10 * (11 / 10)) by (apply Rmult_le_compat; try lra; [apply Rabs_pos|apply len3_nonneg]); lra).
  assert (X2 : Rabs angle * len3 (sub3 w (scale3 g' a)) <= 41 / 10 * (13 * E)) by (apply Rmult_le_compat; try lra; [apply Rabs_pos|apply len3_nonneg]).
  assert (F : len3 (sub3 (fl_scale3 rnd angle w) (scale3 t (scale3 g' a))) <= bound).
  { eapply Rle_trans; [apply (len3_tri _ (scale3 angle w))|]. pose proof (len3_tri (scale3 angle w) (scale3 angle (scale3 g' a)) (scale3 t (scale3 g' a))) as T3. rewrite sc_sub_v, sc_sub, !len3_sc, G1, (unit_len a A) in T3. unfold bound. lra. }
  unfold close. destruct G' as [G' | [G' Sg]]; rewrite G' in F.
  - left. rewrite scale3_1 in F. exact F.
  - right. split; [replace (scale3 (- t) a) with (scale3 t (scale3 (-1) a)) by (rewrite scale3_comm; f_equal; ring); exact F|].
    rewrite Tt. pose proof (asin_lip (sin t) 0 ltac:(lra) ltac:(lra)) as L. rewrite asin_0, !Rminus_0_r, (Rabs_right (sin t)) in L by lra. apply Rabs_le_between in L. unfold bound. lra.
Qed.
Lemma ln_close : exists l, fl_so3_ln rnd fasin facos thr pi m = Ok l /\ close l.
Proof.
  pose proof ur as Hu. destruct erng as ((E0 & E1) & E2 & E3 & _). pose proof (s_pos s thr pi KO) as Sp. unfold fl_so3_ln. cbv zeta. destruct (R_ltb thr C') eqn:Z1.
  - apply R_ltb_spec in Z1. destruct (branch1 u rnd RN U m r d Q D D1 a t A T M fasin facos s thr pi IT KO S1 Z1) as (l & -> & L). exists l. split; [reflexivity|]. left. unfold bound. lra.
  - apply R_ltb_false in Z1. destruct (R_ltb (- thr) C') eqn:Z2.
    + apply R_ltb_spec in Z2. destruct (branch2 u rnd RN U m r d Q D D1 a t A T M fasin facos s thr pi IT KO S1 ltac:(lra)) as (l & -> & L). exists l. split; [reflexivity|]. left. unfold bound. lra.
    + apply R_ltb_false in Z2. apply branch3. exact Z2.
Qed.
End R.
End S.
