(** * The constructor from two vectors in floating point; exact perturbation bounds for coerce and exp. *)
From Coq Require Import Reals Lra Lia Psatz.
From Verif Require Import Base Alg Inst ModelLie SpecLie LemLie LemSO3 LemSO3b SpecFlSO3 LemFro RSum ModelFl SpecFl LemFl LemFlChol ModelFlSO3 LemFlSO3 LemFlSO3b LemFlSO3c.
Open Scope outcome_scope.
Local Open Scope R_scope.

(** the exact run *)
Lemma of_vectors_exact a b : cross3 a b <> zero3 ->
  let n := direction (cross3 a b) in let ua := direction a in let ub := direction b in
  a <> zero3 /\ b <> zero3 /\ rotation (mkM ua n (cross3 ua n)) /\ rotation (mkM ub n (cross3 ub n)) /\
  so3_of_vectors a b = Ok (mm3 (tr3 (mkM ub n (cross3 ub n))) (mkM ua n (cross3 ua n))).
Proof.
  intros H. cbv zeta.
  assert (Ha : a <> zero3) by (intros ->; apply H; clear; dv; lie_unfold; f_equal; ring).
  assert (Hb : b <> zero3) by (intros ->; apply H; clear; dv; lie_unfold; f_equal; ring).
  assert (Pa : dot3 (direction a) (direction (cross3 a b)) = 0) by (unfold direction; rewrite dot3_scale_l, dot3_scale_r; replace (dot3 a (cross3 a b)) with 0 by (clear; dv; lie_unfold; ring); ring).
  assert (Pb : dot3 (direction b) (direction (cross3 a b)) = 0) by (unfold direction; rewrite dot3_scale_l, dot3_scale_r; replace (dot3 b (cross3 a b)) with 0 by (clear; dv; lie_unfold; ring); ring).
  refine (conj Ha (conj Hb (conj _ (conj _ _)))).
  - apply frame_rotation; [apply (unit3_len a Ha)|apply (unit3_len _ H)|exact Pa].
  - apply frame_rotation; [apply (unit3_len b Hb)|apply (unit3_len _ H)|exact Pb].
  - unfold so3_of_vectors. cbv zeta. destruct (R_eqb (dot3 (cross3 a b) (cross3 a b)) 0) eqn:E.
    { apply R_eqb_spec in E. exfalso. apply H, dot3_zero, E. }
    rewrite (unit3_ok _ H), (unit3_ok a Ha), (unit3_ok b Hb). reflexivity.
Qed.
(** the determinant of a matrix near a rotation *)
Lemma det_near a q d : rotation q -> dist a q <= d -> Rabs (det3 a - 1) <= (1 + d) * (1 + d) * (1 + d) - 1.
Proof.
  intros Q D. assert (E : 1 = dot3 (cross3 (r0 q) (r1 q)) (r2 q)). { rewrite det3_rows. destruct q. symmetry. apply Q. }
  assert (Ea : det3 a = dot3 (cross3 (r0 a) (r1 a)) (r2 a)) by (destruct a; symmetry; apply det3_rows). rewrite Ea, E at 1.
  destruct Q as [(A & B & C & _) _].
  assert (L : forall v, dot3 v v = 1 -> len3 v = 1) by (intros v Hv; unfold len3; rewrite Hv; apply sqrt_1). apply L in A, B, C.
  pose proof (fro_row_le (subM a q)) as (R0 & R1 & R2). unfold dist in D. cbn [subM r0 r1 r2] in R0, R1, R2.
  pose proof (len3_near (r1 a) (r1 q)) as M1. pose proof (len3_near (r2 a) (r2 q)) as M2. rewrite B in M1. rewrite C in M2.
  pose proof (cross_near (r0 q) (r1 q) (r0 a) (r1 a)) as C1. pose proof (dot_near3 (cross3 (r0 q) (r1 q)) (r2 q) (cross3 (r0 a) (r1 a)) (r2 a)) as C2. rewrite A in C1.
  pose proof (len3_cross (r0 q) (r1 q)) as C3. rewrite A, B in C3.
  pose proof (len3_nonneg (sub3 (r0 a) (r0 q))). pose proof (len3_nonneg (sub3 (r1 a) (r1 q))). pose proof (len3_nonneg (sub3 (r2 a) (r2 q))). pose proof (len3_nonneg (r1 a)). pose proof (len3_nonneg (r2 a)).
  pose proof (len3_nonneg (cross3 (r0 q) (r1 q))). pose proof (len3_nonneg (sub3 (cross3 (r0 a) (r1 a)) (cross3 (r0 q) (r1 q)))).
  assert (X : len3 (sub3 (cross3 (r0 a) (r1 a)) (cross3 (r0 q) (r1 q))) <= d * (1 + d) + d).
  { assert (len3 (sub3 (r0 a) (r0 q)) * len3 (r1 a) <= d * (1 + d)) by (apply Rmult_le_compat; lra). lra. }
  assert (len3 (sub3 (cross3 (r0 a) (r1 a)) (cross3 (r0 q) (r1 q))) * len3 (r2 a) <= (d * (1 + d) + d) * (1 + d)) by (apply Rmult_le_compat; lra).
  assert (len3 (cross3 (r0 q) (r1 q)) * len3 (sub3 (r2 a) (r2 q)) <= 1 * d) by (apply Rmult_le_compat; lra). lra.
Qed.
Lemma near_skewness a q d : rotation q -> dist a q <= d -> d <= 1 / 10 -> 0 < det3 a /\ skewness a <= 2.
Proof.
  intros Q D D1. pose proof (dist_nonneg a q) as d0. pose proof (det_near a q d Q D) as E. apply Rabs_le_between in E.
  assert (T : (1 + d) * (1 + d) * (1 + d) <= 1331 / 1000) by (assert ((1 + d) * (1 + d) <= 121 / 100) by nra; nra).
  assert (P : 0 < det3 a) by lra. split; [exact P|]. destruct Q as [(A & B & C & _) _].
  assert (L : forall v, dot3 v v = 1 -> len3 v = 1) by (intros v Hv; unfold len3; rewrite Hv; apply sqrt_1). apply L in A, B, C.
  pose proof (fro_row_le (subM a q)) as (R0 & R1 & R2). unfold dist in D. cbn [subM r0 r1 r2] in R0, R1, R2.
  pose proof (len3_near (r0 a) (r0 q)) as M0. pose proof (len3_near (r1 a) (r1 q)) as M1. pose proof (len3_near (r2 a) (r2 q)) as M2.
  pose proof (len3_nonneg (r0 a)). pose proof (len3_nonneg (r1 a)). pose proof (len3_nonneg (r2 a)).
  assert (G : len3 (r0 a) * len3 (r1 a) * len3 (r2 a) <= 1331 / 1000).
  { apply (Rle_trans _ (11 / 10 * (11 / 10) * (11 / 10))); [|lra]. apply Rmult_le_compat; try lra; [nra|]. apply Rmult_le_compat; lra. }
  unfold skewness. rewrite (Rabs_right (det3 a)) by lra. apply (Rmult_le_reg_r (det3 a)); [exact P|]. unfold Rdiv. rewrite Rmult_assoc, Rinv_l by lra. lra.
Qed.
(** exact Gram-Schmidt of a matrix near a rotation *)
Lemma perp_near a v p w : len3 a = 1 -> len3 p = 1 -> len3 (sub3 (perp a v) (perp p w)) <= len3 (sub3 v w) + 2 * len3 (sub3 a p) * len3 w.
Proof.
  intros A P. eapply Rle_trans; [apply (len3_tri _ (perp a w))|]. apply Rplus_le_compat.
  - rewrite <- perp_sub. apply perp_len, A.
  - replace (sub3 (perp a w) (perp p w)) with (add3 (scale3 (- dot3 (sub3 a p) w) a) (scale3 (- dot3 p w) (sub3 a p))) by (clear; dv; unfold perp; lie_unfold; f_equal; ring).
    eapply Rle_trans; [apply len3_add|]. rewrite !len3_sc, !Rabs_Ropp, A. pose proof (cs3_len (sub3 a p) w) as X1. pose proof (cs3_len p w) as X2. rewrite P in X2.
    pose proof (len3_nonneg (sub3 a p)). nra.
Qed.
Lemma coerce_near a q d : rotation q -> dist a q <= d -> d <= 1 / 10 ->
  exists t, so3_coerce a = Ok t /\ rotation t /\ dist t q <= 62 * d.
Proof.
  intros Q D D1. destruct (near_skewness a q d Q D D1) as [P _]. pose proof (dist_nonneg a q) as d0.
  destruct (coerce_exact a ltac:(lra)) as (Hp & Hq & Hr & Hb & Hc & Ho & Ed & Ex). rewrite R_ltb_t in Ex by exact P. eexists. split; [exact Ex|].
  destruct (coerce_cases a) as [[_ Z]|(t & _ & _ & [(_ & T1 & T2)|(Z & _)])]; [lra| |lra]. rewrite Ex in T2. injection T2 as T2. split; [split; [exact Ho|rewrite T2; exact T1]|]. clear T1 T2 Ex Ed.
  revert Hb Hc Ho. set (x := direction (r0 a)). set (y1 := perp x (r1 a)). set (y := direction y1). set (z1 := perp y (perp x (r2 a))). set (z := direction z1). intros Hb Hc Ho.
  destruct Q as [(A & B & C & O1 & O2 & O3) _].
  assert (L : forall v, dot3 v v = 1 -> len3 v = 1) by (intros v Hv; unfold len3; rewrite Hv; apply sqrt_1). apply L in A, B, C.
  assert (Dir : forall v, len3 v = 1 -> direction v = v) by (intros v E; unfold direction; rewrite E; replace (1 / 1) with 1 by lra; apply scale3_1).
  assert (NZ : forall v, len3 v = 1 -> v <> zero3) by (intros v E F; rewrite F, len3_0 in E; lra).
  assert (Prp : forall v w, dot3 v w = 0 -> perp v w = w) by (intros v w E; unfold perp; rewrite E; clear; dv; lie_unfold; f_equal; ring).
  pose proof (fro_row_le (subM a q)) as (R0 & R1 & R2). unfold dist in D. cbn [subM r0 r1 r2] in R0, R1, R2.
  assert (X : len3 (sub3 x (r0 q)) <= 2 * d). { rewrite <- (Dir _ A). apply (direction_near (r0 a) (r0 q) d); [apply NZ, A|exact Hp|rewrite A; lra]. }
  pose proof (direction_len _ Hp) as Lx. fold x in Lx.
  assert (Y1 : len3 (sub3 y1 (r1 q)) <= 5 * d). { rewrite <- (Prp _ _ O1). eapply Rle_trans; [apply (perp_near x (r1 a) (r0 q) (r1 q) Lx A)|]. rewrite B. lra. }
  assert (Y : len3 (sub3 y (r1 q)) <= 10 * d). { rewrite <- (Dir _ B). replace (10 * d) with (2 * (5 * d)) by ring. apply (direction_near y1 (r1 q) (5 * d)); [apply NZ, B|exact Hb|rewrite B; lra]. }
  pose proof (direction_len _ Hb) as Ly. fold y in Ly.
  assert (Z0 : len3 (sub3 (perp x (r2 a)) (r2 q)) <= 5 * d). { rewrite <- (Prp _ _ O2). eapply Rle_trans; [apply (perp_near x (r2 a) (r0 q) (r2 q) Lx A)|]. rewrite C. lra. }
  assert (Z1 : len3 (sub3 z1 (r2 q)) <= 25 * d). { rewrite <- (Prp _ _ O3). eapply Rle_trans; [apply (perp_near y _ (r1 q) (r2 q) Ly B)|]. rewrite C. lra. }
  assert (Z : len3 (sub3 z (r2 q)) <= 50 * d). { rewrite <- (Dir _ C). replace (50 * d) with (2 * (25 * d)) by ring. apply (direction_near z1 (r2 q) (25 * d)); [apply NZ, C|exact Hc|rewrite C; lra]. }
  unfold dist. eapply Rle_trans; [apply fro_sum_rows|]. cbn [subM r0 r1 r2]. fold x y1 y z1 z. lra.
Qed.
(** rotations about one axis by nearby angles *)
Lemma sin_lip x y : Rabs (sin x - sin y) <= Rabs (x - y) /\ Rabs (cos x - cos y) <= Rabs (x - y).
Proof.
  assert (S1 : forall t, Rabs (sin t) <= Rabs t).
  { assert (P : forall t, 0 <= t -> Rabs (sin t) <= t).
    { intros t Ht. destruct (Rle_dec t 1) as [H|H].
      - pose proof PI2_3_2. destruct (sin_bounds t Ht ltac:(lra)) as [Hs _]. apply Rabs_le_between. assert (0 <= t ^ 3 <= t) by (split; [apply pow_le, Ht|cbn; nra]). assert (t ^ 5 <= t ^ 3) by (cbn; nra). lra.
      - destruct (trig_1 t). lra. }
    intros t. destruct (Rle_dec 0 t) as [H|H]; [rewrite (Rabs_right t) by lra; apply P, H|].
    rewrite (Rabs_left t) by lra. rewrite <- (Ropp_involutive t) at 1. rewrite sin_neg, Rabs_Ropp. apply P. lra. }
  assert (H2 : forall t, 2 * Rabs (t / 2) = Rabs t) by (intros t; unfold Rdiv; rewrite Rabs_mult, (Rabs_right (/ 2)) by lra; lra).
  split.
  - rewrite form4. replace (2 * cos ((x + y) / 2) * sin ((x - y) / 2)) with (cos ((x + y) / 2) * (2 * sin ((x - y) / 2))) by ring. rewrite Rabs_mult, Rabs_mult, (Rabs_right 2) by lra.
    rewrite <- (H2 (x - y)). destruct (trig_1 ((x + y) / 2)) as [_ T]. specialize (S1 ((x - y) / 2)). pose proof (Rabs_pos (sin ((x - y) / 2))). pose proof (Rabs_pos (cos ((x + y) / 2))). nra.
  - rewrite form2. rewrite !Rabs_mult, (Rabs_left (-2)) by lra. rewrite <- (H2 (x - y)). destruct (trig_1 ((x + y) / 2)) as [T _]. specialize (S1 ((x - y) / 2)).
    pose proof (Rabs_pos (sin ((x - y) / 2))). pose proof (Rabs_pos (sin ((x + y) / 2))). nra.
Qed.
Lemma exp3_lip w k : 0 < k -> dist (exp3 (scale3 k w)) (exp3 w) <= 4 * Rabs (k - 1) * len3 w.
Proof.
  intros K. destruct (V3_dec w zero3) as [->|W].
  - replace (scale3 k zero3) with zero3 by (lie_unfold; f_equal; ring). rewrite dist_refl, len3_0. lra.
  - pose proof (len3_pos w W) as L. rewrite (exp3_scaled w k W K). pose proof (exp3_scaled w 1 W ltac:(lra)) as E1. rewrite scale3_1 in E1. rewrite E1. set (l := len3 w) in *.
    destruct (sin_lip (k * l) (1 * l)) as [S C]. assert (E : Rabs (k * l - 1 * l) = Rabs (k - 1) * l) by (replace (k * l - 1 * l) with ((k - 1) * l) by ring; rewrite Rabs_mult, (Rabs_right l) by lra; reflexivity).
    rewrite E in S, C. replace (4 * Rabs (k - 1) * l) with (2 * (Rabs (k - 1) * l + Rabs (k - 1) * l)) by ring. apply rodrigues_dist; fold l.
    + rewrite (Rabs_mul_r _ l) by lra. replace ((sin (k * l) / l - sin (1 * l) / l) * l) with (sin (k * l) - sin (1 * l)) by (field; lra). exact S.
    + rewrite (Rabs_mul_r _ (l * l)) by nra. replace (((1 - cos (k * l)) / (l * l) - (1 - cos (1 * l)) / (l * l)) * (l * l)) with (- (cos (k * l) - cos (1 * l))) by (field; lra). rewrite Rabs_Ropp. exact C.
Qed.

Section S.
Variables (u : R) (rnd : R -> R).
Hypothesis RN : rounding u rnd.
Hypothesis U : u <= 1 / 1000.
Notation ur := (u_rng u rnd RN).
Lemma fl_of_vectors_ok a b : cross3 a b <> zero3 -> 1000 * u * obliqueness a b <= 1 ->
  exists q t, fl_so3_of_vectors rnd a b = Ok q /\ so3_of_vectors a b = Ok t /\ rotation t /\ dist q t <= 102 * u * obliqueness a b.
Proof.
  intros H K. pose proof ur as Hu. destruct (of_vectors_exact a b H) as (Ha & Hb & Fa & Fb & Ex). revert Fa Fb Ex. set (n := direction (cross3 a b)). set (ua := direction a). set (ub := direction b). intros Fa Fb Ex.
  pose proof (len3_pos a Ha) as La. pose proof (len3_pos b Hb) as Lb. pose proof (len3_pos _ H) as Ln. pose proof (len3_cross a b) as Lc.
  pose proof (direction_len a Ha) as La1. fold ua in La1. pose proof (direction_len b Hb) as Lb1. fold ub in Lb1. pose proof (direction_len _ H) as Ln1. fold n in Ln1.
  set (k := obliqueness a b) in *. assert (Kn : len3 a * len3 b = k * len3 (cross3 a b)) by (unfold k, obliqueness; field; lra).
  assert (k1 : 1 <= k) by nra. set (s := u * k). assert (us : u <= s) by (unfold s; nra). assert (Ks : 1000 * s <= 1) by (unfold s; lra).
  pose proof (fl_cross u rnd RN U a b) as C. rewrite Kn in C. assert (C' : len3 (sub3 (fl_cross3 rnd a b) (cross3 a b)) <= 41 / 10 * s * len3 (cross3 a b)) by (unfold s; lra).
  destruct (fl_unit3_near u rnd RN U _ _ (41 / 10 * s) H C' ltac:(lra)) as (qn & En & Nn). fold n in Nn.
  destruct (fl_unit3_ok u rnd RN U a Ha) as (qa & Ea & Na). fold ua in Na. destruct (fl_unit3_ok u rnd RN U b Hb) as (qb & Eb & Nb). fold ub in Nb.
  unfold fl_so3_of_vectors. cbv zeta. destruct (R_eqb (fl_dot3 rnd (fl_cross3 rnd a b) (fl_cross3 rnd a b)) 0) eqn:Z.
  { exfalso. apply R_eqb_spec in Z. destruct (fl_dot3_self u rnd RN U (fl_cross3 rnd a b)) as (c & Fc & Ec). rewrite Ec in Z. pose proof (fac_pos u 3 c Hu Fc).
    apply (near_nz _ _ _ C' ltac:(lra) H). apply dot3_zero. nra. }
  rewrite En. cbn [bind]. rewrite Ea. cbn [bind]. rewrite Eb. cbn [bind]. eexists _, _. split; [reflexivity|]. split; [exact Ex|].
  split; [apply rotation_mul; [apply rotation_inv, Fb|exact Fa]|].
  assert (Fr : forall q v, len3 v = 1 -> len3 (sub3 q v) <= 6 * u -> dist (mkM q qn (fl_cross3 rnd q qn)) (mkM v n (cross3 v n)) <= 447 / 10 * s).
  { intros q v V N. pose proof (fl_cross u rnd RN U q qn) as C1. pose proof (cross_near v n q qn) as C2. rewrite V in C2.
    pose proof (len3_near q v) as M1. pose proof (len3_near qn n) as M2. rewrite V in M1. rewrite Ln1 in M2. pose proof (len3_nonneg q). pose proof (len3_nonneg qn). pose proof (len3_nonneg (sub3 q v)).
    assert (len3 q * len3 qn <= 1006 / 1000 * (1015 / 1000)) by (apply Rmult_le_compat; lra). assert (0 <= len3 q * len3 qn) by nra.
    assert (41 / 10 * u * (len3 q * len3 qn) <= 41 / 10 * u * (1006 / 1000 * (1015 / 1000))) by (apply Rmult_le_compat_l; lra).
    assert (len3 (sub3 q v) * len3 qn <= 6 * u * (1015 / 1000)) by (apply Rmult_le_compat; lra).
    pose proof (len3_tri (fl_cross3 rnd q qn) (cross3 q qn) (cross3 v n)). unfold dist. eapply Rle_trans; [apply fro_sum_rows|]. cbn [subM r0 r1 r2]. lra. }
  pose proof (Fr qa ua La1 Na) as D1. pose proof (Fr qb ub Lb1 Nb) as D2. rewrite <- dist_tr in D2.
  eapply Rle_trans; [apply (fl_mul_near u rnd RN _ _ _ _ _ _ (rotation_inv _ Fb) Fa D2 D1)|].
  pose proof (fwd3 u rnd RN U) as F3. pose proof (fwd_nonneg u 3 ltac:(lra)).
  replace (102 * u * k) with (102 * s) by (unfold s; ring).
  set (g := 3 * fwd u 3) in *. assert (g <= 91 / 10 * s) by (unfold g; lra). assert (0 <= g) by (unfold g; lra). assert (s0 : 0 <= s) by lra. clearbody g s.
  assert (P : (1 + 447 / 10 * s) * (1 + 447 / 10 * s) <= 1 + 915 / 10 * s) by nra.
  assert (0 <= (1 + 447 / 10 * s) * (1 + 447 / 10 * s)) by nra. apply (Rle_trans _ ((1 + 915 / 10 * s) * (1 + g) - 1)); [apply Rplus_le_compat_r, Rmult_le_compat_r; lra|]. nra.
Qed.
End S.
