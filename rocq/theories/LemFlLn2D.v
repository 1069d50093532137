(** * SO2::ln and SE2::ln in floating point. *)
From Coq Require Import Reals Lra Lia Psatz ZArith.
From Verif Require Import Base Alg Inst ModelLie SpecLie LemLie LemSO3 LemSO3b ModelSE LemSE2 PropSE LemEig3 LemFro RSum ModelFl SpecFl LemFl LemFlChol ModelFlSO3 SpecFlSO3 SpecFlHist LemFlSO3 LemFlSO3c LemFlSO3d ModelFlSE3 SpecFlSE3 LemFlSE3 SpecFlLn LemFlLnSE LemFlLnSE2 ModelFl2D SpecFl2D LemFl2D PropFl2D LemFlSE2.
Notation s0 := ModelLie.s0.
Open Scope outcome_scope.
Local Open Scope R_scope.

(** ** the angle of a vector near (cos t, sin t) *)
Lemma angle_near x y t d : 0 <= d <= 1 / 4 -> (x - cos t) * (x - cos t) + (y - sin t) * (y - sin t) <= d * d -> let e := atan2 y x - t in 0 < cos e /\ Rabs (sin e) <= d.
Proof.
  intros D H e. pose proof (sin2_cos2 t) as T. unfold Rsqr in T. assert (D2 : 0 <= d * d <= 1 / 16) by nra.
  assert (P : 0 < x * x + y * y). { destruct (Rlt_dec 0 (x * x + y * y)) as [P|P]; [exact P|]. assert (x = 0) by nra. assert (y = 0) by nra. subst x y. lra. }
  pose proof (sqrt_lt_R0 _ P) as R0. pose proof (sqrt_sqrt _ (Rlt_le _ _ P)) as RR. set (r := sqrt (x * x + y * y)) in *. destruct (polar x y r R0 RR) as [X Y]. fold (atan2 y x) in X, Y. set (w := atan2 y x) in *.
  pose proof (sin2_cos2 e) as E. unfold Rsqr in E. assert (Ce : x * cos t + y * sin t = r * cos e) by (unfold e; rewrite cos_minus, <- X, <- Y; ring).
  assert (K : r * r - 2 * (r * cos e) + 1 <= d * d) by (rewrite RR, <- Ce; lra). split; [destruct (Rlt_dec 0 (cos e)); [assumption|]; assert (r * cos e <= 0) by nra; nra|]. rewrite <- (Rabs_right d) by lra. apply Rsqr_le_abs_0. unfold Rsqr. pose proof (Rle_0_sqr (r - cos e)) as Q; unfold Rsqr in Q. lra.
Qed.
Lemma sin_half x : 0 <= x <= PI / 2 -> x <= 2 * sin x.
Proof.
  intros H. pose proof PI_347. pose proof PI2_3_2. assert (G : forall y, 0 <= y <= 17 / 10 -> y * (1 - 289 / 600) <= sin y).
  { intros y Hy. destruct (sin_bounds y ltac:(lra) ltac:(lra)) as [[A _] _]. assert (y * y <= 289 / 100) by nra. assert (y ^ 3 <= 289 / 100 * y) by (replace (y ^ 3) with (y * y * y) by ring; apply Rmult_le_compat_r; lra). lra. }
  destruct (Rle_dec x (17 / 10)) as [L|L]; [pose proof (G x ltac:(lra)); lra|]. pose proof (G (17 / 10) ltac:(lra)). assert (sin (17 / 10) <= sin x) by (apply sin_incr_1; lra). lra.
Qed.
Lemma angle_small e d : Rabs e <= PI / 2 -> Rabs (sin e) <= d -> Rabs e <= 2 * d.
Proof.
  intros E H. pose proof (Rabs_pos e). destruct (Rle_dec 0 e) as [P|P].
  - rewrite (Rabs_right e) in * by lra. pose proof (sin_half e ltac:(lra)). pose proof (Rle_abs (sin e)). lra.
  - rewrite (Rabs_left e) in * by lra. pose proof (sin_half (- e) ltac:(lra)) as A. rewrite sin_neg in A. rewrite <- Rabs_Ropp in H. pose proof (Rle_abs (- sin e)). lra.
Qed.
Lemma angle_cases e d : Rabs e <= 2 * PI -> 0 < cos e -> Rabs (sin e) <= d -> exists k : Z, (-1 <= k <= 1)%Z /\ Rabs (e - 2 * PI * IZR k) <= 2 * d.
Proof.
  intros E C H. pose proof PI2_3_2 as P3. assert (N : Rabs e < PI / 2 \/ 3 * (PI / 2) < Rabs e).
  { destruct (Rlt_dec (Rabs e) (PI / 2)) as [A|A]; [auto|]. destruct (Rlt_dec (3 * (PI / 2)) (Rabs e)) as [B|B]; [auto|]. assert (Ca : cos (Rabs e) = cos e) by (unfold Rabs; destruct (Rcase_abs e); [apply cos_neg|reflexivity]). pose proof (cos_le_0 (Rabs e) ltac:(lra) ltac:(lra)). lra. }
  destruct N as [N|N]; [exists 0%Z; split; [lia|]; rewrite Rmult_0_r, Rminus_0_r; apply angle_small; [lra|assumption]|]. destruct (Rle_dec 0 e) as [P|P].
  - exists 1%Z. split; [lia|]. rewrite (Rabs_right e) in * by lra. rewrite Rmult_1_r. apply angle_small; [apply Rabs_le_between; lra|]. replace (sin (e - 2 * PI)) with (sin e); [assumption|]. replace e with (e - 2 * PI + 2 * INR 1 * PI) at 1 by (cbn; ring). apply sin_period.
  - exists (-1)%Z. split; [lia|]. rewrite (Rabs_left e) in * by lra. apply angle_small; [apply Rabs_le_between; lra|]. replace (sin (e - 2 * PI * IZR (-1))) with (sin e); [assumption|]. rewrite <- (sin_period e 1). f_equal. cbn. ring.
Qed.
(** rotations by near angles are near *)
Lemma turn_lip v w : dist2 (so2_exp v) (so2_exp w) <= 2 * Rabs (v - w).
Proof.
  destruct (sin_lip v w) as [A B]. unfold dist2, subM2, so2_exp, sub2. cbn [s0 s1 ux uy]. apply fro2_le4; try assumption; [apply Rabs_pos|]. replace (- sin v - - sin w) with (- (sin v - sin w)) by ring. rewrite Rabs_Ropp. exact A.
Qed.
Lemma turn_near v w d : 0 < cos (v - w) -> Rabs (sin (v - w)) <= d -> dist2 (so2_exp v) (so2_exp w) <= 2 * d.
Proof.
  intros C H. pose proof (Rabs_pos (sin (v - w))). unfold dist2, fro2. rewrite <- (sqrt_square (2 * d)) by lra. apply sqrt_le_1_alt. unfold subM2, sub2, so2_exp, dot2. cbn [s0 s1 ux uy].
  pose proof (sin2_cos2 (v - w)) as E. unfold Rsqr in E. pose proof (sin2_cos2 v) as Ev. pose proof (sin2_cos2 w) as Ew. unfold Rsqr in *. assert (K : sin (v - w) * sin (v - w) <= d * d). { replace (sin (v - w) * sin (v - w)) with (Rabs (sin (v - w)) * Rabs (sin (v - w))) by (rewrite <- Rabs_mult; apply Rabs_right; nra). nra. }
  apply (Rle_trans _ (4 * (1 - cos (v - w)))); [right; rewrite cos_minus; lra|]. assert (1 - cos (v - w) <= sin (v - w) * sin (v - w)) by (pose proof (COS_bound (v - w)); nra). lra.
Qed.
Lemma first_column m r t d : turns t r -> dist2 m r <= d -> (ux (s0 m) - cos t) * (ux (s0 m) - cos t) + (ux (s1 m) - sin t) * (ux (s1 m) - sin t) <= d * d.
Proof.
  intros T D. apply turns_is in T. subst r. unfold dist2, fro2 in D. assert (d0 : 0 <= d) by (eapply Rle_trans; [apply sqrt_pos|exact D]). 
  match type of D with sqrt ?k <= _ => assert (K : k <= d * d) end.
  { match type of D with sqrt ?k <= _ => set (q := k) in * end. assert (q0 : 0 <= q) by (unfold q, dot2; repeat apply Rplus_le_le_0_compat; apply Rle_0_sqr). pose proof (sqrt_sqrt q q0) as Q. pose proof (sqrt_pos q). rewrite <- Q. apply Rmult_le_compat; assumption. }
  unfold subM2, sub2, so2_exp, dot2 in K. cbn [s0 s1 ux uy] in K. match type of K with _ + ?b * ?b + (_ + ?e * ?e) <= _ => pose proof (Rle_0_sqr b); pose proof (Rle_0_sqr e) end. unfold Rsqr in *. lra.
Qed.
Lemma Rabs_pi x y z : Rabs x <= y -> Rabs z <= y -> Rabs (x - z) <= 2 * y.
Proof. intros A B. apply Rabs_le_between in A, B. apply Rabs_le_between. lra. Qed.
(** ** the exact inverse of the translation *)
Definition vback2 (w : R) (p : V2) : V2 := scale2 (/ sinc2 (w / 2)) (mv2 (so2_exp (- (w / 2))) p).
Lemma sinc2_even h : sinc2 (Rabs h) = sinc2 h.
Proof.
  unfold Rabs. destruct (Rcase_abs h); [|reflexivity]. unfold sinc2. destruct (Req_EM_T (- h) 0), (Req_EM_T h 0); try lra. rewrite sin_neg. field. assumption.
Qed.
Lemma sinc2_mul h : sinc2 h * h = sin h.
Proof. unfold sinc2. destruct (Req_EM_T h 0) as [->|H]; [rewrite sin_0; ring|field; assumption]. Qed.
Lemma sinc2_0 : sinc2 0 = 1.
Proof. unfold sinc2. destruct (Req_EM_T 0 0); [reflexivity|lra]. Qed.
Lemma sinc2_rng h : Rabs h <= 7 / 4 -> 48 / 100 <= sinc2 h <= 1 /\ 1 - sinc2 h <= h * h / 6.
Proof.
  intros H. rewrite <- sinc2_even. replace (h * h / 6) with (Rabs h * Rabs h / 6) by (rewrite <- Rabs_mult, Rabs_right by nra; reflexivity). pose proof (Rabs_pos h) as P. set (t := Rabs h) in *. destruct (sinc t (conj P H)) as (S0 & E & B & _ & C).
  destruct (Req_dec t 0) as [Z|Z]; [rewrite Z, sinc2_0; lra|]. pose proof (sinc2_mul t) as M. assert (sinc2 t = S0) as -> by (apply (Rmult_eq_reg_r t); [congruence|assumption]). split; assumption.
Qed.
Lemma sinc2_lip h h' : Rabs h <= 7 / 4 -> Rabs h' <= 7 / 4 -> Rabs (sinc2 h - sinc2 h') <= Rabs (h - h').
Proof.
  intros H H'. rewrite <- (sinc2_even h), <- (sinc2_even h'). pose proof (Rabs_pos h). pose proof (Rabs_pos h'). eapply Rle_trans; [|apply Rabs_triang_inv2].
  apply (sinc_lip (Rabs h) (Rabs h')); try lra; try apply sinc2_mul; intros ->; apply sinc2_0.
Qed.
Lemma turn_len w p : len2 (mv2 (so2_exp w) p) = len2 p.
Proof.
  unfold len2. f_equal. destruct p as [x y]. unfold mv2, so2_exp, dot2. cbn [s0 s1 ux uy]. pose proof (sin2_cos2 w) as T. unfold Rsqr in T.
  transitivity ((sin w * sin w + cos w * cos w) * (x * x + y * y)); [ring|rewrite T; ring].
Qed.
Lemma turn_add v w p : mv2 (so2_exp v) (mv2 (so2_exp w) p) = mv2 (so2_exp (v + w)) p.
Proof. destruct p as [x y]. unfold mv2, so2_exp, dot2. cbn [s0 s1 ux uy]. rewrite sin_plus, cos_plus. f_equal; ring. Qed.
Lemma turn_0 p : mv2 (so2_exp 0) p = p.
Proof. destruct p as [x y]. unfold mv2, so2_exp, dot2. cbn [s0 s1 ux uy]. rewrite sin_0, cos_0. f_equal; ring. Qed.
Lemma turn_scale w k p : mv2 (so2_exp w) (scale2 k p) = scale2 k (mv2 (so2_exp w) p).
Proof. destruct p as [x y]. unfold mv2, so2_exp, dot2, scale2. cbn [s0 s1 ux uy]. f_equal; ring. Qed.
Lemma scale2_scale a b p : scale2 a (scale2 b p) = scale2 (a * b) p.
Proof. unfold scale2. cbn [ux uy]. f_equal; ring. Qed.
Lemma scale2_1 p : scale2 1 p = p.
Proof. destruct p as [x y]. unfold scale2. cbn [ux uy]. f_equal; ring. Qed.
Lemma vexp2_half w v : vexp2 w v = scale2 (sinc2 (w / 2)) (mv2 (so2_exp (w / 2)) v).
Proof.
  assert (A : sinc2 w = sinc2 (w / 2) * cos (w / 2) /\ cosc2 w = sinc2 (w / 2) * sin (w / 2)).
  { unfold sinc2, cosc2. destruct (Req_EM_T w 0) as [->|W].
    - destruct (Req_EM_T (0 / 2) 0) as [_|C]; [|lra]. replace (0 / 2) with 0 by field. rewrite sin_0, cos_0. split; ring.
    - destruct (Req_EM_T (w / 2) 0); [lra|]. replace (sin w) with (sin (2 * (w / 2))) by (f_equal; field). replace (cos w) with (cos (2 * (w / 2))) by (f_equal; field). rewrite sin_2a, cos_2a_sin. split; field; assumption. }
  destruct A as [A B]. unfold vexp2. rewrite A, B. destruct v as [x y]. unfold add2, scale2, left2, mv2, so2_exp, dot2. cbn [s0 s1 ux uy]. f_equal; ring.
Qed.
Lemma vback2_of w v : sinc2 (w / 2) <> 0 -> vback2 w (vexp2 w v) = v.
Proof. intros H. unfold vback2. rewrite vexp2_half, turn_scale, scale2_scale, turn_add, Rinv_l, scale2_1 by assumption. replace (- (w / 2) + w / 2) with 0 by ring. apply turn_0. Qed.
Lemma vback2_to w p : sinc2 (w / 2) <> 0 -> vexp2 w (vback2 w p) = p.
Proof. intros H. unfold vback2. rewrite vexp2_half, turn_scale, scale2_scale, turn_add, Rinv_r, scale2_1 by assumption. replace (w / 2 + - (w / 2)) with 0 by ring. apply turn_0. Qed.
Lemma vexp2_sub w a b : sub2 (vexp2 w a) (vexp2 w b) = vexp2 w (sub2 a b).
Proof. unfold vexp2, add2, sub2, scale2, left2. cbn [ux uy]. f_equal; ring. Qed.
Lemma vback2_sub w a b : sub2 (vback2 w a) (vback2 w b) = vback2 w (sub2 a b).
Proof. unfold vback2, mv2, sub2, scale2, so2_exp, dot2. cbn [s0 s1 ux uy]. f_equal; ring. Qed.
Lemma half_ok2 w : Rabs w <= 7 / 2 -> Rabs (w / 2) <= 7 / 4.
Proof. intros H. unfold Rdiv. rewrite Rabs_mult, (Rabs_right (/ 2)) by lra. lra. Qed.
Lemma inv_rng x : 48 / 100 <= x <= 1 -> 1 <= / x <= 25 / 12.
Proof. intros H. split; apply (Rmult_le_reg_r x); try lra; rewrite Rinv_l; lra. Qed.
Lemma vback2_len w p : Rabs w <= 7 / 2 -> len2 (vback2 w p) <= 25 / 12 * len2 p.
Proof.
  intros H. destruct (sinc2_rng _ (half_ok2 w H)) as [S _]. pose proof (inv_rng _ S). unfold vback2. rewrite len2_sc, turn_len, Rabs_right by lra. apply Rmult_le_compat_r; [apply len2_nonneg|lra].
Qed.
Lemma fro2_mv m v : len2 (mv2 m v) <= fro2 m * len2 v.
Proof.
  pose proof (len_mv (mkM (up (s0 m)) (up (s1 m)) zero3) (up v)) as H. replace (mv3 _ (up v)) with (up (mv2 m v)) in H by (unfold up, mv2, mv3, dot2, dot3, zero3; cbn [s0 s1 ux uy vx vy vz r0 r1 r2]; f_equal; ring).
  replace (fro _) with (fro2 m) in H by (unfold fro, fro2, up, zero3, dot2, dot3; cbn [s0 s1 ux uy vx vy vz r0 r1 r2]; f_equal; ring). rewrite !len_up in H. exact H.
Qed.
Lemma inv_lip x y : 48 / 100 <= x <= 1 -> 48 / 100 <= y <= 1 -> Rabs (/ x - / y) <= 435 / 100 * Rabs (x - y).
Proof.
  intros X Y. pose proof (inv_rng x X). pose proof (inv_rng y Y). replace (/ x - / y) with (- (x - y) * (/ x * / y)) by (field; lra). rewrite Rabs_mult, Rabs_Ropp, Rmult_comm. apply Rmult_le_compat_r; [apply Rabs_pos|]. rewrite Rabs_right by nra. nra.
Qed.
Lemma two_steps x y A B p : sub2 (scale2 x (mv2 A p)) (scale2 y (mv2 B p)) = add2 (scale2 x (mv2 (subM2 A B) p)) (scale2 (x - y) (mv2 B p)).
Proof. unfold sub2, add2, scale2, mv2, subM2, sub2, dot2. cbn [s0 s1 ux uy]. f_equal; ring. Qed.
Lemma vback2_lip v w p : Rabs v <= 7 / 2 -> Rabs w <= 7 / 2 -> len2 (sub2 (vback2 v p) (vback2 w p)) <= 5 * Rabs (v - w) * len2 p.
Proof.
  intros V W. destruct (sinc2_rng _ (half_ok2 v V)) as [S1 _]. destruct (sinc2_rng _ (half_ok2 w W)) as [S2 _]. pose proof (inv_rng _ S1) as I1. pose proof (sinc2_lip _ _ (half_ok2 v V) (half_ok2 w W)) as L. pose proof (inv_lip _ _ S1 S2) as IL. pose proof (turn_lip (- (v / 2)) (- (w / 2))) as TL. unfold dist2 in TL.
  pose proof (len2_nonneg p) as P. set (x := / sinc2 (v / 2)) in *. set (y := / sinc2 (w / 2)) in *. set (e := Rabs (v - w)).
  assert (H1 : Rabs (v / 2 - w / 2) = e / 2). { unfold e. replace (v / 2 - w / 2) with ((v - w) * / 2) by field. rewrite Rabs_mult, (Rabs_right (/ 2)) by lra. reflexivity. }
  assert (H2 : Rabs (- (v / 2) - - (w / 2)) = e / 2). { rewrite <- H1. rewrite <- Rabs_Ropp. f_equal. ring. } rewrite H1 in L. rewrite H2 in TL.
  unfold vback2. fold x y. set (A := so2_exp (- (v / 2))) in *. set (B := so2_exp (- (w / 2))) in *.
  replace (sub2 (scale2 x (mv2 A p)) (scale2 y (mv2 B p))) with (add2 (scale2 x (mv2 (subM2 A B) p)) (scale2 (x - y) (mv2 B p))) by (symmetry; apply two_steps).
  eapply Rle_trans; [apply len2_add|]. rewrite !len2_sc. unfold B at 2. rewrite turn_len. pose proof (fro2_mv (subM2 A B) p) as F. rewrite (Rabs_right x) by lra.
  assert (F' : fro2 (subM2 A B) * len2 p <= 2 * (e / 2) * len2 p) by (apply Rmult_le_compat_r; assumption).
  assert (G1 : x * len2 (mv2 (subM2 A B) p) <= 25 / 12 * (2 * (e / 2) * len2 p)) by (apply Rmult_le_compat; try lra; apply len2_nonneg).
  assert (G2 : Rabs (x - y) * len2 p <= 435 / 100 * (e / 2) * len2 p) by (apply Rmult_le_compat_r; lra). pose proof (Rabs_pos (v - w)) as E0. fold e in E0. assert (0 <= e * len2 p) by (apply Rmult_le_pos; assumption). lra.
Qed.

Section S.
Variables (u : R) (rnd : R -> R).
Hypothesis RN : rounding u rnd.
Hypothesis U : u <= 1 / 6800.
Variables (s : R) (fsin fcos : R -> R).
Hypothesis TR : trig s fsin fcos.
Hypothesis RS : relative_sine s fsin.
Hypothesis Hs : s <= 1 / 10 ^ 6.
Let U' : u <= 1 / 1000. Proof. lra. Qed.
Let s0' : 0 <= s. Proof. destruct (TR 0) as [H _]. pose proof (Rabs_pos (fsin 0 - sin 0)). lra. Qed.
Let Hu : 0 <= u < 1. Proof. exact (u_rng u rnd RN). Qed.
(** the divisor of SE2::ln *)
Lemma shtot2_ok w : Rabs w <= 7 / 2 -> exists sh, (if R_ltb (rnd (1 / 10 ^ 5)) (Rabs w) then @div R (FlOps rnd) (fsin (rnd (w / 2))) w else Ok (1 / 2)) = Ok sh /\
  Rabs (rnd (2 * sh) - sinc2 (w / 2)) <= 4 * u + 2 * s + 5 / 10 ^ 12.
Proof.
  intros W. pose proof s0' as s0''. pose proof Hu as Hu'. destruct (sinc2_rng _ (half_ok2 w W)) as [S1 S2]. destruct (R_ltb (rnd (1 / 10 ^ 5)) (Rabs w)) eqn:B.
  - apply R_ltb_spec in B. pose proof (rnd_err u rnd RN (1 / 10 ^ 5)) as E. rewrite (Rabs_right (1 / 10 ^ 5)) in E by lra. apply Rabs_le_between in E.
    assert (w0 : w <> 0) by (intros ->; rewrite Rabs_R0 in B; lra). rewrite (fl_div_ok rnd) by exact w0. eexists. split; [reflexivity|].
    destruct (rnd_fac u rnd RN (w / 2)) as (a & Fa & Ea). set (x := rnd (w / 2)) in *. destruct (rnd_fac u rnd RN (fsin x / w)) as (b & Fb & ->). destruct (rnd_fac u rnd RN (2 * (fsin x / w * b))) as (c & Fc & ->).
    pose proof (fac_num u rnd RN U' 1 a ltac:(lia) Fa) as Ka. replace (INR 1) with 1 in Ka by (cbn; lra).
    pose proof (fac_num u rnd RN U' 2 _ ltac:(lia) (fac_mul u 1 1 _ _ Hu' Fb Fc)) as Kb. replace (INR 2) with 2 in Kb by (cbn; lra). replace (2 * (fsin x / w * b) * c) with (fsin x / (w / 2) * (b * c)) by (field; exact w0). set (f := b * c) in *. clearbody f.
    set (h := w / 2) in *. assert (h0 : h <> 0) by (unfold h; lra). pose proof (Rabs_pos_lt h h0) as H0.
    apply (Rmult_le_reg_r (Rabs h)); [exact H0|]. rewrite <- Rabs_mult. rewrite Rmult_minus_distr_r, sinc2_mul. replace (fsin x / h * f * h) with (fsin x * f) by (field; exact h0).
    replace (fsin x * f - sin h) with ((fsin x - sin x) * f + (sin x - sin h) * f + sin h * (f - 1)) by ring.
    pose proof (RS x) as R1. destruct (sin_lip x h) as [L1 _]. destruct (sin_lip x 0) as [L2 _]. destruct (sin_lip h 0) as [L3 _]. rewrite sin_0, !Rminus_0_r in L2, L3.
    assert (X1 : Rabs (x - h) <= 102 / 100 * u * Rabs h). { rewrite Ea. replace (h * a - h) with ((a - 1) * h) by ring. rewrite Rabs_mult. apply Rmult_le_compat_r; lra. }
    assert (X2 : Rabs x <= 101 / 100 * Rabs h). { replace x with ((x - h) + h) by ring. eapply Rle_trans; [apply Rabs_triang|]. assert (u * Rabs h <= 1 / 6800 * Rabs h) by (apply Rmult_le_compat_r; lra). lra. }
    assert (F1 : Rabs f <= 101 / 100). { replace f with ((f - 1) + 1) by ring. eapply Rle_trans; [apply Rabs_triang|]. rewrite Rabs_R1. lra. }
    eapply Rle_trans; [apply Rabs_triang|]. eapply Rle_trans; [apply Rplus_le_compat_r, Rabs_triang|]. rewrite !Rabs_mult.
    assert (P1 : Rabs (fsin x - sin x) * Rabs f <= s * (101 / 100 * Rabs h) * (101 / 100)).
    { apply Rmult_le_compat; try apply Rabs_pos; [|exact F1]. eapply Rle_trans; [exact R1|]. apply Rmult_le_compat_l; lra. }
    assert (P2 : Rabs (sin x - sin h) * Rabs f <= 102 / 100 * u * Rabs h * (101 / 100)) by (apply Rmult_le_compat; try apply Rabs_pos; lra).
    assert (P3 : Rabs (sin h) * Rabs (f - 1) <= Rabs h * (204 / 100 * u)) by (apply Rmult_le_compat; try apply Rabs_pos; lra).
    assert (0 <= u * Rabs h) by (apply Rmult_le_pos; lra). assert (0 <= s * Rabs h) by (apply Rmult_le_pos; lra). lra.
  - apply R_ltb_false in B. pose proof (rnd_err u rnd RN (1 / 10 ^ 5)) as E. rewrite (Rabs_right (1 / 10 ^ 5)) in E by lra. apply Rabs_le_between in E. eexists. split; [reflexivity|]. replace (2 * (1 / 2)) with 1 by field.
    pose proof (rnd_err u rnd RN 1) as E1. rewrite Rabs_R1 in E1. replace (rnd 1 - sinc2 (w / 2)) with ((rnd 1 - 1) + (1 - sinc2 (w / 2))) by ring. eapply Rle_trans; [apply Rabs_triang|]. rewrite (Rabs_right (1 - _)) by lra.
    assert (w * w <= 1001 / 10 ^ 13). { replace (w * w) with (Rabs w * Rabs w) by (rewrite <- Rabs_mult; apply Rabs_right; nra). apply (Rle_trans _ (100016 / 10 ^ 10 * (100016 / 10 ^ 10))); [apply Rmult_le_compat; try apply Rabs_pos; lra|lra]. }
    replace (w / 2 * (w / 2) / 6) with (w * w / 24) in S2 by field. lra.
Qed.
Lemma half_turn_ok w p : Rabs w <= 7 / 2 ->
  len2 (sub2 (fl_mv2 rnd (fl_so2_exp fsin fcos (rnd (w * - (1 / 2)))) p) (mv2 (so2_exp (- (w / 2))) p)) <= (3 * s + 11 * u) * len2 p.
Proof.
  intros W. pose proof s0' as s0''. pose proof Hu as Hu'. set (x := rnd (w * - (1 / 2))). destruct (C99_exp s fsin fcos TR x) as (r & Rr & Tr & D). apply turns_is in Tr. subst r.
  destruct (C60_so2_exp_ln) as (_ & Rt & _). pose proof (turn_lip x (- (w / 2))) as L. assert (X : Rabs (x - - (w / 2)) <= 7 / 4 * u).
  { unfold x. replace (- (w / 2)) with (w * - (1 / 2)) by field. eapply Rle_trans; [apply (rnd_err u rnd RN)|]. rewrite Rabs_mult, Rabs_Ropp, (Rabs_right (1 / 2)) by lra. assert (u * (Rabs w * (1 / 2)) <= u * (7 / 4)) by (apply Rmult_le_compat_l; lra). lra. }
  pose proof (dist2_tri (fl_so2_exp fsin fcos x) (so2_exp x) (so2_exp (- (w / 2)))) as T. unfold exp_error2 in D.
  destruct (C99_near_rotation u rnd RN (fl_so2_exp fsin fcos x) (so2_exp (- (w / 2))) (2 * s + 7 / 2 * u) (proj1 (Rt _)) ltac:(lra)) as [_ N]. eapply Rle_trans; [apply N|]. apply Rmult_le_compat_r; [apply len2_nonneg|].
  pose proof (fwd3 u rnd RN ltac:(lra)) as F3. pose proof (fwd_nonneg u 3 ltac:(lra)) as F0. assert ((2 * s + 7 / 2 * u) * fwd u 3 <= 1 / 1000 * fwd u 3) by (apply Rmult_le_compat_r; lra). lra.
Qed.
(** the linear part: divided by the divisor *)
Lemma quot2_ok w p N' d : Rabs w <= 7 / 2 -> len2 (sub2 N' (mv2 (so2_exp (- (w / 2))) p)) <= (3 * s + 11 * u) * len2 p -> Rabs (d - sinc2 (w / 2)) <= 4 * u + 2 * s + 5 / 10 ^ 12 ->
  d <> 0 /\ len2 (sub2 (mk2 (rnd (ux N' / d)) (rnd (uy N' / d))) (vback2 w p)) <= ln_trans_error2 u s * len2 p.
Proof.
  intros W HN HD. pose proof s0' as s0''. pose proof Hu as Hu'. destruct (sinc2_rng _ (half_ok2 w W)) as [S _]. pose proof (inv_rng _ S) as I. apply Rabs_le_between in HD as HD'. assert (d0 : 479 / 1000 <= d) by lra. split; [lra|].
  set (N := mv2 (so2_exp (- (w / 2))) p) in *. assert (LN : len2 N = len2 p) by apply turn_len. pose proof (len2_nonneg p) as P. set (m := len2 p) in *. set (k := sinc2 (w / 2)) in *.
  assert (Id : 0 <= / d <= 209 / 100). { split; [left; apply Rinv_0_lt_compat; lra|]. apply (Rmult_le_reg_r d); [lra|]. rewrite Rinv_l by lra. lra. }
  assert (Ik : Rabs (/ d - / k) <= 436 / 100 * (4 * u + 2 * s + 5 / 10 ^ 12)).
  { replace (/ d - / k) with (- (d - k) * (/ d * / k)) by (field; lra). rewrite Rabs_mult, Rabs_Ropp, Rmult_comm. apply Rmult_le_compat; try apply Rabs_pos; [|exact HD]. rewrite Rabs_right by nra. apply (Rle_trans _ (209 / 100 * (25 / 12))); [apply Rmult_le_compat; lra|lra]. }
  set (eS := 4 * u + 2 * s + 5 / 10 ^ 12) in *. set (eR := 3 * s + 11 * u) in *.
  assert (LN' : len2 N' <= 101 / 100 * m). { pose proof (len2_near N' N). assert (eR * m <= 1 / 100 * m) by (apply Rmult_le_compat_r; unfold eR; lra). lra. }
  pose proof (len2_nonneg N') as P'. assert (T1 : len2 (sub2 (mk2 (rnd (ux N' / d)) (rnd (uy N' / d))) (scale2 (/ d) N')) <= u * (209 / 100 * (101 / 100 * m))).
  { apply (Rle_trans _ (u * len2 (scale2 (/ d) N'))).
    - apply len2_rel; [lra| |]; unfold sub2, scale2; cbn [ux uy]; unfold Rdiv; rewrite (Rmult_comm _ (/ d)); apply (rnd_err u rnd RN).
    - rewrite len2_sc, Rabs_right by lra. apply Rmult_le_compat_l; [lra|]. apply Rmult_le_compat; lra. }
  assert (T2 : len2 (sub2 (scale2 (/ d) N') (vback2 w p)) <= 209 / 100 * (eR * m) + 436 / 100 * eS * m).
  { unfold vback2. fold k N. replace (sub2 (scale2 (/ d) N') (scale2 (/ k) N)) with (add2 (scale2 (/ d) (sub2 N' N)) (scale2 (/ d - / k) N)) by (unfold sub2, add2, scale2; cbn [ux uy]; f_equal; ring).
    eapply Rle_trans; [apply len2_add|]. rewrite !len2_sc, LN, (Rabs_right (/ d)) by lra. apply Rplus_le_compat; [apply Rmult_le_compat; try lra; apply len2_nonneg|apply Rmult_le_compat_r; assumption]. }
  eapply Rle_trans; [apply (len2_tri _ (scale2 (/ d) N'))|]. unfold ln_trans_error2.
  apply (Rle_trans _ ((u * (209 / 100 * (101 / 100)) + 209 / 100 * eR + 436 / 100 * eS) * m)); [lra|]. apply Rmult_le_compat_r; [exact P|]. unfold eR, eS. lra.
Qed.
Variable fatan2 : R -> R -> R.
Lemma se2_ln_ok T : Rabs (fl_so2_ln fatan2 (rot2 T)) <= 7 / 2 -> exists v, fl_se2_ln rnd fsin fcos fatan2 T = Ok v /\ vz v = fl_so2_ln fatan2 (rot2 T) /\
  len2 (sub2 (mk2 (vx v) (vy v)) (vback2 (vz v) (trans2 T))) <= ln_trans_error2 u s * len2 (trans2 T).
Proof.
  intros W. unfold fl_se2_ln. set (w := fl_so2_ln fatan2 (rot2 T)) in *. cbv zeta. destruct (shtot2_ok w W) as (sh & -> & D). cbn [bind].
  destruct (quot2_ok w (trans2 T) _ _ W (half_turn_ok w (trans2 T) W) D) as [d0 Q]. rewrite (fl_div_ok rnd) by exact d0. cbn [bind]. rewrite (fl_div_ok rnd) by exact d0. cbn [bind]. eexists. split; [reflexivity|]. split; [reflexivity|]. exact Q.
Qed.
End S.
