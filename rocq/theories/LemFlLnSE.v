(** * Error of the linear part of SE3::ln. *)
From Coq Require Import Reals Lra Lia Psatz Bool.
From Verif Require Import Base Alg Inst ModelLie SpecLie LemLie LemSO3 LemSO3c ModelSE SpecSE LemSE LemSE3 ModelFl ModelFlSO3 SpecFl LemFl SpecFlSO3 SpecFlHist LemFro LemFlSO3 LemFlSO3b LemFlSO3c LemFlSO3d ModelFlSE3 SpecFlSE3 LemFlSE3 LemFlChol PropFlSO3 ModelFlLn SpecFlLn LemFlLn LemFlLn2.
Open Scope outcome_scope.
Local Open Scope R_scope.

Lemma PI_347 : PI <= 347 / 100.
Proof. pose proof (proj2 (PI_ineq 1)) as H. unfold tg_alt, PI_tg in H. cbn in H. lra. Qed.
Lemma pow_le_n x n b : 0 <= x <= b -> 0 <= x ^ n <= b ^ n.
Proof. intros H. split; [apply pow_le; lra|apply pow_incr; lra]. Qed.
(** sin h / h, also at zero *)
Lemma sinc h : 0 <= h <= 7 / 4 -> exists S0, S0 * h = sin h /\ 48 / 100 <= S0 <= 1 /\ h * h / 6 - h ^ 4 / 120 <= 1 - S0 <= h * h / 6.
Proof.
  intros H. destruct (Req_dec h 0) as [->|N].
  - exists 1. rewrite sin_0. repeat split; lra.
  - assert (H0 : 0 < h) by lra. pose proof PI2_3_2. destruct (sin_bounds h ltac:(lra) ltac:(lra)) as [[A B] _]. exists (sin h / h). split; [field; lra|].
    assert (L : 1 - h * h / 6 <= sin h / h) by (apply (Rmult_le_reg_r h); [exact H0|]; replace (sin h / h * h) with (sin h) by (field; lra); nra).
    assert (G : sin h / h <= 1 - h * h / 6 + h ^ 4 / 120) by (apply (Rmult_le_reg_r h); [exact H0|]; replace (sin h / h * h) with (sin h) by (field; lra); nra).
    assert (sin h / h <= 1) by (apply (Rmult_le_reg_r h); [exact H0|]; replace (sin h / h * h) with (sin h) by (field; lra); pose proof (sin_abs h ltac:(lra)) as SA; apply Rabs_le_between in SA; lra).
    repeat split; nra.
Qed.
(** the velocity that reaches p *)
Definition vback (a : V3) (h S0 : R) (p : V3) : V3 := scale3 (1 / S0) (sub3 (rotate a (- h) p) (scale3 ((1 - S0) * dot3 a p) a)).
Lemma vback_comb a h S0 p : S0 <> 0 -> vback a h S0 p = comb a (cos h / S0) (- sin h / S0) 1 p.
Proof.
  intros N. unfold vback. rewrite rotate_comb, cos_neg, sin_neg. unfold comb. set (k := dot3 a p). clearbody k. dv. lie_unfold. f_equal; field; exact N.
Qed.
Lemma vback_reaches a t S0 p : dot3 a a = 1 -> 0 < t -> S0 * (t / 2) = sin (t / 2) -> S0 <> 0 -> swept a t (scale3 (1 / t) (vback a (t / 2) S0 p)) = p.
Proof.
  intros A T E N. rewrite <- Etr_swept. unfold Etr. rewrite vback_comb, comb_scale, comb_comb by assumption. rewrite <- (comb_id a p) at 2.
  set (h := t / 2) in *. assert (Et : t = 2 * h) by (unfold h; field). rewrite Et, sin_2a, cos_2a_sin. pose proof (sin2_cos2 h) as P. unfold Rsqr in P.
  f_equal.
  - replace (_ - _) with (2 * sin h * (sin h * sin h + cos h * cos h) / (2 * h * S0)) by (field; lra). rewrite P, <- E. field. lra.
  - field. lra.
  - field. lra.
Qed.

Lemma half_neg t a : scale3 (t / 2) (neg3 a) = scale3 (- (1 / 2)) (scale3 t a).
Proof. unfold neg3. dv. lie_unfold. f_equal; field. Qed.
Lemma neg_unit a : dot3 (neg3 a) (neg3 a) = dot3 a a.
Proof. unfold neg3. dv. lie_unfold. ring. Qed.
Lemma rotate_neg a h p : rotate (neg3 a) h p = rotate a (- h) p.
Proof. unfold rotate. rewrite cos_neg, sin_neg. unfold neg3. dv. lie_unfold. f_equal; ring. Qed.
Lemma dot_sc_r p t a : dot3 p (scale3 t a) = t * dot3 a p.
Proof. dv. lie_unfold. ring. Qed.
Lemma dot_sc_sc t a : dot3 (scale3 t a) (scale3 t a) = t * t * dot3 a a.
Proof. dv. lie_unfold. ring. Qed.

Lemma sub_sub x k a : sub3 (sub3 x (scale3 k a)) x = scale3 (- k) a.
Proof. dv. lie_unfold. f_equal; ring. Qed.
Lemma sub_4 x c y d : sub3 (sub3 x y) (sub3 c d) = sub3 (sub3 x c) (sub3 y d).
Proof. dv. lie_unfold. f_equal; ring. Qed.
Lemma len3_sub_le x y : len3 (sub3 x y) <= len3 x + len3 y.
Proof. replace (sub3 x y) with (add3 x (scale3 (-1) y)) by (dv; lie_unfold; f_equal; ring). eapply Rle_trans; [apply len3_add|]. rewrite len3_sc, Rabs_left by lra. lra. Qed.

Section S.
Variables (u : R) (rnd : R -> R).
Hypothesis RN : rounding u rnd.
Hypothesis U : u <= 1 / 6800.
Notation ur := (u_rng u rnd RN).
Let U' : u <= 1 / 1000. Proof. lra. Qed.
Variables (s : R) (fsin fcos : R -> R).
Hypothesis TR : trig s fsin fcos.
Hypothesis RS : relative_sine s fsin.
Hypothesis Hs : s <= 1 / 1000.
Variables (a p : V3) (t : R).
Hypothesis A : dot3 a a = 1.
Hypothesis T : 0 <= t <= 35 / 10.
Notation l := (scale3 t a).
Notation P := (len3 p).
Variable S0 : R.
Hypothesis Se : S0 * (t / 2) = sin (t / 2).
Hypothesis Sr : 48 / 100 <= S0 <= 1.
Hypothesis Sd : t / 2 * (t / 2) / 6 - (t / 2) ^ 4 / 120 <= 1 - S0 <= t / 2 * (t / 2) / 6.
Notation th := (rnd (sqrt (fl_dot3 rnd l l))).
Definition eS : R := 10 * u + 2 * s + 5 / 10 ^ 12.
Lemma s0 : 0 <= s.
Proof. pose proof (proj1 (TR 0)) as H. pose proof (Rabs_pos (fsin 0 - sin 0)). lra. Qed.
Lemma len_l : len3 l = t.
Proof. rewrite len3_sc, (unit_len a A), Rabs_right by lra. ring. Qed.
Lemma th_val : exists k, Rabs (k - 1) <= 31 / 10 * u /\ Rabs (/ k - 1) <= 31 / 10 * u /\ 0 < k /\ th = t * k.
Proof.
  pose proof ur as Hu. destruct (fl_len u rnd RN U' l) as (k & F & E). rewrite len_l in E. exists k. pose proof (fac_pos u 3 k Hu F) as Pk. pose proof (bwd_num u rnd RN U' 3 ltac:(lia)) as B. replace (INR 3) with 3 in B by (cbn; lra).
  pose proof (fac_err u 3 k Hu F). pose proof (fac_err u 3 _ Hu (fac_inv u 3 k Hu F)). repeat split; lra.
Qed.
Ltac ab H := apply Rabs_le_between in H.
Lemma shtot_ok : exists sh, (if R_ltb (rnd (1 / 10 ^ 5)) th then @div R (FlOps rnd) (fsin (rnd (th / 2))) th else Ok (1 / 2)) = Ok sh /\ Rabs (rnd (2 * sh) - S0) <= eS.
Proof.
  pose proof ur as Hu. pose proof s0 as s1. destruct th_val as (k & K1 & K2 & K0 & ->). pose proof (rnd_err u rnd RN (1 / 10 ^ 5)) as L. rewrite (Rabs_right (1 / 10 ^ 5)) in L by lra. ab L. ab K1. ab K2.
  destruct (R_ltb (rnd (1 / 10 ^ 5)) (t * k)) eqn:Z.
  - apply R_ltb_spec in Z. assert (T0 : 0 < t) by nra. rewrite (fl_div_ok rnd _ (t * k)) by nra. eexists. split; [reflexivity|].
    set (h := t / 2) in *. assert (Eh : t = 2 * h) by (unfold h; field). assert (H0 : 0 < h) by lra.
    pose proof (rnd_err u rnd RN (t * k / 2)) as X. replace (t * k / 2) with (h * k) in * by (unfold h; field). set (x := rnd (h * k)) in *. rewrite (Rabs_right (h * k)) in X by nra.
    assert (X1 : Rabs (x - h) <= 42 / 10 * u * h).
    { replace (x - h) with ((x - h * k) + h * (k - 1)) by ring. eapply Rle_trans; [apply Rabs_triang|]. rewrite Rabs_mult, (Rabs_right h) by lra.
      assert (h * Rabs (k - 1) <= h * (31 / 10 * u)) by (apply Rmult_le_compat_l; [lra|]; apply Rabs_le_between; lra). assert (u * (h * k) <= u * (h * (11 / 10))) by (apply Rmult_le_compat_l; [lra|]; apply Rmult_le_compat_l; lra). lra. }
    assert (Uh : 42 / 10 * u * h <= 1 / 100 * h) by (apply Rmult_le_compat_r; lra). pose proof X1 as X2. ab X2.
    pose proof (RS x) as F. pose proof (sin_abs x ltac:(lra)) as SA. pose proof (proj1 (sin_lip x h)) as SL. pose proof (Rabs_pos (sin x)).
    assert (F1 : Rabs (fsin x - sin h) <= (101 / 100 * s + 42 / 10 * u) * h).
    { replace (fsin x - sin h) with ((fsin x - sin x) + (sin x - sin h)) by ring. eapply Rle_trans; [apply Rabs_triang|]. assert (s * Rabs (sin x) <= s * (101 / 100 * h)) by (apply Rmult_le_compat_l; lra). lra. }
    set (q := fsin x / (t * k)). assert (Hk : 0 < h * k) by nra.
    assert (F2 : Rabs (2 * q - S0) <= 102 / 100 * s + 74 / 10 * u).
    { replace (2 * q - S0) with (((fsin x - sin h) / h - S0 * (k - 1)) * / k) by (unfold q; rewrite Eh, <- Se; field; lra). rewrite Rabs_mult, (Rabs_right (/ k)) by (left; apply Rinv_0_lt_compat; lra).
      assert (G : Rabs ((fsin x - sin h) / h - S0 * (k - 1)) <= 101 / 100 * s + 73 / 10 * u).
      { unfold Rminus at 1. eapply Rle_trans; [apply Rabs_triang|]. rewrite Rabs_Ropp, Rabs_mult. unfold Rdiv. rewrite Rabs_mult, (Rabs_right (/ h)) by (left; apply Rinv_0_lt_compat; lra).
        assert (Rabs (fsin x - sin h) * / h <= (101 / 100 * s + 42 / 10 * u)) by (apply (Rmult_le_reg_r h); [exact H0|]; rewrite Rmult_assoc, Rinv_l, Rmult_1_r by lra; exact F1).
        assert (Rabs S0 * Rabs (k - 1) <= 1 * (31 / 10 * u)) by (apply Rmult_le_compat; try apply Rabs_pos; apply Rabs_le_between; lra). lra. }
      assert (Rabs ((fsin x - sin h) / h - S0 * (k - 1)) * / k <= (101 / 100 * s + 73 / 10 * u) * (1 + 31 / 10 * u)) by (apply Rmult_le_compat; [apply Rabs_pos|left; apply Rinv_0_lt_compat; lra|exact G|lra]).
      assert ((101 / 100 * s + 73 / 10 * u) * (31 / 10 * u) <= (101 / 100 * s + 73 / 10 * u) * (1 / 1000)) by (apply Rmult_le_compat_l; lra). lra. }
    pose proof F2 as F3. ab F3. assert (Q : Rabs q <= 6 / 10) by (apply Rabs_le_between; lra). pose proof (rnd_err u rnd RN q) as E1. assert (u * Rabs q <= u * (6 / 10)) by (apply Rmult_le_compat_l; lra).
    pose proof (rnd_to u rnd RN (2 * rnd q) S0 (102 / 100 * s + 86 / 10 * u) (11 / 10)) as E2. assert (E3 : Rabs (rnd q - q) <= 6 / 10 * u) by lra. ab E3.
    specialize (E2 ltac:(apply Rabs_le_between; lra) ltac:(apply Rabs_le_between; lra)). fold q. unfold eS. lra.
  - apply R_ltb_false in Z. exists (1 / 2). split; [reflexivity|]. pose proof (rnd_to u rnd RN (2 * (1 / 2)) S0 (5 / 10 ^ 12) 1) as E. unfold eS.
    assert (T1 : t <= 1001 / 1000 * (1 / 10 ^ 5)). { assert (t * (1 - 31 / 10 * u) <= t * k) by (apply Rmult_le_compat_l; lra). assert (t * (31 / 10 * u) <= t * (1 / 2000)) by (apply Rmult_le_compat_l; lra). lra. }
    assert (T2 : t / 2 * (t / 2) <= 1001 / 2000 * (1 / 10 ^ 5) * (1001 / 2000 * (1 / 10 ^ 5))) by (apply Rmult_le_compat; lra).
    specialize (E ltac:(apply Rabs_le_between; lra) ltac:(apply Rabs_le_between; lra)). lra.
Qed.
(** ** the half rotation *)
Definition eR : R := exp_error u s + 97 * u.
Lemma exp_half : mv3 (exp3 (scale3 (- (1 / 2)) l)) p = rotate a (- (t / 2)) p.
Proof.
  replace (scale3 (- (1 / 2)) l) with (scale3 (t / 2) (neg3 a)) by apply half_neg.
  rewrite exp3_unit by (try lra; rewrite neg_unit; exact A). rewrite rot_matrix_act. apply rotate_neg.
Qed.
Lemma half_ok : exists half, fl_so3_exp rnd fsin fcos (fl_scale3 rnd (- (1 / 2)) l) = Ok half /\ len3 (sub3 (fl_mv3 rnd half p) (rotate a (- (t / 2)) p)) <= eR * P.
Proof.
  pose proof ur as Hu. pose proof s0 as s1. pose proof (fl_scale_err u rnd RN (- (1 / 2)) l) as F. rewrite len_l, Rabs_left in F by lra. set (h := fl_scale3 rnd (- (1 / 2)) l) in *. clearbody h.
  destruct (fl_exp_ok u rnd RN U' s fsin fcos TR Hs h) as (m & k & E & K & D). exists m. split; [exact E|]. fold (exp_error u s) in D.
  set (w := scale3 (- (1 / 2)) l) in *. assert (Lw : len3 w = t / 2) by (unfold w; rewrite len3_sc, len_l, Rabs_left by lra; field).
  assert (F0 : u * (- - (1 / 2) * t) <= 175 / 100 * u) by (assert (u * t <= u * (35 / 10)) by (apply Rmult_le_compat_l; lra); lra).
  assert (W : len3 (sub3 (scale3 k h) w) <= 9 * u).
  { eapply Rle_trans; [apply (len3_tri _ (scale3 k w))|]. rewrite sc_sub_v, len3_sc. rewrite <- (scale3_1 w) at 3. rewrite sc_sub, len3_sc, Lw.
    assert (Rabs k <= 101 / 100) by (ab K; apply Rabs_le_between; lra). pose proof (len3_nonneg (sub3 h w)). assert (Rabs k * len3 (sub3 h w) <= 101 / 100 * (175 / 100 * u)) by (apply Rmult_le_compat; try lra; apply Rabs_pos).
    assert (Rabs (k - 1) * (t / 2) <= 4 * u * (175 / 100)) by (apply Rmult_le_compat; try lra; apply Rabs_pos). lra. }
  pose proof (exp3_lipschitz (scale3 k h) w) as L. pose proof (dist_tri m (exp3 (scale3 k h)) (exp3 w)) as T3. assert (D' : dist m (exp3 w) <= exp_error u s + 90 * u) by lra.
  pose proof (exp3_rotation w) as Q. destruct (C94_near_rotation u rnd RN m (exp3 w) _ Q D') as (_ & _ & _ & N). specialize (N p). unfold w in N. rewrite exp_half in N. fold w in N.
  eapply Rle_trans; [exact N|]. apply Rmult_le_compat_r; [apply len3_nonneg|]. pose proof (fwd3 u rnd RN U') as F3. pose proof (fwd_nonneg u 3 (proj1 Hu)) as F30.
  set (d := exp_error u s + 90 * u) in *. assert (Dd : 0 <= d <= 1 / 20) by (unfold d, exp_error; lra). assert (2 * (1 + d) * fwd u 3 <= 2 * (1 + 1 / 20) * (301 / 100 * u)) by (apply Rmult_le_compat; lra). unfold eR. fold d. replace (exp_error u s + 97 * u) with (d + 7 * u) by (unfold d; ring). lra.
Qed.
(** ** the correction along the axis *)
Notation dot_e := (dot3 a p).
Lemma dot_P : Rabs dot_e <= P.
Proof. pose proof (cs3_len a p) as H. rewrite (unit_len a A) in H. lra. Qed.
Lemma dpl : Rabs (fl_dot3 rnd p l - t * dot_e) <= 301 / 100 * u * (P * t).
Proof. pose proof (fl_dot3_err' u rnd RN U' p l) as H. rewrite len_l in H. replace (dot3 p l) with (t * dot_e) in H by (symmetry; apply dot_sc_r). exact H. Qed.
Definition eC : R := eS + 8 * u + 1 / 10 ^ 14.
Lemma eS_rng : 0 <= eS <= 1 / 250 /\ 10 * u <= eS.
Proof. pose proof ur. pose proof s0. unfold eS. lra. Qed.
Lemma corr_big sh : rnd (1 / 1000) < th -> Rabs (rnd (2 * sh) - S0) <= eS ->
  exists k, @div R (FlOps rnd) (rnd (fl_dot3 rnd p l * rnd (1 - rnd (2 * sh)))) (fl_dot3 rnd l l) = Ok k /\ len3 (sub3 (fl_scale3 rnd k l) (scale3 ((1 - S0) * dot_e) a)) <= eC * P.
Proof.
  intros Z H. pose proof ur as Hu. destruct eS_rng as ((e0 & e1) & e2). destruct th_val as (kk & K1 & K2 & K0 & Eth). rewrite Eth in Z. pose proof (rnd_err u rnd RN (1 / 1000)) as L. rewrite (Rabs_right (1 / 1000)) in L by lra. ab L.
  assert (T0 : 0 < t) by nra. destruct (fl_dot3_self u rnd RN U' l) as (c & Fc & Ec). replace (dot3 l l) with (t * t) in Ec by (transitivity (t * t * dot3 a a); [rewrite A; ring|symmetry; apply dot_sc_sc]).
  pose proof (fac_pos u 3 c Hu Fc) as Pc. rewrite Ec. assert (0 < t * t) by nra. rewrite (fl_div_ok rnd _ (t * t * c)) by nra. eexists. split; [reflexivity|].
  set (S1 := rnd (2 * sh)) in *. pose proof (rnd_to u rnd RN (1 - S1) (1 - S0) eS (11 / 10) ltac:(ab H; apply Rabs_le_between; lra) ltac:(ab H; apply Rabs_le_between; lra)) as Dl. set (dl := rnd (1 - S1)) in *. clearbody dl S1.
  pose proof dpl as D1. set (D := fl_dot3 rnd p l) in *. clearbody D. pose proof dot_P as DP. pose proof (len3_nonneg p) as P0. set (q := dot_e) in *.
  destruct (rnd_fac u rnd RN (D * dl)) as (f1 & F1 & E1). rewrite E1. destruct (rnd_fac u rnd RN (D * dl * f1 / (t * t * c))) as (f2 & F2 & E2). rewrite E2.
  pose proof (fac_mul u 2 3 _ _ Hu (fac_mul u 1 1 _ _ Hu F1 F2) (fac_inv u 3 c Hu Fc)) as Fg. set (g := f1 * f2 * / c) in *. pose proof (fac_err u _ g Hu Fg) as Ge. pose proof (bwd_num u rnd RN U' (2 + 3) ltac:(lia)) as B. replace (INR (2 + 3)) with 5 in B by (cbn; lra).
  assert (G : Rabs (g - 1) <= 52 / 10 * u) by lra. set (k := D * dl * f1 / (t * t * c) * f2). assert (Kt : k * t = D / t * dl * g) by (unfold k, g; field; lra).
  assert (Q1 : Rabs (D / t - q) <= 301 / 100 * u * P). { replace (D / t - q) with ((D - t * q) * / t) by (field; lra). rewrite Rabs_mult, (Rabs_right (/ t)) by (left; apply Rinv_0_lt_compat; exact T0). apply (Rmult_le_reg_r t); [exact T0|]. rewrite Rmult_assoc, Rinv_l, Rmult_1_r by lra. lra. }
  set (y := D / t) in *. clearbody y. assert (uP : 0 <= u * P) by (apply Rmult_le_pos; lra). assert (Y : Rabs y <= 101 / 100 * P). { replace y with ((y - q) + q) by ring. eapply Rle_trans; [apply Rabs_triang|]. assert (u * P <= 1 / 6800 * P) by (apply Rmult_le_compat_r; lra). lra. }
  assert (Da : Rabs dl <= 54 / 100) by (ab Dl; apply Rabs_le_between; lra).
  assert (M1 : Rabs (y * dl - (1 - S0) * q) <= (eS + 3 * u) * P).
  { replace (y * dl - (1 - S0) * q) with ((y - q) * dl + q * (dl - (1 - S0))) by ring. eapply Rle_trans; [apply Rabs_triang|]. rewrite !Rabs_mult.
    assert (Rabs (y - q) * Rabs dl <= 301 / 100 * u * P * (54 / 100)) by (apply Rmult_le_compat; try apply Rabs_pos; assumption). assert (Rabs q * Rabs (dl - (1 - S0)) <= P * (eS + u * (11 / 10))) by (apply Rmult_le_compat; try apply Rabs_pos; assumption). lra. }
  assert (M2 : Rabs (y * dl) <= 55 / 100 * P). { rewrite Rabs_mult. assert (Rabs y * Rabs dl <= 101 / 100 * P * (54 / 100)) by (apply Rmult_le_compat; try apply Rabs_pos; assumption). lra. }
  assert (M3 : Rabs (k * t - (1 - S0) * q) <= (eS + 6 * u) * P).
  { rewrite Kt. replace (y * dl * g - (1 - S0) * q) with (y * dl * (g - 1) + (y * dl - (1 - S0) * q)) by ring. eapply Rle_trans; [apply Rabs_triang|]. rewrite (Rabs_mult (y * dl)).
    assert (Rabs (y * dl) * Rabs (g - 1) <= 55 / 100 * P * (52 / 10 * u)) by (apply Rmult_le_compat; try apply Rabs_pos; assumption). lra. }
  assert (M4 : Rabs k * t <= 6 / 10 * P). { rewrite <- (Rabs_right t) by lra. rewrite <- Rabs_mult, Kt, Rabs_mult. assert (Rabs g <= 101 / 100) by (ab G; apply Rabs_le_between; lra). assert (Rabs (y * dl) * Rabs g <= 55 / 100 * P * (101 / 100)) by (apply Rmult_le_compat; try apply Rabs_pos; assumption). lra. }
  pose proof (fl_scale_err u rnd RN k l) as F. rewrite len_l in F. eapply Rle_trans; [apply (len3_tri _ (scale3 k l))|]. rewrite scale3_comm, sc_sub, len3_sc, (unit_len a A), Rmult_1_r.
  assert (u * (Rabs k * t) <= u * (6 / 10 * P)) by (apply Rmult_le_compat_l; lra). unfold eC. rewrite scale3_comm in F. lra.
Qed.
Lemma corr_small : th <= rnd (1 / 1000) -> len3 (sub3 (fl_scale3 rnd (rnd (fl_dot3 rnd p l / 24)) l) (scale3 ((1 - S0) * dot_e) a)) <= eC * P.
Proof.
  intros Z. pose proof ur as Hu. destruct eS_rng as ((e0 & e1) & e2). destruct th_val as (kk & K1 & K2 & K0 & Eth). rewrite Eth in Z. pose proof (rnd_err u rnd RN (1 / 1000)) as L. rewrite (Rabs_right (1 / 1000)) in L by lra. ab L. ab K1.
  assert (T1 : t <= 1001 / 1000 * (1 / 1000)). { assert (t * (1 - 31 / 10 * u) <= t * kk) by (apply Rmult_le_compat_l; lra). assert (t * (31 / 10 * u) <= t * (1 / 2000)) by (apply Rmult_le_compat_l; lra). lra. }
  pose proof dpl as D1. set (D := fl_dot3 rnd p l) in *. clearbody D. pose proof dot_P as DP. pose proof (len3_nonneg p) as P0. set (q := dot_e) in *. set (k := rnd (D / 24)).
  assert (uP : 0 <= u * P) by (apply Rmult_le_pos; lra). assert (tP : 0 <= P * t <= P * (2 / 1000)) by (split; [apply Rmult_le_pos; lra|apply Rmult_le_compat_l; lra]).
  assert (D2 : Rabs (D - t * q) <= 1 / 100 * (u * P)). { eapply Rle_trans; [exact D1|]. assert (u * (P * t) <= u * (P * (2 / 1000))) by (apply Rmult_le_compat_l; lra). lra. }
  assert (tq : Rabs (t * q) <= 2 / 1000 * P) by (rewrite Rabs_mult, (Rabs_right t) by lra; apply Rmult_le_compat; try lra; apply Rabs_pos).
  assert (u6 : u * P <= 1 / 6800 * P) by (apply Rmult_le_compat_r; lra).
  assert (K : Rabs (k - t * q / 24) <= u * P). { pose proof (rnd_to u rnd RN (D / 24) (t * q / 24) (1 / 100 * (u * P)) (P / 24) ltac:(ab D2; apply Rabs_le_between; lra) ltac:(ab D2; ab tq; apply Rabs_le_between; lra)) as X. fold k in X. lra. }
  assert (Ka : Rabs k <= P) by (ab K; ab tq; apply Rabs_le_between; lra).
  assert (M : Rabs (k * t - (1 - S0) * q) <= u * P + 1 / 10 ^ 14 * P).
  { replace (k * t - (1 - S0) * q) with ((k - t * q / 24) * t + q * (t * t / 24 - (1 - S0))) by field. eapply Rle_trans; [apply Rabs_triang|]. rewrite !Rabs_mult, (Rabs_right t) by lra.
    assert (Rabs (k - t * q / 24) * t <= u * P * 1) by (apply Rmult_le_compat; try lra; apply Rabs_pos). pose proof (pow_le_n (t / 2) 4 (1001 / 2000 * (1 / 1000)) ltac:(lra)) as P4.
    assert (Rabs q * Rabs (t * t / 24 - (1 - S0)) <= P * (1 / 10 ^ 14)). { apply Rmult_le_compat; try apply Rabs_pos; [exact DP|]. apply Rabs_le_between. lra. } lra. }
  pose proof (fl_scale_err u rnd RN k l) as F. rewrite len_l in F. eapply Rle_trans; [apply (len3_tri _ (scale3 k l))|]. rewrite scale3_comm, sc_sub, len3_sc, (unit_len a A), Rmult_1_r.
  assert (u * (Rabs k * t) <= u * (P * 1)) by (apply Rmult_le_compat_l; [lra|]; apply Rmult_le_compat; try lra; apply Rabs_pos). unfold eC. rewrite scale3_comm in F. assert (0 <= eS * P) by (apply Rmult_le_pos; lra). lra.
Qed.
(** ** putting it together *)
Lemma fl_sub_err x y : len3 (sub3 (fl_sub3 rnd x y) (sub3 x y)) <= u * len3 (sub3 x y).
Proof. apply (comp_err u rnd RN); unfold fl_sub3, sub3; cbn [vx vy vz]; apply (rnd_err u rnd RN). Qed.
Notation N := (sub3 (rotate a (- (t / 2)) p) (scale3 ((1 - S0) * dot_e) a)).
Lemma len_N : len3 N <= 152 / 100 * P.
Proof.
  assert (R0 : len3 (rotate a (- (t / 2)) p) = P) by (rewrite <- exp_half; apply rotation_len, exp3_rotation).
  pose proof (len3_near N (rotate a (- (t / 2)) p)) as H. rewrite R0 in H. replace (sub3 N (rotate a (- (t / 2)) p)) with (scale3 (- ((1 - S0) * dot_e)) a) in H by (symmetry; apply sub_sub).
  rewrite len3_sc, (unit_len a A), Rabs_Ropp, Rabs_mult, (Rabs_right (1 - S0)) in H by lra. pose proof dot_P as DP. assert ((1 - S0) * Rabs dot_e <= 52 / 100 * P) by (apply Rmult_le_compat; try lra; apply Rabs_pos). lra.
Qed.
Lemma diff_ok rt c : len3 (sub3 rt (rotate a (- (t / 2)) p)) <= eR * P -> len3 (sub3 c (scale3 ((1 - S0) * dot_e) a)) <= eC * P -> len3 (sub3 (fl_sub3 rnd rt c) N) <= (eR + eC + 16 / 10 * u) * P /\ len3 (fl_sub3 rnd rt c) <= 157 / 100 * P.
Proof.
  intros H1 H2. pose proof ur as Hu. pose proof s0 as s1. destruct eS_rng as ((e0 & e1) & e2). pose proof (len3_nonneg p) as P0. pose proof len_N as LN. set (n := N) in *.
  assert (eRC : 0 <= eR + eC <= 4 / 100) by (unfold eR, eC, exp_error; lra).
  assert (D : len3 (sub3 (sub3 rt c) n) <= (eR + eC) * P).
  { replace (sub3 (sub3 rt c) n) with (sub3 (sub3 rt (rotate a (- (t / 2)) p)) (sub3 c (scale3 ((1 - S0) * dot_e) a))) by (unfold n; apply sub_4).
    eapply Rle_trans; [apply len3_sub_le|]. lra. }
  pose proof (len3_near (sub3 rt c) n) as L1. assert (X : (eR + eC) * P <= 4 / 100 * P) by (apply Rmult_le_compat_r; lra). pose proof (fl_sub_err rt c) as F.
  assert (F' : u * len3 (sub3 rt c) <= u * (156 / 100 * P)) by (apply Rmult_le_compat_l; lra). assert (u * P <= 1 / 6800 * P) by (apply Rmult_le_compat_r; lra). assert (0 <= u * P) by (apply Rmult_le_pos; lra).
  pose proof (len3_tri (fl_sub3 rnd rt c) (sub3 rt c) n) as T3. split; [lra|]. pose proof (len3_near (fl_sub3 rnd rt c) (sub3 rt c)). lra.
Qed.
Lemma quot_ok v d : len3 (sub3 v N) <= (eR + eC + 16 / 10 * u) * P -> len3 v <= 157 / 100 * P -> Rabs (d - S0) <= eS ->
  exists w, (x <- @div R (FlOps rnd) (vx v) d ;; y <- @div R (FlOps rnd) (vy v) d ;; z <- @div R (FlOps rnd) (vz v) d ;; Ok (mk3 x y z)) = Ok w /\ len3 (sub3 w (scale3 (1 / S0) N)) <= ln_trans_error u s * P.
Proof.
  intros H1 H2 H3. pose proof ur as Hu. pose proof s0 as s1. destruct eS_rng as ((e0 & e1) & e2). pose proof (len3_nonneg p) as P0. pose proof len_N as LN. set (n := N) in *. clearbody n. pose proof H3 as H4. ab H4.
  assert (Dr : 476 / 1000 <= d) by lra. rewrite !(fl_div_ok rnd) by lra. cbn [bind]. eexists. split; [reflexivity|].
  assert (I1 : 0 <= 1 / d <= 211 / 100). { split; [left; apply Rdiv_lt_0_compat; lra|]. apply (Rmult_le_reg_r d); [lra|]. replace (1 / d * d) with 1 by (field; lra). lra. }
  assert (E1 : len3 (sub3 (mk3 (rnd (vx v / d)) (rnd (vy v / d)) (rnd (vz v / d))) (scale3 (1 / d) v)) <= u * (211 / 100 * (157 / 100 * P))).
  { apply (Rle_trans _ (u * len3 (scale3 (1 / d) v))).
    - apply (comp_err u rnd RN); unfold scale3; cbn [vx vy vz]; replace (1 / d * vx v) with (vx v / d) by (field; lra); replace (1 / d * vy v) with (vy v / d) by (field; lra); replace (1 / d * vz v) with (vz v / d) by (field; lra); apply (rnd_err u rnd RN).
    - apply Rmult_le_compat_l; [lra|]. rewrite len3_sc, (Rabs_right (1 / d)) by lra. apply Rmult_le_compat; try lra; apply len3_nonneg. }
  assert (E2 : len3 (sub3 (scale3 (1 / d) v) (scale3 (1 / d) n)) <= 211 / 100 * ((eR + eC + 16 / 10 * u) * P)).
  { rewrite sc_sub_v, len3_sc, (Rabs_right (1 / d)) by lra. apply Rmult_le_compat; try lra; apply len3_nonneg. }
  assert (E3 : len3 (sub3 (scale3 (1 / d) n) (scale3 (1 / S0) n)) <= 44 / 10 * eS * (152 / 100 * P)).
  { rewrite sc_sub, len3_sc. apply Rmult_le_compat; [apply Rabs_pos|apply len3_nonneg| |exact LN]. replace (1 / d - 1 / S0) with ((S0 - d) * (1 / d * (1 / S0))) by (field; lra). rewrite Rabs_mult, Rabs_minus_sym.
    assert (I0 : 0 <= 1 / S0 <= 20835 / 10000). { split; [left; apply Rdiv_lt_0_compat; lra|]. apply (Rmult_le_reg_r S0); [lra|]. replace (1 / S0 * S0) with 1 by (field; lra). lra. }
    assert (I2 : 0 <= 1 / d * (1 / S0) <= 44 / 10) by (split; [apply Rmult_le_pos; lra|]; apply (Rle_trans _ (211 / 100 * (20835 / 10000))); [apply Rmult_le_compat; lra|lra]).
    rewrite (Rabs_right (1 / d * (1 / S0))) by lra. rewrite Rmult_comm. apply Rmult_le_compat; try lra. apply Rabs_pos. }
  set (w := mk3 _ _ _) in *. pose proof (len3_tri w (scale3 (1 / d) v) (scale3 (1 / S0) n)) as T1. pose proof (len3_tri (scale3 (1 / d) v) (scale3 (1 / d) n) (scale3 (1 / S0) n)) as T2.
  apply (Rle_trans _ ((211 / 100 * (157 / 100) * u + 211 / 100 * (eR + eC + 16 / 10 * u) + 44 / 10 * eS * (152 / 100)) * P)); [lra|]. apply Rmult_le_compat_r; [exact P0|]. unfold ln_trans_error, eR, eC, eS, exp_error. lra.
Qed.
Lemma lin_ok : exists v, fl_se3_ln_lin rnd fsin fcos l p = Ok v /\ len3 (sub3 v (vback a (t / 2) S0 p)) <= ln_trans_error u s * P.
Proof.
  unfold fl_se3_ln_lin. cbv zeta. destruct shtot_ok as (sh & -> & Hsh). cbn [bind]. destruct half_ok as (half & -> & Hh). cbn [bind]. set (rt := fl_mv3 rnd half p) in *. clearbody rt.
  unfold vback. destruct (R_ltb (rnd (1 / 1000)) th) eqn:Z.
  - apply R_ltb_spec in Z. destruct (corr_big sh Z Hsh) as (k & -> & Hc). cbn [bind]. destruct (diff_ok rt _ Hh Hc) as [D1 D2]. exact (quot_ok _ _ D1 D2 Hsh).
  - apply R_ltb_false in Z. pose proof (corr_small Z) as Hc. cbn [bind]. destruct (diff_ok rt _ Hh Hc) as [D1 D2]. exact (quot_ok _ _ D1 D2 Hsh).
Qed.
End S.
