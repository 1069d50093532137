(** * SE2 in floating point: the translation of the exponential. *)
From Coq Require Import Reals Lra Lia Psatz.
From Verif Require Import Base Alg Inst ModelLie SpecLie LemLie LemSO3 LemSO3b ModelSE LemFro RSum ModelFl SpecFl LemFl LemFlChol ModelFlSO3 SpecFlSO3 SpecFlHist LemFlSO3 LemFlSO3c LemFlSO3d ModelFlSE3 SpecFlSE3 LemFlSE3 ModelFl2D SpecFl2D LemFl2D.
Open Scope outcome_scope.
Local Open Scope R_scope.

Lemma len2_nonneg v : 0 <= len2 v.
Proof. rewrite <- len_up. apply len3_nonneg. Qed.
Lemma len2_add a b : len2 (add2 a b) <= len2 a + len2 b.
Proof. rewrite <- !len_up, <- add_up. apply len3_add. Qed.
Lemma len2_tri a b c : len2 (sub2 a c) <= len2 (sub2 a b) + len2 (sub2 b c).
Proof. rewrite <- !len_up, <- !sub_up. apply len3_tri. Qed.
Lemma len2_near a b : len2 a <= len2 b + len2 (sub2 a b).
Proof. rewrite <- !len_up, <- sub_up. apply len3_near. Qed.
Lemma len2_sc k v : len2 (scale2 k v) = Rabs k * len2 v.
Proof. rewrite <- !len_up, <- scale_up. apply len3_sc. Qed.
Lemma len2_self v : len2 (sub2 v v) = 0.
Proof. unfold len2, sub2, dot2. cbn [ux uy]. rewrite !Rminus_diag_eq by reflexivity. rewrite Rmult_0_l, Rplus_0_l. apply sqrt_0. Qed.
(** the error of every element at most k times the element *)
Lemma len2_rel e v k : 0 <= k -> Rabs (ux e) <= k * Rabs (ux v) -> Rabs (uy e) <= k * Rabs (uy v) -> len2 e <= k * len2 v.
Proof.
  intros K X Y. replace (k * len2 v) with (len2 (scale2 k v)) by (rewrite len2_sc, Rabs_right by lra; reflexivity). rewrite <- !len_up.
  apply len3_comp; unfold up, scale2; cbn [vx vy vz ux uy]; rewrite ?Rabs_mult, ?(Rabs_right k) by lra; try assumption. lra.
Qed.

(** the two coefficients of the exact translation: [sin w / w] and [(1 - cos w) / w] *)
Definition sinc2 (w : R) : R := if Req_EM_T w 0 then 1 else sin w / w.
Definition cosc2 (w : R) : R := if Req_EM_T w 0 then 0 else (1 - cos w) / w.
Definition left2 (v : V2) : V2 := mk2 (- uy v) (ux v).
Definition vexp2 (w : R) (v : V2) : V2 := add2 (scale2 (sinc2 w) v) (scale2 (cosc2 w) (left2 v)).
Lemma carried2_is w v p : carried2 w v p <-> p = vexp2 w v.
Proof.
  unfold carried2, vexp2, sinc2, cosc2. destruct (Req_EM_T w 0) as [E|E].
  - replace (add2 (scale2 1 v) (scale2 0 (left2 v))) with v by (clear; destruct v as [x y]; unfold add2, scale2, left2; cbn [ux uy]; f_equal; ring). split; [intros [A _]; auto|intros ->; split; [reflexivity|contradiction]].
  - replace (add2 _ _) with (mk2 ((sin w * ux v - (1 - cos w) * uy v) / w) (((1 - cos w) * ux v + sin w * uy v) / w)).
    + split; [intros [_ A]; auto|intros ->; split; [contradiction|reflexivity]].
    + destruct v as [x y]; unfold add2, scale2, left2; cbn [ux uy]; f_equal; field; assumption.
Qed.
Lemma coef_unit w : sinc2 w * sinc2 w + cosc2 w * cosc2 w <= 1 /\ -1 <= sinc2 w <= 1 /\ -1 <= cosc2 w <= 1.
Proof.
  assert (A : sinc2 w * sinc2 w + cosc2 w * cosc2 w <= 1).
  { unfold sinc2, cosc2. destruct (Req_EM_T w 0) as [E|E]; [lra|]. assert (W : 0 < w * w) by nra.
    replace (sin w / w * (sin w / w) + (1 - cos w) / w * ((1 - cos w) / w)) with ((sin w * sin w + cos w * cos w + 1 - 2 * cos w) / (w * w)) by (field; assumption).
    apply (Rmult_le_reg_r (w * w)); [exact W|]. unfold Rdiv. rewrite Rmult_assoc, Rinv_l, Rmult_1_r by lra. pose proof (sin2_cos2 w) as S2. unfold Rsqr in S2. rewrite S2.
    destruct (Rle_dec 0 w) as [P|P]; [destruct (one_cos w P) as [[_ O] _]; lra|]. destruct (one_cos (- w) ltac:(lra)) as [[_ O] _]. rewrite cos_neg in O. lra. }
  split; [exact A|]. split; nra.
Qed.
Lemma vexp2_len w v : len2 (vexp2 w v) <= len2 v.
Proof.
  unfold len2. apply sqrt_le_1_alt. destruct (coef_unit w) as [A _]. unfold vexp2. set (a := sinc2 w) in *. set (b := cosc2 w) in *. clearbody a b. destruct v as [x y]. unfold add2, scale2, left2, dot2. cbn [ux uy].
  replace ((a * x + b * - y) * (a * x + b * - y) + (a * y + b * x) * (a * y + b * x)) with ((a * a + b * b) * (x * x + y * y)) by ring. assert (0 <= x * x + y * y) by nra. nra.
Qed.

Section S.
Variables (u : R) (rnd : R -> R).
Hypothesis RN : rounding u rnd.
Hypothesis U : u <= 1 / 6800.
Notation ur := (u_rng u rnd RN).
Let U' : u <= 1 / 1000. Proof. lra. Qed.

Lemma fl_add2_near a b p q d e : len2 (sub2 a p) <= d -> len2 (sub2 b q) <= e -> len2 (sub2 (fl_add2 rnd a b) (add2 p q)) <= d + e + u * (len2 (add2 p q) + d + e).
Proof.
  intros D E. pose proof ur as Hu. pose proof (fl_add_err u rnd RN (up a) (up b)) as F. rewrite (fl_add_up u rnd RN), add_up, sub_up, !len_up in F.
  eapply Rle_trans; [apply (len2_tri _ (add2 a b))|].
  assert (G : len2 (sub2 (add2 a b) (add2 p q)) <= d + e).
  { replace (sub2 (add2 a b) (add2 p q)) with (add2 (sub2 a p) (sub2 b q)) by (clear; destruct a as [a1 a2], b as [b1 b2], p as [p1 p2], q as [q1 q2]; unfold add2, sub2; cbn [ux uy]; f_equal; ring). pose proof (len2_add (sub2 a p) (sub2 b q)). lra. }
  pose proof (len2_near (add2 a b) (add2 p q)). assert (u * len2 (add2 a b) <= u * (len2 (add2 p q) + d + e)) by (apply Rmult_le_compat_l; lra). lra.
Qed.
Definition cross2 (w : R) (v : V2) : V2 := mk2 (rnd (- w * uy v)) (rnd (w * ux v)).
Lemma near_mul A x k a : Rabs (A - k) <= a -> Rabs k <= 1 -> Rabs (rnd (A * x) - k * x) <= (a + u * (1 + a)) * Rabs x.
Proof.
  intros H K. pose proof ur as Hu. pose proof (rnd_err u rnd RN (A * x)) as E. replace (rnd (A * x) - k * x) with ((rnd (A * x) - A * x) + (A - k) * x) by ring.
  eapply Rle_trans; [apply Rabs_triang|]. rewrite Rabs_mult in E. rewrite (Rabs_mult (A - k)). pose proof (Rabs_pos x).
  assert (Rabs A <= 1 + a). { replace A with ((A - k) + k) by ring. eapply Rle_trans; [apply Rabs_triang|]. lra. }
  assert (Rabs (A - k) * Rabs x <= a * Rabs x) by (apply Rmult_le_compat_r; assumption). assert (u * (Rabs A * Rabs x) <= u * ((1 + a) * Rabs x)) by (apply Rmult_le_compat_l; [lra|]; apply Rmult_le_compat_r; assumption). lra.
Qed.
Lemma near_mul2 B w x k b : Rabs (B * w - k) <= b -> Rabs k <= 1 -> b <= 1 / 100 -> Rabs (rnd (B * rnd (w * x)) - k * x) <= (b + 21 / 10 * u) * Rabs x.
Proof.
  intros H K Hb. pose proof ur as Hu. destruct (rnd_fac u rnd RN (w * x)) as (d & D & ->). destruct (rnd_fac u rnd RN (B * (w * x * d))) as (e & E & ->).
  pose proof (fac_num u rnd RN U' 2 _ ltac:(lia) (fac_mul u 1 1 _ _ Hu D E)) as F. replace (INR 2) with 2 in F by (cbn; lra).
  replace (B * (w * x * d) * e - k * x) with ((B * w * (d * e - 1) + (B * w - k)) * x) by ring. rewrite Rabs_mult. apply Rmult_le_compat_r; [apply Rabs_pos|].
  eapply Rle_trans; [apply Rabs_triang|]. rewrite Rabs_mult. assert (Rabs (B * w) <= 1 + b). { replace (B * w) with ((B * w - k) + k) by ring. eapply Rle_trans; [apply Rabs_triang|]. lra. }
  assert (Rabs (B * w) * Rabs (d * e - 1) <= (1 + b) * (204 / 100 * u)) by (apply Rmult_le_compat; try apply Rabs_pos; lra). assert (b * u <= 1 / 100 * u) by (apply Rmult_le_compat_r; lra). lra.
Qed.
Lemma trans_err2 w v A B a b : Rabs (A - sinc2 w) <= a -> Rabs (B * w - cosc2 w) <= b -> a <= 1 / 100 -> b <= 1 / 100 ->
  len2 (sub2 (fl_add2 rnd (fl_scale2 rnd A v) (fl_scale2 rnd B (cross2 w v))) (vexp2 w v)) <= (5 * u + a + b) * len2 v /\
  (A = 1 -> len2 (sub2 (fl_add2 rnd v (fl_scale2 rnd B (cross2 w v))) (vexp2 w v)) <= (5 * u + a + b) * len2 v).
Proof.
  intros HA HB Ha Hb. pose proof ur as Hu. destruct (coef_unit w) as (_ & K1 & K2). assert (a0 : 0 <= a) by (pose proof (Rabs_pos (A - sinc2 w)); lra). assert (b0 : 0 <= b) by (pose proof (Rabs_pos (B * w - cosc2 w)); lra).
  assert (K1' : Rabs (sinc2 w) <= 1) by (apply Rabs_le_between; lra). assert (K2' : Rabs (cosc2 w) <= 1) by (apply Rabs_le_between; lra). pose proof (len2_nonneg v) as M. set (m := len2 v) in *.
  assert (X1 : len2 (sub2 (fl_scale2 rnd A v) (scale2 (sinc2 w) v)) <= (a + u * (1 + a)) * m).
  { apply len2_rel; [|apply (near_mul A (ux v) _ _ HA K1')|apply (near_mul A (uy v) _ _ HA K1')]. assert (0 <= u * (1 + a)) by (apply Rmult_le_pos; lra). lra. }
  assert (X1' : A = 1 -> len2 (sub2 v (scale2 (sinc2 w) v)) <= a * m).
  { intros ->. replace (sub2 v (scale2 (sinc2 w) v)) with (scale2 (1 - sinc2 w) v) by (clear; destruct v as [x y]; unfold sub2, scale2; cbn [ux uy]; f_equal; ring). rewrite len2_sc. apply Rmult_le_compat_r; assumption. }
  assert (X2 : len2 (sub2 (fl_scale2 rnd B (cross2 w v)) (scale2 (cosc2 w) (left2 v))) <= (b + 21 / 10 * u) * m).
  { replace m with (len2 (left2 v)) by (unfold m, len2, left2, dot2; cbn [ux uy]; f_equal; ring). apply len2_rel; [lra| |].
    - unfold sub2, fl_scale2, cross2, scale2, left2. cbn [ux uy]. replace (- w * uy v) with (w * - uy v) by ring. apply (near_mul2 B w (- uy v) _ _ HB K2' Hb).
    - apply (near_mul2 B w (ux v) _ _ HB K2' Hb). }
  pose proof (vexp2_len w v) as L. fold m in L. assert (um : 0 <= u * m) by (apply Rmult_le_pos; lra). assert (ua : 0 <= u * a <= u * (1 / 100)) by (split; [apply Rmult_le_pos; lra|apply Rmult_le_compat_l; lra]).
  assert (Fin : forall x, x <= (a + 102 / 100 * u) * m -> 0 <= x -> x + (b + 21 / 10 * u) * m + u * (len2 (vexp2 w v) + x + (b + 21 / 10 * u) * m) <= (5 * u + a + b) * m).
  { intros x Hx X0. assert (len2 (vexp2 w v) + x + (b + 21 / 10 * u) * m <= 11 / 10 * m). { assert ((a + b + 312 / 100 * u) * m <= 1 / 10 * m) by (apply Rmult_le_compat_r; lra). lra. }
    assert (u * (len2 (vexp2 w v) + x + (b + 21 / 10 * u) * m) <= u * (11 / 10 * m)) by (apply Rmult_le_compat_l; lra). lra. }
  split.
  - eapply Rle_trans; [apply (fl_add2_near _ _ _ _ _ _ X1 X2)|]. apply Fin; [apply Rmult_le_compat_r; lra|apply Rmult_le_pos; lra].
  - intros E. eapply Rle_trans; [apply (fl_add2_near _ _ _ _ _ _ (X1' E) X2)|]. apply Fin; [apply Rmult_le_compat_r; lra|apply Rmult_le_pos; lra].
Qed.
Variables (s : R) (fsin fcos : R -> R).
Hypothesis TR : trig s fsin fcos.
Hypothesis Hs : s <= 1 / 10 ^ 6.
Let s_pos : 0 <= s. Proof. destruct (TR 0) as [H _]. pose proof (Rabs_pos (fsin 0 - sin 0)). lra. Qed.
Lemma sinc2_div w x d : w <> 0 -> Rabs (x * w - sin w) <= d * Rabs w -> Rabs (x - sinc2 w) <= d.
Proof.
  intros W H. unfold sinc2. destruct (Req_EM_T w 0); [contradiction|]. pose proof (Rabs_pos_lt w W). apply (Rmult_le_reg_r (Rabs w)); [assumption|]. rewrite <- Rabs_mult. replace ((x - sin w / w) * w) with (x * w - sin w) by (field; assumption). exact H.
Qed.
Lemma cosc2_div w x d : w <> 0 -> Rabs (x * w - (1 - cos w)) <= d * Rabs w -> Rabs (x - cosc2 w) <= d.
Proof.
  intros W H. unfold cosc2. destruct (Req_EM_T w 0); [contradiction|]. pose proof (Rabs_pos_lt w W). apply (Rmult_le_reg_r (Rabs w)); [assumption|]. rewrite <- Rabs_mult. replace ((x - (1 - cos w) / w) * w) with (x * w - (1 - cos w)) by (field; assumption). exact H.
Qed.
(** for an angle of at most 1: the Taylor sums *)
Lemma sin_taylor w : Rabs w <= 1 -> Rabs (sin w - w) <= Rabs w ^ 3 / 6 /\ Rabs (sin w - (w - w ^ 3 / 6 + w ^ 5 / 120)) <= Rabs w ^ 7 / 5040.
Proof.
  assert (P : forall x, 0 <= x <= 1 -> Rabs (sin x - x) <= x ^ 3 / 6 /\ Rabs (sin x - (x - x ^ 3 / 6 + x ^ 5 / 120)) <= x ^ 7 / 5040).
  { intros x H. assert (Pi : 3 < PI) by (pose proof PI2_3_2; lra). pose proof (sin_bounds x ltac:(lra) ltac:(lra)) as [A B]. assert (X3 : 0 <= x ^ 3) by (apply pow_le; lra). assert (X5 : 0 <= x ^ 5) by (apply pow_le; lra). assert (X7 : 0 <= x ^ 7) by (apply pow_le; lra).
    assert (x ^ 5 <= x ^ 3). { replace (x ^ 5) with (x ^ 3 * (x * x)) by ring. rewrite <- (Rmult_1_r (x ^ 3)) at 2. apply Rmult_le_compat_l; [assumption|nra]. } split; apply Rabs_le_between; lra. }
  intros H. destruct (Rle_dec 0 w) as [W|W].
  - rewrite (Rabs_right w) in * by lra. apply P. lra.
  - rewrite (Rabs_left w) in * by lra. destruct (P (- w) ltac:(lra)) as [A B]. rewrite sin_neg in A, B. rewrite <- Rabs_Ropp in A, B. replace (- (- sin w - - w)) with (sin w - w) in A by ring.
    replace (- (- sin w - (- w - (- w) ^ 3 / 6 + (- w) ^ 5 / 120))) with (sin w - (w - w ^ 3 / 6 + w ^ 5 / 120)) in B by (field). split; assumption.
Qed.
Lemma cos_taylor w : Rabs w <= 1 -> Rabs (1 - cos w - w * w / 2) <= w ^ 4 / 24 /\ Rabs (1 - cos w - (w * w / 2 - w ^ 4 / 24)) <= w ^ 6 / 720.
Proof.
  assert (P : forall x, 0 <= x <= 1 -> Rabs (1 - cos x - x * x / 2) <= x ^ 4 / 24 /\ Rabs (1 - cos x - (x * x / 2 - x ^ 4 / 24)) <= x ^ 6 / 720).
  { intros x H. assert (Pi : 3 < PI) by (pose proof PI2_3_2; lra). pose proof (cos_bounds x ltac:(lra) ltac:(lra)) as [A B]. assert (X4 : 0 <= x ^ 4) by (apply pow_le; lra). assert (X6 : 0 <= x ^ 6) by (apply pow_le; lra).
    assert (x ^ 6 <= x ^ 4). { replace (x ^ 6) with (x ^ 4 * (x * x)) by ring. rewrite <- (Rmult_1_r (x ^ 4)) at 2. apply Rmult_le_compat_l; [assumption|nra]. }
    replace (x ^ 2) with (x * x) in * by ring. split; apply Rabs_le_between; lra. }
  intros H. destruct (Rle_dec 0 w) as [W|W].
  - rewrite (Rabs_right w) in * by lra. apply P. lra.
  - rewrite (Rabs_left w) in * by lra. destruct (P (- w) ltac:(lra)) as [A B]. rewrite cos_neg in A, B. replace (- w * - w) with (w * w) in * by ring. replace ((- w) ^ 4) with (w ^ 4) in * by ring. replace ((- w) ^ 6) with (w ^ 6) in * by ring. split; assumption.
Qed.
Lemma zero_cross v : cross2 0 v = mk2 0 0.
Proof. unfold cross2. rewrite Ropp_0, !Rmult_0_l, !(rnd_0 u rnd RN). reflexivity. Qed.
(** the coefficients computed by the series *)
Lemma series_ok w z c : z = w * w -> z <= 102 / 100 * (1 / 10 ^ 6) -> fac u 1 c -> let ts := z * c in
  let A := rnd (1 - rnd (rnd (ts * rnd (1 / 6)) * rnd (1 - rnd (rnd (1 / 20) * ts)))) in let B := rnd (1 / 2 - rnd (rnd (1 / 4 * rnd (1 / 6)) * ts)) in
  Rabs (A - (1 - z / 6 + z * z / 120)) <= 102 / 100 * u /\ Rabs (B - (1 / 2 - z / 24)) <= u.
Proof.
  intros Ez Zb Fc ts A B. pose proof ur as Hu. assert (z0 : 0 <= z) by (rewrite Ez; nra). subst A B ts.
  destruct (rnd_fac u rnd RN (1 / 6)) as (d6 & F6 & ->). destruct (rnd_fac u rnd RN (1 / 20)) as (d20 & F20 & ->).
  destruct (rnd_fac u rnd RN (z * c * (1 / 6 * d6))) as (e1 & Fe1 & ->). destruct (rnd_fac u rnd RN (1 / 20 * d20 * (z * c))) as (e2 & Fe2 & ->). destruct (rnd_fac u rnd RN (1 - 1 / 20 * d20 * (z * c) * e2)) as (e3 & Fe3 & ->).
  match goal with |- context [rnd (1 - rnd ?x)] => destruct (rnd_fac u rnd RN x) as (e4 & Fe4 & ->) end.
  destruct (rnd_fac u rnd RN (1 / 4 * (1 / 6 * d6))) as (e5 & Fe5 & ->). destruct (rnd_fac u rnd RN (1 / 4 * (1 / 6 * d6) * e5 * (z * c))) as (e6 & Fe6 & ->).
  pose proof (fac_num u rnd RN U' 5 _ ltac:(lia) (fac_mul u 4 1 _ _ Hu (fac_mul u 3 1 _ _ Hu (fac_mul u 2 1 _ _ Hu (fac_mul u 1 1 _ _ Hu Fc F6) Fe1) Fe3) Fe4)) as K1. replace (INR 5) with 5 in K1 by (cbn; lra).
  pose proof (fac_num u rnd RN U' 3 _ ltac:(lia) (fac_mul u 2 1 _ _ Hu (fac_mul u 1 1 _ _ Hu Fc F20) Fe2)) as K2. replace (INR 3) with 3 in K2 by (cbn; lra).
  pose proof (fac_num u rnd RN U' 4 _ ltac:(lia) (fac_mul u 3 1 _ _ Hu (fac_mul u 2 1 _ _ Hu (fac_mul u 1 1 _ _ Hu Fc F6) Fe5) Fe6)) as K3. replace (INR 4) with 4 in K3 by (cbn; lra).
  replace (z * c * (1 / 6 * d6) * e1 * ((1 - 1 / 20 * d20 * (z * c) * e2) * e3) * e4) with (z * (1 / 6 * (c * d6 * e1 * e3 * e4) * (1 - 1 / 20 * (z * (c * d20 * e2))))) by ring.
  replace (1 / 4 * (1 / 6 * d6) * e5 * (z * c) * e6) with (z * (1 / 24 * (c * d6 * e5 * e6))) by field.
  set (f1 := c * d6 * e1 * e3 * e4) in *. set (f2 := c * d20 * e2) in *. set (f3 := c * d6 * e5 * e6) in *. clearbody f1 f2 f3. clear Fc F6 F20 Fe1 Fe2 Fe3 Fe4 Fe5 Fe6 e1 e2 e3 e4 e5 e6 d6 d20 Ez. apply Rabs_le_between in K1, K2, K3.
  assert (uz : 0 <= u * z <= u * (102 / 100 * (1 / 10 ^ 6))) by (split; [apply Rmult_le_pos; lra|apply Rmult_le_compat_l; lra]).
  pose proof (box z (f2 - 1) (102 / 100 * (1 / 10 ^ 6)) (307 / 100 * u) ltac:(lra) ltac:(lra)) as Z2.
  assert (H2 : - (1 / 10 ^ 6 * u) <= (1 - 1 / 20 * (z * f2)) - (1 - 1 / 20 * z) <= 1 / 10 ^ 6 * u) by lra. set (q := 1 - 1 / 20 * (z * f2)) in *.
  assert (H3 : - (u * 1) <= 1 / 6 * f1 * q - 1 / 6 * (1 - 1 / 20 * z) <= u * 1).
  { pose proof (box (f1 - 1) q (512 / 100 * u) (101 / 100) ltac:(lra) ltac:(lra)). lra. }
  set (p := 1 / 6 * f1 * q) in *. assert (H4 : - (1 / 10 ^ 5 * u) <= z * p - z * (1 / 6 * (1 - 1 / 20 * z)) <= 1 / 10 ^ 5 * u) by (pose proof (box z (p - 1 / 6 * (1 - 1 / 20 * z)) (102 / 100 * (1 / 10 ^ 6)) u ltac:(lra) ltac:(lra)); lra).
  assert (zp : 0 <= z * p <= 1) by nra. assert (z3 : 0 <= z * (1 / 24 * f3) <= 1 / 10 ^ 6) by nra. pose proof (box z (f3 - 1) (102 / 100 * (1 / 10 ^ 6)) (41 / 10 * u) ltac:(lra) ltac:(lra)) as Z3. split.
  - pose proof (rnd_err u rnd RN (1 - z * p)) as E. assert (Rabs (1 - z * p) <= 1) by (apply Rabs_le_between; lra). assert (u * Rabs (1 - z * p) <= u * 1) by (apply Rmult_le_compat_l; lra). assert (E' : Rabs (rnd (1 - z * p) - (1 - z * p)) <= u) by lra.
    apply Rabs_le_between in E'. apply Rabs_le_between. lra.
  - set (y := z * (1 / 24 * f3)) in *. assert (Y : y = 1 / 24 * (z * f3)) by (unfold y; ring). pose proof (rnd_err u rnd RN (1 / 2 - y)) as E. assert (Rabs (1 / 2 - y) <= 1 / 2) by (apply Rabs_le_between; lra). assert (u * Rabs (1 / 2 - y) <= u * (1 / 2)) by (apply Rmult_le_compat_l; lra).
    assert (E' : Rabs (rnd (1 / 2 - y) - (1 / 2 - y)) <= u * (1 / 2)) by lra. apply Rabs_le_between in E'. apply Rabs_le_between. lra.
Qed.
Lemma fl_se2_exp_ok mu : exists q, fl_se2_exp rnd fsin fcos mu = Ok q /\ rot2 q = fl_so2_exp fsin fcos (vz mu) /\
  len2 (sub2 (trans2 q) (vexp2 (vz mu) (mk2 (vx mu) (vy mu)))) <= (20 * u + 2100 * s + 2 / 10 ^ 9) * len2 (mk2 (vx mu) (vy mu)).
Proof.
  pose proof ur as Hu. destruct mu as [x y w]. cbn [vx vy vz]. unfold fl_se2_exp. cbn [vx vy vz]. cbv zeta. set (v := mk2 x y). fold (cross2 w v). change (mk2 (rnd (- w * y)) (rnd (w * x))) with (cross2 w v).
  pose proof (len2_nonneg v) as M. set (m := len2 v) in *.
  destruct (rnd_fac u rnd RN (w * w)) as (c & Fc & ->). set (z := w * w). set (t := Rabs w). assert (Et : t * t = z) by (unfold t, z; rewrite <- Rabs_mult; apply Rabs_right; nra). pose proof (Rabs_pos w) as t0. fold t in t0.
  assert (z0 : 0 <= z) by (unfold z; nra). pose proof (fac_num u rnd RN U' 1 c ltac:(lia) Fc) as Kc. replace (INR 1) with 1 in Kc by (cbn; lra). apply Rabs_le_between in Kc.
  assert (Thr : forall e, 0 < e -> z * c < rnd e -> z <= 102 / 100 * e).
  { intros e He H. pose proof (rnd_err u rnd RN e) as E. rewrite (Rabs_right e) in E by lra. apply Rabs_le_between in E. nra. }
  assert (Thr' : forall e, 0 < e -> rnd e <= z * c -> 98 / 100 * e <= z).
  { intros e He H. pose proof (rnd_err u rnd RN e) as E. rewrite (Rabs_right e) in E by lra. apply Rabs_le_between in E. nra. }
  assert (Sl : forall r, 0 <= r -> z <= r * r -> t <= r) by (intros r Hr H; apply sq_le; lra).
  assert (Sl' : forall r, 0 <= r -> r * r <= z -> r <= t) by (intros r Hr H; apply sq_le; lra).
  assert (Fin : forall k, k <= 20 * u + 2100 * s + 2 / 10 ^ 9 -> k * m <= (20 * u + 2100 * s + 2 / 10 ^ 9) * m) by (intros k Hk; apply Rmult_le_compat_r; assumption).
  assert (P0 : w = 0 -> sinc2 w = 1 /\ cosc2 w = 0) by (intros ->; unfold sinc2, cosc2; destruct (Req_EM_T 0 0); [split; reflexivity|lra]).
  destruct (R_ltb (z * c) (rnd (1 / 10 ^ 8))) eqn:B1; [|destruct (R_ltb (z * c) (rnd (1 / 10 ^ 6))) eqn:B2].
  - apply R_ltb_spec in B1. pose proof (Thr (1 / 10 ^ 8) ltac:(lra) B1) as Zb. pose proof (Sl (101 / 100 * (1 / 10 ^ 4)) ltac:(lra) ltac:(lra)) as Tb.
    eexists. split; [reflexivity|]. split; [reflexivity|]. cbn [trans2].
    assert (HA : Rabs (1 - sinc2 w) <= 171 / 10 ^ 11 /\ Rabs (1 / 2 * w - cosc2 w) <= 1 / 10 ^ 12).
    { destruct (Req_dec w 0) as [W|W].
      - destruct (P0 W) as [-> ->]. rewrite W, Rmult_0_r, !Rminus_diag_eq, Rabs_R0 by reflexivity. lra.
      - assert (W1 : Rabs w <= 1) by (fold t; lra). destruct (sin_taylor w W1) as [S1 _]. destruct (cos_taylor w W1) as [C1 _]. fold t in S1. split.
        + apply sinc2_div; [exact W|]. rewrite Rmult_1_l, <- Rabs_Ropp. replace (- (w - sin w)) with (sin w - w) by ring. eapply Rle_trans; [exact S1|]. fold t. replace (t ^ 3 / 6) with (z / 6 * t) by (rewrite <- Et; field). apply Rmult_le_compat_r; lra.
        + apply cosc2_div; [exact W|]. fold t. rewrite <- Rabs_Ropp. replace (- (1 / 2 * w * w - (1 - cos w))) with (1 - cos w - w * w / 2) by field. eapply Rle_trans; [exact C1|]. replace (w ^ 4 / 24) with (z * z / 24) by (unfold z; field). rewrite <- Et at 2. replace (z * (t * t) / 24) with (z * t / 24 * t) by field. apply Rmult_le_compat_r; [lra|].
          assert (z * t <= 102 / 100 * (1 / 10 ^ 8) * (101 / 100 * (1 / 10 ^ 4))) by (apply Rmult_le_compat; lra). lra. }
    destruct HA as [HA HB]. destruct (trans_err2 w v 1 (1 / 2) _ _ HA HB ltac:(lra) ltac:(lra)) as [_ G]. fold m in G. eapply Rle_trans; [apply G; reflexivity|]. apply Fin. lra.
  - clear B1. apply R_ltb_spec in B2. pose proof (Thr (1 / 10 ^ 6) ltac:(lra) B2) as Zb. pose proof (Sl (101 / 100 * (1 / 10 ^ 3)) ltac:(lra) ltac:(lra)) as Tb.
    destruct (series_ok w z c eq_refl Zb Fc) as [EA EB]. cbv zeta in EA, EB. cbn [bind]. set (A := rnd (1 - rnd (rnd (z * c * rnd (1 / 6)) * rnd (1 - rnd (rnd (1 / 20) * (z * c)))))) in *. set (B := rnd (1 / 2 - rnd (rnd (1 / 4 * rnd (1 / 6)) * (z * c)))) in *. clearbody A B.
    eexists. split; [reflexivity|]. split; [reflexivity|]. cbn [trans2].
    assert (zz : 0 <= z * z <= 105 / 100 * (1 / 10 ^ 12)) by nra. assert (zzz : 0 <= z * z * z <= 11 / 10 * (1 / 10 ^ 18)). { split; [apply Rmult_le_pos; lra|]. apply (Rle_trans _ (105 / 100 * (1 / 10 ^ 12) * (102 / 100 * (1 / 10 ^ 6)))); [apply Rmult_le_compat; lra|lra]. }
    assert (HA : Rabs (A - sinc2 w) <= 102 / 100 * u + 1 / 10 ^ 18 /\ Rabs (B * w - cosc2 w) <= u + 1 / 10 ^ 14).
    { destruct (Req_dec w 0) as [W|W].
      - destruct (P0 W) as [-> ->]. assert (z = 0) as Z by (unfold z; rewrite W; ring). rewrite Z in EA. replace (1 - 0 / 6 + 0 * 0 / 120) with 1 in EA by field. rewrite W, Rmult_0_r, Rminus_0_r, Rabs_R0. lra.
      - assert (W1 : Rabs w <= 1) by (fold t; lra). destruct (sin_taylor w W1) as [_ S1]. destruct (cos_taylor w W1) as [_ C1]. fold t in S1. split.
        + apply sinc2_div; [exact W|]. fold t. replace (A * w - sin w) with ((A - (1 - z / 6 + z * z / 120)) * w - (sin w - (w - w ^ 3 / 6 + w ^ 5 / 120))) by (unfold z; field).
          eapply Rle_trans; [apply Rabs_triang|]. rewrite Rabs_Ropp, Rabs_mult. fold t. assert (Rabs (A - (1 - z / 6 + z * z / 120)) * t <= 102 / 100 * u * t) by (apply Rmult_le_compat_r; assumption).
          replace (t ^ 7 / 5040) with (z * z * z / 5040 * t) in S1 by (rewrite <- Et; field). assert (z * z * z / 5040 * t <= 1 / 10 ^ 18 * t) by (apply Rmult_le_compat_r; lra). lra.
        + apply cosc2_div; [exact W|]. fold t. replace (B * w * w - (1 - cos w)) with ((B - (1 / 2 - z / 24)) * w * w - (1 - cos w - (w * w / 2 - w ^ 4 / 24))) by (unfold z; field).
          eapply Rle_trans; [apply Rabs_triang|]. rewrite Rabs_Ropp, !Rabs_mult. fold t. assert (Rabs (B - (1 / 2 - z / 24)) * t * t <= u * t). { apply Rmult_le_compat_r; [assumption|]. assert (Rabs (B - (1 / 2 - z / 24)) * t <= u * 1) by (apply Rmult_le_compat; try apply Rabs_pos; lra). lra. }
          replace (w ^ 6 / 720) with (z * z * z / 720) in C1 by (unfold z; field). rewrite <- Et in C1 at 3. replace (z * z * (t * t) / 720) with (z * z * t / 720 * t) in C1 by field.
          assert (z * z * t / 720 * t <= 1 / 10 ^ 14 * t). { apply Rmult_le_compat_r; [assumption|]. assert (z * z * t <= 105 / 100 * (1 / 10 ^ 12) * 1) by (apply Rmult_le_compat; lra). lra. } lra. }
    destruct HA as [HA HB]. destruct (trans_err2 w v A B _ _ HA HB ltac:(lra) ltac:(lra)) as [G _]. fold m in G. eapply Rle_trans; [exact G|]. apply Fin. lra.
  - clear B1. apply R_ltb_false in B2. pose proof (Thr' (1 / 10 ^ 6) ltac:(lra) B2) as Zb. pose proof (Sl' (98 / 100 * (1 / 10 ^ 3)) ltac:(lra) ltac:(lra)) as Tb.
    assert (W : w <> 0) by (intros ->; unfold t in Tb; rewrite Rabs_R0 in Tb; lra). rewrite (fl_div_ok rnd 1 w) by assumption. cbn [bind]. unfold fl_so2_exp. cbn [s0 s1 ux uy].
    eexists. split; [reflexivity|]. split; [reflexivity|]. cbn [trans2].
    destruct (rnd_fac u rnd RN (1 / w)) as (i & Fi & ->). destruct (rnd_fac u rnd RN (fsin w * (1 / w * i))) as (e1 & Fe1 & EA). destruct (rnd_fac u rnd RN (1 - fcos w)) as (e2 & Fe2 & ->).
    destruct (rnd_fac u rnd RN (1 / w * i * (1 / w * i))) as (e3 & Fe3 & ->). destruct (rnd_fac u rnd RN ((1 - fcos w) * e2 * (1 / w * i * (1 / w * i) * e3))) as (e4 & Fe4 & EB).
    set (A := rnd (fsin w * (1 / w * i))) in *. set (B := rnd ((1 - fcos w) * e2 * (1 / w * i * (1 / w * i) * e3))) in *.
    pose proof (fac_num u rnd RN U' 2 _ ltac:(lia) (fac_mul u 1 1 _ _ Hu Fi Fe1)) as KA. replace (INR 2) with 2 in KA by (cbn; lra). apply Rabs_le_between in KA.
    pose proof (fac_num u rnd RN U' 5 _ ltac:(lia) (fac_mul u 4 1 _ _ Hu (fac_mul u 3 1 _ _ Hu (fac_mul u 2 1 _ _ Hu (fac_mul u 1 1 _ _ Hu Fi Fi) Fe2) Fe3) Fe4)) as KB. replace (INR 5) with 5 in KB by (cbn; lra). apply Rabs_le_between in KB.
    assert (XA : A * w = fsin w * (i * e1)) by (rewrite EA; field; assumption). assert (XB : B * w * w = (1 - fcos w) * (i * i * e2 * e3 * e4)) by (rewrite EB; field; assumption).
    set (fa := i * e1) in *. set (fb := i * i * e2 * e3 * e4) in *. clearbody A B fa fb. clear EA EB.
    destruct (TR w) as [Ts Tc]. apply Rabs_le_between in Ts, Tc.
    assert (Sa : - t <= sin w <= t). { apply Rabs_le_between. destruct (sin_lip w 0) as [L _]. rewrite sin_0, !Rminus_0_r in L. exact L. }
    assert (Ca : 0 <= 1 - cos w <= t). { pose proof (COS_bound w). split; [lra|]. destruct (sin_lip w 0) as [_ L]. rewrite cos_0, Rminus_0_r in L. fold t in L. apply Rabs_le_between in L. lra. }
    assert (st : s <= 1021 * s * t) by (assert (1021 * (98 / 100 * (1 / 10 ^ 3)) * s <= 1021 * t * s) by (apply Rmult_le_compat_r; lra); lra). assert (ut : 0 <= u * t) by nra.
    assert (HA : Rabs (A - sinc2 w) <= 3 * u + 1030 * s).
    { apply sinc2_div; [exact W|]. fold t. rewrite XA. replace (fsin w * fa - sin w) with ((fsin w - sin w) * fa + sin w * (fa - 1)) by ring.
      pose proof (box (fsin w - sin w) fa s (1002 / 1000) ltac:(lra) ltac:(lra)). pose proof (box (sin w) (fa - 1) t (204 / 100 * u) ltac:(lra) ltac:(lra)). apply Rabs_le_between. lra. }
    assert (HB : Rabs (B * w - cosc2 w) <= 6 * u + 1030 * s).
    { apply cosc2_div; [exact W|]. fold t. rewrite XB. replace ((1 - fcos w) * fb - (1 - cos w)) with (- (fcos w - cos w) * fb + (1 - cos w) * (fb - 1)) by ring.
      pose proof (box (- (fcos w - cos w)) fb s (1002 / 1000) ltac:(lra) ltac:(lra)). pose proof (box (1 - cos w) (fb - 1) t (51 / 10 * u) ltac:(lra) ltac:(lra)). apply Rabs_le_between. lra. }
    destruct (trans_err2 w v A B _ _ HA HB ltac:(lra) ltac:(lra)) as [G _]. fold m in G. eapply Rle_trans; [exact G|]. apply Fin. lra.
Qed.
End S.
