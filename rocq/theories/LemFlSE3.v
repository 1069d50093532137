(** * SE3 in floating point: the translation of the exponential. *)
From Coq Require Import Reals Lra Lia Psatz.
From Verif Require Import Base Alg Inst ModelLie SpecLie LemLie LemSO3 LemSO3b ModelSE SpecSE SpecFlSO3 LemFro RSum ModelFl SpecFl LemFl LemFlChol ModelFlSO3 SpecFlHist LemFlSO3 LemFlSO3c LemFlSO3d ModelFlSE3 SpecFlSE3.
Open Scope outcome_scope.
Local Open Scope R_scope.

Lemma box x y a b : - a <= x <= a -> - b <= y <= b -> - (a * b) <= x * y <= a * b.
Proof. intros X Y. apply Rabs_le_between in X, Y. apply Rabs_le_between. rewrite Rabs_mult. apply Rmult_le_compat; try apply Rabs_pos; assumption. Qed.
Lemma sin_abs x : 0 <= x -> Rabs (sin x) <= x.
Proof. intros H. destruct (sin_lip x 0) as [A _]. rewrite sin_0, !Rminus_0_r, (Rabs_right x) in A by lra. exact A. Qed.
Lemma one_cos x : 0 <= x -> 0 <= 1 - cos x <= x * x / 2 /\ 1 - cos x <= x.
Proof.
  intros H. pose proof (COS_bound x). assert (E : 1 - cos x = 2 * (sin (x / 2) * sin (x / 2))). { replace x with (2 * (x / 2)) at 1 by field. rewrite cos_2a_sin. ring. }
  pose proof (sin_abs (x / 2) ltac:(lra)) as S. apply Rabs_le_between in S. split; [split; [lra|]; rewrite E; nra|].
  destruct (Rle_dec x 2) as [L|L]; [|lra]. rewrite E. nra.
Qed.
(** the exact translation of the exponential *)
Definition beta l := (1 - cos l) / (l * l).
Definition gamma l := (l - sin l) / (l * l * l).
Definition vexp (w v : V3) : V3 := add3 (add3 v (scale3 (beta (len3 w)) (cross3 w v))) (scale3 (gamma (len3 w)) (cross3 w (cross3 w v))).
Lemma carried_vexp w v : carried w v (vexp w v).
Proof.
  split; intros W.
  - subst. unfold vexp. generalize (beta (len3 zero3)) (gamma (len3 zero3)). intros b g. clear. dv. lie_unfold. f_equal; ring.
  - pose proof (len3_pos w W) as L. set (a := direction w). assert (Ea : w = scale3 (len3 w) a). { unfold a, direction. clear - L. dv. lie_unfold. f_equal; field; lra. }
    assert (Da : dot3 a a = 1) by (rewrite <- len3_sq; unfold a; rewrite (direction_len w W); ring).
    unfold vexp. set (l := len3 w) in *. rewrite Ea. unfold swept, beta, gamma. clearbody a l. clear Ea W w.
    assert (I : cross3 a (cross3 a v) = sub3 (scale3 (dot3 a v) a) v). { transitivity (sub3 (scale3 (dot3 a v) a) (scale3 (dot3 a a) v)); [clear; dv; lie_unfold; f_equal; ring|rewrite Da; clear; dv; lie_unfold; f_equal; ring]. }
    replace (cross3 (scale3 l a) v) with (scale3 l (cross3 a v)) by (clear; dv; lie_unfold; f_equal; ring).
    replace (cross3 (scale3 l a) (scale3 l (cross3 a v))) with (scale3 (l * l) (cross3 a (cross3 a v))) by (clear; dv; lie_unfold; f_equal; ring). rewrite I.
    replace (dot3 a (scale3 (1 / l) v)) with (dot3 a v / l) by (clear - L; dv; lie_unfold; field; lra).
    set (k := dot3 a v). clearbody k. clear - L. dv. lie_unfold. f_equal; field; lra.
Qed.
Lemma vexp_len w v : len3 (vexp w v) <= len3 v.
Proof.
  destruct (V3_dec w zero3) as [->|W].
  - destruct (carried_vexp zero3 v) as [H _]. rewrite (H eq_refl). lra.
  - destruct (carried_vexp w v) as [_ H]. rewrite (H W). pose proof (len3_pos w W) as L. set (a := direction w). set (l := len3 w) in *.
    assert (Da : dot3 a a = 1) by (rewrite <- len3_sq; unfold a; rewrite (direction_len w W); ring). clearbody a.
    apply len3_le; [apply len3_nonneg|]. rewrite len3_sq.
    set (k := dot3 a v). set (p := sub3 v (scale3 k a)). set (c := cross3 a v).
    replace (swept a l (scale3 (1 / l) v)) with (add3 (add3 (scale3 (sin l / l) p) (scale3 ((1 - cos l) / l) c)) (scale3 k a)).
    2:{ unfold swept. replace (dot3 a (scale3 (1 / l) v)) with (k / l) by (unfold k; clear - L; dv; lie_unfold; field; lra). unfold p, c. clearbody k. clear - L. dv. lie_unfold. f_equal; field; lra. }
    assert (X : forall x y, dot3 (add3 (add3 (scale3 x p) (scale3 y c)) (scale3 k a)) (add3 (add3 (scale3 x p) (scale3 y c)) (scale3 k a)) =
      x * x * dot3 p p + y * y * dot3 c c + k * k * dot3 a a + 2 * (x * y) * dot3 p c + 2 * (x * k) * dot3 p a + 2 * (y * k) * dot3 c a) by (clearbody k p c; clear; intros; dv; lie_unfold; ring).
    assert (Pp : dot3 p p = dot3 v v - k * k). { transitivity (dot3 v v - 2 * k * dot3 a v + k * k * dot3 a a); [unfold p; clearbody k; clear; dv; lie_unfold; ring|rewrite Da; fold k; ring]. }
    assert (Cc : dot3 c c = dot3 v v - k * k). { transitivity (dot3 v v * dot3 a a - dot3 a v * dot3 a v); [unfold c; clear; dv; lie_unfold; ring|rewrite Da; fold k; ring]. }
    assert (Pc : dot3 p c = 0) by (unfold p, c; clearbody k; clear; dv; lie_unfold; ring).
    assert (Pa : dot3 p a = 0). { transitivity (dot3 a v - k * dot3 a a); [unfold p; clearbody k; clear; dv; lie_unfold; ring|rewrite Da; fold k; ring]. }
    assert (Ca : dot3 c a = 0) by (unfold c; clear; dv; lie_unfold; ring).
    rewrite X, Pp, Cc, Pc, Pa, Ca, Da. pose proof (dot3_nonneg p) as P0. rewrite Pp in P0. set (q := dot3 v v - k * k) in *.
    pose proof (sin2_cos2 l) as S2. unfold Rsqr in S2. destruct (one_cos l ltac:(lra)) as [[_ O] _].
    assert (Y : sin l / l * (sin l / l) + (1 - cos l) / l * ((1 - cos l) / l) <= 1).
    { replace (sin l / l * (sin l / l) + (1 - cos l) / l * ((1 - cos l) / l)) with ((sin l * sin l + cos l * cos l + 1 - 2 * cos l) / (l * l)) by (field; lra).
      apply (Rmult_le_reg_r (l * l)); [nra|]. unfold Rdiv. rewrite Rmult_assoc, Rinv_l, Rmult_1_r by nra. rewrite S2. lra. }
    set (x := sin l / l) in *. set (y := (1 - cos l) / l) in *. replace (dot3 v v) with (q + k * k) by (unfold q; ring). nra.
Qed.

Section S.
Variables (u : R) (rnd : R -> R).
Hypothesis RN : rounding u rnd.
Hypothesis U : u <= 1 / 6800.
Notation ur := (u_rng u rnd RN).
Let U' : u <= 1 / 1000. Proof. lra. Qed.

Lemma comp_err a b : Rabs (vx a - vx b) <= u * Rabs (vx b) -> Rabs (vy a - vy b) <= u * Rabs (vy b) -> Rabs (vz a - vz b) <= u * Rabs (vz b) -> len3 (sub3 a b) <= u * len3 b.
Proof.
  intros X Y Z. pose proof ur as Hu. replace (u * len3 b) with (len3 (scale3 u b)) by (rewrite len3_sc, Rabs_right by lra; reflexivity).
  apply len3_comp; unfold sub3, scale3; cbn [vx vy vz]; rewrite Rabs_mult, (Rabs_right u) by lra; assumption.
Qed.
Lemma fl_add_err a b : len3 (sub3 (fl_add3 rnd a b) (add3 a b)) <= u * len3 (add3 a b).
Proof. apply comp_err; unfold fl_add3, add3; cbn [vx vy vz]; apply (rnd_err u rnd RN). Qed.
Lemma fl_scale_err k a : len3 (sub3 (fl_scale3 rnd k a) (scale3 k a)) <= u * (Rabs k * len3 a).
Proof. rewrite <- len3_sc. apply comp_err; unfold fl_scale3, scale3; cbn [vx vy vz]; apply (rnd_err u rnd RN). Qed.
(** a sum of vectors known within d and e *)
Lemma fl_add_near a b p q d e : len3 (sub3 a p) <= d -> len3 (sub3 b q) <= e ->
  len3 (sub3 (fl_add3 rnd a b) (add3 p q)) <= d + e + u * (len3 p + len3 q + d + e).
Proof.
  intros D E. pose proof ur as Hu. pose proof (fl_add_err a b) as F. eapply Rle_trans; [apply (len3_tri _ (add3 a b))|].
  assert (G : len3 (sub3 (add3 a b) (add3 p q)) <= d + e).
  { replace (sub3 (add3 a b) (add3 p q)) with (add3 (sub3 a p) (sub3 b q)) by (clear; dv; lie_unfold; f_equal; ring). pose proof (len3_add (sub3 a p) (sub3 b q)). lra. }
  pose proof (len3_near (add3 a b) (add3 p q)). pose proof (len3_add p q). assert (u * len3 (add3 a b) <= u * (len3 p + len3 q + d + e)) by (apply Rmult_le_compat_l; lra). lra.
Qed.
(** a multiple of a vector: x' near x, the coefficient k' near k *)
Lemma fl_scale_near k k' a a' : len3 (sub3 (fl_scale3 rnd k a) (scale3 k' a')) <= Rabs k * (u * len3 a + len3 (sub3 a a')) + Rabs (k - k') * len3 a'.
Proof.
  pose proof (fl_scale_err k a) as F. eapply Rle_trans; [apply (len3_tri _ (scale3 k a))|].
  replace (sub3 (scale3 k a) (scale3 k' a')) with (add3 (scale3 k (sub3 a a')) (scale3 (k - k') a')) by (clear; dv; lie_unfold; f_equal; ring).
  pose proof (len3_add (scale3 k (sub3 a a')) (scale3 (k - k') a')) as G. rewrite !len3_sc in G. lra.
Qed.
Lemma trans_err w v B C b c : w <> zero3 -> let l := len3 w in let m := len3 v in
  Rabs (B * l - beta l * l) <= b -> b <= 1 / 100 ->
  len3 (sub3 (fl_add3 rnd v (fl_scale3 rnd B (fl_cross3 rnd w v))) (add3 v (scale3 (beta l) (cross3 w v)))) <= (8 * u + b) * m /\
  (Rabs (C * (l * l) - gamma l * (l * l)) <= c -> c <= 1 / 100 ->
   len3 (sub3 (fl_add3 rnd (fl_add3 rnd v (fl_scale3 rnd B (fl_cross3 rnd w v))) (fl_scale3 rnd C (fl_cross3 rnd w (fl_cross3 rnd w v)))) (vexp w v)) <= (32 * u + b + c) * m).
Proof.
  intros W l m HB Hb. pose proof ur as Hu. pose proof (len3_pos w W) as L. fold l in L. pose proof (len3_nonneg v) as M. fold m in M.
  set (cr' := cross3 w v). set (cr := fl_cross3 rnd w v). pose proof (fl_cross u rnd RN U' w v) as E1. fold cr cr' l m in E1. pose proof (len3_cross w v) as Q1. fold cr' l m in Q1.
  pose proof (len3_near cr cr') as N1. set (n := len3 cr') in *. set (n1 := len3 cr) in *. set (d1 := len3 (sub3 cr cr')) in *.
  assert (lm : 0 <= l * m) by nra. assert (N1' : n1 <= 1005 / 1000 * (l * m)) by nra. assert (b0 : 0 <= b) by (pose proof (Rabs_pos (B * l - beta l * l)); lra).
  destruct (one_cos l ltac:(lra)) as [[O1 _] O2].
  assert (Bl : 0 <= beta l * l <= 1). { replace (beta l * l) with ((1 - cos l) / l) by (unfold beta; field; lra). split; [apply Rmult_le_pos; [lra|left; apply Rinv_0_lt_compat; lra]|]. apply (Rmult_le_reg_r l); [lra|]. unfold Rdiv. rewrite Rmult_assoc, Rinv_l, Rmult_1_r by lra. lra. }
  assert (HBl : Rabs B * l <= 101 / 100). { rewrite (Rabs_mul_r B l) by lra. apply Rabs_le_between in HB. apply Rabs_le_between. lra. }
  assert (HBd : Rabs (B - beta l) * l <= b). { rewrite (Rabs_mul_r _ l) by lra. replace ((B - beta l) * l) with (B * l - beta l * l) by ring. exact HB. }
  pose proof (Rabs_pos B) as B0. pose proof (Rabs_pos (B - beta l)) as B1. pose proof (len3_nonneg cr) as c0. fold n1 in c0. pose proof (len3_nonneg (sub3 cr cr')) as c1. fold d1 in c1. pose proof (len3_nonneg cr') as c2. fold n in c2.
  pose proof (fl_scale_near B (beta l) cr cr') as S1. fold n n1 d1 in S1.
  assert (S1' : Rabs B * (u * n1 + d1) + Rabs (B - beta l) * n <= (52 / 10 * u + b) * m).
  { assert (X1 : u * n1 + d1 <= 5105 / 1000 * u * (l * m)) by (assert (u * n1 <= u * (1005 / 1000 * (l * m))) by (apply Rmult_le_compat_l; lra); lra).
    assert (X2 : Rabs B * (u * n1 + d1) <= Rabs B * (5105 / 1000 * u * (l * m))) by (apply Rmult_le_compat_l; lra).
    assert (um : 0 <= u * m) by nra. assert (X3 : Rabs B * l * (u * m) <= 101 / 100 * (u * m)) by (apply Rmult_le_compat_r; assumption).
    assert (X4 : Rabs (B - beta l) * n <= Rabs (B - beta l) * (l * m)) by (apply Rmult_le_compat_l; lra). assert (X5 : Rabs (B - beta l) * l * m <= b * m) by (apply Rmult_le_compat_r; lra). lra. }
  set (s1 := fl_scale3 rnd B cr) in *. set (s1' := scale3 (beta l) cr') in *.
  assert (Ls1 : len3 s1' <= m). { unfold s1'. rewrite len3_sc. fold n. pose proof (Rabs_pos (beta l)). assert (Rabs (beta l) * l <= 1) by (rewrite (Rabs_mul_r _ l) by lra; rewrite Rabs_right; lra). assert (Rabs (beta l) * n <= Rabs (beta l) * (l * m)) by (apply Rmult_le_compat_l; lra). nra. }
  assert (v0 : len3 (sub3 v v) <= 0). { replace (sub3 v v) with zero3 by (clear; dv; lie_unfold; f_equal; ring). rewrite len3_0. lra. }
  pose proof (fl_add_near v s1 v s1' 0 _ v0 (Rle_trans _ _ _ S1 S1')) as A1. fold m in A1.
  assert (A1' : len3 (sub3 (fl_add3 rnd v s1) (add3 v s1')) <= (8 * u + b) * m).
  { eapply Rle_trans; [exact A1|]. assert (u * (m + len3 s1' + 0 + (52 / 10 * u + b) * m) <= u * (202 / 100 * m)) by (apply Rmult_le_compat_l; [lra|]; nra). nra. }
  split; [exact A1'|]. intros HC Hc.
  set (cc' := cross3 w cr'). set (cc := fl_cross3 rnd w cr). assert (c0' : 0 <= c) by (pose proof (Rabs_pos (C * (l * l) - gamma l * (l * l))); lra).
  assert (llm : 0 <= l * l * m) by nra.
  assert (E2 : len3 (sub3 cc cc') <= 83 / 10 * u * (l * l * m)).
  { eapply Rle_trans; [apply (len3_tri _ (cross3 w cr))|]. pose proof (fl_cross u rnd RN U' w cr) as G1. fold l n1 cc in G1.
    replace (sub3 (cross3 w cr) cc') with (cross3 w (sub3 cr cr')) by (unfold cc'; clearbody cr cr'; clear; dv; lie_unfold; f_equal; ring). pose proof (len3_cross w (sub3 cr cr')) as G2. fold l d1 in G2.
    assert (l * n1 <= l * (1005 / 1000 * (l * m))) by (apply Rmult_le_compat_l; lra). assert (l * d1 <= l * (41 / 10 * u * (l * m))) by (apply Rmult_le_compat_l; lra).
    assert (u * (l * n1) <= u * (l * (1005 / 1000 * (l * m)))) by (apply Rmult_le_compat_l; lra). assert (0 <= u * (l * l * m)) by (apply Rmult_le_pos; lra). lra. }
  assert (Q2 : len3 cc' <= l * l * m). { unfold cc'. pose proof (len3_cross w cr') as G. fold l n in G. nra. }
  pose proof (len3_near cc cc') as N2. assert (N2' : len3 cc <= 1005 / 1000 * (l * l * m)) by nra.
  assert (Gl : 0 <= gamma l * (l * l) <= 2). { replace (gamma l * (l * l)) with (1 - sin l / l) by (unfold gamma; field; lra). pose proof (sin_abs l ltac:(lra)) as S. apply Rabs_le_between in S.
    assert (-1 <= sin l / l <= 1); [|lra]. split; apply (Rmult_le_reg_r l); try lra; unfold Rdiv; rewrite Rmult_assoc, Rinv_l, Rmult_1_r by lra; lra. }
  assert (HCl : Rabs C * (l * l) <= 201 / 100). { rewrite (Rabs_mul_r C (l * l)) by nra. apply Rabs_le_between in HC. apply Rabs_le_between. lra. }
  assert (HCd : Rabs (C - gamma l) * (l * l) <= c). { rewrite (Rabs_mul_r _ (l * l)) by nra. replace ((C - gamma l) * (l * l)) with (C * (l * l) - gamma l * (l * l)) by ring. exact HC. }
  pose proof (fl_scale_near C (gamma l) cc cc') as S2. set (s2 := fl_scale3 rnd C cc) in *. set (s2' := scale3 (gamma l) cc') in *. pose proof (Rabs_pos C) as C0. pose proof (Rabs_pos (C - gamma l)) as C1.
  assert (S2' : Rabs C * (u * len3 cc + len3 (sub3 cc cc')) + Rabs (C - gamma l) * len3 cc' <= (19 * u + c) * m).
  { assert (X1 : u * len3 cc + len3 (sub3 cc cc') <= 9305 / 1000 * u * (l * l * m)) by (assert (u * len3 cc <= u * (1005 / 1000 * (l * l * m))) by (apply Rmult_le_compat_l; lra); lra).
    assert (X2 : Rabs C * (u * len3 cc + len3 (sub3 cc cc')) <= Rabs C * (9305 / 1000 * u * (l * l * m))) by (apply Rmult_le_compat_l; lra).
    assert (um : 0 <= u * m) by nra. assert (X3 : Rabs C * (l * l) * (u * m) <= 201 / 100 * (u * m)) by (apply Rmult_le_compat_r; assumption).
    assert (X4 : Rabs (C - gamma l) * len3 cc' <= Rabs (C - gamma l) * (l * l * m)) by (apply Rmult_le_compat_l; lra). assert (X5 : Rabs (C - gamma l) * (l * l) * m <= c * m) by (apply Rmult_le_compat_r; lra). lra. }
  assert (Ls2 : len3 s2' <= 2 * m). { unfold s2'. rewrite len3_sc. pose proof (Rabs_pos (gamma l)). assert (Rabs (gamma l) * (l * l) <= 2) by (rewrite (Rabs_mul_r _ (l * l)) by nra; rewrite Rabs_right; lra). assert (Rabs (gamma l) * len3 cc' <= Rabs (gamma l) * (l * l * m)) by (apply Rmult_le_compat_l; lra). nra. }
  pose proof (fl_add_near _ s2 _ s2' _ _ A1' (Rle_trans _ _ _ S2 S2')) as A2. unfold vexp. fold l. fold cr' cc' s1' s2'.
  eapply Rle_trans; [exact A2|]. pose proof (len3_add v s1') as V1. fold m in V1. set (k := len3 (add3 v s1') + len3 s2' + (8 * u + b) * m + (19 * u + c) * m).
  assert (k <= 41 / 10 * m) by (unfold k; nra). assert (u * k <= u * (41 / 10 * m)) by (apply Rmult_le_compat_l; lra). assert (0 <= u * m) by nra. lra.
Qed.

Variables (s : R) (fsin fcos : R -> R).
Hypothesis TR : trig s fsin fcos.
Hypothesis Hs : s <= 1 / 10 ^ 6.
Let s_pos : 0 <= s. Proof. destruct (TR 0) as [H _]. pose proof (Rabs_pos (fsin 0 - sin 0)). lra. Qed.

Lemma rod_ok w A B k : w <> zero3 -> Rabs (k - 1) <= 4 * u -> Rabs (A * len3 w - sin (k * len3 w)) <= 6 * u + s + 1 / 10 ^ 17 ->
  Rabs (B * (len3 w * len3 w) - (1 - cos (k * len3 w))) <= 23 * u + s + 1 / 10 ^ 17 -> dist (fl_rodrigues rnd w A B) (exp3 (scale3 k w)) <= exp_error u s.
Proof.
  intros W K HA HB. pose proof ur as Hu. pose proof (len3_pos w W) as L. assert (k0 : 0 < k) by (apply Rabs_le_between in K; lra). rewrite (exp3_scaled w k W k0). set (l := len3 w) in *.
  destruct (trig_1 (k * l)) as [T1 T2].
  assert (Al : Rabs A * l = Rabs (A * l)) by (rewrite Rabs_mult, (Rabs_right l) by lra; reflexivity).
  assert (Bl : Rabs B * (l * l) = Rabs (B * (l * l))) by (rewrite Rabs_mult, (Rabs_right (l * l)) by nra; reflexivity).
  assert (Tiny : 1 / 10 ^ 17 <= 1 / 1000) by lra.
  eapply Rle_trans; [apply (dist_tri _ (rodrigues w A B))|].
  assert (D1 : dist (fl_rodrigues rnd w A B) (rodrigues w A B) <= 30 * u).
  { apply (fl_rodrigues_err u rnd RN U'); fold l; rewrite ?Al, ?Bl; apply Rabs_le_between in HA, HB, T1, T2; apply Rabs_le_between; lra. }
  assert (D2 : dist (rodrigues w A B) (rodrigues w (sin (k * l) / l) ((1 - cos (k * l)) / (l * l))) <= 2 * ((6 * u + s + 1 / 10 ^ 17) + (23 * u + s + 1 / 10 ^ 17))).
  { apply rodrigues_dist; fold l.
    - rewrite (Rabs_mul_r _ l) by lra. replace ((A - sin (k * l) / l) * l) with (A * l - sin (k * l)) by (field; lra). exact HA.
    - rewrite (Rabs_mul_r _ (l * l)) by nra. replace ((B - (1 - cos (k * l)) / (l * l)) * (l * l)) with (B * (l * l) - (1 - cos (k * l))) by (field; lra). exact HB. }
  unfold exp_error. lra.
Qed.
Lemma fl_se3_exp_ok mu : exists q k, fl_se3_exp rnd fsin fcos mu = Ok q /\ Rabs (k - 1) <= 4 * u /\ dist (rot q) (exp3 (scale3 k (ang mu))) <= exp_error u s /\
  len3 (sub3 (trans q) (vexp (ang mu) (lin mu))) <= trans_exp_error u s * len3 (lin mu).
Proof.
  pose proof ur as Hu. destruct mu as [v w]. cbn [lin ang]. pose proof (len3_nonneg v) as M. set (m := len3 v) in *.
  destruct (V3_dec w zero3) as [->|W].
  - unfold fl_se3_exp. cbn [lin ang]. cbv zeta.
    assert (fl_dot3 rnd zero3 zero3 = 0) as ->. { unfold fl_dot3, zero3. cbn [vx vy vz]. rewrite !Rmult_0_l. repeat (rewrite (rnd_0 u rnd RN) || rewrite Rplus_0_l). reflexivity. }
    pose proof (rnd_err u rnd RN (1 / 10 ^ 8)) as E. rewrite (Rabs_right (1 / 10 ^ 8)) in E by lra. apply Rabs_le_between in E. rewrite R_ltb_t by lra.
    eexists _, 1. split; [reflexivity|]. rewrite Rminus_diag_eq, Rabs_R0 by reflexivity. split; [lra|]. cbn [rot trans]. split.
    + rewrite scale3_1, exp3_zero. rewrite <- (rodrigues_0 (rnd (1 - rnd (rnd (1 / 6) * 0))) (1 / 2)).
      eapply Rle_trans; [apply (fl_rodrigues_err u rnd RN U'); rewrite len3_0; lra|]. unfold exp_error. lra.
    + destruct (carried_vexp zero3 v) as [H _]. rewrite (H eq_refl).
      assert (Cz : fl_cross3 rnd zero3 v = zero3). { unfold fl_cross3, zero3. cbn [vx vy vz]. rewrite !Rmult_0_l, !(rnd_0 u rnd RN), Rminus_0_r, (rnd_0 u rnd RN). reflexivity. }
      assert (Sz : fl_scale3 rnd (1 / 2) zero3 = zero3). { unfold fl_scale3, zero3. cbn [vx vy vz]. rewrite !Rmult_0_r, !(rnd_0 u rnd RN). reflexivity. }
      rewrite Cz, Sz. pose proof (fl_add_err v zero3) as F. replace (add3 v zero3) with v in F by (clear; dv; lie_unfold; f_equal; ring). fold m in F. unfold trans_exp_error. nra.
  - pose proof (len3_pos w W) as L. set (l := len3 w) in *. set (z := l * l). assert (z0 : 0 < z) by (unfold z; nra).
    pose proof (fl_exp_ok u rnd RN U' s fsin fcos TR ltac:(lra) w) as (mm & kk & Em & Km & Dm).
    unfold fl_so3_exp, fl_so3_coeffs in Em. unfold fl_se3_exp. cbn [lin ang]. cbv zeta in Em |- *.
    destruct (fl_len u rnd RN U' w) as (t & Ft & Et). fold l in Et. destruct (fl_dot3_self u rnd RN U' w) as (c & Fc & Ec). rewrite <- len3_sq in Ec. fold l in Ec. fold z in Ec.
    pose proof (fac_pos u 3 t Hu Ft) as Pt. pose proof (fac_pos u 3 c Hu Fc) as Pc. rewrite Et in Em |- *. set (ts := fl_dot3 rnd w w) in *.
    pose proof (fac_num u rnd RN U' 3 c ltac:(lia) Fc) as Kc. pose proof (fac_num u rnd RN U' 3 t ltac:(lia) Ft) as Kt. replace (INR 3) with 3 in Kc, Kt by (cbn; lra).
    assert (Kc' : 996 / 1000 <= c <= 1004 / 1000) by (apply Rabs_le_between in Kc; lra).
    assert (Thr : forall x, 0 < x -> ts < rnd x -> z <= 101 / 100 * x).
    { intros x Hx H. pose proof (rnd_err u rnd RN x) as E. rewrite (Rabs_right x) in E by lra. apply Rabs_le_between in E. rewrite Ec in H. nra. }
    assert (Thr' : forall x, 0 < x -> rnd x <= ts -> 99 / 100 * x <= z).
    { intros x Hx H. pose proof (rnd_err u rnd RN x) as E. rewrite (Rabs_right x) in E by lra. apply Rabs_le_between in E. rewrite Ec in H. nra. }
    assert (Sl : forall y, 0 <= y -> z <= y * y -> l <= y) by (intros y Hy H; apply sq_le; assumption).
    assert (Sl' : forall y, 0 <= y -> y * y <= z -> y <= l) by (intros y Hy H; apply sq_le; [lra|assumption]).
    assert (Pi : 3 < PI) by (pose proof PI2_3_2; lra).
    assert (Bq : beta l * l = (1 - cos l) / l) by (unfold beta; field; lra). assert (Gq : gamma l * (l * l) = 1 - sin l / l) by (unfold gamma; field; lra).
    assert (Dl : forall x, x / l * l = x) by (intros; field; lra).
    destruct (R_ltb ts (rnd (1 / 10 ^ 8))) eqn:B1; [|destruct (R_ltb ts (rnd (1 / 10 ^ 6))) eqn:B2].
    + injection Em as <-. eexists _, kk. split; [reflexivity|]. split; [exact Km|]. cbn [rot trans]. split; [exact Dm|].
      apply R_ltb_spec in B1. pose proof (Thr (1 / 10 ^ 8) ltac:(lra) B1) as Zb. pose proof (Sl (101 / 100 * (1 / 10 ^ 4)) ltac:(lra) ltac:(lra)) as Lb.
      pose proof (sin_bounds l ltac:(lra) ltac:(lra)) as [Sb _]. pose proof (cos_bounds l ltac:(lra) ltac:(lra)) as [Cb _].
      assert (HB : Rabs (1 / 2 * l - beta l * l) <= 1 / 10 ^ 12).
      { rewrite Bq. apply Rabs_le_between. replace (l ^ 2) with (l * l) in Cb by ring. replace (l ^ 4) with (z * (l * l)) in Cb by (unfold z; ring).
        assert (z * (l * l) <= 24 / 10 ^ 12 * l). { replace (z * (l * l)) with (z * l * l) by ring. apply Rmult_le_compat_r; [lra|]. apply (Rle_trans _ (101 / 100 * (1 / 10 ^ 8) * (101 / 100 * (1 / 10 ^ 4)))); [apply Rmult_le_compat; lra|lra]. }
        split; apply (Rmult_le_reg_r l); try lra; rewrite Rmult_minus_distr_r, Dl; lra. }
      destruct (trans_err w v (1 / 2) 0 (1 / 10 ^ 12) 0 W HB ltac:(lra)) as [A1 _]. fold l m in A1. eapply Rle_trans; [apply (len3_tri _ (add3 v (scale3 (beta l) (cross3 w v))))|].
      assert (G : len3 (sub3 (add3 v (scale3 (beta l) (cross3 w v))) (vexp w v)) <= 18 / 10 ^ 10 * m).
      { unfold vexp. fold l. replace (sub3 (add3 v (scale3 (beta l) (cross3 w v))) (add3 (add3 v (scale3 (beta l) (cross3 w v))) (scale3 (gamma l) (cross3 w (cross3 w v))))) with (scale3 (- gamma l) (cross3 w (cross3 w v))) by (generalize (beta l) (gamma l); clear; intros; dv; lie_unfold; f_equal; ring).
        rewrite len3_sc, Rabs_Ropp. pose proof (len3_cross w (cross3 w v)) as Q. pose proof (len3_cross w v) as Q'. fold l in Q, Q'. fold m in Q'. assert (len3 (cross3 w (cross3 w v)) <= l * l * m) by nra.
        assert (Gg : Rabs (gamma l) * (l * l) <= 18 / 10 ^ 10).
        { rewrite Rabs_mul_r by nra. rewrite Gq. apply Rabs_le_between. replace (l ^ 3) with (z * l) in Sb by (unfold z; ring). assert (l ^ 5 <= 1 / 10 ^ 12 * l). { replace (l ^ 5) with (z * z * l) by (unfold z; ring). apply Rmult_le_compat_r; [lra|nra]. }
          split; apply (Rmult_le_reg_r l); try lra; rewrite Rmult_minus_distr_r, Dl; nra. }
        pose proof (Rabs_pos (gamma l)). apply (Rle_trans _ (Rabs (gamma l) * (l * l * m))); [apply Rmult_le_compat_l; assumption|]. nra. }
      unfold trans_exp_error. nra.
    + clear Em Dm Km mm kk. apply R_ltb_spec in B2. pose proof (Thr (1 / 10 ^ 6) ltac:(lra) B2) as Zb. pose proof (Sl (101 / 100 * (1 / 10 ^ 3)) ltac:(lra) ltac:(lra)) as Lb. clear B1.
      destruct (rnd_fac u rnd RN (1 / 6)) as (d6 & F6 & E6). destruct (rnd_fac u rnd RN (1 / 20)) as (d20 & F20 & E20). rewrite E6, E20.
      pose proof (sin_bounds l ltac:(lra) ltac:(lra)) as [Sb Sb']. pose proof (cos_bounds l ltac:(lra) ltac:(lra)) as [Cb Cb'].
      assert (uz : 0 <= u * z <= u * (102 / 100 * (1 / 10 ^ 6))) by nra.
      destruct (rnd_fac u rnd RN (1 / 20 * d20 * ts)) as (e1 & Fe1 & E1).
      pose proof (fac_num u rnd RN U' 5 _ ltac:(lia) (fac_mul u 4 1 _ _ Hu (fac_mul u 3 1 _ _ Hu Fc F20) Fe1)) as K1. replace (INR 5) with 5 in K1 by (cbn; lra).
      replace (1 / 20 * d20 * ts * e1) with (1 / 20 * z * (c * d20 * e1)) in E1 by (rewrite Ec; ring). rewrite E1. clear E1. set (f1 := c * d20 * e1) in *.
      pose proof (rnd_err u rnd RN (1 - 1 / 20 * z * f1)) as E2. set (g := rnd (1 - 1 / 20 * z * f1)) in *. apply Rabs_le_between in K1.
      assert (zf1 : 0 <= z * f1 <= 102 / 100 * (102 / 100 * (1 / 10 ^ 6))) by (split; nra).
      assert (Eg : - (101 / 100 * u) <= g - (1 - 1 / 20 * z) <= 101 / 100 * u).
      { assert (Rabs (1 - 1 / 20 * z * f1) <= 1) by (apply Rabs_le_between; lra). assert (u * Rabs (1 - 1 / 20 * z * f1) <= u * 1) by (apply Rmult_le_compat_l; lra).
        assert (E' : Rabs (g - (1 - 1 / 20 * z * f1)) <= u) by lra. apply Rabs_le_between in E'. assert (- (51 / 10 * u) * z <= (f1 - 1) * z <= 51 / 10 * u * z) by nra. lra. }
      assert (g1 : 99 / 100 <= g <= 101 / 100) by lra.
      destruct (rnd_fac u rnd RN (1 / 6 * d6 * g)) as (e2 & Fe2 & ->).
      pose proof (fac_num u rnd RN U' 2 _ ltac:(lia) (fac_mul u 1 1 _ _ Hu F6 Fe2)) as K2. replace (INR 2) with 2 in K2 by (cbn; lra). apply Rabs_le_between in K2.
      replace (1 / 6 * d6 * g * e2) with (1 / 6 * (d6 * e2) * g) by ring. set (f2 := d6 * e2) in *. set (C := 1 / 6 * f2 * g).
      assert (EC : - (6 / 10 * u) <= C - (1 / 6 - z / 120) <= 6 / 10 * u).
      { unfold C. assert (- (22 / 10 * u) <= (f2 - 1) * g <= 22 / 10 * u) by nra. lra. }
      destruct (rnd_fac u rnd RN (ts * C)) as (e3 & Fe3 & ->).
      pose proof (fac_num u rnd RN U' 4 _ ltac:(lia) (fac_mul u 3 1 _ _ Hu Fc Fe3)) as K3. replace (INR 4) with 4 in K3 by (cbn; lra). apply Rabs_le_between in K3.
      replace (ts * C * e3) with (z * (c * e3) * C) by (rewrite Ec; ring). set (f3 := c * e3) in *.
      assert (zC : - (2 * (u * z)) <= z * f3 * C - z * (1 / 6 - z / 120) <= 2 * (u * z)).
      { assert (0 <= C <= 1 / 5) by lra. replace (z * f3 * C - z * (1 / 6 - z / 120)) with (z * ((f3 - 1) * C) + z * (C - (1 / 6 - z / 120))) by ring.
        assert (- (u * 1) <= (f3 - 1) * C <= u * 1) by nra. assert (z * - (u * 1) <= z * ((f3 - 1) * C) <= z * (u * 1)) by (split; apply Rmult_le_compat_l; lra).
        assert (z * - (6 / 10 * u) <= z * (C - (1 / 6 - z / 120)) <= z * (6 / 10 * u)) by (split; apply Rmult_le_compat_l; lra). lra. }
      pose proof (rnd_err u rnd RN (1 - z * f3 * C)) as E4. set (A := rnd (1 - z * f3 * C)) in *. assert (zz : 0 <= z * z <= 105 / 100 * (1 / 10 ^ 12)) by nra.
      assert (EA : Rabs (A - (1 - 1 / 6 * (z - 1 / 20 * (z * z)))) <= 101 / 100 * u).
      { assert (zp : 0 <= z * f3 * C) by (apply Rmult_le_pos; [apply Rmult_le_pos; lra|lra]). assert (zq : z * (1 / 6 - z / 120) <= 1) by nra.
        assert (Rabs (1 - z * f3 * C) <= 1) by (apply Rabs_le_between; lra). assert (u * Rabs (1 - z * f3 * C) <= u * 1) by (apply Rmult_le_compat_l; lra).
        assert (E' : Rabs (A - (1 - z * f3 * C)) <= u) by lra. apply Rabs_le_between in E'. apply Rabs_le_between. lra. }
      destruct (rnd_fac u rnd RN (1 / 4 * (1 / 6 * d6))) as (e5 & Fe5 & ->). destruct (rnd_fac u rnd RN (1 / 4 * (1 / 6 * d6) * e5 * ts)) as (e6 & Fe6 & ->).
      pose proof (fac_num u rnd RN U' 6 _ ltac:(lia) (fac_mul u 5 1 _ _ Hu (fac_mul u 4 1 _ _ Hu (fac_mul u 3 1 _ _ Hu Fc F6) Fe5) Fe6)) as K5. replace (INR 6) with 6 in K5 by (cbn; lra). apply Rabs_le_between in K5.
      replace (1 / 4 * (1 / 6 * d6) * e5 * ts * e6) with (1 / 24 * (z * (c * d6 * e5 * e6))) by (rewrite Ec; field). set (f5 := c * d6 * e5 * e6) in *.
      pose proof (rnd_err u rnd RN (1 / 2 - 1 / 24 * (z * f5))) as E7. set (B := rnd (1 / 2 - 1 / 24 * (z * f5))) in *.
      assert (EB : Rabs (B - (1 / 2 - 1 / 24 * z)) <= u).
      { assert (zf5 : - (62 / 10 * u) * z <= z * f5 - z <= 62 / 10 * u * z) by nra.
        assert (Rabs (1 / 2 - 1 / 24 * (z * f5)) <= 6 / 10) by (apply Rabs_le_between; lra). assert (u * Rabs (1 / 2 - 1 / 24 * (z * f5)) <= u * (6 / 10)) by (apply Rmult_le_compat_l; lra).
        assert (E' : Rabs (B - (1 / 2 - 1 / 24 * (z * f5))) <= u * (6 / 10)) by lra. apply Rabs_le_between in E'. apply Rabs_le_between. lra. }
      cbn [bind]. exists (mkSE3 (fl_rodrigues rnd w A B) (fl_add3 rnd (fl_add3 rnd v (fl_scale3 rnd B (fl_cross3 rnd w v))) (fl_scale3 rnd C (fl_cross3 rnd w (fl_cross3 rnd w v))))), 1.
      split; [reflexivity|]. rewrite Rminus_diag_eq, Rabs_R0 by reflexivity. split; [lra|]. cbn [rot trans].
      replace (l ^ 3) with (z * l) in * by (unfold z; ring). replace (l ^ 5) with (z * z * l) in * by (unfold z; ring). replace (l ^ 7) with (z * z * z * l) in * by (unfold z; ring).
      replace (l ^ 2) with z in * by (unfold z; ring). replace (l ^ 4) with (z * z) in * by (unfold z; ring). replace (l ^ 6) with (z * z * z) in * by (unfold z; ring).
      assert (zzz : 0 <= z * z * z <= 2 * (1 / 10 ^ 18)). { split; [apply Rmult_le_pos; lra|]. apply (Rle_trans _ (105 / 100 * (1 / 10 ^ 12) * (102 / 100 * (1 / 10 ^ 6)))); [apply Rmult_le_compat; lra|lra]. }
      assert (P7 : 0 <= z * z * z * l <= 2 * (1 / 10 ^ 18) * (1 / 100)) by (split; [apply Rmult_le_pos; lra|apply Rmult_le_compat; lra]).
      apply Rabs_le_between in EA, EB. split.
      * apply rod_ok; [exact W|rewrite Rminus_diag_eq, Rabs_R0 by reflexivity; lra| |]; rewrite Rmult_1_l; fold l.
        -- assert (- (101 / 100 * u * (1 / 100)) <= (A - (1 - 1 / 6 * (z - 1 / 20 * (z * z)))) * l <= 101 / 100 * u * (1 / 100)) by (split; nra). apply Rabs_le_between. lra.
        -- fold z. assert (- (u * (1 / 100)) <= (B - (1 / 2 - 1 / 24 * z)) * z <= u * (1 / 100)) by (split; nra). apply Rabs_le_between. lra.
      * assert (HB : Rabs (B * l - beta l * l) <= u + 1 / 10 ^ 15).
        { rewrite Bq. assert (- (u * l) <= (B - (1 / 2 - 1 / 24 * z)) * l <= u * l) by (split; nra).
          assert (Q : - (1 / 10 ^ 15) <= (1 / 2 - 1 / 24 * z) * l - (1 - cos l) / l <= 1 / 10 ^ 15).
          { assert (zzz' : z * z * z <= 1 / 10 ^ 12 * l). { replace (z * z * z) with (z * z * l * l) by (unfold z; ring). apply Rmult_le_compat_r; [lra|]. apply (Rle_trans _ (105 / 100 * (1 / 10 ^ 12) * (101 / 100 * (1 / 10 ^ 3)))); [apply Rmult_le_compat; lra|lra]. }
            assert (zzz'' : z * z * z <= 1 / 10 ^ 14 * l). { replace (z * z * z) with (z * z * l * l) by (unfold z; ring). apply Rmult_le_compat_r; [lra|]. apply (Rle_trans _ (105 / 100 * (1 / 10 ^ 12) * (101 / 100 * (1 / 10 ^ 3)))); [apply Rmult_le_compat; lra|lra]. }
            assert (Zl : (1 / 2 - 1 / 24 * z) * l * l = 1 / 2 * z - 1 / 24 * (z * z)) by (unfold z; ring).
            split; apply (Rmult_le_reg_r l); try lra; rewrite Rmult_minus_distr_r, Dl, Zl; lra. }
          assert (u * l <= u * 1) by (apply Rmult_le_compat_l; lra). apply Rabs_le_between. lra. }
        assert (HC : Rabs (C * (l * l) - gamma l * (l * l)) <= u + 1 / 10 ^ 15).
        { rewrite Gq. fold z. assert (z * - (6 / 10 * u) <= z * (C - (1 / 6 - z / 120)) <= z * (6 / 10 * u)) by (split; apply Rmult_le_compat_l; lra).
          assert (Q : - (1 / 10 ^ 15) <= (1 / 6 - z / 120) * z - (1 - sin l / l) <= 1 / 10 ^ 15).
          { assert (P7' : z * z * z * l <= 1 / 10 ^ 15 * l) by (apply Rmult_le_compat_r; lra). split; apply (Rmult_le_reg_r l); try lra; rewrite !Rmult_minus_distr_r, Dl; lra. }
          apply Rabs_le_between. lra. }
        destruct (trans_err w v B C _ (u + 1 / 10 ^ 15) W HB ltac:(lra)) as [_ A2]. specialize (A2 HC ltac:(lra)). fold m in A2. unfold trans_exp_error.
        eapply Rle_trans; [exact A2|]. apply Rmult_le_compat_r; lra.
    + clear B1. apply R_ltb_false in B2. pose proof (Thr' (1 / 10 ^ 6) ltac:(lra) B2) as Zb. pose proof (Sl' (99 / 100 * (1 / 10 ^ 3)) ltac:(lra) ltac:(lra)) as Lb.
      rewrite (fl_div_ok rnd 1 (l * t)) in Em |- * by nra. cbn [bind] in Em |- *. injection Em as <-. set (th := l * t) in *.
      eexists _, kk. split; [reflexivity|]. split; [exact Km|]. cbn [rot trans]. split; [exact Dm|]. clear Dm Km kk.
      destruct (rnd_fac u rnd RN (1 / th)) as (i & Fi & ->).
      destruct (TR th) as [Ts Tc]. destruct (sin_lip th l) as [Ls Lc]. assert (Th : Rabs (th - l) <= 31 / 10 * u * l).
      { unfold th. replace (l * t - l) with ((t - 1) * l) by ring. rewrite Rabs_mult, (Rabs_right l) by lra. apply Rmult_le_compat_r; lra. }
      assert (th0 : 0 < th) by (unfold th; nra). assert (th1 : th <= 101 / 100 * l) by (apply Rabs_le_between in Kt; unfold th; nra).
      pose proof (sin_abs th ltac:(lra)) as Sa. destruct (one_cos th ltac:(lra)) as [[O1 _] O2]. apply Rabs_le_between in Ts, Tc, Sa.
      assert (ulp : 0 <= u * l) by nra. assert (sl : s <= 1011 * s * l) by (assert (1011 * (99 / 100 * (1 / 10 ^ 3)) * s <= 1011 * l * s) by (apply Rmult_le_compat_r; lra); lra).
      assert (sl2 : s * l <= 1 / 10 ^ 6 * l) by (apply Rmult_le_compat_r; lra).
      destruct (rnd_fac u rnd RN (fsin th * (1 / th * i))) as (e1 & Fe1 & EA). destruct (rnd_fac u rnd RN (1 - fcos th)) as (e2 & Fe2 & ->).
      destruct (rnd_fac u rnd RN (1 / th * i * (1 / th * i))) as (e3 & Fe3 & ->). destruct (rnd_fac u rnd RN ((1 - fcos th) * e2 * (1 / th * i * (1 / th * i) * e3))) as (e4 & Fe4 & EB).
      pose proof (fac_inv u 3 t Hu Ft) as Fti. pose proof (fac_mul u 3 1 _ _ Hu Fti Fi) as Fj. set (j := / t * i) in *.
      set (A := rnd (fsin th * (1 / th * i))) in *. set (B := rnd ((1 - fcos th) * e2 * (1 / th * i * (1 / th * i) * e3))) in *.
      destruct (rnd_fac u rnd RN (1 - A)) as (e5 & Fe5 & ->). destruct (rnd_fac u rnd RN ((1 - A) * e5 * (1 / th * i * (1 / th * i) * e3))) as (e6 & Fe6 & EC).
      set (C := rnd ((1 - A) * e5 * (1 / th * i * (1 / th * i) * e3))) in *.
      pose proof (fac_num u rnd RN U' 5 _ ltac:(lia) (fac_mul u 4 1 _ _ Hu Fj Fe1)) as KA. replace (INR 5) with 5 in KA by (cbn; lra). apply Rabs_le_between in KA.
      pose proof (fac_num u rnd RN U' 11 _ ltac:(lia) (fac_mul u 10 1 _ _ Hu (fac_mul u 9 1 _ _ Hu (fac_mul u 8 1 _ _ Hu (fac_mul u 4 4 _ _ Hu Fj Fj) Fe2) Fe3) Fe4)) as KB. replace (INR 11) with 11 in KB by (cbn; lra). apply Rabs_le_between in KB.
      pose proof (fac_num u rnd RN U' 11 _ ltac:(lia) (fac_mul u 10 1 _ _ Hu (fac_mul u 9 1 _ _ Hu (fac_mul u 8 1 _ _ Hu (fac_mul u 4 4 _ _ Hu Fj Fj) Fe5) Fe3) Fe6)) as KC. replace (INR 11) with 11 in KC by (cbn; lra). apply Rabs_le_between in KC.
      assert (XA : A * l = fsin th * (j * e1)) by (rewrite EA; unfold j, th; field; lra). assert (XB : B * l * l = (1 - fcos th) * (j * j * e2 * e3 * e4)) by (rewrite EB; unfold j, th; field; lra).
      assert (XC : C * (l * l) = (1 - A) * (j * j * e5 * e3 * e6)) by (rewrite EC; unfold j, th; field; lra).
      set (fa := j * e1) in *. set (fb := j * j * e2 * e3 * e4) in *. set (fc := j * j * e5 * e3 * e6) in *. clearbody A B C fa fb fc. clear EA EB EC.
      apply Rabs_le_between in Th. apply Rabs_le_between in Ls, Lc. assert (Th' : Rabs (th - l) <= 31 / 10 * (u * l)) by (apply Rabs_le_between; lra).
      assert (DA : - (9 * u + 1031 * s) <= A - sin l / l <= 9 * u + 1031 * s).
      { assert (G : - ((9 * u + 1031 * s) * l) <= A * l - sin l <= (9 * u + 1031 * s) * l).
        { rewrite XA. replace (fsin th * fa - sin l) with ((fsin th - sin th) * fa + sin th * (fa - 1) + (sin th - sin l)) by ring.
          pose proof (box (fsin th - sin th) fa s (1005 / 1000) ltac:(lra) ltac:(lra)). pose proof (box (sin th) (fa - 1) (101 / 100 * l) (51 / 10 * u) ltac:(lra) ltac:(lra)). lra. }
        split; apply (Rmult_le_reg_r l); try lra; rewrite Rmult_minus_distr_r, Dl; lra. }
      assert (HB : Rabs (B * l - beta l * l) <= 15 * u + 1032 * s).
      { rewrite Bq. assert (G : - ((15 * u + 1032 * s) * l) <= B * l * l - (1 - cos l) <= (15 * u + 1032 * s) * l).
        { rewrite XB. replace ((1 - fcos th) * fb - (1 - cos l)) with (- (fcos th - cos th) * fb + (1 - cos th) * (fb - 1) - (cos th - cos l)) by ring.
          pose proof (box (fcos th - cos th) fb s (102 / 100) ltac:(lra) ltac:(lra)). pose proof (box (1 - cos th) (fb - 1) (101 / 100 * l) (113 / 10 * u) ltac:(lra) ltac:(lra)). lra. }
        apply Rabs_le_between. split; apply (Rmult_le_reg_r l); try lra; rewrite Rmult_minus_distr_r, Dl; lra. }
      assert (Sl1 : -1 <= sin l / l <= 1). { pose proof (sin_abs l ltac:(lra)) as S. apply Rabs_le_between in S. split; apply (Rmult_le_reg_r l); try lra; rewrite Dl; lra. }
      assert (HC : Rabs (C * (l * l) - gamma l * (l * l)) <= 33 * u + 1031 * s).
      { rewrite Gq, XC. replace ((1 - A) * fc - (1 - sin l / l)) with ((1 - A) * (fc - 1) - (A - sin l / l)) by ring.
        assert (- (21 / 10) <= 1 - A <= 21 / 10) by lra. pose proof (box (1 - A) (fc - 1) (21 / 10) (113 / 10 * u) ltac:(lra) ltac:(lra)). apply Rabs_le_between. lra. }
      destruct (trans_err w v B C _ (33 * u + 1031 * s) W HB ltac:(lra)) as [_ A2]. specialize (A2 HC ltac:(lra)). fold m in A2. unfold trans_exp_error.
      eapply Rle_trans; [exact A2|]. apply Rmult_le_compat_r; lra.
Qed.
End S.
