(** * C95: rigid transforms in floating point: whatever the history, the object stays near a rigid motion, and near the right one. *)
From Coq Require Import Reals Lra Lia Psatz Arith.
From Flocq Require Import Core.
From Verif Require Import Base Alg Inst ModelLie SpecLie LemLie LemSO3 LemSO3b PropSO3 ModelSE SpecSE LemSE PropSE SpecFlSO3 LemFro RSum ModelFl SpecFl LemFl LemFlChol ModelFlSO3 SpecFlHist LemFlSO3 LemFlSO3b LemFlSO3c LemFlSO3d ExFl ExFlSO3 PropFlSO3 ModelFlSE3 SpecFlSE3 LemFlSE3.
Open Scope outcome_scope.
Local Open Scope R_scope.

(** ** the model without rounding is the model of C57-C59 *)
Theorem C95_model_is_exact_model : let id := fun x : R => x in
  (forall T, fl_se3_inverse id T = se3_inverse T) /\ (forall A B, fl_se3_mul id A B = se3_mul A B) /\ (forall m T, fl_so3_mul_se3 id m T = so3_mul_se3 m T) /\
  (forall T x, fl_se3_act id T x = se3_act T x) /\ (forall mu, fl_se3_exp id sin cos mu = se3_exp mu).
Proof.
  destruct C94_model_is_exact_model as (_ & _ & _ & MM & MV). cbv zeta in *.
  assert (D : forall a b, fl_dot3 (fun x => x) a b = dot3 a b) by (intros; unfold fl_dot3, dot3; ring).
  repeat split; intros.
  - unfold fl_se3_inverse, se3_inverse. rewrite MV. reflexivity.
  - unfold fl_se3_mul, se3_mul. rewrite MM, MV. reflexivity.
  - unfold fl_so3_mul_se3, so3_mul_se3. rewrite MM, MV. reflexivity.
  - unfold fl_se3_act, se3_act. rewrite MV. reflexivity.
  - unfold fl_se3_exp, se3_exp. cbv zeta. rewrite D. destruct (R_ltb (dot3 (ang mu) (ang mu)) (1 / 10 ^ 8)); [reflexivity|].
    destruct (R_ltb (dot3 (ang mu) (ang mu)) (1 / 10 ^ 6)); reflexivity.
Qed.

Lemma len3_neg v : len3 (neg3 v) = len3 v.
Proof. unfold len3. f_equal. dv. lie_unfold. ring. Qed.
Lemma skewness_nonneg m : 0 < det3 m -> 0 <= skewness m.
Proof.
  intros H. unfold skewness. rewrite Rabs_right by lra. apply Rmult_le_pos; [|left; apply Rinv_0_lt_compat, H].
  repeat apply Rmult_le_pos; apply len3_nonneg.
Qed.
Lemma obliqueness_nonneg a b : cross3 a b <> zero3 -> 0 <= obliqueness a b.
Proof. intros H. unfold obliqueness. apply Rmult_le_pos; [|left; apply Rinv_0_lt_compat, len3_pos, H]. apply Rmult_le_pos; apply len3_nonneg. Qed.

Section S.
Variables (u : R) (rnd : R -> R).
Hypothesis RN : rounding u rnd.
Hypothesis U : u <= 1 / 6800.
Variables (s : R) (fsin fcos : R -> R).
Hypothesis TR : trig s fsin fcos.
Hypothesis Hs : s <= 1 / 10 ^ 6.
Notation ur := (u_rng u rnd RN).
Let U' : u <= 1 / 1000. Proof. lra. Qed.
Let Hs' : s <= 1 / 1000. Proof. lra. Qed.
Lemma s_nonneg : 0 <= s.
Proof. destruct (TR 0) as [A _]. pose proof (Rabs_pos (fsin 0 - sin 0)). lra. Qed.
Lemma growth_ge : 1 <= mul_growth u.
Proof. unfold mul_growth. pose proof (fwd_nonneg u 3 ltac:(apply ur)). lra. Qed.

(** ** the exponential: the rotation of C94, and the translation in proportion to the velocity *)
Theorem C95_exp mu : exists q, fl_se3_exp rnd fsin fcos mu = Ok q /\
  (exists k r, Rabs (k - 1) <= 4 * u /\ rotation r /\ (forall p, mv3 r p = rotate (direction (scale3 k (ang mu))) (len3 (scale3 k (ang mu))) p) /\ dist (rot q) r <= exp_error u s) /\
  exists T, rotation (rot T) /\ (forall p, mv3 (rot T) p = rotate (direction (ang mu)) (len3 (ang mu)) p) /\ carried (ang mu) (lin mu) (trans T) /\
    dist (rot q) (rot T) <= exp_error u s + 16 * u * len3 (ang mu) /\
    len3 (sub3 (trans q) (trans T)) <= trans_exp_error u s * len3 (lin mu) /\ len3 (trans T) <= len3 (lin mu).
Proof.
  pose proof ur as Hu. destruct (fl_se3_exp_ok u rnd RN U s fsin fcos TR Hs mu) as (q & k & E & K & D & T). exists q. split; [exact E|]. split.
  - exists k, (exp3 (scale3 k (ang mu))). split; [exact K|]. split; [apply exp3_rotation|]. split; [apply exp3_exactly|exact D].
  - exists (mkSE3 (exp3 (ang mu)) (vexp (ang mu) (lin mu))). cbn [rot trans]. split; [apply exp3_rotation|]. split; [apply exp3_exactly|]. split; [apply carried_vexp|].
    split; [|split; [exact T|apply vexp_len]].
    eapply Rle_trans; [apply (dist_tri _ (exp3 (scale3 k (ang mu))))|]. assert (k0 : 0 < k) by (apply Rabs_le_between in K; lra). pose proof (exp3_lip (ang mu) k k0) as L. pose proof (len3_nonneg (ang mu)).
    assert (Rabs (k - 1) * len3 (ang mu) <= 4 * u * len3 (ang mu)) by (apply Rmult_le_compat_r; assumption). lra.
Qed.

(** ** one rotation of a vector known within d, one sum *)
Lemma turn_ok m p e t' t d r : rotation p -> dist m p <= e -> len3 (sub3 t' t) <= d -> len3 t <= r ->
  len3 (sub3 (fl_mv3 rnd m t') (mv3 p t)) <= turned u e (r + d) - r.
Proof.
  intros P D T L. pose proof ur as Hu. destruct (C94_near_rotation u rnd RN m p e P D) as (_ & _ & _ & A). specialize (A t').
  eapply Rle_trans; [apply (len3_tri _ (mv3 p t'))|].
  replace (sub3 (mv3 p t') (mv3 p t)) with (mv3 p (sub3 t' t)) by (clear; dv; lie_unfold; f_equal; ring). rewrite (rotation_len p _ P).
  pose proof (len3_near t' t). pose proof (dist_nonneg m p). pose proof (fwd_nonneg u 3 ltac:(lra)) as F. assert (0 <= 2 * (1 + e) * fwd u 3) by (repeat apply Rmult_le_pos; lra).
  assert ((e + 2 * (1 + e) * fwd u 3) * len3 t' <= (e + 2 * (1 + e) * fwd u 3) * (r + d)) by (apply Rmult_le_compat_l; lra). unfold turned. lra.
Qed.
Lemma sum_ok a b p q d e r1 r2 : len3 (sub3 a p) <= d -> len3 (sub3 b q) <= e -> len3 p <= r1 -> len3 q <= r2 ->
  len3 (sub3 (fl_add3 rnd a b) (add3 p q)) <= (1 + u) * ((r1 + d) + (r2 + e)) - (r1 + r2).
Proof.
  intros D E L1 L2. pose proof ur as Hu. pose proof (fl_add_near u rnd RN a b p q d e D E) as A. assert (u * (len3 p + len3 q + d + e) <= u * (r1 + r2 + d + e)) by (apply Rmult_le_compat_l; lra). lra.
Qed.

(** ** every history *)
Theorem C95_history h : tame_motion u s h -> exists q T, fl_move rnd fsin fcos h = Ok q /\ precisely h T /\ rotation (rot T) /\
  dist (rot q) (rot T) <= turn_error u s h /\ len3 (sub3 (trans q) (trans T)) <= span u s h - reach h /\ len3 (trans T) <= reach h /\
  exists r, rotation r /\ dist (rot q) r <= turn_drift u s h.
Proof.
  pose proof ur as Hu. induction h as [|mu|g t|x IHx y IHy|x IHx|g x IHx]; cbn [tame_motion fl_move precisely turn_error turn_drift span reach]; intros H.
  - exists se3_default, se3_default. cbn [rot trans se3_default]. rewrite dist_refl. replace (sub3 (mk3 0 0 0) (mk3 0 0 0)) with zero3 by (lie_unfold; f_equal; ring).
    change (mk3 0 0 0) with zero3. rewrite len3_0. split; [reflexivity|]. split; [intros p; apply (C57_action se3_default se3_default p)|]. split; [apply rotation_id|]. do 3 (split; [lra|]).
    exists id3. split; [apply rotation_id|]. change so3_default with id3. rewrite dist_refl. lra.
  - destruct (C95_exp mu) as (q & E & (k & r & K & Rr & _ & D) & T & RT & A & C & D2 & L & N). exists q, T. split; [exact E|]. split; [split; assumption|]. do 2 (split; [assumption|]). split; [lra|]. split; [assumption|].
    exists r. split; assumption.
  - destruct (C94_history u rnd RN U s fsin fcos TR Hs' g H) as (m & tm & E & X & Rt & D & r & Rr & Dr). rewrite E. cbn [bind]. exists (mkSE3 m t), (mkSE3 tm t). cbn [rot trans].
    split; [reflexivity|]. split; [split; [exact X|reflexivity]|]. do 2 (split; [assumption|]). replace (sub3 t t) with zero3 by (clear; dv; lie_unfold; f_equal; ring). rewrite len3_0.
    split; [lra|]. split; [lra|]. exists r. split; assumption.
  - destruct H as [Hx Hy]. destruct (IHx Hx) as (a & A & Ea & PA & RA & DA & TA & LA & ra & Rra & Dra). destruct (IHy Hy) as (b & B & Eb & PB & RB & DB & TB & LB & rb & Rrb & Drb).
    rewrite Ea. cbn [bind]. rewrite Eb. cbn [bind]. exists (fl_se3_mul rnd a b), (se3_mul A B). unfold fl_se3_mul. cbn [rot trans se3_mul]. split; [reflexivity|].
    split. { exists A, B. do 2 (split; [assumption|]). intros p. apply (C57_action A B p). }
    split; [apply rotation_mul; assumption|]. split; [apply (C94_product u rnd RN); assumption|]. split; [|split].
    + pose proof (turn_ok (rot a) (rot A) _ (trans b) (trans B) _ _ RA DA TB LB) as G. replace (reach y + (span u s y - reach y)) with (span u s y) in G by ring.
      assert (N : len3 (so3_act (rot A) (trans B)) <= reach y) by (unfold so3_act; rewrite (rotation_len _ _ RA); exact LB).
      eapply Rle_trans; [apply (sum_ok (trans a) (fl_mv3 rnd (rot a) (trans b)) (trans A) (so3_act (rot A) (trans B)) _ _ _ _ TA G LA N)|]. lra.
    + eapply Rle_trans; [apply len3_add|]. unfold so3_act. rewrite (rotation_len _ _ RA). lra.
    + exists (mm3 ra rb). split; [apply rotation_mul; assumption|apply (C94_product u rnd RN); assumption].
  - destruct (IHx H) as (a & A & Ea & PA & RA & DA & TA & LA & ra & Rra & Dra). rewrite Ea. cbn [bind]. exists (fl_se3_inverse rnd a), (se3_inverse A). unfold fl_se3_inverse. cbn [rot trans se3_inverse].
    split; [reflexivity|]. split. { exists A. split; [exact PA|]. intros p. apply (C57_inverse A RA). }
    pose proof (rotation_inv _ RA) as RI. split; [exact RI|]. split; [unfold so3_inverse; rewrite dist_tr; exact DA|]. split; [|split].
    + assert (DT : dist (tr3 (rot a)) (tr3 (rot A)) <= turn_error u s x) by (rewrite dist_tr; exact DA).
      pose proof (turn_ok (tr3 (rot a)) (tr3 (rot A)) _ (trans a) (trans A) _ _ RI DT TA LA) as G. replace (reach x + (span u s x - reach x)) with (span u s x) in G by ring.
      unfold so3_act, so3_inverse. match goal with |- len3 ?v <= _ => replace v with (neg3 (sub3 (fl_mv3 rnd (tr3 (rot a)) (trans a)) (mv3 (tr3 (rot A)) (trans A)))) end.
      2:{ generalize (fl_mv3 rnd (tr3 (rot a)) (trans a)) (mv3 (tr3 (rot A)) (trans A)). clear. intros. dv. lie_unfold. f_equal; ring. }
      rewrite len3_neg. exact G.
    + rewrite len3_neg. unfold so3_act. rewrite (rotation_len _ _ RI). exact LA.
    + exists (tr3 ra). rewrite dist_tr. split; [apply rotation_inv, Rra|exact Dra].
  - destruct H as [Hg Hx]. destruct (C94_history u rnd RN U s fsin fcos TR Hs' g Hg) as (m & tm & E & X & Rt & D & r & Rr & Dr). rewrite E. cbn [bind].
    destruct (IHx Hx) as (a & A & Ea & PA & RA & DA & TA & LA & ra & Rra & Dra). rewrite Ea. cbn [bind]. exists (fl_so3_mul_se3 rnd m a), (so3_mul_se3 tm A). unfold fl_so3_mul_se3. cbn [rot trans so3_mul_se3].
    split; [reflexivity|]. split. { exists tm, A. do 2 (split; [assumption|]). intros p. unfold se3_act, so3_mul_se3, so3_mul, so3_act. cbn [rot trans]. rewrite mv3_add, mm3_act. reflexivity. }
    split; [apply rotation_mul; assumption|]. split; [apply (C94_product u rnd RN); assumption|]. split; [|split].
    + pose proof (turn_ok m tm _ (trans a) (trans A) _ _ Rt D TA LA) as G. replace (reach x + (span u s x - reach x)) with (span u s x) in G by ring. exact G.
    + unfold so3_act. rewrite (rotation_len _ _ Rt). exact LA.
    + exists (mm3 r ra). split; [apply rotation_mul; assumption|apply (C94_product u rnd RN); assumption].
Qed.
(** ** a point moved by the computed object *)
Theorem C95_point h p : tame_motion u s h -> exists q T, fl_move rnd fsin fcos h = Ok q /\ precisely h T /\
  len3 (sub3 (fl_se3_act rnd q p) (se3_act T p)) <= (1 + u) * (span u s h + turned u (turn_error u s h) (len3 p)) - (reach h + len3 p).
Proof.
  intros H. destruct (C95_history h H) as (q & T & E & P & RT & D & L & N & _). exists q, T. do 2 (split; [assumption|]). unfold fl_se3_act, se3_act, so3_act.
  assert (Z : len3 (sub3 p p) <= 0). { replace (sub3 p p) with zero3 by (clear; dv; lie_unfold; f_equal; ring). rewrite len3_0. lra. }
  pose proof (turn_ok (rot q) (rot T) _ p p 0 (len3 p) RT D Z ltac:(lra)) as G. rewrite Rplus_0_r in G.
  assert (M : len3 (mv3 (rot T) p) <= len3 p) by (rewrite (rotation_len _ _ RT); lra).
  eapply Rle_trans; [apply (sum_ok _ _ _ _ _ _ _ _ L G N M)|]. lra.
Qed.

(** ** how fast the bound grows: with the number of operations that a translation goes through *)
Lemma drift_nonneg g : tame u s g -> 0 <= drift u s g.
Proof.
  pose proof ur as Hu. pose proof s_nonneg as Hs0. pose proof growth_ge as G. induction g as [|w|m|a b|x IHx y IHy|x IHx|x IHx]; cbn [tame drift]; intros H; try lra; auto.
  - unfold exp_error. lra.
  - destruct H. apply Rmult_le_pos; [lra|apply skewness_nonneg; assumption].
  - destruct H. apply Rmult_le_pos; [lra|apply obliqueness_nonneg; assumption].
  - destruct H as [Hx Hy]. specialize (IHx Hx). specialize (IHy Hy). assert (1 <= (1 + drift u s x) * (1 + drift u s y)) by nra. nra.
Qed.
Lemma error_nonneg g : tame u s g -> 0 <= error u s g.
Proof.
  pose proof ur as Hu. pose proof s_nonneg as Hs0. pose proof growth_ge as G. induction g as [|w|m|a b|x IHx y IHy|x IHx|x IHx]; cbn [tame error]; intros H; try lra; auto.
  - unfold exp_error. pose proof (len3_nonneg w). assert (0 <= u * len3 w) by (apply Rmult_le_pos; lra). lra.
  - destruct H. apply Rmult_le_pos; [lra|apply skewness_nonneg; assumption].
  - destruct H. apply Rmult_le_pos; [lra|apply obliqueness_nonneg; assumption].
  - destruct H as [Hx Hy]. specialize (IHx Hx). specialize (IHy Hy). assert (1 <= (1 + error u s x) * (1 + error u s y)) by nra. nra.
  - destruct H as [Hx K]. specialize (IHx Hx). pose proof (drift_nonneg x Hx). lra.
Qed.
Lemma mul_mono x y g : 0 <= x -> 0 <= y -> 1 <= g -> x <= (1 + x) * (1 + y) * g - 1 /\ y <= (1 + x) * (1 + y) * g - 1.
Proof. intros X Y G. assert (1 + x <= (1 + x) * (1 + y)) by nra. assert (1 + y <= (1 + x) * (1 + y)) by nra. set (k := (1 + x) * (1 + y)) in *. assert (k <= k * g) by nra. lra. Qed.
Lemma turn_nonneg h : tame_motion u s h -> 0 <= turn_error u s h.
Proof.
  pose proof ur as Hu. pose proof s_nonneg as Hs0. pose proof growth_ge as G. induction h as [|mu|g t|x IHx y IHy|x IHx|g x IHx]; cbn [tame_motion turn_error]; intros H; try lra; auto.
  - unfold exp_error. pose proof (len3_nonneg (ang mu)). assert (0 <= u * len3 (ang mu)) by (apply Rmult_le_pos; lra). lra.
  - apply error_nonneg, H.
  - destruct H as [Hx Hy]. destruct (mul_mono _ _ _ (IHx Hx) (IHy Hy) G). specialize (IHx Hx). lra.
  - destruct H as [Hg Hx]. pose proof (error_nonneg g Hg) as Eg. destruct (mul_mono _ _ _ Eg (IHx Hx) G). lra.
Qed.
Lemma reach_nonneg h : 0 <= reach h.
Proof. induction h; cbn [reach]; try lra; apply len3_nonneg. Qed.
Lemma one_step : (1 + u) * (1 + 2 * fwd u 3) <= mul_growth u.
Proof.
  pose proof ur as Hu. unfold mul_growth. pose proof (fwd_nonneg u 3 ltac:(lra)) as F. assert (3 * u <= fwd u 3). { unfold fwd. replace ((1 + u) ^ 3 - 1) with (3 * u + (3 * (u * u) + u * u * u)) by ring. assert (0 <= u * u) by nra. assert (0 <= u * u * u) by nra. lra. }
  assert (u * fwd u 3 <= 1 / 6800 * fwd u 3) by (apply Rmult_le_compat_r; lra). lra.
Qed.
Theorem C95_growth h e : tame_motion u s h -> turn_error u s h <= e ->
  reach h <= span u s h <= (1 + trans_exp_error u s) * ((1 + e) * mul_growth u) ^ depth h * reach h.
Proof.
  pose proof ur as Hu. pose proof s_nonneg as Hs0. pose proof growth_ge as G. pose proof one_step as O. pose proof (fwd_nonneg u 3 ltac:(lra)) as F. set (S := 1 + trans_exp_error u s). assert (S1 : 1 <= S) by (unfold S, trans_exp_error; lra).
  revert e. induction h as [|mu|g t|x IHx y IHy|x IHx|g x IHx]; cbn [tame_motion turn_error span reach depth pow]; intros e H K.
  - lra.
  - fold S. pose proof (len3_nonneg (lin mu)). assert (1 * len3 (lin mu) <= S * len3 (lin mu)) by (apply Rmult_le_compat_r; assumption). lra.
  - pose proof (len3_nonneg t). assert (1 * len3 t <= S * len3 t) by (apply Rmult_le_compat_r; assumption). lra.
  - destruct H as [Hx Hy]. pose proof (turn_nonneg x Hx) as Ex. pose proof (turn_nonneg y Hy) as Ey. destruct (mul_mono _ _ _ Ex Ey G) as [M1 M2].
    destruct (IHx e Hx ltac:(lra)) as [X1 X2]. destruct (IHy e Hy ltac:(lra)) as [Y1 Y2]. pose proof (reach_nonneg x) as Rx. pose proof (reach_nonneg y) as Ry.
    set (ex := turn_error u s x) in *. set (g := (1 + e) * mul_growth u) in *. assert (g1 : 1 <= g) by (unfold g; nra). set (n := max (depth x) (depth y)).
    assert (Px : g ^ depth x <= g ^ n) by (apply Rle_pow; [exact g1|apply Nat.le_max_l]). assert (Py : g ^ depth y <= g ^ n) by (apply Rle_pow; [exact g1|apply Nat.le_max_r]).
    assert (Pn : 1 <= g ^ n) by (apply pow_R1_Rle, g1). unfold turned. set (f := 1 + 2 * fwd u 3) in *. assert (f1 : 1 <= f) by (unfold f; lra). assert (ef : 1 <= (1 + ex) * f) by nra.
    assert (X3 : span u s x <= S * g ^ n * reach x) by (eapply Rle_trans; [exact X2|]; apply Rmult_le_compat_r; [lra|]; apply Rmult_le_compat_l; lra).
    assert (Y3 : span u s y <= S * g ^ n * reach y) by (eapply Rle_trans; [exact Y2|]; apply Rmult_le_compat_r; [lra|]; apply Rmult_le_compat_l; lra).
    set (w := S * g ^ n) in *. assert (w1 : 1 <= w) by (unfold w; nra). split.
    + assert (1 * span u s y <= (1 + ex) * f * span u s y) by (apply Rmult_le_compat_r; lra). assert (1 * (span u s x + (1 + ex) * f * span u s y) <= (1 + u) * (span u s x + (1 + ex) * f * span u s y)) by (apply Rmult_le_compat_r; lra). lra.
    + replace (S * (g * g ^ n) * (reach x + reach y)) with (g * (w * (reach x + reach y))) by (unfold w; ring).
      assert (A : span u s x + (1 + ex) * f * span u s y <= (1 + ex) * f * (w * (reach x + reach y))).
      { assert (1 * (w * reach x) <= (1 + ex) * f * (w * reach x)) by (apply Rmult_le_compat_r; [apply Rmult_le_pos; lra|exact ef]).
        assert ((1 + ex) * f * span u s y <= (1 + ex) * f * (w * reach y)) by (apply Rmult_le_compat_l; lra). lra. }
      assert (B : (1 + u) * ((1 + ex) * f) <= g). { unfold g. replace ((1 + u) * ((1 + ex) * f)) with ((1 + ex) * ((1 + u) * f)) by ring. apply Rmult_le_compat; try lra. apply Rmult_le_pos; lra. }
      apply (Rle_trans _ ((1 + u) * ((1 + ex) * f * (w * (reach x + reach y))))); [apply Rmult_le_compat_l; lra|].
      rewrite <- Rmult_assoc. apply Rmult_le_compat_r; [apply Rmult_le_pos; lra|exact B].
  - pose proof (turn_nonneg x H) as Ex. destruct (IHx e H ltac:(lra)) as [X1 X2]. pose proof (reach_nonneg x) as Rx. set (ex := turn_error u s x) in *. set (g := (1 + e) * mul_growth u) in *.
    assert (g1 : 1 <= g) by (unfold g; nra). assert (Pn : 1 <= g ^ depth x) by (apply pow_R1_Rle, g1). unfold turned. set (f := 1 + 2 * fwd u 3) in *. assert (f1 : 1 <= f) by (unfold f; lra). assert (ef : 1 <= (1 + ex) * f) by nra. split.
    + assert (1 * span u s x <= (1 + ex) * f * span u s x) by (apply Rmult_le_compat_r; lra). lra.
    + assert (B : (1 + ex) * f <= g). { unfold g. apply Rmult_le_compat; try lra. assert (f <= (1 + u) * f) by nra. lra. }
      replace (S * (g * g ^ depth x) * reach x) with (g * (S * g ^ depth x * reach x)) by ring. apply Rmult_le_compat; lra.
  - destruct H as [Hg Hx]. pose proof (error_nonneg g Hg) as Eg. pose proof (turn_nonneg x Hx) as Ex. destruct (mul_mono _ _ _ Eg Ex G) as [M1 M2].
    destruct (IHx e Hx ltac:(lra)) as [X1 X2]. pose proof (reach_nonneg x) as Rx. set (ex := error u s g) in *. set (k := (1 + e) * mul_growth u) in *.
    assert (g1 : 1 <= k) by (unfold k; nra). assert (Pn : 1 <= k ^ depth x) by (apply pow_R1_Rle, g1). unfold turned. set (f := 1 + 2 * fwd u 3) in *. assert (f1 : 1 <= f) by (unfold f; lra). assert (ef : 1 <= (1 + ex) * f) by nra. split.
    + assert (1 * span u s x <= (1 + ex) * f * span u s x) by (apply Rmult_le_compat_r; lra). lra.
    + assert (B : (1 + ex) * f <= k). { unfold k. apply Rmult_le_compat; try lra. assert (f <= (1 + u) * f) by nra. lra. }
      replace (S * (k * k ^ depth x) * reach x) with (k * (S * k ^ depth x * reach x)) by ring. apply Rmult_le_compat; lra.
Qed.
End S.

(** ** double precision: chains up to a thousand deep *)
Theorem C95_double h fsin fcos : let u := / 2 * bpow radix2 (-52) in trig (2 * u) fsin fcos -> tame_motion u (2 * u) h -> turn_error u (2 * u) h <= 1 / 10 ^ 11 -> INR (depth h) <= 1000 ->
  exists q T, fl_move rnd64 fsin fcos h = Ok q /\ precisely h T /\ rotation (rot T) /\ dist (rot q) (rot T) <= 1 / 10 ^ 11 /\ len3 (sub3 (trans q) (trans T)) <= 15 / 10 ^ 9 * reach h.
Proof.
  intros u TR H E M. pose proof rnd64_rounding as RN. fold u in RN. assert (Us : 0 <= u <= 1112 / 10 ^ 19) by (unfold u; cbn; lra).
  destruct (C95_history u rnd64 RN ltac:(lra) (2 * u) fsin fcos TR ltac:(lra) h H) as (q & T & R1 & R2 & R3 & R4 & R5 & _). exists q, T. do 3 (split; [assumption|]). split; [lra|].
  destruct (C95_growth u rnd64 RN ltac:(lra) (2 * u) fsin fcos TR h _ H E) as [_ B]. eapply Rle_trans; [exact R5|].
  pose proof (fwd3 u rnd64 RN ltac:(lra)) as F3. pose proof (fwd_nonneg u 3 ltac:(lra)) as F0. pose proof (reach_nonneg h) as Rh.
  set (y := (1 + 1 / 10 ^ 11) * mul_growth u - 1) in *. assert (Y : 0 <= y <= 1001 / 10 ^ 14) by (unfold y, mul_growth; lra).
  replace ((1 + 1 / 10 ^ 11) * mul_growth u) with (1 + y) in B by (unfold y; ring). pose proof (pow_exp y (depth h) ltac:(lra)) as A. pose proof (pos_INR (depth h)).
  assert (A2 : 0 <= INR (depth h) * y <= 1001 / 10 ^ 11). { split; [apply Rmult_le_pos; lra|]. apply (Rle_trans _ (1000 * (1001 / 10 ^ 14))); [apply Rmult_le_compat; lra|lra]. }
  pose proof (exp_small (INR (depth h) * y) ltac:(lra)) as X. unfold trans_exp_error in B. set (t := 110 * u + 2500 * (2 * u) + 2 / 10 ^ 9) in *. assert (T1 : 0 <= t <= 21 / 10 ^ 10) by (unfold t; lra).
  assert (P : (1 + t) * (1 + y) ^ depth h <= 1 + 15 / 10 ^ 9). { apply (Rle_trans _ ((1 + 21 / 10 ^ 10) * (1 + 1202 / 10 ^ 11))); [apply Rmult_le_compat; try lra; apply pow_le; lra|lra]. }
  assert ((1 + t) * (1 + y) ^ depth h * reach h <= (1 + 15 / 10 ^ 9) * reach h) by (apply Rmult_le_compat_r; lra). lra.
Qed.
(** the hypotheses are met: true sine and cosine, a history with everything in it *)
Example C95_case : let u := / 2 * bpow radix2 (-52) in
  let h := MMul (MExp (mk6 (mk3 1 2 3) (mk3 1 0 2))) (MMul (MInv (MParts (Exp (mk3 1 2 3)) (mk3 5 0 0))) (MRot (Mul (Exp (mk3 1 0 0)) Default) MDefault)) in
  trig (2 * u) sin cos /\ tame_motion u (2 * u) h /\ turn_error u (2 * u) h <= 1 / 10 ^ 11 /\ INR (depth h) <= 1000 /\ 5 <= reach h.
Proof.
  cbv zeta. assert (U : 0 <= / 2 * bpow radix2 (-52) <= 112 / 10 ^ 18) by (cbn; lra). set (u := / 2 * bpow radix2 (-52)) in *.
  assert (L : forall a b c k, 0 <= k -> a * a + b * b + c * c <= k * k -> 0 <= len3 (mk3 a b c) <= k) by (intros; split; [apply len3_nonneg|apply len3_le; [assumption|unfold dot3; cbn [vx vy vz]; assumption]]).
  split; [intros x; rewrite !Rminus_diag_eq, Rabs_R0 by reflexivity; lra|]. split; [cbn; tauto|]. split; [|split; [cbn; lra|]].
  2:{ cbn [reach lin]. assert (len3 (mk3 5 0 0) = 5) as -> by (unfold len3, dot3; cbn; replace (5 * 5 + 0 * 0 + 0 * 0) with (5 * 5) by ring; apply sqrt_square; lra). pose proof (len3_nonneg (mk3 1 2 3)). lra. }
  assert (F : 0 <= fwd u 3 <= 4 / 10 ^ 16). { unfold fwd. assert (0 <= u * u <= 112 / 10 ^ 18 * (112 / 10 ^ 18)) by nra. assert (0 <= u * u * u <= 112 / 10 ^ 18 * (112 / 10 ^ 18)) by nra. replace ((1 + u) ^ 3 - 1) with (3 * u + 3 * (u * u) + u * u * u) by ring. lra. }
  cbn [turn_error ang error]. unfold mul_growth, exp_error. set (g := 3 * fwd u 3). pose proof (L 1 0 2 3 ltac:(lra) ltac:(lra)) as A. pose proof (L 1 2 3 4 ltac:(lra) ltac:(lra)) as B. pose proof (L 1 0 0 1 ltac:(lra) ltac:(lra)) as C.
  set (x := 90 * u + 4 * (2 * u) + 1 / 10 ^ 16 + 16 * u * len3 (mk3 1 0 2)). set (y := 90 * u + 4 * (2 * u) + 1 / 10 ^ 16 + 16 * u * len3 (mk3 1 2 3)). set (z := 90 * u + 4 * (2 * u) + 1 / 10 ^ 16 + 16 * u * len3 (mk3 1 0 0)).
  assert (X : 0 <= x <= 1 / 10 ^ 13) by (unfold x; nra). assert (Y : 0 <= y <= 1 / 10 ^ 13) by (unfold y; nra). assert (Z : 0 <= z <= 1 / 10 ^ 13) by (unfold z; nra). assert (G : 0 <= g <= 1 / 10 ^ 13) by (unfold g; lra). clearbody x y z g.
  assert (step : forall a b i j, 0 <= a <= i -> 0 <= b <= j -> i <= 1 / 10 ^ 11 -> j <= 1 / 10 ^ 11 -> 0 <= (1 + a) * (1 + b) * (1 + g) - 1 <= i + j + 2 / 10 ^ 13).
  { intros a b i j Ha Hb Hi Hj. assert (0 <= a * b <= 1 / 10 ^ 11 * (1 / 10 ^ 11)) by (split; [apply Rmult_le_pos; lra|apply Rmult_le_compat; lra]). set (k := (1 + a) * (1 + b)). assert (1 <= k <= 1 + i + j + 1 / 10 ^ 22) by (unfold k; lra). assert (0 <= k * g <= 2 * (1 / 10 ^ 13)) by (split; [apply Rmult_le_pos; lra|apply Rmult_le_compat; lra]). assert (k * g <= 1 / 10 ^ 13 * (11 / 10)) by (rewrite (Rmult_comm k g); apply Rmult_le_compat; lra). lra. }
  pose proof (step z 0 _ 0 Z ltac:(lra) ltac:(lra) ltac:(lra)) as S1. pose proof (step _ 0 _ 0 S1 ltac:(lra) ltac:(lra) ltac:(lra)) as S2. pose proof (step y _ _ _ Y S2 ltac:(lra) ltac:(lra)) as S3. pose proof (step x _ _ _ X S3 ltac:(lra) ltac:(lra)) as S4. lra.
Qed.
