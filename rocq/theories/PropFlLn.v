(** * C97: SO3::ln in floating point. *)
From Coq Require Import Reals Lra Lia Bool.
From Flocq Require Import Core.
From Verif Require Import Base Alg Inst ModelLie SpecLie LemLie LemSO3 LemSO3c PropSO3 ModelFl ModelFlSO3 SpecFl LemFl ExFl SpecFlSO3 SpecFlHist LemFro LemFlSO3 LemFlSO3b LemFlSO3d PropFlSO3 ModelFlLn SpecFlLn LemFlLn LemFlLn2 LemFlLn3.
Open Scope outcome_scope.
Local Open Scope R_scope.

(** Without rounding, and with the true asin, acos and pi, this is the function of C55 and C56. *)
Theorem C97_model_is_exact_model thr m : fl_so3_ln (fun x => x) asin acos thr PI m = so3_ln thr m.
Proof.
  assert (D : forall a b, fl_dot3 (fun x => x) a b = dot3 a b) by (intros; unfold fl_dot3, dot3; ring).
  assert (Un : forall v, fl_unit3 (fun x => x) v = unit3 v) by (intros; unfold fl_unit3, unit3; rewrite D; reflexivity).
  assert (Sc : forall k v, fl_scale3 (fun x => x) k v = scale3 k v) by reflexivity.
  assert (Bx : forall X Y (o : outcome X) (f g : X -> outcome Y), (forall x, f x = g x) -> bind o f = bind o g) by (intros X Y [] f g H; cbn; auto).
  unfold fl_so3_ln, so3_ln. cbv zeta. rewrite !D. fold (fl_anti (fun x => x) m). 
  change (mk3 ((vy (r2 m) - vz (r1 m)) / 2) ((vz (r0 m) - vx (r2 m)) / 2) ((vx (r1 m) - vy (r0 m)) / 2)) with (fl_anti (fun x => x) m).
  change ((vx (r0 m) + vy (r1 m) + vz (r2 m) - 1) * (1 / 2)) with (fl_cosm (fun x => x) m).
  destruct (R_ltb thr (fl_cosm (fun x => x) m)); [reflexivity|]. destruct (R_ltb (- thr) (fl_cosm (fun x => x) m)); [reflexivity|].
  match goal with |- context [if R_ltb (dot3 ?q (fl_anti _ m)) 0 then scale3 (-1) ?q else ?q] => change q with (fl_column (fun x => x) m (fl_cosm (fun x => x) m)) end.
  rewrite Un, ?D, ?Sc. apply Bx. intros q. apply f_equal. apply Sc.
Qed.
Lemma exactly_unique h : forall t t', exactly h t -> exactly h t' -> t = t'.
Proof.
  induction h as [|w|m|a b|x IHx y IHy|x IHx|x IHx]; cbn [exactly]; intros t t' H H'.
  - congruence.
  - apply act_ext. intros p. rewrite H, H'. reflexivity.
  - congruence.
  - congruence.
  - destruct H as (p & q & A & B & ->), H' as (p' & q' & A' & B' & ->). rewrite (IHx _ _ A A'), (IHy _ _ B B'). reflexivity.
  - destruct H as (p & A & ->), H' as (p' & A' & ->). rewrite (IHx _ _ A A'). reflexivity.
  - exact (IHx _ _ H H').
Qed.

Lemma err_eq u s d : bound u d s = ln_error u s d.
Proof. unfold bound, e, ln_error. ring. Qed.
Lemma add_scale t a l : len3 (sub3 l (scale3 (- t) a)) = len3 (add3 l (scale3 t a)).
Proof. f_equal. dv. lie_unfold. f_equal; ring. Qed.
Lemma neg_rot a t : rot_matrix (neg3 a) t = rot_matrix a (- t).
Proof. unfold rot_matrix. rewrite cos_neg, sin_neg. dv. lie_unfold. f_equal; f_equal; ring. Qed.

Section S.
Variables (u : R) (rnd : R -> R).
Hypothesis RN : rounding u rnd.
Hypothesis U : u <= 1 / 6800.
Variables (s : R) (fasin facos : R -> R) (thr pi : R).
Hypothesis IT : inverse_trig s fasin facos.
Hypothesis KO : constants s thr pi.
Hypothesis Hs : s <= 1 / 1000.
Notation fln := (fl_so3_ln rnd fasin facos thr pi).

(** the logarithm of a matrix within d of the rotation by w is near w; or w is nearly half a turn, and it is near the same half turn taken the other way *)
Theorem C97_ln m r d w : rotation r -> (forall p, mv3 r p = rotate (direction w) (len3 w) p) -> len3 w <= PI -> dist m r <= d -> d <= 1 / 1000 ->
  exists l, fln m = Ok l /\ (len3 (sub3 l w) <= ln_error u s d \/ (len3 (add3 l w) <= ln_error u s d /\ PI - len3 w <= ln_error u s d)).
Proof.
  intros Q X W D D1. destruct (polar w) as (a & t & A & T & Ew & Et). assert (M : rot_matrix a t = r).
  { apply act_ext. intros p. rewrite X, <- exp3_exactly, Ew, exp3_unit by assumption. reflexivity. }
  destruct (ln_close u rnd RN U m r d Q D D1 a t A ltac:(lra) M fasin facos s thr pi IT KO Hs) as (l & E & [C|[C P]]); exists l; (split; [exact E|]); rewrite err_eq in *.
  - left. rewrite Ew. exact C.
  - right. rewrite add_scale, <- Ew in C. split; [exact C|lra].
Qed.
(** short of half a turn there is only the first case *)
Theorem C97_forward m r d w : rotation r -> (forall p, mv3 r p = rotate (direction w) (len3 w) p) -> len3 w < PI - ln_error u s d -> dist m r <= d -> d <= 1 / 1000 ->
  exists l, fln m = Ok l /\ len3 (sub3 l w) <= ln_error u s d.
Proof.
  intros Q X W D D1. pose proof (dist_nonneg m r). pose proof (u_rng u rnd RN). pose proof (s_pos s thr pi KO). destruct (C97_ln m r d w Q X ltac:(unfold ln_error in W; lra) D D1) as (l & E & [C|[_ P]]); [|lra]. exists l. split; assumption.
Qed.
(** whatever the rotation: the call succeeds, the answer is at most about half a turn, and the exact rotation by the answer is near the argument *)
Theorem C97_backward m r d : rotation r -> dist m r <= d -> d <= 1 / 1000 ->
  exists l x, fln m = Ok l /\ len3 l <= PI + ln_error u s d /\ rotation x /\ (forall p, mv3 x p = rotate (direction l) (len3 l) p) /\ dist x r <= 16 * ln_error u s d.
Proof.
  intros Q D D1. destruct (so3_ln_ok (1 / 2) r ltac:(lra) Q) as (a & t & A & T & _ & M).
  destruct (ln_close u rnd RN U m r d Q D D1 a t A T M fasin facos s thr pi IT KO Hs) as (l & E & C). unfold close in C. rewrite err_eq in C. exists l, (exp3 l). split; [exact E|].
  assert (L : forall k, Rabs k = t -> len3 (scale3 k a) = t) by (intros k K; rewrite len3_sc, (unit_len a A), K; ring).
  split; [|split; [apply exp3_rotation|split; [apply exp3_exactly|]]].
  - destruct C as [C|[C _]].
    + pose proof (len3_near l (scale3 t a)) as N. rewrite (L t ltac:(apply Rabs_right; lra)) in N. lra.
    + pose proof (len3_near l (scale3 (- t) a)) as N. rewrite (L (- t) ltac:(rewrite Rabs_Ropp; apply Rabs_right; lra)) in N. lra.
  - assert (0 <= ln_error u s d) by (destruct C as [C|[C _]]; eapply Rle_trans; try exact C; apply len3_nonneg). destruct C as [C|[C P]].
    + rewrite <- M, <- exp3_unit by lra. pose proof (exp3_lipschitz l (scale3 t a)). lra.
    + pose proof (exp3_lipschitz l (scale3 (- t) a)) as X. pose proof (rot_flip a t t A) as F. pose proof (dist_tri (exp3 l) (exp3 (scale3 (- t) a)) r) as T3.
      replace (scale3 (- t) a) with (scale3 t (neg3 a)) in * by (clear; unfold neg3; dv; lie_unfold; f_equal; ring).
      rewrite (exp3_unit (neg3 a) t) in * by (try lra; rewrite <- A; clear; unfold neg3; dv; lie_unfold; ring).
      rewrite M in F. rewrite Rabs_right in F by lra. lra.
Qed.

(** ** round trips *)
Variables (fsin fcos : R -> R).
Hypothesis TR : trig s fsin fcos.
Let U' : u <= 1 / 1000. Proof. lra. Qed.
Theorem C97_exp_then_ln w : exp_error u s <= 1 / 1000 -> (1 + 4 * u) * len3 w < PI - ln_error u s (exp_error u s) ->
  exists m l, fl_so3_exp rnd fsin fcos w = Ok m /\ fln m = Ok l /\ len3 (sub3 l w) <= ln_error u s (exp_error u s) + 4 * u * len3 w.
Proof.
  intros E1 W. pose proof (u_rng u rnd RN) as Hu. destruct (C94_exp u rnd RN U s fsin fcos TR Hs w) as (m & k & E & K & t & Q & X & D). pose proof (len3_nonneg w) as L0. apply Rabs_le_between in K.
  assert (Lk : len3 (scale3 k w) = k * len3 w) by (rewrite len3_sc, Rabs_right by lra; reflexivity).
  destruct (C97_forward m t (exp_error u s) (scale3 k w) Q X ltac:(rewrite Lk; assert (k * len3 w <= (1 + 4 * u) * len3 w) by (apply Rmult_le_compat_r; lra); lra) D E1) as (l & El & C).
  exists m, l. split; [exact E|]. split; [exact El|]. pose proof (len3_tri l (scale3 k w) w) as T3. assert (Z : len3 (sub3 (scale3 k w) w) <= 4 * u * len3 w).
  { rewrite <- (scale3_1 w) at 2. rewrite sc_sub, len3_sc. apply Rmult_le_compat_r; [exact L0|]. apply Rabs_le_between. lra. } lra.
Qed.
Theorem C97_ln_then_exp m r d : rotation r -> dist m r <= d -> d <= 1 / 1000 ->
  exists l q, fln m = Ok l /\ fl_so3_exp rnd fsin fcos l = Ok q /\ dist q r <= 16 * ln_error u s d + exp_error u s + 16 * u * (PI + ln_error u s d).
Proof.
  intros Q D D1. pose proof (u_rng u rnd RN) as Hu. destruct (C97_backward m r d Q D D1) as (l & x & E & Ll & Qx & X & Dx).
  destruct (C94_exp u rnd RN U s fsin fcos TR Hs l) as (q & k & Eq & K & t & Qt & Xt & Dq). exists l, q. split; [exact E|]. split; [exact Eq|].
  assert (Et : t = exp3 (scale3 k l)) by (apply act_ext; intros p; rewrite Xt, <- exp3_exactly; reflexivity). assert (Ex : x = exp3 l) by (apply act_ext; intros p; rewrite X, <- exp3_exactly; reflexivity). subst t x.
  pose proof (len3_nonneg l). assert (k0 : 0 < k) by (apply Rabs_le_between in K; lra). pose proof (exp3_lip l k k0) as L. pose proof (dist_tri q (exp3 (scale3 k l)) r) as T1. pose proof (dist_tri (exp3 (scale3 k l)) (exp3 l) r) as T2.
  assert (Rabs (k - 1) * len3 l <= 4 * u * (PI + ln_error u s d)) by (apply Rmult_le_compat; try lra; apply Rabs_pos). lra.
Qed.
(** the logarithm of any history of constructions, products, inverses and repairs (C94) *)
Theorem C97_history h w t : tame u s h -> error u s h <= 1 / 1000 -> exactly h t -> (forall p, mv3 t p = rotate (direction w) (len3 w) p) -> len3 w < PI - ln_error u s (error u s h) ->
  exists q l, fl_run rnd fsin fcos h = Ok q /\ fln q = Ok l /\ len3 (sub3 l w) <= ln_error u s (error u s h).
Proof.
  intros Th E1 X Xw W. destruct (C94_history u rnd RN U s fsin fcos TR Hs h Th) as (q & t' & E & Xt & Qt & D & _). rewrite (exactly_unique h t' t Xt X) in *.
  destruct (C97_forward q t _ w Qt Xw W D E1) as (l & El & C). exists q, l. do 2 (split; [assumption|]). exact C.
Qed.
End S.
(** ** in double precision: exp then ln gives back any vector up to 2.9 in length to 2e-12, ln then exp gives back any rotation to 2e-8 *)
Theorem C97_double fsin fcos fasin facos thr pi : let u := / 2 * bpow radix2 (-52) in trig (4 * u) fsin fcos -> inverse_trig (4 * u) fasin facos -> constants (4 * u) thr pi ->
  (forall w, len3 w <= 29 / 10 -> exists m l, fl_so3_exp rnd64 fsin fcos w = Ok m /\ fl_so3_ln rnd64 fasin facos thr pi m = Ok l /\ len3 (sub3 l w) <= 2 / 10 ^ 12) /\
  (forall m r, rotation r -> dist m r <= 1 / 10 ^ 11 -> exists l q, fl_so3_ln rnd64 fasin facos thr pi m = Ok l /\ fl_so3_exp rnd64 fsin fcos l = Ok q /\ len3 l <= PI + 1 / 10 ^ 8 /\ dist q r <= 2 / 10 ^ 8).
Proof.
  intros u TR IT KO. pose proof rnd64_rounding as RN. fold u in RN. assert (Us : 0 <= u <= 1112 / 10 ^ 19) by (unfold u; cbn; lra). pose proof PI_4 as P4. pose proof PI2_3_2 as P3. split.
  - intros w W. pose proof (len3_nonneg w) as L0. assert (X : ln_error u (4 * u) (exp_error u (4 * u)) <= 15 / 10 ^ 13) by (unfold ln_error, exp_error; lra).
    destruct (C97_exp_then_ln u rnd64 RN ltac:(lra) (4 * u) fasin facos thr pi IT KO ltac:(lra) fsin fcos TR w ltac:(unfold exp_error; lra)) as (m & l & A & B & C).
    + assert ((1 + 4 * u) * len3 w <= (1 + 4 * u) * (29 / 10)) by (apply Rmult_le_compat_l; lra). lra.
    + exists m, l. split; [exact A|]. split; [exact B|]. assert (4 * u * len3 w <= 4 * u * (29 / 10)) by (apply Rmult_le_compat_l; lra). lra.
  - intros m r Q D. assert (X : 0 <= ln_error u (4 * u) (1 / 10 ^ 11) <= 122 / 10 ^ 11) by (unfold ln_error; lra).
    destruct (C97_ln_then_exp u rnd64 RN ltac:(lra) (4 * u) fasin facos thr pi IT KO ltac:(lra) fsin fcos TR m r _ Q D ltac:(lra)) as (l & q & A & B & C).
    destruct (C97_backward u rnd64 RN ltac:(lra) (4 * u) fasin facos thr pi IT KO ltac:(lra) m r _ Q D ltac:(lra)) as (l' & x & A' & L & _). rewrite A in A'. injection A' as <-.
    exists l, q. split; [exact A|]. split; [exact B|]. split; [lra|]. assert (u * (PI + ln_error u (4 * u) (1 / 10 ^ 11)) <= u * 5) by (apply Rmult_le_compat_l; lra). unfold exp_error in C. lra.
Qed.
(** the hypotheses are met: the true functions, and a half turn about z with one entry disturbed *)
Example C97_case : let u := / 2 * bpow radix2 (-52) in
  trig (4 * u) sin cos /\ inverse_trig (4 * u) asin acos /\ constants (4 * u) (7 / 10) PI /\
  let r := mkM (mk3 (-1) 0 0) (mk3 0 (-1) 0) (mk3 0 0 1) in let m := mkM (mk3 (-1) (1 / 10 ^ 12) 0) (mk3 0 (-1) 0) (mk3 0 0 1) in
  rotation r /\ (forall w, w = mk3 0 0 PI -> forall p, mv3 r p = rotate (direction w) (len3 w) p) /\ m <> r /\ dist m r <= 1 / 10 ^ 11.
Proof.
  cbv zeta. assert (U : 0 <= 4 * (/ 2 * bpow radix2 (-52))) by (cbn; lra). set (u := / 2 * bpow radix2 (-52)) in *.
  assert (Z : forall x : R, Rabs (x - x) <= 4 * u) by (intros x; rewrite Rminus_diag_eq, Rabs_R0 by reflexivity; exact U).
  split; [intros x; split; apply Z|]. split; [split; intros; apply Z|]. split; [split; [lra|apply Z]|]. split; [|split; [|split]].
  - unfold rotation, orthonormal; lie_unfold; repeat split; ring.
  - intros w -> p. rewrite <- exp3_exactly. pose proof PI_RGT_0. replace (mk3 0 0 PI) with (scale3 PI (mk3 0 0 1)) by (unfold scale3; cbn; f_equal; ring).
    rewrite exp3_unit by (try lra; unfold dot3; cbn [vx vy vz]; ring). unfold rot_matrix. rewrite cos_PI, sin_PI. destruct p as [x y z]. lie_unfold. f_equal; ring.
  - intros E. injection E as E. lra.
  - unfold dist, fro, subM, sub3, dot3. cbn [r0 r1 r2 vx vy vz]. apply (Rle_trans _ (sqrt ((1 / 10 ^ 12) * (1 / 10 ^ 12)))); [right; f_equal; ring|]. rewrite sqrt_square by lra. lra.
Qed.
Print Assumptions C97_model_is_exact_model. Print Assumptions C97_ln. Print Assumptions C97_forward. Print Assumptions C97_backward.
Print Assumptions C97_exp_then_ln. Print Assumptions C97_ln_then_exp. Print Assumptions C97_history. Print Assumptions C97_double.
