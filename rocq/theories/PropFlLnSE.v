(** * C98: SE3::ln in floating point. *)
From Coq Require Import Reals Lra Lia Bool.
From Flocq Require Import Core.
From Verif Require Import Base Alg Inst RSum ModelLie SpecLie LemLie LemSO3 LemSO3b LemSO3c PropSO3 ModelSE SpecSE LemSE PropSE ModelFl ModelFlSO3 ModelFlSE3 SpecFl LemFl ExFl SpecFlSO3 SpecFlHist SpecFlSE3 LemFro LemFlSO3 LemFlSO3b LemFlSO3d PropFlSO3 LemFlSE3 PropFlSE3 ModelFlLn SpecFlLn LemFlLn LemFlLn2 LemFlLn3 PropFlLn LemFlLnSE LemFlLnSE2.
Open Scope outcome_scope.
Local Open Scope R_scope.

(** Without rounding, and with the true functions and pi, this is the function of C58. *)
Theorem C98_model_is_exact_model thr T : fl_se3_ln (fun x => x) asin acos thr PI sin cos T = se3_ln thr T.
Proof.
  destruct C94_model_is_exact_model as (_ & _ & EE & _ & MV).
  assert (D : forall a b, fl_dot3 (fun x => x) a b = dot3 a b) by (intros; unfold fl_dot3, dot3; ring).
  assert (Bx : forall X Y (o : outcome X) (f g : X -> outcome Y), (forall x, f x = g x) -> bind o f = bind o g) by (intros X Y [] f g H; cbn; auto).
  assert (Dv : forall a b, @div R (FlOps (fun x => x)) a b = @div R ROps a b) by reflexivity.
  assert (As : forall X Y Z (o : outcome X) (f : X -> outcome Y) (g : Y -> outcome Z), bind (bind o f) g = bind o (fun x => bind (f x) g)) by (intros X Y Z [] f g; reflexivity).
  assert (V : forall v d r, bind (x <- @div R ROps (vx v) d ;; y <- @div R ROps (vy v) d ;; z <- @div R ROps (vz v) d ;; Ok (mk3 x y z)) (fun v => Ok (mk6 v r)) = (k <- @div R ROps 1 d ;; Ok (mk6 (scale3 k v) r))).
  { intros v d r. destruct (Req_dec d 0) as [->|N]; [rewrite !R_div_bad; reflexivity|]. rewrite !R_div_ok by assumption. cbn [bind]. do 2 f_equal. unfold scale3. f_equal; field; assumption. }
  unfold fl_se3_ln, se3_ln. rewrite C97_model_is_exact_model. apply Bx. intros r. cbv zeta. unfold fl_se3_ln_lin. cbv zeta. rewrite !D.
  change (fl_scale3 (fun x => x) (- (1 / 2)) r) with (scale3 (- (1 / 2)) r). rewrite EE.
  change (@div R (FlOps (fun x => x))) with (@div R ROps). rewrite As. apply Bx. intros sh. rewrite As. apply Bx. intros half. rewrite MV, As.
  change (fl_sub3 (fun x => x)) with sub3. change (fl_scale3 (fun x => x)) with scale3. apply Bx. intros rt. rewrite <- (V rt (2 * sh) r). reflexivity.
Qed.

Lemma carried_is w v t : carried w v t -> t = vexp w v.
Proof.
  intros [H0 H1]. destruct (carried_vexp w v) as [K0 K1].
  assert (Z : w = zero3 \/ w <> zero3).
  { destruct w as [x y z]. unfold zero3. destruct (Req_dec x 0); [|right; congruence]. destruct (Req_dec y 0); [|right; congruence]. destruct (Req_dec z 0); [left; congruence|right; congruence]. }
  destruct Z as [Z|Z]; [rewrite H0, K0 by assumption|rewrite H1, K1 by assumption]; reflexivity.
Qed.
Lemma vexp_sub w a b : sub3 (vexp w a) (vexp w b) = vexp w (sub3 a b).
Proof. unfold vexp. generalize (beta (len3 w)) (gamma (len3 w)). destruct w as [a1 a2 a3], a as [b1 b2 b3], b as [c1 c2 c3]. intros k1 k2. unfold sub3, add3, scale3, cross3. cbn [vx vy vz]. f_equal; ring. Qed.
Lemma len3_sub_self p : len3 (sub3 p p) = 0.
Proof. replace (sub3 p p) with zero3 by (destruct p as [x y z]; unfold sub3, zero3; cbn [vx vy vz]; f_equal; ring). apply len3_0. Qed.
(** V^-1: where the velocity has to point *)
Lemma carried_back w p : len3 w <= 35 / 10 -> exists a t S0, dot3 a a = 1 /\ 0 <= t <= 35 / 10 /\ w = scale3 t a /\ S0 * (t / 2) = sin (t / 2) /\ 48 / 100 <= S0 <= 1 /\
  t / 2 * (t / 2) / 6 - (t / 2) ^ 4 / 120 <= 1 - S0 <= t / 2 * (t / 2) / 6 /\ (t = 0 -> S0 = 1) /\ (forall v, carried w v p <-> v = vback a (t / 2) S0 p).
Proof.
  intros L. destruct (polar w) as (a & t & A & T & Ew & Et). destruct (sinc (t / 2) ltac:(lra)) as (S0 & Se & Sr & Sd). exists a, t, S0.
  assert (Z : t = 0 -> S0 = 1) by (intros ->; lra). split; [exact A|]. split; [lra|]. do 5 (split; [assumption|]). intros v. rewrite Ew. apply vback_carried; try assumption; lra.
Qed.
Lemma mv3_zero m : mv3 m zero3 = zero3.
Proof. unfold zero3. dv. lie_unfold. f_equal; ring. Qed.
Lemma add3_0_l' t : add3 zero3 t = t.
Proof. destruct t as [x y z]. unfold zero3, add3. cbn [vx vy vz]. f_equal; ring. Qed.
Lemma add3_cancel a b t : add3 a t = add3 b t -> a = b.
Proof. destruct a as [a1 a2 a3], b as [b1 b2 b3], t as [x y z]. unfold add3. cbn [vx vy vz]. intros E. injection E as E1 E2 E3. f_equal; lra. Qed.
Lemma se3_ext A B : (forall p, se3_act A p = se3_act B p) -> rot A = rot B /\ trans A = trans B.
Proof.
  intros H. assert (Et : trans A = trans B).
  { specialize (H zero3). unfold se3_act, so3_act in H. rewrite !mv3_zero, !(add3_comm _ zero3), !add3_0_l' in H. exact H. }
  split; [|exact Et]. apply act_ext. intros p. specialize (H p). unfold se3_act, so3_act in H. rewrite Et in H. rewrite !(add3_comm (trans B)) in H; apply (add3_cancel _ _ _ H).
Qed.
Section S.
Variables (u : R) (rnd : R -> R).
Hypothesis RN : rounding u rnd.
Hypothesis U : u <= 1 / 6800.
Variables (s : R) (fasin facos : R -> R) (thr pi : R).
Hypothesis IT : inverse_trig s fasin facos.
Hypothesis KO : constants s thr pi.
Variables (fsin fcos : R -> R).
Hypothesis TR : trig s fsin fcos.
Hypothesis RS : relative_sine s fsin.
Hypothesis Hs : s <= 1 / 10 ^ 6.
Notation fln := (fl_se3_ln rnd fasin facos thr pi fsin fcos).
Let Hs' : s <= 1 / 1000. Proof. lra. Qed.
Let s0 : 0 <= s. Proof. exact (s_pos s thr pi KO). Qed.
Lemma lte_pos : 0 <= ln_trans_error u s.
Proof. pose proof (u_rng u rnd RN). unfold ln_trans_error. lra. Qed.

(** whatever the rotation: the call succeeds; with what it returns, the exact exponential is near the argument *)
Theorem C98_backward T r d : rotation r -> dist (rot T) r <= d -> d <= 1 / 1000 -> ln_error u s d <= 3 / 100 ->
  exists mu X, fln T = Ok mu /\ len3 (ang mu) <= PI + ln_error u s d /\ len3 (lin mu) <= (32 / 10 + ln_trans_error u s) * len3 (trans T) /\
  rotation (rot X) /\ (forall p, mv3 (rot X) p = rotate (direction (ang mu)) (len3 (ang mu)) p) /\ carried (ang mu) (lin mu) (trans X) /\
  dist (rot X) r <= 16 * ln_error u s d /\ len3 (sub3 (trans X) (trans T)) <= ln_trans_error u s * len3 (trans T).
Proof.
  intros Q D D1 E1. destruct (C97_backward u rnd RN U s fasin facos thr pi IT KO Hs' (rot T) r d Q D D1) as (l & x & E & Ll & Qx & Xx & Dx). pose proof PI_347 as P3.
  destruct (carried_back l (trans T) ltac:(lra)) as (a & t & S0 & A & Tr & El & Se & Sr & Sd & Z & C).
  destruct (lin_ok u rnd RN U s fsin fcos TR RS Hs' a (trans T) t A Tr S0 Se Sr Sd) as (v & Ev & Dv). rewrite <- El in Ev.
  exists (mk6 v l), (mkSE3 x (vexp l v)). cbn [ang lin rot trans]. unfold fl_se3_ln. rewrite E. cbn [bind]. rewrite Ev. cbn [bind].
  split; [reflexivity|]. split; [exact Ll|]. split; [|split; [exact Qx|split; [exact Xx|split; [apply carried_vexp|split; [exact Dx|]]]]].
  - pose proof (vback_len a t S0 (trans T) A Tr Sr) as B. pose proof (len3_near v (vback a (t / 2) S0 (trans T))) as N. lra.
  - pose proof (proj2 (C _) eq_refl) as Cb. rewrite (carried_is _ _ _ Cb) at 1. rewrite vexp_sub. eapply Rle_trans; [apply vexp_len|exact Dv].
Qed.
(** near the rigid motion by (v, w): rotation by w, and p is where the velocity v takes the origin under the rotation velocity w *)
Theorem C98_forward T r d w v p : rotation r -> (forall x, mv3 r x = rotate (direction w) (len3 w) x) -> carried w v p -> len3 w < PI - ln_error u s d ->
  dist (rot T) r <= d -> d <= 1 / 1000 -> ln_error u s d <= 3 / 100 ->
  exists mu, fln T = Ok mu /\ len3 (sub3 (ang mu) w) <= ln_error u s d /\
  len3 (sub3 (lin mu) v) <= (ln_trans_error u s + 20 * ln_error u s d) * len3 (trans T) + 32 / 10 * len3 (sub3 (trans T) p).
Proof.
  intros Q Xw Cw W D D1 E1. destruct (C97_forward u rnd RN U s fasin facos thr pi IT KO Hs' (rot T) r d w Q Xw W D D1) as (l & E & Dl). pose proof PI_347 as P3. pose proof (len3_near l w) as N.
  assert (e0 : 0 <= ln_error u s d) by (eapply Rle_trans; [apply len3_nonneg|exact Dl]).
  destruct (carried_back l (trans T) ltac:(lra)) as (a & t & S0 & A & Tr & El & Se & Sr & Sd & Z & C).
  destruct (carried_back w p ltac:(lra)) as (b & t' & S1 & B & Tr' & Ew & Se' & Sr' & Sd' & Z' & C'). apply C' in Cw.
  destruct (lin_ok u rnd RN U s fsin fcos TR RS Hs' a (trans T) t A Tr S0 Se Sr Sd) as (c & Ec & Dc). rewrite <- El in Ec.
  exists (mk6 c l). cbn [ang lin]. unfold fl_se3_ln. rewrite E. cbn [bind]. rewrite Ec. cbn [bind]. split; [reflexivity|]. split; [exact Dl|].
  rewrite Cw. pose proof (vback_lip a b t t' S0 S1 (trans T) A B Tr Tr' Se Se' Sr Sr' Z Z' ltac:(lra)) as L1. rewrite <- El, <- Ew in L1.
  pose proof (vback_len b t' S1 (sub3 (trans T) p) B Tr' Sr') as L2. rewrite <- vback_lin in L2.
  pose proof (len3_tri c (vback a (t / 2) S0 (trans T)) (vback b (t' / 2) S1 p)) as T1. pose proof (len3_tri (vback a (t / 2) S0 (trans T)) (vback b (t' / 2) S1 (trans T)) (vback b (t' / 2) S1 p)) as T2.
  assert (20 * len3 (sub3 l w) * len3 (trans T) <= 20 * ln_error u s d * len3 (trans T)) by (apply Rmult_le_compat_r; [apply len3_nonneg|lra]). lra.
Qed.

(** ** round trips *)
Theorem C98_exp_then_ln mu : let d := exp_error u s + 16 * u * len3 (ang mu) in
  d <= 1 / 1000 -> ln_error u s d <= 3 / 100 -> len3 (ang mu) < PI - ln_error u s d ->
  exists q nu, fl_se3_exp rnd fsin fcos mu = Ok q /\ fln q = Ok nu /\ len3 (sub3 (ang nu) (ang mu)) <= ln_error u s d /\
  len3 (sub3 (lin nu) (lin mu)) <= ((ln_trans_error u s + 20 * ln_error u s d) * (1 + trans_exp_error u s) + 32 / 10 * trans_exp_error u s) * len3 (lin mu).
Proof.
  intros d D1 E1 W. destruct (C95_exp u rnd RN U s fsin fcos TR Hs mu) as (q & E & _ & T & Q & X & C & D & Dt & Lt). fold d in D.
  destruct (C98_forward q (rot T) d (ang mu) (lin mu) (trans T) Q X C W D D1 E1) as (nu & En & Da & Dl). exists q, nu. do 3 (split; [assumption|]).
  pose proof (len3_near (trans q) (trans T)) as N. pose proof lte_pos as l0. assert (e0 : 0 <= ln_error u s d) by (eapply Rle_trans; [apply len3_nonneg|exact Da]).
  assert ((ln_trans_error u s + 20 * ln_error u s d) * len3 (trans q) <= (ln_trans_error u s + 20 * ln_error u s d) * ((1 + trans_exp_error u s) * len3 (lin mu))) by (apply Rmult_le_compat_l; lra). lra.
Qed.
Theorem C98_ln_then_exp T r d : rotation r -> dist (rot T) r <= d -> d <= 1 / 1000 -> ln_error u s d <= 3 / 100 ->
  exists mu q, fln T = Ok mu /\ fl_se3_exp rnd fsin fcos mu = Ok q /\
  dist (rot q) r <= 16 * ln_error u s d + exp_error u s + 16 * u * (PI + ln_error u s d) /\
  len3 (sub3 (trans q) (trans T)) <= (ln_trans_error u s + trans_exp_error u s * (32 / 10 + ln_trans_error u s)) * len3 (trans T).
Proof.
  intros Q D D1 E1. pose proof (u_rng u rnd RN) as Hu. destruct (C98_backward T r d Q D D1 E1) as (mu & X & E & La & Ll & QX & RX & CX & DX & TX).
  destruct (C95_exp u rnd RN U s fsin fcos TR Hs mu) as (q & Eq & _ & Y & QY & RY & CY & DY & TY & _). exists mu, q. do 2 (split; [assumption|]).
  assert (Er : rot Y = rot X) by (apply act_ext; intros p; rewrite RY, RX; reflexivity). assert (Et : trans Y = trans X) by (rewrite (carried_is _ _ _ CY), (carried_is _ _ _ CX); reflexivity). rewrite Er in *. rewrite Et in *. split.
  - pose proof (dist_tri (rot q) (rot X) r). assert (16 * u * len3 (ang mu) <= 16 * u * (PI + ln_error u s d)) by (apply Rmult_le_compat_l; lra). lra.
  - pose proof (len3_tri (trans q) (trans X) (trans T)). assert (t0 : 0 <= trans_exp_error u s) by (unfold trans_exp_error; lra).
    assert (trans_exp_error u s * len3 (lin mu) <= trans_exp_error u s * ((32 / 10 + ln_trans_error u s) * len3 (trans T))) by (apply Rmult_le_compat_l; lra). lra.
Qed.
Lemma precisely_unique h : tame_motion u s h -> forall X Y, precisely h X -> precisely h Y -> rot X = rot Y /\ trans X = trans Y.
Proof.
  induction h as [|mu|g t|x IHx y IHy|x IHx|g x IHx]; cbn [precisely tame_motion]; intros TM X Y H H'.
  - apply se3_ext. intros p. rewrite H, H'. reflexivity.
  - destruct H as [R1 C1], H' as [R2 C2]. split; [apply act_ext; intros p; rewrite R1, R2; reflexivity|rewrite (carried_is _ _ _ C1), (carried_is _ _ _ C2); reflexivity].
  - destruct H as [R1 C1], H' as [R2 C2]. split; [exact (exactly_unique _ _ _ R1 R2)|congruence].
  - destruct H as (A & B & PA & PB & E), H' as (A' & B' & PA' & PB' & E'). destruct (IHx (proj1 TM) _ _ PA PA') as [K1 K2]. destruct (IHy (proj2 TM) _ _ PB PB') as [K3 K4]. apply se3_ext. intros p. rewrite E, E'.
    unfold se3_act. rewrite K1, K2, K3, K4. reflexivity.
  - destruct H as (A & PA & E), H' as (A' & PA' & E'). destruct (IHx TM _ _ PA PA') as [K1 K2].
    destruct (C95_history u rnd RN U s fsin fcos TR Hs x TM) as (q & T & _ & PT & QT & _). destruct (IHx TM _ _ PA PT) as [K3 K4].
    assert (QA : rotation (rot A)) by (rewrite K3; exact QT). destruct (C57_inverse A QA) as (_ & _ & I).
    apply se3_ext. intros p. rewrite <- (proj2 (I p)). rewrite E. assert (S : forall z, se3_act A z = se3_act A' z) by (intros z; unfold se3_act; rewrite K1, K2; reflexivity). rewrite S, E'. reflexivity.
  - destruct H as (m & A & Xm & PA & E), H' as (m' & A' & Xm' & PA' & E'). destruct (IHx (proj2 TM) _ _ PA PA') as [K1 K2]. apply se3_ext. intros p. rewrite E, E', (exactly_unique _ _ _ Xm Xm'). unfold se3_act. rewrite K1, K2. reflexivity.
Qed.
(** the logarithm of any history of constructions, products, inverses and rotations (C95) *)
Theorem C98_history h X w v : tame_motion u s h -> turn_error u s h <= 1 / 1000 -> ln_error u s (turn_error u s h) <= 3 / 100 -> precisely h X ->
  (forall p, mv3 (rot X) p = rotate (direction w) (len3 w) p) -> carried w v (trans X) -> len3 w < PI - ln_error u s (turn_error u s h) ->
  exists q mu, fl_move rnd fsin fcos h = Ok q /\ fln q = Ok mu /\ len3 (sub3 (ang mu) w) <= ln_error u s (turn_error u s h) /\
  len3 (sub3 (lin mu) v) <= (ln_trans_error u s + 20 * ln_error u s (turn_error u s h)) * span u s h + 32 / 10 * (span u s h - reach h).
Proof.
  intros Th E0 E1 PX Xw Cw W. destruct (C95_history u rnd RN U s fsin fcos TR Hs h Th) as (q & T & E & PT & QT & D & Dt & Lt & _).
  destruct (precisely_unique h Th X T PX PT) as [Er Et]. rewrite Er in Xw. rewrite Et in Cw.
  destruct (C98_forward q (rot T) _ w v (trans T) QT Xw Cw W D E0 E1) as (mu & Em & Da & Dl). exists q, mu. do 3 (split; [assumption|]).
  pose proof (len3_near (trans q) (trans T)) as N. pose proof lte_pos as l0. assert (e0 : 0 <= ln_error u s (turn_error u s h)) by (eapply Rle_trans; [apply len3_nonneg|exact Da]).
  assert ((ln_trans_error u s + 20 * ln_error u s (turn_error u s h)) * len3 (trans q) <= (ln_trans_error u s + 20 * ln_error u s (turn_error u s h)) * span u s h) by (apply Rmult_le_compat_l; lra). lra.
Qed.
End S.
(** ** in double precision *)
Theorem C98_double fsin fcos fasin facos thr pi : let u := / 2 * bpow radix2 (-52) in trig (4 * u) fsin fcos -> relative_sine (4 * u) fsin -> inverse_trig (4 * u) fasin facos -> constants (4 * u) thr pi ->
  (forall mu, len3 (ang mu) <= 29 / 10 -> exists q nu, fl_se3_exp rnd64 fsin fcos mu = Ok q /\ fl_se3_ln rnd64 fasin facos thr pi fsin fcos q = Ok nu /\
     len3 (sub3 (ang nu) (ang mu)) <= 3 / 10 ^ 12 /\ len3 (sub3 (lin nu) (lin mu)) <= 7 / 10 ^ 9 * len3 (lin mu)) /\
  (forall T r, rotation r -> dist (rot T) r <= 1 / 10 ^ 11 -> exists mu q, fl_se3_ln rnd64 fasin facos thr pi fsin fcos T = Ok mu /\ fl_se3_exp rnd64 fsin fcos mu = Ok q /\
     dist (rot q) r <= 2 / 10 ^ 8 /\ len3 (sub3 (trans q) (trans T)) <= 7 / 10 ^ 9 * len3 (trans T)).
Proof.
  intros u TR RS IT KO. pose proof rnd64_rounding as RN. fold u in RN. assert (Us : 0 <= u <= 1112 / 10 ^ 19) by (unfold u; cbn; lra). pose proof PI2_3_2 as P3. pose proof PI_347 as P4.
  assert (TE : 0 <= trans_exp_error u (4 * u) <= 20012 / 10 ^ 13) by (unfold trans_exp_error; lra). assert (LE : 0 <= ln_trans_error u (4 * u) <= 601 / 10 ^ 13) by (unfold ln_trans_error; lra). split.
  - intros mu W. pose proof (len3_nonneg (ang mu)) as L0. pose proof (len3_nonneg (lin mu)) as L1. set (d := exp_error u (4 * u) + 16 * u * len3 (ang mu)).
    assert (ul : 0 <= u * len3 (ang mu) <= u * (29 / 10)) by (split; [apply Rmult_le_pos; lra|apply Rmult_le_compat_l; lra]). assert (D : 0 <= d <= 175 / 10 ^ 16) by (unfold d, exp_error; lra).
    assert (X : 0 <= ln_error u (4 * u) d <= 22 / 10 ^ 13) by (unfold ln_error; lra).
    destruct (C98_exp_then_ln u rnd64 RN ltac:(lra) (4 * u) fasin facos thr pi IT KO fsin fcos TR RS ltac:(lra) mu ltac:(fold d; lra) ltac:(fold d; lra) ltac:(fold d; lra)) as (q & nu & A & B & C & E). fold d in C, E.
    exists q, nu. do 2 (split; [assumption|]). split; [lra|]. eapply Rle_trans; [exact E|]. apply Rmult_le_compat_r; [exact L1|].
    assert ((ln_trans_error u (4 * u) + 20 * ln_error u (4 * u) d) * (1 + trans_exp_error u (4 * u)) <= 11 / 10 ^ 11 * (1 + 1)) by (apply Rmult_le_compat; lra). lra.
  - intros T r Q D. assert (X : 0 <= ln_error u (4 * u) (1 / 10 ^ 11) <= 122 / 10 ^ 11) by (unfold ln_error; lra).
    destruct (C98_ln_then_exp u rnd64 RN ltac:(lra) (4 * u) fasin facos thr pi IT KO fsin fcos TR RS ltac:(lra) T r _ Q D ltac:(lra) ltac:(lra)) as (mu & q & A & B & C & E).
    exists mu, q. do 2 (split; [assumption|]). split.
    + assert (u * (PI + ln_error u (4 * u) (1 / 10 ^ 11)) <= u * 5) by (apply Rmult_le_compat_l; lra). unfold exp_error in C. lra.
    + eapply Rle_trans; [exact E|]. apply Rmult_le_compat_r; [apply len3_nonneg|].
      assert (trans_exp_error u (4 * u) * (32 / 10 + ln_trans_error u (4 * u)) <= 20012 / 10 ^ 13 * (321 / 100)) by (apply Rmult_le_compat; lra). lra.
Qed.
(** the hypotheses are met: the true functions; a quarter turn about z with one entry disturbed, moved by (1,2,3) *)
Example C98_case : let u := / 2 * bpow radix2 (-52) in
  trig (4 * u) sin cos /\ relative_sine (4 * u) sin /\ inverse_trig (4 * u) asin acos /\ constants (4 * u) (7 / 10) PI /\
  let r := mkM (mk3 0 (-1) 0) (mk3 1 0 0) (mk3 0 0 1) in let T := mkSE3 (mkM (mk3 0 (-1) 0) (mk3 1 (1 / 10 ^ 12) 0) (mk3 0 0 1)) (mk3 1 2 3) in let w := mk3 0 0 (PI / 2) in
  let v := mk3 (3 / 4 * PI) (PI / 4) 3 in
  rotation r /\ (forall p, mv3 r p = rotate (direction w) (len3 w) p) /\ carried w v (trans T) /\ len3 w < PI - ln_error u (4 * u) (1 / 10 ^ 11) /\ rot T <> r /\ dist (rot T) r <= 1 / 10 ^ 11 /\ ln_error u (4 * u) (1 / 10 ^ 11) <= 3 / 100.
Proof.
  cbv zeta. assert (U : 0 <= 4 * (/ 2 * bpow radix2 (-52)) <= 45 / 10 ^ 17) by (cbn; lra). set (u := / 2 * bpow radix2 (-52)) in *.
  assert (Z : forall x : R, Rabs (x - x) <= 4 * u) by (intros x; rewrite Rminus_diag_eq, Rabs_R0 by reflexivity; lra). pose proof PI2_3_2 as P3.
  split; [intros x; split; apply Z|]. split; [intros x; rewrite Rminus_diag_eq, Rabs_R0 by reflexivity; apply Rmult_le_pos; [lra|apply Rabs_pos]|].
  split; [split; intros; apply Z|]. split; [split; [lra|apply Z]|].
  set (k := mk3 0 0 1). assert (Ek : mk3 0 0 (PI / 2) = scale3 (PI / 2) k) by (unfold k, scale3; cbn [vx vy vz]; f_equal; ring). assert (K : dot3 k k = 1) by (unfold k, dot3; cbn [vx vy vz]; ring).
  assert (Lw : len3 (mk3 0 0 (PI / 2)) = PI / 2) by (rewrite Ek, len3_sc, (unit_len k K), Rabs_right by lra; ring).
  assert (LE : ln_error u (4 * u) (1 / 10 ^ 11) <= 2 / 10 ^ 9) by (unfold ln_error; lra).
  split; [unfold k, rotation, orthonormal; lie_unfold; repeat split; ring|]. split; [|split; [|split; [|split; [|split]]]].
  - intros p. rewrite <- exp3_exactly, Ek, exp3_unit by (try lra; exact K). unfold rot_matrix. rewrite cos_PI2, sin_PI2. unfold k. destruct p as [x y z]. lie_unfold. f_equal; ring.
  - cbn [trans]. split.
    + intros E. unfold zero3 in E. injection E as E. lra.
    + intros N. rewrite Lw. assert (direction (mk3 0 0 (PI / 2)) = k) as ->.
      { unfold direction. rewrite Lw. unfold k, scale3. cbn [vx vy vz]. f_equal; field; lra. }
      unfold swept, k. rewrite sin_PI2, cos_PI2. lie_unfold. f_equal; field; lra.
  - rewrite Lw. lra.
  - cbn [rot]. intros E. injection E as E. lra.
  - cbn [rot]. unfold dist, fro, subM, sub3, dot3. cbn [r0 r1 r2 vx vy vz]. apply (Rle_trans _ (sqrt ((1 / 10 ^ 12) * (1 / 10 ^ 12)))); [right; f_equal; ring|]. rewrite sqrt_square by lra. lra.
  - lra.
Qed.
Print Assumptions C98_model_is_exact_model. Print Assumptions C98_backward. Print Assumptions C98_forward.
Print Assumptions C98_exp_then_ln. Print Assumptions C98_ln_then_exp. Print Assumptions C98_history. Print Assumptions C98_double.
