(** * C99, continued: SO2::ln in floating point, double precision. *)
From Coq Require Import Reals Lra Lia Psatz ZArith.
From Flocq Require Import Core.
From Verif Require Import Base Alg Inst ModelLie SpecLie LemLie LemSO3b ModelSE LemSE2 PropSE LemFro RSum ModelFl SpecFl LemFl LemFlChol SpecFlSO3 SpecFlHist LemFlSO3 LemFlSO3c LemFlSO3d ExFl ExFlSO3 PropFlSO3 ModelFlSE3 SpecFlSE3 LemFlSE3 PropFlSE3 LemFlLnSE ModelFl2D SpecFl2D LemFl2D PropFl2D LemFlSE2 LemFlLn2D.
Open Scope outcome_scope.
Local Open Scope R_scope.

Section L.
Variables (s : R) (fatan2 : R -> R -> R).
Hypothesis AT : arctangent s fatan2.
Let s0' : 0 <= s. Proof. pose proof (AT 0 0). pose proof (Rabs_pos (fatan2 0 0 - atan2 0 0)). lra. Qed.
Lemma column_pos m r t d : turns t r -> dist2 m r <= d -> d <= 1 / 4 -> 0 < ux (s0 m) * ux (s0 m) + ux (s1 m) * ux (s1 m) /\ 0 <= d.
Proof.
  intros T D D4. assert (d0 : 0 <= d) by (eapply Rle_trans; [apply dist2_nonneg|exact D]). split; [|exact d0]. pose proof (first_column m r t d T D) as C. pose proof (sin2_cos2 t) as S2. unfold Rsqr in S2.
  set (x := ux (s0 m)) in *. set (y := ux (s1 m)) in *. destruct (Rlt_dec 0 (x * x + y * y)) as [P|P]; [exact P|]. assert (x = 0) by nra. assert (y = 0) by nra. rewrite H, H0 in C. nra.
Qed.
Lemma atan2_rng x y : 0 < x * x + y * y -> - PI < atan2 y x <= PI.
Proof.
  intros P. pose proof (sqrt_lt_R0 _ P) as R0. pose proof (sqrt_sqrt _ (Rlt_le _ _ P)) as RR. set (r := sqrt (x * x + y * y)) in *. destruct (atan2_ok (x / r) (y / r)) as (_ & _ & B).
  - replace (x / r * (x / r) + y / r * (y / r)) with ((x * x + y * y) / (r * r)) by (field; lra). rewrite RR. field. lra.
  - rewrite <- (LemEig3.atan2_scale r) in B by exact R0. replace (r * (y / r)) with y in B by (field; lra). replace (r * (x / r)) with x in B by (field; lra). exact B.
Qed.
(** the logarithm of a matrix within d of a rotation: the rotation by what it returns is near, and the angle is right up to whole turns *)
Theorem C99_ln m r t d : turns t r -> dist2 m r <= d -> d <= 1 / 4 -> Rabs t <= PI -> let a := fl_so2_ln fatan2 m in
  Rabs a <= PI + s /\ (exists x, turns a x /\ dist2 x r <= 2 * d + 2 * s) /\ (exists k, (-1 <= k <= 1)%Z /\ Rabs (a - (t + 2 * PI * IZR k)) <= 2 * d + s) /\
  (Rabs t < PI - 2 * d -> Rabs (a - t) <= 2 * d + s).
Proof.
  intros T D D4 Ht a. destruct (column_pos m r t d T D D4) as [P d0]. pose proof (first_column m r t d T D) as C. set (w := atan2 (ux (s1 m)) (ux (s0 m))).
  pose proof (AT (ux (s1 m)) (ux (s0 m))) as A. fold w in A. fold (fl_so2_ln fatan2 m) in A. fold a in A. pose proof (atan2_rng _ _ P) as W. fold w in W. assert (Wa : Rabs w <= PI) by (apply Rabs_le_between; lra).
  destruct (angle_near _ _ t d (conj d0 D4) C) as [Ce Se]. fold w in Ce, Se. pose proof (Rabs_pi w PI t Wa Ht) as E2. destruct (angle_cases (w - t) d E2 Ce Se) as (k & Kr & K).
  assert (Ka : Rabs (a - (t + 2 * PI * IZR k)) <= 2 * d + s). { replace (a - (t + 2 * PI * IZR k)) with ((a - w) + (w - t - 2 * PI * IZR k)) by ring. eapply Rle_trans; [apply Rabs_triang|]. lra. }
  split; [|split; [|split]].
  - replace a with ((a - w) + w) by ring. eapply Rle_trans; [apply Rabs_triang|]. lra.
  - exists (so2_exp a). split; [apply turns_is; reflexivity|]. pose proof (dist2_tri (so2_exp a) (so2_exp w) (so2_exp t)) as Tr. pose proof (turn_lip a w). pose proof (turn_near w t d Ce Se). apply turns_is in T. subst r. lra.
  - exists k. split; assumption.
  - intros Lt. apply Rabs_def2 in Lt. apply Rabs_le_between in K. pose proof PI_RGT_0. assert (k = 0)%Z as ->. { assert (k = -1 \/ k = 0 \/ k = 1)%Z as [-> | [-> | ->]] by lia; [|reflexivity|]; exfalso; lra. } rewrite Rmult_0_r, Rplus_0_r in Ka. exact Ka.
Qed.
Section T.
Variables (fsin fcos : R -> R).
Hypothesis TR : trig s fsin fcos.
Theorem C99_exp_then_ln t : Rabs t < PI - 4 * s -> s <= 1 / 8 -> Rabs (fl_so2_ln fatan2 (fl_so2_exp fsin fcos t) - t) <= 5 * s.
Proof.
  intros Ht Hs. destruct (C99_exp s fsin fcos TR t) as (r & _ & T & D). unfold exp_error2 in D. destruct (C99_ln _ r t _ T D ltac:(lra) ltac:(lra)) as (_ & _ & _ & H). specialize (H ltac:(lra)). lra.
Qed.
Theorem C99_ln_then_exp m r d : rotation2 r -> dist2 m r <= d -> d <= 1 / 4 -> dist2 (fl_so2_exp fsin fcos (fl_so2_ln fatan2 m)) r <= 2 * d + 4 * s.
Proof.
  intros R D D4. destruct C60_so2_exp_ln as (_ & _ & L & _). destruct (L r R) as [E B]. assert (T : turns (so2_ln r) r) by (apply turns_is; symmetry; exact E).
  destruct (C99_ln m r (so2_ln r) d T D D4 ltac:(apply Rabs_le_between; lra)) as (_ & (x & Tx & Dx) & _). destruct (C99_exp s fsin fcos TR (fl_so2_ln fatan2 m)) as (y & _ & Ty & Dy). unfold exp_error2 in Dy.
  apply turns_is in Tx, Ty. subst x y. pose proof (dist2_tri (fl_so2_exp fsin fcos (fl_so2_ln fatan2 m)) (so2_exp (fl_so2_ln fatan2 m)) r). lra.
Qed.
(** the angle of any history, away from half a turn *)
Lemma exactly2_unique h x y : exactly2 h x -> exactly2 h y -> x = y.
Proof.
  revert x y. induction h as [|w|m|a IHa b IHb|a IHa|a IHa]; cbn [exactly2]; intros x y X Y; try congruence.
  - apply turns_is in X, Y. congruence.
  - destruct X as (p & q & Xp & Xq & ->), Y as (p' & q' & Yp & Yq & ->). rewrite (IHa _ _ Xp Yp), (IHb _ _ Xq Yq). reflexivity.
  - destruct X as (p & Xp & ->), Y as (p' & Yp & ->). rewrite (IHa _ _ Xp Yp). reflexivity.
  - apply IHa; assumption.
Qed.
Theorem C99_ln_history u rnd h r t : rounding u rnd -> u <= 1 / 6800 -> tame2 u s h -> exactly2 h r -> turns t r -> error2 u s h <= 1 / 4 -> Rabs t < PI - 2 * error2 u s h ->
  exists q, fl_run2 rnd fsin fcos h = Ok q /\ Rabs (fl_so2_ln fatan2 q - t) <= 2 * error2 u s h + s.
Proof.
  intros RN U H X T E Ht. destruct (C99_history u rnd RN U s fsin fcos TR h H) as (q & r' & Q & X' & _ & D & _). rewrite (exactly2_unique h r r' X X') in *. exists q. split; [exact Q|].
  pose proof (dist2_nonneg q r'). destruct (C99_ln q r' t _ T D E ltac:(lra)) as (_ & _ & _ & G). apply G, Ht.
Qed.
End T.
End L.
(** ** in double precision *)
Theorem C99_double fsin fcos fatan2 : let u := / 2 * bpow radix2 (-52) in trig (4 * u) fsin fcos -> arctangent (4 * u) fatan2 ->
  (forall t, Rabs t <= 299 / 100 -> Rabs (fl_so2_ln fatan2 (fl_so2_exp fsin fcos t) - t) <= 3 / 10 ^ 15) /\
  (forall m, 0 < det2 m -> skewness2 m <= 100 -> exists q t, fl_so2_of_matrix rnd64 m = Ok q /\ so2_coerce m = Ok t /\ rotation2 t /\ dist2 q t <= 3 / 10 ^ 10 /\
     exists r, rotation2 r /\ dist2 q r <= 1 / 10 ^ 13) /\
  (forall m q d, rotation2 q -> dist2 m q <= d -> d <= 1 / 10 -> exists x t, fl_so2_coerce rnd64 m = Ok x /\ rotation2 t /\ dist2 x t <= 1 / 10 ^ 13 /\ dist2 t q <= 62 * d).
Proof.
  intros u TR AT. pose proof rnd64_rounding as RN. fold u in RN. assert (Us : 0 <= u <= 1112 / 10 ^ 19) by (unfold u; cbn; lra). pose proof PI2_3_2 as P3.
  split; [|split].
  - intros t Ht. pose proof (C99_exp_then_ln (4 * u) fatan2 AT fsin fcos TR t ltac:(lra) ltac:(lra)). lra.
  - intros m D K. assert (K0 : 0 <= skewness2 m). { unfold skewness2. rewrite Rabs_right by lra. apply Rmult_le_pos; [apply Rmult_le_pos; apply len2_nonneg|left; apply Rinv_0_lt_compat, D]. }
    assert (uk : u * skewness2 m <= u * 100) by (apply Rmult_le_compat_l; lra). destruct (C99_of_matrix u rnd64 RN ltac:(lra) m D ltac:(lra)) as (q & t & r & Q & T & Rt & D1 & Rr & D2). unfold of_matrix_error2 in D1.
    exists q, t. do 3 (split; [assumption|]). split; [lra|]. exists r. split; [assumption|lra].
  - intros m q d Q D Hd. destruct (C99_repair u rnd64 RN ltac:(lra) m q d Q D Hd) as (x & t & A & B & C & E). exists x, t. do 2 (split; [assumption|]). split; [lra|assumption].
Qed.
(** the hypotheses are met: the true functions; the sheared matrix (1 1; 0 1), a rotation disturbed in one entry, and a history with everything in it *)
Example C99_case : let u := / 2 * bpow radix2 (-52) in
  let m := mkM2 (mk2 1 1) (mk2 0 1) in let h := Mul2 (Coerce2 (Mul2 (Exp2 1) (OfMatrix2 m))) (Inv2 (Exp2 (1 / 2))) in
  trig (4 * u) sin cos /\ arctangent (4 * u) atan2 /\ 0 < det2 m /\ skewness2 m <= 100 /\ tame2 u (4 * u) h /\ error2 u (4 * u) h <= 1 / 10 ^ 10 /\
  rotation2 (mkM2 (mk2 0 (- 1)) (mk2 1 0)) /\ 0 < dist2 (mkM2 (mk2 (1 / 100) (- 1)) (mk2 1 0)) (mkM2 (mk2 0 (- 1)) (mk2 1 0)) <= 1 / 10.
Proof.
  cbv zeta. assert (Us : 0 <= / 2 * bpow radix2 (-52) <= 1112 / 10 ^ 19) by (cbn; lra). set (u := / 2 * bpow radix2 (-52)) in *. clearbody u.
  split; [intros x; rewrite !Rminus_diag_eq, Rabs_R0 by reflexivity; lra|]. split; [intros y x; rewrite Rminus_diag_eq, Rabs_R0 by reflexivity; lra|].
  set (m := mkM2 (mk2 1 1) (mk2 0 1)). assert (D : det2 m = 1) by (unfold det2, m; cbn [s0 s1 ux uy]; ring). split; [rewrite D; lra|].
  assert (K : 0 <= skewness2 m <= 2). { unfold skewness2. rewrite D, Rabs_R1. unfold len2, m, dot2. cbn [s0 s1 ux uy]. replace (1 * 1 + 1 * 1) with 2 by ring. replace (0 * 0 + 1 * 1) with 1 by ring. rewrite sqrt_1. pose proof (sqrt_pos 2). assert (sqrt 2 <= 2). { rewrite <- (sqrt_square 2) at 2 by lra. apply sqrt_le_1_alt. lra. } lra. }
  split; [lra|]. assert (uk : 0 <= u * skewness2 m <= u * 2) by (split; [apply Rmult_le_pos; lra|apply Rmult_le_compat_l; lra]).
  assert (F : 0 <= mul_growth u - 1 <= 1 / 10 ^ 14). { unfold mul_growth, fwd. assert (0 <= u * u <= u * (1112 / 10 ^ 19)) by (split; [nra|apply Rmult_le_compat_l; lra]). assert (0 <= u * u * u <= u * 1) by (split; [apply Rmult_le_pos; lra|nra]). replace ((1 + u) ^ 3 - 1) with (3 * u + 3 * (u * u) + u * u * u) by ring. nra. }
  remember (mul_growth u) as g eqn:Eg. assert (E1 : exists e, of_matrix_error2 u m = e /\ 0 <= e <= 5 / 10 ^ 12) by (eexists; split; [reflexivity|]; unfold of_matrix_error2; lra). destruct E1 as (e & Ee & He).
  assert (st : forall a b i j, 0 <= a <= i -> 0 <= b <= j -> i <= 1 / 10 ^ 9 -> j <= 1 / 10 ^ 9 -> 0 <= (1 + a) * (1 + b) * g - 1 <= i + j + 3 / 10 ^ 14).
  { intros a b i j A B I J. assert (0 <= a * b <= i * (1 / 10 ^ 9)) by (split; [apply Rmult_le_pos; lra|apply Rmult_le_compat; lra]). assert (b1 : 1 <= (1 + a) * (1 + b) <= 1 + a + b + i * (1 / 10 ^ 9)) by lra. set (k := (1 + a) * (1 + b)) in *. replace (k * g - 1) with (k - 1 + k * (g - 1)) by ring.
    assert (0 <= k * (g - 1) <= 2 * (1 / 10 ^ 14)) by (split; [apply Rmult_le_pos; lra|apply Rmult_le_compat; lra]). assert (a * b <= 1 / 10 ^ 9 * (1 / 10 ^ 9)) by (apply Rmult_le_compat; lra). lra. }
  cbn [tame2 error2 drift2]. rewrite <- !Eg, D, Ee. clear Eg. unfold exp_error2.
  pose proof (st (2 * (4 * u)) (652 * u) (1 / 10 ^ 14) (1 / 10 ^ 12) ltac:(lra) ltac:(lra) ltac:(lra) ltac:(lra)) as S1. pose proof (st (2 * (4 * u)) e (1 / 10 ^ 14) (5 / 10 ^ 12) ltac:(lra) ltac:(lra) ltac:(lra) ltac:(lra)) as S2.
  split; [repeat split; lra|]. split.
  - match goal with |- (1 + ?a) * (1 + ?b) * g - 1 <= _ => pose proof (st a b (8 / 10 ^ 11) (1 / 10 ^ 14) ltac:(lra) ltac:(lra) ltac:(lra) ltac:(lra)) as S3 end. lra.
  - split.
    + split; [unfold orthonormal2, dot2; cbn [s0 s1 ux uy]; repeat split; ring|unfold det2; cbn [s0 s1 ux uy]; ring].
    + unfold dist2, fro2, subM2, sub2, dot2. cbn [s0 s1 ux uy]. match goal with |- 0 < sqrt ?k <= _ => replace k with (1 / 100 * (1 / 100)) by field end. rewrite sqrt_square by lra. lra.
Qed.
Print Assumptions C99_model_is_exact_model.
Print Assumptions C99_history.
Print Assumptions C99_ln.
Print Assumptions C99_ln_history.
Print Assumptions C99_double.
