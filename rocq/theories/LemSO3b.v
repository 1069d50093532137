(** * SO3: accuracy of the exponential near zero; the logarithm. *)
From Coq Require Import Reals Lra Bool Psatz.
From Verif Require Import Base Alg Inst ModelLie SpecLie LemLie LemSO3.
Local Open Scope R_scope.

Lemma cos_bounds t : 0 <= t -> t <= PI / 2 ->
  1 - t ^ 2 / 2 <= cos t <= 1 - t ^ 2 / 2 + t ^ 4 / 24 /\ 1 - t ^ 2 / 2 + t ^ 4 / 24 - t ^ 6 / 720 <= cos t.
Proof.
  intros H0 H1. assert (H0' : - PI / 2 <= t) by (pose proof PI_RGT_0; lra).
  destruct (cos_bound t 0 H0' H1) as [A B]. destruct (cos_bound t 1 H0' H1) as [C _].
  unfold cos_approx, cos_term in *. cbn -[pow INR] in A, B, C. cbn [fact Nat.mul Nat.add] in *.
  rewrite ?INR_IZR_INZ in *. cbn [Z.of_nat] in *.
  repeat split; cbn -[IZR] in *; lra.
Qed.

(** Entry-wise distance. *)
Definition close3 (e : R) (u v : V3) : Prop := Rabs (vx u - vx v) <= e /\ Rabs (vy u - vy v) <= e /\ Rabs (vz u - vz v) <= e.
Definition closeM (e : R) (a b : M3) : Prop := close3 e (r0 a) (r0 b) /\ close3 e (r1 a) (r1 b) /\ close3 e (r2 a) (r2 b).

Lemma rodrigues_close w A B A' B' l e1 e2 :
  0 <= l -> dot3 w w = l * l -> Rabs (A - A') * l <= e1 -> Rabs (B - B') * (l * l) <= e2 ->
  closeM (e1 + e2) (rodrigues w A B) (rodrigues w A' B').
Proof.
  intros Hl Hw H1 H2. destruct w as [a b c]. revert Hw. unfold dot3; cbn [vx vy vz]. intros Hw.
  assert (Ka : Rabs a <= l) by (apply Rabs_le; nra).
  assert (Kb : Rabs b <= l) by (apply Rabs_le; nra).
  assert (Kc : Rabs c <= l) by (apply Rabs_le; nra).
  assert (P0 : 0 <= Rabs (A - A')) by apply Rabs_pos.
  assert (P1 : 0 <= Rabs (B - B')) by apply Rabs_pos.
  assert (E1 : 0 <= e1) by nra. assert (E2 : 0 <= e2) by nra.
  assert (D : forall s, 0 <= s <= l * l -> Rabs ((1 - B * s) - (1 - B' * s)) <= e1 + e2).
  { intros s Hs. replace (1 - B * s - (1 - B' * s)) with (- ((B - B') * s)) by ring.
    rewrite Rabs_Ropp, Rabs_mult, (Rabs_right s) by lra. nra. }
  assert (G : forall x y z, Rabs x <= l -> Rabs y <= l -> Rabs z <= l ->
     Rabs ((B * (x * y) - A * z) - (B' * (x * y) - A' * z)) <= e1 + e2 /\
     Rabs ((B * (x * y) + A * z) - (B' * (x * y) + A' * z)) <= e1 + e2).
  { intros x y z Hx Hy Hz.
    assert (Q1 : Rabs ((B - B') * (x * y)) <= e2).
    { rewrite !Rabs_mult. eapply Rle_trans; [|exact H2]. apply Rmult_le_compat_l; [exact P1|].
      apply Rmult_le_compat; auto using Rabs_pos. }
    assert (Q2 : Rabs ((A - A') * z) <= e1).
    { rewrite Rabs_mult. eapply Rle_trans; [|exact H1]. apply Rmult_le_compat_l; auto. }
    split.
    - replace (B * (x * y) - A * z - (B' * (x * y) - A' * z)) with ((B - B') * (x * y) - (A - A') * z) by ring.
      apply Rabs_def2b in Q1, Q2 || idtac. revert Q1 Q2. unfold Rabs. repeat destruct Rcase_abs; lra.
    - replace (B * (x * y) + A * z - (B' * (x * y) + A' * z)) with ((B - B') * (x * y) + (A - A') * z) by ring.
      revert Q1 Q2. unfold Rabs. repeat destruct Rcase_abs; lra. }
  unfold closeM, close3, rodrigues. cbn [vx vy vz r0 r1 r2].
  repeat split; first [apply D; nra | apply G; assumption].
Qed.

Lemma Rabs_mul_r x t : 0 <= t -> Rabs x * t = Rabs (x * t).
Proof. intros H. rewrite Rabs_mult, (Rabs_right t); lra. Qed.
(** In both Taylor branches every entry of the computed matrix is within 1e-17 of the true rotation. *)
Lemma so3_exp_close w : dot3 w w < 1 / 10 ^ 6 ->
  exists m, so3_exp w = Ok m /\ closeM (1 / 10 ^ 17) m (exp3 w).
Proof.
  intros H. destruct (V3_dec w zero3) as [->|Hw].
  { rewrite so3_exp_zero, exp3_zero. eexists; split; [reflexivity|].
    unfold closeM, close3, id3. cbn [vx vy vz r0 r1 r2]. rewrite !Rminus_eq_0, !Rabs_R0. repeat split; lra. }
  rewrite exp3_rodrigues by exact Hw.
  pose proof (len3_pos w Hw) as L. pose proof (len3_sq w) as S2.
  set (t := len3 w) in *. rewrite <- S2 in H.
  assert (Lt : t < 1 / 1000) by nra.
  assert (P3 : 3 < PI) by (pose proof PI2_3_2; lra).
  destruct (sin_bounds t) as [[s1 s2] s3]; [lra|lra|].
  destruct (cos_bounds t) as [[c1 c2] c3]; [lra|lra|].
  unfold so3_exp, so3_coeffs. rewrite <- S2.
  assert (T2 : t * t < 1 / 10 ^ 6) by exact H.
  assert (Q2 : 0 < t * t) by nra.
  assert (T4 : 0 < t * t * (t * t) /\ t * t * (t * t) < 1 / 10 ^ 6 * (t * t)).
  { split; [apply Rmult_lt_0_compat; auto|apply Rmult_lt_compat_r; auto]. }
  assert (T5 : 0 < t ^ 5 /\ t ^ 5 < 1 / 10 ^ 9 * (t * t)).
  { replace (t ^ 5) with (t * (t * t * (t * t))) by ring. split; [apply Rmult_lt_0_compat; tauto|].
    apply Rlt_trans with (1 / 1000 * (t * t * (t * t))); [apply Rmult_lt_compat_r; tauto|lra]. }
  assert (T7 : 0 < t ^ 7 /\ t ^ 7 < 1 / 10 ^ 6 * t ^ 5).
  { replace (t ^ 7) with (t * t * t ^ 5) by ring. split; [apply Rmult_lt_0_compat; tauto|apply Rmult_lt_compat_r; tauto]. }
  assert (T6 : 0 < t ^ 6 /\ t ^ 6 < 1 / 10 ^ 6 * (t * t * (t * t))).
  { replace (t ^ 6) with (t * t * (t * t * (t * t))) by ring. split; [apply Rmult_lt_0_compat; tauto|apply Rmult_lt_compat_r; tauto]. }
  assert (T9 : t ^ 4 = t * t * (t * t)) by ring.
  assert (As : forall A, A * t - sin t <= t ^ 7 / 5040 + t ^ 5 / 120 -> - (t ^ 7 / 5040 + t ^ 5 / 120) <= A * t - sin t ->
     Rabs (A - sin t / t) * t <= t ^ 7 / 5040 + t ^ 5 / 120).
  { intros A G1 G2. rewrite Rabs_mul_r by lra.
    replace ((A - sin t / t) * t) with (A * t - sin t) by (field; lra). apply Rabs_le. lra. }
  destruct (R_ltb (t * t) (1 / 10 ^ 8)) eqn:E.
  - apply R_ltb_spec in E. cbn [bind]. eexists; split; [reflexivity|].
    assert (E4 : t * t * (t * t) < 1 / 10 ^ 16).
    { apply Rlt_trans with (1 / 10 ^ 8 * (t * t)); [apply Rmult_lt_compat_r; auto|lra]. }
    assert (E5 : t ^ 5 < 1 / 10 ^ 20).
    { assert (t < 1 / 10 ^ 4) by nra. replace (t ^ 5) with (t * (t * t * (t * t))) by ring.
      apply Rlt_trans with (1 / 10 ^ 4 * (t * t * (t * t))); [apply Rmult_lt_compat_r; tauto|lra]. }
    replace (1 / 10 ^ 17) with (4 / 10 ^ 18 + 5 / 10 ^ 18 + 1 / 10 ^ 18) by field.
    assert (W : closeM (1 / 10 ^ 20 + 5 / 10 ^ 18) (rodrigues w (1 - 1 / 6 * (t * t)) (1 / 2))
       (rodrigues w (sin t / t) ((1 - cos t) / (t * t)))).
    { apply (rodrigues_close w _ _ _ _ t); [lra|auto| |].
      - eapply Rle_trans; [apply As|]; [replace ((1 - 1 / 6 * (t * t)) * t) with (t - t ^ 3 / 6) by field; lra..|lra].
      - rewrite Rabs_mul_r by nra.
        replace ((1 / 2 - (1 - cos t) / (t * t)) * (t * t)) with (t ^ 2 / 2 - (1 - cos t)) by (field; lra).
        apply Rabs_le. lra. }
    destruct W as ((a1 & a2 & a3) & (b1 & b2 & b3) & (d1 & d2 & d3)).
    repeat split; (eapply Rle_trans; [eassumption|lra]).
  - rewrite R_ltb_t by exact T2. cbn [bind]. eexists; split; [reflexivity|].
    assert (E7 : t ^ 7 < 1 / 10 ^ 21).
    { lra. }
    assert (E6 : t ^ 6 < 1 / 10 ^ 18).
    { lra. }
    assert (W : closeM (1 / 10 ^ 21 + 1 / 10 ^ 18) (rodrigues w (1 - t * t * (1 / 6) * (1 - 1 / 20 * (t * t))) (1 / 2 - 1 / 4 * (1 / 6) * (t * t)))
       (rodrigues w (sin t / t) ((1 - cos t) / (t * t)))).
    { apply (rodrigues_close w _ _ _ _ t); [lra|auto| |].
      - rewrite Rabs_mul_r by lra.
        replace ((1 - t * t * (1 / 6) * (1 - 1 / 20 * (t * t)) - sin t / t) * t) with (t - t ^ 3 / 6 + t ^ 5 / 120 - sin t) by (field; lra).
        apply Rabs_le. lra.
      - rewrite Rabs_mul_r by nra.
        replace ((1 / 2 - 1 / 4 * (1 / 6) * (t * t) - (1 - cos t) / (t * t)) * (t * t)) with (cos t - (1 - t ^ 2 / 2 + t ^ 4 / 24)) by (field; lra).
        apply Rabs_le. lra. }
    destruct W as ((a1 & a2 & a3) & (b1 & b2 & b3) & (d1 & d2 & d3)).
    repeat split; (eapply Rle_trans; [eassumption|lra]).
Qed.
