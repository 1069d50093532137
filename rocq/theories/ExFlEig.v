(** * In double precision the eigen-decomposition of diag(1, 2 + 2^-25): every number computed. *)
From Coq Require Import Reals Lra Lia ZArith Psatz Bool.
From Flocq Require Import Core Relative.
From Verif Require Import Base Alg Inst Mat SpecFl LemFl LemFlChol ModelFl ExFl ExFlSO3 ModelEig ModelFlEig LemFlEig.
Open Scope outcome_scope.
Local Open Scope R_scope.

Local Instance p53 : Prec_gt_0 53 := eq_refl.
Lemma rnd64_1_2 x n : 1 <= x < 2 -> Rabs (x * bpow radix2 52 - IZR n) < / 2 -> rnd64 x = IZR n * bpow radix2 (-52).
Proof.
  intros X N. assert (M : Raux.mag radix2 x = 1%Z :> Z). { apply mag_unique_pos. cbn. lra. }
  unfold rnd64, round, F2R, scaled_mantissa, cexp, FLX_exp. rewrite M. cbn [Fnum Fexp]. replace (- (1 - 53))%Z with 52%Z by lia. rewrite (Znearest_imp _ _ n N). reflexivity.
Qed.
(** half way between two doubles, the lower one even *)
Lemma rnd64_tie x n : 8 <= x < 16 -> x * bpow radix2 49 = IZR n + / 2 -> Z.even n = true -> rnd64 x = IZR n * bpow radix2 (-49).
Proof.
  intros X N E. assert (M : Raux.mag radix2 x = 4%Z :> Z). { apply mag_unique_pos. cbn. lra. }
  unfold rnd64, round, F2R, scaled_mantissa, cexp, FLX_exp. rewrite M. cbn [Fnum Fexp]. replace (- (4 - 53))%Z with 49%Z by lia. replace (4 - 53)%Z with (-49)%Z by lia. rewrite N. f_equal. f_equal.
  assert (F : Zfloor (IZR n + / 2) = n) by (apply Zfloor_imp; rewrite plus_IZR; lra). unfold Znearest. rewrite F. replace (IZR n + / 2 - IZR n) with (/ 2) by ring. rewrite Rcompare_Eq by reflexivity. rewrite E. reflexivity.
Qed.
Notation q2 := (2 + / 2 ^ 25).
Lemma t_computed : t' rnd64 1 q2 = 3 + / 2 ^ 25.
Proof. unfold t'. replace (1 + q2) with (3 + / 2 ^ 25) by ring. exact_ (3 * 2 ^ 25 + 1)%Z (-25)%Z. Qed.
Lemma r0_computed : rnd64 0 = 0.
Proof. exact_ 0%Z 0%Z. Qed.
Lemma det_computed : det' rnd64 1 0 q2 = q2.
Proof.
  unfold det'. rewrite Rmult_0_l, r0_computed, Rmult_1_l. assert (E : rnd64 q2 = q2) by (exact_ (2 * 2 ^ 25 + 1)%Z (-25)%Z). rewrite E, Rminus_0_r. exact E.
Qed.
Lemma disc_computed : disc' rnd64 1 0 q2 = 1 + / 2 ^ 24.
Proof.
  unfold disc'. rewrite t_computed, det_computed. assert (E : rnd64 (4 * q2) = 8 + / 2 ^ 23). { replace (4 * q2) with (8 + / 2 ^ 23) by (cbn; lra). exact_ (8 * 2 ^ 23 + 1)%Z (-23)%Z. } rewrite E.
  assert (F : rnd64 ((3 + / 2 ^ 25) * (3 + / 2 ^ 25)) = 9 + 6 * / 2 ^ 25). { rewrite (rnd64_tie _ (9 * 2 ^ 49 + 6 * 2 ^ 24)%Z); [cbn; lra|cbn; lra|cbn; lra|reflexivity]. } rewrite F.
  replace (9 + 6 * / 2 ^ 25 - (8 + / 2 ^ 23)) with (1 + / 2 ^ 24) by (cbn; lra). exact_ (2 ^ 24 + 1)%Z (-24)%Z.
Qed.
Lemma r_computed : r' rnd64 1 0 q2 = 1 + / 2 ^ 25 - / 2 ^ 51.
Proof.
  unfold r', clamped. rewrite disc_computed. destruct (R_ltb (1 + / 2 ^ 24) 0) eqn:T; [apply R_ltb_spec in T; cbn in T; lra|]. clear T.
  assert (A : 1 + / 2 ^ 25 - / 2 ^ 51 - / 2 ^ 54 <= sqrt (1 + / 2 ^ 24)). { rewrite <- (sqrt_square (1 + / 2 ^ 25 - / 2 ^ 51 - / 2 ^ 54)) by (cbn; lra). apply sqrt_le_1_alt. cbn. lra. }
  assert (B : sqrt (1 + / 2 ^ 24) <= 1 + / 2 ^ 25 - / 2 ^ 51 + / 2 ^ 54). { rewrite <- (sqrt_square (1 + / 2 ^ 25 - / 2 ^ 51 + / 2 ^ 54)) by (cbn; lra). apply sqrt_le_1_alt. cbn. lra. }
  set (w := sqrt (1 + / 2 ^ 24)) in *. clearbody w. rewrite (rnd64_1_2 w (2 ^ 52 + 2 ^ 27 - 2)%Z); [cbn; lra|cbn in A, B; lra|]. apply Rabs_lt. cbn. cbn in A, B. lra.
Qed.
Lemma l0_computed : l0 rnd64 1 0 q2 = 1 + / 2 ^ 52.
Proof.
  unfold l0. rewrite t_computed, r_computed. assert (E : rnd64 (3 + / 2 ^ 25 - (1 + / 2 ^ 25 - / 2 ^ 51)) = 2 + / 2 ^ 51). { replace (3 + / 2 ^ 25 - (1 + / 2 ^ 25 - / 2 ^ 51)) with (2 + / 2 ^ 51) by ring. exact_ (2 ^ 52 + 1)%Z (-51)%Z. } rewrite E.
  replace (/ 2 * (2 + / 2 ^ 51)) with (1 + / 2 ^ 52) by (cbn; lra). exact_ (2 ^ 52 + 1)%Z (-52)%Z.
Qed.
Lemma a_computed : a' rnd64 1 0 q2 = - / 2 ^ 52.
Proof. unfold a'. rewrite l0_computed. replace (1 - (1 + / 2 ^ 52)) with (- / 2 ^ 52) by ring. exact_ (-1)%Z (-52)%Z. Qed.
Lemma row_computed : row rnd64 1 0 q2 = Ok (0, - (1)).
Proof.
  unfold row, LemFlEig.mag. rewrite a_computed, Rmult_0_l, r0_computed. assert (E : rnd64 (- / 2 ^ 52 * - / 2 ^ 52) = / 2 ^ 104). { replace (- / 2 ^ 52 * - / 2 ^ 52) with (/ 2 ^ 104) by (cbn; lra). exact_ 1%Z (-104)%Z. } rewrite E, Rplus_0_r.
  assert (E' : rnd64 (/ 2 ^ 104) = / 2 ^ 104) by (exact_ 1%Z (-104)%Z). rewrite E'. destruct (R_eqb (/ 2 ^ 104) 0) eqn:T; [apply R_eqb_spec in T; cbn in T; lra|]. clear T.
  assert (S : sqrt (/ 2 ^ 104) = / 2 ^ 52). { replace (/ 2 ^ 104) with (/ 2 ^ 52 * / 2 ^ 52) by (cbn; lra). apply sqrt_square. cbn; lra. } rewrite S. assert (E2 : rnd64 (/ 2 ^ 52) = / 2 ^ 52) by (exact_ 1%Z (-52)%Z). rewrite E2.
  rewrite fl_div_ok by (cbn; lra). cbn [bind]. replace (1 / (/ 2 ^ 52)) with (2 ^ 52) by (cbn; field). assert (E3 : rnd64 (2 ^ 52) = 2 ^ 52) by (exact_ 1%Z 52%Z). rewrite E3. f_equal. f_equal.
  - replace (- 0 * 2 ^ 52) with 0 by ring. apply r0_computed.
  - replace (- / 2 ^ 52 * 2 ^ 52) with (- (1)) by (cbn; field). exact_ (-1)%Z 0%Z.
Qed.
