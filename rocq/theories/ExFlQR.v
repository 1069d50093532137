(** * In double precision: QR.h on the columns (1, 3*2^-27) and (1, 2^-27). *)
From Coq Require Import Reals Lra Lia ZArith Psatz Bool Arith.
From Flocq Require Import Core Relative.
From Verif Require Import Base Alg Inst Mat SpecFl LemFl ModelFl ExFl ExFlSO3 ExFlEig ModelQR LemQR ModelFlQR LemFlQR2 SpecMat.
Open Scope outcome_scope.
Local Open Scope R_scope.

Definition Aq (t : R) : mat R := mkmat 2 2 (fun i j => match i, j with 0%nat, 0%nat => 1 | 0%nat, _ => 0 | _, 0%nat => t | _, _ => 1 end).
Lemma r1_computed : rnd64 1 = 1. Proof. exact_ 1%Z 0%Z. Qed.
Notation t3 := (3 * / 2 ^ 27).
Lemma t3_double : rnd64 t3 = t3. Proof. exact_ 3%Z (-27)%Z. Qed.
Lemma t1_double : rnd64 (/ 2 ^ 27) = / 2 ^ 27. Proof. exact_ 1%Z (-27)%Z. Qed.
Lemma fsum2 f : fsum rnd64 2 f = rnd64 (rnd64 (0 + f 0%nat) + f 1%nat). Proof. reflexivity. Qed.
Lemma colx0 t : colx (Aq t) 0 0 = 1. Proof. reflexivity. Qed.
Lemma colx1 t : colx (Aq t) 0 1 = t. Proof. reflexivity. Qed.
Lemma one_pos : R_ltb 1 0 = false. Proof. unfold R_ltb. destruct (Rlt_dec 1 0); [lra|reflexivity]. Qed.
Lemma a_computed3 : q_a rnd64 2 (colx (Aq t3) 0) = 1 + / 2 ^ 52.
Proof.
  unfold q_a. rewrite fsum2, colx0, colx1, one_pos. rewrite !Rmult_1_r, r1_computed, Rplus_0_l, r1_computed.
  assert (E1 : rnd64 (t3 * t3) = 9 * / 2 ^ 54). { replace (t3 * t3) with (9 * / 2 ^ 54) by (cbn; lra). exact_ 9%Z (-54)%Z. } rewrite E1.
  assert (E2 : rnd64 (1 + 9 * / 2 ^ 54) = 1 + / 2 ^ 51). { rewrite (rnd64_1_2 _ (2 ^ 52 + 2)%Z); [cbn; lra|cbn; lra|]. apply Rabs_lt. cbn. lra. } rewrite E2.
  assert (A : 1 + / 2 ^ 52 - / 2 ^ 104 <= sqrt (1 + / 2 ^ 51)). { rewrite <- (sqrt_square (1 + / 2 ^ 52 - / 2 ^ 104)) by (cbn; lra). apply sqrt_le_1_alt. cbn. lra. }
  assert (B : sqrt (1 + / 2 ^ 51) <= 1 + / 2 ^ 52). { rewrite <- (sqrt_square (1 + / 2 ^ 52)) by (cbn; lra). apply sqrt_le_1_alt. cbn. lra. }
  set (w := sqrt (1 + / 2 ^ 51)) in *. clearbody w. assert (E3 : rnd64 w = 1 + / 2 ^ 52). { rewrite (rnd64_1_2 w (2 ^ 52 + 1)%Z); [cbn; lra|cbn in A, B; lra|]. apply Rabs_lt. cbn. cbn in A, B. lra. } rewrite E3. exact_ (2 ^ 52 + 1)%Z (-52)%Z.
Qed.
Lemma u0_computed3 : q_u0 rnd64 2 (colx (Aq t3) 0) = - / 2 ^ 52.
Proof. unfold q_u0. rewrite a_computed3, colx0. replace (1 - (1 + / 2 ^ 52)) with (- / 2 ^ 52) by ring. exact_ (-1)%Z (-52)%Z. Qed.
Lemma H_computed3 : q_H rnd64 2 (colx (Aq t3) 0) = / 2 ^ 52 + / 2 ^ 104.
Proof. unfold q_H. rewrite a_computed3, u0_computed3. replace (- (1 + / 2 ^ 52) * - / 2 ^ 52) with (/ 2 ^ 52 + / 2 ^ 104) by (cbn; lra). exact_ (2 ^ 52 + 1)%Z (-104)%Z. Qed.
Lemma rnd64_26_27 x n : 2 ^ 26 <= x < 2 ^ 27 -> Rabs (x * bpow radix2 26 - IZR n) < / 2 -> rnd64 x = IZR n * bpow radix2 (-26).
Proof.
  intros X K. assert (M : Raux.mag radix2 x = 27%Z :> Z). { apply mag_unique_pos. cbn. cbn in X. lra. }
  unfold rnd64, round, F2R, scaled_mantissa, cexp, FLX_exp. rewrite M. cbn [Fnum Fexp]. replace (- (27 - 53))%Z with 26%Z by lia. rewrite (Znearest_imp _ _ n K). reflexivity.
Qed.
Lemma entry_computed y : y 0%nat = 0 -> y 1%nat = 1 -> upd rnd64 0 2 (q_u rnd64 2 (colx (Aq t3) 0)) (q_H rnd64 2 (colx (Aq t3) 0)) y 1 = - 5 / 4 + / 2 ^ 51.
Proof.
  intros Y0 Y1. unfold upd. rewrite fsum2, H_computed3. cbn [Nat.sub Nat.add]. unfold q_u. cbn [Nat.eqb]. rewrite u0_computed3, colx1, Y0, Y1.
  rewrite Rmult_0_r, Rplus_0_l, !r0_computed, Rplus_0_l, Rmult_1_r, !t3_double.
  assert (E1 : rnd64 (t3 / (/ 2 ^ 52 + / 2 ^ 104)) = 3 * 2 ^ 25 - / 2 ^ 26).
  { set (v := t3 / (/ 2 ^ 52 + / 2 ^ 104)). assert (E : v * (1 + / 2 ^ 52) = 3 * 2 ^ 25) by (unfold v; cbn; field). clearbody v.
    assert (B1 : v < 3 * 2 ^ 25 - / 2 ^ 27) by (cbn in *; lra). assert (B2 : 3 * 2 ^ 25 - 3 * / 2 ^ 27 < v) by (cbn in *; lra).
    rewrite (rnd64_26_27 v (3 * 2 ^ 51 - 1)%Z); [cbn; lra|cbn in *; lra|]. apply Rabs_lt. cbn. cbn in B1, B2, E. lra. }
  rewrite E1.
  assert (E2 : rnd64 (t3 * (3 * 2 ^ 25 - / 2 ^ 26)) = 9 / 4 - / 2 ^ 51).
  { rewrite (rnd64_2_4 _ (9 * 2 ^ 49 - 1)%Z); [cbn; lra|cbn; lra|]. apply Rabs_lt. rewrite b51. cbn. lra. }
  rewrite E2. replace (1 - (9 / 4 - / 2 ^ 51)) with (- 5 / 4 + / 2 ^ 51) by lra. exact_ (- 5 * 2 ^ 49 + 1)%Z (-51)%Z.
Qed.
Lemma qr_computed3 : exists Q U, fl_qr rnd64 (Aq t3) = Ok (Q, U) /\ mel Q 1 1 = - 5 / 4 + / 2 ^ 51 /\ mel U 1 1 = - 5 / 4 + / 2 ^ 51.
Proof.
  set (I := mkmat 2 2 (fun r c => if (r =? c)%nat then 1 else 0)).
  destruct (fl_step_ok rnd64 2 2 0 (Aq t3) I ltac:(lia) ltac:(lia) eq_refl eq_refl eq_refl eq_refl) as [_ G]. cbn [Nat.sub] in G.
  destruct G as (m & Q & E & _ & _ & Q1 & Q2 & VM & VQ). { rewrite H_computed3. cbn. lra. }
  destruct (transpose_ok Q 2 Q1 Q2) as (Q' & EQ & T1 & T2 & T3). exists Q', m. split.
  - unfold fl_qr. cbn [mrows mcols Aq Nat.min Nat.sub]. rewrite LemChol.for_step by lia. fold (Aq t3). fold I. rewrite E. cbn [bind]. rewrite for_empty by lia. cbn [bind]. rewrite EQ. reflexivity.
  - rewrite T3 by lia. rewrite VQ, VM by lia. split; apply entry_computed; reflexivity.
Qed.
Lemma tiny_computed : fl_qr rnd64 (Aq (/ 2 ^ 27)) = NonFinite.
Proof.
  set (I := mkmat 2 2 (fun r c => if (r =? c)%nat then 1 else 0)). set (t := / 2 ^ 27).
  destruct (fl_step_ok rnd64 2 2 0 (Aq t) I ltac:(lia) ltac:(lia) eq_refl eq_refl eq_refl eq_refl) as [G _]. cbn [Nat.sub] in G.
  unfold fl_qr. cbn [mrows mcols Aq Nat.min Nat.sub]. rewrite LemChol.for_step by lia. fold (Aq t). fold I. rewrite G; [reflexivity|].
  assert (EA : q_a rnd64 2 (colx (Aq t) 0) = 1).
  { unfold q_a. rewrite fsum2, colx0, colx1, one_pos. rewrite !Rmult_1_r, r1_computed, Rplus_0_l, r1_computed.
    assert (E1 : rnd64 (t * t) = / 2 ^ 54). { replace (t * t) with (/ 2 ^ 54) by (unfold t; cbn; lra). exact_ 1%Z (-54)%Z. } rewrite E1.
    assert (E2 : rnd64 (1 + / 2 ^ 54) = 1). { rewrite (rnd64_1_2 _ (2 ^ 52)%Z); [cbn; lra|cbn; lra|]. apply Rabs_lt. cbn. lra. } rewrite E2, sqrt_1, !r1_computed. reflexivity. }
  unfold q_H, q_u0. rewrite EA, colx0. replace (1 - 1) with 0 by ring. rewrite r0_computed. replace (- (1) * 0) with 0 by ring. apply r0_computed.
Qed.
