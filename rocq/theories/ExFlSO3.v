(** * In double precision SO3(a,b) for two nearly parallel vectors: the computed cross product and the computed matrix. *)
From Coq Require Import Reals Lra Lia ZArith Psatz.
From Flocq Require Import Core Relative.
From Verif Require Import Base Alg Inst ModelLie SpecLie LemLie LemSO3 LemSO3b SpecFlSO3 LemFro SpecFl LemFl ExFl ModelFlSO3 LemFlSO3.
Local Open Scope R_scope.

Local Instance p53 : Prec_gt_0 53 := eq_refl.
(** integers below 2^53 times a power of two are representable *)
Lemma rnd64_exact m e : (Z.abs m < 2 ^ 53)%Z -> rnd64 (IZR m * bpow radix2 e) = IZR m * bpow radix2 e.
Proof.
  intros H. apply round_generic; [apply valid_rnd_N|]. apply generic_format_FLX. exists (Float radix2 m e); [reflexivity|exact H].
Qed.
(** numbers between 2 and 4 are rounded to multiples of 2^-51 *)
Lemma rnd64_2_4 x n : 2 <= x < 4 -> Rabs (x * bpow radix2 51 - IZR n) < / 2 -> rnd64 x = IZR n * bpow radix2 (-51).
Proof.
  intros X N. assert (M : mag radix2 x = 2%Z :> Z). { apply mag_unique_pos. cbn. lra. }
  unfold rnd64, round, F2R, scaled_mantissa, cexp, FLX_exp. rewrite M. cbn [Fnum Fexp]. replace (- (2 - 53))%Z with 51%Z by lia. rewrite (Znearest_imp _ _ n N). reflexivity.
Qed.
(** both vectors are doubles: 1.375, 1, and two consecutive doubles above 1.5 *)
Definition va : V3 := mk3 (11 / 8) 1 (3 / 2 + / 2 ^ 52).
Definition vb : V3 := mk3 (11 / 8) 1 (3 / 2 + 2 * / 2 ^ 52).
Lemma b51 : bpow radix2 51 = 2 ^ 51.
Proof. cbn. lra. Qed.
Lemma ex_is x m e : x = IZR m * bpow radix2 e -> (Z.abs m < 2 ^ 53)%Z -> rnd64 x = x.
Proof. intros -> H. apply rnd64_exact, H. Qed.
Ltac exact_ m e := apply (ex_is _ m e); [cbn; lra|reflexivity].
Lemma va_double : rnd64 (vx va) = vx va /\ rnd64 (vy va) = vy va /\ rnd64 (vz va) = vz va.
Proof. unfold va; cbn [vx vy vz]. repeat split; [exact_ 11%Z (-3)%Z|exact_ 1%Z 0%Z|exact_ (3 * 2 ^ 51 + 1)%Z (-52)%Z]. Qed.
Lemma vb_double : rnd64 (vx vb) = vx vb /\ rnd64 (vy vb) = vy vb /\ rnd64 (vz vb) = vz vb.
Proof. unfold vb; cbn [vx vy vz]. repeat split; [exact_ 11%Z (-3)%Z|exact_ 1%Z 0%Z|exact_ (3 * 2 ^ 51 + 2)%Z (-52)%Z]. Qed.
Lemma cross_computed : fl_cross3 rnd64 va vb = mk3 (/ 2 ^ 52) 0 0.
Proof.
  destruct va_double as (_ & _ & A). destruct vb_double as (_ & _ & B). unfold va, vb in A, B. cbn [vx vy vz] in A, B.
  unfold fl_cross3, va, vb. cbn [vx vy vz]. rewrite !Rmult_1_l, !Rmult_1_r, A, B.
  assert (P : rnd64 ((3 / 2 + / 2 ^ 52) * (11 / 8)) = rnd64 (11 / 8 * (3 / 2 + 2 * / 2 ^ 52))).
  { transitivity (IZR (33 * 2 ^ 47 + 1) * bpow radix2 (-51)); [|symmetry]; apply rnd64_2_4; rewrite ?b51; try lra; apply Rabs_lt; cbn; lra. }
  rewrite P. assert (Z0 : rnd64 0 = 0) by (exact_ 0%Z 0%Z). f_equal.
  - replace (3 / 2 + 2 * / 2 ^ 52 - (3 / 2 + / 2 ^ 52)) with (/ 2 ^ 52) by lra. exact_ 1%Z (-52)%Z.
  - rewrite Rminus_diag_eq by reflexivity. exact Z0.
  - rewrite Rminus_diag_eq by reflexivity. exact Z0.
Qed.
Lemma two_vectors_computed : exists m, fl_so3_of_vectors rnd64 va vb = Ok m /\ 13 / 10 < vx (r0 m).
Proof.
  set (u := / 2 * bpow radix2 (-52)). pose proof rnd64_rounding as RN. fold u in RN. assert (Us : u <= / 10 ^ 15) by (unfold u; cbn; lra). assert (U : u <= 1 / 1000) by lra. pose proof (u_rng u rnd64 RN) as Hu.
  unfold fl_so3_of_vectors. cbv zeta. rewrite cross_computed. set (n0 := mk3 (/ 2 ^ 52) 0 0).
  assert (Ln : len3 n0 = / 2 ^ 52). { unfold len3, n0, dot3; cbn [vx vy vz]. rewrite Rmult_0_l, !Rplus_0_r. apply sqrt_square. lra. }
  assert (Hn : n0 <> zero3) by (intros E; rewrite E, len3_0 in Ln; lra).
  destruct (Bool.bool_dec (R_eqb (fl_dot3 rnd64 n0 n0) 0) true) as [Z|Z].
  { exfalso. apply R_eqb_spec in Z. destruct (fl_dot3_self u rnd64 RN U n0) as (c & Fc & Ec). rewrite Ec in Z. pose proof (fac_pos u 3 c Hu Fc). apply Hn, dot3_zero. nra. }
  apply Bool.not_true_is_false in Z. rewrite Z.
  assert (Ha : va <> zero3) by (intros E; injection E; lra). assert (Hb : vb <> zero3) by (intros E; injection E; lra).
  destruct (fl_unit3_ok u rnd64 RN U n0 Hn) as (n & En & Nn). rewrite En. cbn [bind]. destruct (fl_unit3_ok u rnd64 RN U va Ha) as (a & Ea & Na). rewrite Ea. cbn [bind].
  destruct (fl_unit3_ok u rnd64 RN U vb Hb) as (b & Eb & Nb). rewrite Eb. cbn [bind]. eexists. split; [reflexivity|].
  assert (Dn : direction n0 = mk3 1 0 0). { unfold direction. rewrite Ln. unfold n0, scale3; cbn [vx vy vz]. f_equal; lra. } rewrite Dn in Nn.
  assert (X : forall w v, w <> zero3 -> vx w = 11 / 8 -> dot3 w w <= 52 / 10 -> len3 (sub3 v (direction w)) <= 6 * u -> 6 / 10 <= vx v /\ len3 v <= 11 / 10).
  { intros w v W E D N. pose proof (len3_pos w W) as L. assert (Lw : len3 w <= 229 / 100) by (apply len3_le; lra).
    destruct (comp_len (sub3 v (direction w))) as (X & _ & _). unfold sub3 at 1 in X. cbn [vx] in X. apply Rabs_le_between in X.
    assert (60041 / 100000 <= vx (direction w)). { unfold direction, scale3; cbn [vx]. rewrite E. apply (Rmult_le_reg_r (len3 w)); [exact L|]. replace (1 / len3 w * (11 / 8) * len3 w) with (11 / 8) by (field; lra). lra. }
    split; [lra|]. pose proof (len3_near v (direction w)). rewrite (direction_len w W) in *. lra. }
  destruct (X va a Ha eq_refl ltac:(unfold va, dot3; cbn [vx vy vz]; lra) Na) as [A1 A2]. destruct (X vb b Hb eq_refl ltac:(unfold vb, dot3; cbn [vx vy vz]; lra) Nb) as [B1 B2]. clear X.
  destruct (comp_len (sub3 n (mk3 1 0 0))) as (X & Y & W). unfold sub3 in X, Y, W. cbn [vx vy vz] in X, Y, W. unfold sub3 in Nn. cbn [vx vy vz] in Nn. rewrite !Rminus_0_r in *.
  assert (nx : 99 / 100 <= vx n) by (assert (G : Rabs (vx n - 1) <= 6 * u) by (eapply Rle_trans; [exact X|exact Nn]); apply Rabs_le_between in G; lra).
  assert (ny : Rabs (vy n) <= 6 * u) by (eapply Rle_trans; [exact Y|exact Nn]). assert (nz : Rabs (vz n) <= 6 * u) by (eapply Rle_trans; [exact W|exact Nn]).
  assert (nl : len3 n <= 11 / 10). { pose proof (len3_near n (mk3 1 0 0)) as G. unfold sub3 in G. cbn [vx vy vz] in G. rewrite !Rminus_0_r in G. replace (len3 (mk3 1 0 0)) with 1 in G; [lra|]. unfold len3, dot3; cbn [vx vy vz]. replace (1 * 1 + 0 * 0 + 0 * 0) with 1 by ring. symmetry. apply sqrt_1. }
  assert (T : forall v, len3 v <= 11 / 10 -> Rabs (vx (fl_cross3 rnd64 v n)) <= 1 / 100 /\ len3 (fl_cross3 rnd64 v n) <= 2).
  { intros v V. pose proof (fl_cross u rnd64 RN U v n) as C. pose proof (len3_nonneg v). pose proof (len3_nonneg n). assert (len3 v * len3 n <= 121 / 100) by nra. assert (0 <= len3 v * len3 n) by nra.
    assert (C' : len3 (sub3 (fl_cross3 rnd64 v n) (cross3 v n)) <= 41 / 10 * u * (121 / 100)) by (eapply Rle_trans; [exact C|apply Rmult_le_compat_l; lra]).
    split.
    - destruct (comp_len (sub3 (fl_cross3 rnd64 v n) (cross3 v n))) as (G & _ & _). unfold sub3 at 1 in G. cbn [vx] in G. apply Rabs_le_between in G.
      destruct (comp_len v) as (_ & vy1 & vz1). assert (K : Rabs (vx (cross3 v n)) <= 2 * (11 / 10 * (6 * u))).
      { unfold cross3; cbn [vx]. unfold Rminus. eapply Rle_trans; [apply Rabs_triang|]. rewrite Rabs_Ropp, !Rabs_mult.
        assert (Rabs (vy v) * Rabs (vz n) <= 11 / 10 * (6 * u)) by (apply Rmult_le_compat; try apply Rabs_pos; lra). assert (Rabs (vz v) * Rabs (vy n) <= 11 / 10 * (6 * u)) by (apply Rmult_le_compat; try apply Rabs_pos; lra). lra. }
      apply Rabs_le_between in K. apply Rabs_le_between. lra.
    - pose proof (len3_near (fl_cross3 rnd64 v n) (cross3 v n)). pose proof (len3_cross v n). lra. }
  destruct (T a A2) as [ta ta']. destruct (T b B2) as [tb tb'].
  unfold fl_mm3, fl_vm3, tr3. cbn [r0 r1 r2 vx vy vz].
  set (p := mk3 (vx b) (vx n) (vx (fl_cross3 rnd64 b n))). set (q := mk3 (vx a) (vx n) (vx (fl_cross3 rnd64 a n))).
  pose proof (fl_dot3_err' u rnd64 RN U p q) as D.
  assert (Lp : len3 p <= 3). { destruct (comp_len b) as (b1 & _ & _). destruct (comp_len n) as (n1 & _ & _). apply (Rle_trans _ (2 * (11 / 10))); [|lra]. apply len3_max; unfold p; cbn [vx vy vz]; lra. }
  assert (Lq : len3 q <= 3). { destruct (comp_len a) as (b1 & _ & _). destruct (comp_len n) as (n1 & _ & _). apply (Rle_trans _ (2 * (11 / 10))); [|lra]. apply len3_max; unfold q; cbn [vx vy vz]; lra. }
  assert (len3 p * len3 q <= 3 * 3) by (apply Rmult_le_compat; try lra; apply len3_nonneg).
  assert (0 <= len3 p * len3 q) by (apply Rmult_le_pos; apply len3_nonneg).
  assert (301 / 100 * u * (len3 p * len3 q) <= 301 / 100 * u * (3 * 3)) by (apply Rmult_le_compat_l; lra).
  assert (P : dot3 p q >= 36 / 100 + 98 / 100 - 1 / 10000).
  { unfold dot3, p, q; cbn [vx vy vz]. apply Rabs_le_between in ta, tb. set (x := vx (fl_cross3 rnd64 a n)) in *. set (y := vx (fl_cross3 rnd64 b n)) in *.
    assert (vx b * vx a >= 6 / 10 * (6 / 10)) by nra. assert (vx n * vx n >= 98 / 100) by nra. assert (- (1 / 10000) <= y * x) by nra. lra. }
  apply Rabs_le_between in D. lra.
Qed.
