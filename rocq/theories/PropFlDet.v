(** * C89: determinant in floating point. *)
From Coq Require Import Reals Lra Lia Arith Bool.
From Verif Require Import Base Alg Inst Mat SpecMat LemMat SpecLin LemLin ModelGauss LemDet LemDetMul LemDetMore LemLU LemDeterminant RSum ModelFl SpecFl LemFl LemFlChol LemFlChol2 LemFlChol3 SpecFlGauss LemFlGauss LemFlGauss2 LemFlDet LemFlDet2 RRect ExFl PropFl PropFlGauss.
Local Open Scope R_scope.
Local Notation det := (@det R ROps).

Section P.
Variables (u : R) (rnd : R -> R).
Hypothesis RN : rounding u rnd.
Let U := u_rng u rnd RN.

(** determinant_gaussian_elimination returns the determinant of a nearby matrix, up to the rounding of a product. *)
Theorem C89_elimination : forall n (A : mat R) M, mrows A = n -> mcols A = n -> 0 <= M -> (forall i j, (i < n)%nat -> (j < n)%nat -> Rabs (mel A i j) <= M) ->
  exists d E c, @determinant_gaussian_elimination R (FlOps rnd) A = Ok d /\ d = det n (fun r j => mel A r j + E r j) * c /\ 0 < c /\ Rabs (c - 1) <= bwd u (2 * n) /\
    (forall r j, (r < n)%nat -> (j < n)%nat -> Rabs (E r j) <= bwd u n * (growth u n * M)).
Proof.
  intros n A M HR HC M0 HM. destruct (fl_det_run u rnd RN n A HR HC) as (d & ED & [(A' & s & t & l & e & I)|(D0 & i & A' & d' & s & t & l & e & Hi & I & Z)]).
  - pose proof (dinv_lu u rnd RN n _ A' d s t l e I) as LU. destruct I as (_ & _ & P & (Ie & ID) & _ & _ & _ & _ & _ & c & Fc & Ed).
    set (E := fun r j => Sum n (fun k => ulo l (t r) k * upd A' k j) - mel A r j). exists d, E, c. split; [exact ED|]. split; [|split; [apply (fac_pos u _ c U Fc)|split; [apply fac_err; [exact U|exact Fc]|]]].
    + pose proof (ID (fun r j => mel A r j + E r j)) as G. cbv beta in G.
      rewrite (@det_ext R ROps n (fun r j => mel A (s r) j + E (s r) j) (fun r j => Sum n (fun k => ulo l r k * upd A' k j))) in G.
      * rewrite det_lu in G. rewrite Ed, G. destruct Ie as [-> | ->]; ring.
      * intros r j Hr Hj. unfold E. destruct (P r Hr) as (_ & _ & _ & ->). ring.
    + intros r j Hr Hj. unfold E. destruct (P r Hr) as (_ & P2 & P3 & _). replace (mel A r j) with (mel A (s (t r)) j) by (rewrite P3; reflexivity). apply (dlu_err u rnd RN n (mel A) n A' s l M (t r) j LU); try assumption; [intros; apply P; assumption|lia].
  - pose proof (dstop_lu u rnd RN n _ i A' d' s t l e Hi I Z) as LU. set (l' := fun r k => if (k =? i)%nat then 0 else l r k) in *. pose proof (proj1 (proj2 (proj2 I))) as P.
    set (E := fun r j => if (j <=? i)%nat then Sum n (fun k => ulo l' (t r) k * upd A' k j) - mel A r j else 0). exists d, E, 1. split; [exact ED|]. split; [|split; [lra|split; [rewrite Rminus_eq_0, Rabs_R0; apply bwd_nonneg; exact U|]]].
    + rewrite D0. symmetry. rewrite Rmult_1_r. destruct (Req_dec (det n (fun r j => mel A r j + E r j)) 0) as [|N]; [assumption|exfalso].
      assert (NS : @nonsingular R ROps n (fun r j => mel A r j + E r j)) by (apply (@det_nonsingular R ROps RLaws); exact N).
      destruct (@upper_solve R ROps RLaws i (fun r c => if (c <? r)%nat then 0 else if (r =? c)%nat then 1 else mel A' r c / mel A' r r) (fun r => - (mel A' r i / mel A' r r))) as [y Hy].
      { intros r c H1 H2 H3. destruct (Nat.ltb_spec c r); [destruct (Nat.eqb_spec r c); [lia|reflexivity]|]. replace c with r by lia. rewrite Nat.eqb_refl. reflexivity. }
      assert (NZ : forall k, (k < i)%nat -> mel A' k k <> 0) by (apply I).
      assert (Uy : forall k, (k < i)%nat -> Sum i (fun c => upd A' k c * y c) = - upd A' k i).
      { intros k Hk. pose proof (Hy k Hk) as G. change (Sum i (fun c => (if (c <? k)%nat then 0 else if (k =? c)%nat then 1 else mel A' k c / mel A' k k) * y c) = - (mel A' k i / mel A' k k)) in G.
        unfold upd at 2. destruct (Nat.leb_spec k i); [|lia]. replace (- mel A' k i) with (mel A' k k * - (mel A' k i / mel A' k k)) by (field; apply NZ; exact Hk). rewrite <- G, <- S_mul_l.
        apply S_ext. intros c Hc. unfold upd. destruct (Nat.leb_spec k c), (Nat.ltb_spec c k); try lia; [|ring]. destruct (Nat.eqb_spec k c) as [->|]; [ring|field; apply NZ; exact Hk]. }
      assert (X : (if (i <? i)%nat then y i else if (i =? i)%nat then 1 else 0) = 0).
      { apply (NS (fun c => if (c <? i)%nat then y c else if (c =? i)%nat then 1 else 0)); [|exact Hi]. intros r Hr. destruct (P r Hr) as (_ & P2 & _).
        change (Sum n (fun c => (mel A r c + E r c) * (if (c <? i)%nat then y c else if (c =? i)%nat then 1 else 0)) = 0).
        rewrite (S_cut n i); [|exact Hi|intros k Hk; destruct (Nat.ltb_spec k i), (Nat.eqb_spec k i); try lia; ring]. rewrite Nat.ltb_irrefl, Nat.eqb_refl.
        assert (EE : forall c, (c <= i)%nat -> mel A r c + E r c = Sum i (fun k => ulo l' (t r) k * upd A' k c)).
        { intros c Hc. unfold E. destruct (Nat.leb_spec c i); [|lia]. rewrite (S_cut n i); [|exact Hi|].
          - unfold upd at 2. destruct (Nat.leb_spec i c); [|ring]. replace c with i by lia. rewrite (Z i) by lia. ring.
          - intros k Hk. unfold upd. destruct (Nat.leb_spec k c); [lia|]. ring. }
        rewrite EE by lia. rewrite (S_ext i _ (fun c => Sum i (fun k => ulo l' (t r) k * upd A' k c * y c))).
        - rewrite S_swap. rewrite (S_ext i (fun k => Sum i (fun c => ulo l' (t r) k * upd A' k c * y c)) (fun k => ulo l' (t r) k * - upd A' k i)).
          + rewrite Rmult_1_r, <- S_add. apply S_zero. intros k Hk. ring.
          + intros k Hk. rewrite <- (Uy k Hk), <- S_mul_l. apply S_ext. intros c Hc. ring.
        - intros c Hc. destruct (Nat.ltb_spec c i); [|lia]. rewrite EE by lia. rewrite <- S_mul_r. reflexivity. }
      rewrite Nat.ltb_irrefl, Nat.eqb_refl in X. lra.
    + intros r j Hr Hj. unfold E. destruct (P r Hr) as (_ & P2 & P3 & _). destruct (Nat.leb_spec j i).
      * replace (mel A r j) with (mel A (s (t r)) j) by (rewrite P3; reflexivity). apply (dlu_err u rnd RN n (mel A) (S i) A' s l' M (t r) j LU); try assumption; try lia. intros; apply P; assumption.
      * rewrite Rabs_R0. apply Rmult_le_pos; [apply bwd_nonneg; exact U|]. apply Rmult_le_pos; [apply (growth_nonneg u rnd RN)|exact M0].
Qed.
(** the direct formula for 2x2 matrices *)
Lemma bwd1 : u <= bwd u 1.
Proof. unfold bwd. rewrite pow_1. apply (Rmult_le_reg_r (1 - u)); [lra|]. replace ((/ (1 - u) - 1) * (1 - u)) with u by (field; lra). nra. Qed.
Lemma growth_ge1 n : 1 <= growth u n.
Proof. unfold growth. pose proof (pow_1pu u 2 ltac:(lra)). pose proof (pow_1pu u 4 ltac:(lra)). assert (1 <= (2 * (1 + u) ^ 4) ^ n) by (apply pow_R1_Rle; lra). nra. Qed.
Theorem C89_determinant : forall n (A : mat R) M, mrows A = n -> mcols A = n -> 0 <= M -> (forall i j, (i < n)%nat -> (j < n)%nat -> Rabs (mel A i j) <= M) ->
  exists d E c, @determinant R (FlOps rnd) A = Ok d /\ d = det n (fun r j => mel A r j + E r j) * c /\ 0 < c /\ Rabs (c - 1) <= bwd u (2 * n) /\
    (forall r j, (r < n)%nat -> (j < n)%nat -> Rabs (E r j) <= bwd u n * (growth u n * M)).
Proof.
  intros n A M HR HC M0 HM. unfold determinant. rewrite HR, HC, same_size_ok. cbn [bind]. destruct (Nat.eqb_spec n 2) as [Hn|Hn].
  - rewrite !mget_ok by lia. cbn [bind]. rewrite Hn in HR, HC, HM |- *. clear Hn n. set (a := mel A 0 0). set (d := mel A 1 1). set (cc := mel A 1 0). set (b := mel A 0 1).
    destruct (rnd_d u rnd RN (a * d)) as (d1 & H1 & E1). destruct (rnd_d u rnd RN (cc * b)) as (d2 & H2 & E2).
    destruct (rnd_d u rnd RN (rnd (a * d) - rnd (cc * b))) as (d3 & H3 & E3).
    exists (rnd (rnd (a * d) - rnd (cc * b))), (fun i j => if (j =? 0)%nat then (if (i =? 0)%nat then a * d1 else cc * d2) else 0), (1 + d3). split; [reflexivity|].
    assert (C3 : fac u 1 (1 + d3)) by (apply fac_d; assumption). split; [|split; [apply (fac_pos u 1 _ U C3)|split]].
    + rewrite E3, E1, E2. f_equal. rewrite (@det_2 R ROps RLaws). cbn [Nat.eqb fsub fmul ROps]. change (mel A 0 0) with a. change (mel A 1 1) with d. change (mel A 1 0) with cc. change (mel A 0 1) with b. ring.
    + apply fac_err; [exact U|]. apply (fac_le u 1); [exact U|lia|exact C3].
    + assert (B : forall x y, Rabs x <= M -> Rabs y <= u -> Rabs (x * y) <= bwd u 2 * (growth u 2 * M)).
      { intros x y Hx Hy. rewrite Rabs_mult. pose proof bwd1 as B1. pose proof (bwd_mono u 1 2 U ltac:(lia)) as B12. pose proof (growth_ge1 2) as G. pose proof (Rabs_pos x). pose proof (Rabs_pos y).
        apply (Rle_trans _ (bwd u 2 * (1 * M))); [|apply Rmult_le_compat_l; [lra|apply Rmult_le_compat_r; lra]]. rewrite Rmult_1_l, Rmult_comm. apply Rmult_le_compat; lra. }
      intros r j Hr Hj. destruct (j =? 0)%nat; [destruct (r =? 0)%nat; apply B; try assumption; apply HM; lia|]. rewrite Rabs_R0. apply Rmult_le_pos; [apply bwd_nonneg; exact U|]. apply Rmult_le_pos; [apply (growth_nonneg u rnd RN)|exact M0].
  - exact (C89_elimination n A M HR HC M0 HM).
Qed.
(** How far from det A. *)
Theorem C89_error : forall n (A : mat R) M d, mrows A = n -> mcols A = n -> 0 <= M -> (forall i j, (i < n)%nat -> (j < n)%nat -> Rabs (mel A i j) <= M) -> @determinant R (FlOps rnd) A = Ok d ->
  let eps := bwd u n * growth u n in
  Rabs (d - det n (mel A)) <= INR (fact n) * M ^ n * ((1 + eps) ^ n * (1 + bwd u (2 * n)) - 1).
Proof.
  intros n A M d HR HC M0 HM ED eps. destruct (C89_determinant n A M HR HC M0 HM) as (d' & E & c & ED' & D & C0 & C1 & BE). rewrite ED in ED'. injection ED' as <-.
  assert (EP : 0 <= eps) by (apply Rmult_le_pos; [apply bwd_nonneg; exact U|apply (growth_nonneg u rnd RN)]).
  assert (BE' : forall r j, (r < n)%nat -> (j < n)%nat -> Rabs (E r j) <= eps * M) by (intros r j Hr Hj; unfold eps; rewrite Rmult_assoc; apply BE; assumption).
  assert (PM : 0 <= eps * M) by (apply Rmult_le_pos; assumption). pose proof (det_change n (mel A) E M (eps * M) HM BE' M0 PM) as DC.
  assert (DB : Rabs (det n (fun i j => mel A i j + E i j)) <= INR (fact n) * (M + eps * M) ^ n).
  { apply det_bound; [|lra]. intros i j Hi Hj. eapply Rle_trans; [apply Rabs_triang|]. apply Rplus_le_compat; [apply HM|apply BE']; assumption. }
  replace (M + eps * M) with (M * (1 + eps)) in DC, DB by ring. rewrite Rpow_mult_distr in DC, DB. set (D1 := det n (fun i j => mel A i j + E i j)) in *. set (D0 := det n (mel A)) in *.
  rewrite D. replace (D1 * c - D0) with ((D1 - D0) + D1 * (c - 1)) by ring. eapply Rle_trans; [apply Rabs_triang|]. rewrite Rabs_mult.
  assert (T : Rabs D1 * Rabs (c - 1) <= INR (fact n) * (M ^ n * (1 + eps) ^ n) * bwd u (2 * n)) by (apply Rmult_le_compat; try apply Rabs_pos; assumption). lra.
Qed.
(** The sign is right, and the result is not 0, unless a matrix within rounding errors of A is singular. *)
Theorem C89_sign : forall n (A : mat R) M d, mrows A = n -> mcols A = n -> 0 <= M -> (forall i j, (i < n)%nat -> (j < n)%nat -> Rabs (mel A i j) <= M) -> @determinant R (FlOps rnd) A = Ok d ->
  (forall E, (forall r j, (r < n)%nat -> (j < n)%nat -> Rabs (E r j) <= bwd u n * (growth u n * M)) -> @nonsingular R ROps n (fun r j => mel A r j + E r j)) ->
  0 < d * det n (mel A).
Proof.
  intros n A M d HR HC M0 HM ED NS. destruct (C89_determinant n A M HR HC M0 HM) as (d' & E & c & ED' & D & C0 & _ & BE). rewrite ED in ED'. injection ED' as <-.
  pose proof (same_sign n (mel A) E) as SS. rewrite D. replace (det n (fun r j => mel A r j + E r j) * c * det n (mel A)) with (det n (mel A) * det n (fun r j => mel A r j + E r j) * c) by ring.
  apply Rmult_lt_0_compat; [|exact C0]. apply SS. intros x Hx. apply (@det_nonsingular R ROps RLaws). apply (NS (fun i j => x * E i j)).
  intros r j Hr Hj. rewrite Rabs_mult. pose proof (BE r j Hr Hj). pose proof (Rabs_pos (E r j)). rewrite (Rabs_right x) by lra. nra.
Qed.
(** A singular matrix: the result is within the rounding errors of 0. *)
Theorem C89_singular : forall n (A : mat R) M d, mrows A = n -> mcols A = n -> 0 <= M -> (forall i j, (i < n)%nat -> (j < n)%nat -> Rabs (mel A i j) <= M) -> @determinant R (FlOps rnd) A = Ok d ->
  ~ @nonsingular R ROps n (mel A) -> Rabs d <= INR (fact n) * M ^ n * ((1 + bwd u n * growth u n) ^ n * (1 + bwd u (2 * n)) - 1).
Proof.
  intros n A M d HR HC M0 HM ED NS. assert (D0 : det n (mel A) = 0). { destruct (Req_dec (det n (mel A)) 0) as [|N]; [assumption|exfalso]. apply NS. apply (@det_nonsingular R ROps RLaws). exact N. }
  pose proof (C89_error n A M d HR HC M0 HM ED) as B. cbv zeta in B. rewrite D0, Rminus_0_r in B. exact B.
Qed.
End P.
(** Non-vacuity: 3x3 in double precision, with an exchange of rows; the determinant is -6, and what is computed has the right sign and is within 1e-10 of it. *)
Definition exD : mat R := mkmat 3 3 (fun i j => match i, j with O, O => 0 | O, S O => 2 | O, _ => 0 | S O, O => 3 | S O, S O => 1 | S O, _ => 0 | _, S (S O) => 1 | _, _ => 0 end).
Lemma exD_det : det 3 (mel exD) = -6.
Proof. cbn. ring. Qed.
Example C89_double : exists d, @determinant R (FlOps rnd64) exD = Ok d /\ Rabs (d - -6) <= / 10 ^ 9 /\ d < 0.
Proof.
  set (u := / 2 * Flocq.Core.Raux.bpow Flocq.Core.Zaux.radix2 (-52)). assert (U : 0 <= u < / 10 ^ 15 / 4) by exact u64_rng.
  assert (HM : forall i j, (i < 3)%nat -> (j < 3)%nat -> Rabs (mel exD i j) <= 3) by (intros i j Hi Hj; destruct i as [|[|[|i]]], j as [|[|[|j]]]; try lia; cbn; unfold Rabs; destruct (Rcase_abs _); lra).
  destruct (C89_determinant u rnd64 rnd64_rounding 3 exD 3 eq_refl eq_refl ltac:(lra) HM) as (d & _ & _ & ED & _). exists d. split; [exact ED|].
  pose proof (C89_error u rnd64 rnd64_rounding 3 exD 3 d eq_refl eq_refl ltac:(lra) HM ED) as B. cbv zeta in B. rewrite exD_det in B.
  assert (G : 0 <= growth u 3 <= 10).
  { split; [apply (growth_nonneg u rnd64 rnd64_rounding)|]. unfold growth. assert (P : (1 + u) ^ 14 <= 5 / 4). { assert (1 <= 1 + u <= 1 + / 100) by lra. assert ((1 + u) ^ 14 <= (1 + / 100) ^ 14) by (apply pow_incr; lra). lra. }
    replace ((1 + u) ^ 2 * (2 * (1 + u) ^ 4) ^ 3) with (8 * (1 + u) ^ 14) by ring. lra. }
  pose proof (bwd64 3 ltac:(lia)) as B3. pose proof (bwd64 6 ltac:(lia)) as B6. fold u in B3, B6, B. cbn [INR] in B3, B6. pose proof (bwd_nonneg u 3 ltac:(lra)) as N3. pose proof (bwd_nonneg u 6 ltac:(lra)) as N6.
  set (eps := bwd u 3 * growth u 3) in *. assert (EP : 0 <= eps <= / 10 ^ 13). { split; [apply Rmult_le_pos; lra|]. apply (Rle_trans _ ((3 / 10 ^ 15) * 10)); [apply Rmult_le_compat; lra|lra]. }
  assert (P : (1 + eps) ^ 3 <= 1 + 4 * eps) by nra. assert (P1 : 1 <= (1 + eps) ^ 3) by (apply pow_R1_Rle; lra).
  assert (Q : (1 + eps) ^ 3 * (1 + bwd u 6) - 1 <= 5 / 10 ^ 13). { assert ((1 + eps) ^ 3 * (1 + bwd u 6) <= (1 + 4 / 10 ^ 13) * (1 + 4 / 10 ^ 15)) by (apply Rmult_le_compat; lra). lra. }
  replace (INR (fact 3)) with 6 in B by (cbn; ring). cbn [Nat.mul Nat.add] in B. assert (BB : Rabs (d - -6) <= / 10 ^ 9).
  { eapply Rle_trans; [exact B|]. apply (Rle_trans _ (6 * 3 ^ 3 * (5 / 10 ^ 13))); [apply Rmult_le_compat_l; lra|lra]. }
  split; [exact BB|]. unfold Rabs in BB; destruct (Rcase_abs _); lra.
Qed.
Print Assumptions C89_elimination. Print Assumptions C89_determinant. Print Assumptions C89_error. Print Assumptions C89_sign. Print Assumptions C89_singular. Print Assumptions C89_double.
