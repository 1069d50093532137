(** * C102: QR.h in floating point. *)
From Coq Require Import Reals Arith Bool Lia Lra Psatz.
From Flocq Require Import Core.
From Verif Require Import Base Alg Mat SpecMat LemMat Inst RSum ModelOps LemOps LemHelpers LemChol ModelFl SpecFl LemFl ExFl ExFlSO3 ExFlEig ModelQR LemQR ModelFlQR SpecFlQR LemFlQR LemFlQR2 LemFlQR3 LemFlQR4 ExFlQR.
Open Scope outcome_scope.
Local Open Scope R_scope.

Theorem C102_model_is_exact_model : forall A, fl_qr (fun x => x) A = qr A.
Proof. reflexivity. Qed.

(** Whatever the rounding and the matrix: the result has the right shape and R is upper triangular, with exact zeros. The only failure is a division by zero. *)
Theorem C102_shape : forall (rnd : R -> R) (A : mat R), (mrows A <= mcols A)%nat ->
  (exists Q U, fl_qr rnd A = Ok (Q, U) /\ mrows Q = mrows A /\ mcols Q = mrows A /\ mrows U = mrows A /\ mcols U = mcols A /\ (forall i j, (j < i < mrows A)%nat -> mel U i j = 0)) \/
  fl_qr rnd A = NonFinite.
Proof.
  intros rnd A HN. set (N := mrows A) in *. set (C := mcols A) in *. unfold fl_qr. fold N C. replace (Nat.min N C) with N by lia.
  set (I := mkmat N N (fun r c => if (r =? c)%nat then 1 else 0)).
  assert (G : forall n, (n <= N - 1)%nat -> (exists m Q, for_ 0 n (fl_qr_step rnd) (A, I) = Ok (m, Q) /\ mrows m = N /\ mcols m = C /\ mrows Q = N /\ mcols Q = N /\ (forall c r, (c < n)%nat -> (c < r < N)%nat -> mel m r c = 0)) \/ for_ 0 n (fl_qr_step rnd) (A, I) = NonFinite).
  { induction n as [|n IH]; intros Hn.
    - left. exists A, I. split; [apply for_empty; lia|]. repeat split. intros; lia.
    - change (S n) with (0 + S n)%nat. rewrite for_snoc. cbn [Nat.add]. destruct (IH ltac:(lia)) as [(m & Q & -> & M1 & M2 & Q1 & Q2 & Z)| ->]; [|right; reflexivity]. cbn [bind].
      destruct (fl_step_ok rnd N C n m Q HN ltac:(lia) M1 M2 Q1 Q2) as [X Y]. destruct (Req_dec (q_H rnd (N - n) (colx m n)) 0) as [E|E]; [right; apply X; exact E|].
      destruct (Y E) as (m' & Q' & ES & J1 & J2 & J3 & J4 & VM & VQ). left. exists m', Q'. split; [exact ES|]. repeat (split; [assumption|]).
      intros c r Hc Hr. rewrite VM by lia. unfold step_m. destruct (Nat.ltb_spec r n); [apply Z; lia|]. destruct (Nat.ltb_spec c n); [apply Z; lia|]. destruct (Nat.eqb_spec c n); [|lia]. destruct (Nat.eqb_spec r n); [lia|]. reflexivity. }
  destruct (G (N - 1)%nat ltac:(lia)) as [(m & Q & -> & M1 & M2 & Q1 & Q2 & Z)| ->]; [|right; reflexivity]. left. cbn [bind].
  destruct (transpose_ok Q N Q1 Q2) as (Q' & EQ & T1 & T2 & T3). rewrite EQ. exists Q', m. split; [reflexivity|]. repeat (split; [assumption|]). intros i j Hij. apply Z; lia.
Qed.
(** Backward stability, when the columns that are reflected are steep: there is an orthogonal matrix V close to the Q returned, and V times the R returned is close to A, column by column. *)
Theorem C102_backward_stable : forall u rnd s (A : mat R), rounding u rnd -> 0 < s -> (mrows A <= mcols A)%nat -> steep_columns rnd s A -> refl_err u s (mrows A) <= 1 / 100 ->
  exists Q U V, fl_qr rnd A = Ok (Q, U) /\ orthogonal (mrows A) V /\
    (forall i, (i < mrows A)%nat -> len (mrows A) (fun k => mel Q i k - V i k) <= qr_err u s (mrows A)) /\
    (forall j, (j < mcols A)%nat -> len (mrows A) (fun i => Sum (mrows A) (fun k => V i k * mel U k j) - mel A i j) <= qr_err u s (mrows A) * len (mrows A) (fun i => mel A i j)).
Proof.
  intros u rnd s A RN Hs HN SC EP. set (N := mrows A) in *. set (C := mcols A) in *.
  destruct (run u rnd RN N C s HN Hs ltac:(lra) A eq_refl eq_refl SC (N - 1)%nat (le_n _)) as (m & Q & E & M1 & M2 & Q1 & Q2 & Z & W & OW & WM & WQ).
  destruct (transpose_ok Q N Q1 Q2) as (Q' & EQ & T1 & T2 & T3). exists Q', m, (fun i j => W j i). split.
  { unfold fl_qr. fold N C. replace (Nat.min N C) with N by lia. rewrite E. cbn [bind]. rewrite EQ. reflexivity. }
  split; [apply orth_tp; exact OW|]. split.
  - intros i Hi. eapply Rle_trans; [|apply (WQ i Hi)]. apply Req_le. apply len_ext. intros k Hk. rewrite T3 by assumption. reflexivity.
  - intros j Hj. eapply Rle_trans; [|apply (WM j Hj)]. apply Req_le. rewrite <- (len_mv N (fun i j => W j i) (fun i => mel m i j - mv N W (fun i => mel A i j) i)) by (apply orth_tp; exact OW).
    apply len_ext. intros i Hi. rewrite mv_sub. rewrite mv_inv by assumption. reflexivity.
Qed.
(** hence the rows of Q are nearly orthonormal, *)
Theorem C102_orthonormal : forall u rnd s (A : mat R), rounding u rnd -> 0 < s -> (mrows A <= mcols A)%nat -> steep_columns rnd s A -> refl_err u s (mrows A) <= 1 / 100 ->
  exists Q U, fl_qr rnd A = Ok (Q, U) /\ forall i j, (i < mrows A)%nat -> (j < mrows A)%nat ->
    Rabs (Sum (mrows A) (fun k => mel Q i k * mel Q j k) - (if (i =? j)%nat then 1 else 0)) <= (2 + qr_err u s (mrows A)) * qr_err u s (mrows A).
Proof.
  intros u rnd s A RN Hs HN SC EP. destruct (C102_backward_stable u rnd s A RN Hs HN SC EP) as (Q & U & V & E & OV & VQ & _). exists Q, U. split; [exact E|]. intros i j Hi Hj. set (N := mrows A) in *. set (e := qr_err u s N) in *.
  destruct (OV i j Hi Hj) as [O1 _]. rewrite <- O1. rewrite <- S_sub. rewrite (S_ext N _ (fun k => (mel Q i k - V i k) * mel Q j k + V i k * (mel Q j k - V j k))) by (intros; ring). rewrite S_add.
  assert (LV : forall i, (i < N)%nat -> len N (fun k => V i k) = 1). { intros p Hp. unfold len. destruct (OV p p Hp Hp) as [X _]. rewrite X, Nat.eqb_refl. apply sqrt_1. }
  pose proof (VQ i Hi) as Vi. pose proof (VQ j Hj) as Vj. pose proof (len_near N (fun k => mel Q j k) (fun k => V j k)) as LQ. rewrite LV in LQ by exact Hj.
  pose proof (dot_len N (fun k => mel Q i k - V i k) (fun k => mel Q j k)) as D1. pose proof (dot_len N (fun k => V i k) (fun k => mel Q j k - V j k)) as D2. rewrite (LV i Hi) in D2.
  pose proof (len_nn N (fun k => mel Q i k - V i k)) as P1. pose proof (len_nn N (fun k => mel Q j k)) as P2. assert (len N (fun k => mel Q i k - V i k) * len N (fun k => mel Q j k) <= e * (1 + e)) by (apply Rmult_le_compat; lra).
  eapply Rle_trans; [apply Rabs_triang|]. lra.
Qed.
(** and Q times R is A, up to a small part of the length of the column *)
Theorem C102_product : forall u rnd s (A : mat R), rounding u rnd -> 0 < s -> (mrows A <= mcols A)%nat -> steep_columns rnd s A -> refl_err u s (mrows A) <= 1 / 100 ->
  exists Q U, fl_qr rnd A = Ok (Q, U) /\ forall i j, (i < mrows A)%nat -> (j < mcols A)%nat ->
    Rabs (Sum (mrows A) (fun k => mel Q i k * mel U k j) - mel A i j) <= (2 + qr_err u s (mrows A)) * qr_err u s (mrows A) * len (mrows A) (fun i => mel A i j).
Proof.
  intros u rnd s A RN Hs HN SC EP. destruct (C102_backward_stable u rnd s A RN Hs HN SC EP) as (Q & U & V & E & OV & VQ & VU). exists Q, U. split; [exact E|]. intros i j Hi Hj. set (N := mrows A) in *. set (e := qr_err u s N) in *.
  pose proof (VQ i Hi) as Vi. pose proof (VU j Hj) as Vj. set (a := len N (fun i => mel A i j)) in *.
  replace (Sum N (fun k => mel Q i k * mel U k j) - mel A i j) with (Sum N (fun k => (mel Q i k - V i k) * mel U k j) + (Sum N (fun k => V i k * mel U k j) - mel A i j)).
  2:{ rewrite (S_ext N (fun k => (mel Q i k - V i k) * mel U k j) (fun k => mel Q i k * mel U k j - V i k * mel U k j)) by (intros; ring). rewrite S_sub. ring. }
  pose proof (dot_len N (fun k => mel Q i k - V i k) (fun k => mel U k j)) as D. pose proof (len_elem N (fun i => Sum N (fun k => V i k * mel U k j) - mel A i j) i Hi) as L. cbn beta in L.
  assert (LU : len N (fun k => mel U k j) <= a + e * a).
  { rewrite <- (len_mv N V (fun k => mel U k j) OV). eapply Rle_trans; [apply (len_near N _ (fun i => mel A i j))|]. fold a. apply Rplus_le_compat_l. exact Vj. }
  pose proof (len_nn N (fun k => mel Q i k - V i k)). pose proof (len_nn N (fun k => mel U k j)). assert (len N (fun k => mel Q i k - V i k) * len N (fun k => mel U k j) <= e * (a + e * a)) by (apply Rmult_le_compat; lra).
  eapply Rle_trans; [apply Rabs_triang|]. lra.
Qed.
(** With two rows the hypothesis is about the first column of the matrix only. *)
Theorem C102_two_rows : forall u rnd s (A : mat R), rounding u rnd -> 0 < s -> mrows A = 2%nat -> (2 <= mcols A)%nat ->
  mel A 1%nat 0%nat <> 0 -> s * sqrt (mel A 0%nat 0%nat ^ 2 + mel A 1%nat 0%nat ^ 2) <= Rabs (mel A 1%nat 0%nat) -> refl_err u s 2 <= 1 / 100 ->
  exists Q U V, fl_qr rnd A = Ok (Q, U) /\ orthogonal 2 V /\
    (forall i, (i < 2)%nat -> len 2 (fun k => mel Q i k - V i k) <= refl_err u s 2) /\
    (forall j, (j < mcols A)%nat -> len 2 (fun i => Sum 2 (fun k => V i k * mel U k j) - mel A i j) <= refl_err u s 2 * len 2 (fun i => mel A i j)).
Proof.
  intros u rnd s A RN Hs H2 HC Nz Le EP.
  assert (SC : steep_columns rnd s A).
  { intros n m Hn (Q & E). rewrite H2 in *. assert (n = 0)%nat by lia. subst n. rewrite for_empty in E by lia. injection E as <- _. unfold steep. cbn [Nat.sub Nat.add].
    assert (E1 : len 1 (fun i => mel A (S i) 0%nat) = Rabs (mel A 1%nat 0%nat)). { unfold len. cbn [sum fadd f0 ROps]. rewrite Rplus_0_l. apply (sqrt_Rsqr_abs (mel A 1%nat 0%nat)). }
    assert (E2 : len 2 (fun r => mel A r 0%nat) = sqrt (mel A 0%nat 0%nat ^ 2 + mel A 1%nat 0%nat ^ 2)). { unfold len. cbn [sum fadd f0 ROps]. f_equal. ring. }
    rewrite E1, E2. split; [apply Rabs_pos_lt; exact Nz|exact Le]. }
  destruct (C102_backward_stable u rnd s A RN Hs ltac:(lia) SC ltac:(rewrite H2; exact EP)) as (Q & U & V & E & OV & VQ & VU). rewrite H2 in *.
  assert (EE : qr_err u s 2 = refl_err u s 2) by (unfold qr_err; cbn [Nat.sub pow]; ring). rewrite EE in *. exists Q, U, V. repeat (split; [assumption|]). assumption.
Qed.
(** In double precision, up to 100 rows, when no column to be reflected has less than a hundredth of its length below the diagonal: errors of at most a millionth. *)
Theorem C102_double : forall (A : mat R), (mrows A <= mcols A)%nat -> (mrows A <= 100)%nat -> steep_columns rnd64 (1 / 100) A ->
  exists Q U, fl_qr rnd64 A = Ok (Q, U) /\
    (forall i j, (i < mrows A)%nat -> (j < mrows A)%nat -> Rabs (Sum (mrows A) (fun k => mel Q i k * mel Q j k) - (if (i =? j)%nat then 1 else 0)) <= 2 / 10 ^ 6) /\
    (forall i j, (i < mrows A)%nat -> (j < mcols A)%nat -> Rabs (Sum (mrows A) (fun k => mel Q i k * mel U k j) - mel A i j) <= 2 / 10 ^ 6 * len (mrows A) (fun i => mel A i j)).
Proof.
  intros A HN H100 SC. set (N := mrows A) in *. set (u := / 2 * bpow radix2 (-52)). pose proof rnd64_rounding as RN. fold u in RN. assert (Us : 0 <= u <= 11103 / 10 ^ 20) by (unfold u; cbn; lra).
  assert (F : 0 <= fwd u (N + 2) <= 12 / 10 ^ 15).
  { split; [apply fwd_nonneg; lra|]. apply (Rle_trans _ (fwd u 102)); [apply fwd_mono; [lra|lia]|]. eapply Rle_trans; [apply fwd_bwd; lra|]. assert (E : INR 102 = 102) by (rewrite INR_IZR_INZ; reflexivity). eapply Rle_trans; [apply (bwd_gamma u 102); [lra|rewrite E; lra]|]. rewrite E.
    apply (Rmult_le_reg_r (1 - 102 * u)); [lra|]. replace (102 * u / (1 - 102 * u) * (1 - 102 * u)) with (102 * u) by (field; lra). lra. }
  assert (EP : 0 <= refl_err u (1 / 100) N <= 9 / 10 ^ 9). { unfold refl_err. change ((1 + u) ^ (N + 2) - 1) with (fwd u (N + 2)). replace (72 * fwd u (N + 2) / (1 / 100 * (1 / 100))) with (720000 * fwd u (N + 2)) by field. lra. }
  set (ep := refl_err u (1 / 100) N) in *.
  assert (Q : 0 <= qr_err u (1 / 100) N <= 9 / 10 ^ 7).
  { unfold qr_err. fold ep. change ((1 + ep) ^ (N - 1) - 1) with (fwd ep (N - 1)). split; [apply fwd_nonneg; lra|]. apply (Rle_trans _ (fwd ep 99)); [apply fwd_mono; [lra|lia]|]. eapply Rle_trans; [apply fwd_bwd; lra|]. assert (E : INR 99 = 99) by (rewrite INR_IZR_INZ; reflexivity). eapply Rle_trans; [apply (bwd_gamma ep 99); [lra|rewrite E; lra]|]. rewrite E.
    apply (Rmult_le_reg_r (1 - 99 * ep)); [lra|]. replace (99 * ep / (1 - 99 * ep) * (1 - 99 * ep)) with (99 * ep) by (field; lra). lra. }
  destruct (C102_orthonormal u rnd64 (1 / 100) A RN ltac:(lra) HN SC ltac:(fold N ep; lra)) as (Q1 & U1 & E1 & O1). destruct (C102_product u rnd64 (1 / 100) A RN ltac:(lra) HN SC ltac:(fold N ep; lra)) as (Q2 & U2 & E2 & O2).
  rewrite E1 in E2. injection E2 as <- <-. exists Q1, U1. split; [exact E1|]. fold N in O1, O2. set (q := qr_err u (1 / 100) N) in *. assert (B : (2 + q) * q <= 2 / 10 ^ 6). { assert (q * q <= 9 / 10 ^ 7 * (9 / 10 ^ 7)) by (apply Rmult_le_compat; lra). lra. }
  split.
  - intros i j Hi Hj. eapply Rle_trans; [apply O1; assumption|exact B].
  - intros i j Hi Hj. eapply Rle_trans; [apply O2; assumption|]. apply Rmult_le_compat_r; [apply len_nn|exact B].
Qed.
(** Steepness is needed. The sign of |x| in u = x - |x| e is that of x_0, so the two are subtracted (QR.h:158-164). For the matrix of doubles
    1 0; 3*2^-27 1, which is all but orthogonal already, the diagonal of Q ends in about -1.25: in an orthogonal matrix no element exceeds 1. *)
Theorem C102_not_orthogonal_refuted : exists A Q U, mrows A = 2%nat /\ mcols A = 2%nat /\ (forall i j, rnd64 (mel A i j) = mel A i j) /\ fl_qr rnd64 A = Ok (Q, U) /\
  mel Q 1%nat 1%nat <= - 12 / 10 /\ 1 / 5 <= Rabs (Sum 2 (fun k => mel Q 1%nat k * mel Q 1%nat k) - 1) /\
  (forall V, orthogonal 2 V -> 1 / 5 <= len 2 (fun k => mel Q 1%nat k - V 1%nat k)).
Proof.
  destruct qr_computed3 as (Q & U & E & EQ & _). exists (Aq (3 * / 2 ^ 27)), Q, U. split; [reflexivity|]. split; [reflexivity|]. split.
  { intros [|i] [|j]; cbn [mel Aq]; try apply r0_computed; try apply r1_computed; apply t3_double. }
  split; [exact E|]. assert (B : mel Q 1%nat 1%nat <= - 12 / 10) by (rewrite EQ; cbn; lra). split; [exact B|]. split.
  - cbn [sum fadd f0 ROps]. pose proof (Rle_0_sqr (mel Q 1%nat 0%nat)) as S0. unfold Rsqr in S0. rewrite Rabs_right; nra.
  - intros V OV. eapply Rle_trans; [|apply (len_elem 2 (fun k => mel Q 1%nat k - V 1%nat k) 1 ltac:(lia))]. cbn beta. destruct (OV 1%nat 1%nat ltac:(lia) ltac:(lia)) as [O1 _]. cbn [sum fadd f0 ROps Nat.eqb] in O1.
    pose proof (Rle_0_sqr (V 1%nat 0%nat)) as S0. unfold Rsqr in S0. assert (-1 <= V 1%nat 1%nat) by nra. rewrite Rabs_left by lra. lra.
Qed.
(** and when what is below the diagonal is smaller still, there is no decomposition: the matrix of doubles 1 0; 2^-27 1 is not upper triangular, but |x| - x_0 is computed as 0 *)
Theorem C102_small_column_refuted : exists A, mrows A = 2%nat /\ mcols A = 2%nat /\ (forall i j, rnd64 (mel A i j) = mel A i j) /\ mel A 1%nat 0%nat = / 2 ^ 27 /\ fl_qr rnd64 A = NonFinite.
Proof.
  exists (Aq (/ 2 ^ 27)). split; [reflexivity|]. split; [reflexivity|]. split; [|split; [reflexivity|apply tiny_computed]].
  intros [|i] [|j]; cbn [mel Aq]; try apply r0_computed; try apply r1_computed; apply t1_double.
Qed.
(** the hypotheses are met: the columns (3,4), (1,2), (0,1) *)
Example C102_case : exists A : mat R, mrows A = 2%nat /\ mcols A = 3%nat /\ steep_columns rnd64 (1 / 2) A /\ refl_err (/ 2 * bpow radix2 (-52)) (1 / 2) 2 <= 1 / 100.
Proof.
  exists (mkmat 2 3 (fun i j => match i, j with 0%nat, 0%nat => 3 | 0%nat, 1%nat => 1 | 0%nat, _ => 0 | _, 0%nat => 4 | _, 1%nat => 2 | _, _ => 1 end)). split; [reflexivity|]. split; [reflexivity|]. split.
  - intros n m Hn (Q & E). cbn [mrows] in *. assert (n = 0)%nat by lia. subst n. rewrite for_empty in E by lia. injection E as <- _. unfold steep. cbn [Nat.sub Nat.add]. unfold len. cbn [sum fadd f0 ROps mel].
    replace (0 + 4 * 4) with (4 * 4) by ring. replace (0 + 3 * 3 + 4 * 4) with (5 * 5) by ring. rewrite !sqrt_square by lra. lra.
  - unfold refl_err. cbn. lra.
Qed.
Print Assumptions C102_model_is_exact_model. Print Assumptions C102_shape. Print Assumptions C102_backward_stable. Print Assumptions C102_orthonormal. Print Assumptions C102_product.
Print Assumptions C102_two_rows. Print Assumptions C102_double. Print Assumptions C102_not_orthogonal_refuted. Print Assumptions C102_small_column_refuted.
