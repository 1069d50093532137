(** * C46: QR decomposition. *)
From Coq Require Import Reals Arith Bool Lia Lra Psatz.
From Verif Require Import Base Alg Mat SpecMat LemMat Inst RSum ModelOps LemOps LemHelpers LemChol SpecLin LemLin LemDet LemDetMore LemDetMul ModelQR LemQR.
Open Scope outcome_scope.
Local Open Scope R_scope.

(** Q times R is A, Q is an orthogonal matrix, R is upper triangular *)
Definition is_qr (rows cols : nat) (A Q R : nat -> nat -> R) : Prop :=
  (forall i j, (i < rows)%nat -> (j < cols)%nat -> Sum rows (fun k => Q i k * R k j) = A i j) /\
  (forall i j, (i < rows)%nat -> (j < rows)%nat -> Sum rows (fun k => Q k i * Q k j) = delta i j /\ Sum rows (fun k => Q i k * Q j k) = delta i j) /\
  (forall i j, (j < i < rows)%nat -> R i j = 0).
Lemma qr_run N C (A : mat R) : mrows A = N -> mcols A = C -> (N <= C)%nat ->
  (exists st, for_ 0 (N - 1) qr_step (A, mkmat N N (fun r c => if r =? c then f1 else f0)) = Ok st /\ inv N C (mel A) (N - 1) st) \/
  for_ 0 (N - 1) qr_step (A, mkmat N N (fun r c => if r =? c then f1 else f0)) = NonFinite.
Proof.
  intros H1 H2 HN.
  assert (G : forall k n st, (k + n = N - 1)%nat -> inv N C (mel A) n st -> (exists st', for_ n (N - 1) qr_step st = Ok st' /\ inv N C (mel A) (N - 1) st') \/ for_ n (N - 1) qr_step st = NonFinite).
  { induction k as [|k IH]; intros n st Hk HI.
    - left. exists st. rewrite for_empty by lia. split; [reflexivity|]. replace (N - 1)%nat with n by lia. exact HI.
    - rewrite for_step by lia. destruct st as [m Q]. destruct (qr_step_ok N C (mel A) HN n m Q ltac:(lia) HI) as [Z O].
      destruct (first_nonzero (F:=R) (N - n - 1) (fun i => mel m (S n + i) n)) as [Y|(j & Hj & Y)].
      + right. rewrite Z; [reflexivity|]. intros r Hr. specialize (Y (r - n - 1)%nat ltac:(lia)). replace (S n + (r - n - 1))%nat with r in Y by lia. exact Y.
      + destruct O as (st & E & HI'); [exists (S n + j)%nat; split; [lia|exact Y]|]. rewrite E. cbn [bind]. apply IH; [lia|exact HI']. }
  apply (G (N - 1)%nat 0%nat); [lia|]. unfold inv. cbn [mrows mcols mel]. split; [exact H1|]. split; [exact H2|]. split; [reflexivity|]. split; [reflexivity|]. split; [|split].
  - intros i j Hi Hj. symmetry. apply (@sum_delta_l R ROps RLaws N i (fun k => mel A k j) Hi).
  - intros i j Hi Hj. transitivity (delta (F:=R) j i); [|unfold delta; rewrite Nat.eqb_sym; reflexivity].
    apply (@sum_delta_l R ROps RLaws N i (fun k => delta j k) Hi).
  - intros; lia.
Qed.
Theorem C46_qr_partial : forall (A : mat R), (mrows A <= mcols A)%nat ->
  (exists Q U, qr A = Ok (Q, U) /\ mrows Q = mrows A /\ mcols Q = mrows A /\ mrows U = mrows A /\ mcols U = mcols A /\ is_qr (mrows A) (mcols A) (mel A) (mel Q) (mel U)) \/
  qr A = NonFinite.
Proof.
  intros A HN. unfold qr. replace (Nat.min (mrows A) (mcols A)) with (mrows A) by lia.
  destruct (qr_run (mrows A) (mcols A) A eq_refl eq_refl HN) as [([m Q] & E & HI)|E]; rewrite E; cbn [bind]; [left|right; reflexivity].
  destruct HI as (M1 & M2 & Q1 & Q2 & I1 & I2 & I3). destruct (transpose_ok Q (mrows A) Q1 Q2) as (Q' & EQ & T1 & T2 & T3). rewrite EQ. cbn [bind].
  exists Q', m. split; [reflexivity|]. split; [exact T1|]. split; [exact T2|]. split; [exact M1|]. split; [exact M2|]. set (N := mrows A) in *.
  assert (L : forall i j, (i < N)%nat -> (j < N)%nat -> Sum N (fun k => mel Q k i * mel Q k j) = delta i j).
  { intros i j Hi Hj. apply (fun K => @left_inverse R ROps RLaws N (mel Q) (fun r c => mel Q c r) K I2 i j Hi Hj).
    apply det_nonsingular. intros D.
    assert (DD : det N (fun r c => Sum N (fun k => mel Q r k * mel Q c k)) = 1). { transitivity (det (F:=R) N delta); [apply (@det_ext R ROps); intros; apply I2; auto|apply (@det_delta R ROps RLaws)]. }
    pose proof (@det_mul R ROps RLaws N (mel Q) (fun r c => mel Q c r)) as DM. cbn beta in DM. cbn [fmul ROps] in DM, DD. rewrite DD, D in DM. cbn [f0 ROps] in DM. lra. }
  split; [|split].
  - intros i j Hi Hj. rewrite (S_ext N _ (fun k => Sum N (fun l => (mel Q k i * mel Q k l) * mel A l j))).
    2:{ intros k Hk. rewrite T3, I1 by auto. rewrite <- S_mul_l. apply S_ext. intros; ring. }
    rewrite S_swap. rewrite (S_ext N _ (fun l => delta i l * mel A l j)).
    2:{ intros l Hl. rewrite S_mul_r, L by auto. reflexivity. }
    apply (@sum_delta_l R ROps RLaws N i (fun k => mel A k j) Hi).
  - intros i j Hi Hj. split.
    + rewrite (S_ext N _ (fun k => mel Q i k * mel Q j k)) by (intros; rewrite !T3 by auto; reflexivity). apply I2; auto.
    + rewrite (S_ext N _ (fun k => mel Q k i * mel Q k j)) by (intros; rewrite !T3 by auto; reflexivity). apply L; auto.
  - intros i j Hij. apply I3; lia.
Qed.
(** Already reduced first columns break it: every upper triangular matrix, the identity included, although it is its own R with Q = I. *)
Theorem C46_qr_refuted : forall (A : mat R), (2 <= mrows A <= mcols A)%nat -> (forall i j, (j < i < mrows A)%nat -> mel A i j = 0) ->
  qr A = NonFinite /\ is_qr (mrows A) (mcols A) (mel A) delta (mel A).
Proof.
  intros A HN Z. set (N := mrows A) in *. split.
  - unfold qr. replace (Nat.min (mrows A) (mcols A)) with N by (unfold N; lia). rewrite for_step by lia.
    assert (HI : inv N (mcols A) (mel A) 0 (A, mkmat N N (fun r c => if r =? c then f1 else f0))).
    { unfold inv. cbn [mrows mcols mel]. split; [reflexivity|]. split; [reflexivity|]. split; [reflexivity|]. split; [reflexivity|]. split; [|split].
      - intros i j Hi Hj. symmetry. apply (@sum_delta_l R ROps RLaws N i (fun k => mel A k j) Hi).
      - intros i j Hi Hj. transitivity (delta (F:=R) j i); [|unfold delta; rewrite Nat.eqb_sym; reflexivity]. apply (@sum_delta_l R ROps RLaws N i (fun k => delta j k) Hi).
      - intros; lia. }
    destruct (qr_step_ok N (mcols A) (mel A) ltac:(lia) 0 A _ ltac:(lia) HI) as [X _]. rewrite X; [reflexivity|]. intros r Hr. apply Z. lia.
  - split; [|split].
    + intros i j Hi Hj. apply (@sum_delta_l R ROps RLaws N i (fun k => mel A k j) Hi).
    + intros i j Hi Hj. split.
      * transitivity (delta (F:=R) i j); [|reflexivity]. rewrite (S_ext N _ (fun k => delta i k * delta k j)).
        2:{ intros k Hk. f_equal. unfold delta. rewrite Nat.eqb_sym. reflexivity. }
        apply (@sum_delta_l R ROps RLaws N i (fun k => delta k j) Hi).
      * transitivity (delta (F:=R) j i); [|unfold delta; rewrite Nat.eqb_sym; reflexivity]. apply (@sum_delta_l R ROps RLaws N i (fun k => delta j k) Hi).
    + intros i j Hij. apply Z. exact Hij.
Qed.
(** ... and these are the only failures when there are two rows *)
Theorem C46_two_rows : forall (A : mat R), mrows A = 2%nat -> (2 <= mcols A)%nat -> mel A 1%nat 0%nat <> 0 ->
  exists Q U, qr A = Ok (Q, U) /\ is_qr 2 (mcols A) (mel A) (mel Q) (mel U).
Proof.
  intros A H1 H2 Nz. destruct (C46_qr_partial A ltac:(lia)) as [(Q & U & E & _ & _ & _ & _ & K)|E].
  - exists Q, U. rewrite H1 in K. split; [exact E|exact K].
  - exfalso. revert E. unfold qr. rewrite H1. replace (Nat.min 2 (mcols A)) with 2%nat by lia. cbn [Nat.sub]. rewrite for_step by lia.
    assert (HI : inv 2 (mcols A) (mel A) 0 (A, mkmat 2 2 (fun r c => if r =? c then f1 else f0))).
    { unfold inv. cbn [mrows mcols mel]. split; [exact H1|]. split; [reflexivity|]. split; [reflexivity|]. split; [reflexivity|]. split; [|split].
      - intros i j Hi Hj. symmetry. apply (@sum_delta_l R ROps RLaws 2 i (fun k => mel A k j) Hi).
      - intros i j Hi Hj. transitivity (delta (F:=R) j i); [|unfold delta; rewrite Nat.eqb_sym; reflexivity]. apply (@sum_delta_l R ROps RLaws 2 i (fun k => delta j k) Hi).
      - intros; lia. }
    destruct (qr_step_ok 2 (mcols A) (mel A) H2 0 A _ ltac:(lia) HI) as [_ X]. destruct X as ([m Q] & E & HI'); [exists 1%nat; split; [lia|exact Nz]|]. rewrite E. cbn [bind].
    rewrite for_empty by lia. cbn [bind]. destruct HI' as (_ & _ & Q1 & Q2 & _). destruct (transpose_ok Q 2 Q1 Q2) as (Q' & EQ & _). rewrite EQ. discriminate.
Qed.
Print Assumptions C46_qr_partial.
Print Assumptions C46_qr_refuted.
Print Assumptions C46_two_rows.
Example C46_nonvacuous : (exists A : mat R, mrows A = 2%nat /\ mcols A = 3%nat /\ mel A 1%nat 0%nat <> 0) /\
  (exists A : mat R, mrows A = 3%nat /\ mcols A = 3%nat /\ (forall i j, (j < i < 3)%nat -> mel A i j = 0) /\ mel A 0%nat 2%nat <> 0).
Proof.
  split.
  - exists (mkmat 2 3 (fun i j => INR (i + j))). split; [reflexivity|]. split; [reflexivity|]. cbn. lra.
  - exists (mkmat 3 3 (fun i j => if j <? i then 0 else 1)). split; [reflexivity|]. split; [reflexivity|]. split; [|cbn; lra].
    intros i j H. cbn [mel]. destruct (Nat.ltb_spec j i); [reflexivity|lia].
Qed.
