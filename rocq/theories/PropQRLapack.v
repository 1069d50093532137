(** * C83: QR_Lapack. *)
From Coq Require Import Reals Arith Bool Lia Lra Psatz Setoid Morphisms.
From Verif Require Import Base Alg Inst Mat SpecMat LemMat ModelOps LemOps RSum SpecExp LemExp LemEig RRect LemGR ModelQRLapack LemQRLapack LemQRLapack2.
Open Scope outcome_scope.
Local Open Scope R_scope.

(** [p] restricted to 0 .. n-1 is a permutation *)
Definition permutation_of (n : nat) (p : nat -> nat) : Prop :=
  (forall i, (i < n)%nat -> (p i < n)%nat) /\ forall i j, (i < n)%nat -> (j < n)%nat -> p i = p j -> i = j.
Definition orthogonal_mat (n : nat) (Q : rmat) : Prop :=
  forall i j, (i < n)%nat -> (j < n)%nat -> Sum n (fun k => Q i k * Q j k) = delta i j /\ Sum n (fun k => Q k i * Q k j) = delta i j.

Lemma make_inv A b d : qrl_make A b = Ok d -> exists s, qinv (mrows A) (mcols A) (Nat.min (mrows A) (mcols A)) (mel A) s /\
  (b = true -> qsort (mrows A) (mcols A) (Nat.min (mrows A) (mcols A)) s) /\ (b = false -> forall c, (c < mcols A)%nat -> q_p s c = S c) /\
  mis (qrl_R d) (mrows A) (mcols A) (fun r c => if ((r <? Nat.min (mrows A) (mcols A)) && (c <? r))%bool then 0 else q_a s r c) /\
  mis (qrl_Q d) (Nat.min (mrows A) (mcols A)) (Nat.min (mrows A) (mcols A)) (orgqr (Nat.min (mrows A) (mcols A)) (q_a s) (q_t s)) /\
  vlen (qrl_P d) = mcols A /\ forall i, (i < mcols A)%nat -> vat (qrl_P d) i = (q_p s i - 1)%nat.
Proof.
  intros E. destruct (make_ok A b) as (d' & s & E' & Hs & H). rewrite E in E'. injection E' as <-. exists s. destruct b.
  - destruct (geqp3_free (mrows A) (mcols A) (mel A)) as [I1 I2]. rewrite <- Hs in I1, I2. split; [exact I1|]. split; [intros _; exact I2|]. split; [discriminate|exact H].
  - destruct Hs as (p & Hp & Hs). destruct (geqp3_fixed (mrows A) (mcols A) (mel A) p Hp) as [I1 I2]. rewrite <- Hs in I1, I2. split; [exact I1|]. split; [discriminate|]. split; [intros _; exact I2|exact H].
Qed.
(** Any matrix, with or without pivoting, is processed without undefined behaviour or division by zero. *)
Theorem C83_total : forall A b, exists d, qrl_make A b = Ok d.
Proof. intros A b. destruct (make_ok A b) as (d & s & E & _). exists d. exact E. Qed.
(** At least as many columns as rows: Q is square orthogonal, R is upper triangular, P is a permutation, and column i of the library's product
    Q * R is column P(i) of A. *)
Theorem C83_decomposes : forall A b d, (mrows A <= mcols A)%nat -> qrl_make A b = Ok d ->
  mrows (qrl_Q d) = mrows A /\ mcols (qrl_Q d) = mrows A /\ orthogonal_mat (mrows A) (mel (qrl_Q d)) /\
  mrows (qrl_R d) = mrows A /\ mcols (qrl_R d) = mcols A /\ (forall r c, (c < r < mrows A)%nat -> mel (qrl_R d) r c = 0) /\
  vlen (qrl_P d) = mcols A /\ permutation_of (mcols A) (vat (qrl_P d)) /\
  gives_mat (mmul (qrl_Q d) (qrl_R d)) (mrows A) (mcols A) (fun r c => mel A r (vat (qrl_P d) c)).
Proof.
  intros A b d HMN E. destruct (make_inv A b d E) as (s & (I1 & I2 & I3 & I4) & _ & _ & HR & HQ & LP & VP).
  set (M := mrows A) in *. set (N := mcols A) in *. replace (Nat.min M N) with M in * by lia.
  destruct HR as (R1 & R2 & R3). destruct HQ as (Q1 & Q2 & Q3).
  split; [exact Q1|]. split; [exact Q2|]. split.
  { destruct (chain_orth M (refl (q_a s) (q_t s)) M 0 ltac:(intros i Hi; apply I1; lia)) as [O1 O2]. intros i j Hi Hj. split.
    - rewrite <- (O1 i j Hi Hj). unfold mm, tp. apply S_ext. intros k Hk. rewrite !Q3. reflexivity.
    - rewrite <- (O2 i j Hi Hj). unfold mm, tp. apply S_ext. intros k Hk. rewrite !Q3. reflexivity. }
  split; [exact R1|]. split; [exact R2|]. split.
  { intros r c H. rewrite R3. destruct (Nat.ltb_spec r M), (Nat.ltb_spec c r); try lia. reflexivity. }
  split; [exact LP|]. split.
  { split.
    - intros i Hi. rewrite VP by exact Hi. pose proof (I3 i Hi). lia.
    - intros i j Hi Hj. rewrite !VP by assumption. intros Ep. apply I4; [exact Hi|exact Hj|]. pose proof (I3 i Hi). pose proof (I3 j Hj). lia. }
  eapply gives_mat_ext; [apply mmul_ok; lia|lia|lia|]. intros r c Hr Hc. cbn beta. rewrite VP by lia. rewrite <- (I2 r c) by lia. unfold mm. rewrite Q2. apply S_ext. intros k Hk.
  rewrite Q3, R3. unfold orgqr, Wm. f_equal. destruct (Nat.ltb_spec k M), (Nat.ltb_spec c M), (Nat.ltb_spec c k); cbn [andb]; try lia; reflexivity.
Qed.
(** Without pivoting P is the identity and Q * R = A. *)
Theorem C83_unpivoted : forall A d, (mrows A <= mcols A)%nat -> qrl_make A false = Ok d ->
  (forall i, (i < mcols A)%nat -> vat (qrl_P d) i = i) /\ gives_mat (mmul (qrl_Q d) (qrl_R d)) (mrows A) (mcols A) (mel A).
Proof.
  intros A d H E. assert (P : forall i, (i < mcols A)%nat -> vat (qrl_P d) i = i).
  { destruct (make_inv A false d E) as (s & _ & _ & S2 & _ & _ & _ & VP). intros i Hi. rewrite VP, S2 by (reflexivity || exact Hi). lia. }
  split; [exact P|]. destruct (C83_decomposes A false d H E) as (_ & _ & _ & _ & _ & _ & _ & _ & G). eapply gives_mat_ext; [exact G|reflexivity|reflexivity|]. intros i j Hi Hj. cbn beta. rewrite P by exact Hj. reflexivity.
Qed.
(** With pivoting the diagonal of R is sorted by magnitude (for tall matrices too), and no column of R below row k is longer than R[k][k]. *)
Theorem C83_sorted : forall A d k, qrl_make A true = Ok d -> (k < mrows A)%nat -> (k < mcols A)%nat ->
  ((S k < mrows A)%nat -> (S k < mcols A)%nat -> Rabs (mel (qrl_R d) (S k) (S k)) <= Rabs (mel (qrl_R d) k k)) /\
  forall r c, (k <= r < Nat.min (mrows A) (mcols A))%nat -> (r <= c < mcols A)%nat -> Rabs (mel (qrl_R d) r c) <= Rabs (mel (qrl_R d) k k).
Proof.
  intros A d k E Hk1 Hk2. destruct (make_inv A true d E) as (s & _ & S1 & _ & (R1 & R2 & R3) & _). specialize (S1 eq_refl).
  set (M := mrows A) in *. set (N := mcols A) in *. set (K := Nat.min M N) in *.
  assert (D : mel (qrl_R d) k k = q_a s k k) by (rewrite R3; destruct (Nat.ltb_spec k k); [lia|]; rewrite andb_false_r; reflexivity).
  assert (G : forall r c, (k <= r < K)%nat -> (r <= c < N)%nat -> Rabs (mel (qrl_R d) r c) <= Rabs (mel (qrl_R d) k k)).
  { intros r c Hr Hc. apply Rsqr_le_abs_0. unfold Rsqr. rewrite D. eapply Rle_trans; [|apply (S1 k c); lia].
    rewrite R3. destruct (Nat.ltb_spec c r); [lia|]. rewrite andb_false_r. unfold nrm2.
    replace (q_a s r c) with (Wm K (q_a s) r c) by (unfold Wm; destruct (Nat.ltb_spec c r); [lia|]; rewrite andb_false_r; reflexivity).
    rewrite (S_one M r) by lia. rewrite from_in by lia.
    assert (P : 0 <= Sum M (fun p => if (p =? r)%nat then 0 else from k (fun r0 => Wm K (q_a s) r0 c * Wm K (q_a s) r0 c) p)).
    { apply S_nonneg. intros p Hp. destruct (p =? r)%nat; [lra|]. unfold from. destruct (k <=? p)%nat; [nra|lra]. }
    lra. }
  split; [|exact G]. intros H1 H2. apply G; lia.
Qed.
(** A tall matrix (more rows than columns): the triangle R still satisfies R^T R = (A P)^T (A P) ... *)
Theorem C83_tall_partial : forall A b d, (mcols A <= mrows A)%nat -> qrl_make A b = Ok d ->
  permutation_of (mcols A) (vat (qrl_P d)) /\ (forall r c, (c < r < mcols A)%nat -> mel (qrl_R d) r c = 0) /\
  forall i j, (i < mcols A)%nat -> (j < mcols A)%nat ->
    Sum (mcols A) (fun k => mel (qrl_R d) k i * mel (qrl_R d) k j) = Sum (mrows A) (fun r => mel A r (vat (qrl_P d) i) * mel A r (vat (qrl_P d) j)).
Proof.
  intros A b d HMN E. destruct (make_inv A b d E) as (s & (I1 & I2 & I3 & I4) & _ & _ & (R1 & R2 & R3) & _ & LP & VP).
  set (M := mrows A) in *. set (N := mcols A) in *. replace (Nat.min M N) with N in * by lia. split.
  { split.
    - intros i Hi. rewrite VP by exact Hi. pose proof (I3 i Hi). lia.
    - intros i j Hi Hj. rewrite !VP by assumption. intros Ep. apply I4; [exact Hi|exact Hj|]. pose proof (I3 i Hi). pose proof (I3 j Hj). lia. }
  split. { intros r c H. rewrite R3. destruct (Nat.ltb_spec r N), (Nat.ltb_spec c r); try lia. reflexivity. }
  intros i j Hi Hj. rewrite !VP by assumption.
  set (C := chain M (refl (q_a s) (q_t s)) 0 N) in *. set (W := Wm N (q_a s)) in *.
  destruct (chain_orth M (refl (q_a s) (q_t s)) N 0 ltac:(intros k Hk; apply I1; lia)) as [_ O2]. fold C in O2.
  transitivity (mm M (tp (mm M C W)) (mm M C W) i j).
  - assert (T : req N N (mm M (tp (mm M C W)) (mm M C W)) (mm M (tp W) W)).
    { rewrite (r_tp N M M C W). rewrite r_assoc. rewrite <- (r_assoc M N M M (tp C)). rewrite O2, r_1l. reflexivity. }
    rewrite (T i j Hi Hj). unfold mm, tp. replace M with (N + (M - N))%nat by lia. rewrite S_split. rewrite (S_zero (M - N)).
    + rewrite Rplus_0_r. apply S_ext. intros k Hk. unfold W, Wm. rewrite !R3. destruct (Nat.ltb_spec k N), (Nat.ltb_spec i N), (Nat.ltb_spec j N); try lia. reflexivity.
    + intros k Hk. unfold W, Wm. destruct (Nat.ltb_spec i N), (Nat.ltb_spec i (N + k)); try lia. cbn [andb]. ring.
  - unfold mm at 1. unfold tp. apply S_ext. intros r Hr. rewrite (I2 r i Hr Hi), (I2 r j Hr Hj). reflexivity.
Qed.
(** ... but Q, which is only mcols x mcols, is not orthogonal, the rows of R below the square are not zero and Q * R is not even conformant
    (the header warns that the class does not work for more rows than columns). *)
Theorem C83_tall_refuted : exists A d, mrows A = 2%nat /\ mcols A = 1%nat /\ qrl_make A false = Ok d /\
  mel (qrl_R d) 1 0 <> 0 /\ ~ orthogonal_mat (mrows (qrl_Q d)) (mel (qrl_Q d)) /\ mmul (qrl_Q d) (qrl_R d) = Abort DSizeMismatch.
Proof.
  set (A := mkmat 2 1 (fun r _ => match r with O => 3 | _ => 4 end)). destruct (make_ok A false) as (d & s & E & (p & Hp & Es) & (R1 & R2 & R3) & (Q1 & Q2 & Q3) & _).
  exists A, d. split; [reflexivity|]. split; [reflexivity|]. split; [exact E|]. cbn [A mrows mcols Nat.min] in R1, R2, R3, Q1, Q2, Q3, Es, Hp.
  assert (N : nrm2 2 (0 + 1) (mel A) 0 = 16) by (unfold nrm2, from; cbn; ring).
  assert (B : larfg_beta 2 0 (mel A) = -5).
  { unfold larfg_beta. rewrite N. assert (X : R_eqb 16 0 = false) by (destruct (R_eqb 16 0) eqn:X; [apply R_eqb_true in X; lra|reflexivity]). rewrite X. cbn [A mel].
    assert (Y : R_ltb 3 0 = false) by (apply R_ltb_false; lra). rewrite Y. replace (3 * 3 + 16) with (5 * 5) by ring. rewrite sqrt_square by lra. reflexivity. }
  assert (T : larfg_tau 2 0 (mel A) = 8 / 5).
  { unfold larfg_tau. rewrite N, B. assert (X : R_eqb 16 0 = false) by (destruct (R_eqb 16 0) eqn:X; [apply R_eqb_true in X; lra|reflexivity]). rewrite X. cbn [A mel]. field. }
  assert (S1 : q_a s = q_a (house 2 0 (mkq (mel A) (setn p 0 1%nat) (fun _ => 0))) /\ q_t s = q_t (house 2 0 (mkq (mel A) (setn p 0 1%nat) (fun _ => 0)))).
  { rewrite Es. unfold geqp3, geqp3_front. cbn [q_p]. rewrite (Hp 0%nat) by lia. cbn [Nat.eqb Nat.min iter_up]. unfold geqp3_step. cbn [Nat.ltb Nat.leb]. split; reflexivity. }
  destruct S1 as [Sa St]. split; [|split].
  - rewrite R3. cbn [Nat.ltb Nat.leb andb]. rewrite Sa. cbn [house q_a Nat.eqb Nat.ltb Nat.leb]. unfold larfg_v. cbn [Nat.ltb Nat.leb Nat.eqb]. rewrite N, B.
    assert (X : R_eqb 16 0 = false) by (destruct (R_eqb 16 0) eqn:X; [apply R_eqb_true in X; lra|reflexivity]). rewrite X. cbn [A mel]. lra.
  - rewrite Q1. intros O. destruct (O 0%nat 0%nat ltac:(lia) ltac:(lia)) as [O1 _]. cbn [sum] in O1. rewrite Q3 in O1. unfold orgqr in O1. cbn [chain] in O1. unfold mm, refl, hous, delta in O1. cbn [sum Nat.eqb] in O1.
    unfold vcol in O1. cbn [Nat.ltb Nat.leb Nat.eqb] in O1. rewrite St in O1. cbn [house q_t q_a] in O1. unfold setn in O1. cbn [Nat.eqb] in O1. rewrite T in O1. cbn [f0 f1 fadd ROps] in O1. lra.
  - unfold mmul. rewrite Q2, R1. rewrite same_size_bad by lia. reflexivity.
Qed.
(** The documentation of get_P says "column i of A is column P(i) of QR"; it is the other way round, and the two differ as soon as P is not its own
    inverse. *)
Theorem C83_get_P_refuted : exists A d X i r, mrows A = 2%nat /\ mcols A = 3%nat /\ qrl_make A true = Ok d /\ mmul (qrl_Q d) (qrl_R d) = Ok X /\
  (i < 3)%nat /\ (r < 2)%nat /\ mel A r i <> mel X r (vat (qrl_P d) i).
Proof.
  set (a := fun r c : nat => match r, c with O, 1%nat => 3 | 1%nat, O => 1 | 1%nat, 2%nat => 2 | _, _ => 0 end). set (A := mkmat 2 3 a).
  destruct (make_ok A true) as (d & s & E & Es & _ & _ & _ & VP). destruct (C83_decomposes A true d ltac:(cbn [A mrows mcols]; lia) E) as (_ & _ & _ & _ & _ & _ & _ & _ & (X & EX & _ & _ & VX)).
  cbn [A mrows mcols mel] in VP, VX, Es.
  assert (P : vat (qrl_P d) 0 = 1%nat /\ vat (qrl_P d) 1 = 2%nat).
  { rewrite !VP by lia. rewrite Es. unfold geqp3. destruct (front_free 3 a (fun _ => 0)) as (s0 & -> & Ea & Ep). cbn [Nat.min iter_up].
    assert (N0 : forall B c, nrm2 2 0 B c = B 0%nat c * B 0%nat c + B 1%nat c * B 1%nat c) by (intros B c; unfold nrm2, from; cbn; ring).
    assert (N1 : forall B c, nrm2 2 1 B c = B 1%nat c * B 1%nat c) by (intros B c; unfold nrm2, from; cbn; ring).
    assert (K0 : pick 2 3 0 (q_a s0) = 1%nat).
    { destruct (pick_range 2 3 0 (q_a s0) ltac:(lia)) as [P1 P2]. specialize (P2 1%nat ltac:(lia)). rewrite !N0, Ea in P2. cbn [a] in P2.
      rewrite Ea in *. destruct (pick 2 3 0 a) as [|[|[|p]]]; [cbn [a] in P2; lra|reflexivity|cbn [a] in P2; lra|lia]. }
    unfold geqp3_step. cbn [Nat.ltb Nat.leb]. rewrite !K0. set (s1 := house 2 0 (swap_cols 0 1 s0)).
    assert (Z : R_eqb (nrm2 2 (0 + 1) (q_a (swap_cols 0 1 s0)) 0) 0 = true).
    { apply R_eqb_spec. change (0 + 1)%nat with 1%nat. rewrite N1. cbn [swap_cols q_a]. rewrite exch_l, Ea. cbn [a]. ring. }
    assert (T : forall c, (c = 1 \/ c = 2)%nat -> q_a s1 1%nat c = exch 0 1 (a 1%nat) c).
    { intros c Hc. unfold s1. cbn [house q_a]. destruct (Nat.eqb_spec c 0); [lia|]. destruct (Nat.ltb_spec 0 c); [|lia]. unfold larfg_tau. rewrite Z. cbn [swap_cols q_a]. rewrite Ea. ring. }
    assert (K1 : pick 2 3 1 (q_a s1) = 2%nat).
    { destruct (pick_range 2 3 1 (q_a s1) ltac:(lia)) as [P1 P2]. specialize (P2 2%nat ltac:(lia)). rewrite !N1 in P2. rewrite (T 2%nat) in P2 by lia. rewrite (exch_o 0 1 (a 1%nat) 2) in P2 by lia. cbn [a] in P2.
      destruct (pick 2 3 1 (q_a s1)) as [|[|[|p]]]; [lia|rewrite (T 1%nat) in P2 by lia; rewrite exch_r in P2; cbn [a] in P2; lra|reflexivity|lia]. }
    rewrite !K1. cbn [house q_p swap_cols s1].
    unfold exch; cbn [Nat.eqb]. split; rewrite Ep by lia; reflexivity. }
  destruct P as [P0 P1]. exists A, d, X, 0%nat, 1%nat. split; [reflexivity|]. split; [reflexivity|]. split; [exact E|]. split; [exact EX|]. split; [lia|]. split; [lia|].
  rewrite P0. rewrite VX by (cbn [A mrows mcols]; lia). rewrite P1. cbn [A mel a]. lra.
Qed.
Example C83_example : exists A d, mrows A = 2%nat /\ mcols A = 3%nat /\ mel A 0 0 <> 0 /\ qrl_make A true = Ok d.
Proof. destruct (C83_total (mkmat 2 3 (fun r c => INR (r + c + 1))) true) as (d & E). exists (mkmat 2 3 (fun r c => INR (r + c + 1))), d. split; [reflexivity|]. split; [reflexivity|]. split; [cbn; lra|exact E]. Qed.
