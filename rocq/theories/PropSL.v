(** * C64 C75: SL<N>. *)
From Coq Require Import Reals Arith Bool Lia List Field Lra Psatz.
From Verif Require Import Base Alg Mat SpecMat LemMat ModelOps LemOps Inst SpecLin LemLin ModelHelpers LemHelpers LemChol ModelGauss LemGauss LemDet LemDetMore LemDetMul LemDeterminant ModelLie ModelSL LemSL PropOps.
Import ListNotations.
Open Scope outcome_scope.

Section S.
Context {F : Type} {Fo : Ops F} {Fl : Laws F}.
Open Scope F_scope.
Add Field Ff : law_field.
(** ** C64: the generators are a basis of the trace-free matrices *)
(** v(0) G(0) + v(1) G(1) + ... over the N*N-1 generators *)
Definition combination (N : nat) (G : nat -> mat F) (v : nat -> F) (r c : nat) : F := sum (N * N - 1) (fun i => v i * mel (G i) r c).
Definition generators (N : nat) (G : nat -> mat F) : Prop := forall i, (i < N * N - 1)%nat -> sl_generator N i = Ok (G i).
Lemma comb_lin N G v r c : (1 <= N)%nat -> generators N G -> combination N G v r c = lin_comb N v r c.
Proof. intros HN HG. unfold combination, lin_comb. apply sum_ext. intros i Hi. unfold gmat. rewrite (HG i Hi). reflexivity. Qed.
Theorem C64_generators : forall N, (1 <= N)%nat ->
  (exists G, generators N G /\ forall i, (i < N * N - 1)%nat -> mrows (G i) = N /\ mcols (G i) = N /\ sum N (fun r => mel (G i) r r) = 0) /\
  forall i, (N * N - 1 <= i)%nat -> sl_generator (F:=F) N i = Abort DAssert.
Proof.
  intros N HN. destruct (dims N HN) as [D1 D2]. split.
  - exists (fun i => match sl_generator N i with Ok m => m | _ => sl_zeros N end). split.
    + intros i Hi. destruct (gen_total (F:=F) N i HN Hi) as (m & E & _). rewrite E. reflexivity.
    + intros i Hi. destruct (gen_total (F:=F) N i HN Hi) as (m & E & R1 & R2 & R3). rewrite E. split; [exact R1|]. split; [exact R2|].
      destruct (le_lt_dec (diag_limit N) i) as [L|L].
      * assert (Z : forall r, (r < N)%nat -> gmat N i r r = 0).
        { intros r Hr. destruct (le_lt_dec (symm_limit N) i) as [L'|L'].
          - destruct (gen_symm (F:=F) N (i - symm_limit N)) as (a & b & H & _ & _ & Gm); [fold (sl_dim N) in Hi; lia|exact HN|].
            replace (symm_limit N + (i - symm_limit N))%nat with i in Gm by lia. rewrite (gmat_is _ _ _ Gm) by auto. rewrite !unit_off by lia. ring.
          - destruct (gen_symm (F:=F) N (i - diag_limit N)) as (a & b & H & _ & Gm & _); [lia|exact HN|].
            replace (diag_limit N + (i - diag_limit N))%nat with i in Gm by lia. rewrite (gmat_is _ _ _ Gm) by auto. rewrite !unit_off by lia. ring. }
        apply sum_zero. intros r Hr. rewrite R3 by auto. apply Z; auto.
      * rewrite (sum_two N i); [|unfold diag_limit, count_diag in L; lia|].
        -- unfold diag_limit, count_diag in L. rewrite !R3 by lia. rewrite !(gmat_is _ _ _ (gen_diag N i L HN)) by lia.
           rewrite (unit_at i i i i), (unit_off (i + 1) (i + 1) i i), (unit_off i i (S i) (S i)), (unit_at (i + 1) (i + 1) (S i) (S i)) by lia. ring.
        -- intros r Hr N1 N2. rewrite R3 by auto. rewrite (gmat_is _ _ _ (gen_diag N i L HN)) by auto. rewrite !unit_off by lia. ring.
  - intros i Hi. unfold sl_generator. assert (E : (i <? sl_dim N) = false) by (apply Nat.ltb_ge; exact Hi). rewrite E. reflexivity.
Qed.
(** the documented choice: diag(..,1,-1,..), then a symmetric and an antisymmetric one for every pair of off-diagonal positions *)
Theorem C64_documented_basis : forall N G, (1 <= N)%nat -> generators N G ->
  (forall i r c, (i < N - 1)%nat -> (r < N)%nat -> (c < N)%nat -> mel (G i) r c = (if ((r =? i) && (c =? i))%bool then 1 else if ((r =? S i) && (c =? S i))%bool then - (1) else 0)) /\
  (forall a b, (a < b)%nat -> (b < N)%nat -> exists i j, (N - 1 <= i < j)%nat /\ (j < N * N - 1)%nat /\ forall r c, (r < N)%nat -> (c < N)%nat ->
     mel (G i) r c = (if ((r =? a) && (c =? b) || (r =? b) && (c =? a))%bool then 1 else 0) /\
     mel (G j) r c = (if ((r =? a) && (c =? b))%bool then - (1) else if ((r =? b) && (c =? a))%bool then 1 else 0)).
Proof.
  intros N G HN HG. destruct (dims N HN) as [D1 D2].
  assert (EG : forall i r c, (i < N * N - 1)%nat -> mel (G i) r c = gmat N i r c) by (intros i r c Hi; unfold gmat; rewrite (HG i Hi); reflexivity).
  split.
  - intros i r c Hi Hr Hc. rewrite EG by (unfold sl_dim, diag_limit, count_diag in *; lia). rewrite (gmat_is _ _ _ (gen_diag N i Hi HN)) by auto. unfold unit_.
    replace (i + 1)%nat with (S i) by lia.
    destruct (Nat.eqb_spec r i), (Nat.eqb_spec c i), (Nat.eqb_spec r (S i)), (Nat.eqb_spec c (S i)); cbn [andb]; subst; try lia; ring.
  - intros a b Ha Hb. pose proof (pos_lt N a b Ha Hb) as P.
    destruct (gen_symm (F:=F) N (pos N a b) P HN) as (a' & b' & H & E & G1 & G2). destruct (pos_inj N a' b' a b ltac:(lia) ltac:(lia) Ha Hb E) as [-> ->].
    exists (diag_limit N + pos N a b)%nat, (symm_limit N + pos N a b)%nat. split; [unfold diag_limit, count_diag in *; lia|]. split; [fold (sl_dim N); lia|].
    intros r c Hr Hc. rewrite !EG by (fold (sl_dim N); lia). rewrite (gmat_is _ _ _ G1), (gmat_is _ _ _ G2) by auto. unfold unit_.
    destruct (Nat.eqb_spec r a), (Nat.eqb_spec c b), (Nat.eqb_spec r b), (Nat.eqb_spec c a); cbn [andb orb]; subst; try lia; split; ring.
Qed.
Lemma lin_comb_tracefree N v : (1 <= N)%nat -> sum N (fun r => lin_comb (F:=F) N v r r) = 0.
Proof.
  intros HN. rewrite (sum_ext N _ (fun r => (if r <? N - 1 then v r else 0) - (match r with 0%nat => 0 | S q => v q end))) by (intros; apply lin_comb_diag; auto).
  assert (G : forall n, (n < N)%nat -> sum n (fun r => (if r <? N - 1 then v r else 0) - match r with 0%nat => 0 | S q => v q end) = match n with 0%nat => 0 | S q => v q end).
  { induction n; intros Hn; [reflexivity|]. cbn [sum]. rewrite IHn by lia. assert (E : (n <? N - 1) = true) by (apply Nat.ltb_lt; lia). rewrite E. ring. }
  destruct N as [|n]; [lia|]. cbn [sum]. rewrite G by lia. assert (E : (n <? S n - 1) = false) by (apply Nat.ltb_ge; lia). rewrite E. ring.
Qed.
Theorem C64_basis : forall N G (l : nat -> nat -> F), (1 <= N)%nat -> generators N G -> sum N (fun r => l r r) = 0 ->
  exists v, (forall r c, (r < N)%nat -> (c < N)%nat -> combination N G v r c = l r c) /\
    forall w, (forall r c, (r < N)%nat -> (c < N)%nat -> combination N G w r c = l r c) -> forall i, (i < N * N - 1)%nat -> w i = v i.
Proof.
  intros N G l HN HG Ht. destruct (dims N HN) as [D1 D2]. pose proof two_neq as T. unfold two in T.
  (* the off-diagonal coordinates come from ln's vector, the diagonal ones are partial sums *)
  destruct (ln_vector_ok N (mkmat N N l) HN eq_refl eq_refl) as (u & _ & _ & _ & U). cbn [mel] in U.
  exists (fun i => if (i <? diag_limit N) then sum (S i) (fun k => l k k) else vat u i).
  assert (Ex : forall r c, (r < N)%nat -> (c < N)%nat -> combination N G (fun i => if (i <? diag_limit N) then sum (S i) (fun k => l k k) else vat u i) r c = l r c).
  { intros r c Hr Hc. rewrite comb_lin by auto. destruct (lt_eq_lt_dec r c) as [[L|<-]|L].
    - destruct (lin_comb_upper N (fun i => if (i <? diag_limit N) then sum (S i) (fun k => l k k) else vat u i) r c L Hc) as [-> _].
      pose proof (pos_lt N r c L Hc). destruct (Nat.ltb_spec (diag_limit N + pos N r c) (diag_limit N)); [lia|]. destruct (Nat.ltb_spec (symm_limit N + pos N r c) (diag_limit N)); [lia|].
      destruct (U r c L Hc) as [-> ->]. unfold half_. field. exact T.
    - rewrite lin_comb_diag by auto. unfold diag_limit, count_diag.
      assert (P : (if (r <? N - 1) then if (r <? N - 1) then sum (S r) (fun k => l k k) else vat u r else 0) = sum (S r) (fun k => l k k)).
      { destruct (Nat.ltb_spec r (N - 1)) as [L|L]; [reflexivity|]. replace (S r) with N by lia. symmetry; exact Ht. }
      rewrite P. destruct r as [|q].
      + cbn [sum]. ring.
      + destruct (Nat.ltb_spec q (N - 1)) as [L|L]; [|lia]. cbn [sum]. ring.
    - destruct (lin_comb_upper N (fun i => if (i <? diag_limit N) then sum (S i) (fun k => l k k) else vat u i) c r L Hr) as [_ ->].
      pose proof (pos_lt N c r L Hr). destruct (Nat.ltb_spec (diag_limit N + pos N c r) (diag_limit N)); [lia|]. destruct (Nat.ltb_spec (symm_limit N + pos N c r) (diag_limit N)); [lia|].
      destruct (U c r L Hr) as [-> ->]. unfold half_. field. exact T. }
  split; [exact Ex|].
  intros w Hw i Hi. change (w i = (fun i => if (i <? diag_limit N) then sum (S i) (fun k => l k k) else vat u i) i). revert Ex. generalize (fun i => if (i <? diag_limit N) then sum (S i) (fun k => l k k) else vat u i). intros v Ex.
  assert (Eq : forall r c, (r < N)%nat -> (c < N)%nat -> lin_comb N w r c = lin_comb N v r c).
  { intros r c Hr Hc. rewrite <- !(comb_lin N G) by auto. rewrite Hw, Ex by auto. reflexivity. }
  destruct (le_lt_dec (diag_limit N) i) as [L|L].
  - assert (K : forall p, (p < count_symm N)%nat -> w (diag_limit N + p)%nat = v (diag_limit N + p)%nat /\ w (symm_limit N + p)%nat = v (symm_limit N + p)%nat).
    { intros p Hp. destruct (gen_symm (F:=F) N p Hp HN) as (a & b & H & E & _).
      destruct (lin_comb_upper N w a b ltac:(lia) ltac:(lia)) as [W1 W2]. destruct (lin_comb_upper N v a b ltac:(lia) ltac:(lia)) as [V1 V2].
      rewrite Eq in W1, W2 by lia. rewrite V1 in W1. rewrite V2 in W2. rewrite E in W1, W2.
      assert (S1 : (1 + 1) * w (diag_limit N + p)%nat = (1 + 1) * v (diag_limit N + p)%nat).
      { transitivity ((w (diag_limit N + p)%nat - w (symm_limit N + p)%nat) + (w (diag_limit N + p)%nat + w (symm_limit N + p)%nat)); [ring|]. rewrite <- W1, <- W2. ring. }
      assert (S2 : (1 + 1) * w (symm_limit N + p)%nat = (1 + 1) * v (symm_limit N + p)%nat).
      { transitivity ((w (diag_limit N + p)%nat + w (symm_limit N + p)%nat) - (w (diag_limit N + p)%nat - w (symm_limit N + p)%nat)); [ring|]. rewrite <- W1, <- W2. ring. }
      split; apply (mul_cancel (1 + 1)); auto. }
    fold (sl_dim N) in Hi. destruct (le_lt_dec (symm_limit N) i) as [L'|L'].
    + replace i with (symm_limit N + (i - symm_limit N))%nat by lia. apply K. lia.
    + replace i with (diag_limit N + (i - diag_limit N))%nat by lia. apply K. lia.
  - clear Hi. induction i as [|i IH].
    + assert (HH : lin_comb N w 0 0 = lin_comb N v 0 0) by (apply Eq; lia). rewrite !lin_comb_diag in HH by lia.
      unfold diag_limit, count_diag in L. assert (E : (0 <? N - 1) = true) by (apply Nat.ltb_lt; lia). rewrite E in HH.
      transitivity (w 0%nat - 0); [ring|]. rewrite HH. ring.
    + specialize (IH ltac:(lia)). assert (HH : lin_comb N w (S i) (S i) = lin_comb N v (S i) (S i)) by (apply Eq; unfold diag_limit, count_diag in L; lia).
      unfold diag_limit, count_diag in L. rewrite !lin_comb_diag in HH by lia.
      assert (E : (S i <? N - 1) = true) by (apply Nat.ltb_lt; lia). rewrite E in HH.
      transitivity (w (S i) - w i + w i); [ring|]. rewrite HH, IH. ring.
Qed.
(** exp takes the exponential of the combination of its argument *)
Theorem C64_exp_matrix : forall N G (v : vec F), (1 <= N)%nat -> generators N G ->
  (vlen v = (N * N - 1)%nat -> gives_mat (sl_exp_matrix N v) N N (combination N G (vat v)) /\ sum N (fun r => combination N G (vat v) r r) = 0) /\
  (vlen v <> (N * N - 1)%nat -> sl_exp_matrix N v = Abort DSizeMismatch).
Proof.
  intros N G v HN HG. split.
  - intros Hv. split.
    + eapply gives_mat_ext; [apply exp_matrix_ok; auto|auto|auto|]. intros i j Hi Hj. symmetry. apply comb_lin; auto.
    + rewrite (sum_ext N _ (fun r => lin_comb N (vat v) r r)) by (intros; apply comb_lin; auto). apply lin_comb_tracefree; auto.
  - intros Hv. unfold sl_exp_matrix. rewrite same_size_bad by exact Hv. reflexivity.
Qed.
(** ln's coordinates of the logarithm l. Off the diagonal they are right for every N ... *)
Theorem C64_ln_offdiagonal : forall N G (l : mat F), (1 <= N)%nat -> generators N G -> mrows l = N -> mcols l = N ->
  exists v, sl_ln_vector N l = Ok v /\ vlen v = (N * N - 1)%nat /\ forall r c, (r < N)%nat -> (c < N)%nat -> r <> c -> combination N G (vat v) r c = mel l r c.
Proof.
  intros N G l HN HG H1 H2. destruct (ln_vector_ok N l HN H1 H2) as (v & E & L & _ & U). exists v. split; [exact E|]. split; [exact L|].
  pose proof two_neq as T. unfold two in T. intros r c Hr Hc Hn. rewrite comb_lin by auto. destruct (lt_eq_lt_dec r c) as [[X|X]|X]; [|lia|].
  - destruct (lin_comb_upper N (vat v) r c X Hc) as [-> _]. destruct (U r c X Hc) as [-> ->]. unfold half_. field. exact T.
  - destruct (lin_comb_upper N (vat v) c r X Hr) as [_ ->]. destruct (U c r X Hr) as [-> ->]. unfold half_. field. exact T.
Qed.
(** ... on the diagonal only up to N = 3. Missing: N >= 4, where it is wrong. *)
Theorem C64_ln_partial : forall N G (l : mat F), (1 <= N <= 3)%nat -> generators N G -> mrows l = N -> mcols l = N -> sum N (fun r => mel l r r) = 0 ->
  exists v, sl_ln_vector N l = Ok v /\ vlen v = (N * N - 1)%nat /\ forall r c, (r < N)%nat -> (c < N)%nat -> combination N G (vat v) r c = mel l r c.
Proof.
  intros N G l HN HG H1 H2 Ht. destruct (ln_vector_ok N l ltac:(lia) H1 H2) as (v & E & L & Dg & U).
  destruct (C64_ln_offdiagonal N G l ltac:(lia) HG H1 H2) as (v' & E' & _ & Off). rewrite E in E'. injection E' as <-.
  exists v. split; [exact E|]. split; [exact L|]. intros r c Hr Hc. destruct (Nat.eq_dec r c) as [<-|Hn]; [|apply Off; auto].
  rewrite comb_lin by (auto; lia). rewrite lin_comb_diag by lia. unfold diag_limit, count_diag in Dg.
  destruct N as [|[|[|[|N]]]]; try lia; cbn [sum] in Ht.
  - assert (r = 0)%nat by lia. subst r. cbn [Nat.ltb Nat.leb Nat.sub]. transitivity (0 + mel l 0%nat 0%nat); [rewrite Ht; ring|ring].
  - destruct r as [|[|r]]; [| |lia]; cbn [Nat.ltb Nat.leb Nat.sub]; rewrite (Dg 0%nat) by lia.
    + ring.
    + apply (f_equal (fun x => x - mel l 0%nat 0%nat)) in Ht. transitivity (0 - mel l 0%nat 0%nat); [ring|]. rewrite <- Ht. ring.
  - destruct r as [|[|[|r]]]; [| | |lia]; cbn [Nat.ltb Nat.leb Nat.sub]; rewrite ?(Dg 0%nat), ?(Dg 1%nat) by lia.
    + ring.
    + ring.
    + apply (f_equal (fun x => x - mel l 0%nat 0%nat - mel l 1%nat 1%nat)) in Ht. transitivity (0 - mel l 0%nat 0%nat - mel l 1%nat 1%nat); [ring|]. rewrite <- Ht. ring.
Qed.
Theorem C64_ln_refuted : forall N G, (4 <= N)%nat -> generators N G -> exists (l : mat F) v, mrows l = N /\ mcols l = N /\ sum N (fun r => mel l r r) = 0 /\
  sl_ln_vector N l = Ok v /\ combination N G (vat v) 2 2 <> mel l 2%nat 2%nat.
Proof.
  intros N G HN HG. set (l := mkmat N N (fun r c => if ((r =? 0) && (c =? 0))%bool then 1 else if ((r =? N - 1) && (c =? N - 1))%bool then - (1) else 0 : F)).
  destruct (ln_vector_ok N l ltac:(lia) eq_refl eq_refl) as (v & E & L & Dg & U). exists l, v. split; [reflexivity|]. split; [reflexivity|]. split.
  - transitivity (sum N (fun r => (if r =? 0 then 1 else 0 : F) + (if r =? N - 1 then - (1) else 0))).
    { apply sum_ext. intros r Hr. cbn [mel l]. destruct (Nat.eqb_spec r 0), (Nat.eqb_spec r (N - 1)); cbn [andb]; try lia; ring. }
    rewrite sum_add, (sum_one N 0), (sum_one N (N - 1)); try lia.
    + cbn [Nat.eqb]. rewrite Nat.eqb_refl. ring.
    + intros i Hi Hn. apply Nat.eqb_neq in Hn. rewrite Hn. reflexivity.
    + intros i Hi Hn. apply Nat.eqb_neq in Hn. rewrite Hn. reflexivity.
  - split; [exact E|]. rewrite comb_lin, lin_comb_diag by (auto; lia). unfold diag_limit, count_diag in Dg.
    assert (E2 : (2 <? N - 1) = true) by (apply Nat.ltb_lt; lia). rewrite E2. rewrite (Dg 2%nat), (Dg 1%nat) by lia.
    assert (M0 : mel l 0%nat 0%nat = 1) by reflexivity. assert (M1 : mel l 1%nat 1%nat = 0).
    { unfold l. cbn [mel]. assert (X : (1 =? N - 1) = false) by (apply Nat.eqb_neq; lia). rewrite X. reflexivity. }
    assert (M2 : mel l 2%nat 2%nat = 0).
    { unfold l. cbn [mel]. assert (X : (2 =? N - 1) = false) by (apply Nat.eqb_neq; lia). rewrite X. reflexivity. }
    rewrite M0, M1, M2.
    intros Z. apply one_neq_zero. apply (f_equal fopp) in Z. transitivity (- (0 + 0 - (0 + 1)) : F); [ring|]. rewrite Z. ring.
Qed.
(** ** C75: products and inverses *)
Theorem C75_group : forall N (A B : mat F), mrows A = N -> mcols A = N -> mrows B = N -> mcols B = N -> det N (mel A) = 1 -> det N (mel B) = 1 ->
  (exists C, sl_mul A B = Ok C /\ sl_mul_assign A B = Ok C /\ mat_is C N N (fun i j => sum N (fun k => mel A i k * mel B k j)) /\ det N (mel C) = 1) /\
  (exists C, sl_inverse N A = Ok C /\ mrows C = N /\ mcols C = N /\ det N (mel C) = 1 /\
     (forall i j, (i < N)%nat -> (j < N)%nat -> sum N (fun k => mel A i k * mel C k j) = delta i j /\ sum N (fun k => mel C i k * mel A k j) = delta i j)) /\
  det N (mel (sl_default (F:=F) N)) = 1.
Proof.
  intros N A B A1 A2 B1 B2 DA DB. split; [|split].
  - destruct (mmul_ok A B ltac:(congruence)) as (C & E & C1 & C2 & C3). exists C. unfold sl_mul_assign, sl_mul. split; [exact E|]. split; [exact E|].
    rewrite A1, A2, B2 in *. split; [split; [exact C1|split; [exact C2|]]; auto|].
    rewrite (det_ext N _ (fun r c => sum N (fun k => mel A r k * mel B k c))) by (intros; apply C3; auto). rewrite det_mul, DA, DB. ring.
  - assert (NS : nonsingular N (mel A)). { apply det_nonsingular. rewrite DA. apply one_neq_zero. }
    unfold sl_inverse. destruct (gaussian_elimination_mat_ok N N A (sl_default N) A1 A2 eq_refl eq_refl) as [[_ (x & E & X1 & X2 & Sx)]|[X _]]; [|contradiction].
    exists x. split; [exact E|]. split; [exact X1|]. split; [exact X2|].
    assert (R : forall i j, (i < N)%nat -> (j < N)%nat -> sum N (fun k => mel A i k * mel x k j) = delta i j) by (intros i j Hi Hj; apply (Sx j Hj i Hi)).
    split.
    + assert (M : det N (fun r c => sum N (fun k => mel A r k * mel x k c)) = det (F:=F) N delta) by (apply det_ext; auto).
      rewrite det_mul, DA, det_delta in M. rewrite <- M. ring.
    + intros i j Hi Hj. split; [apply R; auto|]. apply (left_inverse N (mel A) (mel x)); auto.
  - apply det_delta.
Qed.
End S.

(** ** C75: coerce, over the reals *)
Local Open Scope R_scope.
Lemma det_scale n : forall s (a : nat -> nat -> R), det n (fun r c => s * a r c) = s ^ n * det n a.
Proof.
  induction n as [|n IH]; intros s a; [cbn [det pow]; cbn [f1 ROps]; ring|].
  rewrite !(@det_S R ROps). rewrite <- (@sum_mul_l R ROps RLaws). apply sum_ext. intros i Hi. cbn [fmul ROps pow].
  rewrite (IH s (fun r c => a (skip i r) (S c))). ring.
Qed.
Lemma root_pow d N : 0 < d -> (1 <= N)%nat -> Rpower d (1 / INR N) ^ N = d.
Proof.
  intros Hd HN. assert (I : INR N <> 0) by (apply not_0_INR; lia). rewrite <- Rpower_pow by apply exp_pos. rewrite Rpower_mult.
  replace (1 / INR N * INR N) with 1 by (field; exact I). apply Rpower_1. exact Hd.
Qed.
(** a matrix of positive determinant is scaled by a positive factor to determinant one, and a singular one is rejected *)
Theorem C75_coerce : forall N (M : mat R), (1 <= N)%nat -> mrows M = N -> mcols M = N ->
  ((0 < det N (mel M))%R -> exists k C, 0 < k /\ sl_coerce N M = Ok C /\ mat_is C N N (fun i j => k * mel M i j) /\ det N (mel C) = 1) /\ (det N (mel M) = 0 -> sl_coerce N M = Abort DAssert).
Proof.
  intros N M HN H1 H2.
  assert (E : determinant M = Ok (det N (mel M))) by (rewrite (@determinant_ok R ROps RLaws) by congruence; rewrite H1; reflexivity).
  split; intros D; unfold sl_coerce; rewrite E; cbn [bind]; unfold assert_.
  - assert (E1 : R_ltb 0 (Rabs (det N (mel M))) = true) by (apply R_ltb_spec; apply Rabs_pos_lt; lra). rewrite E1. cbn [bind].
    unfold pow_root. assert (E2 : R_ltb 0 (det N (mel M)) = true) by (apply R_ltb_spec; exact D). rewrite E2. cbn [bind].
    set (p := Rpower (det N (mel M)) (1 / INR N)). assert (P : 0 < p) by apply exp_pos.
    destruct (@mdiv_assign_ok R ROps RLaws M p) as (C & EC & C1 & C2 & C3); [intros Z; cbn [f0 ROps] in Z; lra|]. rewrite H1, H2 in *.
    exists (/ p), C. split; [apply Rinv_0_lt_compat; exact P|]. split; [exact EC|].
    assert (K : forall i j, (i < N)%nat -> (j < N)%nat -> mel C i j = / p * mel M i j).
    { intros i j Hi Hj. rewrite C3 by auto. cbn [fdiv finv fmul ROps]. field. lra. }
    split; [split; [exact C1|split; [exact C2|exact K]]|].
    rewrite (det_ext N _ (fun i j => / p * mel M i j)) by exact K. rewrite det_scale. rewrite pow_inv. unfold p. rewrite root_pow by auto. cbn [f1 ROps]. field. lra.
  - assert (E1 : R_ltb 0 (Rabs (det N (mel M))) = false). { rewrite D. rewrite Rabs_R0. apply R_ltb_false. lra. } rewrite E1. reflexivity.
Qed.
(** a matrix of negative determinant gets no finite answer, although for odd N a multiple of it has determinant one *)
Theorem C75_coerce_refuted : forall N (M : mat R), (3 <= N)%nat -> Nat.odd N = true -> mrows M = N -> mcols M = N -> det N (mel M) < 0 ->
  sl_coerce N M = NonFinite /\ exists k, det N (fun i j => k * mel M i j) = 1.
Proof.
  intros N M HN HO H1 H2 D.
  assert (E : determinant M = Ok (det N (mel M))) by (rewrite (@determinant_ok R ROps RLaws) by congruence; rewrite H1; reflexivity).
  split.
  - unfold sl_coerce. rewrite E. cbn [bind]. unfold assert_.
    assert (E1 : R_ltb 0 (Rabs (det N (mel M))) = true) by (apply R_ltb_spec; apply Rabs_pos_lt; lra). rewrite E1. cbn [bind].
    unfold pow_root. assert (E2 : R_ltb 0 (det N (mel M)) = false) by (apply R_ltb_false; lra). rewrite E2.
    destruct N as [|[|N]]; try lia. reflexivity.
  - set (p := Rpower (- det N (mel M)) (1 / INR N)). assert (P : 0 < p) by apply exp_pos. exists (- / p). rewrite det_scale.
    assert (X : p ^ N = - det N (mel M)) by (apply root_pow; [lra|lia]).
    assert (Y : (- / p) ^ N = - (/ p) ^ N).
    { apply Nat.odd_spec in HO. destruct HO as [m ->]. replace (2 * m + 1)%nat with (S (2 * m)) by lia. cbn [pow]. rewrite (pow_Rsqr (- / p) m), (pow_Rsqr (/ p) m). rewrite <- Rsqr_neg. ring. }
    rewrite Y, pow_inv, X. field. lra.
Qed.
(** SL<1>: every non-zero number, of either sign, becomes one *)
Theorem C75_coerce_one : forall M : mat R, mrows M = 1%nat -> mcols M = 1%nat -> det 1 (mel M) <> 0 -> exists C, sl_coerce 1 M = Ok C /\ mat_is C 1 1 (fun _ _ => 1).
Proof.
  intros M H1 H2 D.
  assert (E : determinant M = Ok (det 1 (mel M))) by (rewrite (@determinant_ok R ROps RLaws) by congruence; rewrite H1; reflexivity).
  assert (D1 : det 1 (mel M) = mel M 0%nat 0%nat) by (unfold det, sgn, skip; cbn; ring).
  unfold sl_coerce. rewrite E. cbn [bind]. unfold assert_.
  assert (E1 : R_ltb 0 (Rabs (det 1 (mel M))) = true) by (apply R_ltb_spec; apply Rabs_pos_lt; exact D). rewrite E1. cbn [bind].
  assert (E2 : pow_root (det 1 (mel M)) 1 = Ok (det 1 (mel M))).
  { unfold pow_root. destruct (R_ltb 0 (det 1 (mel M))) eqn:P; [|reflexivity]. apply R_ltb_spec in P. f_equal. cbn [INR]. replace (1 / 1) with 1 by field. apply Rpower_1. exact P. }
  rewrite E2. cbn [bind]. destruct (@mdiv_assign_ok R ROps RLaws M (det 1 (mel M)) D) as (C & EC & C1 & C2 & C3). rewrite H1, H2 in *.
  exists C. split; [exact EC|]. split; [exact C1|]. split; [exact C2|]. intros i j Hi Hj. rewrite C3 by auto. assert (i = 0%nat) as -> by lia. assert (j = 0%nat) as -> by lia. rewrite D1 in *. cbn [fdiv finv fmul ROps]. field. exact D.
Qed.
Local Close Scope R_scope.
From Coq Require Import QArith Qcanon.
(** every case of the generators, the walk through two rows, and a trace-free matrix that ln sends back to its coordinates *)
Example C64_nonvacuous : mvals (sl_generator 3 1) = [[0#1;0#1;0#1];[0#1;1#1;0#1];[0#1;0#1;(-1)#1]]%Q /\ mvals (sl_generator 3 3) = [[0#1;0#1;1#1];[0#1;0#1;0#1];[1#1;0#1;0#1]]%Q /\
  mvals (sl_generator 3 7) = [[0#1;0#1;0#1];[0#1;0#1;(-1)#1];[0#1;1#1;0#1]]%Q.
Proof. vm_compute. auto. Qed.
Example C64_roundtrip_nonvacuous : let l := mq 3 3 [1;2;4;6;-3;0;8;2;2]%Z in vals (sl_ln_vector 3 l) = [1#1;(-2)#1;4#1;6#1;1#1;2#1;2#1;1#1]%Q /\
  mvals (bind (sl_ln_vector 3 l) (sl_exp_matrix 3)) = mvals (Ok l).
Proof. vm_compute. auto. Qed.
(** ln of diag(1,0,0,-1), as ln finds it, stands for diag(1,0,-1,0) *)
Example C64_refuted_witness : mvals (bind (sl_ln_vector 4 (mq 4 4 [1;0;0;0; 0;0;0;0; 0;0;0;0; 0;0;0;-1]%Z)) (sl_exp_matrix 4)) =
  [[1#1;0#1;0#1;0#1];[0#1;0#1;0#1;0#1];[0#1;0#1;(-1)#1;0#1];[0#1;0#1;0#1;0#1]]%Q.
Proof. vm_compute. reflexivity. Qed.
Example C75_nonvacuous : let A := mq 2 2 [2;3;1;2]%Z in this (det 2 (mel A)) = (1#1)%Q /\ mvals (sl_inverse 2 A) = [[2#1;(-3)#1];[(-1)#1;2#1]]%Q.
Proof. vm_compute. auto. Qed.
Local Open Scope R_scope.
Example C75_coerce_nonvacuous : (exists M : mat R, mrows M = 2%nat /\ mcols M = 2%nat /\ 1 < det 2 (mel M)) /\
  (exists M : mat R, mrows M = 3%nat /\ mcols M = 3%nat /\ det 3 (mel M) < 0) /\ Nat.odd 3 = true.
Proof.
  split; [|split; [|reflexivity]].
  - exists (mkmat 2 2 (fun i j => if Nat.eqb i j then 3 else 1)). split; [reflexivity|]. split; [reflexivity|]. unfold det, sgn, skip. cbn. lra.
  - exists (mkmat 3 3 (fun i j => if Nat.eqb i j then -2 else 0)). split; [reflexivity|]. split; [reflexivity|]. unfold det, sgn, skip. cbn. lra.
Qed.
Print Assumptions C75_coerce_one.
Print Assumptions C64_generators.
Print Assumptions C64_documented_basis.
Print Assumptions C64_basis.
Print Assumptions C64_exp_matrix.
Print Assumptions C64_ln_offdiagonal.
Print Assumptions C64_ln_partial.
Print Assumptions C64_ln_refuted.
Print Assumptions C75_group.
Print Assumptions C75_coerce.
Print Assumptions C75_coerce_refuted.
