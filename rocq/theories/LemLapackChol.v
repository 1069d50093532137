(** * Lemmas for Lapack_Cholesky. *)
From Coq Require Import Reals Arith Bool Lia Lra Psatz.
From Verif Require Import Base Alg Inst Mat SpecMat LemMat RSum ModelOps LemOps SpecLin LemLin LemHelpers LemDet LemDetMul LemDetMore SpecForm LemForm LemChol LemCholMore SpecExp RRect LemGR ModelLU SpecLU LemLU ModelLapackChol SpecLapackChol.
Open Scope outcome_scope.
Local Open Scope R_scope.

Lemma for_subsum b (body : nat -> R -> outcome R) f s0 : (forall k s, (k < b)%nat -> body k s = Ok (s - f k)) -> for_ 0 b body s0 = Ok (s0 - Sum b f).
Proof.
  intros H. rewrite (for_sum 0 b body (fun k => - f k) s0).
  - f_equal. rewrite (S_ext b _ (fun k => -1 * f k)). 2:{ intros i Hi. rewrite from_in by lia. ring. } rewrite S_mul_l. ring.
  - intros k s Hk. rewrite H by lia. f_equal.
Qed.
(** the first [j] columns of the factor, in the upper triangle of [v] *)
Definition pot_eqs (n j : nat) (a v : rmat) : Prop :=
  (forall c, (c < j)%nat -> 0 < v c c) /\ (forall r c, (c < j)%nat -> (c <= r < n)%nat -> a c r = Sum (S c) (fun k => v k r * v k c)).
Definition pot_inv (n j : nat) (a v : rmat) : Prop := pot_eqs n j a v /\ forall r c, (j <= r)%nat \/ (c < r)%nat -> v r c = a r c.
Definition pot_stop (n k : nat) (a v : rmat) : Prop :=
  pot_eqs n k a v /\ v k k = a k k - Sum k (fun m => v m k * v m k) /\ v k k <= 0 /\
  forall r c, ((k <= r)%nat \/ (c < r)%nat) -> (r <> k \/ c <> k) -> v r c = a r c.
Definition pot_post (n j : nat) (a : rmat) (st : mat R * nat) : Prop :=
  exists v, mis (fst st) n n v /\ (snd st = 0%nat /\ pot_inv n j a v \/ exists k, (k < j)%nat /\ snd st = S k /\ pot_stop n k a v).
Lemma potrf_step_ok n a j st : (j < n)%nat -> pot_post n j a st -> wp (potrf_step n j st) (pot_post n (S j) a).
Proof.
  intros Hj (v & HV & D). destruct st as [W info]. cbn [fst snd] in *. unfold potrf_step. destruct D as [[-> [[E1 E2] E3]]|(k & Hk & -> & Hs)].
  2:{ cbn [Nat.eqb wp]. exists v. split; [exact HV|]. right. exists k. split; [lia|]. split; [reflexivity|exact Hs]. }
  cbn [Nat.eqb]. unfold fget, fset.
  eapply wp_mget; [exact HV|exact Hj|exact Hj|].
  rewrite (for_subsum j _ (fun k => v k j * v k j)).
  2:{ intros k s Hk. destruct HV as (HR & HC & HE). rewrite mget_ok by lia. cbn [bind]. rewrite !HE. reflexivity. }
  cbn [bind]. set (p := v j j - Sum j (fun k => v k j * v k j)).
  destruct (R_ltb 0 p) eqn:Ep.
  - apply R_ltb_spec in Ep. assert (Sp : 0 < sqrt p) by (apply sqrt_lt_R0; exact Ep).
    eapply wp_mset; [exact HV|exact Hj|exact Hj|]. intros W1 HW1. set (v1 := upd2 v j j (sqrt p)) in *.
    set (phi := fun i => (v1 j i - Sum j (fun k => v1 k i * v1 k j)) / sqrt p).
    eapply wp_seq.
    + apply (for_row W1 n n v1 j (j + 1) n phi _ HW1); [lia|exact Hj|]. intros i U Hi HU.
      eapply wp_mget; [exact HU|exact Hj|lia|].
      rewrite (for_subsum j _ (fun k => v1 k i * v1 k j)).
      2:{ intros k s Hk. destruct HU as (HR & HC & HE). rewrite !mget_ok by lia. cbn [bind]. rewrite !HE, !rowset_out by lia. reflexivity. }
      cbn [bind]. apply wp_div; [lra|]. rewrite rowset_out by lia. eapply wp_mset_end; [exact HU|exact Hj|lia|]. intros U' HU'. exact HU'.
    + intros W2 HW2. cbn [wp]. exists (rowset v1 j (j + 1) n phi). split; [exact HW2|]. left. split; [reflexivity|].
      assert (V1 : forall k i, k <> j \/ i <> j -> v1 k i = v k i) by (intros k i H; unfold v1; apply upd2_out; exact H).
      set (v2 := rowset v1 j (j + 1) n phi).
      assert (V2 : forall k i, k <> j -> v2 k i = v k i) by (intros k i H; unfold v2; rewrite rowset_out by (left; exact H); apply V1; left; exact H).
      assert (V2d : v2 j j = sqrt p) by (unfold v2; rewrite rowset_out by lia; unfold v1; apply upd2_in).
      assert (V2r : forall i, (j < i < n)%nat -> v2 j i = (v j i - Sum j (fun k => v k i * v k j)) / sqrt p).
      { intros i Hi. unfold v2. rewrite rowset_in by lia. unfold phi. rewrite V1 by lia. f_equal. f_equal. apply S_ext. intros k Hk. rewrite !V1 by lia. reflexivity. }
      split; [split|].
      * intros c Hc. destruct (Nat.eq_dec c j) as [->|Nc]; [rewrite V2d; exact Sp|rewrite V2 by exact Nc; apply E1; lia].
      * intros r c Hc Hr. destruct (Nat.eq_dec c j) as [->|Nc].
        -- cbn [sum]. cbn [fadd ROps]. rewrite (S_ext j _ (fun k => v k r * v k j)) by (intros k Hk; rewrite !V2 by lia; reflexivity). rewrite V2d.
           destruct (Nat.eq_dec r j) as [->|Nr].
           ++ rewrite V2d, sqrt_sqrt by lra. unfold p. rewrite (E3 j j) by lia. ring.
           ++ rewrite V2r by lia. rewrite (E3 j r) by lia. field. lra.
        -- rewrite (E2 r c) by lia. apply S_ext. intros k Hk. rewrite !V2 by lia. reflexivity.
      * intros r c H. destruct (Nat.eq_dec r j) as [->|Nr].
        -- destruct H as [H|H]; [lia|]. unfold v2. rewrite rowset_out by lia. rewrite V1 by lia. apply E3. lia.
        -- rewrite V2 by exact Nr. apply E3. lia.
  - apply R_ltb_false in Ep. eapply wp_mset; [exact HV|exact Hj|exact Hj|]. intros W1 HW1. cbn [wp].
    exists (upd2 v j j p). split; [exact HW1|]. right. exists j. split; [lia|]. split; [cbn [snd]; lia|]. split; [split|split; [|split]].
    + intros c Hc. rewrite upd2_out by lia. apply E1; exact Hc.
    + intros r c Hc Hr. rewrite (E2 r c) by lia. apply S_ext. intros k Hk. rewrite !upd2_out by lia. reflexivity.
    + rewrite upd2_in. unfold p. rewrite (E3 j j) by lia. f_equal. apply S_ext. intros k Hk. rewrite !upd2_out by lia. reflexivity.
    + rewrite upd2_in. exact Ep.
    + intros r c H1 H2. rewrite upd2_out by lia. apply E3. exact H1.
Qed.
Lemma potrf_ok n (A : mat R) : mrows A = n -> mcols A = n -> wp (potrf A) (pot_post n n (mel A)).
Proof.
  intros HR HC. unfold potrf. rewrite HR. apply (wp_for (fun j st => pot_post n j (mel A) st)).
  - lia.
  - exists (mel A). cbn [fst snd]. split; [split; [exact HR|split; [exact HC|reflexivity]]|]. left. split; [reflexivity|]. split; [split|].
    + intros c Hc. lia.
    + intros r c Hc. lia.
    + intros r c H. reflexivity.
  - intros j st Hj H. apply potrf_step_ok; [lia|exact H].
Qed.

(** ** the factor *)
Definition Lof (v : rmat) : rmat := fun r c => if (c <=? r)%nat then v c r else 0.
Lemma Lof_sum v m c (f : nat -> R) : (c < m)%nat -> Sum m (fun k => Lof v c k * f k) = Sum (S c) (fun k => v k c * f k).
Proof.
  intros Hc. replace m with (S c + (m - S c))%nat by lia. rewrite S_split. rewrite (S_zero (m - S c)).
  - rewrite (S_ext (S c) _ (fun k => v k c * f k)); [ring|]. intros k Hk. unfold Lof. destruct (Nat.leb_spec k c); [reflexivity|lia].
  - intros k Hk. unfold Lof. destruct (Nat.leb_spec (S c + k) c); [lia|]. ring.
Qed.
Lemma pot_factor n m a v : pot_eqs n m a v -> (m <= n)%nat -> forall r c, (r < m)%nat -> (c < m)%nat -> usym a r c = Sum m (fun k => Lof v r k * Lof v c k).
Proof.
  intros [E1 E2] Hm.
  assert (G : forall r c, (c <= r < m)%nat -> a c r = Sum m (fun k => Lof v c k * Lof v r k)).
  { intros r c H. rewrite Lof_sum by lia. rewrite (E2 r c) by lia. apply S_ext. intros k Hk. unfold Lof. destruct (Nat.leb_spec k r); [ring|lia]. }
  intros r c Hr Hc. unfold usym. destruct (Nat.leb_spec r c).
  - rewrite (G c r) by lia. reflexivity.
  - rewrite (G r c) by lia. apply S_ext. intros; ring.
Qed.
(** as L D L^T with a unit triangle *)
Definition unitL (n : nat) (v : rmat) : rmat := fun r c => if (r <=? c)%nat then delta r c else v c r / v c c.
Lemma unitL_unit n v : unit_lower n (unitL n v).
Proof. intros r c Hr Hc H. unfold unitL. destruct (Nat.leb_spec r c); [reflexivity|lia]. Qed.
Lemma unitL_ldl n v r c : (forall k, (k < n)%nat -> 0 < v k k) -> (r < n)%nat -> (c < n)%nat ->
  Sum n (fun k => Lof v r k * Lof v c k) = Sum n (fun k => unitL n v r k * (v k k * v k k) * unitL n v c k).
Proof.
  intros P Hr Hc. apply S_ext. intros k Hk. pose proof (P k Hk) as Pk.
  assert (G : forall i, (i < n)%nat -> Lof v i k = unitL n v i k * v k k).
  { intros i Hi. unfold Lof, unitL, delta. destruct (Nat.leb_spec k i), (Nat.leb_spec i k); try lia.
    - assert (i = k) by lia. subst i. rewrite Nat.eqb_refl. cbn [f1 ROps]. ring.
    - field. lra.
    - destruct (Nat.eqb_spec i k); [lia|]. cbn [f0 ROps]. ring. }
  rewrite !G by assumption. ring.
Qed.
Lemma pot_posdef n a v : pot_eqs n n a v -> posdef n (usym a) /\ nonsingular n (usym a) /\ det n (usym a) = prod n (fun k => v k k) * prod n (fun k => v k k).
Proof.
  intros H. pose proof (pot_factor n n a v H (le_n n)) as E. destruct H as [P _].
  assert (E' : forall r c, (r < n)%nat -> (c < n)%nat -> usym a r c = Sum n (fun k => unitL n v r k * (v k k * v k k) * unitL n v c k)).
  { intros r c Hr Hc. rewrite E by assumption. apply unitL_ldl; assumption. }
  split; [|split].
  - apply (ldl_posdef n (usym a) (unitL n v) (fun k => v k k * v k k) (unitL_unit n v) E'). intros k Hk. pose proof (P k Hk). apply R_ltb_spec. cbn [f0 fmul ROps]. nra.
  - apply (ldl_nonsingular n (usym a) (unitL n v) (fun k => v k k * v k k) (unitL_unit n v) E'). intros k Hk. pose proof (P k Hk). cbn [f0 fmul ROps]. nra.
  - rewrite (det_ldl n (usym a) (unitL n v) (fun k => v k k * v k k) (unitL_unit n v) E'). exact (@prod_mul R ROps RLaws n (fun k => v k k) (fun k => v k k)).
Qed.
(** a stop at column k: the leading (k+1) x (k+1) block is not positive definite *)
Lemma stop_ldl' n k a v : (k < n)%nat -> pot_stop n k a v -> forall r c, (r < S k)%nat -> (c < S k)%nat ->
  usym a r c = Sum (S k) (fun j => (if (j =? k)%nat then delta r j else unitL (S k) v r j) * (if (j =? k)%nat then v k k else v j j * v j j) * (if (j =? k)%nat then delta c j else unitL (S k) v c j)).
Proof.
  intros Hk (E & D & _ & _). assert (E0 := E). destruct E0 as [P E2].
  assert (G : forall r c, (c <= r < S k)%nat -> a c r = Sum (S k) (fun j => (if (j =? k)%nat then delta r j else unitL (S k) v r j) * (if (j =? k)%nat then v k k else v j j * v j j) * (if (j =? k)%nat then delta c j else unitL (S k) v c j))).
  { intros r c Hc. cbn [sum]. cbn [fadd ROps]. rewrite Nat.eqb_refl.
    assert (Q : Sum k (fun j => (if (j =? k)%nat then delta r j else unitL (S k) v r j) * (if (j =? k)%nat then v k k else v j j * v j j) * (if (j =? k)%nat then delta c j else unitL (S k) v c j)) = Sum k (fun j => Lof v r j * Lof v c j)).
    { apply S_ext. intros j Hj. destruct (Nat.eqb_spec j k); [lia|]. pose proof (P j Hj) as Pj.
      assert (G : forall i, Lof v i j = unitL (S k) v i j * v j j).
      { intros i. unfold Lof, unitL, delta. destruct (Nat.leb_spec j i), (Nat.leb_spec i j); try lia.
        - assert (i = j) by lia. subst i. rewrite Nat.eqb_refl. cbn [f1 ROps]. ring.
        - field. lra.
        - destruct (Nat.eqb_spec i j); [lia|]. cbn [f0 ROps]. ring. }
      rewrite !G. ring. }
    rewrite Q. destruct (Nat.eq_dec c k) as [->|Nc].
    - assert (r = k) by lia. subst r. unfold delta. rewrite Nat.eqb_refl. cbn [f1 ROps]. rewrite D.
      rewrite (S_ext k (fun j => Lof v k j * Lof v k j) (fun m => v m k * v m k)); [ring|]. intros j Hj. unfold Lof. destruct (Nat.leb_spec j k); [reflexivity|lia].
    - rewrite (E2 r c) by lia. rewrite (S_ext k _ (fun j => Lof v c j * Lof v r j)) by (intros; ring). rewrite Lof_sum by lia.
      replace (delta c k) with (0 : R) by (unfold delta; destruct (Nat.eqb_spec c k); [lia|reflexivity]).
      rewrite (S_ext (S c) (fun k0 => v k0 c * Lof v r k0) (fun k0 => v k0 r * v k0 c)); [ring|]. intros j Hj. unfold Lof. destruct (Nat.leb_spec j r); [ring|lia]. }
  intros r c Hr Hc. unfold usym. destruct (Nat.leb_spec r c).
  - rewrite (G c r) by lia. apply S_ext. intros; ring.
  - rewrite (G r c) by lia. reflexivity.
Qed.
Lemma stop_not_posdef n k a v : (k < n)%nat -> pot_stop n k a v -> ~ posdef n (usym a).
Proof.
  intros Hk Hs [_ Hp]. pose proof (stop_ldl' n k a v Hk Hs) as E.
  destruct (ldl_probe (S k) (usym a) (fun r j => if (j =? k)%nat then delta r j else unitL (S k) v r j) (fun j => if (j =? k)%nat then v k k else v j j * v j j) k ltac:(lia)) as (x & Q & i & Hi & Hx).
  - intros r c Hr Hc H. destruct (Nat.eqb_spec c k); [reflexivity|]. apply unitL_unit; assumption.
  - exact E.
  - cbn beta in Q. rewrite Nat.eqb_refl in Q. destruct Hs as (_ & _ & Z & _).
    assert (C : 0 < quad n (usym a) (fun i => if (i <? S k)%nat then x i else 0)).
    { apply R_ltb_spec. apply Hp. exists i. split; [lia|]. destruct (Nat.ltb_spec i (S k)); [exact Hx|lia]. }
    pose proof (quad_extend (Fl:=RLaws) (S k) n (usym a) x ltac:(lia)) as QE. cbn [f0 ROps] in QE. rewrite QE, Q in C. lra.
Qed.
