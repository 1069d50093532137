(** * Lemmas about row loops, row operations and triangular systems. *)
From Coq Require Import Arith Bool List Lia Field.
From Verif Require Import Base Alg Mat SpecMat LemMat SpecLin.
Import ListNotations.

Definition swp (i p r : nat) : nat := if r =? i then p else if r =? p then i else r.
Lemma swp_lt i p r n : i < n -> p < n -> r < n -> swp i p r < n.
Proof. unfold swp. destruct (r =? i), (r =? p); auto. Qed.
Lemma swp_inv i p r : swp i p (swp i p r) = r.
Proof.
  unfold swp. destruct (Nat.eqb_spec r i) as [->|H1]; [|destruct (Nat.eqb_spec r p) as [->|H2]].
  - rewrite Nat.eqb_refl. destruct (Nat.eqb_spec p i); congruence.
  - rewrite Nat.eqb_refl. reflexivity.
  - destruct (Nat.eqb_spec r i), (Nat.eqb_spec r p); congruence.
Qed.
Lemma swp_id i r : swp i i r = r.
Proof. unfold swp. destruct (Nat.eqb_spec r i); auto. Qed.

Section L.
Context {F : Type} {Fo : Ops F} {Fl : Laws F}.
Add Field Ff : law_field.
Open Scope F_scope.

(** a loop that stores [f j] at (r,j) for j = lo..hi-1 *)
Lemma row_loop lo hi r (body : nat -> mat F -> outcome (mat F)) (m : mat F) (f : nat -> F) :
  (r < mrows m)%nat -> (hi <= mcols m)%nat ->
  (forall j m', (lo <= j < hi)%nat -> mrows m' = mrows m -> mcols m' = mcols m ->
     (forall i c, ~ (i = r /\ (lo <= c < j)%nat) -> mel m' i c = mel m i c) -> body j m' = mset m' r j (f j)) ->
  exists m', for_ lo hi body m = Ok m' /\ mrows m' = mrows m /\ mcols m' = mcols m /\
    forall i c, mel m' i c = if (i =? r)%nat && ((lo <=? c)%nat && (c <? hi)%nat) then f c else mel m i c.
Proof.
  intros Hr Hhi Hb. destruct (le_lt_dec lo hi) as [Hle|Hgt].
  2:{ exists m. rewrite for_empty by lia. split; [reflexivity|]. split; [reflexivity|]. split; [reflexivity|]. intros i c.
      destruct (Nat.leb_spec lo c), (Nat.ltb_spec c hi); try lia; rewrite ?andb_false_r; reflexivity. }
  apply wp_ok_inv. eapply wp_mono; [apply (wp_for (fun k m' => mrows m' = mrows m /\ mcols m' = mcols m /\
    forall i c, mel m' i c = if (i =? r)%nat && ((lo <=? c)%nat && (c <? k)%nat) then f c else mel m i c))|intros m' Hm'; exact Hm'].
  - exact Hle.
  - split; [reflexivity|]. split; [reflexivity|]. intros i c.
    destruct (Nat.leb_spec lo c), (Nat.ltb_spec c lo); try lia; rewrite ?andb_false_r; reflexivity.
  - intros j m' Hj (E1 & E2 & E). rewrite (Hb j m' Hj E1 E2).
    + rewrite mset_ok by lia. cbn [wp mrows mcols mel]. split; [exact E1|]. split; [exact E2|]. intros i c. rewrite E.
      destruct (Nat.eqb_spec i r), (Nat.eqb_spec c j), (Nat.leb_spec lo c), (Nat.ltb_spec c j), (Nat.ltb_spec c (S j)); try lia; cbn [andb]; congruence.
    + intros i c Hn. rewrite E. destruct (Nat.eqb_spec i r), (Nat.leb_spec lo c), (Nat.ltb_spec c j); cbn [andb]; try reflexivity.
      destruct Hn. auto.
Qed.
(** the row swap loop *)
Lemma row_swap lo hi i p (body : nat -> mat F -> outcome (mat F)) (m : mat F) :
  (i < mrows m)%nat -> (p < mrows m)%nat -> (hi <= mcols m)%nat -> i <> p ->
  (forall j m', (lo <= j < hi)%nat -> mrows m' = mrows m -> mcols m' = mcols m ->
     body j m' = (x <- mget m' i j ;; y <- mget m' p j ;; m' <- mset m' i j y ;; mset m' p j x)%outcome) ->
  exists m', for_ lo hi body m = Ok m' /\ mrows m' = mrows m /\ mcols m' = mcols m /\
    forall r c, mel m' r c = if ((lo <=? c)%nat && (c <? hi)%nat) then mel m (swp i p r) c else mel m r c.
Proof.
  intros Hi Hp Hhi Hip Hb. destruct (le_lt_dec lo hi) as [Hle|Hgt].
  2:{ exists m. rewrite for_empty by lia. split; [reflexivity|]. split; [reflexivity|]. split; [reflexivity|]. intros r c.
      destruct (Nat.leb_spec lo c), (Nat.ltb_spec c hi); try lia; rewrite ?andb_false_r; reflexivity. }
  apply wp_ok_inv. eapply wp_mono; [apply (wp_for (fun k m' => mrows m' = mrows m /\ mcols m' = mcols m /\
    forall r c, mel m' r c = if ((lo <=? c)%nat && (c <? k)%nat) then mel m (swp i p r) c else mel m r c))|intros m' Hm'; exact Hm'].
  - exact Hle.
  - split; [reflexivity|]. split; [reflexivity|]. intros r c.
    destruct (Nat.leb_spec lo c), (Nat.ltb_spec c lo); try lia; rewrite ?andb_false_r; reflexivity.
  - intros j m' Hj (E1 & E2 & E). rewrite (Hb j m' Hj E1 E2). rewrite !mget_ok by lia. cbn [bind]. rewrite mset_ok by lia. cbn [bind]. rewrite mset_ok by (cbn [mrows mcols]; lia).
    cbn [wp mrows mcols mel]. split; [exact E1|]. split; [exact E2|]. intros r c. rewrite !E. unfold swp.
    destruct (Nat.eqb_spec r i), (Nat.eqb_spec r p), (Nat.eqb_spec c j), (Nat.leb_spec lo c), (Nat.ltb_spec c j), (Nat.ltb_spec c (S j)); try lia; cbn [andb]; subst;
      rewrite ?Nat.ltb_irrefl, ?andb_false_r; try reflexivity; try lia.
Qed.

(** ** Equivalence of systems under row operations.
    The augmented row functional of row r at (x,t). *)
Definition rowv (n q : nat) (a b : nat -> nat -> F) (x t : nat -> F) (r : nat) : F :=
  sum n (fun c => a r c * x c) - sum q (fun k => b r k * t k).
Lemma rowv_scale n q a b a' b' x t r r' s :
  (forall c, (c < n)%nat -> a' r' c = a r c * s) -> (forall k, (k < q)%nat -> b' r' k = b r k * s) ->
  rowv n q a' b' x t r' = s * rowv n q a b x t r.
Proof.
  intros Ha Hb. unfold rowv.
  rewrite (sum_ext n _ (fun c => s * (a r c * x c))) by (intros c Hc; rewrite Ha by exact Hc; ring).
  rewrite (sum_ext q _ (fun c => s * (b r c * t c))) by (intros c Hc; rewrite Hb by exact Hc; ring).
  rewrite !sum_mul_l. ring.
Qed.
Lemma rowv_sub n q a b a' b' x t r i s :
  (forall c, (c < n)%nat -> a' r c = a r c - s * a' i c) -> (forall k, (k < q)%nat -> b' r k = b r k - s * b' i k) ->
  rowv n q a' b' x t r = rowv n q a b x t r - s * rowv n q a' b' x t i.
Proof.
  intros Ha Hb. unfold rowv.
  rewrite (sum_ext n (fun c => a' r c * x c) (fun c => a r c * x c - s * (a' i c * x c))) by (intros c Hc; rewrite Ha by exact Hc; ring).
  rewrite (sum_ext q (fun c => b' r c * t c) (fun c => b r c * t c - s * (b' i c * t c))) by (intros c Hc; rewrite Hb by exact Hc; ring).
  rewrite !sum_sub, !sum_mul_l. ring.
Qed.
Lemma rowv_same n q a b a' b' x t r r' :
  (forall c, (c < n)%nat -> a' r' c = a r c) -> (forall k, (k < q)%nat -> b' r' k = b r k) -> rowv n q a' b' x t r' = rowv n q a b x t r.
Proof.
  intros Ha Hb. unfold rowv. f_equal; apply sum_ext; intros c Hc; [rewrite Ha by exact Hc|rewrite Hb by exact Hc]; reflexivity.
Qed.

(** ** Unit upper triangular systems *)
Definition unit_upper (n : nat) (a : nat -> nat -> F) : Prop :=
  forall r c, (r < n)%nat -> (c < n)%nat -> (c <= r)%nat -> a r c = if (r =? c)%nat then 1 else 0.
Lemma sum_upper n a (x : nat -> F) r : unit_upper n a -> (r < n)%nat ->
  sum n (fun c => a r c * x c) = x r + sum (n - S r) (fun k => a r (S r + k)%nat * x (S r + k)%nat).
Proof.
  intros Hu Hr. replace n with (S r + (n - S r))%nat at 1 by lia. rewrite sum_split. f_equal. cbn [sum].
  rewrite sum_zero; [rewrite Hu by lia; rewrite Nat.eqb_refl; ring|].
  intros c Hc. rewrite Hu by lia. destruct (Nat.eqb_spec r c); [lia|ring].
Qed.
Lemma upper_solve n a (b : nat -> F) : unit_upper n a -> exists x, solves n a x b.
Proof.
  intros Hu. assert (G : forall k, (k <= n)%nat -> exists x, forall r, (n - k <= r)%nat -> (r < n)%nat -> sum n (fun c => a r c * x c) = b r).
  { induction k as [|k IH]; intros Hk; [exists (fun _ => 0); intros; lia|]. destruct IH as [x Hx]; [lia|].
    set (r0 := (n - S k)%nat). set (y := b r0 - sum (n - S r0) (fun k => a r0 (S r0 + k)%nat * x (S r0 + k)%nat)).
    exists (fun c => if (c =? r0)%nat then y else x c). intros r H1 H2. rewrite sum_upper by assumption.
    rewrite (sum_ext (n - S r) _ (fun k => a r (S r + k)%nat * x (S r + k)%nat)).
    - destruct (Nat.eqb_spec r r0) as [->|].
      + unfold y. ring.
      + rewrite <- Hx by lia. symmetry. apply sum_upper; assumption.
    - intros j Hj. destruct (Nat.eqb_spec (S r + j) r0); [lia|reflexivity]. }
  destruct (G n ltac:(lia)) as [x Hx]. exists x. intros r Hr. apply Hx; lia.
Qed.
Lemma upper_unique n a (x y : nat -> F) : unit_upper n a ->
  (forall r, (r < n)%nat -> sum n (fun c => a r c * x c) = sum n (fun c => a r c * y c)) -> forall r, (r < n)%nat -> x r = y r.
Proof.
  intros Hu H. assert (G : forall k r, (n - k <= r)%nat -> (r < n)%nat -> x r = y r).
  { induction k as [|k IH]; intros r H1 H2; [lia|]. pose proof (H r H2) as E. rewrite !sum_upper in E by assumption.
    rewrite (sum_ext (n - S r) (fun k => a r (S r + k)%nat * x (S r + k)%nat) (fun k => a r (S r + k)%nat * y (S r + k)%nat)) in E
      by (intros j Hj; rewrite IH by lia; reflexivity).
    apply sub_zero. transitivity ((x r + sum (n - S r) (fun k => a r (S r + k)%nat * y (S r + k)%nat)) - (y r + sum (n - S r) (fun k => a r (S r + k)%nat * y (S r + k)%nat))); [ring|]. rewrite E. ring. }
  intros r Hr. apply (G n); lia.
Qed.
End L.
