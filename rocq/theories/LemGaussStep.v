(** * One step of the elimination, over any scalar type whose comparison is a total order: used for exact (LemGauss) and for rounded (LemFlGauss) arithmetic. *)
From Coq Require Import Arith Bool List Lia.
From Verif Require Import Base Alg Mat SpecMat LemMat SpecLin LemLin ModelGauss.
Import ListNotations.

Section L.
Context {F : Type} {Fo : Ops F}.
Open Scope F_scope.
Section O.
Hypothesis le_refl : forall x : F, x <= x.
Hypothesis le_trans : forall x y z : F, x <= y -> y <= z -> x <= z.
Hypothesis lt_le : forall x y : F, x < y -> x <= y.
Hypothesis div_ok : forall x y : F, y <> 0 -> div x y = Ok (x / y).
Hypothesis div_zero : forall x : F, div x 0 = NonFinite.

Lemma find_pivot_ord (A : mat F) n i : (i < n)%nat -> (n <= mrows A)%nat -> (i < mcols A)%nat ->
  exists p, find_pivot A n i = Ok p /\ (i <= p < n)%nat /\ forall r, (i <= r < n)%nat -> fabs (mel A r i) <= fabs (mel A p i).
Proof.
  intros Hi Hr Hc. unfold find_pivot. rewrite mget_ok by lia. cbn [bind]. apply wp_ok_inv. apply wp_bind.
  eapply wp_mono; [apply (wp_for (fun k (s : nat * F) => (i <= fst s < n)%nat /\ snd s = fabs (mel A (fst s) i) /\
     forall r, (i <= r < k)%nat -> fabs (mel A r i) <= snd s))|].
  - lia.
  - cbn [fst snd]. split; [lia|]. split; [reflexivity|]. intros r Hr'. replace r with i by lia. apply le_refl.
  - intros j [p x] Hj (H1 & H2 & H3). cbn [fst snd] in *. rewrite mget_ok by lia. cbn [bind wp].
    destruct (fltb x (fabs (mel A j i))) eqn:E; cbn [fst snd].
    + split; [lia|]. split; [reflexivity|]. intros r Hr'. destruct (Nat.eq_dec r j) as [->|]; [apply le_refl|].
      apply (le_trans _ x); [apply H3; lia|]. apply lt_le. exact E.
    + split; [lia|]. split; [exact H2|]. intros r Hr'. destruct (Nat.eq_dec r j) as [->|]; [exact E|apply H3; lia].
  - intros [p x] (H1 & H2 & H3). cbn [fst snd wp] in *. split; [exact H1|]. intros r Hr'. rewrite <- H2. apply H3. lia.
Qed.
Section B.
Context {B : Type} (bswap : B -> nat -> nat -> outcome B) (bscale : B -> nat -> F -> outcome B)
  (bsub : B -> nat -> nat -> F -> outcome B) (bval : B -> nat -> nat -> F) (bok : B -> Prop) (n q : nat).
Hypothesis Hswap : forall b i p, bok b -> (i < n)%nat -> (p < n)%nat -> i <> p ->
  exists b', bswap b i p = Ok b' /\ bok b' /\ forall r k, (r < n)%nat -> (k < q)%nat -> bval b' r k = bval b (swp i p r) k.
Hypothesis Hscale : forall b i f, bok b -> (i < n)%nat ->
  exists b', bscale b i f = Ok b' /\ bok b' /\ forall r k, (r < n)%nat -> (k < q)%nat -> bval b' r k = if (r =? i)%nat then bval b i k * f else bval b r k.
Hypothesis Hsub : forall b u i f, bok b -> (i < n)%nat -> (u < n)%nat -> u <> i ->
  exists b', bsub b u i f = Ok b' /\ bok b' /\ forall r k, (r < n)%nat -> (k < q)%nat -> bval b' r k = if (r =? u)%nat then bval b u k - f * bval b i k else bval b r k.

(** what one elimination step does *)
Definition stepped (i p : nat) (A A' : mat F) (b b' : B) : Prop :=
  mrows A' = mrows A /\ mcols A' = mcols A /\
  (forall r c, (c < i)%nat -> mel A' r c = mel A r c) /\
  (forall r, mel A' r i = mel A (swp i p r) i) /\
  (forall r c, (i < c)%nat -> (c < n)%nat -> (r < i)%nat -> mel A' r c = mel A r c) /\
  (forall c, (i < c)%nat -> (c < n)%nat -> mel A' i c = mel A p c * (1 / mel A p i)) /\
  (forall r c, (i < c)%nat -> (c < n)%nat -> (i < r)%nat -> (r < n)%nat -> mel A' r c = mel A (swp i p r) c - mel A (swp i p r) i * mel A' i c) /\
  (forall r k, (r < i)%nat -> (k < q)%nat -> bval b' r k = bval b r k) /\
  (forall k, (k < q)%nat -> bval b' i k = bval b p k * (1 / mel A p i)) /\
  (forall r k, (i < r)%nat -> (r < n)%nat -> (k < q)%nat -> bval b' r k = bval b (swp i p r) k - mel A (swp i p r) i * bval b' i k).

Lemma ge_step_ord (A : mat F) b i : (i < n)%nat -> mrows A = n -> mcols A = n -> bok b ->
  exists p, (i <= p < n)%nat /\ (forall r, (i <= r < n)%nat -> fabs (mel A r i) <= fabs (mel A p i)) /\
   (mel A p i = 0 -> ge_step bswap bscale bsub n i (A, b) = NonFinite) /\
   (mel A p i <> 0 -> exists A' b', ge_step bswap bscale bsub n i (A, b) = Ok (A', b') /\ bok b' /\ stepped i p A A' b b').
Proof.
  intros Hi Hr Hc Hb. destruct (find_pivot_ord A n i) as (p & Ep & Hp & Hm); [lia..|]. exists p. split; [exact Hp|]. split; [exact Hm|].
  unfold ge_step. rewrite Ep. cbn [bind]. rewrite mget_ok by lia. cbn [bind]. split.
  { intros ->. rewrite div_zero. reflexivity. }
  intros Hnz. rewrite div_ok by exact Hnz. cbn [bind]. set (inv := 1 / mel A p i).
  assert (Sw : exists A1 b1, (if (p =? i)%nat then Ok (A, b) else
     (A <- for_ i n (fun j A => mswap A i p j) A ;; b <- bswap b i p ;; Ok (A, b))%outcome) = Ok (A1, b1) /\ bok b1 /\
     mrows A1 = n /\ mcols A1 = n /\ (forall r c, (r < n)%nat -> (c < n)%nat -> mel A1 r c = if (i <=? c)%nat then mel A (swp i p r) c else mel A r c) /\
     (forall r, mel A1 r i = mel A (swp i p r) i) /\ (forall r c, (c < i)%nat -> mel A1 r c = mel A r c) /\
     (forall r k, (r < n)%nat -> (k < q)%nat -> bval b1 r k = bval b (swp i p r) k)).
  { destruct (Nat.eqb_spec p i) as [->|Hpi].
    - exists A, b. split; [reflexivity|]. split; [exact Hb|]. split; [exact Hr|]. split; [exact Hc|].
      split; [intros; rewrite swp_id; destruct (i <=? c)%nat; reflexivity|]. split; [intros; rewrite swp_id; reflexivity|]. split; [reflexivity|]. intros; rewrite swp_id; reflexivity.
    - destruct (row_swap i n i p (fun j A => mswap A i p j) A) as (A1 & E1 & R1 & C1 & V1); [lia..| |].
      { intros j m' _ _ _. reflexivity. }
      rewrite E1. cbn [bind]. destruct (Hswap b i p) as (b1 & Eb & Ob & Vb); [assumption|lia..|]. rewrite Eb. cbn [bind].
      exists A1, b1. split; [reflexivity|]. split; [exact Ob|]. split; [lia|]. split; [lia|]. split.
      + intros r c _ Hc'. rewrite V1. destruct (Nat.ltb_spec c n); [|lia]. rewrite andb_true_r. reflexivity.
      + split; [|split; [|exact Vb]].
        * intros r. rewrite V1. destruct (Nat.ltb_spec i n); [|lia]. rewrite Nat.leb_refl. reflexivity.
        * intros r c Hc'. rewrite V1. destruct (Nat.leb_spec i c); [lia|]. reflexivity. }
  destruct Sw as (A1 & b1 & -> & Ob1 & R1 & C1 & V1 & V1i & V1l & Vb1). cbn [bind].
  destruct (row_loop (S i) n i (fun j A => x <- mget A i j ;; mset A i j (x * inv)) A1 (fun j => mel A1 i j * inv)) as (A2 & E2 & R2 & C2 & V2); [lia..| |].
  { intros j m' Hj Rm Cm Hm'. rewrite mget_ok by lia. cbn [bind]. rewrite Hm' by lia. reflexivity. }
  rewrite E2. cbn [bind]. destruct (Hscale b1 i inv) as (b2 & Eb2 & Ob2 & Vb2); [assumption|lia|]. rewrite Eb2. cbn [bind].
  assert (L : exists A3 b3, for_ (S i) n (fun u (s : mat F * B) => let '(A, b) := s in
      (factor <- mget A u i ;;
       A <- for_ (S i) n (fun j A => x <- mget A u j ;; y <- mget A i j ;; mset A u j (x - factor * y)) A ;;
       b <- bsub b u i factor ;; Ok (A, b))%outcome) (A2, b2) = Ok (A3, b3) /\ bok b3 /\ mrows A3 = n /\ mcols A3 = n /\
      (forall r c, mel A3 r c = if ((i <? r)%nat && (r <? n)%nat) && ((i <? c)%nat && (c <? n)%nat) then mel A2 r c - mel A2 r i * mel A2 i c else mel A2 r c) /\
      (forall r k, (r < n)%nat -> (k < q)%nat -> bval b3 r k = if ((i <? r)%nat && (r <? n)%nat) then bval b2 r k - mel A2 r i * bval b2 i k else bval b2 r k)).
  { assert (W : wp (for_ (S i) n (fun u (s : mat F * B) => let '(A, b) := s in
      (factor <- mget A u i ;;
       A <- for_ (S i) n (fun j A => x <- mget A u j ;; y <- mget A i j ;; mset A u j (x - factor * y)) A ;;
       b <- bsub b u i factor ;; Ok (A, b))%outcome) (A2, b2))
       (fun s => bok (snd s) /\ mrows (fst s) = n /\ mcols (fst s) = n /\
      (forall r c, mel (fst s) r c = if ((i <? r)%nat && (r <? n)%nat) && ((i <? c)%nat && (c <? n)%nat) then mel A2 r c - mel A2 r i * mel A2 i c else mel A2 r c) /\
      (forall r k, (r < n)%nat -> (k < q)%nat -> bval (snd s) r k = if ((i <? r)%nat && (r <? n)%nat) then bval b2 r k - mel A2 r i * bval b2 i k else bval b2 r k))).
    { apply (wp_for (fun u (s : mat F * B) => bok (snd s) /\ mrows (fst s) = n /\ mcols (fst s) = n /\
      (forall r c, mel (fst s) r c = if ((i <? r)%nat && (r <? u)%nat) && ((i <? c)%nat && (c <? n)%nat) then mel A2 r c - mel A2 r i * mel A2 i c else mel A2 r c) /\
      (forall r k, (r < n)%nat -> (k < q)%nat -> bval (snd s) r k = if ((i <? r)%nat && (r <? u)%nat) then bval b2 r k - mel A2 r i * bval b2 i k else bval b2 r k))).
      - lia.
      - cbn [fst snd]. split; [exact Ob2|]. split; [lia|]. split; [lia|]. split.
        + intros r c. destruct (Nat.ltb_spec i r), (Nat.ltb_spec r (S i)); try lia; reflexivity.
        + intros r k _ _. destruct (Nat.ltb_spec i r), (Nat.ltb_spec r (S i)); try lia; reflexivity.
      - intros u [A3 b3] Hu (Ob3 & R3 & C3 & V3 & Vb3). cbn [fst snd] in *. rewrite mget_ok by lia. cbn [bind].
        set (f := mel A3 u i). destruct (row_loop (S i) n u (fun j A => x <- mget A u j ;; y <- mget A i j ;; mset A u j (x - f * y)) A3 (fun j => mel A3 u j - f * mel A3 i j)) as (A4 & E4 & R4 & C4 & V4); [lia..| |].
        { intros j m' Hj Rm Cm Hm'. rewrite !mget_ok by lia. cbn [bind]. rewrite !Hm' by lia. reflexivity. }
        rewrite E4. cbn [bind]. destruct (Hsub b3 u i f) as (b4 & Eb4 & Ob4 & Vb4); [assumption|lia..|]. rewrite Eb4. cbn [bind wp fst snd].
        assert (Hf : f = mel A2 u i).
        { unfold f. rewrite V3. destruct (Nat.ltb_spec i u), (Nat.ltb_spec u u), (Nat.ltb_spec i i); try lia; reflexivity. }
        split; [exact Ob4|]. split; [lia|]. split; [lia|]. split.
        + intros r c. rewrite V4. rewrite Hf. rewrite !V3.
          destruct (Nat.eqb_spec r u), (Nat.ltb_spec i r), (Nat.ltb_spec r (S u)), (Nat.ltb_spec r u), (Nat.leb_spec (S i) c), (Nat.ltb_spec i c), (Nat.ltb_spec c n), (Nat.ltb_spec i i), (Nat.ltb_spec i u), (Nat.ltb_spec u u); try lia; cbn [andb]; subst; reflexivity.
        + intros r k Hrn Hk. rewrite Vb4 by assumption. rewrite Hf. rewrite !Vb3 by (assumption || lia).
          destruct (Nat.eqb_spec r u), (Nat.ltb_spec i r), (Nat.ltb_spec r (S u)), (Nat.ltb_spec r u), (Nat.ltb_spec i i), (Nat.ltb_spec i u), (Nat.ltb_spec u u); try lia; cbn [andb]; subst; reflexivity. }
    apply wp_ok_inv in W. destruct W as ([A3 b3] & E3 & H). exists A3, b3. split; [exact E3|exact H]. }
  destruct L as (A3 & b3 & -> & Ob3 & R3 & C3 & V3 & Vb3). exists A3, b3. split; [reflexivity|]. split; [exact Ob3|].
  assert (Hpi : swp i p i = p) by (unfold swp; rewrite Nat.eqb_refl; reflexivity).
  assert (Hlow : forall r, (r < i)%nat -> swp i p r = r) by (intros r Hr'; unfold swp; destruct (Nat.eqb_spec r i), (Nat.eqb_spec r p); lia).
  assert (V2i : forall r, mel A2 r i = mel A (swp i p r) i).
  { intros r. rewrite V2. destruct (Nat.leb_spec (S i) i); [lia|]. rewrite andb_false_r. apply V1i. }
  assert (V2r : forall r c, (r < n)%nat -> (c < n)%nat -> (i < c)%nat -> r <> i -> mel A2 r c = mel A (swp i p r) c).
  { intros r c H1 H2 H3 H4. rewrite V2. destruct (Nat.eqb_spec r i); [lia|]. cbn [andb]. rewrite V1 by lia. destruct (Nat.leb_spec i c); [reflexivity|lia]. }
  assert (V3i : forall c, mel A3 i c = mel A2 i c).
  { intros c. rewrite V3. destruct (Nat.ltb_spec i i); [lia|]. reflexivity. }
  assert (Vb3i : forall k, (k < q)%nat -> bval b3 i k = bval b2 i k).
  { intros k Hk. rewrite Vb3 by lia. destruct (Nat.ltb_spec i i); [lia|]. reflexivity. }
  unfold stepped. split; [lia|]. split; [lia|]. split; [|split; [|split; [|split; [|split; [|split; [|split]]]]]].
  - intros r c Hc'. rewrite V3. destruct (Nat.ltb_spec i c); [lia|]. rewrite andb_false_r. rewrite V2. destruct (Nat.leb_spec (S i) c); [lia|]. rewrite andb_false_r. apply V1l. lia.
  - intros r. rewrite V3. destruct (Nat.ltb_spec i i); [lia|]. rewrite andb_false_r. apply V2i.
  - intros r c H1 H2 H3. rewrite V3. destruct (Nat.ltb_spec i r); [lia|]. cbn [andb]. rewrite V2r by lia. rewrite Hlow by lia. reflexivity.
  - intros c H1 H2. rewrite V3i. rewrite V2, Nat.eqb_refl. destruct (Nat.leb_spec (S i) c), (Nat.ltb_spec c n); try lia. cbn [andb].
    rewrite V1 by lia. destruct (Nat.leb_spec i c); [|lia]. rewrite Hpi. reflexivity.
  - intros r c H1 H2 H3 H4. rewrite V3i. rewrite V3. destruct (Nat.ltb_spec i r), (Nat.ltb_spec r n), (Nat.ltb_spec i c), (Nat.ltb_spec c n); try lia. cbn [andb].
    rewrite V2i. rewrite V2r by lia. reflexivity.
  - intros r k H1 H2. rewrite Vb3 by lia. destruct (Nat.ltb_spec i r); [lia|]. cbn [andb]. rewrite Vb2 by lia. destruct (Nat.eqb_spec r i); [lia|]. rewrite Vb1 by lia. rewrite Hlow by lia. reflexivity.
  - intros k Hk. rewrite Vb3i by exact Hk. rewrite Vb2 by lia. rewrite Nat.eqb_refl. rewrite Vb1 by lia. rewrite Hpi. reflexivity.
  - intros r k H1 H2 H3. rewrite Vb3i by lia. rewrite Vb3 by lia. destruct (Nat.ltb_spec i r), (Nat.ltb_spec r n); try lia. cbn [andb]. rewrite V2i.
    rewrite (Vb2 r) by lia. destruct (Nat.eqb_spec r i); [lia|]. rewrite Vb1 by lia. reflexivity.
Qed.

End B.
End O.
End L.
