(** * One step of getf2, over any scalar type whose comparison is a total order (exact and rounded arithmetic). *)
From Coq Require Import Arith Bool List Lia.
From Verif Require Import Base Alg Mat SpecMat LemMat SpecLin LemLin ModelLU ModelGetrf.
Import ListNotations.

Section L.
Context {F : Type} {Fo : Ops F}.
Open Scope F_scope.
Lemma col_swap_ok (m : mat F) n j p : mrows m = n -> (j < mcols m)%nat -> (p < mcols m)%nat ->
  exists m', col_swap m n j p = Ok m' /\ mrows m' = n /\ mcols m' = mcols m /\ forall r c, (r < n)%nat -> mel m' r c = mel m r (swp j p c).
Proof.
  intros Hr Hj Hp. unfold col_swap. apply wp_ok_inv.
  eapply wp_mono; [apply (wp_for (fun k m' => mrows m' = n /\ mcols m' = mcols m /\ forall r c, mel m' r c = if (r <? k)%nat then mel m r (swp j p c) else mel m r c))|].
  - lia.
  - split; [exact Hr|]. split; reflexivity.
  - intros r m' Hk (R & C & V). rewrite !mget_ok by lia. cbn [bind]. rewrite mset_ok by lia. cbn [bind]. rewrite mset_ok by (cbn [mrows mcols]; lia). cbn [wp mrows mcols mel].
    split; [exact R|]. split; [exact C|]. intros r' c. rewrite !V. unfold swp.
    destruct (Nat.eqb_spec r' r), (Nat.ltb_spec r r), (Nat.ltb_spec r' r), (Nat.ltb_spec r' (S r)), (Nat.eqb_spec c p), (Nat.eqb_spec c j); try lia; cbn [andb]; subst; try reflexivity.
  - intros m' (R & C & V). split; [exact R|]. split; [exact C|]. intros r c H. rewrite V. destruct (Nat.ltb_spec r n); [reflexivity|lia].
Qed.
Section O.
Hypothesis le_refl : forall x : F, x <= x.
Hypothesis le_trans : forall x y z : F, x <= y -> y <= z -> x <= z.
Hypothesis lt_le : forall x y : F, x < y -> x <= y.
Hypothesis div_ok : forall x y : F, y <> 0 -> div x y = Ok (x / y).
Hypothesis eqb_spec : forall x y : F, feqb x y = true <-> x = y.

Lemma row_pivot_ord (A : mat F) n j : (j < n)%nat -> mrows A = n -> mcols A = n ->
  exists p, row_pivot A n j = Ok p /\ (j <= p < n)%nat /\ (forall c, (j <= c < n)%nat -> fabs (mel A j c) <= fabs (mel A j p)) /\
    ((forall c, (j <= c < n)%nat -> ~ fabs (mel A j j) < fabs (mel A j c)) -> p = j).
Proof.
  intros Hj Hr Hc. unfold row_pivot. rewrite mget_ok by lia. cbn [bind]. apply wp_ok_inv. apply wp_bind.
  eapply wp_mono; [apply (wp_for (fun k (s : nat * F) => (j <= fst s < n)%nat /\ snd s = fabs (mel A j (fst s)) /\
     (forall c, (j <= c < k)%nat -> fabs (mel A j c) <= snd s) /\ ((forall c, (j <= c < n)%nat -> ~ fabs (mel A j j) < fabs (mel A j c)) -> fst s = j)))|].
  - lia.
  - cbn [fst snd]. split; [lia|]. split; [reflexivity|]. split; [|reflexivity]. intros c Hc'. replace c with j by lia. apply le_refl.
  - intros i [p x] Hi (H1 & H2 & H3 & H4). cbn [fst snd] in *. rewrite mget_ok by lia. cbn [bind wp].
    destruct (fltb x (fabs (mel A j i))) eqn:E; cbn [fst snd].
    + split; [lia|]. split; [reflexivity|]. split.
      * intros c Hc'. destruct (Nat.eq_dec c i) as [->|]; [apply le_refl|]. apply (le_trans _ x); [apply H3; lia|]. apply lt_le. exact E.
      * intros N. exfalso. apply (N i); [lia|]. replace (fabs (mel A j j)) with x; [exact E|]. rewrite H2, (H4 N). reflexivity.
    + split; [lia|]. split; [exact H2|]. split; [|exact H4]. intros c Hc'. destruct (Nat.eq_dec c i) as [->|]; [exact E|apply H3; lia].
  - intros [p x] (H1 & H2 & H3 & H4). cbn [fst snd wp] in *. split; [exact H1|]. split; [|exact H4]. intros c Hc'. rewrite <- H2. apply H3. lia.
Qed.
(** what one step does to the array; p is the pivot *)
Definition lu_stepped (n j p : nat) (m m' : mat F) : Prop :=
  mrows m' = n /\ mcols m' = n /\
  (forall r c, (r < n)%nat -> (c < j)%nat -> mel m' r c = mel m r c) /\
  (forall r, (r < n)%nat -> mel m' r j = mel m r p) /\
  (forall r c, (r < j)%nat -> (c < n)%nat -> mel m' r c = mel m r (swp j p c)) /\
  (mel m j p <> 0 -> forall c, (j < c < n)%nat -> mel m' j c = (1 / mel m j p) * mel m j (swp j p c)) /\
  (mel m j p = 0 -> forall c, (j < c < n)%nat -> mel m' j c = mel m j (swp j p c)) /\
  (forall r c, (j < r < n)%nat -> (j < c < n)%nat -> mel m' r c = mel m r (swp j p c) - mel m' j c * mel m r p).

Lemma getf2_step_ord (m : mat F) piv info n j : (j < n)%nat -> mrows m = n -> mcols m = n ->
  (forall p, (j <= p < n)%nat -> mel m j p = 0 -> (forall c, (j <= c < n)%nat -> fabs (mel m j c) <= fabs (mel m j p)) -> forall c, (j <= c < n)%nat -> mel m j c = 0) ->
  (forall x : F, ~ x < x) ->
  exists p m' piv' info', getf2_step n j (m, piv, info) = Ok (m', piv', info') /\ (j <= p < n)%nat /\ (forall c, (j <= c < n)%nat -> fabs (mel m j c) <= fabs (mel m j p)) /\
    (forall k, piv' k = if (k =? j)%nat then p else piv k) /\ (mel m j p <> 0 -> info' = info) /\
    (mel m j p = 0 -> p = j /\ info' = match info with Some _ => info | None => Some j end) /\
    lu_stepped n j p m m'.
Proof.
  intros Hj Hr Hc Hz irr. destruct (row_pivot_ord m n j Hj Hr Hc) as (p & Ep & Hp & Hm & Hq). unfold getf2_step. rewrite Ep. cbn [bind]. rewrite mget_ok by lia. cbn [bind].
  assert (Pz : mel m j p = 0 -> p = j). { intros Z. apply Hq. intros c Hc'. rewrite (Hz p Hp Z Hm c Hc'). rewrite (Hz p Hp Z Hm j) by lia. apply irr. }
  assert (Sw : exists m1 info1, (if feqb (mel m j p) f0 then Ok (m, match info with Some _ => info | None => Some j end)
    else
      m <- (if (p =? j)%nat then Ok m else col_swap m n j p) ;;
      a <- mget m j j ;; rec <- div f1 a ;;
      m <- for_ (S j) n (fun i m => y <- mget m j i ;; mset m j i (fmul rec y)) m ;;
      Ok (m, info))%outcome = Ok (m1, info1) /\ mrows m1 = n /\ mcols m1 = n /\ (mel m j p <> 0 -> info1 = info) /\ (mel m j p = 0 -> info1 = match info with Some _ => info | None => Some j end) /\
     (forall r c, (r < n)%nat -> (c < n)%nat -> ~ (r = j /\ (j < c)%nat) -> mel m1 r c = mel m r (swp j p c)) /\
     (mel m j p <> 0 -> forall c, (j < c < n)%nat -> mel m1 j c = (1 / mel m j p) * mel m j (swp j p c)) /\ (mel m j p = 0 -> forall c, (j < c < n)%nat -> mel m1 j c = mel m j (swp j p c))).
  { destruct (feqb (mel m j p) f0) eqn:E.
    - apply eqb_spec in E. rewrite (Pz E) in E |- *. exists m. eexists. split; [reflexivity|]. split; [exact Hr|]. split; [exact Hc|]. split; [congruence|]. split; [reflexivity|].
      split; [intros; rewrite swp_id; reflexivity|]. split; [congruence|]. intros _ c _. rewrite swp_id. reflexivity.
    - assert (Nz : mel m j p <> 0) by (intros Z; apply eqb_spec in Z; congruence).
      assert (S1 : exists m1, (if (p =? j)%nat then Ok m else col_swap m n j p) = Ok m1 /\ mrows m1 = n /\ mcols m1 = n /\ forall r c, (r < n)%nat -> mel m1 r c = mel m r (swp j p c)).
      { destruct (Nat.eqb_spec p j) as [->|N]; [exists m; split; [reflexivity|]; split; [exact Hr|]; split; [exact Hc|]; intros; rewrite swp_id; reflexivity|].
        destruct (col_swap_ok m n j p) as (m1 & E1 & R1 & C1 & V1); [lia..|]. exists m1. split; [exact E1|]. split; [lia|]. split; [lia|exact V1]. }
      destruct S1 as (m1 & -> & R1 & C1 & V1). cbn [bind]. rewrite mget_ok by lia. cbn [bind].
      assert (J : mel m1 j j = mel m j p) by (rewrite V1 by lia; unfold swp; rewrite Nat.eqb_refl; reflexivity).
      rewrite J, div_ok by exact Nz. cbn [bind]. set (rec := 1 / mel m j p).
      destruct (row_loop (S j) n j (fun i m => y <- mget m j i ;; mset m j i (rec * y)) m1 (fun i => rec * mel m1 j i)) as (m2 & E2 & R2 & C2 & V2); [lia..| |].
      { intros i m' Hi Rm Cm Hm'. rewrite mget_ok by lia. cbn [bind]. rewrite Hm' by lia. reflexivity. }
      rewrite E2. cbn [bind]. exists m2, info. split; [reflexivity|]. split; [lia|]. split; [lia|]. split; [reflexivity|]. split; [congruence|]. split; [|split; [|congruence]].
      + intros r c H1 H2 H3. rewrite V2. destruct (Nat.eqb_spec r j), (Nat.leb_spec (S j) c), (Nat.ltb_spec c n); try lia; cbn [andb]; apply V1; lia.
      + intros _ c H. rewrite V2, Nat.eqb_refl. destruct (Nat.leb_spec (S j) c), (Nat.ltb_spec c n); try lia. cbn [andb]. rewrite V1 by lia. reflexivity. }
  destruct Sw as (m1 & info1 & -> & R1 & C1 & I1 & I2 & V1 & V1n & V1z). cbn [bind].
  assert (L : exists m2, for_ (S j) n (fun r m => t <- mget m r j ;; for_ (S j) n (fun i m => x <- mget m r i ;; y <- mget m j i ;; mset m r i (x - y * t)) m)%outcome m1 = Ok m2 /\ mrows m2 = n /\ mcols m2 = n /\
     forall r c, mel m2 r c = if ((j <? r)%nat && (r <? n)%nat) && ((j <? c)%nat && (c <? n)%nat) then mel m1 r c - mel m1 j c * mel m1 r j else mel m1 r c).
  { apply wp_ok_inv. apply (wp_for (fun u m2 => mrows m2 = n /\ mcols m2 = n /\
     forall r c, mel m2 r c = if ((j <? r)%nat && (r <? u)%nat) && ((j <? c)%nat && (c <? n)%nat) then mel m1 r c - mel m1 j c * mel m1 r j else mel m1 r c)).
    - lia.
    - split; [exact R1|]. split; [exact C1|]. intros r c. destruct (Nat.ltb_spec j r), (Nat.ltb_spec r (S j)); try lia; reflexivity.
    - intros u m2 Hu (R2 & C2 & V2). rewrite mget_ok by lia. cbn [bind]. set (t := mel m2 u j).
      destruct (row_loop (S j) n u (fun i m => x <- mget m u i ;; y <- mget m j i ;; mset m u i (x - y * t)) m2 (fun i => mel m2 u i - mel m2 j i * t)) as (m3 & E3 & R3 & C3 & V3); [lia..| |].
      { intros i m' Hi Rm Cm Hm'. rewrite !mget_ok by lia. cbn [bind]. rewrite !Hm' by lia. reflexivity. }
      rewrite E3. cbn [wp]. split; [lia|]. split; [lia|]. intros r c. rewrite V3. unfold t. rewrite !V2.
      destruct (Nat.eqb_spec r u), (Nat.ltb_spec j r), (Nat.ltb_spec r (S u)), (Nat.ltb_spec r u), (Nat.leb_spec (S j) c), (Nat.ltb_spec j c), (Nat.ltb_spec c n), (Nat.ltb_spec j j), (Nat.ltb_spec j u), (Nat.ltb_spec u u); try lia; cbn [andb]; subst; reflexivity. }
  destruct L as (m2 & -> & R2 & C2 & V2). cbn [bind]. exists p, m2. eexists. eexists. split; [reflexivity|]. split; [exact Hp|]. split; [exact Hm|]. split; [reflexivity|]. split; [exact I1|]. split; [intros Z; split; [exact (Pz Z)|exact (I2 Z)]|].
  assert (Sj : swp j p j = p) by (unfold swp; rewrite Nat.eqb_refl; reflexivity).
  assert (Sl : forall c, (c < j)%nat -> swp j p c = c) by (intros c H; unfold swp; destruct (Nat.eqb_spec c j), (Nat.eqb_spec c p); lia).
  assert (Vj : forall c, mel m2 j c = mel m1 j c). { intros c. rewrite V2. destruct (Nat.ltb_spec j j); [lia|]. reflexivity. }
  split; [exact R2|]. split; [exact C2|]. split; [|split; [|split; [|split; [|split]]]].
  - intros r c H1 H2. rewrite V2. destruct (Nat.ltb_spec j c); [lia|]. rewrite andb_false_r. rewrite V1 by lia. rewrite Sl by lia. reflexivity.
  - intros r H. rewrite V2. destruct (Nat.ltb_spec j j); [lia|]. rewrite andb_false_r. rewrite V1 by lia. rewrite Sj. reflexivity.
  - intros r c H1 H2. rewrite V2. destruct (Nat.ltb_spec j r); [lia|]. cbn [andb]. apply V1; lia.
  - intros Nz c H. rewrite Vj. apply V1n; assumption.
  - intros Z c H. rewrite Vj. apply V1z; assumption.
  - intros r c H1 H2. rewrite Vj, V2. destruct (Nat.ltb_spec j r), (Nat.ltb_spec r n), (Nat.ltb_spec j c), (Nat.ltb_spec c n); try lia. cbn [andb]. rewrite (V1 r c) by lia. rewrite (V1 r j) by lia. rewrite Sj. reflexivity.
Qed.
End O.
End L.
