(** * The determinant is the only normalised alternating function; it is multiplicative. *)
From Coq Require Import Arith Bool List Lia Field FinFun.
From Verif Require Import Base Alg SpecMat SpecLin LemLin LemDet.

Section L.
Context {F : Type} {Fo : Ops F} {Fl : Laws F}.
Add Field Ff : law_field.
Open Scope F_scope.

Lemma det_alternating n : alternating n (det (F:=F) n).
Proof.
  split; [intros a b H; apply det_ext; exact H|]. split.
  - intros k a b c s Hk Ho Hs. apply (det_lin n k); assumption.
  - intros i p a Hi Hp Hip He. apply (det_eq_rows n i p); assumption.
Qed.

Section U.
Variables (n : nat) (D : (nat -> nat -> F) -> F).
Hypothesis HD : alternating n D.
Lemma D_ext a b : (forall r c, (r < n)%nat -> (c < n)%nat -> a r c = b r c) -> D a = D b.
Proof. apply HD. Qed.
Lemma D_zero_row k a : (k < n)%nat -> (forall j, (j < n)%nat -> a k j = 0) -> D a = 0.
Proof.
  intros Hk Hz. destruct HD as (_ & L & _). assert (E : D a = D a + 1 * D a).
  { apply (L k); [exact Hk|auto|]. intros j Hj. rewrite Hz by exact Hj. ring. }
  transitivity ((D a + 1 * D a) - D a); [ring|]. rewrite <- E. ring.
Qed.
Lemma D_scale k s a b : (k < n)%nat -> (forall r j, (r < n)%nat -> (j < n)%nat -> r <> k -> b r j = a r j) -> (forall j, (j < n)%nat -> b k j = s * a k j) -> D b = s * D a.
Proof.
  intros Hk Ho Hs. destruct HD as (_ & L & _). rewrite (L k (setrow a k (fun _ => 0)) a b s).
  - rewrite (D_zero_row k); [ring|exact Hk|]. intros j Hj. unfold setrow. rewrite Nat.eqb_refl. reflexivity.
  - exact Hk.
  - intros r j Hr Hj Hrk. unfold setrow. destruct (Nat.eqb_spec r k); [lia|]. split; [apply Ho; assumption|reflexivity].
  - intros j Hj. unfold setrow. rewrite Nat.eqb_refl, Hs by exact Hj. ring.
Qed.
Lemma D_addrow i p s a b : i <> p -> (i < n)%nat -> (p < n)%nat ->
  (forall r j, (r < n)%nat -> (j < n)%nat -> b r j = if (r =? p)%nat then a p j - s * a i j else a r j) -> D b = D a.
Proof.
  intros Hip Hi Hp Hb. destruct HD as (_ & L & Al). rewrite (L p a (setrow a p (a i)) b (- s)).
  - rewrite (Al i p (setrow a p (a i))); [ring|exact Hi|exact Hp|exact Hip|]. intros j Hj. unfold setrow. destruct (Nat.eqb_spec i p); [lia|]. rewrite Nat.eqb_refl. reflexivity.
  - exact Hp.
  - intros r j Hr Hj Hrp. rewrite Hb by assumption. unfold setrow. destruct (Nat.eqb_spec r p); [lia|]. auto.
  - intros j Hj. rewrite Hb by lia. unfold setrow. rewrite Nat.eqb_refl. ring.
Qed.
(** a swap is three additions and a sign *)
Lemma D_swap i p a : i <> p -> (i < n)%nat -> (p < n)%nat -> D (fun r c => a (swp i p r) c) = - D a.
Proof.
  intros Hip Hi Hp.
  set (b := fun r c => if (r =? p)%nat then a p c - a i c else a r c).
  set (b2 := fun r c => if (r =? i)%nat then b i c + b p c else b r c).
  set (b3 := fun r c => if (r =? p)%nat then b2 p c - b2 i c else b2 r c).
  assert (E1 : D b = D a).
  { apply (D_addrow i p 1); [exact Hip|exact Hi|exact Hp|]. intros r j _ _. unfold b. destruct (r =? p)%nat; [ring|reflexivity]. }
  assert (E2 : D b2 = D b).
  { apply (D_addrow p i (- (1))); [auto|exact Hp|exact Hi|]. intros r j _ _. unfold b2. destruct (r =? i)%nat; [ring|reflexivity]. }
  assert (E3 : D b3 = D b2).
  { apply (D_addrow i p 1); [exact Hip|exact Hi|exact Hp|]. intros r j _ _. unfold b3. destruct (r =? p)%nat; [ring|reflexivity]. }
  assert (E4 : D (fun r c => a (swp i p r) c) = - (1) * D b3).
  { apply (D_scale p); [exact Hp| |].
    - intros r j Hr Hj Hrp. unfold b3, b2, b, swp. destruct (Nat.eqb_spec r p), (Nat.eqb_spec r i), (Nat.eqb_spec i p); try lia; subst; rewrite ?Nat.eqb_refl; first [ring|reflexivity].
    - intros j Hj. unfold b3, b2, b, swp. rewrite !Nat.eqb_refl. destruct (Nat.eqb_spec p i), (Nat.eqb_spec i p); try lia. ring. }
  rewrite E4, E3, E2, E1. ring.
Qed.
End U.

(** two alternating functions that agree up to a factor on the identity agree up to it everywhere *)
Section V.
Variables (n : nat) (D : (nat -> nat -> F) -> F).
Hypothesis HD : alternating n D.
Let d := det (F:=F) n.
Let Hd : alternating n d := det_alternating n.
Lemma det_delta k : det k (delta (F:=F)) = 1.
Proof.
  induction k as [|k IH]; [reflexivity|]. rewrite det_first_col.
  - rewrite (det_ext k _ delta); [rewrite IH; unfold delta; cbn; ring|]. intros r c _ _. reflexivity.
  - intros r Hr. unfold delta. destruct (Nat.eqb_spec r 0); [lia|reflexivity].
Qed.
Lemma perm_case k : forall col a, (k <= n)%nat -> (forall j, (j < n - k)%nat -> col j = j) -> (forall j, (j < n)%nat -> (col j < n)%nat) ->
  (forall i j, (i < n)%nat -> (j < n)%nat -> col i = col j -> i = j) ->
  (forall r c, (r < n)%nat -> (c < n)%nat -> a r c = if (c =? col r)%nat then 1 else 0) -> D a = d a * D delta.
Proof.
  induction k as [|k IH]; intros col a Hk Hid Hlt Hinj Ha.
  - rewrite (D_ext n D HD a delta), (D_ext n d Hd a delta).
    + unfold d. rewrite det_delta. ring.
    + intros r c Hr Hc. rewrite Ha by assumption. rewrite Hid by lia. unfold delta. rewrite Nat.eqb_sym. reflexivity.
    + intros r c Hr Hc. rewrite Ha by assumption. rewrite Hid by lia. unfold delta. rewrite Nat.eqb_sym. reflexivity.
  - set (j0 := (n - S k)%nat). assert (Su : bSurjective n col).
    { apply bInjective_bSurjective; [intros x Hx; apply Hlt; exact Hx|]. intros x y Hx Hy. apply Hinj; assumption. }
    destruct (Su j0) as (p & Hp & Ep); [unfold j0; lia|]. destruct (Nat.eq_dec p j0) as [->|Hpj].
    + apply (IH col a); [lia| |exact Hlt|exact Hinj|exact Ha]. intros j Hj. destruct (Nat.eq_dec j j0) as [->|]; [exact Ep|]. apply Hid. unfold j0 in *; lia.
    + assert (Hj0 : (j0 < n)%nat) by (unfold j0; lia).
      assert (E : D (fun r c => a (swp j0 p r) c) = d (fun r c => a (swp j0 p r) c) * D delta).
      { apply (IH (fun r => col (swp j0 p r))).
        - lia.
        - intros j Hj. destruct (Nat.eq_dec j j0) as [->|].
          + unfold swp. rewrite Nat.eqb_refl. exact Ep.
          + assert (Hjl : (j < j0)%nat) by (unfold j0 in *; lia). unfold swp. destruct (Nat.eqb_spec j j0); [lia|]. destruct (Nat.eqb_spec j p) as [->|]; [|apply Hid; unfold j0 in *; lia].
            exfalso. rewrite Hid in Ep by (unfold j0 in *; lia). lia.
        - intros j Hj. apply Hlt. apply swp_lt; assumption.
        - intros i j Hi Hj E. apply Hinj in E; [|apply swp_lt; assumption..]. rewrite <- (swp_inv j0 p i), E. apply swp_inv.
        - intros r c Hr Hc. apply Ha; [apply swp_lt; assumption|exact Hc]. }
      rewrite (D_swap n D HD), (D_swap n d Hd) in E by (assumption || lia || congruence). transitivity (- - D a); [ring|]. rewrite E. ring.
Qed.
Lemma clear_col k c a : (k < n)%nat -> (c < n)%nat -> a k c = 1 ->
  forall m, (m <= n)%nat -> exists b, D b = D a /\ d b = d a /\
    forall r j, (r < n)%nat -> (j < n)%nat -> b r j = if (r <? m)%nat && negb (r =? k)%nat then a r j - a r c * a k j else a r j.
Proof.
  intros Hk Hc H1. induction m as [|m IH]; intros Hm.
  - exists a. split; [reflexivity|]. split; [reflexivity|]. reflexivity.
  - destruct IH as (b & E1 & E2 & Hb); [lia|]. destruct (Nat.eq_dec m k) as [->|Hmk].
    + exists b. split; [exact E1|]. split; [exact E2|]. intros r j Hr Hj. rewrite Hb by assumption.
      destruct (Nat.ltb_spec r k), (Nat.ltb_spec r (S k)), (Nat.eqb_spec r k); try lia; reflexivity.
    + set (b' := fun r j => if (r =? m)%nat then b m j - a m c * b k j else b r j). exists b'. split; [|split].
      * rewrite <- E1. apply (D_addrow n D HD k m (a m c)); [lia|lia|lia|]. intros r j _ _. reflexivity.
      * rewrite <- E2. apply (D_addrow n d Hd k m (a m c)); [lia|lia|lia|]. intros r j _ _. reflexivity.
      * intros r j Hr Hj. unfold b'. rewrite !Hb by lia.
        destruct (Nat.eqb_spec r m), (Nat.ltb_spec r m), (Nat.ltb_spec r (S m)), (Nat.eqb_spec r k), (Nat.ltb_spec m m), (Nat.ltb_spec k m), (Nat.eqb_spec m k), (Nat.eqb_spec k k); try lia; cbn [andb negb]; subst; reflexivity.
Qed.
Lemma row_case (a : nat -> nat -> F) k m : (forall j, (j < m)%nat -> a k j = 0) \/ exists c, (c < m)%nat /\ a k c <> 0.
Proof.
  induction m as [|m IH]; [left; lia|]. destruct IH as [IH|(c & Hc & H)]; [|right; exists c; split; [lia|exact H]].
  destruct (eq_dec (a k m) 0) as [E|E]; [left|right; exists m; split; [lia|exact E]]. intros j Hj. destruct (Nat.eq_dec j m) as [->|]; [exact E|apply IH; lia].
Qed.
Lemma elim_case q : forall k col a, (k + q = n)%nat -> (forall j, (j < k)%nat -> (col j < n)%nat) ->
  (forall r j, (r < n)%nat -> (j < k)%nat -> a r (col j) = delta r j) -> D a = d a * D delta.
Proof.
  induction q as [|q IH]; intros k col a Hk Hlt Ha.
  - assert (k = n) by lia. subst k.
    assert (Hinj : forall i j, (i < n)%nat -> (j < n)%nat -> col i = col j -> i = j).
    { intros i j Hi Hj E. pose proof (Ha i i Hi Hi) as E1. rewrite E in E1. rewrite Ha in E1 by assumption. unfold delta in E1. rewrite Nat.eqb_refl in E1.
      destruct (Nat.eqb_spec i j); [assumption|]. symmetry in E1. destruct (one_neq_zero E1). }
    apply (perm_case n col a); [lia|lia|exact Hlt|exact Hinj|]. intros r c Hr Hc.
    assert (Su : bSurjective n col) by (apply bInjective_bSurjective; [intros x Hx; apply Hlt; exact Hx|intros x y Hx Hy; apply Hinj; assumption]).
    destruct (Su c Hc) as (p & Hp & <-). rewrite Ha by assumption. unfold delta.
    destruct (Nat.eqb_spec r p) as [e|N], (Nat.eqb_spec (col p) (col r)) as [E|N']; try reflexivity; [subst r; congruence|]. apply Hinj in E; [lia|assumption..].
  - destruct (row_case a k n) as [Hz|(c & Hc & Hnz)].
    + rewrite (D_zero_row n D HD k a), (D_zero_row n d Hd k a) by (first [lia|exact Hz]). ring.
    + set (a1 := fun r j => if (r =? k)%nat then 1 / a k c * a k j else a r j).
      assert (S1 : D a1 = 1 / a k c * D a).
      { apply (D_scale n D HD k); [lia| |]; unfold a1.
        - intros r j Hr Hj Hrk. destruct (Nat.eqb_spec r k); [lia|reflexivity].
        - intros j Hj. rewrite Nat.eqb_refl. reflexivity. }
      assert (S2 : d a1 = 1 / a k c * d a).
      { apply (D_scale n d Hd k); [lia| |]; unfold a1.
        - intros r j Hr Hj Hrk. destruct (Nat.eqb_spec r k); [lia|reflexivity].
        - intros j Hj. rewrite Nat.eqb_refl. reflexivity. }
      destruct (clear_col k c a1 ltac:(lia) Hc) with (m := n) as (b & B1 & B2 & Hb).
      { unfold a1. rewrite Nat.eqb_refl. field. exact Hnz. }
      { lia. }
      assert (E : D b = d b * D delta).
      { apply (IH (S k) (fun j => if (j =? k)%nat then c else col j)); [lia| |].
        - intros j Hj. destruct (Nat.eqb_spec j k); [exact Hc|apply Hlt; lia].
        - intros r j Hr Hj. destruct (Nat.eqb_spec j k) as [->|Hjk].
          + rewrite Hb by assumption. unfold a1, delta. rewrite Nat.eqb_refl. destruct (Nat.ltb_spec r n), (Nat.eqb_spec r k); try lia; cbn [andb negb]; field; exact Hnz.
          + rewrite Hb by (assumption || (apply Hlt; lia)). unfold a1. rewrite Nat.eqb_refl.
            assert (Zk : a k (col j) = 0) by (rewrite Ha by lia; unfold delta; destruct (Nat.eqb_spec k j); [lia|reflexivity]).
            rewrite !Zk. destruct (Nat.ltb_spec r n), (Nat.eqb_spec r k) as [->|]; try lia; cbn [andb negb].
            * unfold delta. destruct (Nat.eqb_spec k j); [lia|]. ring.
            * rewrite Ha by lia. field. exact Hnz. }
      rewrite B1, B2, S1, S2 in E. apply (mul_cancel (1 / a k c)).
      * intros Z. apply one_neq_zero. transitivity (1 / a k c * a k c); [field; exact Hnz|]. rewrite Z. ring.
      * rewrite E. ring.
Qed.
Lemma det_unique a : D a = d a * D delta.
Proof. apply (elim_case n 0 (fun j => j)); [lia|intros; lia|intros; lia]. Qed.
End V.

Lemma det_mul n (a b : nat -> nat -> F) : det n (fun r c => sum n (fun k => a r k * b k c)) = det n a * det n b.
Proof.
  rewrite (det_unique n (fun a => det n (fun r c => sum n (fun k => a r k * b k c)))).
  - f_equal. apply det_ext. intros r c Hr Hc. rewrite (sum_one n r); [unfold delta; rewrite Nat.eqb_refl; ring|exact Hr|].
    intros i Hi Hir. unfold delta. destruct (Nat.eqb_spec r i); [lia|ring].
  - split; [|split].
    + intros x y H. apply det_ext. intros r c Hr Hc. apply sum_ext. intros k Hk. rewrite H by assumption. reflexivity.
    + intros k x y z s Hk Ho Hs. apply (det_lin n k); [exact Hk| |].
      * intros r j Hr Hj Hrk. split; apply sum_ext; intros i Hi; destruct (Ho r i Hr Hi Hrk) as [E1 E2]; rewrite ?E1, ?E2; reflexivity.
      * intros j Hj. rewrite <- sum_mul_l, <- sum_add. apply sum_ext. intros i Hi. rewrite Hs by exact Hi. ring.
    + intros i p x Hi Hp Hip He. apply (det_eq_rows n i p); [exact Hip|exact Hi|exact Hp|]. intros j Hj. apply sum_ext. intros k Hk. rewrite He by exact Hk. reflexivity.
Qed.
End L.
