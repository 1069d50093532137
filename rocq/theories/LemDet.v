(** * The determinant is alternating and multilinear in the rows. *)
From Coq Require Import Arith Bool List Lia Field.
From Verif Require Import Base Alg SpecLin LemLin.

Section L.
Context {F : Type} {Fo : Ops F} {Fl : Laws F}.
Add Field Ff : law_field.
Open Scope F_scope.

Lemma det_S n (a : nat -> nat -> F) : det (S n) a = sum (S n) (fun i => sgn i * a i 0%nat * det n (fun r c => a (skip i r) (S c))).
Proof. reflexivity. Qed.
Lemma skip_lt i r n : (r < n)%nat -> (skip i r < S n)%nat.
Proof. unfold skip. destruct (Nat.ltb_spec r i); lia. Qed.
Lemma det_ext n : forall (a b : nat -> nat -> F), (forall r c, (r < n)%nat -> (c < n)%nat -> a r c = b r c) -> det n a = det n b.
Proof.
  induction n as [|n IH]; intros a b H; [reflexivity|]. rewrite !det_S. apply sum_ext. intros i Hi. rewrite H by lia. f_equal. apply IH.
  intros r c Hr Hc. apply H; [apply skip_lt; exact Hr|lia].
Qed.
Lemma det_lin n : forall k (a b c : nat -> nat -> F) s, (k < n)%nat ->
  (forall r j, (r < n)%nat -> (j < n)%nat -> r <> k -> c r j = a r j /\ b r j = a r j) ->
  (forall j, (j < n)%nat -> c k j = a k j + s * b k j) -> det n c = det n a + s * det n b.
Proof.
  induction n as [|n IH]; intros k a b c s Hk Ho Hs; [lia|]. rewrite !det_S, <- sum_mul_l, <- sum_add. apply sum_ext. intros i Hi.
  destruct (Nat.eq_dec i k) as [->|Hik].
  - rewrite Hs by lia.
    rewrite (det_ext n (fun r j => c (skip k r) (S j)) (fun r j => a (skip k r) (S j))).
    2:{ intros r j Hr Hj. apply Ho; [apply skip_lt; exact Hr|lia|]. unfold skip. destruct (Nat.ltb_spec r k); lia. }
    rewrite (det_ext n (fun r j => b (skip k r) (S j)) (fun r j => a (skip k r) (S j))).
    2:{ intros r j Hr Hj. apply Ho; [apply skip_lt; exact Hr|lia|]. unfold skip. destruct (Nat.ltb_spec r k); lia. }
    ring.
  - destruct (Ho i 0%nat Hi ltac:(lia) Hik) as [-> ->].
    set (k' := if (k <? i)%nat then k else (k - 1)%nat).
    rewrite (IH k' (fun r j => a (skip i r) (S j)) (fun r j => b (skip i r) (S j)) (fun r j => c (skip i r) (S j)) s).
    + ring.
    + unfold k'. destruct (Nat.ltb_spec k i); lia.
    + intros r j Hr Hj Hrk. apply Ho; [apply skip_lt; exact Hr|lia|]. unfold k' in Hrk. unfold skip. destruct (Nat.ltb_spec k i), (Nat.ltb_spec r i); lia.
    + intros j Hj. assert (E : skip i k' = k) by (unfold k', skip; destruct (Nat.ltb_spec k i); [destruct (Nat.ltb_spec k i)|destruct (Nat.ltb_spec (k-1) i)]; lia).
      rewrite E. apply Hs. lia.
Qed.
Lemma sgn_S i : sgn (S i) = - sgn i :> F.
Proof. unfold sgn. rewrite Nat.even_succ, <- Nat.negb_even. destruct (Nat.even i); cbn [negb]; [reflexivity|ring]. Qed.
Lemma sum_two n k (f : nat -> F) : (S k < n)%nat -> (forall i, (i < n)%nat -> i <> k -> i <> S k -> f i = 0) -> sum n f = f k + f (S k).
Proof.
  intros Hk H. replace n with (k + (2 + (n - k - 2)))%nat by lia. rewrite sum_split. rewrite (sum_zero k) by (intros i Hi; apply H; lia).
  rewrite sum_split. rewrite (sum_zero (n - k - 2)) by (intros i Hi; apply H; lia). cbn [sum].
  rewrite Nat.add_0_r, Nat.add_1_r. ring.
Qed.
Lemma det_adj_eq n : forall k (a : nat -> nat -> F), (S k < n)%nat -> (forall j, (j < n)%nat -> a k j = a (S k) j) -> det n a = 0.
Proof.
  induction n as [|n IH]; intros k a Hk He; [lia|]. rewrite det_S. rewrite (sum_two _ k) by (first [exact Hk|
    intros i Hi H1 H2; rewrite (IH (if (k <? i)%nat then k else (k - 1)%nat)); [ring|destruct (Nat.ltb_spec k i); lia|
      intros j Hj; unfold skip; destruct (Nat.ltb_spec k i);
       [destruct (Nat.ltb_spec k i), (Nat.ltb_spec (S k) i); try lia; apply He; lia
       |destruct (Nat.ltb_spec (k - 1) i), (Nat.ltb_spec (S (k - 1)) i); try lia; replace (S (k - 1)) with k by lia; apply He; lia]]]).
  rewrite sgn_S, (He 0%nat) by lia.
  rewrite (det_ext n (fun r c => a (skip k r) (S c)) (fun r c => a (skip (S k) r) (S c))); [ring|].
  intros r c Hr Hc. unfold skip. destruct (Nat.ltb_spec r k), (Nat.ltb_spec r (S k)); try lia; try reflexivity.
  replace r with k by lia. symmetry. apply He. lia.
Qed.
Definition setrow (a : nat -> nat -> F) (k : nat) (u : nat -> F) : nat -> nat -> F := fun r c => if (r =? k)%nat then u c else a r c.
Lemma det_swap_adj n k (a : nat -> nat -> F) : (S k < n)%nat -> det n (fun r c => a (swp k (S k) r) c) = - det n a.
Proof.
  intros Hk. set (w := fun j => a k j + 1 * a (S k) j).
  assert (E1 : det n (setrow (setrow a k w) (S k) w) = det n (setrow (setrow a k w) (S k) (a k)) + 1 * det n (setrow (setrow a k w) (S k) (a (S k)))).
  { apply (det_lin n (S k)); [lia| |].
    - intros r j Hr Hj Hrk. unfold setrow. destruct (Nat.eqb_spec r (S k)); [lia|]. auto.
    - intros j Hj. unfold setrow. rewrite Nat.eqb_refl. reflexivity. }
  assert (E2 : det n (setrow (setrow a k w) (S k) (a k)) = det n (setrow (setrow a k (a k)) (S k) (a k)) + 1 * det n (setrow (setrow a k (a (S k))) (S k) (a k))).
  { apply (det_lin n k); [lia| |].
    - intros r j Hr Hj Hrk. unfold setrow. destruct (Nat.eqb_spec r k); [lia|]. auto.
    - intros j Hj. unfold setrow. destruct (Nat.eqb_spec k (S k)); [lia|]. rewrite Nat.eqb_refl. reflexivity. }
  assert (E3 : det n (setrow (setrow a k w) (S k) (a (S k))) = det n (setrow (setrow a k (a k)) (S k) (a (S k))) + 1 * det n (setrow (setrow a k (a (S k))) (S k) (a (S k)))).
  { apply (det_lin n k); [lia| |].
    - intros r j Hr Hj Hrk. unfold setrow. destruct (Nat.eqb_spec r k); [lia|]. auto.
    - intros j Hj. unfold setrow. destruct (Nat.eqb_spec k (S k)); [lia|]. rewrite Nat.eqb_refl. reflexivity. }
  assert (Z : forall u, det n (setrow (setrow a k u) (S k) u) = 0).
  { intros u. apply (det_adj_eq n k); [exact Hk|]. intros j Hj. unfold setrow. destruct (Nat.eqb_spec k (S k)); [lia|]. rewrite !Nat.eqb_refl. reflexivity. }
  rewrite Z in E1. rewrite E2, E3, !Z in E1.
  rewrite (det_ext n (setrow (setrow a k (a k)) (S k) (a (S k))) a) in E1.
  2:{ intros r c _ _. unfold setrow. destruct (Nat.eqb_spec r (S k)) as [->|]; [reflexivity|]. destruct (Nat.eqb_spec r k) as [->|]; reflexivity. }
  rewrite (det_ext n (setrow (setrow a k (a (S k))) (S k) (a k)) (fun r c => a (swp k (S k) r) c)) in E1.
  2:{ intros r c _ _. unfold setrow, swp. destruct (Nat.eqb_spec r (S k)), (Nat.eqb_spec r k); try lia; reflexivity. }
  set (x := det n (fun r c => a (swp k (S k) r) c)) in *. transitivity (0 - det n a); [rewrite E1|]; ring.
Qed.
Lemma det_swap n i p (a : nat -> nat -> F) : (i < p)%nat -> (p < n)%nat -> det n (fun r c => a (swp i p r) c) = - det n a.
Proof.
  intros Hip Hp. remember (p - i - 1)%nat as d eqn:Ed. revert a p Hip Hp Ed. induction d as [|d IH]; intros a p Hip Hp Ed.
  - replace p with (S i) by lia. apply det_swap_adj. lia.
  - set (k := (p - 1)%nat). pose proof (det_swap_adj n k (fun r c => a (swp i k (swp k (S k) r)) c) ltac:(lia)) as E1.
    cbv beta in E1. rewrite (det_ext n _ (fun r c => a (swp i k r) c)) in E1 by (intros; rewrite swp_inv; reflexivity).
    pose proof (IH (fun r c => a (swp k (S k) r) c) k ltac:(lia) ltac:(lia) ltac:(lia)) as E2. cbv beta in E2. pose proof (det_swap_adj n k a ltac:(lia)) as E3.
    rewrite (det_ext n (fun r c => a (swp i p r) c) (fun r c => a (swp k (S k) (swp i k (swp k (S k) r))) c)).
    + pose proof (det_swap_adj n k (fun r c => a (swp k (S k) (swp i k r)) c) ltac:(lia)) as E4. cbv beta in E4. rewrite E4, E2, E3. ring.
    + intros r c _ _. f_equal. unfold swp, k. replace (S (p - 1)) with p by lia.
      repeat (match goal with |- context [(?x =? ?y)%nat] => lazymatch x with context [if _ then _ else _] => fail | _ => destruct (Nat.eqb_spec x y) end end; try lia).
Qed.
Lemma det_swap_ne n i p (a : nat -> nat -> F) : i <> p -> (i < n)%nat -> (p < n)%nat -> det n (fun r c => a (swp i p r) c) = - det n a.
Proof.
  intros H Hi Hp. destruct (lt_dec i p); [apply det_swap; lia|]. rewrite <- (det_swap n p i) by lia. apply det_ext. intros r c _ _. f_equal.
  unfold swp. destruct (Nat.eqb_spec r i), (Nat.eqb_spec r p); lia.
Qed.
Lemma opp_self (x : F) : x = - x -> x = 0.
Proof.
  intros H. assert (E : (1 + 1) * x = 0) by (transitivity (x + x); [ring|]; rewrite H at 2; ring). apply mul_zero in E. destruct E as [E|E]; [|exact E].
  exfalso. apply (law_irr (0:F)). rewrite <- E at 2. apply add_pos_nonneg; [apply zero_lt_one|apply lt_le, zero_lt_one].
Qed.
Lemma det_eq_rows n i p (a : nat -> nat -> F) : i <> p -> (i < n)%nat -> (p < n)%nat -> (forall j, (j < n)%nat -> a i j = a p j) -> det n a = 0.
Proof.
  intros Hip Hi Hp He. apply opp_self. rewrite <- (det_swap_ne n i p) by assumption. apply det_ext. intros r c Hr Hc. unfold swp.
  destruct (Nat.eqb_spec r i) as [->|]; [apply He; exact Hc|]. destruct (Nat.eqb_spec r p) as [->|]; [symmetry; apply He; exact Hc|reflexivity].
Qed.
(** subtracting a multiple of one row from another *)
Lemma det_addrow n i p s (a b : nat -> nat -> F) : i <> p -> (i < n)%nat -> (p < n)%nat ->
  (forall r j, (r < n)%nat -> (j < n)%nat -> b r j = if (r =? p)%nat then a p j - s * a i j else a r j) -> det n b = det n a.
Proof.
  intros Hip Hi Hp Hb. rewrite (det_lin n p a (setrow a p (a i)) b (- s)).
  - rewrite (det_eq_rows n i p (setrow a p (a i))); [ring|exact Hip|exact Hi|exact Hp|]. intros j Hj. unfold setrow. destruct (Nat.eqb_spec i p); [lia|]. rewrite Nat.eqb_refl. reflexivity.
  - exact Hp.
  - intros r j Hr Hj Hrp. rewrite Hb by assumption. unfold setrow. destruct (Nat.eqb_spec r p); [lia|]. auto.
  - intros j Hj. rewrite Hb by lia. unfold setrow. rewrite Nat.eqb_refl. ring.
Qed.
Lemma det_first_col n (a : nat -> nat -> F) : (forall r, (0 < r <= n)%nat -> a r 0%nat = 0) -> det (S n) a = a 0%nat 0%nat * det n (fun r c => a (S r) (S c)).
Proof.
  intros H. rewrite det_S. rewrite (sum_one (S n) 0) by (first [lia|intros i Hi Hn; rewrite H by lia; ring]).
  unfold sgn. cbn [Nat.even]. rewrite (det_ext n (fun r c => a (skip 0 r) (S c)) (fun r c => a (S r) (S c))) by reflexivity. ring.
Qed.
(** elimination of the first column *)
Lemma det_elim n (a : nat -> nat -> F) (f : nat -> F) : (forall r, (r < n)%nat -> a (S r) 0%nat = f r * a 0%nat 0%nat) ->
  det (S n) a = a 0%nat 0%nat * det n (fun r c => a (S r) (S c) - f r * a 0%nat (S c)).
Proof.
  intros H. set (b := fun k r c => if ((0 <? r)%nat && (r <=? k)%nat)%bool then a r c - f (r - 1)%nat * a 0%nat c else a r c).
  assert (G : forall k, (k <= n)%nat -> det (S n) (b k) = det (S n) a).
  { induction k as [|k IH]; intros Hk.
    - apply det_ext. intros r c _ _. unfold b. destruct (Nat.ltb_spec 0 r), (Nat.leb_spec r 0); try lia; reflexivity.
    - rewrite <- IH by lia. apply (det_addrow (S n) 0 (S k) (f k)); [lia..|]. intros r j Hr Hj. unfold b.
      destruct (Nat.eqb_spec r (S k)) as [->|].
      + destruct (Nat.ltb_spec 0 (S k)), (Nat.leb_spec (S k) (S k)), (Nat.leb_spec (S k) k), (Nat.ltb_spec 0 0); try lia. cbn [andb]. replace (S k - 1)%nat with k by lia. reflexivity.
      + destruct (Nat.ltb_spec 0 r), (Nat.leb_spec r (S k)), (Nat.leb_spec r k); try lia; reflexivity. }
  rewrite <- (G n) by lia. rewrite det_first_col.
  - unfold b at 1. cbn [Nat.ltb Nat.leb andb]. f_equal. apply det_ext. intros r c Hr Hc. unfold b.
    destruct (Nat.ltb_spec 0 (S r)), (Nat.leb_spec (S r) n); try lia. cbn [andb]. replace (S r - 1)%nat with r by lia. reflexivity.
  - intros r Hr. unfold b. destruct (Nat.ltb_spec 0 r), (Nat.leb_spec r n); try lia. cbn [andb].
    destruct r as [|r]; [lia|]. rewrite H by lia. replace (S r - 1)%nat with r by lia. ring.
Qed.
Lemma det_zero_col n (a : nat -> nat -> F) : (forall r, (r < S n)%nat -> a r 0%nat = 0) -> det (S n) a = 0.
Proof. intros H. rewrite det_S. apply sum_zero. intros i Hi. rewrite H by exact Hi. ring. Qed.
End L.
