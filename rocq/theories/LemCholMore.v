(** * Lemmas: determinant, uniqueness and rank of the LDL^T decomposition. *)
From Coq Require Import Arith Bool List Lia.
From Verif Require Import Base Alg Mat SpecMat LemMat SpecLin LemLin ModelOps LemOps ModelObjects LemObjects LemHelpers LemGauss LemDet LemDetMul LemDetMore SpecForm LemForm ModelChol LemChol LemCholSolve.

Section L.
Context {F : Type} {Fo : Ops F} {Fl : Laws F}.
Add Field Ff : law_field.
Open Scope F_scope.

Lemma det_ldl n (a l : nat -> nat -> F) (d : nat -> F) : unit_lower n l ->
  (forall r c, (r < n)%nat -> (c < n)%nat -> a r c = sum n (fun k => l r k * d k * l c k)) -> det n a = prod n d.
Proof.
  intros Hl H. rewrite (det_ext n a (fun r c => sum n (fun k => l r k * (d k * l c k)))).
  2:{ intros r c Hr Hc. rewrite H by assumption. apply sum_ext. intros; ring. }
  rewrite (det_mul n l (fun k c => d k * l c k)).
  rewrite (det_ext n l (fun r c => if (r <=? c)%nat then l r c else l r c)) by (intros r c _ _; destruct (r <=? c)%nat; reflexivity).
  rewrite (det_ext n (fun r c => if (r <=? c)%nat then l r c else l r c) (fun r c => if (n <=? c)%nat then 0 else if (r <=? c)%nat then delta r c else l r c)).
  2:{ intros r c Hr Hc. destruct (Nat.leb_spec n c); [lia|]. destruct (Nat.leb_spec r c); [|reflexivity]. rewrite Hl by assumption. reflexivity. }
  rewrite det_lower.
  2:{ intros r c Hc Hr. destruct (Nat.leb_spec n c); [lia|]. destruct (Nat.leb_spec r c); [|lia]. unfold delta. destruct (Nat.eqb_spec r c); [lia|reflexivity]. }
  rewrite (prod_ext n _ (fun _ => 1)), prod_one.
  2:{ intros i Hi. destruct (Nat.leb_spec n i); [lia|]. rewrite Nat.leb_refl. unfold delta. rewrite Nat.eqb_refl. reflexivity. }
  rewrite det_upper.
  - rewrite (prod_ext n _ d); [ring|]. intros i Hi. rewrite Hl by lia. rewrite Nat.eqb_refl. ring.
  - intros r c Hr Hc. rewrite Hl by lia. destruct (Nat.eqb_spec c r); [lia|]. ring.
Qed.
Lemma ldl_nonsingular n (a l : nat -> nat -> F) (d : nat -> F) : unit_lower n l ->
  (forall r c, (r < n)%nat -> (c < n)%nat -> a r c = sum n (fun k => l r k * d k * l c k)) ->
  (forall k, (k < n)%nat -> d k <> 0) -> nonsingular n a.
Proof. intros Hl H Hd. apply det_nonsingular. rewrite (det_ldl n a l d Hl H). apply prod_neq. exact Hd. Qed.

(** the equations of the first [m] columns determine them *)
Definition ldl_eqs (n m : nat) (a : nat -> nat -> F) (C : mat F) : Prop :=
  (forall c, (c < m)%nat -> mel C c c <> 0) /\
  (forall r c, (c < m)%nat -> (c < r < n)%nat -> mel C c r = mel C c c * mel C r c) /\
  (forall r c, (c < m)%nat -> (c <= r < n)%nat -> a r c = (if (r =? c)%nat then mel C c c else mel C c r) + sum c (fun k => mel C k c * mel C r k)).
Lemma inv_eqs n a m C : chol_inv n a m C -> ldl_eqs n m a C.
Proof. intros (_ & _ & H1 & H2 & H3 & _). split; [exact H1|]. split; [exact H2|exact H3]. Qed.
Lemma stop_eqs n a m C : chol_stop n a m C -> ldl_eqs n m a C.
Proof. intros (_ & _ & H1 & H2 & H3 & _). split; [exact H1|]. split; [exact H2|exact H3]. Qed.
Lemma ldl_eqs_sum n m a b (C D : mat F) c r : ldl_eqs n m a C -> ldl_eqs n m b D -> (c <= m)%nat -> (c <= r < n)%nat ->
  (forall k, (k < c)%nat -> mel C k k = mel D k k /\ forall i, (k < i < n)%nat -> mel C i k = mel D i k) ->
  sum c (fun k => mel C k c * mel C r k) = sum c (fun k => mel D k c * mel D r k).
Proof.
  intros (_ & C2 & _) (_ & D2 & _) Hc Hr H. apply sum_ext. intros k Hk. rewrite C2, D2 by lia. destruct (H k Hk) as [-> E]. rewrite !E by lia. reflexivity.
Qed.
Lemma ldl_eqs_unique n m m' a b (C D : mat F) : (forall r c, (c <= r < n)%nat -> a r c = b r c) -> ldl_eqs n m a C -> ldl_eqs n m' b D -> (m' <= n)%nat -> (m <= m')%nat ->
  forall c, (c < m)%nat -> mel C c c = mel D c c /\ forall r, (c < r < n)%nat -> mel C r c = mel D r c.
Proof.
  intros Hab HC HD Hn Hm c. induction c as [c IH] using lt_wf_ind. intros Hc.
  assert (HD' : ldl_eqs n m b D). { destruct HD as (D1 & D2 & D3). split; [|split]; intros; [apply D1|apply D2|apply D3]; lia. }
  assert (S : forall r, (c <= r < n)%nat -> sum c (fun k => mel C k c * mel C r k) = sum c (fun k => mel D k c * mel D r k)).
  { intros r Hr. apply (ldl_eqs_sum n m a b); try assumption; [lia|]. intros k Hk. apply IH; lia. }
  destruct HC as (C1 & C2 & C3). destruct HD' as (D1 & D2 & D3).
  assert (E : mel C c c = mel D c c).
  { pose proof (C3 c c Hc ltac:(lia)) as X. pose proof (D3 c c Hc ltac:(lia)) as Y. rewrite Nat.eqb_refl in X, Y. rewrite Hab in X by lia. rewrite S in X by lia. rewrite X in Y.
    apply sub_zero. transitivity (mel C c c + sum c (fun k => mel D k c * mel D c k) - (mel D c c + sum c (fun k => mel D k c * mel D c k))); [ring|]. rewrite Y. ring. }
  split; [exact E|]. intros r Hr. pose proof (C3 r c Hc ltac:(lia)) as X. pose proof (D3 r c Hc ltac:(lia)) as Y. destruct (Nat.eqb_spec r c); [lia|].
  rewrite Hab in X by lia. rewrite S in X by lia. rewrite C2 in X by lia. rewrite D2 in Y by lia. rewrite X, E in Y.
  apply (mul_cancel (mel D c c)); [apply D1; exact Hc|]. apply sub_zero.
  transitivity (mel D c c * mel C r c + sum c (fun k => mel D k c * mel D r k) - (mel D c c * mel D r c + sum c (fun k => mel D k c * mel D r k))); [ring|]. rewrite Y. ring.
Qed.
(** a decomposition cannot stop where another one with the same lower triangle went on *)
Lemma stop_not_before n m a b k (C D : mat F) : (forall r c, (c <= r < n)%nat -> a r c = b r c) -> (k < n)%nat -> (m <= n)%nat -> chol_stop n a k C -> ldl_eqs n m b D -> (m <= k)%nat.
Proof.
  intros Hab Hk Hm HC HD. destruct (le_lt_dec m k) as [|Hlt]; [assumption|exfalso].
  pose proof (ldl_eqs_unique n k m a b C D Hab (stop_eqs _ _ _ _ HC) HD Hm ltac:(lia)) as U.
  assert (HD' : ldl_eqs n k b D). { destruct HD as (D1 & D2 & D3). split; [|split]; intros; [apply D1|apply D2|apply D3]; lia. }
  pose proof (ldl_eqs_sum n k a b C D k k (stop_eqs _ _ _ _ HC) HD' ltac:(lia) ltac:(lia) U) as S.
  destruct HC as (_ & _ & _ & _ & _ & _ & Z). destruct HD as (D1 & _ & D3). pose proof (D3 k k Hlt ltac:(lia)) as Y. rewrite Nat.eqb_refl in Y.
  apply (D1 k Hlt). rewrite <- Hab in Y by lia. rewrite Z, S in Y.
  transitivity (mel D k k + sum k (fun k0 => mel D k0 k * mel D k k0) - sum k (fun k0 => mel D k0 k * mel D k k0)); [ring|]. rewrite <- Y. ring.
Qed.
End L.
