(** * Specification vocabulary: square systems of linear equations. *)
From Coq Require Import Arith.
From Verif Require Import Base Alg.

Section S.
Context {F : Type} {Fo : Ops F}.
(** the n x n matrix [a] maps only the zero vector to zero *)
Definition nonsingular (n : nat) (a : nat -> nat -> F) : Prop :=
  forall x, (forall r, r < n -> sum n (fun c => fmul (a r c) (x c)) = f0) -> forall c, c < n -> x c = f0.
(** [x] solves [a x = b] *)
Definition solves (n : nat) (a : nat -> nat -> F) (x b : nat -> F) : Prop :=
  forall r, r < n -> sum n (fun c => fmul (a r c) (x c)) = b r.
End S.

(** The determinant, by Laplace expansion along the first column:
    det a = sum_i (-1)^i a(i,0) det(a without row i and column 0). *)
Definition sgn {F} {Fo : Ops F} (i : nat) : F := if Nat.even i then f1 else fopp f1.
Definition skip (i r : nat) : nat := if r <? i then r else S r.
Fixpoint det {F} {Fo : Ops F} (n : nat) (a : nat -> nat -> F) : F :=
  match n with
  | O => f1
  | S k => sum (S k) (fun i => fmul (fmul (sgn i) (a i O)) (det k (fun r c => a (skip i r) (S c))))
  end.

(** A function of the n rows of a matrix that is linear in each row and changes to zero when two rows are equal. *)
Definition alternating {F} {Fo : Ops F} (n : nat) (D : (nat -> nat -> F) -> F) : Prop :=
  (forall a b, (forall r c, r < n -> c < n -> a r c = b r c) -> D a = D b) /\
  (forall k a b c s, k < n -> (forall r j, r < n -> j < n -> r <> k -> c r j = a r j /\ b r j = a r j) ->
     (forall j, j < n -> c k j = fadd (a k j) (fmul s (b k j))) -> D c = fadd (D a) (fmul s (D b))) /\
  (forall i p a, i < n -> p < n -> i <> p -> (forall j, j < n -> a i j = a p j) -> D a = f0).
