(** * Words for the rounding errors of Gaussian elimination. *)
From Coq Require Import Reals Arith.
From Verif Require Import RSum.
Local Open Scope R_scope.

(** p is a permutation of 0..n-1, with inverse q *)
Definition permutation (n : nat) (p q : nat -> nat) : Prop :=
  forall r, (r < n)%nat -> (p r < n)%nat /\ (q r < n)%nat /\ p (q r) = r /\ q (p r) = r.
Definition lower_triangular (n : nat) (L : nat -> nat -> R) : Prop := forall r k, (r < k < n)%nat -> L r k = 0.
Definition unit_upper_triangular (n : nat) (U : nat -> nat -> R) : Prop := forall k j, (j <= k < n)%nat -> U k j = if (k =? j)%nat then 1 else 0.
(** the matrix |L| |U| *)
Definition abs_lu (n : nat) (L U : nat -> nat -> R) (i j : nat) : R := Sum n (fun k => Rabs (L i k * U k j)).
(** Wilkinson's bound on the growth of the elements in n steps with partial pivoting, with the roundings *)
Definition growth (u : R) (n : nat) : R := (1 + u) ^ 2 * (2 * (1 + u) ^ 4) ^ n.
(** X A = 1 *)
Definition left_inverse (n : nat) (X a : nat -> nat -> R) : Prop := forall i k, (i < n)%nat -> (k < n)%nat -> Sum n (fun j => X i j * a j k) = if (i =? k)%nat then 1 else 0.
