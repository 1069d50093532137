(** * What is assumed of the rounding, and the size of accumulated errors. *)
From Coq Require Import Reals.
From Verif Require Import Mat RSum.
Local Open Scope R_scope.

(** The standard model of floating-point arithmetic: the relative error of a rounding is at most u, and a number that is representable is not changed. *)
Definition rounding (u : R) (rnd : R -> R) : Prop :=
  0 <= u < 1 /\ (forall x, Rabs (rnd x - x) <= u * Rabs x) /\ (forall x, rnd (rnd x) = rnd x).
(** relative error after k roundings, and the same for a backward error (the roundings of a division or of a solve are moved to the other side) *)
Definition fwd (u : R) (k : nat) : R := (1 + u) ^ k - 1.
Definition bwd (u : R) (k : nat) : R := / (1 - u) ^ k - 1.
(** the sum of the squares of the elements, exactly *)
Definition sumsq (v : vec R) : R := Sum (vlen v) (fun i => vat v i * vat v i).
(** the matrix |L| |D| |L|^T *)
Definition abs_ldl (n : nat) (L D : nat -> nat -> R) (i j : nat) : R := Sum n (fun k => Rabs (L i k * D k k * L j k)).
