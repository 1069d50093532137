(** * What an automatically differentiated number stands for. *)
From Coq Require Import Reals Arith.
From Verif Require Import Base Mat ModelLie ModelSE ModelFad.
Local Open Scope R_scope.

(** the parameters p with h added to number k *)
Definition bump (p : nat -> R) (k : nat) (h : R) (j : nat) : R := if (j =? k)%nat then p j + h else p j.
(** the k-th partial derivative of f at p is l *)
Definition partial (f : (nat -> R) -> R) (p : nat -> R) (k : nat) (l : R) : Prop := derivable_pt_lim (fun h => f (bump p k h)) 0 l.
(** x holds the value of the function f of D parameters at p, and asking it for its derivative number k gives the k-th partial derivative there *)
Definition jet (D : nat) (p : nat -> R) (f : (nat -> R) -> R) (x : fad) : Prop :=
  fval x = f p /\ forall k, (k < D)%nat -> exists l, fad_deriv D x k = Ok l /\ partial f p k l.
(** the same for every element of a vector of n and of an n x m matrix *)
Definition vjet (D : nat) (p : nat -> R) (n : nat) (f : nat -> (nat -> R) -> R) (v : vec fad) : Prop :=
  vlen v = n /\ forall i, (i < n)%nat -> jet D p (f i) (vat v i).
Definition mjet (D : nat) (p : nat -> R) (n m : nat) (f : nat -> nat -> (nat -> R) -> R) (a : mat fad) : Prop :=
  mrows a = n /\ mcols a = m /\ forall i j, (i < n)%nat -> (j < m)%nat -> jet D p (f i j) (mel a i j).
(** parameters start .. start+2, and start .. start+5, as Lie algebra vectors *)
Definition three_of (start : nat) (mu : nat -> R) : V3 := mk3 (mu start) (mu (start + 1)%nat) (mu (start + 2)%nat).
Definition six_of (start : nat) (mu : nat -> R) : V6 := mk6 (three_of start mu) (three_of (start + 3) mu).
