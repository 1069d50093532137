(** * Powers, exponential, norm of n x n real matrices (functions of row and column) *)
From Coq Require Import Reals.
From Verif Require Import Alg Inst RSum SpecMat.
Local Open Scope R_scope.

Definition rmat := nat -> nat -> R.
Definition mm (n : nat) (A B : rmat) : rmat := fun i j => Sum n (fun k => A i k * B k j).
Fixpoint mpow (n : nat) (A : rmat) (k : nat) : rmat := match k with O => delta | S l => mm n A (mpow n A l) end.
(** E is the exponential of A: the sum of A^k / k! *)
Definition is_exp (n : nat) (A E : rmat) : Prop := forall i j, (i < n)%nat -> (j < n)%nat -> infinite_sum (fun k => mpow n A k i j / INR (fact k)) (E i j).
(** the infinity norm (the largest row sum of absolute values) is at most a *)
Definition norm_le (n : nat) (A : rmat) (a : R) : Prop := forall i, (i < n)%nat -> Sum n (fun j => Rabs (A i j)) <= a.
(** P and Q are inverse to each other *)
Definition inverse_pair (n : nat) (P Q : rmat) : Prop := forall i j, (i < n)%nat -> (j < n)%nat -> mm n P Q i j = delta i j /\ mm n Q P i j = delta i j.
(** P diag(d) Q: when Q is the inverse of P, the matrix whose eigenvectors are the columns of P and whose eigenvalues are d *)
Definition eigmat (n : nat) (P : rmat) (d : nat -> R) (Q : rmat) : rmat := fun i j => Sum n (fun k => P i k * d k * Q k j).
