(** * What a singular value decomposition and a rectangular pseudo-inverse are. *)
From Coq Require Import Reals Arith.
From Verif Require Import Base Alg Mat SpecMat Inst RSum.
Local Open Scope R_scope.

(** A (m x n) = sum over i < k of s_i u_i v_i^T, s_i >= 0, u_i = column i of U (m x k), v_i = column i of V (n x k); the u_i and the
    v_i that belong to non-zero s_i are orthonormal *)
Definition svd_of (m n k : nat) (A U : nat -> nat -> R) (s : nat -> R) (V : nat -> nat -> R) : Prop :=
  (forall i, (i < k)%nat -> 0 <= s i) /\
  (forall i j, (i < k)%nat -> (j < k)%nat -> s i <> 0 -> s j <> 0 -> Sum m (fun r => U r i * U r j) = delta i j) /\
  (forall i j, (i < k)%nat -> (j < k)%nat -> s i <> 0 -> s j <> 0 -> Sum n (fun c => V c i * V c j) = delta i j) /\
  forall r c, (r < m)%nat -> (c < n)%nat -> A r c = Sum k (fun i => U r i * s i * V c i).
(** product of matrices with q inner elements *)
Definition mult (q : nat) (A B : nat -> nat -> R) (r c : nat) : R := Sum q (fun k => A r k * B k c).
Definition same (m n : nat) (A B : nat -> nat -> R) : Prop := forall r c, (r < m)%nat -> (c < n)%nat -> A r c = B r c.
(** the four Penrose equations for A (m x n), P (n x m) *)
Definition penrose (m n : nat) (A P : nat -> nat -> R) : Prop :=
  same m n (mult m (mult n A P) A) A /\ same n m (mult n (mult m P A) P) P /\
  (forall i j, (i < m)%nat -> (j < m)%nat -> mult n A P i j = mult n A P j i) /\ (forall i j, (i < n)%nat -> (j < n)%nat -> mult m P A i j = mult m P A j i).
(** squared length, and the residual A x - b *)
Definition sqlen (n : nat) (x : nat -> R) : R := Sum n (fun i => x i * x i).
Definition residual (n : nat) (A : nat -> nat -> R) (x b : nat -> R) (r : nat) : R := Sum n (fun c => A r c * x c) - b r.
(** x is the shortest of the least-squares solutions of A x = b *)
Definition least_squares (m n : nat) (A : nat -> nat -> R) (b x : nat -> R) : Prop :=
  forall y, sqlen m (residual n A x b) <= sqlen m (residual n A y b) /\ (sqlen m (residual n A y b) = sqlen m (residual n A x b) -> sqlen n x <= sqlen n y).
(** number of i < n with p i *)
Fixpoint count (n : nat) (p : nat -> bool) : nat := match n with O => O | S k => ((if p k then 1 else 0) + count k p)%nat end.
