(** * What an approximate singular value decomposition is *)
From Coq Require Import Reals Arith.
From Verif Require Import Base Alg Mat SpecMat Inst RSum.
Local Open Scope R_scope.

(** the Frobenius norm of the m x n matrix A *)
Definition frob (m n : nat) (A : nat -> nat -> R) : R := sqrt (Sum m (fun r => Sum n (fun c => A r c * A r c))).
(** the columns of the m x n matrix X are orthonormal; its rows are *)
Definition orth_cols (m n : nat) (X : nat -> nat -> R) : Prop := forall i j, (i < n)%nat -> (j < n)%nat -> Sum m (fun r => X r i * X r j) = delta i j.
Definition orth_rows (m n : nat) (X : nat -> nat -> R) : Prop := forall i j, (i < m)%nat -> (j < m)%nat -> Sum n (fun c => X i c * X j c) = delta i j.
(** U is m x n with orthonormal columns, or rows if it has fewer rows than columns; V is n x n orthogonal *)
Definition bases (m n : nat) (U V : nat -> nat -> R) : Prop :=
  orth_cols n n V /\ orth_rows n n V /\ ((n <= m)%nat -> orth_cols m n U) /\ ((m <= n)%nat -> orth_rows m n U).
(** every element of A - U diag(s) V^T is at most eps in size, and s is not negative *)
Definition svd_within (eps : R) (m n : nat) (A U : nat -> nat -> R) (s : nat -> R) (V : nat -> nat -> R) : Prop :=
  bases m n U V /\ (forall i, (i < n)%nat -> 0 <= s i) /\
  forall r c, (r < m)%nat -> (c < n)%nat -> Rabs (A r c - Sum n (fun i => U r i * s i * V c i)) <= eps.
(** A test for x + a = a (a >= 0) made in arithmetic with relative error u: it accepts 0, and nothing larger than u a *)
Definition sound_test (u : R) (t : R -> R -> bool) : Prop := 0 <= u /\ forall a, 0 <= a -> t 0 a = true /\ forall x, t x a = true -> Rabs x <= u * a.
(** the test made in exact arithmetic *)
Definition exact_test (x a : R) : bool := R_eqb (Rabs x + a) a.
