(** * What an eigen-decomposition of a symmetric matrix is. *)
From Coq Require Import Reals Arith.
From Verif Require Import Base Alg Mat SpecMat Inst RSum ModelEig.
Local Open Scope R_scope.

(** the rows of V are orthonormal *)
Definition orthonormal (n : nat) (V : nat -> nat -> R) : Prop := forall i j, (i < n)%nat -> (j < n)%nat -> Sum n (fun k => V i k * V j k) = delta i j.
(** A = V^T diag(e) V with orthonormal V and ascending e *)
Definition eigensystem (n : nat) (A : nat -> nat -> R) (E : eig) : Prop :=
  mrows (e_vecs E) = n /\ mcols (e_vecs E) = n /\ vlen (e_vals E) = n /\ orthonormal n (mel (e_vecs E)) /\
  (forall i j, (i <= j < n)%nat -> vat (e_vals E) i <= vat (e_vals E) j) /\
  forall r c, (r < n)%nat -> (c < n)%nat -> A r c = Sum n (fun k => vat (e_vals E) k * mel (e_vecs E) k r * mel (e_vecs E) k c).
(** product of two n x n matrices, as a function of the position *)
Definition times (n : nat) (A B : nat -> nat -> R) (r c : nat) : R := Sum n (fun k => A r k * B k c).
Definition same_mat (n : nat) (A B : nat -> nat -> R) : Prop := forall r c, (r < n)%nat -> (c < n)%nat -> A r c = B r c.
Definition symm (n : nat) (A : nat -> nat -> R) : Prop := forall r c, (r < n)%nat -> (c < n)%nat -> A r c = A c r.
(** the four Penrose equations of the pseudo-inverse *)
Definition pseudo_inverse (n : nat) (A P : nat -> nat -> R) : Prop :=
  same_mat n (times n (times n A P) A) A /\ same_mat n (times n (times n P A) P) P /\ symm n (times n A P) /\ symm n (times n P A).
(** the largest of the absolute values *)
Definition largest (n : nat) (e : nat -> R) (m : R) : Prop := (forall i, (i < n)%nat -> Rabs (e i) <= m) /\ exists i, (i < n)%nat /\ Rabs (e i) = m.
