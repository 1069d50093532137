(** * The size of a 2x2 matrix, and how far a row is from being an eigenvector. *)
From Coq Require Import Reals Arith.
From Verif Require Import Base Alg Mat Inst RSum ModelEig.
Local Open Scope R_scope.

(** the square root of the sum of the squares of the elements *)
Definition size2 (A : nat -> nat -> R) : R := sqrt (Sum 2 (fun r => Sum 2 (fun c => A r c * A r c))).
(** the length of A v - e v for the i-th row v and the i-th eigenvalue e of E *)
Definition residual (A : nat -> nat -> R) (E : eig) (i : nat) : R :=
  sqrt (Sum 2 (fun r => (Sum 2 (fun c => A r c * mel (e_vecs E) i c) - vat (e_vals E) i * mel (e_vecs E) i r) ^ 2)).
