(** * Specification vocabulary for vectors and matrices as values. *)
From Coq Require Import Arith.
From Verif Require Import Base Alg Mat.

Section S.
Context {F : Type}.
(** an object with the given size(s) and elements *)
Definition vec_is (v : vec F) (n : nat) (f : nat -> F) : Prop := vlen v = n /\ forall i, i < n -> vat v i = f i.
Definition mat_is (m : mat F) (r c : nat) (f : nat -> nat -> F) : Prop :=
  mrows m = r /\ mcols m = c /\ forall i j, i < r -> j < c -> mel m i j = f i j.
(** same size, same elements *)
Definition vec_eq (v w : vec F) : Prop := vec_is v (vlen w) (vat w).
Definition mat_eq (a b : mat F) : Prop := mat_is a (mrows b) (mcols b) (mel b).
(** the run ends normally with such an object *)
Definition gives_vec (x : outcome (vec F)) n f : Prop := exists v, x = Ok v /\ vec_is v n f.
Definition gives_mat (x : outcome (mat F)) r c f : Prop := exists m, x = Ok m /\ mat_is m r c f.
(** square matrix, identity matrix, symmetric matrix *)
Definition delta {Fo : Ops F} (i j : nat) : F := if i =? j then f1 else f0.
End S.
(** two computations that both end normally, with equal objects *)
Definition agree_vec {F} (x y : outcome (vec F)) : Prop := exists v w, x = Ok v /\ y = Ok w /\ vec_eq v w.
Definition agree_mat {F} (x y : outcome (mat F)) : Prop := exists a b, x = Ok a /\ y = Ok b /\ mat_eq a b.
