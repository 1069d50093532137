(** * The Nelder-Mead step, written without loops. *)
From Coq Require Import Reals Arith Bool.
From Verif Require Import Base Alg SpecMat Inst RSum ModelCG.
Local Open Scope R_scope.

(** i is the first of the indices 0..n with the smallest / largest value *)
Definition first_min (n : nat) (v : nat -> R) (i : nat) : Prop := (i <= n)%nat /\ (forall j, (j <= n)%nat -> v i <= v j) /\ forall j, (j < i)%nat -> v i < v j.
Definition first_max (n : nat) (v : nat -> R) (i : nat) : Prop := (i <= n)%nat /\ (forall j, (j <= n)%nat -> v j <= v i) /\ forall j, (j < i)%nat -> v j < v i.
(** x is the largest of the values other than number w *)
Definition largest_but (n : nat) (v : nat -> R) (w : nat) (x : R) : Prop := (exists j, (j <= n)%nat /\ j <> w /\ v j = x) /\ forall j, (j <= n)%nat -> j <> w -> v j <= x.
(** the mean of the n vertices other than number w *)
Definition centroid_but (n : nat) (V : nat -> point) (w : nat) : point := fun k => (Sum (n + 1) (fun i => V i k) - V w k) / INR n.
(** the point x0 + a (x0 - v) *)
Definition away (x0 v : point) (a : R) : point := fun k => x0 k + a * (x0 k - v k).
(** replace vertex w *)
Definition replaced {A} (V : nat -> A) (w : nat) (p : A) (n : nat) (V' : nat -> A) : Prop := forall i, (i <= n)%nat -> V' i = if (i =? w)%nat then p else V i.
(** the vertices span the space: only the trivial combination with coefficients of sum zero vanishes *)
Definition affinely_independent (n : nat) (V : nat -> point) : Prop :=
  forall l : nat -> R, Sum (n + 1) l = 0 -> (forall k, (k < n)%nat -> Sum (n + 1) (fun i => l i * V i k) = 0) -> forall i, (i <= n)%nat -> l i = 0.
