(** * Words for Gauss-Jordan reduction in floating point. *)
From Coq Require Import Reals Arith.
Local Open Scope R_scope.

(** The row operations of one column, exact: rows i and p change places, then a multiple of row i is subtracted from each other row so that its element in column i becomes 0. T before, S' after; n rows, N columns. *)
Definition exchange (i p r : nat) : nat := if (r =? i)%nat then p else if (r =? p)%nat then i else r.
Definition eliminates (n N i p : nat) (T S' : nat -> nat -> R) : Prop :=
  (i <= p < n)%nat /\ T p i <> 0 /\
  forall r c, (r < n)%nat -> (c < N)%nat -> S' r c = if (r =? i)%nat then T p c else T (exchange i p r) c - T (exchange i p r) i / T p i * T p c.
