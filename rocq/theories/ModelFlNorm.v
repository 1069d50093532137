(** * helpers.h: norm_fro in floating point. The other norms of helpers.h are those of ModelHelpers on FlOps, unchanged. Model only. *)
From Coq Require Import Reals.
From Verif Require Import Base Alg Inst Mat ModelHelpers ModelFl.
Open Scope outcome_scope.
Local Open Scope R_scope.

(** helpers.h:240-249 norm_fro; IEEE 754 square root: the exact one, rounded. Overflow and underflow are not modelled. *)
Definition fl_norm_fro (rnd : R -> R) (m : mat R) : outcome R := n <- @sumsq_mat R (FlOps rnd) m ;; Ok (rnd (sqrt n)).
