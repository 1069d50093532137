(** * What a line search is asked for. *)
From Coq Require Import Reals List.
Local Open Scope R_scope.

(** f falls strictly up to m and rises strictly after it, on [a, c]: m is the only local minimum there *)
Definition unimodal (f : R -> R) (a m c : R) : Prop :=
  a <= m <= c /\ (forall x y, a <= x < y -> y <= m -> f y < f x) /\ (forall x y, m <= x < y -> y <= c -> f x < f y).
(** (x, fx) is the best of the start point and all the points where the function was evaluated, and they all lie between a and c *)
Definition best_probe (f : R -> R) (a c x0 : R) (probes : list R) (x fx : R) : Prop :=
  a <= x <= c /\ fx = f x /\ fx <= f x0 /\ (x = x0 \/ In x probes) /\ forall p, In p probes -> a <= p <= c /\ fx <= f p.
