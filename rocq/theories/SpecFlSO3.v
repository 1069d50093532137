(** * Distances between 3x3 matrices, and the histories of a rotation object. *)
From Coq Require Import Reals.
From Verif Require Import ModelLie SpecLie.
Local Open Scope R_scope.

(** the Frobenius norm: the square root of the sum of the squares of the nine entries *)
Definition fro (m : M3) : R := sqrt (dot3 (r0 m) (r0 m) + dot3 (r1 m) (r1 m) + dot3 (r2 m) (r2 m)).
Definition subM (a b : M3) : M3 := mkM (sub3 (r0 a) (r0 b)) (sub3 (r1 a) (r1 b)) (sub3 (r2 a) (r2 b)).
Definition dist (a b : M3) : R := fro (subM a b).
(** the part of v perpendicular to the vectors of unit length a (and b) *)
Definition perp (a v : V3) : V3 := sub3 v (scale3 (dot3 a v) a).
Definition direction (v : V3) : V3 := scale3 (1 / len3 v) v.
(** how far the rows of m are from perpendicular: 1 for perpendicular rows (Hadamard), larger the flatter the parallelepiped they span *)
Definition skewness (m : M3) : R := len3 (r0 m) * len3 (r1 m) * len3 (r2 m) / Rabs (det3 m).
(** the sine and cosine of the library are within s of the true ones (an absolute error) *)
Definition trig (s : R) (fsin fcos : R -> R) : Prop := forall x, Rabs (fsin x - sin x) <= s /\ Rabs (fcos x - cos x) <= s.
(** 1 / sin of the angle between a and b *)
Definition obliqueness (a b : V3) : R := len3 a * len3 b / len3 (cross3 a b).
