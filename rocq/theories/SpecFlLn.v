(** * What is assumed of the library's asin and acos and of its constants. *)
From Coq Require Import Reals.
Local Open Scope R_scope.
(** absolute error at most s *)
Definition inverse_trig (s : R) (fasin facos : R -> R) : Prop :=
  (forall x, 0 <= x <= 1 -> Rabs (fasin x - asin x) <= s) /\ (forall x, -1 <= x <= 1 -> Rabs (facos x - acos x) <= s).
(** M_SQRT1_2 and M_PI as the program has them *)
Definition constants (s thr pi : R) : Prop := 69 / 100 <= thr <= 72 / 100 /\ Rabs (pi - PI) <= s.
(** error of the logarithm of a matrix within d of a rotation *)
Definition ln_error (u s d : R) : R := 120 * d + 480 * u + 2 * s.
(** the library's sine has a relative error of at most s *)
Definition relative_sine (s : R) (fsin : R -> R) : Prop := forall x, Rabs (fsin x - sin x) <= s * Rabs (sin x).
(** error of the linear part of SE3::ln, in proportion to the length of the translation. 6e-11 is what the series for small angles leave out. *)
Definition ln_trans_error (u s : R) : R := 600 * u + 30 * s + 6 / 10 ^ 11.
