(** * Floating-point numbers: the operations of the library's scalar type with a rounding after each of them.
    A float is the real number it stands for; [rnd] is the rounding. Overflow, underflow and NaN are not modelled (the exponent is unbounded).
    The vector, matrix and decomposition models are generic in the scalar operations, so the models of operators.hh, Cholesky.h, ... run on these operations unchanged. *)
From Coq Require Import Reals.
From Verif Require Import Base Alg Inst Mat ModelOps.
Open Scope outcome_scope.
Local Open Scope R_scope.

(** IEEE 754: x+y, x*y, x-y and x/y are the exact results, rounded; negation and comparisons are exact *)
Definition FlOps (rnd : R -> R) : Ops R := {|
  f0 := 0; f1 := 1; fadd x y := rnd (x + y); fmul x y := rnd (x * y); fsub x y := rnd (x - y); fopp x := - x;
  fdiv x y := rnd (x / y); finv x := rnd (/ x); feqb := R_eqb; fltb := R_ltb; junk := 77 |}.

(** helpers.h:97-101 norm, 106-109 norm_sq; IEEE 754 square root: the exact one, rounded *)
Definition fl_norm_sq (rnd : R -> R) (v : vec R) : outcome R := @dot R (FlOps rnd) v v.
Definition fl_norm (rnd : R -> R) (v : vec R) : outcome R := d <- @dot R (FlOps rnd) v v ;; Ok (rnd (sqrt d)).
(** helpers.h:153-157 unit: v * (1/sqrt(v*v)) *)
Definition fl_unit (rnd : R -> R) (v : vec R) : outcome (vec R) :=
  d <- @dot R (FlOps rnd) v v ;; k <- @div R (FlOps rnd) 1 (rnd (sqrt d)) ;; @vscale R (FlOps rnd) v k.
(** helpers.h:162-175 normalize: v /= sqrt(v*v) *)
Definition fl_normalize (rnd : R -> R) (v : vec R) : outcome (vec R) :=
  d <- @dot R (FlOps rnd) v v ;; @vdiv_assign R (FlOps rnd) v (rnd (sqrt d)).
