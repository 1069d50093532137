(** * SO3 in floating point: ModelLie with a rounding after every arithmetic operation. Model only.
    Scalars are the reals that the floating-point numbers stand for; [rnd] is the rounding, [fsin] and [fcos] are the library's sine and cosine.
    Simplifications: overflow, underflow and NaN are not modelled; Precision is a type in which the literals 1.0, 0.5, 0.25, 2 are exact and in which the literals
    are evaluated (double); division by zero stops with [NonFinite]. With [rnd] the identity and the exact sine and cosine every definition is the one of ModelLie (PropFlSO3.v). *)
From Coq Require Import Reals Bool.
From Verif Require Import Base Alg Inst ModelLie ModelFl.
Open Scope outcome_scope.
Local Open Scope R_scope.

Section M.
Variable rnd : R -> R.
(** internal/operators.hh:198-208: the sum starts at 0 and the products are added in order *)
Definition fl_dot3 (a b : V3) : R :=
  rnd (rnd (rnd (0 + rnd (vx a * vx b)) + rnd (vy a * vy b)) + rnd (vz a * vz b)).
(** internal/operators.hh:210-222 *)
Definition fl_cross3 (a b : V3) : V3 :=
  mk3 (rnd (rnd (vy a * vz b) - rnd (vz a * vy b))) (rnd (rnd (vz a * vx b) - rnd (vx a * vz b))) (rnd (rnd (vx a * vy b) - rnd (vy a * vx b))).
(** internal/operators.hh:500-550 vector * scalar; internal/vector.hh operator-= *)
Definition fl_scale3 (k : R) (a : V3) : V3 := mk3 (rnd (k * vx a)) (rnd (k * vy a)) (rnd (k * vz a)).
Definition fl_sub3 (a b : V3) : V3 := mk3 (rnd (vx a - vx b)) (rnd (vy a - vy b)) (rnd (vz a - vz b)).
(** internal/operators.hh:366-388, 391-415, 243-340 *)
Definition fl_mv3 (m : M3) (v : V3) : V3 := mk3 (fl_dot3 (r0 m) v) (fl_dot3 (r1 m) v) (fl_dot3 (r2 m) v).
Definition fl_vm3 (v : V3) (m : M3) : V3 := mk3 (fl_dot3 v (r0 (tr3 m))) (fl_dot3 v (r1 (tr3 m))) (fl_dot3 v (r2 (tr3 m))).
Definition fl_mm3 (a b : M3) : M3 := mkM (fl_vm3 (r0 a) b) (fl_vm3 (r1 a) b) (fl_vm3 (r2 a) b).
(** helpers.h:153-157 unit: v * (1/sqrt(v*v)) *)
Definition fl_unit3 (v : V3) : outcome V3 :=
  k <- @div R (FlOps rnd) 1 (rnd (sqrt (fl_dot3 v v))) ;; Ok (fl_scale3 k v).
(** so3.h:110-119 coerce; the construction and assignment from a matrix (68-70, 101-107) and operator>> (204-209) end with it *)
Definition fl_so3_coerce (m : M3) : outcome M3 :=
  a <- fl_unit3 (r0 m) ;;
  let b := fl_sub3 (r1 m) (fl_scale3 (fl_dot3 a (r1 m)) a) in
  b <- fl_unit3 b ;;
  let c := fl_sub3 (r2 m) (fl_scale3 (fl_dot3 a (r2 m)) a) in
  let c := fl_sub3 c (fl_scale3 (fl_dot3 b c) b) in
  c <- fl_unit3 c ;;
  _ <- assert_ (R_ltb 0 (fl_dot3 (fl_cross3 a b) c)) ;;
  Ok (mkM a b c).
(** so3.h:78-98 *)
Definition fl_so3_of_vectors (a b : V3) : outcome M3 :=
  let n := fl_cross3 a b in
  if R_eqb (fl_dot3 n n) 0 then
    _ <- assert_ (negb (R_ltb (fl_dot3 a b) 0)) ;; Ok id3
  else
    n <- fl_unit3 n ;;
    ua <- fl_unit3 a ;;
    let R1T := mkM ua n (fl_cross3 ua n) in
    ub <- fl_unit3 b ;;
    let m := tr3 (mkM ub n (fl_cross3 ub n)) in
    Ok (fl_mm3 m R1T).
(** so3.h:219-248 *)
Definition fl_rodrigues (w : V3) (A B : R) : M3 :=
  let wx2 := rnd (vx w * vx w) in let wy2 := rnd (vy w * vy w) in let wz2 := rnd (vz w * vz w) in
  let a01 := rnd (A * vz w) in let b01 := rnd (B * rnd (vx w * vy w)) in
  let a02 := rnd (A * vy w) in let b02 := rnd (B * rnd (vx w * vz w)) in
  let a12 := rnd (A * vx w) in let b12 := rnd (B * rnd (vy w * vz w)) in
  mkM (mk3 (rnd (1 - rnd (B * rnd (wy2 + wz2)))) (rnd (b01 - a01)) (rnd (b02 + a02)))
      (mk3 (rnd (b01 + a01)) (rnd (1 - rnd (B * rnd (wx2 + wz2)))) (rnd (b12 - a12)))
      (mk3 (rnd (b02 - a02)) (rnd (b12 + a12)) (rnd (1 - rnd (B * rnd (wx2 + wy2))))).
Variables fsin fcos : R -> R.
(** so3.h:254-285; the literals 1e-8 and 1e-6 are rounded *)
Definition fl_so3_coeffs (theta_sq : R) : outcome (R * R) :=
  let theta := rnd (sqrt theta_sq) in
  let one_6th := rnd (1 / 6) in let one_20th := rnd (1 / 20) in
  if R_ltb theta_sq (rnd (1 / 10 ^ 8)) then Ok (rnd (1 - rnd (one_6th * theta_sq)), 1 / 2)
  else if R_ltb theta_sq (rnd (1 / 10 ^ 6)) then
    Ok (rnd (1 - rnd (rnd (theta_sq * one_6th) * rnd (1 - rnd (one_20th * theta_sq)))),
        rnd (1 / 2 - rnd (rnd (1 / 4 * one_6th) * theta_sq)))
  else
    inv_theta <- @div R (FlOps rnd) 1 theta ;;
    Ok (rnd (fsin theta * inv_theta), rnd (rnd (1 - fcos theta) * rnd (inv_theta * inv_theta))).
Definition fl_so3_exp (w : V3) : outcome M3 :=
  ' (A, B) <- fl_so3_coeffs (fl_dot3 w w) ;; Ok (fl_rodrigues w A B).

(** A history: how an SO3 object came about. so3.h:62 default, 64-66 from a rotation vector, 68-70 from a matrix, 78-98 from two vectors,
    182 and 141-143 product (134-137 operator*= assigns it), 130 and 185-186 inverse, 110-119 coerce() *)
Inductive history :=
| Default | Exp (w : V3) | OfMatrix (m : M3) | OfVectors (a b : V3) | Mul (x y : history) | Inv (x : history) | Coerce (x : history).
Fixpoint fl_run (h : history) : outcome M3 :=
  match h with
  | Default => Ok id3
  | Exp w => fl_so3_exp w
  | OfMatrix m => fl_so3_coerce m
  | OfVectors a b => fl_so3_of_vectors a b
  | Mul x y => a <- fl_run x ;; b <- fl_run y ;; Ok (fl_mm3 a b)
  | Inv x => a <- fl_run x ;; Ok (tr3 a)
  | Coerce x => a <- fl_run x ;; fl_so3_coerce a
  end.
End M.
