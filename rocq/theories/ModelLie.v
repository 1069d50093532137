(** * Three-dimensional rotations (SO3) and two-dimensional rotations (SO2), over the reals.

    Simplifications common to this file: scalars are exact reals, so [sqrt], [sin], [cos], [asin], [acos]
    are the real functions and the decimal constants of the source are the exact decimals; a division by
    zero stops the run with [NonFinite]; vectors and matrices have the fixed sizes the classes require
    (the [SizeMismatch] tests of other sizes are the subject of C01-C03) and are stored in records rather
    than arrays (PropSO3.v proves that the record product is the library's matrix product). *)
From Coq Require Import Reals Lra Bool.
From Verif Require Import Base Alg Inst.
Local Open Scope R_scope.

(** Vector<3>, Matrix<3,3> (rows). *)
Record V3 := mk3 { vx : R; vy : R; vz : R }.
Record M3 := mkM { r0 : V3; r1 : V3; r2 : V3 }.

(** Component-wise arithmetic of internal/operators.hh:96-195, 500-550 (vector + - * scalar) on Vector<3>. *)
Definition add3 (a b : V3) : V3 := mk3 (vx a + vx b) (vy a + vy b) (vz a + vz b).
Definition sub3 (a b : V3) : V3 := mk3 (vx a - vx b) (vy a - vy b) (vz a - vz b).
Definition neg3 (a : V3) : V3 := mk3 (- vx a) (- vy a) (- vz a).
Definition scale3 (k : R) (a : V3) : V3 := mk3 (k * vx a) (k * vy a) (k * vz a).
(** internal/operators.hh:198-208 (dot product) *)
Definition dot3 (a b : V3) : R := vx a * vx b + vy a * vy b + vz a * vz b.
(** internal/operators.hh:210-222 (cross product) *)
Definition cross3 (a b : V3) : V3 :=
  mk3 (vy a * vz b - vz a * vy b) (vz a * vx b - vx a * vz b) (vx a * vy b - vy a * vx b).
(** internal/mbase.hh:229-235 T() *)
Definition tr3 (m : M3) : M3 :=
  mkM (mk3 (vx (r0 m)) (vx (r1 m)) (vx (r2 m)))
      (mk3 (vy (r0 m)) (vy (r1 m)) (vy (r2 m)))
      (mk3 (vz (r0 m)) (vz (r1 m)) (vz (r2 m))).
(** internal/operators.hh:366-388 (matrix * vector), 391-415 (vector * matrix), 243-340 (matrix * matrix) *)
Definition mv3 (m : M3) (v : V3) : V3 := mk3 (dot3 (r0 m) v) (dot3 (r1 m) v) (dot3 (r2 m) v).
Definition vm3 (v : V3) (m : M3) : V3 := mk3 (dot3 v (r0 (tr3 m))) (dot3 v (r1 (tr3 m))) (dot3 v (r2 (tr3 m))).
Definition mm3 (a b : M3) : M3 := mkM (vm3 (r0 a) b) (vm3 (r1 a) b) (vm3 (r2 a) b).
Definition id3 : M3 := mkM (mk3 1 0 0) (mk3 0 1 0) (mk3 0 0 1).

(** helpers.h:153-157 [unit]: v * (1/sqrt(v*v)) *)
Definition unit3 (v : V3) : outcome V3 :=
  k <- div (F:=R) 1 (sqrt (dot3 v v)) ;; Ok (scale3 k v).
(** a failing [assert] stops the program *)
Definition assert_ (b : bool) : outcome unit := if b then Ok tt else Abort DAssert.

(** ** SO3: the class holds one Matrix<3,3> *)
(** so3.h:62 *)
Definition so3_default : M3 := id3.
(** so3.h:182 (product constructor), 141-143 operator* *)
Definition so3_mul (a b : M3) : M3 := mm3 a b.
(** so3.h:134-137 operator*= : *this = *this * rhs, the compiler-generated assignment *)
Definition so3_mul_assign (this rhs : M3) : M3 := so3_mul this rhs.
(** so3.h:130, 185-186 *)
Definition so3_inverse (a : M3) : M3 := tr3 a.
(** so3.h:336-339, 343-346 *)
Definition so3_act (a : M3) (v : V3) : V3 := mv3 a v.
Definition so3_act_left (v : V3) (a : M3) : V3 := vm3 v a.
(** so3.h:175-179 *)
Definition so3_adjoint (a : M3) (v : V3) : V3 := so3_act a v.

(** so3.h:110-119, statement by statement on the three rows *)
Definition so3_coerce (m : M3) : outcome M3 :=
  a <- unit3 (r0 m) ;;
  let b := sub3 (r1 m) (scale3 (dot3 a (r1 m)) a) in
  b <- unit3 b ;;
  let c := sub3 (r2 m) (scale3 (dot3 a (r2 m)) a) in
  let c := sub3 c (scale3 (dot3 b c) b) in
  c <- unit3 c ;;
  _ <- assert_ (R_ltb 0 (dot3 (cross3 a b) c)) ;;
  Ok (mkM a b c).
(** so3.h:68-70, 101-107: construction and assignment from a matrix *)
Definition so3_of_matrix (m : M3) : outcome M3 := so3_coerce m.

(** so3.h:78-98: constructor from two vectors; columns are written through T() *)
Definition so3_of_vectors (a b : V3) : outcome M3 :=
  let n := cross3 a b in
  if R_eqb (dot3 n n) 0 then
    _ <- assert_ (negb (R_ltb (dot3 a b) 0)) ;; Ok id3
  else
    n <- unit3 n ;;
    ua <- unit3 a ;;
    let R1T := mkM ua n (cross3 ua n) in
    ub <- unit3 b ;;
    let m := tr3 (mkM ub n (cross3 ub n)) in
    Ok (mm3 m R1T).

(** so3.h:219-248: every entry of R is written once *)
Definition rodrigues (w : V3) (A B : R) : M3 :=
  let wx2 := vx w * vx w in let wy2 := vy w * vy w in let wz2 := vz w * vz w in
  let a01 := A * vz w in let b01 := B * (vx w * vy w) in
  let a02 := A * vy w in let b02 := B * (vx w * vz w) in
  let a12 := A * vx w in let b12 := B * (vy w * vz w) in
  mkM (mk3 (1 - B * (wy2 + wz2)) (b01 - a01) (b02 + a02))
      (mk3 (b01 + a01) (1 - B * (wx2 + wz2)) (b12 - a12))
      (mk3 (b02 - a02) (b12 + a12) (1 - B * (wx2 + wy2))).

(** so3.h:254-285: the coefficients A and B *)
Definition so3_coeffs (theta_sq : R) : outcome (R * R) :=
  let theta := sqrt theta_sq in
  let one_6th := 1 / 6 in let one_20th := 1 / 20 in
  if R_ltb theta_sq (1 / 10 ^ 8) then Ok (1 - one_6th * theta_sq, 1 / 2)
  else if R_ltb theta_sq (1 / 10 ^ 6) then
    Ok (1 - theta_sq * one_6th * (1 - one_20th * theta_sq), 1 / 2 - 1 / 4 * one_6th * theta_sq)
  else
    inv_theta <- div (F:=R) 1 theta ;;
    Ok (sin theta * inv_theta, (1 - cos theta) * (inv_theta * inv_theta)).
Definition so3_exp (w : V3) : outcome M3 :=
  ' (A, B) <- so3_coeffs (dot3 w w) ;; Ok (rodrigues w A B).

(** so3.h:152-157; indices (i+1)%3, (i+2)%3 *)
Definition so3_generator (i : nat) : M3 :=
  match i with
  | 0%nat => mkM (mk3 0 0 0) (mk3 0 0 (-1)) (mk3 0 1 0)
  | 1%nat => mkM (mk3 0 0 1) (mk3 0 0 0) (mk3 (-1) 0 0)
  | _ => mkM (mk3 0 (-1) 0) (mk3 1 0 0) (mk3 0 0 0)
  end.
(** so3.h:161-168 *)
Definition so3_generator_field (i : nat) (p : V3) : V3 :=
  match i with
  | 0%nat => mk3 0 (- vz p) (vy p)
  | 1%nat => mk3 (vz p) 0 (- vx p)
  | _ => mk3 (- vy p) (vx p) 0
  end.

(** so3.h:288-332. The constant M_SQRT1_2 is the parameter [thr] (the theorems hold for every 0<thr<1,
    so for the exact 1/sqrt 2 and for its rounding alike); M_PI is the real [PI]. *)
Definition so3_ln (thr : R) (m : M3) : outcome V3 :=
  let m00 := vx (r0 m) in let m01 := vy (r0 m) in let m02 := vz (r0 m) in
  let m10 := vx (r1 m) in let m11 := vy (r1 m) in let m12 := vz (r1 m) in
  let m20 := vx (r2 m) in let m21 := vy (r2 m) in let m22 := vz (r2 m) in
  let cos_angle := (m00 + m11 + m22 - 1) * (1 / 2) in
  let result := mk3 ((m21 - m12) / 2) ((m02 - m20) / 2) ((m10 - m01) / 2) in
  let sin_angle_abs := sqrt (dot3 result result) in
  if R_ltb thr cos_angle then
    if R_ltb 0 sin_angle_abs then
      k <- div (F:=R) (asin sin_angle_abs) sin_angle_abs ;; Ok (scale3 k result)
    else Ok result
  else if R_ltb (- thr) cos_angle then
    k <- div (F:=R) (acos cos_angle) sin_angle_abs ;; Ok (scale3 k result)
  else
    let angle := PI - asin sin_angle_abs in
    let d0 := m00 - cos_angle in let d1 := m11 - cos_angle in let d2 := m22 - cos_angle in
    let q :=
      if (R_ltb (d1 * d1) (d0 * d0) && R_ltb (d2 * d2) (d0 * d0))%bool then
        mk3 d0 ((m10 + m01) / 2) ((m02 + m20) / 2)
      else if R_ltb (d2 * d2) (d1 * d1) then
        mk3 ((m10 + m01) / 2) d1 ((m21 + m12) / 2)
      else
        mk3 ((m02 + m20) / 2) ((m21 + m12) / 2) d2 in
    let q := if R_ltb (dot3 q result) 0 then scale3 (-1) q else q in
    q <- unit3 q ;;
    Ok (scale3 angle q).

(** ** SO2 *)
Record V2 := mk2 { ux : R; uy : R }.
Record M2 := mkM2 { s0 : V2; s1 : V2 }.
Definition dot2 (a b : V2) : R := ux a * ux b + uy a * uy b.
Definition add2 (a b : V2) : V2 := mk2 (ux a + ux b) (uy a + uy b).
Definition sub2 (a b : V2) : V2 := mk2 (ux a - ux b) (uy a - uy b).
Definition neg2 (a : V2) : V2 := mk2 (- ux a) (- uy a).
Definition scale2 (k : R) (a : V2) : V2 := mk2 (k * ux a) (k * uy a).
Definition tr2 (m : M2) : M2 := mkM2 (mk2 (ux (s0 m)) (ux (s1 m))) (mk2 (uy (s0 m)) (uy (s1 m))).
Definition mv2 (m : M2) (v : V2) : V2 := mk2 (dot2 (s0 m) v) (dot2 (s1 m) v).
Definition vm2 (v : V2) (m : M2) : V2 := mk2 (dot2 v (s0 (tr2 m))) (dot2 v (s1 (tr2 m))).
Definition mm2 (a b : M2) : M2 := mkM2 (vm2 (s0 a) b) (vm2 (s1 a) b).
Definition id2 : M2 := mkM2 (mk2 1 0) (mk2 0 1).
(** helpers.h:153-157 on Vector<2> *)
Definition unit2 (v : V2) : outcome V2 :=
  k <- div (F:=R) 1 (sqrt (dot2 v v)) ;; Ok (scale2 k v).

(** so2.h:130-131 (product constructor), 112-114 operator*, 105-108 operator*=, 101 and 128-129 inverse *)
Definition so2_mul (a b : M2) : M2 := mm2 a b.
Definition so2_mul_assign (this rhs : M2) : M2 := mm2 this rhs.
Definition so2_inverse (a : M2) : M2 := tr2 a.
(** so2.h:154-164 *)
Definition so2_act (a : M2) (v : V2) : V2 := mv2 a v.
Definition so2_act_left (v : V2) (a : M2) : V2 := vm2 v a.
(** so2.h:82-86 *)
Definition so2_coerce (m : M2) : outcome M2 :=
  a <- unit2 (s0 m) ;;
  let b := sub2 (s1 m) (scale2 (dot2 a (s1 m)) a) in
  b <- unit2 b ;;
  Ok (mkM2 a b).
(** so2.h:64-67: the constructor assigns (which coerces) and coerces again *)
Definition so2_of_matrix (m : M2) : outcome M2 := m <- so2_coerce m ;; so2_coerce m.
(** so2.h:89-95 *)
Definition so2_exp (d : R) : M2 := mkM2 (mk2 (cos d) (- sin d)) (mk2 (sin d) (cos d)).
(** atan2 as the C library defines it (exact reals, no signed zeros): the angle in (-PI,PI]; atan2(0,0)=0 *)
Definition atan2 (y x : R) : R :=
  if R_ltb 0 x then atan (y / x)
  else if R_ltb x 0 then if R_ltb y 0 then atan (y / x) - PI else atan (y / x) + PI
  else if R_ltb 0 y then PI / 2 else if R_ltb y 0 then - (PI / 2) else 0.
(** so2.h:98 *)
Definition so2_ln (m : M2) : R := atan2 (ux (s1 m)) (ux (s0 m)).
(** so2.h:120-125 *)
Definition so2_generator : M2 := mkM2 (mk2 0 (-1)) (mk2 1 0).
