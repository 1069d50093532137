(** * Similarity transforms in three and two dimensions (SIM3, SIM2), over the reals.
    Same simplifications as ModelLie.v. The C++ class holds an SE3 (SE2) and the scale; here one record. *)
From Coq Require Import Reals ZArith Lra Bool Arith.
From Verif Require Import Base Alg Mat Inst ModelOps ModelGauss ModelLie ModelSE.
Local Open Scope R_scope.

(** sim3.h:176-177 *)
Record SIM3 := mkSIM3 { mrot : M3; mtrans : V3; mscl : R }.
(** sim3.h:51 *)
Definition sim3_default : SIM3 := mkSIM3 so3_default (mk3 0 0 0) 1.
(** sim3.h:85-89 *)
Definition sim3_inverse (T : SIM3) : outcome SIM3 :=
  let rinv := so3_inverse (mrot T) in
  inv_scale <- div (F:=R) 1 (mscl T) ;;
  Ok (mkSIM3 rinv (neg3 (scale3 inv_scale (so3_act rinv (mtrans T)))) inv_scale).
(** sim3.h:105-110 operator* *)
Definition sim3_mul (A B : SIM3) : SIM3 :=
  mkSIM3 (so3_mul (mrot A) (mrot B)) (add3 (mtrans A) (so3_act (mrot A) (scale3 (mscl A) (mtrans B)))) (mscl A * mscl B).
(** sim3.h:93-98 operator*=: translation, then rotation, then scale *)
Definition sim3_mul_assign (this rhs : SIM3) : SIM3 :=
  let this := mkSIM3 (mrot this) (add3 (mtrans this) (so3_act (mrot this) (scale3 (mscl this) (mtrans rhs)))) (mscl this) in
  let this := mkSIM3 (so3_mul_assign (mrot this) (mrot rhs)) (mtrans this) (mscl this) in
  mkSIM3 (mrot this) (mtrans this) (mscl this * mscl rhs).
(** [a *= a] *)
Definition sim3_mul_assign_self (this : SIM3) : SIM3 :=
  let this := mkSIM3 (mrot this) (add3 (mtrans this) (so3_act (mrot this) (scale3 (mscl this) (mtrans this)))) (mscl this) in
  let this := mkSIM3 (so3_mul_assign (mrot this) (mrot this)) (mtrans this) (mscl this) in
  mkSIM3 (mrot this) (mtrans this) (mscl this * mscl this).
(** sim3.h:112-117 *)
Definition sim3_left_multiply_by (this left : SIM3) : SIM3 :=
  let this := mkSIM3 (mrot this) (add3 (mtrans left) (so3_act (mrot left) (scale3 (mscl left) (mtrans this)))) (mscl this) in
  let this := mkSIM3 (so3_mul (mrot left) (mrot this)) (mtrans this) (mscl this) in
  mkSIM3 (mrot this) (mtrans this) (mscl left * mscl this).
(** sim3.h:180-187 SIM3 * SE3 *)
Definition sim3_mul_se3 (A : SIM3) (B : SE3) : SIM3 := sim3_mul A (mkSIM3 (rot B) (trans B) (mscl sim3_default)).
(** sim3.h:310-315 SIM3 * Vector<3>, 286-308 SIM3 * Vector<4>, 327-349 Vector<4> * SIM3 *)
Definition sim3_act (T : SIM3) (x : V3) : V3 := add3 (mtrans T) (so3_act (mrot T) (scale3 (mscl T) x)).
Definition sim3_act4 (T : SIM3) (x : V4) : V4 :=
  mk4 (add3 (so3_act (mrot T) (scale3 (mscl T) (top x))) (scale3 (w4 x) (mtrans T))) (w4 x).
Definition sim3_act4_left (x : V4) (T : SIM3) : V4 :=
  mk4 (so3_act_left (scale3 (mscl T) (top x)) (mrot T)) (w4 x + dot3 (top x) (mtrans T)).
(** sim3.h:361-383 SIM3 * Matrix, 395-417 Matrix * SIM3 *)
Definition sim3_mul_matrix (T : SIM3) (M : mat R) : outcome (mat R) := map_cols 4 (fun g => v4_at (sim3_act4 T (v4_of g))) M.
Definition sim3_matrix_mul (M : mat R) (T : SIM3) : outcome (mat R) := map_rows 4 (fun g => v4_at (sim3_act4_left (v4_of g) T)) M.
(** sim3.h:119-134 *)
Definition sim3_generator (i : nat) : nat -> nat -> R :=
  if i <? 6 then se3_generator i
  else fun r c => if (r =? c) && (r <? 3) then 1 else 0.
(** sim3.h:137-153 *)
Definition sim3_generator_field (i : nat) (p : nat -> R) : nat -> R :=
  if i <? 6 then se3_generator_field i p else fun r => if r <? 3 then p r else 0.

(** Vector<7>: slice<0,3>, slice<3,3>, element 6 *)
Record V7 := mk7 { lin7 : V3; ang7 : V3; sc7 : R }.
(** sim3.h:192-201 adjoint, 206-215 trinvadjoint: [result] is an uninitialised Vector<7> whose element 6 is never
    written; [junk] is whatever it holds *)
Definition sim3_adjoint (junk : R) (T : SIM3) (v : V7) : V7 :=
  let ra := so3_act (mrot T) (ang7 v) in
  let rl := so3_act (mrot T) (lin7 v) in
  let rl := add3 rl (cross3 (mtrans T) ra) in
  mk7 rl ra junk.
Definition sim3_trinvadjoint (junk : R) (T : SIM3) (v : V7) : V7 :=
  let ra := so3_act (mrot T) (ang7 v) in
  let rl := so3_act (mrot T) (lin7 v) in
  let ra := add3 ra (cross3 (mtrans T) rl) in
  mk7 rl ra junk.
Definition v7_at (v : V7) (i : nat) : R := if i <? 6 then v6_at (mk6 (lin7 v) (ang7 v)) i else sc7 v.

(** sim3.h:421-457. [1/2] and [1/6] are integer divisions. The divisors t, s and s*s+t*t are not zero in the
    branches that use them (|t| >= eps or |s| >= eps), so Coq's total division is the code's division. *)
Definition rod_coeffs (s t : R) : R * R * R :=
  let es := exp s in
  let eps := 1 / 10 ^ 6 in
  if (R_ltb (Rabs s) eps && R_ltb (Rabs t) eps)%bool then
    (1 + s / 2 + s * s / 6,
     IZR (Z.quot 1 2) + s / 3 - t * t / 24 + s * s / 8,
     IZR (Z.quot 1 6) + s / 8 - t * t / 120 + s * s / 20)
  else if R_ltb (Rabs s) eps then
    (1 + s / 2 + s * s / 6,
     (1 - cos t) / (t * t) + (sin t - cos t * t) * s / (t * t * t) + (2 * sin t * t - t * t * cos t - 2 + 2 * cos t) * s * s / (2 * t * t * t * t),
     (t - sin t) / (t * t * t) - (- t * t - 2 + 2 * cos t + 2 * sin t * t) * s / (2 * t * t * t * t)
       - (- t * t * t + 6 * cos t * t + 3 * sin t * t * t - 6 * sin t) * s * s / (6 * t * t * t * t * t))
  else if R_ltb (Rabs t) eps then
    ((es - 1) / s,
     (s * es + 1 - es) / (s * s) - (6 * s * es + 6 - 6 * es + es * s * s * s - 3 * es * s * s) * t * t / (6 * s * s * s * s),
     (es * s * s - 2 * s * es + 2 * es - 2) / (2 * s * s * s)
       - (es * s * s * s * s - 4 * es * s * s * s + 12 * es * s * s - 24 * s * es + 24 * es - 24) * t * t / (24 * s * s * s * s * s))
  else
    let a := es * sin t in let b := es * cos t in
    let inv_s_theta := 1 / (s * s + t * t) in
    let c0 := (es - 1) / s in
    (c0, (a * s + (1 - b) * t) * inv_s_theta / t, (c0 - ((b - 1) * s + a * t) * inv_s_theta) / (t * t)).

(** sim3.h:461-483 *)
Definition sim3_exp (mu : V7) : outcome SIM3 :=
  let scl := exp (sc7 mu) in
  let w := ang7 mu in
  let t := sqrt (dot3 w w) in
  r <- so3_exp w ;;
  let '(c0, c1, c2) := rod_coeffs (sc7 mu) t in
  let cross := cross3 w (lin7 mu) in
  Ok (mkSIM3 r (add3 (add3 (scale3 c0 (lin7 mu)) (scale3 c1 cross)) (scale3 c2 (cross3 w cross))) scl).
(** std::log: no finite result for arguments that are not positive *)
Definition log_ (x : R) : outcome R := if R_ltb 0 x then Ok (ln x) else NonFinite.
(** helpers.h:444-461 *)
Definition cross_matrix (w : V3) : M3 :=
  mkM (mk3 0 (- vz w) (vy w)) (mk3 (vz w) 0 (- vx w)) (mk3 (- vy w) (vx w) 0).
(** rows of a Matrix<3,3> / elements of a Vector<3> as the library's objects *)
Definition row3 (m : M3) (i : nat) : V3 := match i with 0%nat => r0 m | 1%nat => r1 m | _ => r2 m end.
(** sim3.h:485-509. W = Identity * coeff[0] + cross * coeff[1] + cross * cross * coeff[2] *)
Definition sim3_W (c0 c1 c2 : R) (w : V3) : mat R :=
  let cr := cross_matrix w in
  mkmat 3 3 (fun i j => (if i =? j then c0 else 0) + v3_at (row3 cr i) j * c1 + v3_at (row3 (mm3 cr cr) i) j * c2).
Definition sim3_ln (thr : R) (T : SIM3) : outcome V7 :=
  w <- so3_ln thr (mrot T) ;;
  let theta := sqrt (dot3 w w) in
  s <- log_ (mscl T) ;;
  let '(c0, c1, c2) := rod_coeffs s theta in
  x <- gaussian_elimination (sim3_W c0 c1 c2 w) (mkvec 3 (v3_at (mtrans T))) ;;
  Ok (mk7 (v3_of (vat x)) w s).

(** ** SIM2 (sim2.h:152-153) *)
Record SIM2 := mkSIM2 { mrot2 : M2; mtrans2 : V2; mscl2 : R }.
(** sim2.h:53 *)
Definition sim2_default : SIM2 := mkSIM2 id2 (mk2 0 0) 1.
(** sim2.h:84-88 *)
Definition sim2_inverse (T : SIM2) : outcome SIM2 :=
  let rinv := so2_inverse (mrot2 T) in
  inv_scale <- div (F:=R) 1 (mscl2 T) ;;
  Ok (mkSIM2 rinv (neg2 (so2_act rinv (scale2 inv_scale (mtrans2 T)))) inv_scale).
(** sim2.h:92-95, 99-102 *)
Definition sim2_mul (A B : SIM2) : SIM2 :=
  mkSIM2 (so2_mul (mrot2 A) (mrot2 B)) (add2 (mtrans2 A) (so2_act (mrot2 A) (scale2 (mscl2 A) (mtrans2 B)))) (mscl2 A * mscl2 B).
Definition sim2_mul_assign (this rhs : SIM2) : SIM2 := sim2_mul this rhs.
(** sim2.h:216-221 SIM2 * Vector<2>, 192-214 SIM2 * Vector<3>, 233-255 Vector<3> * SIM2 *)
Definition sim2_act (T : SIM2) (x : V2) : V2 := add2 (mtrans2 T) (so2_act (mrot2 T) (scale2 (mscl2 T) x)).
Definition sim2_act3 (T : SIM2) (x : V3) : V3 :=
  let u := add2 (so2_act (mrot2 T) (scale2 (mscl2 T) (mk2 (vx x) (vy x)))) (scale2 (vz x) (mtrans2 T)) in mk3 (ux u) (uy u) (vz x).
Definition sim2_act3_left (x : V3) (T : SIM2) : V3 :=
  let u := so2_act_left (scale2 (mscl2 T) (mk2 (vx x) (vy x))) (mrot2 T) in mk3 (ux u) (uy u) (vz x + dot2 (mk2 (vx x) (vy x)) (mtrans2 T)).
(** sim2.h:267-289, 301-323 *)
Definition sim2_mul_matrix (T : SIM2) (M : mat R) : outcome (mat R) := map_cols 3 (fun g => v3_at (sim2_act3 T (v3_of g))) M.
Definition sim2_matrix_mul (M : mat R) (T : SIM2) : outcome (mat R) := map_rows 3 (fun g => v3_at (sim2_act3_left (v3_of g) T)) M.
(** sim2.h:110-128 *)
Definition sim2_generator (i : nat) : M3 :=
  match i with
  | 0%nat => mkM (mk3 0 0 1) (mk3 0 0 0) (mk3 0 0 0)
  | 1%nat => mkM (mk3 0 0 0) (mk3 0 0 1) (mk3 0 0 0)
  | 2%nat => mkM (mk3 0 (-1) 0) (mk3 1 0 0) (mk3 0 0 0)
  | _ => mkM (mk3 1 0 0) (mk3 0 1 0) (mk3 0 0 0)
  end.
(** Vector<4> of the algebra *)
Record W4 := mkW4 { wlin : V2; wang : R; wsc : R }.
Definition w4_at (v : W4) (i : nat) : R := match i with 0%nat => ux (wlin v) | 1%nat => uy (wlin v) | 2%nat => wang v | _ => wsc v end.
(** sim2.h:131-139; element 3 of [result] is never written *)
Definition sim2_adjoint (junk : R) (T : SIM2) (v : W4) : W4 :=
  let u := so2_act (mrot2 T) (wlin v) in
  mkW4 (mk2 (ux u + wang v * uy (mtrans2 T)) (uy u - wang v * ux (mtrans2 T))) (wang v) junk.
(** sim2.h:325-350: the first coefficient used is coeff[2] *)
Definition sim2_exp (mu : W4) : SIM2 :=
  let theta := wang mu in
  let '(c0, c1, c2) := rod_coeffs (wsc mu) theta in
  let cross := mk2 (- theta * uy (wlin mu)) (theta * ux (wlin mu)) in
  mkSIM2 (so2_exp theta) (add2 (scale2 c2 (wlin mu)) (scale2 c1 cross)) (exp (wsc mu)).
(** sim2.h:352-372 *)
Definition sim2_W (c1 c2 theta : R) : mat R :=
  mkmat 2 2 (fun i j => match i, j with 0%nat, 0%nat => c2 | 0%nat, _ => c1 * - theta | _, 0%nat => c1 * theta | _, _ => c2 end).
Definition sim2_ln (T : SIM2) : outcome W4 :=
  let theta := so2_ln (mrot2 T) in
  s <- log_ (mscl2 T) ;;
  let '(c0, c1, c2) := rod_coeffs s theta in
  x <- gaussian_elimination (sim2_W c1 c2 theta) (mkvec 2 (fun i => match i with 0%nat => ux (mtrans2 T) | _ => uy (mtrans2 T) end)) ;;
  Ok (mkW4 (mk2 (vat x 0) (vat x 1)) theta s).
