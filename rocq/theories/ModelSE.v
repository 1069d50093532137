(** * Rigid transforms in three and two dimensions (SE3, SE2), over the reals.
    Same simplifications as ModelLie.v. *)
From Coq Require Import Reals Lra Bool Arith.
From Verif Require Import Base Alg Mat Inst ModelLie.
Local Open Scope R_scope.

(** ** SE3: my_rotation and my_translation (se3.h:158-159) *)
Record SE3 := mkSE3 { rot : M3; trans : V3 }.
(** se3.h:51 *)
Definition se3_default : SE3 := mkSE3 so3_default (mk3 0 0 0).
(** se3.h:84-87 *)
Definition se3_inverse (T : SE3) : SE3 :=
  let rinv := so3_inverse (rot T) in mkSE3 rinv (neg3 (so3_act rinv (trans T))).
(** se3.h:100-103 operator* *)
Definition se3_mul (A B : SE3) : SE3 :=
  mkSE3 (so3_mul (rot A) (rot B)) (add3 (trans A) (so3_act (rot A) (trans B))).
(** se3.h:91-96 operator*=: the translation is updated first, then the rotation *)
Definition se3_mul_assign (this rhs : SE3) : SE3 :=
  let this := mkSE3 (rot this) (add3 (trans this) (so3_act (rot this) (trans rhs))) in
  mkSE3 (so3_mul_assign (rot this) (rot rhs)) (trans this).
(** [a *= a]: [rhs] is the object being changed, so the second statement reads it after the first *)
Definition se3_mul_assign_self (this : SE3) : SE3 :=
  let this := mkSE3 (rot this) (add3 (trans this) (so3_act (rot this) (trans this))) in
  mkSE3 (so3_mul_assign (rot this) (rot this)) (trans this).
(** se3.h:105-109 *)
Definition se3_left_multiply_by (this left : SE3) : SE3 :=
  let this := mkSE3 (rot this) (add3 (trans left) (so3_act (rot left) (trans this))) in
  mkSE3 (so3_mul (rot left) (rot this)) (trans this).
(** se3.h:282-287 SE3 * Vector<3> *)
Definition se3_act (T : SE3) (x : V3) : V3 := add3 (trans T) (so3_act (rot T) x).

(** Vector<4>: the first three elements and element 3 *)
Record V4 := mk4 { top : V3; w4 : R }.
(** se3.h:257-279 SE3 * Vector<4> *)
Definition se3_act4 (T : SE3) (x : V4) : V4 :=
  mk4 (add3 (so3_act (rot T) (top x)) (scale3 (w4 x) (trans T))) (w4 x).
(** se3.h:298-321 Vector<4> * SE3 *)
Definition se3_act4_left (x : V4) (T : SE3) : V4 :=
  mk4 (so3_act_left (top x) (rot T)) (w4 x + dot3 (top x) (trans T)).
(** reading and writing rows and columns of a matrix as Vector<4> *)
Definition v4_of (f : nat -> R) : V4 := mk4 (mk3 (f 0%nat) (f 1%nat) (f 2%nat)) (f 3%nat).
Definition v4_at (v : V4) (i : nat) : R := match i with 0%nat => vx (top v) | 1%nat => vy (top v) | 2%nat => vz (top v) | _ => w4 v end.
Definition put_col (m : mat R) (c : nat) (f : nat -> R) : mat R :=
  mkmat (mrows m) (mcols m) (fun i j => if j =? c then f i else mel m i j).
Definition put_row (m : mat R) (r : nat) (f : nat -> R) : mat R :=
  mkmat (mrows m) (mcols m) (fun i j => if i =? r then f j else mel m i j).
(** the loop [for(i) res.T()[i] = f(M.T()[i])] over the columns of a matrix with n rows, and the one over rows *)
Definition map_cols (n : nat) (f : (nat -> R) -> nat -> R) (M : mat R) : outcome (mat R) :=
  _ <- same_size n (mrows M) ;;
  for_ 0 (mcols M) (fun i res => Ok (put_col res i (f (fun r => mel M r i)))) (mnew n (mcols M)).
Definition map_rows (n : nat) (f : (nat -> R) -> nat -> R) (M : mat R) : outcome (mat R) :=
  _ <- same_size n (mcols M) ;;
  for_ 0 (mrows M) (fun i res => Ok (put_row res i (f (fun c => mel M i c)))) (mnew (mrows M) n).
(** se3.h:332-354 SE3 * Matrix (any number of columns) *)
Definition se3_mul_matrix (T : SE3) (M : mat R) : outcome (mat R) := map_cols 4 (fun g => v4_at (se3_act4 T (v4_of g))) M.
(** se3.h:366-388 Matrix * SE3 (any number of rows) *)
Definition se3_matrix_mul (M : mat R) (T : SE3) : outcome (mat R) := map_rows 4 (fun g => v4_at (se3_act4_left (v4_of g) T)) M.
(** se3.h:458-461 SO3 * SE3 *)
Definition so3_mul_se3 (R : M3) (T : SE3) : SE3 := mkSE3 (so3_mul R (rot T)) (so3_act R (trans T)).

(** se3.h:111-120 *)
Definition se3_generator (i : nat) : nat -> nat -> R :=
  if i <? 3 then fun r c => if (r =? i) && (c =? 3) then 1 else 0
  else fun r c => if (r =? (i + 1) mod 3) && (c =? (i + 2) mod 3) then -1
                  else if (r =? (i + 2) mod 3) && (c =? (i + 1) mod 3) then 1 else 0.
(** se3.h:124-134 *)
Definition se3_generator_field (i : nat) (p : nat -> R) : nat -> R :=
  if i <? 3 then fun r => if r =? i then p 3%nat else 0
  else fun r => if r =? (i + 2) mod 3 then p ((i + 1) mod 3)%nat
                else if r =? (i + 1) mod 3 then - p ((i + 2) mod 3)%nat else 0.

(** Vector<6>: translation part slice<0,3>, rotation part slice<3,3> *)
Record V6 := mk6 { lin : V3; ang : V3 }.
(** se3.h:165-174; the statements in order on [result] *)
Definition se3_adjoint (T : SE3) (v : V6) : V6 :=
  let ra := so3_act (rot T) (ang v) in
  let rl := so3_act (rot T) (lin v) in
  let rl := add3 rl (cross3 (trans T) ra) in
  mk6 rl ra.
(** se3.h:179-188 *)
Definition se3_trinvadjoint (T : SE3) (v : V6) : V6 :=
  let ra := so3_act (rot T) (ang v) in
  let rl := so3_act (rot T) (lin v) in
  let ra := add3 ra (cross3 (trans T) rl) in
  mk6 rl ra.
Definition v6_of (f : nat -> R) : V6 := mk6 (mk3 (f 0%nat) (f 1%nat) (f 2%nat)) (mk3 (f 3%nat) (f 4%nat) (f 5%nat)).
Definition v6_at (v : V6) (i : nat) : R :=
  match i with 0%nat => vx (lin v) | 1%nat => vy (lin v) | 2%nat => vz (lin v)
             | 3%nat => vx (ang v) | 4%nat => vy (ang v) | _ => vz (ang v) end.
(** se3.h:190-204 adjoint(Matrix), 206-220 trinvadjoint(Matrix), se2.h:127-135 adjoint(Matrix): [f] is the vector
    version; first every column of M into the result, then every row of the result in place *)
Definition conj_matrix (n : nat) (f : (nat -> R) -> nat -> R) (M : mat R) : outcome (mat R) :=
  _ <- same_size n (mcols M) ;; _ <- same_size n (mrows M) ;;
  res <- for_ 0 n (fun i res => Ok (put_col res i (f (fun r => mel M r i)))) (mnew n n) ;;
  for_ 0 n (fun i res => Ok (put_row res i (f (fun c => mel res i c)))) res.
Definition se3_adjoint_matrix (T : SE3) (M : mat R) : outcome (mat R) := conj_matrix 6 (fun g => v6_at (se3_adjoint T (v6_of g))) M.
Definition se3_trinvadjoint_matrix (T : SE3) (M : mat R) : outcome (mat R) := conj_matrix 6 (fun g => v6_at (se3_trinvadjoint T (v6_of g))) M.

(** se3.h:391-427 *)
Definition se3_exp (mu : V6) : outcome SE3 :=
  let one_6th := 1 / 6 in let one_20th := 1 / 20 in
  let w := ang mu in
  let theta_sq := dot3 w w in
  let theta := sqrt theta_sq in
  let cross := cross3 w (lin mu) in
  if R_ltb theta_sq (1 / 10 ^ 8) then
    Ok (mkSE3 (rodrigues w (1 - one_6th * theta_sq) (1 / 2)) (add3 (lin mu) (scale3 (1 / 2) cross)))
  else
    ' (A, B, C) <-
      (if R_ltb theta_sq (1 / 10 ^ 6) then
         let C := one_6th * (1 - one_20th * theta_sq) in
         Ok (1 - theta_sq * C, 1 / 2 - 1 / 4 * one_6th * theta_sq, C)
       else
         inv_theta <- div (F:=R) 1 theta ;;
         let A := sin theta * inv_theta in
         Ok (A, (1 - cos theta) * (inv_theta * inv_theta), (1 - A) * (inv_theta * inv_theta))) ;;
    Ok (mkSE3 (rodrigues w A B) (add3 (add3 (lin mu) (scale3 B cross)) (scale3 C (cross3 w cross)))).

(** se3.h:429-456 ([thr] as in so3_ln; [rottrans /= s] is written as a multiplication by 1/s) *)
Definition se3_ln (thr : R) (T : SE3) : outcome V6 :=
  r <- so3_ln thr (rot T) ;;
  let theta := sqrt (dot3 r r) in
  shtot <- (if R_ltb (1 / 10 ^ 5) theta then div (F:=R) (sin (theta / 2)) theta else Ok (1 / 2)) ;;
  half <- so3_exp (scale3 (- (1 / 2)) r) ;;
  let rt := so3_act half (trans T) in
  rt <- (if R_ltb (1 / 1000) theta then
           k <- div (F:=R) (dot3 (trans T) r * (1 - 2 * shtot)) (dot3 r r) ;; Ok (sub3 rt (scale3 k r))
         else Ok (sub3 rt (scale3 (dot3 (trans T) r / 24) r))) ;;
  k <- div (F:=R) 1 (2 * shtot) ;;
  Ok (mk6 (scale3 k rt) r).

(** ** SE2 (se2.h:138-139) *)
Record SE2 := mkSE2 { rot2 : M2; trans2 : V2 }.
(** se2.h:53 *)
Definition se2_default : SE2 := mkSE2 id2 (mk2 0 0).
(** se2.h:79-82, 87-89, 94-97 *)
Definition se2_inverse (T : SE2) : SE2 :=
  let rinv := so2_inverse (rot2 T) in mkSE2 rinv (neg2 (so2_act rinv (trans2 T))).
Definition se2_mul (A B : SE2) : SE2 :=
  mkSE2 (so2_mul (rot2 A) (rot2 B)) (add2 (trans2 A) (so2_act (rot2 A) (trans2 B))).
Definition se2_mul_assign (this rhs : SE2) : SE2 := se2_mul this rhs.
(** se2.h:201-206 SE2 * Vector<2> *)
Definition se2_act (T : SE2) (x : V2) : V2 := add2 (trans2 T) (so2_act (rot2 T) x).
(** se2.h:176-199 SE2 * Vector<3>, 217-239 Vector<3> * SE2; Vector<3> is slice<0,2> and element 2 *)
Definition se2_act3 (T : SE2) (x : V3) : V3 :=
  let u := add2 (so2_act (rot2 T) (mk2 (vx x) (vy x))) (scale2 (vz x) (trans2 T)) in mk3 (ux u) (uy u) (vz x).
Definition se2_act3_left (x : V3) (T : SE2) : V3 :=
  let u := so2_act_left (mk2 (vx x) (vy x)) (rot2 T) in mk3 (ux u) (uy u) (vz x + dot2 (mk2 (vx x) (vy x)) (trans2 T)).
Definition v3_of (f : nat -> R) : V3 := mk3 (f 0%nat) (f 1%nat) (f 2%nat).
Definition v3_at (v : V3) (i : nat) : R := match i with 0%nat => vx v | 1%nat => vy v | _ => vz v end.
(** se2.h:241-276 SE2 * Matrix, 278-308 Matrix * SE2 *)
Definition se2_mul_matrix (T : SE2) (M : mat R) : outcome (mat R) := map_cols 3 (fun g => v3_at (se2_act3 T (v3_of g))) M.
Definition se2_matrix_mul (M : mat R) (T : SE2) : outcome (mat R) := map_rows 3 (fun g => v3_at (se2_act3_left (v3_of g) T)) M.
(** se2.h:104-113 *)
Definition se2_generator (i : nat) : M3 :=
  match i with
  | 0%nat => mkM (mk3 0 0 1) (mk3 0 0 0) (mk3 0 0 0)
  | 1%nat => mkM (mk3 0 0 0) (mk3 0 0 1) (mk3 0 0 0)
  | _ => mkM (mk3 0 (-1) 0) (mk3 1 0 0) (mk3 0 0 0)
  end.
(** se2.h:117-125 *)
Definition se2_adjoint (T : SE2) (v : V3) : V3 :=
  let u := so2_act (rot2 T) (mk2 (vx v) (vy v)) in
  mk3 (ux u + vz v * uy (trans2 T)) (uy u - vz v * ux (trans2 T)) (vz v).
(** se2.h:127-135 *)
Definition se2_adjoint_matrix (T : SE2) (M : mat R) : outcome (mat R) := conj_matrix 3 (fun g => v3_at (se2_adjoint T (v3_of g))) M.
(** se2.h:310-344 *)
Definition se2_exp (mu : V3) : outcome SE2 :=
  let one_6th := 1 / 6 in let one_20th := 1 / 20 in
  let theta := vz mu in let theta_sq := theta * theta in
  let u := mk2 (vx mu) (vy mu) in
  let cross := mk2 (- theta * vy mu) (theta * vx mu) in
  let r := so2_exp theta in
  if R_ltb theta_sq (1 / 10 ^ 8) then Ok (mkSE2 r (add2 u (scale2 (1 / 2) cross)))
  else
    ' (A, B) <-
      (if R_ltb theta_sq (1 / 10 ^ 6) then
         Ok (1 - theta_sq * one_6th * (1 - one_20th * theta_sq), 1 / 2 - 1 / 4 * one_6th * theta_sq)
       else
         inv_theta <- div (F:=R) 1 theta ;;
         let sine := ux (s1 r) in let cosine := ux (s0 r) in
         Ok (sine * inv_theta, (1 - cosine) * (inv_theta * inv_theta))) ;;
    Ok (mkSE2 r (add2 (scale2 A u) (scale2 B cross))).
(** se2.h:346-359 *)
Definition se2_ln (T : SE2) : outcome V3 :=
  let theta := so2_ln (rot2 T) in
  shtot <- (if R_ltb (1 / 10 ^ 5) (Rabs theta) then div (F:=R) (sin (theta / 2)) theta else Ok (1 / 2)) ;;
  let half := so2_exp (theta * - (1 / 2)) in
  k <- div (F:=R) 1 (2 * shtot) ;;
  let u := scale2 k (so2_act half (trans2 T)) in
  Ok (mk3 (ux u) (uy u) theta).
