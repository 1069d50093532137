(** * SO2 and SE2 in floating point: ModelLie's and ModelSE's two-dimensional classes with a rounding after every arithmetic operation. Model only.
    Scalars, [rnd], [fsin], [fcos] and the simplifications are as in ModelFlSO3.v; [fatan2] is the library's atan2. *)
From Coq Require Import Reals Bool.
From Verif Require Import Base Alg Inst ModelLie ModelSE ModelFl.
Open Scope outcome_scope.
Local Open Scope R_scope.

Section M.
Variable rnd : R -> R.
(** internal/operators.hh:198-208 for two elements *)
Definition fl_dot2 (a b : V2) : R := rnd (rnd (0 + rnd (ux a * ux b)) + rnd (uy a * uy b)).
(** internal/operators.hh:500-550 vector * scalar; 60-110 sums and differences of vectors *)
Definition fl_scale2 (k : R) (a : V2) : V2 := mk2 (rnd (k * ux a)) (rnd (k * uy a)).
Definition fl_sub2 (a b : V2) : V2 := mk2 (rnd (ux a - ux b)) (rnd (uy a - uy b)).
Definition fl_add2 (a b : V2) : V2 := mk2 (rnd (ux a + ux b)) (rnd (uy a + uy b)).
(** internal/operators.hh:366-388, 391-415, 243-340 *)
Definition fl_mv2 (m : M2) (v : V2) : V2 := mk2 (fl_dot2 (s0 m) v) (fl_dot2 (s1 m) v).
Definition fl_vm2 (v : V2) (m : M2) : V2 := mk2 (fl_dot2 v (s0 (tr2 m))) (fl_dot2 v (s1 (tr2 m))).
Definition fl_mm2 (a b : M2) : M2 := mkM2 (fl_vm2 (s0 a) b) (fl_vm2 (s1 a) b).
(** helpers.h:153-157 *)
Definition fl_unit2 (v : V2) : outcome V2 := k <- @div R (FlOps rnd) 1 (rnd (sqrt (fl_dot2 v v))) ;; Ok (fl_scale2 k v).
(** so2.h:82-86 *)
Definition fl_so2_coerce (m : M2) : outcome M2 :=
  a <- fl_unit2 (s0 m) ;;
  let b := fl_sub2 (s1 m) (fl_scale2 (fl_dot2 a (s1 m)) a) in
  b <- fl_unit2 b ;;
  Ok (mkM2 a b).
(** so2.h:64-67: the constructor assigns (which coerces) and coerces again *)
Definition fl_so2_of_matrix (m : M2) : outcome M2 := m <- fl_so2_coerce m ;; fl_so2_coerce m.
Variables fsin fcos : R -> R.
(** so2.h:89-95 *)
Definition fl_so2_exp (d : R) : M2 := mkM2 (mk2 (fcos d) (- fsin d)) (mk2 (fsin d) (fcos d)).
Variable fatan2 : R -> R -> R.
(** so2.h:98 *)
Definition fl_so2_ln (m : M2) : R := fatan2 (ux (s1 m)) (ux (s0 m)).
(** A history of an SO2 object: so2.h:61 default, 70 from an angle, 64-67 from a matrix, 130-131 and 105-114 products, 101 and 128-129 inverse, 82-86 coerce() *)
Inductive history2 :=
| Default2 | Exp2 (t : R) | OfMatrix2 (m : M2) | Mul2 (x y : history2) | Inv2 (x : history2) | Coerce2 (x : history2).
Fixpoint fl_run2 (h : history2) : outcome M2 :=
  match h with
  | Default2 => Ok id2
  | Exp2 t => Ok (fl_so2_exp t)
  | OfMatrix2 m => fl_so2_of_matrix m
  | Mul2 x y => a <- fl_run2 x ;; b <- fl_run2 y ;; Ok (fl_mm2 a b)
  | Inv2 x => a <- fl_run2 x ;; Ok (tr2 a)
  | Coerce2 x => a <- fl_run2 x ;; fl_so2_coerce a
  end.

(** se2.h:79-82, 87-89 (94-97 assigns it), 365-368 *)
Definition fl_se2_inverse (T : SE2) : SE2 :=
  let rinv := tr2 (rot2 T) in mkSE2 rinv (neg2 (fl_mv2 rinv (trans2 T))).
Definition fl_se2_mul (A B : SE2) : SE2 := mkSE2 (fl_mm2 (rot2 A) (rot2 B)) (fl_add2 (trans2 A) (fl_mv2 (rot2 A) (trans2 B))).
Definition fl_so2_mul_se2 (m : M2) (T : SE2) : SE2 := mkSE2 (fl_mm2 m (rot2 T)) (fl_mv2 m (trans2 T)).
(** se2.h:201-206 *)
Definition fl_se2_act (T : SE2) (x : V2) : V2 := fl_add2 (trans2 T) (fl_mv2 (rot2 T) x).
(** se2.h:310-344; the literals 1e-8 and 1e-6 are rounded *)
Definition fl_se2_exp (mu : V3) : outcome SE2 :=
  let one_6th := rnd (1 / 6) in let one_20th := rnd (1 / 20) in
  let theta := vz mu in let theta_sq := rnd (theta * theta) in
  let u := mk2 (vx mu) (vy mu) in
  let cross := mk2 (rnd (- theta * vy mu)) (rnd (theta * vx mu)) in
  let r := fl_so2_exp theta in
  if R_ltb theta_sq (rnd (1 / 10 ^ 8)) then Ok (mkSE2 r (fl_add2 u (fl_scale2 (1 / 2) cross)))
  else
    ' (A, B) <-
      (if R_ltb theta_sq (rnd (1 / 10 ^ 6)) then
         Ok (rnd (1 - rnd (rnd (theta_sq * one_6th) * rnd (1 - rnd (one_20th * theta_sq)))),
             rnd (1 / 2 - rnd (rnd (1 / 4 * one_6th) * theta_sq)))
       else
         inv_theta <- @div R (FlOps rnd) 1 theta ;;
         let sine := ux (s1 r) in let cosine := ux (s0 r) in
         Ok (rnd (sine * inv_theta), rnd (rnd (1 - cosine) * rnd (inv_theta * inv_theta)))) ;;
    Ok (mkSE2 r (fl_add2 (fl_scale2 A u) (fl_scale2 B cross))).
(** se2.h:346-359; the literal 0.00001 is rounded *)
Definition fl_se2_ln (T : SE2) : outcome V3 :=
  let theta := fl_so2_ln (rot2 T) in
  shtot <- (if R_ltb (rnd (1 / 10 ^ 5)) (Rabs theta) then @div R (FlOps rnd) (fsin (rnd (theta / 2))) theta else Ok (1 / 2)) ;;
  let half := fl_so2_exp (rnd (theta * - (1 / 2))) in
  let u := fl_mv2 half (trans2 T) in
  let d := rnd (2 * shtot) in
  x <- @div R (FlOps rnd) (ux u) d ;; y <- @div R (FlOps rnd) (uy u) d ;;
  Ok (mk3 x y theta).
(** A history of an SE2 object: se2.h:53 default, 55 from a velocity, 54 from a rotation and a translation, products, inverse, SO2 * SE2 *)
Inductive motion2 :=
| MDefault2 | MExp2 (mu : V3) | MParts2 (h : history2) (t : V2) | MMul2 (x y : motion2) | MInv2 (x : motion2) | MRot2 (h : history2) (x : motion2).
Fixpoint fl_move2 (h : motion2) : outcome SE2 :=
  match h with
  | MDefault2 => Ok se2_default
  | MExp2 mu => fl_se2_exp mu
  | MParts2 h t => m <- fl_run2 h ;; Ok (mkSE2 m t)
  | MMul2 x y => a <- fl_move2 x ;; b <- fl_move2 y ;; Ok (fl_se2_mul a b)
  | MInv2 x => a <- fl_move2 x ;; Ok (fl_se2_inverse a)
  | MRot2 h x => m <- fl_run2 h ;; a <- fl_move2 x ;; Ok (fl_so2_mul_se2 m a)
  end.
End M.
