(** * SE3 in floating point: the SE3 of ModelSE with a rounding after every arithmetic operation. Model only.
    Same simplifications as ModelFlSO3.v. With [rnd] the identity and the exact sine and cosine every definition is the one of ModelSE (PropFlSE3.v). *)
From Coq Require Import Reals Bool.
From Verif Require Import Base Alg Inst ModelLie ModelSE ModelFl ModelFlSO3.
Open Scope outcome_scope.
Local Open Scope R_scope.

Section M.
Variable rnd : R -> R.
(** internal/operators.hh:60-115 vector + vector; the change of sign is exact *)
Definition fl_add3 (a b : V3) : V3 := mk3 (rnd (vx a + vx b)) (rnd (vy a + vy b)) (rnd (vz a + vz b)).
(** se3.h:84-87 *)
Definition fl_se3_inverse (T : SE3) : SE3 := let rinv := tr3 (rot T) in mkSE3 rinv (neg3 (fl_mv3 rnd rinv (trans T))).
(** se3.h:100-103 operator*; 91-96 operator*= and 105-109 left_multiply_by do the same arithmetic *)
Definition fl_se3_mul (A B : SE3) : SE3 := mkSE3 (fl_mm3 rnd (rot A) (rot B)) (fl_add3 (trans A) (fl_mv3 rnd (rot A) (trans B))).
(** se3.h:458-461 SO3 * SE3 *)
Definition fl_so3_mul_se3 (m : M3) (T : SE3) : SE3 := mkSE3 (fl_mm3 rnd m (rot T)) (fl_mv3 rnd m (trans T)).
(** se3.h:282-287 SE3 * Vector<3> *)
Definition fl_se3_act (T : SE3) (x : V3) : V3 := fl_add3 (trans T) (fl_mv3 rnd (rot T) x).
Variables fsin fcos : R -> R.
(** se3.h:391-427; [static const Precision one_6th = 1.0/6.0] is a rounded number, and so are the literals 1e-8 and 1e-6 *)
Definition fl_se3_exp (mu : V6) : outcome SE3 :=
  let one_6th := rnd (1 / 6) in let one_20th := rnd (1 / 20) in
  let w := ang mu in
  let theta_sq := fl_dot3 rnd w w in
  let theta := rnd (sqrt theta_sq) in
  let cross := fl_cross3 rnd w (lin mu) in
  if R_ltb theta_sq (rnd (1 / 10 ^ 8)) then
    Ok (mkSE3 (fl_rodrigues rnd w (rnd (1 - rnd (one_6th * theta_sq))) (1 / 2)) (fl_add3 (lin mu) (fl_scale3 rnd (1 / 2) cross)))
  else
    ' (A, B, C) <-
      (if R_ltb theta_sq (rnd (1 / 10 ^ 6)) then
         let C := rnd (one_6th * rnd (1 - rnd (one_20th * theta_sq))) in
         Ok (rnd (1 - rnd (theta_sq * C)), rnd (1 / 2 - rnd (rnd (1 / 4 * one_6th) * theta_sq)), C)
       else
         inv_theta <- @div R (FlOps rnd) 1 theta ;;
         let A := rnd (fsin theta * inv_theta) in
         Ok (A, rnd (rnd (1 - fcos theta) * rnd (inv_theta * inv_theta)), rnd (rnd (1 - A) * rnd (inv_theta * inv_theta)))) ;;
    Ok (mkSE3 (fl_rodrigues rnd w A B) (fl_add3 (fl_add3 (lin mu) (fl_scale3 rnd B cross)) (fl_scale3 rnd C (fl_cross3 rnd w cross)))).

(** How an SE3 object came about. se3.h:51 default, 55-56 from a vector, 53-54 from a rotation and a translation, 100-103 product, 84-87 inverse, 458-461 SO3 * SE3 *)
Inductive motion :=
| MDefault | MExp (mu : V6) | MParts (h : history) (t : V3) | MMul (x y : motion) | MInv (x : motion) | MRot (h : history) (x : motion).
Fixpoint fl_move (h : motion) : outcome SE3 :=
  match h with
  | MDefault => Ok se3_default
  | MExp mu => fl_se3_exp mu
  | MParts h t => m <- fl_run rnd fsin fcos h ;; Ok (mkSE3 m t)
  | MMul x y => a <- fl_move x ;; b <- fl_move y ;; Ok (fl_se3_mul a b)
  | MInv x => a <- fl_move x ;; Ok (fl_se3_inverse a)
  | MRot h x => m <- fl_run rnd fsin fcos h ;; a <- fl_move x ;; Ok (fl_so3_mul_se3 m a)
  end.
End M.
