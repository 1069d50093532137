(** * SO3::ln in floating point: ModelLie's so3_ln with a rounding after every arithmetic operation. Model only. Simplifications as in ModelFlSO3.v;
    [fasin] and [facos] are the library's functions, [thr] and [pi] the constants M_SQRT1_2 and M_PI. *)
From Coq Require Import Reals Bool.
From Verif Require Import Base Alg Inst ModelLie ModelSE ModelFl ModelFlSO3.
Open Scope outcome_scope.
Local Open Scope R_scope.

Section M.
Variables rnd fasin facos : R -> R.
Variables thr pi : R.
(** so3.h:292-295 *)
Definition fl_cosm (m : M3) : R := rnd (rnd (rnd (rnd (vx (r0 m) + vy (r1 m)) + vz (r2 m)) - 1) * (1 / 2)).
Definition fl_anti (m : M3) : V3 :=
  mk3 (rnd (rnd (vy (r2 m) - vz (r1 m)) / 2)) (rnd (rnd (vz (r0 m) - vx (r2 m)) / 2)) (rnd (rnd (vx (r1 m) - vy (r0 m)) / 2)).
(** so3.h:308-325: the column of the symmetric part with the largest diagonal element *)
Definition fl_column (m : M3) (c : R) : V3 :=
  let d0 := rnd (vx (r0 m) - c) in let d1 := rnd (vy (r1 m) - c) in let d2 := rnd (vz (r2 m) - c) in
  let h01 := rnd (rnd (vx (r1 m) + vy (r0 m)) / 2) in
  let h02 := rnd (rnd (vz (r0 m) + vx (r2 m)) / 2) in
  let h12 := rnd (rnd (vy (r2 m) + vz (r1 m)) / 2) in
  if R_ltb (rnd (d1 * d1)) (rnd (d0 * d0)) && R_ltb (rnd (d2 * d2)) (rnd (d0 * d0)) then mk3 d0 h01 h02
  else if R_ltb (rnd (d2 * d2)) (rnd (d1 * d1)) then mk3 h01 d1 h12
  else mk3 h02 h12 d2.
(** so3.h:288-332 *)
Definition fl_so3_ln (m : M3) : outcome V3 :=
  let c := fl_cosm m in let result := fl_anti m in
  let s := rnd (sqrt (fl_dot3 rnd result result)) in
  if R_ltb thr c then
    if R_ltb 0 s then k <- @div R (FlOps rnd) (fasin s) s ;; Ok (fl_scale3 rnd k result) else Ok result
  else if R_ltb (- thr) c then k <- @div R (FlOps rnd) (facos c) s ;; Ok (fl_scale3 rnd k result)
  else
    let angle := rnd (pi - fasin s) in
    let q := fl_column m c in
    let q := if R_ltb (fl_dot3 rnd q result) 0 then fl_scale3 rnd (-1) q else q in
    q <- fl_unit3 rnd q ;; Ok (fl_scale3 rnd angle q).

Variables fsin fcos : R -> R.
(** se3.h:440-449: [rottrans /= (2 * shtot)] divides each element; the literals 0.00001 and 0.001 are rounded numbers *)
Definition fl_se3_ln_lin (r t : V3) : outcome V3 :=
  let theta := rnd (sqrt (fl_dot3 rnd r r)) in
  shtot <- (if R_ltb (rnd (1 / 10 ^ 5)) theta then @div R (FlOps rnd) (fsin (rnd (theta / 2))) theta else Ok (1 / 2)) ;;
  half <- fl_so3_exp rnd fsin fcos (fl_scale3 rnd (- (1 / 2)) r) ;;
  let rt := fl_mv3 rnd half t in
  rt <- (if R_ltb (rnd (1 / 1000)) theta then
           k <- @div R (FlOps rnd) (rnd (fl_dot3 rnd t r * rnd (1 - rnd (2 * shtot)))) (fl_dot3 rnd r r) ;; Ok (fl_sub3 rnd rt (fl_scale3 rnd k r))
         else Ok (fl_sub3 rnd rt (fl_scale3 rnd (rnd (fl_dot3 rnd t r / 24)) r))) ;;
  let d := rnd (2 * shtot) in
  x <- @div R (FlOps rnd) (vx rt) d ;; y <- @div R (FlOps rnd) (vy rt) d ;; z <- @div R (FlOps rnd) (vz rt) d ;;
  Ok (mk3 x y z).
(** se3.h:429-456 *)
Definition fl_se3_ln (T : SE3) : outcome V6 :=
  r <- fl_so3_ln (rot T) ;;
  v <- fl_se3_ln_lin r (trans T) ;;
  Ok (mk6 v r).
End M.
