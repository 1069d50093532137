(** * SymEigen<2> in floating point: ModelEig's eig2 with a rounding after every arithmetic operation. Model only. *)
From Coq Require Import Reals Arith Bool.
From Verif Require Import Base Alg Mat Inst ModelOps ModelHelpers ModelFl ModelEig.
Open Scope outcome_scope.
Local Open Scope R_scope.

(** SymEigen.h:97-134 for matrices of double (the locals are doubles). [rnd] rounds an exact result; the square root is correctly rounded; changing a sign is exact.
    118: magsq == 0 is a comparison of rounded numbers. 123: eig[0] *= k multiplies both elements (internal/operators.hh). *)
Definition fl_eig2 (rnd : R -> R) (m : mat R) : outcome eig :=
  m00 <- mget m 0 0 ;; m01 <- mget m 0 1 ;; m11 <- mget m 1 1 ;;
  let trace := rnd (m00 + m11) in
  let det := rnd (rnd (m00 * m11) - rnd (m01 * m01)) in
  let disc := rnd (rnd (trace * trace) - rnd (4 * det)) in
  let disc := if R_ltb disc 0 then 0 else disc in
  let root_disc := rnd (sqrt disc) in
  let ev0 := rnd (/ 2 * rnd (trace - root_disc)) in
  let ev1 := rnd (/ 2 * rnd (trace + root_disc)) in
  let a := rnd (m00 - ev0) in
  let b := m01 in
  let magsq := rnd (rnd (a * a) + rnd (b * b)) in
  ' (e00, e01) <- (if R_eqb magsq 0 then Ok (1, 0) else k <- @div R (FlOps rnd) 1 (rnd (sqrt magsq)) ;; Ok (rnd (- b * k), rnd (a * k))) ;;
  Ok (mkeig (mkmat 2 2 (fun i j => match i, j with 0%nat, 0%nat => e00 | 0%nat, _ => e01 | _, 0%nat => - e01 | _, _ => e00 end))
            (mkvec 2 (fun i => match i with 0%nat => ev0 | _ => ev1 end))).
