(** * SymEigen.h: the 2x2 and 3x3 closed forms and the functions derived from a decomposition, over the reals. Model only. *)
From Coq Require Import Reals Arith Bool.
From Verif Require Import Base Alg Mat Inst ModelOps ModelHelpers.
Open Scope outcome_scope.
Local Open Scope R_scope.

(** SymEigen.h:558-562 my_evectors (row i is the i-th eigenvector), my_evalues *)
Record eig := mkeig { e_vecs : mat R; e_vals : vec R }.
(** SymEigen.h:50 symeigen_condition_no *)
Definition symeigen_condition_no : R := 10 ^ 9.

(** SymEigen.h:97-134, 2x2. Only m[0][0], m[0][1] and m[1][1] are read. *)
Definition eig2 (m : mat R) : outcome eig :=
  m00 <- mget m 0 0 ;; m01 <- mget m 0 1 ;; m11 <- mget m 1 1 ;;
  let trace := m00 + m11 in
  let det := m00 * m11 - m01 * m01 in
  let disc := trace * trace - 4 * det in
  let disc := if R_ltb disc 0 then 0 else disc in
  let root_disc := sqrt disc in
  let ev0 := / 2 * (trace - root_disc) in
  let ev1 := / 2 * (trace + root_disc) in
  let a := m00 - ev0 in
  let b := m01 in
  let magsq := a * a + b * b in
  ' (e00, e01) <- (if R_eqb magsq 0 then Ok (1, 0) else k <- div (F:=R) 1 (sqrt magsq) ;; Ok (- b * k, a * k)) ;;
  Ok (mkeig (mkmat 2 2 (fun i j => match i, j with 0%nat, 0%nat => e00 | 0%nat, _ => e01 | _, 0%nat => - e01 | _, _ => e00 end))
            (mkvec 2 (fun i => match i with 0%nat => ev0 | _ => ev1 end))).

(** SymEigen.h:459-471 get_inv_diag *)
Definition eig_inv_diag (condition : R) (E : eig) : outcome (vec R) :=
  let n := vlen (e_vals E) in
  first <- vget (e_vals E) 0 ;; last <- vget (e_vals E) (n - 1) ;;
  let max_diag := if R_ltb last (- first) then - first else last in
  for_ 0 n (fun i invdiag =>
    x <- vget (e_vals E) i ;;
    if R_ltb max_diag (Rabs x * condition) then (y <- div (F:=R) 1 x ;; vset invdiag i y) else vset invdiag i 0) (vnew n).
(** SymEigen.h:425-427, 433-436 backsub; 443-445 get_pinv *)
Definition eig_backsub_vec (E : eig) (rhs : vec R) : outcome (vec R) :=
  d <- eig_inv_diag symeigen_condition_no E ;; t <- mv (e_vecs E) rhs ;; t <- vdiagmult d t ;; mv (tr (e_vecs E)) t.
Definition eig_backsub_mat (E : eig) (rhs : mat R) : outcome (mat R) :=
  d <- eig_inv_diag symeigen_condition_no E ;; t <- mmul (e_vecs E) rhs ;; t <- vmdiag d t ;; mmul (tr (e_vecs E)) t.
Definition eig_pinv (condition : R) (E : eig) : outcome (mat R) :=
  d <- eig_inv_diag condition E ;; t <- vmdiag d (e_vecs E) ;; mmul (tr (e_vecs E)) t.
(** SymEigen.h:492-499 is_posdef, 502-509 is_negdef: the early return as a stop flag *)
Definition eig_is_posdef (E : eig) : outcome bool :=
  returning (vlen (e_vals E)) (fun i => x <- vget (e_vals E) i ;; Ok (if R_ltb 0 x then None else Some false)) true.
Definition eig_is_negdef (E : eig) : outcome bool :=
  returning (vlen (e_vals E)) (fun i => x <- vget (e_vals E) i ;; Ok (if R_ltb x 0 then None else Some false)) true.
(** SymEigen.h:512-518 get_determinant *)
Definition eig_determinant (E : eig) : outcome R :=
  for_ 0 (vlen (e_vals E)) (fun i det => x <- vget (e_vals E) i ;; Ok (det * x)) 1.
(** std::sqrt: NaN is None *)
Definition osqrt (x : R) : option R := if R_ltb x 0 then None else Some (sqrt x).
(** SymEigen.h:522-530 get_sqrtm *)
Definition eig_sqrtm (E : eig) : outcome (mat R) :=
  d <- vfor (vlen (e_vals E)) (fun i => x <- vget (e_vals E) i ;; match osqrt x with Some y => Ok y | None => NonFinite end) ;;
  t <- vmdiag d (e_vecs E) ;; mmul (tr (e_vecs E)) t.
(** SymEigen.h:538-555 get_isqrtm; every comparison with a NaN is false *)
Definition eig_isqrtm (condition : R) (E : eig) : outcome (mat R) :=
  let n := vlen (e_vals E) in
  first <- vget (e_vals E) 0 ;; last <- vget (e_vals E) (n - 1) ;;
  let max_diag := if R_ltb last (- first) then option_map Ropp (osqrt first) else osqrt last in
  d <- for_ 0 n (fun i d =>
    x <- vget (e_vals E) i ;;
    match osqrt x, max_diag with
    | Some y, Some m => if R_ltb m (Rabs y * condition) then (z <- div (F:=R) 1 y ;; vset d i z) else vset d i 0
    | _, _ => vset d i 0
    end) (vnew n) ;;
  t <- vmdiag d (e_vecs E) ;; mmul (tr (e_vecs E)) t.
