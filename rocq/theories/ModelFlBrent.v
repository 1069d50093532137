(** * optimization/brent.h in floating point: ModelOpt's line search with a rounding after every arithmetic operation. Model only. *)
From Coq Require Import Reals ZArith Bool List.
From Verif Require Import Base Alg Inst ModelOpt ModelFlGolden.
Local Open Scope R_scope.

(** brent.h:86 the loop condition without i < maxiterations *)
Definition fl_brent_wide (rnd : R -> R) (tolerance epsilon : R) (s : br) : bool :=
  R_ltb (rnd (rnd (rnd (Rabs (br_a s) + Rabs (br_b s)) * tolerance) + epsilon)) (Rabs (rnd (br_b s - br_a s))).
(** brent.h:90, 137-142, 157-162 the golden section step: (d, e); the constant g of brent.h:64 is golden_section.h's *)
Definition fl_brent_golden (rnd : R -> R) (s : br) : R * R :=
  let xm := rnd (rnd (br_a s + br_b s) / 2) in
  let e := if R_ltb xm (br_x s) then rnd (br_a s - br_x s) else rnd (br_b s - br_x s) in (rnd (fl_g rnd * e), e).
(** brent.h:109-112, 123-124 p and q *)
Definition fl_brent_p (rnd : R -> R) (s : br) : R :=
  let fxw := rnd (br_fw s - br_fx s) in let fxv := rnd (br_fv s - br_fx s) in let xw := rnd (br_w s - br_x s) in let xv := rnd (br_v s - br_x s) in
  rnd (rnd (rnd (fxv * xw) * xw) - rnd (rnd (fxw * xv) * xv)).
Definition fl_brent_q (rnd : R -> R) (s : br) : R :=
  let fxw := rnd (br_fw s - br_fx s) in let fxv := rnd (br_fv s - br_fx s) in let xw := rnd (br_w s - br_x s) in let xv := rnd (br_v s - br_x s) in
  rnd (2 * rnd (rnd (fxv * xw) - rnd (fxw * xv))).
(** brent.h:89-164 the new (d, e); line 130 is short-circuited, so p/q is only formed when q is not zero; it is formed three times with the same result *)
Definition fl_brent_move (rnd : R -> R) (tolerance epsilon : R) (s : br) : R * R :=
  let tol1 := rnd (rnd (Rabs (br_x s) * tolerance) + epsilon) in
  if R_ltb tol1 (Rabs (br_e s)) && negb (R_eqb (br_w s) (br_v s)) then
    let p := fl_brent_p rnd s in let q := fl_brent_q rnd s in
    let z := rnd (p / q) in
    if R_eqb q 0 || R_ltb (rnd (br_x s + z)) (br_a s) || R_ltb (br_b s) (rnd (br_x s + z)) || R_ltb (Rabs (rnd (br_e s / 2))) (Rabs z)
    then fl_brent_golden rnd s
    else (z, br_d s)
  else fl_brent_golden rnd s.
(** brent.h:166-196 one function evaluation and the update *)
Definition fl_brent_update (rnd f : R -> R) (d e : R) (s : br) : br :=
  let u := rnd (br_x s + d) in
  let fu := f u in
  let calls := u :: br_calls s in
  if R_ltb fu (br_fx s) then
    let a := if R_ltb (br_x s) u then br_x s else br_a s in
    let b := if R_ltb (br_x s) u then br_b s else br_x s in
    mkbr a b u (br_x s) (br_w s) fu (br_fx s) (br_fw s) d e calls
  else
    let a := if R_ltb u (br_x s) then u else br_a s in
    let b := if R_ltb u (br_x s) then br_b s else u in
    if negb (R_ltb (br_fw s) fu) || R_eqb (br_w s) (br_x s) then
      mkbr a b (br_x s) u (br_w s) (br_fx s) fu (br_fw s) d e calls
    else if negb (R_ltb (br_fv s) fu) || R_eqb (br_v s) (br_x s) || R_eqb (br_v s) (br_w s) then
      mkbr a b (br_x s) (br_w s) u (br_fx s) (br_fw s) fu d e calls
    else mkbr a b (br_x s) (br_w s) (br_v s) (br_fx s) (br_fw s) (br_fv s) d e calls.
Definition fl_brent_step (rnd f : R -> R) (tolerance epsilon : R) (s : br) : br :=
  let (d, e) := fl_brent_move rnd tolerance epsilon s in fl_brent_update rnd f d e s.
(** brent.h:84-88 the loop; n = maxiterations - i *)
Fixpoint fl_brent_loop (n : nat) (rnd f : R -> R) (tolerance epsilon : R) (s : br) : br :=
  match n with
  | O => s
  | S k => if fl_brent_wide rnd tolerance epsilon s then fl_brent_loop k rnd f tolerance epsilon (fl_brent_step rnd f tolerance epsilon s) else s
  end.
(** brent.h:55-200; the result is (x, value, calls). A negative maxiterations is the same as 0. *)
Definition fl_brent_line_search (rnd f : R -> R) (a x b fx : R) (maxiterations : Z) (tolerance epsilon : R) : R * R * list R :=
  let s := fl_brent_loop (Z.to_nat maxiterations) rnd f tolerance epsilon (brent_init a x b fx) in
  (br_x s, br_fx s, br_calls s).
