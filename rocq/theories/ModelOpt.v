(** * optimization/golden_section.h and optimization/brent.h, over the reals. Model only.
    The functor is a function R -> R; each call to it is recorded (most recent first) so that theorems can speak about the probes. *)
From Coq Require Import Reals ZArith Bool List.
From Verif Require Import Base Alg Inst.
Open Scope outcome_scope.
Local Open Scope R_scope.

(** golden_section.h:55, brent.h:64: g = (3 - sqrt 5) / 2 *)
Definition golden : R := (3 - sqrt 5) / 2.

(** golden_section.h:51-116: the variables a, x1, x2, c, fx1, fx2 *)
Record gs := mkgs { gs_a : R; gs_x1 : R; gs_x2 : R; gs_c : R; gs_f1 : R; gs_f2 : R; gs_calls : list R }.
(** golden_section.h:62-77 the initial iteration *)
Definition golden_init (f : R -> R) (a b c fb : R) : gs :=
  if R_ltb (Rabs (c - b)) (Rabs (b - a))
  then (let x1 := b - golden * (b - a) in mkgs a x1 b c (f x1) fb (x1 :: nil))
  else (let x2 := b + golden * (c - b) in mkgs a b x2 c fb (f x2) (x2 :: nil)).
(** golden_section.h:83 the loop condition; itnum is 1 and is never changed *)
Definition golden_continue (maxiterations : Z) (tol : R) (s : gs) : bool :=
  R_ltb (tol * (Rabs (gs_x2 s) + Rabs (gs_x1 s))) (Rabs (gs_c s - gs_a s)) && (1 <? maxiterations)%Z.
(** golden_section.h:85-108 the loop body *)
Definition golden_step (f : R -> R) (s : gs) : gs :=
  if R_ltb (gs_f2 s) (gs_f1 s)
  then (let x1 := gs_x2 s in let x2 := x1 + golden * (gs_c s - x1) in mkgs (gs_x1 s) x1 x2 (gs_c s) (gs_f2 s) (f x2) (x2 :: gs_calls s))
  else (let x2 := gs_x1 s in let x1 := x2 - golden * (x2 - gs_a s) in mkgs (gs_a s) x1 x2 (gs_x2 s) (f x1) (gs_f1 s) (x1 :: gs_calls s)).
Fixpoint golden_loop (fuel : nat) (f : R -> R) (maxiterations : Z) (tol : R) (s : gs) : outcome gs :=
  match fuel with
  | O => OutOfFuel
  | S k => if golden_continue maxiterations tol s then golden_loop k f maxiterations tol (golden_step f s) else Ok s
  end.
(** golden_section.h:51-116; the result is (x, value, calls) *)
Definition golden_section_search (fuel : nat) (f : R -> R) (a b c fb : R) (maxiterations : Z) (tol : R) : outcome (R * R * list R) :=
  s <- golden_loop fuel f maxiterations tol (golden_init f a b c fb) ;;
  Ok (if R_ltb (gs_f1 s) (gs_f2 s) then (gs_x1 s, gs_f1 s, gs_calls s) else (gs_x2 s, gs_f2 s, gs_calls s)).

(** brent.h:55-200: the variables *)
Record br := mkbr { br_a : R; br_b : R; br_x : R; br_w : R; br_v : R; br_fx : R; br_fw : R; br_fv : R; br_d : R; br_e : R; br_calls : list R }.
(** brent.h:80-83 *)
Definition brent_init (a x b fx : R) : br := mkbr a b x x x fx fx fx 0 0 nil.
(** brent.h:86 the loop condition without i < maxiterations *)
Definition brent_wide (tolerance epsilon : R) (s : br) : bool :=
  R_ltb ((Rabs (br_a s) + Rabs (br_b s)) * tolerance + epsilon) (Rabs (br_b s - br_a s)).
(** brent.h:137-142, 157-162 the golden section step: (d, e) *)
Definition brent_golden (s : br) : R * R :=
  let xm := (br_a s + br_b s) / 2 in
  let e := if R_ltb xm (br_x s) then br_a s - br_x s else br_b s - br_x s in (golden * e, e).
(** brent.h:109-112, 123-124 p and q *)
Definition brent_p (s : br) : R :=
  let fxw := br_fw s - br_fx s in let fxv := br_fv s - br_fx s in let xw := br_w s - br_x s in let xv := br_v s - br_x s in
  fxv * xw * xw - fxw * xv * xv.
Definition brent_q (s : br) : R :=
  let fxw := br_fw s - br_fx s in let fxv := br_fv s - br_fx s in let xw := br_w s - br_x s in let xv := br_v s - br_x s in
  2 * (fxv * xw - fxw * xv).
(** brent.h:89-164 the new (d, e); line 130 is short-circuited, so p/q is only formed when q is not zero *)
Definition brent_move (tolerance epsilon : R) (s : br) : R * R :=
  let tol1 := Rabs (br_x s) * tolerance + epsilon in
  if R_ltb tol1 (Rabs (br_e s)) && negb (R_eqb (br_w s) (br_v s)) then
    let p := brent_p s in let q := brent_q s in
    if R_eqb q 0 || R_ltb (br_x s + p / q) (br_a s) || R_ltb (br_b s) (br_x s + p / q) || R_ltb (Rabs (br_e s / 2)) (Rabs (p / q))
    then brent_golden s
    else (p / q, br_d s)
  else brent_golden s.
(** brent.h:166-196 one function evaluation and the update *)
Definition brent_update (f : R -> R) (d e : R) (s : br) : br :=
  let u := br_x s + d in
  let fu := f u in
  let calls := u :: br_calls s in
  if R_ltb fu (br_fx s) then
    let a := if R_ltb (br_x s) u then br_x s else br_a s in
    let b := if R_ltb (br_x s) u then br_b s else br_x s in
    mkbr a b u (br_x s) (br_w s) fu (br_fx s) (br_fw s) d e calls
  else
    let a := if R_ltb u (br_x s) then u else br_a s in
    let b := if R_ltb u (br_x s) then br_b s else u in
    if negb (R_ltb (br_fw s) fu) || R_eqb (br_w s) (br_x s) then
      mkbr a b (br_x s) u (br_w s) (br_fx s) fu (br_fw s) d e calls
    else if negb (R_ltb (br_fv s) fu) || R_eqb (br_v s) (br_x s) || R_eqb (br_v s) (br_w s) then
      mkbr a b (br_x s) (br_w s) u (br_fx s) (br_fw s) fu d e calls
    else mkbr a b (br_x s) (br_w s) (br_v s) (br_fx s) (br_fw s) (br_fv s) d e calls.
Definition brent_step (f : R -> R) (tolerance epsilon : R) (s : br) : br :=
  let (d, e) := brent_move tolerance epsilon s in brent_update f d e s.
(** brent.h:84-88 the loop; n = maxiterations - i *)
Fixpoint brent_loop (n : nat) (f : R -> R) (tolerance epsilon : R) (s : br) : br :=
  match n with
  | O => s
  | S k => if brent_wide tolerance epsilon s then brent_loop k f tolerance epsilon (brent_step f tolerance epsilon s) else s
  end.
(** brent.h:55-200; the result is (x, value, calls). A negative maxiterations is the same as 0. *)
Definition brent_line_search (f : R -> R) (a x b fx : R) (maxiterations : Z) (tolerance epsilon : R) : R * R * list R :=
  let s := brent_loop (Z.to_nat maxiterations) f tolerance epsilon (brent_init a x b fx) in
  (br_x s, br_fx s, br_calls s).
