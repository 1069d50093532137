(** * optimization/golden_section.h in floating point: ModelOpt's golden section search with a rounding after every arithmetic operation. Model only. *)
From Coq Require Import Reals ZArith Bool List.
From Verif Require Import Base Alg Inst ModelOpt.
Open Scope outcome_scope.
Local Open Scope R_scope.

(** golden_section.h:55 for Precision = double (for float the constant is computed in double and then rounded once more) *)
Definition fl_g (rnd : R -> R) : R := rnd (rnd (3 - rnd (sqrt 5)) / 2).
(** golden_section.h:62-77; the record gs holds a, x1, x2, c, fx1, fx2 and the points where the functor was called, most recent first *)
Definition fl_golden_init (rnd f : R -> R) (a b c fb : R) : gs :=
  if R_ltb (Rabs (rnd (c - b))) (Rabs (rnd (b - a)))
  then (let x1 := rnd (b - rnd (fl_g rnd * rnd (b - a))) in mkgs a x1 b c (f x1) fb (x1 :: nil))
  else (let x2 := rnd (b + rnd (fl_g rnd * rnd (c - b))) in mkgs a b x2 c fb (f x2) (x2 :: nil)).
(** golden_section.h:83 *)
Definition fl_golden_continue (rnd : R -> R) (maxiterations : Z) (tol : R) (s : gs) : bool :=
  R_ltb (rnd (tol * rnd (Rabs (gs_x2 s) + Rabs (gs_x1 s)))) (Rabs (rnd (gs_c s - gs_a s))) && (1 <? maxiterations)%Z.
(** golden_section.h:85-108 *)
Definition fl_golden_step (rnd f : R -> R) (s : gs) : gs :=
  if R_ltb (gs_f2 s) (gs_f1 s)
  then (let x1 := gs_x2 s in let x2 := rnd (x1 + rnd (fl_g rnd * rnd (gs_c s - x1))) in mkgs (gs_x1 s) x1 x2 (gs_c s) (gs_f2 s) (f x2) (x2 :: gs_calls s))
  else (let x2 := gs_x1 s in let x1 := rnd (x2 - rnd (fl_g rnd * rnd (x2 - gs_a s))) in mkgs (gs_a s) x1 x2 (gs_x2 s) (f x1) (gs_f1 s) (x1 :: gs_calls s)).
Fixpoint fl_golden_loop (fuel : nat) (rnd f : R -> R) (maxiterations : Z) (tol : R) (s : gs) : outcome gs :=
  match fuel with
  | O => OutOfFuel
  | S k => if fl_golden_continue rnd maxiterations tol s then fl_golden_loop k rnd f maxiterations tol (fl_golden_step rnd f s) else Ok s
  end.
(** golden_section.h:51-116; the result is (x, value, calls) *)
Definition fl_golden_section_search (fuel : nat) (rnd f : R -> R) (a b c fb : R) (maxiterations : Z) (tol : R) : outcome (R * R * list R) :=
  s <- fl_golden_loop fuel rnd f maxiterations tol (fl_golden_init rnd f a b c fb) ;;
  Ok (if R_ltb (gs_f1 s) (gs_f2 s) then (gs_x1 s, gs_f1 s, gs_calls s) else (gs_x2 s, gs_f2 s, gs_calls s)).
