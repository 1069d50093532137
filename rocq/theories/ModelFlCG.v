(** * optimization/conjugate_gradient.h in floating point: ModelCG with a rounding after every arithmetic operation. Model only.
    A value is a real number or NaN (None); overflow and underflow are not modelled. Simplifications as in ModelCG.v. *)
From Coq Require Import Reals ZArith Bool List.
From Verif Require Import Base Alg Inst RSum ModelLie ModelOpt ModelCG ModelFl ModelFlGolden ModelFlBrent.
Open Scope outcome_scope.
Local Open Scope R_scope.

Section M.
Variable rnd : R -> R.
(** conjugate_gradient.h:88-97 *)
Fixpoint fl_bk_start (fuel : nat) (f : R -> option R) (lambda : R) : outcome (R * option R) :=
  match fuel with
  | O => OutOfFuel
  | S k => if isnan (f lambda) then fl_bk_start k f (rnd (lambda * / 2)) else Ok (lambda, f lambda)
  end.
(** conjugate_gradient.h:104-122 *)
Fixpoint fl_bk_forward (fuel : nat) (f : R -> option R) (lambda last_good a : R) (av : option R) (b : R) (bv : option R) : outcome (bracket * R) :=
  match fuel with
  | O => OutOfFuel
  | S k =>
    let lambda := rnd (lambda * 2) in
    let c := lambda in
    let cv := f c in
    if isnan cv then Ok (mkbk a b c av bv cv, last_good)
    else let last_good := lambda in
         if olt bv cv then Ok (mkbk a b c av bv cv, last_good) else fl_bk_forward k f lambda last_good b bv c cv
  end.
(** conjugate_gradient.h:131-139 *)
Fixpoint fl_bk_backoff (fuel : nat) (f : R -> option R) (last_good bad l : R) : outcome (R * option R) :=
  match fuel with
  | O => OutOfFuel
  | S k =>
    let l := rnd (l * / 2) in
    let c := rnd (last_good + rnd (rnd (bad - last_good) * l)) in
    let cv := f c in
    if negb (isnan cv) then Ok (c, cv) else fl_bk_backoff k f last_good bad l
  end.
(** conjugate_gradient.h:148-167 *)
Fixpoint fl_bk_backward (fuel : nat) (f : R -> option R) (zeps lambda : R) (av : option R) (c : R) (cv : option R) : outcome bracket :=
  match fuel with
  | O => OutOfFuel
  | S k =>
    let lambda := rnd (lambda * / 2) in
    let b := lambda in
    let bv := f b in
    if olt bv av then Ok (mkbk 0 b c av bv cv)
    else if R_ltb lambda zeps then Ok bk_zeros
    else fl_bk_backward k f zeps lambda av b bv
  end.
(** conjugate_gradient.h:76-176 *)
Definition fl_bracket_minimum_forward (fuel : nat) (a_val : option R) (f : R -> option R) (initial_lambda zeps : R) : outcome bracket :=
  ' (lambda, bv) <- fl_bk_start fuel f initial_lambda ;;
  if olt bv a_val then
    ' (r, last_good) <- fl_bk_forward fuel f lambda lambda 0 a_val lambda bv ;;
    if isnan (bk_cv r) then
      ' (c, cv) <- fl_bk_backoff fuel f last_good (bk_c r) 1 ;;
      Ok (mkbk (bk_a r) (bk_b r) c (bk_av r) (bk_bv r) cv)
    else Ok r
  else fl_bk_backward fuel f zeps lambda a_val lambda bv.

(** conjugate_gradient.h:251-306: negation is exact; the square root and the literal 1e-20 are rounded *)
Definition fl_cg_init (machine_eps : R) (n : nat) (start : point) (fstart : R) (deriv : point) (junk1 junk2 junk3 : point) : cg :=
  mkcg n deriv deriv (fun i => - deriv i) junk1 junk2 start junk3 fstart fstart (rnd (sqrt machine_eps)) (rnd (/ 10 ^ 20)) (Z.of_nat n * 100)
       1 (rnd (sqrt machine_eps)) (rnd (/ 10 ^ 20)) 100 (rnd (/ 10 ^ 20)) 0.
(** conjugate_gradient.h:59-62 *)
Definition fl_line (f : point -> R) (start direction : point) (t : R) : R := f (fun i => rnd (start i + rnd (t * direction i))).
(** conjugate_gradient.h:322-371 find_next_point *)
Definition fl_find_next_point (debug : bool) (fuel : nat) (f : point -> R) (s : cg) : outcome cg :=
  let ln := fl_line f (cg_x s) (cg_minus_h s) in
  bk <- fl_bracket_minimum_forward fuel (Some (cg_y s)) (fun t => Some (ln t)) (cg_lambda s) (cg_bracket_epsilon s) ;;
  let moved x y := mkcg (cg_size s) (cg_g s) (cg_h s) (cg_minus_h s) (cg_old_g s) (cg_old_h s) x (cg_x s) y (cg_y s) (cg_tolerance s) (cg_epsilon s) (cg_max_iterations s)
                        (cg_lambda s) (cg_ls_tolerance s) (cg_ls_epsilon s) (cg_ls_max s) (cg_bracket_epsilon s) (cg_iterations s + 1) in
  let a := bk_a bk in let b := bk_b bk in let c := bk_c bk in
  if R_eqb a 0 && R_eqb b 0 && R_eqb c 0 then Ok (moved (cg_x s) (cg_y s))
  else if R_ltb c b then
    match bk_cv bk with Some c_val => Ok (moved (fun i => rnd (cg_x s i - rnd (cg_h s i * c))) c_val) | None => NonFinite end
  else
    _ <- cg_assert debug (R_ltb a b && R_ltb b c) ;;
    _ <- cg_assert debug (olt (bk_bv bk) (bk_av bk) && olt (bk_bv bk) (bk_cv bk)) ;;
    match bk_bv bk with
    | Some b_val =>
      let '(m0, m1, _) := fl_brent_line_search rnd ln a b c b_val (cg_ls_max s) (cg_ls_tolerance s) (cg_ls_epsilon s) in
      _ <- cg_assert debug (negb (R_ltb m0 a) && negb (R_ltb c m0)) ;;
      _ <- cg_assert debug (negb (R_ltb b_val m1)) ;;
      Ok (moved (fun i => rnd (cg_x s i - rnd (m0 * cg_h s i))) m1)
    | None => NonFinite
    end.
(** conjugate_gradient.h:375-379 finished *)
Definition fl_cg_finished (s : cg) : bool :=
  (cg_max_iterations s <? cg_iterations s)%Z ||
  negb (R_ltb (rnd (cg_tolerance s * rnd (rnd (Rabs (cg_y s) + Rabs (cg_old_y s)) + cg_epsilon s))) (rnd (2 * Rabs (rnd (cg_y s - cg_old_y s))))).
(** conjugate_gradient.h:389-400 update_vectors_PR *)
Definition fl_update_vectors_PR (grad : point) (s : cg) : outcome cg :=
  let n := cg_size s in
  let old_g := cg_g s in let old_h := cg_h s in let g := grad in
  let dot x y := @sum R (FlOps rnd) n (fun i => rnd (x i * y i)) in
  gamma <- @div R (FlOps rnd) (rnd (dot g g - dot old_g g)) (dot old_g old_g) ;;
  let h := fun i => rnd (g i + rnd (gamma * old_h i)) in
  Ok (mkcg n g h (fun i => - h i) old_g old_h (cg_x s) (cg_old_x s) (cg_y s) (cg_old_y s) (cg_tolerance s) (cg_epsilon s) (cg_max_iterations s)
           (cg_lambda s) (cg_ls_tolerance s) (cg_ls_epsilon s) (cg_ls_max s) (cg_bracket_epsilon s) (cg_iterations s)).
(** conjugate_gradient.h:419-430 iterate *)
Definition fl_cg_iterate (debug : bool) (fuel : nat) (f : point -> R) (deriv : point -> point) (s : cg) : outcome (cg * bool) :=
  s <- fl_find_next_point debug fuel f s ;;
  if negb (fl_cg_finished s) then (s <- fl_update_vectors_PR (deriv (cg_x s)) s ;; Ok (s, true)) else Ok (s, false).
End M.
