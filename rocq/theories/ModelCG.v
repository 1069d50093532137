(** * optimization/conjugate_gradient.h, over the reals. Model only.
    A value that may be NaN is an option (None = NaN; every comparison with it is false). Points are functions of the coordinate. *)
From Coq Require Import Reals ZArith Bool List.
From Verif Require Import Base Alg Inst RSum ModelLie ModelOpt.
Open Scope outcome_scope.
Local Open Scope R_scope.

Definition olt (x y : option R) : bool := match x, y with Some a, Some b => R_ltb a b | _, _ => false end.
Definition isnan (x : option R) : bool := match x with None => true | _ => false end.

(** conjugate_gradient.h:170-175: the returned 3x2 matrix *)
Record bracket := mkbk { bk_a : R; bk_b : R; bk_c : R; bk_av : option R; bk_bv : option R; bk_cv : option R }.
Definition bk_zeros : bracket := mkbk 0 0 0 (Some 0) (Some 0) (Some 0).
(** conjugate_gradient.h:88-97 halve lambda while the value is NaN; the result is (lambda, b_val) *)
Fixpoint bk_start (fuel : nat) (f : R -> option R) (lambda : R) : outcome (R * option R) :=
  match fuel with
  | O => OutOfFuel
  | S k => if isnan (f lambda) then bk_start k f (lambda * / 2) else Ok (lambda, f lambda)
  end.
(** conjugate_gradient.h:104-122 double lambda until the function rises or is NaN; the result is (a, a_val, b, b_val, c, c_val, last_good_lambda) *)
Fixpoint bk_forward (fuel : nat) (f : R -> option R) (lambda last_good a : R) (av : option R) (b : R) (bv : option R) : outcome (bracket * R) :=
  match fuel with
  | O => OutOfFuel
  | S k =>
    let lambda := lambda * 2 in
    let c := lambda in
    let cv := f c in
    if isnan cv then Ok (mkbk a b c av bv cv, last_good)
    else let last_good := lambda in
         if olt bv cv then Ok (mkbk a b c av bv cv, last_good) else bk_forward k f lambda last_good b bv c cv
  end.
(** conjugate_gradient.h:131-139 back up from the bad lambda; the result is (c, c_val) *)
Fixpoint bk_backoff (fuel : nat) (f : R -> option R) (last_good bad l : R) : outcome (R * option R) :=
  match fuel with
  | O => OutOfFuel
  | S k =>
    let l := l * / 2 in
    let c := last_good + (bad - last_good) * l in
    let cv := f c in
    if negb (isnan cv) then Ok (c, cv) else bk_backoff k f last_good bad l
  end.
(** conjugate_gradient.h:148-167 halve lambda until the function falls or the step is small *)
Fixpoint bk_backward (fuel : nat) (f : R -> option R) (zeps lambda : R) (av : option R) (c : R) (cv : option R) : outcome bracket :=
  match fuel with
  | O => OutOfFuel
  | S k =>
    let lambda := lambda * / 2 in
    let b := lambda in
    let bv := f b in
    if olt bv av then Ok (mkbk 0 b c av bv cv)
    else if R_ltb lambda zeps then Ok bk_zeros
    else bk_backward k f zeps lambda av b bv
  end.
(** conjugate_gradient.h:76-176 *)
Definition bracket_minimum_forward (fuel : nat) (a_val : option R) (f : R -> option R) (initial_lambda zeps : R) : outcome bracket :=
  ' (lambda, bv) <- bk_start fuel f initial_lambda ;;
  if olt bv a_val then
    ' (r, last_good) <- bk_forward fuel f lambda lambda 0 a_val lambda bv ;;
    if isnan (bk_cv r) then
      ' (c, cv) <- bk_backoff fuel f last_good (bk_c r) 1 ;;
      Ok (mkbk (bk_a r) (bk_b r) c (bk_av r) (bk_bv r) cv)
    else Ok r
  else bk_backward fuel f zeps lambda a_val lambda bv.

(** conjugate_gradient.h:227-249: the members *)
Definition point := nat -> R.
Record cg := mkcg {
  cg_size : nat; cg_g : point; cg_h : point; cg_minus_h : point; cg_old_g : point; cg_old_h : point; cg_x : point; cg_old_x : point;
  cg_y : R; cg_old_y : R; cg_tolerance : R; cg_epsilon : R; cg_max_iterations : Z;
  cg_lambda : R; cg_ls_tolerance : R; cg_ls_epsilon : R; cg_ls_max : Z; cg_bracket_epsilon : R; cg_iterations : Z }.
(** conjugate_gradient.h:251-306: construction from a start point, the function and its gradient there. Vectors that are not
    assigned are arbitrary (junk); machine_eps stands for numeric_limits<Precision>::epsilon() *)
Definition cg_init (machine_eps : R) (n : nat) (start : point) (fstart : R) (deriv : point) (junk1 junk2 junk3 : point) : cg :=
  mkcg n deriv deriv (fun i => - deriv i) junk1 junk2 start junk3 fstart fstart (sqrt machine_eps) (/ 10 ^ 20) (Z.of_nat n * 100)
       1 (sqrt machine_eps) (/ 10 ^ 20) 100 (/ 10 ^ 20) 0.
(** conjugate_gradient.h:59-62 LineSearch::operator() *)
Definition line (f : point -> R) (start direction : point) (t : R) : R := f (fun i => start i + t * direction i).
Definition cg_assert (debug : bool) (b : bool) : outcome unit := if debug then assert_ b else Ok tt.
(** conjugate_gradient.h:322-371 find_next_point; debug = asserts are compiled in (no NDEBUG). The function is never NaN here. *)
Definition find_next_point (debug : bool) (fuel : nat) (f : point -> R) (s : cg) : outcome cg :=
  let ln := line f (cg_x s) (cg_minus_h s) in
  bk <- bracket_minimum_forward fuel (Some (cg_y s)) (fun t => Some (ln t)) (cg_lambda s) (cg_bracket_epsilon s) ;;
  let moved x y := mkcg (cg_size s) (cg_g s) (cg_h s) (cg_minus_h s) (cg_old_g s) (cg_old_h s) x (cg_x s) y (cg_y s) (cg_tolerance s) (cg_epsilon s) (cg_max_iterations s)
                        (cg_lambda s) (cg_ls_tolerance s) (cg_ls_epsilon s) (cg_ls_max s) (cg_bracket_epsilon s) (cg_iterations s + 1) in
  let a := bk_a bk in let b := bk_b bk in let c := bk_c bk in
  if R_eqb a 0 && R_eqb b 0 && R_eqb c 0 then Ok (moved (cg_x s) (cg_y s))
  else if R_ltb c b then
    match bk_cv bk with Some c_val => Ok (moved (fun i => cg_x s i - cg_h s i * c) c_val) | None => NonFinite end
  else
    _ <- cg_assert debug (R_ltb a b && R_ltb b c) ;;
    _ <- cg_assert debug (olt (bk_bv bk) (bk_av bk) && olt (bk_bv bk) (bk_cv bk)) ;;
    match bk_bv bk with
    | Some b_val =>
      let '(m0, m1, _) := brent_line_search ln a b c b_val (cg_ls_max s) (cg_ls_tolerance s) (cg_ls_epsilon s) in
      _ <- cg_assert debug (negb (R_ltb m0 a) && negb (R_ltb c m0)) ;;
      _ <- cg_assert debug (negb (R_ltb b_val m1)) ;;
      Ok (moved (fun i => cg_x s i - m0 * cg_h s i) m1)
    | None => NonFinite
    end.
(** conjugate_gradient.h:375-379 finished *)
Definition cg_finished (s : cg) : bool :=
  (cg_max_iterations s <? cg_iterations s)%Z || negb (R_ltb (cg_tolerance s * (Rabs (cg_y s) + Rabs (cg_old_y s) + cg_epsilon s)) (2 * Rabs (cg_y s - cg_old_y s))).
(** conjugate_gradient.h:389-400 update_vectors_PR *)
Definition update_vectors_PR (grad : point) (s : cg) : outcome cg :=
  let n := cg_size s in
  let old_g := cg_g s in let old_h := cg_h s in let g := grad in
  gamma <- div (F:=R) (Sum n (fun i => g i * g i) - Sum n (fun i => old_g i * g i)) (Sum n (fun i => old_g i * old_g i)) ;;
  let h := fun i => g i + gamma * old_h i in
  Ok (mkcg n g h (fun i => - h i) old_g old_h (cg_x s) (cg_old_x s) (cg_y s) (cg_old_y s) (cg_tolerance s) (cg_epsilon s) (cg_max_iterations s)
           (cg_lambda s) (cg_ls_tolerance s) (cg_ls_epsilon s) (cg_ls_max s) (cg_bracket_epsilon s) (cg_iterations s)).
(** conjugate_gradient.h:419-430 iterate: the new state and whether to continue *)
Definition cg_iterate (debug : bool) (fuel : nat) (f : point -> R) (deriv : point -> point) (s : cg) : outcome (cg * bool) :=
  s <- find_next_point debug fuel f s ;;
  if negb (cg_finished s) then (s <- update_vectors_PR (deriv (cg_x s)) s ;; Ok (s, true)) else Ok (s, false).
