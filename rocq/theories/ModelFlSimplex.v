(** * optimization/downhill_simplex.h in floating point: ModelSimplex with a rounding after every arithmetic operation. Model only. *)
From Coq Require Import Reals Arith Bool.
From Verif Require Import Base Alg Inst ModelCG ModelFl ModelSimplex.
Open Scope outcome_scope.
Local Open Scope R_scope.

(** downhill_simplex.h:138-148 restart(func, c, spread) *)
Definition fl_ds_restart_at (rnd : R -> R) (f : point -> R) (c : point) (spread : R) (s : ds) : ds :=
  let sx := fun i => c in
  let sx := fun i => if (i <? ds_n s)%nat then (fun k => if (k =? i)%nat then rnd (sx i k + spread) else sx i k) else sx i in
  ds_with s sx (fun i => f (sx i)).
(** downhill_simplex.h:117-131 the constructor; zero_epsilon = 1e-20 is rounded *)
Definition fl_ds_new (rnd : R -> R) (machine_eps : R) (f : point -> R) (n : nat) (c : point) (spread : R) : ds :=
  fl_ds_restart_at rnd f c spread (mkds n 1 2 (/ 2) (/ 2) (rnd (sqrt machine_eps)) (rnd (/ 10 ^ 20)) (fun _ _ => 0) (fun _ => 0)).
(** downhill_simplex.h:170-173 restart(func, spread) *)
Definition fl_ds_restart (rnd : R -> R) (f : point -> R) (spread : R) (s : ds) : ds := fl_ds_restart_at rnd f (ds_simplex s (get_best s)) spread s.
(** downhill_simplex.h:155-164 finished *)
Definition fl_pnorm (rnd : R -> R) (n : nat) (p : point) : R := rnd (sqrt (@sum R (FlOps rnd) n (fun k => rnd (p k * p k)))).
Definition fl_ds_finished (rnd : R -> R) (s : ds) : bool :=
  let b := ds_simplex s (get_best s) in let w := ds_simplex s (get_worst s) in
  let span := fl_pnorm rnd (ds_n s) (fun k => rnd (b k - w k)) in
  let scale := fl_pnorm rnd (ds_n s) b in
  (if R_eqb scale 0 then false else R_ltb (rnd (span / scale)) (ds_epsilon s)) || R_ltb span (ds_zero_epsilon s).
(** downhill_simplex.h:214-231 the loop over the first k vertices, as in ModelSimplex *)
Fixpoint fl_ds_scan (rnd : R -> R) (s : ds) (worst k : nat) : scan :=
  match k with
  | O => mkscan None 0 None (fun _ => 0)
  | S i =>
    let t := fl_ds_scan rnd s worst i in
    let better := match sc_bestval t with None => true | Some b => R_ltb (ds_values s i) b end in
    let bestval := if better then Some (ds_values s i) else sc_bestval t in
    let best := if better then i else sc_best t in
    if negb (i =? worst)%nat then
      mkscan bestval best
        (match sc_second t with None => Some (ds_values s i) | Some x => if R_ltb x (ds_values s i) then Some (ds_values s i) else Some x end)
        (fun k => rnd (sc_x0 t k + ds_simplex s i k))
    else mkscan bestval best (sc_second t) (sc_x0 t)
  end.
(** downhill_simplex.h:236, 266 the point (1 + a) * x0 - a * v; 243 the expansion; 291 the shrunk vertex *)
Definition fl_away (rnd : R -> R) (x0 v : point) (a : R) : point := fun k => rnd (rnd (rnd (1 + a) * x0 k) - rnd (a * v k)).
Definition fl_mix (rnd : R -> R) (xr x0 : point) (rho : R) : point := fun k => rnd (rnd (rho * xr k) + rnd (rnd (1 - rho) * x0 k)).
Definition fl_shrunk (rnd : R -> R) (vb vi : point) (sigma : R) : point := fun k => rnd (vb k + rnd (sigma * rnd (vi k - vb k))).
(** downhill_simplex.h:201-294 find_next_point *)
Definition fl_ds_find_next_point (rnd : R -> R) (f : point -> R) (s : ds) : outcome ds :=
  let worst := get_worst s in
  let worst_val := ds_values s worst in
  let t := fl_ds_scan rnd s worst (ds_n s + 1) in
  inv_n <- @div R (FlOps rnd) 1 (INR (ds_n s)) ;;
  let x0 := fun k => rnd (sc_x0 t k * inv_n) in
  let vw := ds_simplex s worst in
  let xr := fl_away rnd x0 vw (ds_alpha s) in
  let fr := f xr in
  if below fr (sc_bestval t) then
    let xe := fl_mix rnd xr x0 (ds_rho s) in
    let fe := f xe in
    Ok (if R_ltb fe fr then set_vertex s worst xe fe else set_vertex s worst xr fr)
  else if below_second fr (sc_second t) then Ok (set_vertex s worst xr fr)
  else
    let shrink := (* 288-293 *)
      let b := sc_best t in
      let sx := fun i => if (i =? b)%nat then ds_simplex s i else fl_shrunk rnd (ds_simplex s b) (ds_simplex s i) (ds_sigma s) in
      ds_with s sx (fun i => if (i =? b)%nat then ds_values s i else f (sx i)) in
    if R_ltb fr worst_val then
      let xc := fl_away rnd x0 vw (ds_gamma s) in
      let fc := f xc in
      Ok (if R_ltb fr fc then shrink else set_vertex s worst xc fc)
    else Ok shrink.
(** downhill_simplex.h:299-303 iterate *)
Definition fl_ds_iterate (rnd : R -> R) (f : point -> R) (s : ds) : outcome (ds * bool) := s <- fl_ds_find_next_point rnd f s ;; Ok (s, negb (fl_ds_finished rnd s)).
