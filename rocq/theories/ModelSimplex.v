(** * optimization/downhill_simplex.h, over the reals. Model only. Points are functions of the coordinate; the function to minimise is never NaN or infinite. *)
From Coq Require Import Reals Arith Bool.
From Verif Require Import Base Alg Inst RSum ModelCG.
Open Scope outcome_scope.
Local Open Scope R_scope.

(** downhill_simplex.h:305-320: the members. There are ds_n + 1 vertices in ds_n dimensions. *)
Record ds := mkds { ds_n : nat; ds_alpha : R; ds_rho : R; ds_gamma : R; ds_sigma : R; ds_epsilon : R; ds_zero_epsilon : R; ds_simplex : nat -> point; ds_values : nat -> R }.
Definition ds_with (s : ds) (sx : nat -> point) (v : nat -> R) : ds := mkds (ds_n s) (ds_alpha s) (ds_rho s) (ds_gamma s) (ds_sigma s) (ds_epsilon s) (ds_zero_epsilon s) sx v.
(** std::min_element and std::max_element over elements 0..k (the first smallest, the first largest) *)
Fixpoint min_element (v : nat -> R) (k : nat) : nat := match k with O => O | S j => let b := min_element v j in if R_ltb (v (S j)) (v b) then S j else b end.
Fixpoint max_element (v : nat -> R) (k : nat) : nat := match k with O => O | S j => let b := max_element v j in if R_ltb (v b) (v (S j)) then S j else b end.
(** downhill_simplex.h:188-191 get_best, 194-197 get_worst *)
Definition get_best (s : ds) : nat := min_element (ds_values s) (ds_n s).
Definition get_worst (s : ds) : nat := max_element (ds_values s) (ds_n s).
(** downhill_simplex.h:138-148 restart(func, c, spread) *)
Definition ds_restart_at (f : point -> R) (c : point) (spread : R) (s : ds) : ds :=
  let sx := fun i => c in
  let sx := fun i => if (i <? ds_n s)%nat then (fun k => if (k =? i)%nat then sx i k + spread else sx i k) else sx i in
  ds_with s sx (fun i => f (sx i)).
(** downhill_simplex.h:117-131 the constructor; machine_eps stands for numeric_limits<Precision>::epsilon() *)
Definition ds_new (machine_eps : R) (f : point -> R) (n : nat) (c : point) (spread : R) : ds :=
  ds_restart_at f c spread (mkds n 1 2 (/ 2) (/ 2) (sqrt machine_eps) (/ 10 ^ 20) (fun _ _ => 0) (fun _ => 0)).
(** downhill_simplex.h:170-173 restart(func, spread): around (a copy of) the best vertex *)
Definition ds_restart (f : point -> R) (spread : R) (s : ds) : ds := ds_restart_at f (ds_simplex s (get_best s)) spread s.
(** downhill_simplex.h:155-164 finished. A zero scale makes span/scale infinite or NaN, and the first comparison false. *)
Definition pnorm (n : nat) (p : point) : R := sqrt (Sum n (fun k => p k * p k)).
Definition ds_finished (s : ds) : bool :=
  let b := ds_simplex s (get_best s) in let w := ds_simplex s (get_worst s) in
  let span := pnorm (ds_n s) (fun k => b k - w k) in
  let scale := pnorm (ds_n s) b in
  (if R_eqb scale 0 then false else R_ltb (span / scale) (ds_epsilon s)) || R_ltb span (ds_zero_epsilon s).

(** downhill_simplex.h:214-231 the loop over the first k vertices: best value (None = HUGE_VAL), its index, second worst value
    (None = -HUGE_VAL), sum of the vertices other than the worst *)
Record scan := mkscan { sc_bestval : option R; sc_best : nat; sc_second : option R; sc_x0 : point }.
Fixpoint ds_scan (s : ds) (worst k : nat) : scan :=
  match k with
  | O => mkscan None 0 None (fun _ => 0)
  | S i =>
    let t := ds_scan s worst i in
    let better := match sc_bestval t with None => true | Some b => R_ltb (ds_values s i) b end in
    let bestval := if better then Some (ds_values s i) else sc_bestval t in
    let best := if better then i else sc_best t in
    if negb (i =? worst)%nat then
      mkscan bestval best
        (match sc_second t with None => Some (ds_values s i) | Some x => if R_ltb x (ds_values s i) then Some (ds_values s i) else Some x end)
        (fun k => sc_x0 t k + ds_simplex s i k)
    else mkscan bestval best (sc_second t) (sc_x0 t)
  end.
Definition below (x : R) (y : option R) : bool := match y with None => true | Some b => R_ltb x b end.
Definition below_second (x : R) (y : option R) : bool := match y with None => false | Some b => R_ltb x b end.
Definition set_vertex (s : ds) (w : nat) (p : point) (v : R) : ds :=
  ds_with s (fun i => if (i =? w)%nat then p else ds_simplex s i) (fun i => if (i =? w)%nat then v else ds_values s i).
(** downhill_simplex.h:201-294 find_next_point *)
Definition ds_find_next_point (f : point -> R) (s : ds) : outcome ds :=
  let worst := get_worst s in
  let worst_val := ds_values s worst in
  let t := ds_scan s worst (ds_n s + 1) in
  inv_n <- div (F:=R) 1 (INR (ds_n s)) ;;
  let x0 := fun k => sc_x0 t k * inv_n in
  let vw := ds_simplex s worst in
  let xr := fun k => (1 + ds_alpha s) * x0 k - ds_alpha s * vw k in
  let fr := f xr in
  if below fr (sc_bestval t) then
    let xe := fun k => ds_rho s * xr k + (1 - ds_rho s) * x0 k in
    let fe := f xe in
    Ok (if R_ltb fe fr then set_vertex s worst xe fe else set_vertex s worst xr fr)
  else if below_second fr (sc_second t) then Ok (set_vertex s worst xr fr)
  else
    let shrink := (* 288-293 *)
      let b := sc_best t in
      let sx := fun i => if (i =? b)%nat then ds_simplex s i else (fun k => ds_simplex s b k + ds_sigma s * (ds_simplex s i k - ds_simplex s b k)) in
      ds_with s sx (fun i => if (i =? b)%nat then ds_values s i else f (sx i)) in
    if R_ltb fr worst_val then
      let xc := fun k => (1 + ds_gamma s) * x0 k - ds_gamma s * vw k in
      let fc := f xc in
      Ok (if R_ltb fr fc then shrink else set_vertex s worst xc fc)
    else Ok shrink.
(** downhill_simplex.h:299-303 iterate *)
Definition ds_iterate (f : point -> R) (s : ds) : outcome (ds * bool) := s <- ds_find_next_point f s ;; Ok (s, negb (ds_finished s)).
