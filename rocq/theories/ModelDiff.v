(** * functions/derivatives.h, over the reals. Model only.
    A value that may be NaN is an option (None = NaN); infinities, rounding and the float/double conversions are not modelled.
    Points are functions of the coordinate. The functors that are differentiated keep a point as state. *)
From Coq Require Import Reals Arith Bool.
From Verif Require Import Base Alg Inst ModelCG.
Local Open Scope R_scope.

Definition upd {A} (P : nat -> A) (i : nat) (v : A) : nat -> A := fun k => if (k =? i)%nat then v else P k.
(** derivatives.h:50, 52: c, t and Npts *)
Definition ridder_c : R := 11 / 10.
Definition ridder_t : R := 2.
Definition ridder_points : nat := 400.
(** derivatives.h:125 (c^j P_i[j-1] - P_i_1[j-1]) / (c^j - 1); c^j is never 1 *)
Definition extrapolated (cj : R) (cur prev : option R) : option R :=
  match cur, prev with Some a, Some b => Some ((cj * a - b) / (cj - 1)) | _, _ => None end.
(** |a - b| *)
Definition distance (a b : option R) : option R := match a, b with Some a, Some b => Some (Rabs (a - b)) | _, _ => None end.
(** std::max(a, b) is (a < b) ? b : a *)
Definition omax (a b : option R) : option R := if olt a b then b else a.
(** derivatives.h:95-96 best_point and best_err; None = both HUGE_VAL *)
Definition best := option (R * R).
(** derivatives.h:115, 139: err < best_err && isfinite(err) *)
Definition improves (err : option R) (b : best) : bool := match err, b with Some e, Some (_, be) => R_ltb e be | Some _, None => true | None, _ => false end.
(** derivatives.h:109-145: the variables of the loop over j *)
Record row := mkrow { rw_P : nat -> option R; rw_cj : R; rw_ok : bool; rw_better : bool; rw_best : best }.
(** derivatives.h:117-145 the body of the loop over j (any_ok is never set) *)
Definition ext_column (P_i_1 : nat -> option R) (j : nat) (s : row) : row :=
  let cj := rw_cj s * ridder_c in
  let p := extrapolated cj (rw_P s (j - 1)) (P_i_1 (j - 1)%nat) in
  let ok := rw_ok s || negb (isnan p) in
  let err := omax (distance p (rw_P s (j - 1)%nat)) (distance p (P_i_1 (j - 1)%nat)) in
  if improves err (rw_best s)
  then mkrow (upd (rw_P s) j p) cj ok true (match p, err with Some a, Some e => Some (a, e) | _, _ => None end)
  else mkrow (upd (rw_P s) j p) cj ok (rw_better s) (rw_best s).
(** derivatives.h:117 for(int j=1; j <= i; j++): the first k columns *)
Fixpoint ext_columns (P_i_1 : nat -> option R) (k : nat) (s : row) : row :=
  match k with O => s | S j => ext_column P_i_1 (S j) (ext_columns P_i_1 j s) end.
(** derivatives.h:150 abs(P_i[i] - P_i_1[i-1]) > t * best_err || isnan(P_i[i]) *)
Definition went_bad (i : nat) (P_i P_i_1 : nat -> option R) (b : best) : bool :=
  match distance (P_i i) (P_i_1 (i - 1)%nat), b with Some d, Some (_, be) => R_ltb (ridder_t * be) d | _, _ => false end || isnan (P_i i).
(** derivatives.h:103-152 the loop over i, with n iterations left; the functor maps its state and the step to a value and its new state *)
Fixpoint ext_rows {St} (f : St -> R -> option R * St) (n i : nat) (x : R) (P_i_1 : nat -> option R) (b : best) (ok : bool) (s : St) : best * St :=
  match n with
  | O => (b, s)
  | S m =>
    let (y, s) := f s x in
    let r := ext_columns P_i_1 i (mkrow (upd (fun _ => None) 0 y) 1 ok false b) in
    if rw_ok r && negb (rw_better r) && (0 <? i)%nat && went_bad i (rw_P r) P_i_1 (rw_best r) then (rw_best r, s)
    else ext_rows f m (S i) (x / ridder_c) (rw_P r) (rw_best r) (rw_ok r) s
  end.
(** derivatives.h:44-157 extrapolate_to_zero *)
Definition extrapolate_to_zero {St} (f : St -> R -> option R * St) (s : St) : best * St := ext_rows f ridder_points 0 1 (fun _ => None) None false s.

(** derivatives.h:182, 217, 254: h = hh * max(abs(v[i]) * 1e-3, 1e-3) *)
Definition step_size (v : point) (i : nat) (hh : R) : R := hh * Rmax (Rabs (v i) * / 1000) (/ 1000).
Definition fn := point -> option R.
(** derivatives.h:176-194 CentralDifferenceGradient::operator(); the state is x *)
Definition gradient_difference (f : fn) (v : point) (i : nat) (x : point) (hh : R) : option R * point :=
  let h := step_size v i hh in
  let x := upd x i (v i - h) in let f1 := f x in
  let x := upd x i (v i + h) in let f2 := f x in
  let x := upd x i (v i) in
  (match f2, f1 with Some f2, Some f1 => Some ((f2 - f1) / (2 * h)) | _, _ => None end, x).
(** derivatives.h:211-230 CentralDifferenceSecond::operator() *)
Definition second_difference (f : fn) (v : point) (central : option R) (i : nat) (x : point) (hh : R) : option R * point :=
  let h := step_size v i hh in
  let x := upd x i (v i - h) in let f1 := f x in
  let x := upd x i (v i + h) in let f2 := f x in
  let x := upd x i (v i) in
  (match f2, f1, central with Some f2, Some f1, Some f0 => Some ((f2 - 2 * f0 + f1) / (h * h)) | _, _, _ => None end, x).
(** derivatives.h:249-276 CentralCrossDifferenceSecond::operator(): x is left at the last point *)
Definition cross_difference (f : fn) (v : point) (i j : nat) (x : point) (hh : R) : option R * point :=
  let h := step_size v i hh in
  let x := upd (upd x i (v i + h)) j (v j + h) in let a := f x in
  let x := upd (upd x i (v i - h)) j (v j + h) in let b := f x in
  let x := upd (upd x i (v i + h)) j (v j - h) in let c := f x in
  let x := upd (upd x i (v i - h)) j (v j - h) in let d := f x in
  (match a, b, c, d with Some a, Some b, Some c, Some d => Some ((a - b - c + d) / (4 * h * h)) | _, _, _, _ => None end, x).

Fixpoint upto {A} (n : nat) (body : nat -> A -> A) (s : A) : A := match n with O => s | S k => body k (upto k body s) end.
(** derivatives.h:376-392 numerical_gradient_with_errors: row i of the returned matrix is (derivative, error); None = HUGE_VAL *)
Definition numerical_gradient_with_errors (f : fn) (n : nat) (v : point) : nat -> best :=
  snd (upto n (fun i s => let (e, x) := extrapolate_to_zero (gradient_difference f v i) (fst s) in (x, upd (snd s) i e)) (v, fun _ => None)).
(** derivatives.h:352-366 numerical_gradient *)
Definition numerical_gradient (f : fn) (n : nat) (v : point) : nat -> option R :=
  snd (upto n (fun i s => let (e, x) := extrapolate_to_zero (gradient_difference f v i) (fst s) in (x, upd (snd s) i (option_map fst e))) (v, fun _ => None)).
(** hess[r][c] = value *)
Definition upd2 {A} (M : nat -> nat -> A) (r c : nat) (v : A) : nat -> nat -> A := fun i j => if ((i =? r) && (j =? c))%nat then v else M i j.
(** derivatives.h:418-426, 455-461 the loops over r and over c = r+1 .. n-1 *)
Definition hessian_cross (f : fn) (n : nat) (v : point) : point * (nat -> nat -> best) :=
  upto n (fun r s => upto (n - (r + 1)) (fun k s =>
    let c := (r + 1 + k)%nat in
    let (e, x) := extrapolate_to_zero (cross_difference f v r c) (fst s) in
    (x, upd2 (upd2 (snd s) c r e) r c e)) s) (v, fun _ _ => None).
(** derivatives.h:428-434, 463-468 the diagonal *)
Definition hessian_diag (f : fn) (n : nat) (v : point) (H : nat -> nat -> best) : point * (nat -> nat -> best) :=
  upto n (fun i s => let (e, x) := extrapolate_to_zero (second_difference f v (f v) i) (fst s) in (x, upd2 (snd s) i i e)) (v, H).
(** derivatives.h:406-436 numerical_hessian_with_errors: both matrices, as pairs (value, error) *)
Definition numerical_hessian_with_errors (f : fn) (n : nat) (v : point) : nat -> nat -> best :=
  snd (hessian_diag f n v (snd (hessian_cross f n v))).
(** derivatives.h:444-470 numerical_hessian *)
Definition numerical_hessian (f : fn) (n : nat) (v : point) : nat -> nat -> option R :=
  fun r c => option_map fst (numerical_hessian_with_errors f n v r c).
