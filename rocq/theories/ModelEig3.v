(** * SymEigen.h:140-350: the closed form for 3x3 symmetric matrices, over the reals. Model only. *)
From Coq Require Import Reals Arith Bool.
From Verif Require Import Base Alg Mat Inst ModelOps ModelHelpers ModelLie ModelEig.
Open Scope outcome_scope.
Local Open Scope R_scope.

(** std::pow(x, 1./6) for x >= 0; 1./6 is taken to be exactly one sixth *)
Definition pow_sixth (x : R) : R := if R_ltb 0 x then Rpower x (1 / 6) else 0.
(** SymEigen.h:164-203: the six elements read, the cubic and its roots in the order they are computed *)
Record sym3 := mksym3 { a11 : R; a12 : R; a13 : R; a22 : R; a23 : R; a33 : R }.
Definition cubic_roots (A : sym3) : R * R * R :=
  let a := - a11 A - a22 A - a33 A in
  let b := a11 A * a22 A + a11 A * a33 A + a22 A * a33 A - a12 A * a12 A - a13 A * a13 A - a23 A * a23 A in
  let c := a11 A * (a23 A * a23 A) + (a13 A * a13 A) * a22 A + (a12 A * a12 A) * a33 A - a12 A * a13 A * a23 A * 2 - a11 A * a22 A * a33 A in
  let p := b - a * a / 3 in
  let q := c + (2 * a * a * a - 9 * a * b) / 27 in
  let alpha := - q / 2 in
  let beta_descriminant := Rmin 0 (q * q / 4 + p * p * p / 27) in
  let beta := sqrt (- beta_descriminant) in
  let r2 := alpha * alpha - beta_descriminant in
  let cuberoot_r := pow_sixth r2 in
  let theta3 := atan2 beta alpha / 3 in
  let A_plus_B := 2 * cuberoot_r * cos theta3 in
  let A_minus_B := - 2 * cuberoot_r * sin theta3 in
  (A_plus_B - 1 * a / 3, - A_plus_B / 2 + A_minus_B * sqrt 3 / 2 - 1 * a / 3, - A_plus_B / 2 - A_minus_B * sqrt 3 / 2 - 1 * a / 3).
(** SymEigen.h:205-210: if(x > y) swap(x, y), three times *)
Definition sort3 (v : R * R * R) : R * R * R :=
  let '(x, y, z) := v in
  let '(x, y) := if R_ltb y x then (y, x) else (x, y) in
  let '(y, z) := if R_ltb z y then (z, y) else (y, z) in
  let '(x, y) := if R_ltb y x then (y, x) else (x, y) in
  (x, y, z).
(** SymEigen.h:221-229, 245-247 and the same for 1 and 2, 273-275 and the same for 1 and 2: three choices of ratios *)
Definition choice1 (A : sym3) (l : R) : V3 := mk3 (a12 A * a23 A - a13 A * (a22 A - l)) (a12 A * a13 A - a23 A * (a11 A - l)) ((a11 A - l) * (a22 A - l) - a12 A * a12 A).
Definition choice2 (A : sym3) (l : R) : V3 := mk3 (a12 A * (l - a33 A) + a23 A * a13 A) ((l - a11 A) * (l - a33 A) - a13 A * a13 A) (a23 A * (l - a11 A) + a12 A * a13 A).
Definition choice3 (A : sym3) (l : R) : V3 := mk3 ((l - a22 A) * (l - a33 A) - a23 A * a23 A) (a12 A * (l - a33 A) + a23 A * a13 A) (a13 A * (l - a22 A) + a23 A * a12 A).
(** helpers.h:114-121 norm_1 *)
Definition norm1_3 (v : V3) : R := 0 + Rabs (vx v) + Rabs (vy v) + Rabs (vz v).
(** SymEigen.h:221-294 for one eigenvalue. The source runs each step for the three eigenvalues in turn; the steps of different
    eigenvalues share no variable. *)
Definition raw_vector (A : sym3) (eps l : R) : V3 :=
  let e := choice1 A l in
  let e := if R_ltb (norm1_3 e) eps then add3 e (choice2 A l) else e in
  if R_ltb (norm1_3 e) eps then add3 e (choice3 A l) else e.
(** helpers.h:162-166 normalize *)
Definition normalize3 (v : V3) : outcome V3 :=
  x <- div (F:=R) (vx v) (sqrt (dot3 v v)) ;; y <- div (F:=R) (vy v) (sqrt (dot3 v v)) ;; z <- div (F:=R) (vz v) (sqrt (dot3 v v)) ;; Ok (mk3 x y z).
(** the rows of eig *)
Definition rows := nat -> V3.
Definition set_row3 (e : rows) (i : nat) (v : V3) : rows := fun j => if (j =? i)%nat then v else e j.
Definition id_rows : rows := fun i => match i with 0%nat => mk3 1 0 0 | 1%nat => mk3 0 1 0 | _ => mk3 0 0 1 end.
(** SymEigen.h:303-319: sort (norm, index) pairs *)
Definition sort_pairs (v : (R * nat) * (R * nat) * (R * nat)) : (R * nat) * (R * nat) * (R * nat) :=
  let '(x, y, z) := v in
  let '(x, y) := if R_ltb (fst y) (fst x) then (y, x) else (x, y) in
  let '(y, z) := if R_ltb (fst z) (fst y) then (z, y) else (y, z) in
  let '(x, y) := if R_ltb (fst y) (fst x) then (y, x) else (x, y) in
  (x, y, z).
(** SymEigen.h:296-350 *)
Definition finish (eps : R) (e : rows) : outcome rows :=
  let n0 := norm1_3 (e 0%nat) in let n1 := norm1_3 (e 1%nat) in let n2 := norm1_3 (e 2%nat) in
  if R_ltb n0 eps || R_ltb n1 eps || R_ltb n2 eps then
    let '((_, i0), (ns1, i1), (ns2, i2)) := sort_pairs ((n0, 0%nat), (n1, 1%nat), (n2, 2%nat)) in
    if negb (R_ltb ns1 eps) then
      v <- normalize3 (e 1%nat) ;; let e := set_row3 e 1 v in
      v <- normalize3 (e 2%nat) ;; let e := set_row3 e 2 v in
      Ok (set_row3 e i0 (cross3 (e i1) (e i2)))
    else if negb (R_ltb ns2 eps) then
      v <- normalize3 (e i2) ;; let e := set_row3 e i2 v in
      let p := mk3 (vy (e i2)) (vz (e i2)) (vx (e i2)) in
      v1 <- unit3 (sub3 p (scale3 (dot3 p (e i2)) (e i2))) ;;
      let v2 := cross3 v1 (e i2) in
      let e := set_row3 e i0 v1 in
      Ok (set_row3 e i1 v2)
    else Ok id_rows
  else
    v0 <- normalize3 (e 0%nat) ;; v1 <- normalize3 (e 1%nat) ;; v2 <- normalize3 (e 2%nat) ;;
    Ok (fun i => match i with 0%nat => v0 | 1%nat => v1 | _ => v2 end).
Definition v3_el (v : V3) (j : nat) : R := match j with 0%nat => vx v | 1%nat => vy v | _ => vz v end.
Definition of_rows (e : rows) : mat R := mkmat 3 3 (fun i j => v3_el (e i) j).
(** SymEigen.h:148-350. [old] is what my_evalues held before. *)
Definition eig3 (old : vec R) (m : mat R) : outcome eig :=
  a_norm <- norm1_mat m ;;
  let eps := / 10 ^ 7 * a_norm in
  if R_eqb a_norm 0 then Ok (mkeig (of_rows id_rows) old)
  else
    x11 <- mget m 0 0 ;; x12 <- mget m 0 1 ;; x13 <- mget m 0 2 ;; x22 <- mget m 1 1 ;; x23 <- mget m 1 2 ;; x33 <- mget m 2 2 ;;
    let A := mksym3 x11 x12 x13 x22 x23 x33 in
    let '(l0, l1, l2) := sort3 (cubic_roots A) in
    e <- finish eps (fun i => raw_vector A eps (match i with 0%nat => l0 | 1%nat => l1 | _ => l2 end)) ;;
    Ok (mkeig (of_rows e) (mkvec 3 (fun i => match i with 0%nat => l0 | 1%nat => l1 | _ => l2 end))).
