(** * QR decomposition by Householder reflections, over the reals (sqrt). *)
From Coq Require Import Reals Arith Bool.
From Verif Require Import Base Alg Mat Inst ModelOps.
Open Scope outcome_scope.

(** QR.h:86-112 pre_multiply_by_householder(A, v, s) where A is M.slice(r0, c0, nr, nc): the view's element (r,c) is M's
    element (r0+r, c0+c). v is passed by its values: the callers' v is column 0 of the block, which no call writes. *)
Definition householder (M : mat R) (r0 c0 nr nc : nat) (v : vec R) (s : R) : outcome (mat R) :=
  for_ 0 nc (fun col M =>
    d <- dot v (mkvec nr (fun r => mel M (r0 + r) (c0 + col))) ;;
    va <- div d s ;;
    for_ 0 nr (fun r M =>
      x <- mget M (r0 + r) (c0 + col) ;; y <- vget v r ;;
      mset M (r0 + r) (c0 + col) (fsub x (fmul y va))) M) M.
(** one iteration of QR.h:129-199. [nx2] is norm_sq(s.T()[0]) = the dot product of the column with itself (helpers.h:69-73).
    The slices are within the matrix because n < square_size. *)
Definition qr_step (n : nat) (st : mat R * mat R) : outcome (mat R * mat R) :=
  let '(m, Q) := st in
  let sq := Nat.min (mrows m) (mcols m) in
  let sz := sq - n in
  let nc := mcols m - n in
  let x := mkvec sz (fun r => mel m (n + r) n) in
  nx2 <- dot x x ;;
  x0 <- mget m n n ;;
  let a := fmul (sqrt nx2) (if R_ltb x0 0 then fopp f1 else f1) in
  m <- mset m n n (fsub x0 a) ;;
  u0 <- mget m n n ;;
  let H := fmul (fopp a) u0 in
  let u := mkvec sz (fun r => mel m (n + r) n) in
  m <- householder m n (n + 1) sz (nc - 1) u H ;;
  Q <- householder Q n 0 sz sq u H ;;
  m <- mset m n n a ;;
  m <- for_ 1 sz (fun r m => mset m (n + r) n f0) m ;;
  Ok (m, Q).
(** QR.h:205-208: the in-place transposition at the end. Q is square. *)
Definition transpose_in_place (Q : mat R) : outcome (mat R) :=
  for_ 0 (mrows Q) (fun r Q => for_ (r + 1) (mcols Q) (fun c Q =>
    x <- mget Q r c ;; y <- mget Q c r ;; Q <- mset Q r c y ;; mset Q c r x) Q) Q.
(** QR.h:61-70 and 114-210: get_Q() and get_R() of QR(m). [square_size() - 1] is an int: for an empty matrix it is -1 and the loop
    does not run, like for_ with a truncated bound. *)
Definition qr (A : mat R) : outcome (mat R * mat R) :=
  let sq := Nat.min (mrows A) (mcols A) in
  let Q := mkmat sq sq (fun r c => if r =? c then f1 else f0) in
  ' (m, Q) <- for_ 0 (sq - 1) qr_step (A, Q) ;;
  Q <- transpose_in_place Q ;;
  Ok (Q, m).
