(** * QR.h in floating point: ModelQR's decomposition with a rounding after every arithmetic operation. Model only. *)
From Coq Require Import Reals Arith Bool.
From Verif Require Import Base Alg Mat Inst ModelOps ModelFl ModelQR.
Open Scope outcome_scope.

(** QR.h:86-112 pre_multiply_by_householder on M.slice(r0, c0, nr, nc); see ModelQR.householder. [FlOps rnd] rounds each result. *)
Definition fl_householder (rnd : R -> R) (M : mat R) (r0 c0 nr nc : nat) (v : vec R) (s : R) : outcome (mat R) :=
  for_ 0 nc (fun col M =>
    d <- @dot R (FlOps rnd) v (mkvec nr (fun r => mel M (r0 + r) (c0 + col))) ;;
    va <- @div R (FlOps rnd) d s ;;
    for_ 0 nr (fun r M =>
      x <- mget M (r0 + r) (c0 + col) ;; y <- vget v r ;;
      mset M (r0 + r) (c0 + col) (rnd (x - rnd (y * va))%R)) M) M.
(** QR.h:129-199, one iteration. The square root is correctly rounded; -a (line 173) is exact; line 158 multiplies by 1 or -1. *)
Definition fl_qr_step (rnd : R -> R) (n : nat) (st : mat R * mat R) : outcome (mat R * mat R) :=
  let '(m, Q) := st in
  let sq := Nat.min (mrows m) (mcols m) in
  let sz := sq - n in
  let nc := mcols m - n in
  let x := mkvec sz (fun r => mel m (n + r) n) in
  nx2 <- @dot R (FlOps rnd) x x ;;
  x0 <- mget m n n ;;
  let a := rnd (rnd (sqrt nx2) * (if R_ltb x0 0 then -1 else 1))%R in
  m <- mset m n n (rnd (x0 - a)%R) ;;
  u0 <- mget m n n ;;
  let H := rnd (- a * u0)%R in
  let u := mkvec sz (fun r => mel m (n + r) n) in
  m <- fl_householder rnd m n (n + 1) sz (nc - 1) u H ;;
  Q <- fl_householder rnd Q n 0 sz sq u H ;;
  m <- mset m n n a ;;
  m <- for_ 1 sz (fun r m => mset m (n + r) n 0%R) m ;;
  Ok (m, Q).
(** QR.h:61-70 and 114-210: get_Q() and get_R() of QR(m) *)
Definition fl_qr (rnd : R -> R) (A : mat R) : outcome (mat R * mat R) :=
  let sq := Nat.min (mrows A) (mcols A) in
  let Q := mkmat sq sq (fun r c => if r =? c then 1%R else 0%R) in
  ' (m, Q) <- for_ 0 (sq - 1) (fl_qr_step rnd) (A, Q) ;;
  Q <- transpose_in_place Q ;;
  Ok (Q, m).
