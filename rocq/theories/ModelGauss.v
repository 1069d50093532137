(** * Gaussian elimination, Gauss-Jordan reduction and the determinant. Model only.
    Exact arithmetic over an ordered field; a division by zero is [NonFinite]. *)
From Coq Require Import Arith Bool List.
From Verif Require Import Base Alg Mat.
Open Scope nat_scope.
Open Scope outcome_scope.

Section M.
Context {F : Type} {Fo : Ops F}.

(** std::swap(A[r1][c], A[r2][c]) *)
Definition mswap (A : mat F) (r1 r2 c : nat) : outcome (mat F) :=
  x <- mget A r1 c ;; y <- mget A r2 c ;; A <- mset A r1 c y ;; mset A r2 c x.
Definition vswap (b : vec F) (i j : nat) : outcome (vec F) :=
  x <- vget b i ;; y <- vget b j ;; b <- vset b i y ;; vset b j x.

(** The pivot search: gaussian_elimination.h:50-59, 115-124; determinant.h:111-121;
    gauss_jordan.h:66-73. Returns the row of the first largest |A[r][i]|, r >= i. *)
Definition find_pivot (A : mat F) (size i : nat) : outcome nat :=
  x <- mget A i i ;;
  s <- for_ (S i) size (fun ii s => v <- mget A ii i ;;
         Ok (if fltb (snd s) (fabs v) then (ii, fabs v) else s)) (i, fabs x) ;;
  Ok (fst s).

(** The elimination loop of both overloads, gaussian_elimination.h:49-80 (b a vector) and
    114-147 (b a matrix). The two texts differ only in what is done to row i of b, given here
    by [bswap b i j], [bscale b i f] and [bsub b u i f] (b[u] -= f*b[i]). *)
Section B.
Context {B : Type} (bswap : B -> nat -> nat -> outcome B) (bscale : B -> nat -> F -> outcome B)
  (bsub : B -> nat -> nat -> F -> outcome B).
Definition ge_step (size i : nat) (s : mat F * B) : outcome (mat F * B) :=
  let '(A, b) := s in
  argmax <- find_pivot A size i ;;
  pivot <- mget A argmax i ;;
  inv_pivot <- div f1 pivot ;;
  '(A, b) <- (if argmax =? i then Ok (A, b) else
     A <- for_ i size (fun j A => mswap A i argmax j) A ;;
     b <- bswap b i argmax ;; Ok (A, b)) ;;
  A <- for_ (S i) size (fun j A => x <- mget A i j ;; mset A i j (fmul x inv_pivot)) A ;;
  b <- bscale b i inv_pivot ;;
  for_ (S i) size (fun u s =>
    let '(A, b) := s in
    factor <- mget A u i ;;
    A <- for_ (S i) size (fun j A => x <- mget A u j ;; y <- mget A i j ;; mset A u j (fsub x (fmul factor y))) A ;;
    b <- bsub b u i factor ;;
    Ok (A, b)) (A, b).
Definition ge_elim (size : nat) (A : mat F) (b : B) : outcome (mat F * B) :=
  for_ 0 size (ge_step size) (A, b).
End B.

(** b[i] *= inv_pivot etc. for a vector b *)
Definition vb_scale (b : vec F) (i : nat) (f : F) : outcome (vec F) := x <- vget b i ;; vset b i (fmul x f).
Definition vb_sub (b : vec F) (u i : nat) (f : F) : outcome (vec F) :=
  x <- vget b u ;; y <- vget b i ;; vset b u (fsub x (fmul f y)).
(** the row operations for a matrix b; b[i] *= f and b[u] -= f*b[i] are the vector operators of C20 *)
Definition mb_swap (b : mat F) (i k : nat) : outcome (mat F) := for_ 0 (mcols b) (fun j b => mswap b i k j) b.
Definition mb_scale (b : mat F) (i : nat) (f : F) : outcome (mat F) :=
  for_ 0 (mcols b) (fun j b => x <- mget b i j ;; mset b i j (fmul x f)) b.
Definition mb_sub (b : mat F) (u i : nat) (f : F) : outcome (mat F) :=
  for_ 0 (mcols b) (fun j b => x <- mget b u j ;; y <- mget b i j ;; mset b u j (fsub x (fmul f y))) b.

(** gaussian_elimination.h:82-87 and 149-157: back substitution *)
Definition backsub_vec (size : nat) (A : mat F) (b : vec F) : outcome (vec F) :=
  for_down size 0 (fun i x =>
    y <- vget b i ;; x <- vset x i y ;;
    for_ (S i) size (fun j x => a <- mget A i j ;; xj <- vget x j ;; xi <- vget x i ;; vset x i (fsub xi (fmul a xj))) x) (vnew size).
Definition backsub_mat (size : nat) (A : mat F) (b : mat F) : outcome (mat F) :=
  for_down size 0 (fun i x => for_ 0 (mcols b) (fun k x =>
    y <- mget b i k ;; x <- mset x i k y ;;
    for_ (S i) size (fun j x => a <- mget A i j ;; xj <- mget x j k ;; xi <- mget x i k ;; mset x i k (fsub xi (fmul a xj))) x) x)
   (mnew (mrows b) (mcols b)).

(** gaussian_elimination.h:43-89. There is no size test: with Dynamic sizes b.size() is believed. *)
Definition gaussian_elimination (A : mat F) (b : vec F) : outcome (vec F) :=
  let size := vlen b in
  '(A, b) <- ge_elim vswap vb_scale vb_sub size A b ;;
  backsub_vec size A b.
(** gaussian_elimination.h:105-158 *)
Definition gaussian_elimination_mat (A b : mat F) : outcome (mat F) :=
  _ <- same_size (mrows A) (mcols A) ;;
  _ <- same_size (mrows A) (mrows b) ;;
  let size := mrows A in
  '(A, b) <- ge_elim mb_swap mb_scale mb_sub size A b ;;
  backsub_mat size A b.

(** gauss_jordan.h:48-112 *)
Definition gj_column (col : nat) (m : mat F) : outcome (mat F) :=
  pivotpos <- find_pivot m (mrows m) col ;;
  m <- (if col =? pivotpos then Ok m else for_ 0 (mcols m) (fun c m => mswap m col pivotpos c) m) ;;
  for_ 0 (mrows m) (fun r m =>
    if r =? col then Ok m else
    x <- mget m r col ;; p <- mget m col col ;; multiple <- div x p ;;
    m <- mset m r col f0 ;;
    for_ (S col) (mcols m) (fun c m => x <- mget m r c ;; y <- mget m col c ;; mset m r c (fsub x (fmul y multiple))) m) m.
Definition gauss_jordan (m : mat F) : outcome (mat F) :=
  m <- for_ 0 (mrows m) gj_column m ;;
  for_ 0 (mrows m) (fun r m =>
    x <- mget m r r ;; mul <- div f1 x ;;
    m <- mset m r r f1 ;;
    for_ (mrows m) (mcols m) (fun c m => x <- mget m r c ;; mset m r c (fmul x mul)) m) m.

(** determinant.h:91-147. The state is A, the determinant so far and whether 0 was returned. *)
Definition det_step (size i : nat) (s : mat F * F * bool) : outcome (mat F * F * bool) :=
  let '(A, d, fin) := s in
  if fin then Ok s else
  argmax <- find_pivot A size i ;;
  pivot <- mget A argmax i ;;
  '(A, d) <- (if argmax =? i then Ok (A, d) else
     A <- for_ i size (fun j A => mswap A i argmax j) A ;; Ok (A, fmul d (fopp f1))) ;;
  p <- mget A i i ;;
  let d := fmul d p in
  if feqb d f0 then Ok (A, f0, true) else
  A <- for_ (S i) size (fun u A =>
    x <- mget A u i ;; factor <- div x pivot ;;
    for_ (S i) size (fun j A => x <- mget A u j ;; y <- mget A i j ;; mset A u j (fsub x (fmul factor y))) A) A ;;
  Ok (A, d, false).
Definition determinant_gaussian_elimination (A : mat F) : outcome F :=
  _ <- same_size (mrows A) (mcols A) ;;
  '(_, d, _) <- for_ 0 (mrows A) (det_step (mrows A)) (A, f1, false) ;;
  Ok d.
(** determinant.h:174-185 (without TOON_DETERMINANT_LAPACK) *)
Definition determinant (A : mat F) : outcome F :=
  _ <- same_size (mrows A) (mcols A) ;;
  if mrows A =? 2
  then a <- mget A 0 0 ;; d <- mget A 1 1 ;; c <- mget A 1 0 ;; b <- mget A 0 1 ;; Ok (fsub (fmul a d) (fmul c b))
  else determinant_gaussian_elimination A.
End M.
