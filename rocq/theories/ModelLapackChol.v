(** * Lapack_Cholesky.h: the class around LAPACK's potrf, potrs and potri, over the reals.
    The library's matrix is row-major and LAPACK's arrays are column-major, so LAPACK's element (i,j) is the library's [j][i].
    LAPACK is not part of the repository. potrf is modelled by the reference unblocked routine (dpotf2.f, UPLO = 'L'), potrs by its two
    triangular substitutions (dtrsm.f), potri by its documented effect: the lower triangle (LAPACK's view) becomes that of the inverse,
    or info > 0 when a diagonal element of the factor is zero. *)
From Coq Require Import Reals Arith Bool.
From Verif Require Import Base Alg Inst Mat ModelOps ModelLU.
Open Scope outcome_scope.
Local Open Scope R_scope.

(** LAPACK's element (i,j) of the array of a row-major matrix with leading dimension N (lapack.h; Lapack_Cholesky.h:97) *)
Definition fget (W : mat R) (i j : nat) : outcome R := mget W j i.
Definition fset (W : mat R) (i j : nat) (x : R) : outcome (mat R) := mset W j i x.
(** potrf_("L", ...): the array and info *)
Definition potrf_step (N : nat) (j : nat) (st : mat R * nat) : outcome (mat R * nat) :=
  let '(W, info) := st in
  if (info =? 0)%nat then
    d <- fget W j j ;;
    ajj <- for_ 0 j (fun k s => a <- fget W j k ;; Ok (s - a * a)) d ;;
    if R_ltb 0 ajj then
      W <- fset W j j (sqrt ajj) ;;
      W <- for_ (j + 1) N (fun i W =>
        x <- fget W i j ;;
        s <- for_ 0 j (fun k s => a <- fget W i k ;; b <- fget W j k ;; Ok (s - a * b)) x ;;
        q <- div s (sqrt ajj) ;; fset W i j q) W ;;
      Ok (W, 0%nat)
    else W <- fset W j j ajj ;; Ok (W, (j + 1)%nat)
  else Ok st.
Definition potrf (W : mat R) : outcome (mat R * nat) := for_ 0 (mrows W) (potrf_step (mrows W)) (W, 0%nat).
(** potrs_("L", ...), one right-hand side *)
Definition potrs_fwd (W : mat R) (b : vec R) : outcome (vec R) :=
  for_ 0 (mrows W) (fun i y =>
    x <- vget y i ;; s <- for_ 0 i (fun k s => a <- fget W i k ;; z <- vget y k ;; Ok (s - a * z)) x ;;
    d <- fget W i i ;; q <- div s d ;; vset y i q) b.
Definition potrs_bwd (W : mat R) (b : vec R) : outcome (vec R) :=
  for_down (mrows W) 0 (fun i y =>
    x <- vget y i ;; s <- for_ (i + 1) (mrows W) (fun k s => a <- fget W k i ;; z <- vget y k ;; Ok (s - a * z)) x ;;
    d <- fget W i i ;; q <- div s d ;; vset y i q) b.
Definition potrs (W : mat R) (b : vec R) : outcome (vec R) := y <- potrs_fwd W b ;; potrs_bwd W y.
(** potri_("L", ...): the array and whether info is zero *)
Definition potri (W : mat R) : outcome (mat R * bool) :=
  zero <- for_ 0 (mrows W) (fun i z => d <- fget W i i ;; Ok (z || R_eqb d 0)%bool) false ;;
  if (zero : bool) then Ok (W, false) else
  V <- for_ 0 (mrows W) (fun j V =>
    x <- potrs W (mkvec (mrows W) (fun i => if (i =? j)%nat then 1 else 0)) ;;
    for_ j (mrows W) (fun i V => y <- vget x i ;; fset V i j y) V) W ;;
  Ok (V, true).

(** Lapack_Cholesky.h:177-179 my_cholesky, my_cholesky_lapack, my_rank *)
Record lchol := mklc { lc_m : mat R; lc_w : mat R; lc_rank : nat }.
(** Lapack_Cholesky.h:94-117 do_compute; N is my_cholesky.num_rows() *)
Definition lc_do_compute (m w : mat R) : outcome lchol :=
  let N := mrows m in
  '(w, info) <- potrf w ;;
  m <- for_ 0 N (fun i m =>
    m <- for_ 0 (i + 1) (fun j m => x <- mget w j i ;; mset m i j x) m ;;
    for_ (i + 1) N (fun j m => mset m i j 0) m) m ;;
  Ok (mklc m w (if (0 <? info)%nat then (info - 1)%nat else N)).
(** Lapack_Cholesky.h:75-80 constructor from a matrix *)
Definition lc_make (A : mat R) : outcome lchol := _ <- same_size (mrows A) (mcols A) ;; lc_do_compute A A.
(** Lapack_Cholesky.h:85-90 compute *)
Definition lc_compute (old : lchol) (A : mat R) : outcome lchol :=
  _ <- same_size (mrows A) (mcols A) ;; _ <- same_size (mrows A) (mrows (lc_m old)) ;; lc_do_compute (lc_m old) A.
(** Lapack_Cholesky.h:119-130 backsub(Vector) *)
Definition lc_backsub (c : lchol) (v : vec R) : outcome (vec R) :=
  _ <- same_size (mcols (lc_m c)) (vlen v) ;; potrs (lc_w c) v.
(** Lapack_Cholesky.h:132-143 backsub(Matrix); the result is column-major, so each column is one right-hand side *)
Definition lc_backsub_mat (c : lchol) (B : mat R) : outcome (mat R) :=
  _ <- same_size (mcols (lc_m c)) (mrows B) ;; each_col (potrs (lc_w c)) B.
(** Lapack_Cholesky.h:145-148 mahalanobis *)
Definition lc_mahalanobis (c : lchol) (v : vec R) : outcome R := x <- lc_backsub c v ;; dot v x.
(** Lapack_Cholesky.h:150-152 get_L *)
Definition lc_get_L (c : lchol) : mat R := lc_m c.
(** Lapack_Cholesky.h:154-159 determinant *)
Definition lc_determinant (c : lchol) : outcome R :=
  d <- mget (lc_m c) 0 0 ;;
  det <- for_ 1 (mrows (lc_m c)) (fun i det => x <- mget (lc_m c) i i ;; Ok (det * x)) d ;; Ok (det * det).
(** Lapack_Cholesky.h:161-174 get_inverse *)
Definition lc_inverse (c : lchol) : outcome (mat R) :=
  '(M, ok) <- potri (lc_w c) ;;
  if (ok : bool) then
    for_ 1 (mrows (lc_m c)) (fun i M => for_ 0 i (fun j M => x <- mget M j i ;; mset M i j x) M) M
  else Abort DAssert.
