(** * LU.h: the code around LAPACK's getrf and BLAS's trsm. Model only.
    The library's matrices are row-major and LAPACK's column-major, so LAPACK factorises the transpose. my_IPIV is modelled as the
    function i |-> my_IPIV[i] - 1 (rows counted from 0). *)
From Coq Require Import Arith Bool.
From Verif Require Import Base Alg Mat ModelOps.
Open Scope outcome_scope.

Section M.
Context {F : Type} {Fo : Ops F}.
(** LU.h:218-221 my_lu, my_IPIV *)
Record lu := mklu { lu_m : mat F; lu_piv : nat -> nat }.
(** trsm_("R","U","N","N",...) on my_lu: Y U = B for the upper triangle U of the column-major matrix, that is the lower triangle of
    my_lu with its diagonal; one right-hand side. BLAS, by its defining substitution (dtrsm.f). *)
Definition trsm_upper (m : mat F) (b : vec F) : outcome (vec F) :=
  for_ 0 (mrows m) (fun i y =>
    acc <- (x <- vget y i ;; for_ 0 i (fun k acc => a <- mget m i k ;; z <- vget y k ;; Ok (fsub acc (fmul a z))) x) ;;
    d <- mget m i i ;; q <- div acc d ;; vset y i q) b.
(** trsm_("R","L","N","U",...): the part of my_lu above the diagonal, with a unit diagonal *)
Definition trsm_unit_lower (m : mat F) (b : vec F) : outcome (vec F) :=
  for_down (mrows m) 0 (fun i y =>
    acc <- (x <- vget y i ;; for_ (i + 1) (mrows m) (fun k acc => a <- mget m i k ;; z <- vget y k ;; Ok (fsub acc (fmul a z))) x) ;;
    vset y i acc) b.
(** LU.h:144-149 row swapping on a vector *)
Definition swap_rows_vec (L : lu) (x : vec F) : outcome (vec F) :=
  for_down (mrows (lu_m L)) 0 (fun i x =>
    let s := lu_piv L i in
    temp <- vget x i ;; other <- vget x s ;; x <- vset x i other ;; vset x s temp) x.
(** LU.h:125-151 backsub(Vector) *)
Definition lu_backsub_vec (L : lu) (rhs : vec F) : outcome (vec F) :=
  _ <- same_size (mrows (lu_m L)) (vlen rhs) ;;
  r <- trsm_upper (lu_m L) rhs ;;
  r <- trsm_unit_lower (lu_m L) r ;;
  swap_rows_vec L r.
(** one trsm call on all the columns of a right-hand side *)
Definition each_col (f : vec F -> outcome (vec F)) (B : mat F) : outcome (mat F) :=
  for_ 0 (mcols B) (fun j R =>
    c <- f (mkvec (mrows R) (fun i => mel R i j)) ;;
    for_ 0 (mrows R) (fun i R => x <- vget c i ;; mset R i j x) R) B.
(** LU.h:113-121 row swapping on a matrix: the bound of the inner loop is the template parameter NRHS, which is -1 for a dynamically
    sized right-hand side ([nrhs = None]) *)
Definition swap_rows_mat (L : lu) (nrhs : option nat) (X : mat F) : outcome (mat F) :=
  for_down (mrows (lu_m L)) 0 (fun i X =>
    let s := lu_piv L i in
    for_ 0 (match nrhs with Some k => k | None => 0 end) (fun j X =>
      temp <- mget X i j ;; other <- mget X s j ;; X <- mset X i j other ;; mset X s j temp) X) X.
(** LU.h:96-123 backsub(Matrix) *)
Definition lu_backsub_mat (L : lu) (nrhs : option nat) (rhs : mat F) : outcome (mat F) :=
  _ <- same_size (mrows (lu_m L)) (mrows rhs) ;;
  r <- each_col (trsm_upper (lu_m L)) rhs ;;
  r <- each_col (trsm_unit_lower (lu_m L)) r ;;
  swap_rows_mat L nrhs r.
(** LU.h:180-188 get_sign; my_IPIV[i] > i+1 is lu_piv i > i *)
Definition lu_sign (L : lu) : outcome F :=
  for_ 0 (mrows (lu_m L) - 1) (fun i result => Ok (if i <? lu_piv L i then fopp result else result)) f1.
(** LU.h:192-198 determinant *)
Definition lu_determinant (L : lu) : outcome F :=
  s <- lu_sign L ;;
  for_ 0 (mrows (lu_m L)) (fun i result => x <- mget (lu_m L) i i ;; Ok (fmul result x)) s.
End M.
Arguments lu F : clear implicits.
