(** * LU.h with LAPACK's getrf and getri written out (reference implementation, unblocked). Model only.
    Everything is in the row-major coordinates of the library: LAPACK's element (i,j) of a column-major array is my_lu[j][i].
    dgetrf calls a recursive or blocked variant for large matrices; it computes the same pivots and factors in exact arithmetic. *)
From Coq Require Import Arith Bool.
From Verif Require Import Base Alg Mat ModelOps ModelLU.
Open Scope outcome_scope.

Section M.
Context {F : Type} {Fo : Ops F}.
(** dgetf2.f: JP = J - 1 + IDAMAX(M-J+1, A(J,J), 1), the first largest |A(i,J)|, i >= J *)
Definition row_pivot (m : mat F) (n j : nat) : outcome nat :=
  x <- mget m j j ;;
  s <- for_ (S j) n (fun i s => v <- mget m j i ;; Ok (if fltb (snd s) (fabs v) then (i, fabs v) else s)) (j, fabs x) ;;
  Ok (fst s).
(** dgetf2.f: DSWAP(N, A(J,1), LDA, A(JP,1), LDA): rows of LAPACK's matrix are columns here *)
Definition col_swap (m : mat F) (n j p : nat) : outcome (mat F) :=
  for_ 0 n (fun r m => x <- mget m r j ;; y <- mget m r p ;; m <- mset m r j y ;; mset m r p x) m.
(** dgetf2.f, one pass of DO 10 J. INFO (counted from 0 here) is set at the first zero pivot. DSCAL with the
    reciprocal of the pivot (the branch for |pivot| < SFMIN divides instead: underflow is outside this model), then DGER. *)
Definition getf2_step (n j : nat) (s : mat F * (nat -> nat) * option nat) : outcome (mat F * (nat -> nat) * option nat) :=
  let '(m, piv, info) := s in
  p <- row_pivot m n j ;;
  let piv := fun k => if k =? j then p else piv k in
  x <- mget m j p ;;
  '(m, info) <- (if feqb x f0 then Ok (m, match info with Some _ => info | None => Some j end)
    else
      m <- (if p =? j then Ok m else col_swap m n j p) ;;
      a <- mget m j j ;; rec <- div f1 a ;;
      m <- for_ (S j) n (fun i m => y <- mget m j i ;; mset m j i (fmul rec y)) m ;;
      Ok (m, info)) ;;
  m <- for_ (S j) n (fun r m =>
         t <- mget m r j ;;
         for_ (S j) n (fun i m => x <- mget m r i ;; y <- mget m j i ;; mset m r i (fsub x (fmul y t))) m) m ;;
  Ok (m, piv, info).
Definition getrf (n : nat) (m : mat F) : outcome (mat F * (nat -> nat) * option nat) :=
  for_ 0 n (getf2_step n) (m, (fun k => k), None).
(** LU.h:71-93: the constructor with compute(m); get_info() (LU.h:214) is 0 for [None], k+1 for [Some k]. *)
Definition lu_construct (A : mat F) : outcome (lu F * option nat) :=
  _ <- same_size (mrows A) (mrows A) ;;
  _ <- same_size (mrows A) (mcols A) ;;
  '(m, piv, info) <- getrf (mrows A) A ;;
  Ok (mklu m piv, info).
(** LU.h:76 compute(m) on an existing object: m must have the size of the object *)
Definition lu_compute (L : lu F) (A : mat F) : outcome (lu F * option nat) :=
  _ <- same_size (mrows (lu_m L)) (mrows A) ;;
  _ <- same_size (mrows (lu_m L)) (mcols A) ;;
  '(m, piv, info) <- getrf (mrows A) A ;;
  Ok (mklu m piv, info).

(** dtrti2.f ("Upper", "Non-unit"), one pass of DO 10 J; the inner loop is DTRMV, then DSCAL by -1/diagonal *)
Definition trti2_step (j : nat) (m : mat F) : outcome (mat F) :=
  d <- mget m j j ;; d <- div f1 d ;; m <- mset m j j d ;;
  m <- for_ 0 j (fun k m =>
         temp <- mget m j k ;;
         m <- for_ 0 k (fun i m => x <- mget m j i ;; a <- mget m k i ;; mset m j i (fadd x (fmul temp a))) m ;;
         a <- mget m k k ;; mset m j k (fmul temp a)) m ;;
  for_ 0 j (fun i m => x <- mget m j i ;; mset m j i (fmul (fopp d) x)) m.
(** dgetri.f: DO 20 J = N, 1, -1: L's column J is moved to WORK and zeroed, then DGEMV *)
Definition getri_step (n j : nat) (m : mat F) : outcome (mat F) :=
  let old := m in
  m <- for_ (S j) n (fun i m => mset m j i f0) m ;;
  for_ (S j) n (fun k m =>
    w <- mget old j k ;;
    for_ 0 n (fun i m => x <- mget m j i ;; a <- mget m k i ;; mset m j i (fsub x (fmul w a))) m) m.
(** dtrtri.f: the first zero on the diagonal, if any *)
Definition zero_pivot (n : nat) (m : mat F) : outcome (option nat) :=
  for_ 0 n (fun i found => match found with Some _ => Ok found | None => x <- mget m i i ;; Ok (if feqb x f0 then Some i else None) end) None.
(** dgetri.f: with a zero on the diagonal it returns INFO > 0 and leaves the array as it was *)
Definition getri (n : nat) (m : mat F) (piv : nat -> nat) : outcome (mat F * option nat) :=
  z <- zero_pivot n m ;;
  match z with
  | Some i => Ok (m, Some i)
  | None =>
    m <- for_ 0 n trti2_step m ;;
    m <- for_down n 0 (getri_step n) m ;;
    m <- for_down (n - 1) 0 (fun j m =>
      let p := piv j in
      if p =? j then Ok m else
      for_ 0 n (fun i m => x <- mget m j i ;; y <- mget m p i ;; m <- mset m j i y ;; mset m p i x) m) m ;;
    Ok (m, None)
  end.
(** LU.h:155-167 get_inverse: the matrix, and the new get_info(). The first getri_ call only asks for the size of WORK. *)
Definition lu_inverse (L : lu F) : outcome (mat F * option nat) := getri (mrows (lu_m L)) (lu_m L) (lu_piv L).
End M.
