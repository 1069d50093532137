(** * wls.h: weighted least squares with the default Cholesky decomposition. Model only.
    Exact arithmetic over an ordered field; the "double Jw" temporaries of lines 103 and 161 have the scalar type. *)
From Coq Require Import Arith Bool List.
From Verif Require Import Base Alg Mat ModelOps ModelObjects ModelChol.
Import ListNotations.
Open Scope nat_scope.
Open Scope outcome_scope.

Section M.
Context {F : Type} {Fo : Ops F}.

(** wls.h:241-244: my_C_inv, my_vector, my_decomposition, my_mu *)
Record wls := mkwls { w_C : mat F; w_v : vec F; w_dec : chol F; w_mu : vec F }.

(** wls.h:60-63 clear *)
Definition wls_clear (w : wls) : outcome wls :=
  C <- zeros_mat (w_C w) ;; v <- zeros_vec (w_v w) ;; Ok (mkwls C v (w_dec w) (w_mu w)).
(** wls.h:50-57 constructor (the decomposition of Cholesky.h:82 is uninitialised, as is mu) *)
Definition wls_new (size : nat) : outcome wls :=
  wls_clear (mkwls (mnew size size) (vnew size) (mkchol (mnew size size) 0) (vnew size)).

(** x += y on an element *)
Definition madd_at (C : mat F) (r c : nat) (y : F) : outcome (mat F) := x <- mget C r c ;; mset C r c (fadd x y).
Definition vadd_at (v : vec F) (r : nat) (y : F) : outcome (vec F) := x <- vget v r ;; vset v r (fadd x y).
(** slice(r0,c0,h,w) += b and slice(i0,l) += b: the elements of the slice are the elements of the object (C06) *)
Definition mslice_add (C : mat F) (r0 c0 : nat) (b : mat F) : outcome (mat F) :=
  for_ 0 (mrows b) (fun r C => for_ 0 (mcols b) (fun c C => y <- mget b r c ;; madd_at C (r0 + r) (c0 + c) y) C) C.
Definition vslice_add (v : vec F) (i0 : nat) (b : vec F) : outcome (vec F) :=
  for_ 0 (vlen b) (fun i v => y <- vget b i ;; vadd_at v (i0 + i) y) v.

(** wls.h:68-72 add_prior(Precision) *)
Definition wls_prior (val : F) (w : wls) : outcome wls :=
  C <- for_ 0 (mrows (w_C w)) (fun i C => madd_at C i i val) (w_C w) ;; Ok (mkwls C (w_v w) (w_dec w) (w_mu w)).
(** wls.h:78-83 add_prior(Vector) *)
Definition wls_prior_vec (v : vec F) (w : wls) : outcome wls :=
  _ <- same_size (mrows (w_C w)) (vlen v) ;;
  C <- for_ 0 (mrows (w_C w)) (fun i C => x <- vget v i ;; madd_at C i i x) (w_C w) ;; Ok (mkwls C (w_v w) (w_dec w) (w_mu w)).
(** wls.h:89-91 add_prior(Matrix) *)
Definition wls_prior_mat (m : mat F) (w : wls) : outcome wls :=
  C <- madd_assign (w_C w) m ;; Ok (mkwls C (w_v w) (w_dec w) (w_mu w)).
(** wls.h:98-109 add_mJ(scalar, Vector, weight): upper triangle only; the size of J is not tested *)
Definition wls_add (m : F) (J : vec F) (weight : F) (w : wls) : outcome wls :=
  '(C, v) <- for_ 0 (mrows (w_C w)) (fun r '(C, v) =>
      x <- vget J r ;; let Jw := fmul weight x in
      v <- vadd_at v r (fmul m Jw) ;;
      C <- for_ r (mrows (w_C w)) (fun c C => y <- vget J c ;; madd_at C r c (fmul Jw y)) C ;;
      Ok (C, v)) (w_C w, w_v w) ;;
  Ok (mkwls C v (w_dec w) (w_mu w)).
(** wls.h:115-121 add_mJ(Vector, Matrix, weight) *)
Definition wls_add_rows_w (m : vec F) (J : mat F) (weight : F) (w : wls) : outcome wls :=
  _ <- same_size (vlen m) (mrows J) ;;
  for_ 0 (mrows J) (fun r w => x <- vget m r ;; j <- row J r ;; wls_add x j weight w) w.
(** wls.h:128-135 add_mJ(Vector, Matrix<Size,N>, invcov) *)
Definition wls_add_cov (m : vec F) (J invcov : mat F) (w : wls) : outcome wls :=
  temp <- mmul J invcov ;;
  p <- mmul temp (tr J) ;; C <- madd_assign (w_C w) p ;;
  q <- mv temp m ;; v <- vadd_assign (w_v w) q ;;
  Ok (mkwls C v (w_dec w) (w_mu w)).
(** wls.h:141-148 add_mJ_rows *)
Definition wls_add_rows (m : vec F) (J invcov : mat F) (w : wls) : outcome wls :=
  temp <- mmul (tr J) invcov ;;
  p <- mmul temp J ;; C <- madd_assign (w_C w) p ;;
  q <- mv temp m ;; v <- vadd_assign (w_v w) q ;;
  Ok (mkwls C v (w_dec w) (w_mu w)).
(** wls.h:155-167 add_sparse_mJ *)
Definition wls_add_sparse (m : F) (J1 : vec F) (index1 : nat) (weight : F) (w : wls) : outcome wls :=
  '(C, v) <- for_ 0 (vlen J1) (fun r '(C, v) =>
      x <- vget J1 r ;; let Jw := fmul weight x in
      v <- vadd_at v (r + index1) (fmul m Jw) ;;
      C <- for_ r (vlen J1) (fun c C => y <- vget J1 c ;; madd_at C (r + index1) (c + index1) (fmul Jw y)) C ;;
      Ok (C, v)) (w_C w, w_v w) ;;
  Ok (mkwls C v (w_dec w) (w_mu w)).
(** wls.h:174-182 add_sparse_mJ_rows, one block *)
Definition wls_add_sparse_rows (m : vec F) (J1 : mat F) (index1 : nat) (invcov : mat F) (w : wls) : outcome wls :=
  temp1 <- mmul (tr J1) invcov ;;
  p <- mmul temp1 J1 ;; C <- mslice_add (w_C w) index1 index1 p ;;
  q <- mv temp1 m ;; v <- vslice_add (w_v w) index1 q ;;
  Ok (mkwls C v (w_dec w) (w_mu w)).
(** wls.h:191-207 add_sparse_mJ_rows, two blocks *)
Definition wls_add_sparse_rows2 (m : vec F) (J1 : mat F) (index1 : nat) (J2 : mat F) (index2 : nat) (invcov : mat F) (w : wls) : outcome wls :=
  temp1 <- mmul (tr J1) invcov ;;
  temp2 <- mmul (tr J2) invcov ;;
  mixed <- mmul temp1 J2 ;;
  p1 <- mmul temp1 J1 ;; C <- mslice_add (w_C w) index1 index1 p1 ;;
  p2 <- mmul temp2 J2 ;; C <- mslice_add C index2 index2 p2 ;;
  C <- mslice_add C index1 index2 mixed ;;
  C <- mslice_add C index2 index1 (tr mixed) ;;
  q1 <- mv temp1 m ;; v <- vslice_add (w_v w) index1 q1 ;;
  q2 <- mv temp2 m ;; v <- vslice_add v index2 q2 ;;
  Ok (mkwls C v (w_dec w) (w_mu w)).
(** wls.h:212-215 the first part of compute: copy the upper right triangle to the lower left *)
Definition wls_mirror (C : mat F) : outcome (mat F) :=
  for_ 1 (mrows C) (fun r C => for_ 0 r (fun c C => x <- mget C c r ;; mset C r c x) C) C.
(** wls.h:210-219 compute *)
Definition wls_compute (w : wls) : outcome wls :=
  C <- wls_mirror (w_C w) ;;
  d <- cholesky_recompute (w_dec w) C ;;
  mu <- chol_backsub d (w_v w) ;;
  Ok (mkwls C (w_v w) d mu).
(** wls.h:223-226 operator += *)
Definition wls_join (w meas : wls) : outcome wls :=
  v <- vadd_assign (w_v w) (w_v meas) ;;
  C <- madd_assign (w_C w) (w_C meas) ;;
  Ok (mkwls C v (w_dec w) (w_mu w)).

(** The calls that add information, so that histories are lists of calls. *)
Inductive wop :=
| PriorS (val : F) | PriorV (v : vec F) | PriorM (m : mat F)
| Meas (m : F) (J : vec F) (weight : F)
| MeasRowsW (m : vec F) (J : mat F) (weight : F)
| MeasCov (m : vec F) (J invcov : mat F)
| MeasRows (m : vec F) (J invcov : mat F)
| Sparse (m : F) (J1 : vec F) (index1 : nat) (weight : F)
| SparseRows (m : vec F) (J1 : mat F) (index1 : nat) (invcov : mat F)
| SparseRows2 (m : vec F) (J1 : mat F) (index1 : nat) (J2 : mat F) (index2 : nat) (invcov : mat F).
Definition wls_call (o : wop) : wls -> outcome wls :=
  match o with
  | PriorS x => wls_prior x | PriorV v => wls_prior_vec v | PriorM m => wls_prior_mat m
  | Meas m J w => wls_add m J w | MeasRowsW m J w => wls_add_rows_w m J w
  | MeasCov m J W => wls_add_cov m J W | MeasRows m J W => wls_add_rows m J W
  | Sparse m J i w => wls_add_sparse m J i w | SparseRows m J i W => wls_add_sparse_rows m J i W
  | SparseRows2 m J i K j W => wls_add_sparse_rows2 m J i K j W
  end.
Fixpoint wls_run (os : list wop) (w : wls) : outcome wls :=
  match os with [] => Ok w | o :: os => w <- wls_call o w ;; wls_run os w end.
End M.
Arguments wls F : clear implicits.
Arguments wop F : clear implicits.
