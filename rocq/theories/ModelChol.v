(** * Cholesky.h: LDL^T decomposition. Model only.
    Exact arithmetic over an ordered field; a division by zero is [NonFinite]. *)
From Coq Require Import Arith Bool List Reals.
From Verif Require Import Base Alg Mat ModelOps ModelObjects Inst.
Open Scope nat_scope.
Open Scope outcome_scope.

Section M.
Context {F : Type} {Fo : Ops F}.

(** matrix.hh:164-197 through operator[]: y[i] = val for a whole row (sizes tested) *)
Definition set_row (m : mat F) (r : nat) (v : vec F) : outcome (mat F) :=
  _ <- same_size (mcols m) (vlen v) ;;
  for_ 0 (mcols m) (fun c m => x <- vget v c ;; mset m r c x) m.

(** The object: my_cholesky and my_rank (Cholesky.h:260-261). *)
Record chol := mkchol { ch_m : mat F; ch_rank : nat }.

(** Cholesky.h:101-106: val = C(row,col) - sum_{col2<col} C(col2,col)*C(row,col2) *)
Definition chol_val (C : mat F) (row col : nat) : outcome F :=
  v <- mget C row col ;;
  for_ 0 col (fun col2 v => x <- mget C col2 col ;; y <- mget C row col2 ;; Ok (fsub v (fmul x y))) v.
(** Cholesky.h:99-120, the body of the row loop. The third component of the state is [Some row] after
    "my_rank = row; return". *)
Definition chol_row (col row : nat) (s : mat F * F * option nat) : outcome (mat F * F * option nat) :=
  let '(C, inv_diag, fin) := s in
  match fin with Some _ => Ok s | None =>
    v <- chol_val C row col ;;
    if row =? col then
      C <- mset C row col v ;;
      if feqb v f0 then Ok (C, inv_diag, Some row)
      else i <- div f1 v ;; Ok (C, i, None)
    else
      C <- mset C col row v ;;
      C <- mset C row col (fmul v inv_diag) ;;
      Ok (C, inv_diag, None)
  end.
(** Cholesky.h:95-123 do_compute *)
Definition chol_col (size col : nat) (s : mat F * option nat) : outcome (mat F * option nat) :=
  let '(C, fin) := s in
  match fin with Some _ => Ok s | None =>
    '(C, _, fin) <- for_ col size (chol_row col) (C, f1, None) ;; Ok (C, fin)
  end.
Definition chol_compute (C : mat F) : outcome chol :=
  '(C, fin) <- for_ 0 (mrows C) (chol_col (mrows C)) (C, None) ;;
  Ok (mkchol C (match fin with Some k => k | None => mrows C end)).
(** Cholesky.h:71-77 constructor *)
Definition cholesky (m : mat F) : outcome chol :=
  _ <- same_size (mrows m) (mcols m) ;; chol_compute m.
(** Cholesky.h:85-91 compute on an existing object *)
Definition cholesky_recompute (old : chol) (m : mat F) : outcome chol :=
  _ <- same_size (mrows m) (mcols m) ;;
  _ <- same_size (mrows m) (mrows (ch_m old)) ;;
  chol_compute m.

(** Cholesky.h:130-160 backsub(Vector) *)
Definition chol_backsub (ch : chol) (v : vec F) : outcome (vec F) :=
  let C := ch_m ch in let size := mrows C in
  _ <- same_size size (vlen v) ;;
  y <- for_ 0 size (fun i y =>
    val <- vget v i ;;
    val <- for_ 0 i (fun j val => x <- mget C i j ;; yj <- vget y j ;; Ok (fsub val (fmul x yj))) val ;;
    vset y i val) (vnew size) ;;
  y <- for_ 0 size (fun i y => a <- vget y i ;; d <- mget C i i ;; z <- div a d ;; vset y i z) y ;;
  for_down size 0 (fun i result =>
    val <- vget y i ;;
    val <- for_ (S i) size (fun j val => x <- mget C j i ;; rj <- vget result j ;; Ok (fsub val (fmul x rj))) val ;;
    vset result i val) (vnew size).
(** Cholesky.h:164-194 backsub(Matrix) *)
Definition chol_backsub_mat (ch : chol) (m : mat F) : outcome (mat F) :=
  let C := ch_m ch in let size := mrows C in
  _ <- same_size size (mrows m) ;;
  y <- for_ 0 size (fun i y =>
    val <- row m i ;;
    val <- for_ 0 i (fun j val => x <- mget C i j ;; yj <- row y j ;; t <- vscale_l x yj ;; vsub_assign val t) val ;;
    set_row y i val) (mnew size (mcols m)) ;;
  y <- for_ 0 size (fun i y => d <- mget C i i ;; k <- div f1 d ;; v <- row y i ;; v <- vmul_assign v k ;; set_row y i v) y ;;
  for_down size 0 (fun i result =>
    val <- row y i ;;
    val <- for_ (S i) size (fun j val => x <- mget C j i ;; rj <- row result j ;; t <- vscale_l x rj ;; vsub_assign val t) val ;;
    set_row result i val) (mnew size (mcols m)).
(** Cholesky.h:200-203 get_inverse *)
Definition chol_inverse (ch : chol) : outcome (mat F) :=
  I <- identity_eval HOne (mnew (mrows (ch_m ch)) (mrows (ch_m ch))) ;; chol_backsub_mat ch I.
(** Cholesky.h:206-212 determinant *)
Definition chol_det (ch : chol) : outcome F :=
  a <- mget (ch_m ch) 0 0 ;;
  for_ 1 (mrows (ch_m ch)) (fun i a => d <- mget (ch_m ch) i i ;; Ok (fmul a d)) a.
(** Cholesky.h:214-217 mahalanobis *)
Definition chol_mahalanobis (ch : chol) (v : vec F) : outcome F := x <- chol_backsub ch v ;; dot v x.
(** Cholesky.h:219-229 get_unscaled_L, 231-239 get_D *)
Definition chol_L (ch : chol) : outcome (mat F) :=
  let C := ch_m ch in
  m <- identity_eval HOne (mnew (mrows C) (mrows C)) ;;
  for_ 1 (mrows C) (fun i m => for_ 0 i (fun j m => x <- mget C i j ;; mset m i j x) m) m.
Definition chol_D (ch : chol) : outcome (mat F) :=
  let C := ch_m ch in
  m <- zeros_mat (mnew (mrows C) (mrows C)) ;;
  for_ 0 (mrows C) (fun i m => x <- mget C i i ;; mset m i i x) m.
End M.
Arguments chol F : clear implicits.

(** Cholesky.h:241-254 get_L, over the reals. The square root of a negative number is a NaN. *)
Definition fsqrt (x : R) : outcome R := if Rlt_dec x 0 then NonFinite else Ok (sqrt x).
Definition chol_sqrt_L (ch : chol R) : outcome (mat R) :=
  let C := ch_m ch in
  m <- zeros_mat (mnew (mrows C) (mrows C)) ;;
  for_ 0 (mcols C) (fun j m =>
    d <- mget C j j ;; s <- fsqrt d ;;
    m <- mset m j j s ;;
    for_ (S j) (mrows C) (fun i m => x <- mget C i j ;; mset m i j (fmul x s)) m) m.
