(** * SL<N>: matrices of determinant one. Generators, coordinates, product and inverse over any field; coerce over the reals. *)
From Coq Require Import Reals Arith Bool.
From Verif Require Import Base Alg Mat Inst ModelOps ModelGauss ModelLie.
Open Scope outcome_scope.

(** sl.h:60-61, 118-122. N >= 1. *)
Definition sl_dim (N : nat) : nat := N * N - 1.
Definition count_diag (N : nat) : nat := N - 1.
Definition count_symm (N : nat) : nat := (sl_dim N - count_diag N) / 2.
Definition diag_limit (N : nat) : nat := count_diag N.
Definition symm_limit (N : nat) : nat := count_symm N + diag_limit N.
(** sl.h:170-174 and 178-182: [while(col > (N - row - 1)) { col -= (N - row - 1); ++row; }]. The indices are ints; on the calls
    made below row stays below N (sl_walk_ok), so natural subtraction is the ints' subtraction. *)
Fixpoint sl_walk (fuel N row col : nat) : outcome (nat * nat) :=
  match fuel with
  | 0 => OutOfFuel
  | S fuel => if N - row - 1 <? col then sl_walk fuel N (S row) (col - (N - row - 1)) else Ok (row, col)
  end.
Section S.
Context {F : Type} {Fo : Ops F}.
Definition sl_zeros (N : nat) : mat F := mkmat N N (fun _ _ => f0).
(** sl.h:163-188. The index is a natural number: [i > -1] holds. *)
Definition sl_generator (N i : nat) : outcome (mat F) :=
  _ <- assert_ (i <? sl_dim N) ;;
  let result := sl_zeros N in
  if i <? diag_limit N then
    result <- mset result i i f1 ;;
    mset result (i + 1) (i + 1) (fopp f1)
  else if i <? symm_limit N then
    ' (row, col) <- sl_walk (S N) N 0 (i - diag_limit N + 1) ;;
    let col := col + row in
    result <- mset result col row f1 ;;
    mset result row col f1
  else
    ' (row, col) <- sl_walk (S N) N 0 (i - symm_limit N + 1) ;;
    let col := col + row in
    result <- mset result row col (fopp f1) ;;
    mset result col row f1.
(** sl.h:130-135, the matrix whose exponential is taken *)
Definition sl_exp_matrix (N : nat) (v : vec F) : outcome (mat F) :=
  _ <- same_size (vlen v) (sl_dim N) ;;
  for_ 0 (sl_dim N) (fun i t => g <- sl_generator N i ;; x <- vget v i ;; s <- mscale g x ;; madd_assign t s) (sl_zeros N).
(** sl.h:141-160, given the matrix logarithm l *)
Definition sl_ln_vector (N : nat) (l : mat F) : outcome (vec F) :=
  half <- div f1 (fadd f1 f1) ;;
  ' (v, _) <- for_ 0 (diag_limit N) (fun i s =>
     let '(v, last) := s in
     x <- mget l i i ;;
     v <- vset v i (fadd x last) ;;
     Ok (v, x)) (vnew (sl_dim N), f0) ;;
  ' (v, _, _) <- for_ (diag_limit N) (symm_limit N) (fun i s =>
     let '(v, row, col) := s in
     a <- mget l row col ;; b <- mget l col row ;;
     v <- vset v i (fmul (fadd a b) half) ;;
     v <- vset v (i + count_symm N) (fmul (fadd (fopp a) b) half) ;;
     let col := col + 1 in
     if col =? N then (let row := row + 1 in Ok (v, row, row + 1)) else Ok (v, row, col)) (v, 0, 1) ;;
  Ok v.
(** sl.h:64 default, 101-104 inverse, 105 product *)
Definition sl_default (N : nat) : mat F := mkmat N N (fun r c => if r =? c then f1 else f0).
Definition sl_inverse (N : nat) (M : mat F) : outcome (mat F) := gaussian_elimination_mat M (sl_default N).
Definition sl_mul (A B : mat F) : outcome (mat F) := mmul A B.
(** sl.h:85 *)
Definition sl_mul_assign (A B : mat F) : outcome (mat F) := sl_mul A B.
End S.
(** std::pow(x, 1.0/N): no finite result for negative x unless 1/N is a whole number *)
Definition pow_root (x : R) (N : nat) : outcome R :=
  if R_ltb 0 x then Ok (Rpower x (1 / INR N)) else if N =? 1 then Ok x else NonFinite.
(** sl.h:107-113; the constructor from a matrix (72) and operator>> (217-221) end with it *)
Definition sl_coerce (N : nat) (M : mat R) : outcome (mat R) :=
  det <- determinant M ;;
  _ <- assert_ (R_ltb 0 (Rabs det)) ;;
  p <- pow_root det N ;;
  mdiv_assign M p.
