(** * Vocabulary for C102: lengths of columns, orthogonal matrices, and how much of a column lies below the diagonal. No model definitions except the loop itself in [at_step]. *)
From Coq Require Import Reals Arith.
From Verif Require Import Base Mat RSum SpecMat ModelFlQR.
Local Open Scope R_scope.

(** the Euclidean length of the first n elements of x *)
Definition len (n : nat) (x : nat -> R) : R := sqrt (Sum n (fun i => x i * x i)).
(** the n x n matrix W is orthogonal: its rows are orthonormal, and so are its columns *)
Definition orthogonal (n : nat) (W : nat -> nat -> R) : Prop :=
  forall i j, (i < n)%nat -> (j < n)%nat -> Sum n (fun k => W i k * W j k) = (if (i =? j)%nat then 1 else 0) /\ Sum n (fun k => W k i * W k j) = (if (i =? j)%nat then 1 else 0).
(** m is the working matrix of QR.h when the loop of compute() has done n of its iterations on A *)
Definition at_step (rnd : R -> R) (A : mat R) (n : nat) (m : mat R) : Prop :=
  exists Q, for_ 0 n (fl_qr_step rnd) (A, mkmat (mrows A) (mrows A) (fun r c => if (r =? c)%nat then 1 else 0)) = Ok (m, Q).
(** of a vector (x_0 ... x_(k-1)): the part after the first element is not zero, and at least s times as long as the whole *)
Definition steep (s : R) (k : nat) (x : nat -> R) : Prop := 0 < len (k - 1) (fun i => x (S i)) /\ s * len k x <= len (k - 1) (fun i => x (S i)).
(** every column that QR.h has to reflect (the diagonal element and what is below it) is steep *)
Definition steep_columns (rnd : R -> R) (s : R) (A : mat R) : Prop :=
  forall n m, (n < mrows A - 1)%nat -> at_step rnd A n m -> steep s (mrows A - n) (fun r => mel m (n + r) n).
(** the relative error of one reflection of a matrix with n rows *)
Definition refl_err (u s : R) (n : nat) : R := 72 * ((1 + u) ^ (n + 2) - 1) / (s * s).
(** ... and of k of them *)
Definition qr_err (u s : R) (n : nat) : R := (1 + refl_err u s n) ^ (n - 1) - 1.
