(** * Vocabulary for Lapack_Cholesky: the symmetric matrix that an upper triangle determines. *)
From Coq Require Import Arith.
From Verif Require Import SpecExp.
Definition usym (a : rmat) : rmat := fun r c => if (r <=? c)%nat then a r c else a c r.
