(** * What LAPACK's getrf returns, as seen by the row-major library. *)
From Coq Require Import Arith.
From Verif Require Import Base Alg Mat SpecMat ModelLU.

(** exchanging the entries i and s of a sequence *)
Definition exchange {X} (i s : nat) (f : nat -> X) (k : nat) : X := if k =? i then f s else if k =? s then f i else f k.
(** the interchanges 0, 1, .., n-1 in this order *)
Fixpoint interchanged {X} (piv : nat -> nat) (n : nat) (f : nat -> X) : nat -> X :=
  match n with O => f | S k => exchange k (piv k) (interchanged piv k f) end.
Section S.
Context {F : Type} {Fo : Ops F}.
(** lower triangle with the diagonal; upper triangle with a unit diagonal *)
Definition lower (m : nat -> nat -> F) (r c : nat) : F := if c <=? r then m r c else f0.
Definition unit_upper (m : nat -> nat -> F) (r c : nat) : F := if r <? c then m r c else if r =? c then f1 else f0.
(** getrf's result for the transpose of A: interchanging the columns of A as the pivots say gives lower * unit_upper *)
Definition factorised (n : nat) (A : nat -> nat -> F) (L : lu F) : Prop :=
  mrows (lu_m L) = n /\ mcols (lu_m L) = n /\ (forall i, i < n -> i <= lu_piv L i < n) /\
  forall r c, r < n -> c < n -> interchanged (lu_piv L) n (A r) c = sum n (fun k => fmul (lower (mel (lu_m L)) r k) (unit_upper (mel (lu_m L)) k c)).
End S.
