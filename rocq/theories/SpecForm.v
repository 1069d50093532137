(** * Specification vocabulary: symmetric and definite matrices, triangular matrices, products. *)
From Coq Require Import Arith.
From Verif Require Import Base Alg.

Section S.
Context {F : Type} {Fo : Ops F}.
(** x^T a x *)
Definition quad (n : nat) (a : nat -> nat -> F) (x : nat -> F) : F :=
  sum n (fun r => sum n (fun c => fmul (fmul (x r) (a r c)) (x c))).
Definition symmetric (n : nat) (a : nat -> nat -> F) : Prop := forall r c, r < n -> c < n -> a r c = a c r.
Definition posdef (n : nat) (a : nat -> nat -> F) : Prop :=
  symmetric n a /\ forall x, (exists i, i < n /\ x i <> f0) -> flt f0 (quad n a x).
Definition psd (n : nat) (a : nat -> nat -> F) : Prop := symmetric n a /\ forall x, fle f0 (quad n a x).
(** the symmetric matrix with the lower triangle of [a] *)
Definition lower_sym (a : nat -> nat -> F) (r c : nat) : F := if c <=? r then a r c else a c r.
Definition unit_lower (n : nat) (l : nat -> nat -> F) : Prop :=
  forall r c, r < n -> c < n -> r <= c -> l r c = if r =? c then f1 else f0.
Definition diagonal (n : nat) (d : nat -> nat -> F) : Prop := forall r c, r < n -> c < n -> r <> c -> d r c = f0.
Fixpoint prod (n : nat) (f : nat -> F) : F := match n with O => f1 | S k => fmul (prod k f) (f k) end.
End S.

(** At least [k] linearly independent vectors among the images of the n x n matrix [a]; the rank. *)
Definition rank_at_least {F} {Fo : Ops F} (n : nat) (a : nat -> nat -> F) (k : nat) : Prop :=
  exists x : nat -> nat -> F, forall w : nat -> F,
    (forall r, r < n -> sum k (fun j => fmul (w j) (sum n (fun c => fmul (a r c) (x j c)))) = f0) -> forall j, j < k -> w j = f0.
Definition rank_is {F} {Fo : Ops F} (n : nat) (a : nat -> nat -> F) (k : nat) : Prop :=
  rank_at_least n a k /\ ~ rank_at_least n a (S k).
