(** * Histories of rotation objects: the exact rotation they stand for, and the error bounds. *)
From Coq Require Import Reals.
From Verif Require Import Base ModelLie SpecLie SpecFl SpecFlSO3 ModelFlSO3.
Local Open Scope R_scope.

(** t is the rotation that the history h stands for, without any rounding. coerce() stands for nothing: it only repairs. *)
Fixpoint exactly (h : history) (t : M3) : Prop :=
  match h with
  | Default => t = id3
  | Exp w => forall p, mv3 t p = rotate (direction w) (len3 w) p
  | OfMatrix m => so3_coerce m = Ok t
  | OfVectors a b => so3_of_vectors a b = Ok t
  | Mul x y => exists p q, exactly x p /\ exactly y q /\ t = mm3 p q
  | Inv x => exists p, exactly x p /\ t = tr3 p
  | Coerce x => exactly x t
  end.
(** one exponential, one product *)
Definition exp_error (u s : R) : R := 90 * u + 4 * s + 1 / 10 ^ 16.
Definition mul_growth (u : R) : R := 1 + 3 * fwd u 3.
(** how far the object may be from the nearest rotation *)
Fixpoint drift (u s : R) (h : history) : R :=
  match h with
  | Default => 0
  | Exp w => exp_error u s
  | OfMatrix m => 326 * u * skewness m
  | OfVectors a b => 102 * u * obliqueness a b
  | Mul x y => (1 + drift u s x) * (1 + drift u s y) * mul_growth u - 1
  | Inv x => drift u s x
  | Coerce x => 652 * u
  end.
(** how far it may be from the rotation it stands for *)
Fixpoint error (u s : R) (h : history) : R :=
  match h with
  | Default => 0
  | Exp w => exp_error u s + 16 * u * len3 w
  | OfMatrix m => 326 * u * skewness m
  | OfVectors a b => 102 * u * obliqueness a b
  | Mul x y => (1 + error u s x) * (1 + error u s y) * mul_growth u - 1
  | Inv x => error u s x
  | Coerce x => error u s x + 63 * drift u s x + 652 * u
  end.
(** the matrices given have positive determinant and are not too flat, the vectors given are not too parallel, and coerce() is called before the drift reaches 1/10 *)
Fixpoint tame (u s : R) (h : history) : Prop :=
  match h with
  | Default | Exp _ => True
  | OfMatrix m => 0 < det3 m /\ 3400 * u * skewness m <= 1
  | OfVectors a b => cross3 a b <> zero3 /\ 1000 * u * obliqueness a b <= 1
  | Mul x y => tame u s x /\ tame u s y
  | Inv x => tame u s x
  | Coerce x => tame u s x /\ drift u s x <= 1 / 10
  end.
(** histories made of exponentials, products and inverses only, with their number of exponentials and products *)
Fixpoint plain (h : history) : Prop :=
  match h with Default | Exp _ => True | Mul x y => plain x /\ plain y | Inv x => plain x | _ => False end.
Fixpoint exps (h : history) : nat :=
  match h with Exp _ => 1 | Mul x y => exps x + exps y | Inv x => exps x | _ => 0 end.
Fixpoint muls (h : history) : nat :=
  match h with Mul x y => S (muls x + muls y) | Inv x => muls x | _ => 0 end.
