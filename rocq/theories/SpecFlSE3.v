(** * Histories of rigid motions: the exact motion they stand for, and the error bounds. *)
From Coq Require Import Reals.
From Verif Require Import Base ModelLie SpecLie ModelSE SpecSE SpecFl SpecFlSO3 ModelFlSO3 SpecFlHist ModelFlSE3.
Local Open Scope R_scope.

(** t is where the body velocity v takes the origin in unit time under the constant rotation velocity w *)
Definition carried (w v t : V3) : Prop := (w = zero3 -> t = v) /\ (w <> zero3 -> t = swept (direction w) (len3 w) (scale3 (1 / len3 w) v)).
(** T is the rigid motion that the history stands for, without any rounding *)
Fixpoint precisely (h : motion) (T : SE3) : Prop :=
  match h with
  | MDefault => forall p, se3_act T p = p
  | MExp mu => (forall p, mv3 (rot T) p = rotate (direction (ang mu)) (len3 (ang mu)) p) /\ carried (ang mu) (lin mu) (trans T)
  | MParts h t => exactly h (rot T) /\ trans T = t
  | MMul x y => exists A B, precisely x A /\ precisely y B /\ forall p, se3_act T p = se3_act A (se3_act B p)
  | MInv x => exists A, precisely x A /\ forall p, se3_act T (se3_act A p) = p
  | MRot h x => exists m A, exactly h m /\ precisely x A /\ forall p, se3_act T p = mv3 m (se3_act A p)
  end.
(** one exponential: the rotation and, in proportion to the length of the velocity, the translation.
    2e-9 is the term that the code drops for small angles (C59). *)
Definition trans_exp_error (u s : R) : R := 110 * u + 2500 * s + 2 / 10 ^ 9.
(** the rotation part: how far from the nearest rotation, and from the rotation it stands for *)
Fixpoint turn_drift (u s : R) (h : motion) : R :=
  match h with
  | MDefault => 0
  | MExp mu => exp_error u s
  | MParts h _ => drift u s h
  | MMul x y => (1 + turn_drift u s x) * (1 + turn_drift u s y) * mul_growth u - 1
  | MInv x => turn_drift u s x
  | MRot h x => (1 + drift u s h) * (1 + turn_drift u s x) * mul_growth u - 1
  end.
Fixpoint turn_error (u s : R) (h : motion) : R :=
  match h with
  | MDefault => 0
  | MExp mu => exp_error u s + 16 * u * len3 (ang mu)
  | MParts h _ => error u s h
  | MMul x y => (1 + turn_error u s x) * (1 + turn_error u s y) * mul_growth u - 1
  | MInv x => turn_error u s x
  | MRot h x => (1 + error u s h) * (1 + turn_error u s x) * mul_growth u - 1
  end.
(** the translations put together end to end: no exact translation of the history is longer *)
Fixpoint reach (h : motion) : R :=
  match h with
  | MDefault => 0
  | MExp mu => len3 (lin mu)
  | MParts _ t => len3 t
  | MMul x y => reach x + reach y
  | MInv x | MRot _ x => reach x
  end.
(** the same for the computed translations, each with its errors *)
Definition turned (u e r : R) : R := (1 + e) * (1 + 2 * fwd u 3) * r.
Fixpoint span (u s : R) (h : motion) : R :=
  match h with
  | MDefault => 0
  | MExp mu => (1 + trans_exp_error u s) * len3 (lin mu)
  | MParts _ t => len3 t
  | MMul x y => (1 + u) * (span u s x + turned u (turn_error u s x) (span u s y))
  | MInv x => turned u (turn_error u s x) (span u s x)
  | MRot h x => turned u (error u s h) (span u s x)
  end.
Fixpoint tame_motion (u s : R) (h : motion) : Prop :=
  match h with
  | MDefault | MExp _ => True
  | MParts h _ => tame u s h
  | MMul x y => tame_motion u s x /\ tame_motion u s y
  | MInv x => tame_motion u s x
  | MRot h x => tame u s h /\ tame_motion u s x
  end.
(** the longest chain of operations on one translation *)
Fixpoint depth (h : motion) : nat :=
  match h with MDefault | MExp _ | MParts _ _ => 0 | MMul x y => S (max (depth x) (depth y)) | MInv x | MRot _ x => S (depth x) end.
