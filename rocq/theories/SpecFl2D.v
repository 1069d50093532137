(** * Distances in the plane, histories of SO2 and SE2 objects: what they stand for exactly, and the error bounds. *)
From Coq Require Import Reals.
From Verif Require Import Base ModelLie SpecLie ModelSE SpecFl SpecFlHist SpecFlSE3 ModelFl2D.
Local Open Scope R_scope.

Definition len2 (v : V2) : R := sqrt (dot2 v v).
(** the square root of the sum of the squares of the four entries *)
Definition fro2 (m : M2) : R := sqrt (dot2 (s0 m) (s0 m) + dot2 (s1 m) (s1 m)).
Definition subM2 (a b : M2) : M2 := mkM2 (sub2 (s0 a) (s0 b)) (sub2 (s1 a) (s1 b)).
Definition dist2 (a b : M2) : R := fro2 (subM2 a b).
(** r is the rotation by the angle t *)
Definition turns (t : R) (r : M2) : Prop := forall x y, mv2 r (mk2 x y) = mk2 (cos t * x - sin t * y) (sin t * x + cos t * y).
(** 1 / sin of the angle between the rows *)
Definition skewness2 (m : M2) : R := len2 (s0 m) * len2 (s1 m) / Rabs (det2 m).
(** p is where the body velocity v takes the origin in unit time under the constant rotation velocity w: the integral over [0,1] of the rotation by s w of v *)
Definition carried2 (w : R) (v p : V2) : Prop :=
  (w = 0 -> p = v) /\ (w <> 0 -> p = mk2 ((sin w * ux v - (1 - cos w) * uy v) / w) (((1 - cos w) * ux v + sin w * uy v) / w)).
(** t is the rotation that the history stands for, without any rounding; coerce() stands for nothing *)
Fixpoint exactly2 (h : history2) (t : M2) : Prop :=
  match h with
  | Default2 => t = id2
  | Exp2 w => turns w t
  | OfMatrix2 m => so2_coerce m = Ok t
  | Mul2 x y => exists p q, exactly2 x p /\ exactly2 y q /\ t = mm2 p q
  | Inv2 x => exists p, exactly2 x p /\ t = tr2 p
  | Coerce2 x => exactly2 x t
  end.
(** one sine and one cosine *)
Definition exp_error2 (s : R) : R := 2 * s.
(** how far the object may be from the nearest rotation *)
Fixpoint drift2 (u s : R) (h : history2) : R :=
  match h with
  | Default2 => 0
  | Exp2 _ => exp_error2 s
  | OfMatrix2 m => 652 * u
  | Mul2 x y => (1 + drift2 u s x) * (1 + drift2 u s y) * mul_growth u - 1
  | Inv2 x => drift2 u s x
  | Coerce2 x => 652 * u
  end.
(** how far it may be from the rotation it stands for *)
Definition of_matrix_error2 (u : R) (m : M2) : R := 20212 * u * skewness2 m + 652 * u.
Fixpoint error2 (u s : R) (h : history2) : R :=
  match h with
  | Default2 => 0
  | Exp2 _ => exp_error2 s
  | OfMatrix2 m => of_matrix_error2 u m
  | Mul2 x y => (1 + error2 u s x) * (1 + error2 u s y) * mul_growth u - 1
  | Inv2 x => error2 u s x
  | Coerce2 x => error2 u s x + 63 * drift2 u s x + 652 * u
  end.
(** the matrices given have positive determinant and are not too flat, and coerce() is called before the drift reaches 1/10 *)
Fixpoint tame2 (u s : R) (h : history2) : Prop :=
  match h with
  | Default2 | Exp2 _ => True
  | OfMatrix2 m => 0 < det2 m /\ 3400 * u * skewness2 m <= 1
  | Mul2 x y => tame2 u s x /\ tame2 u s y
  | Inv2 x => tame2 u s x
  | Coerce2 x => tame2 u s x /\ drift2 u s x <= 1 / 10
  end.
(** the library's atan2 *)
Definition arctangent (s : R) (fatan2 : R -> R -> R) : Prop := forall y x, Rabs (fatan2 y x - atan2 y x) <= s.

(** ** SE2 *)
(** T is the rigid motion of the plane that the history stands for, without any rounding *)
Fixpoint precisely2 (h : motion2) (T : SE2) : Prop :=
  match h with
  | MDefault2 => forall p, se2_act T p = p
  | MExp2 mu => turns (vz mu) (rot2 T) /\ carried2 (vz mu) (mk2 (vx mu) (vy mu)) (trans2 T)
  | MParts2 h t => exactly2 h (rot2 T) /\ trans2 T = t
  | MMul2 x y => exists A B, precisely2 x A /\ precisely2 y B /\ forall p, se2_act T p = se2_act A (se2_act B p)
  | MInv2 x => exists A, precisely2 x A /\ forall p, se2_act T (se2_act A p) = p
  | MRot2 h x => exists m A, exactly2 h m /\ precisely2 x A /\ forall p, se2_act T p = mv2 m (se2_act A p)
  end.
(** the translation of one exponential, in proportion to the velocity. 2e-9 is the term that the code drops for small angles. *)
Definition trans_exp_error2 (u s : R) : R := 20 * u + 2100 * s + 2 / 10 ^ 9.
Fixpoint turn_drift2 (u s : R) (h : motion2) : R :=
  match h with
  | MDefault2 => 0
  | MExp2 _ => exp_error2 s
  | MParts2 h _ => drift2 u s h
  | MMul2 x y => (1 + turn_drift2 u s x) * (1 + turn_drift2 u s y) * mul_growth u - 1
  | MInv2 x => turn_drift2 u s x
  | MRot2 h x => (1 + drift2 u s h) * (1 + turn_drift2 u s x) * mul_growth u - 1
  end.
Fixpoint turn_error2 (u s : R) (h : motion2) : R :=
  match h with
  | MDefault2 => 0
  | MExp2 _ => exp_error2 s
  | MParts2 h _ => error2 u s h
  | MMul2 x y => (1 + turn_error2 u s x) * (1 + turn_error2 u s y) * mul_growth u - 1
  | MInv2 x => turn_error2 u s x
  | MRot2 h x => (1 + error2 u s h) * (1 + turn_error2 u s x) * mul_growth u - 1
  end.
(** the translations put together end to end: no exact translation of the history is longer *)
Fixpoint reach2 (h : motion2) : R :=
  match h with
  | MDefault2 => 0
  | MExp2 mu => len2 (mk2 (vx mu) (vy mu))
  | MParts2 _ t => len2 t
  | MMul2 x y => reach2 x + reach2 y
  | MInv2 x | MRot2 _ x => reach2 x
  end.
(** the same for the computed translations, each with its errors ([turned] is that of SE3) *)
Fixpoint span2 (u s : R) (h : motion2) : R :=
  match h with
  | MDefault2 => 0
  | MExp2 mu => (1 + trans_exp_error2 u s) * len2 (mk2 (vx mu) (vy mu))
  | MParts2 _ t => len2 t
  | MMul2 x y => (1 + u) * (span2 u s x + turned u (turn_error2 u s x) (span2 u s y))
  | MInv2 x => turned u (turn_error2 u s x) (span2 u s x)
  | MRot2 h x => turned u (error2 u s h) (span2 u s x)
  end.
Fixpoint tame_motion2 (u s : R) (h : motion2) : Prop :=
  match h with
  | MDefault2 | MExp2 _ => True
  | MParts2 h _ => tame2 u s h
  | MMul2 x y => tame_motion2 u s x /\ tame_motion2 u s y
  | MInv2 x => tame_motion2 u s x
  | MRot2 h x => tame2 u s h /\ tame_motion2 u s x
  end.
(** the longest chain of operations on one translation *)
Fixpoint depth2 (h : motion2) : nat :=
  match h with MDefault2 | MExp2 _ | MParts2 _ _ => 0 | MMul2 x y => S (max (depth2 x) (depth2 y)) | MInv2 x | MRot2 _ x => S (depth2 x) end.
(** the translation part of one ln, in proportion to the translation. 3e-11 is what taking sin(t/2)/t for 1/2 below 1e-5 costs. *)
Definition ln_trans_error2 (u s : R) : R := 50 * u + 20 * s + 3 / 10 ^ 11.
