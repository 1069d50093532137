(** * irls.h: the reweighting functions in floating point: ModelIRLS with a rounding after every arithmetic operation. Model only.
    Absolute values are exact. Overflow and underflow are not modelled. The logarithms of the objectives of RobustI and RobustII are not. *)
From Coq Require Import Reals.
From Verif Require Import Base Alg Inst ModelFl.
Open Scope outcome_scope.
Local Open Scope R_scope.

Section M.
Variable rnd : R -> R.
Let fdiv_ (x y : R) : outcome R := @div R (FlOps rnd) x y.
(** irls.h:47 RobustI reweight; set_sd (44) stores x itself *)
Definition fl_robust1_w (sd x : R) : outcome R := fdiv_ 1 (rnd (sd + Rabs x)).
(** irls.h:48 RobustI true_scale *)
Definition fl_robust1_true (sd x : R) : outcome R := a <- fl_robust1_w sd x ;; Ok (rnd (a - rnd (rnd (Rabs x * a) * a))).
(** irls.h:58, 85 RobustII and RobustIII set_sd *)
Definition fl_set_sq (x : R) : R := rnd (x * x).
(** irls.h:60 RobustII reweight *)
Definition fl_robust2_w (sd d : R) : outcome R := fdiv_ 1 (rnd (sd + rnd (d * d))).
(** irls.h:88-92 RobustIII reweight *)
Definition fl_robust3_w (sd x : R) : outcome R := e <- fdiv_ (rnd (x * x)) sd ;; let d := rnd (1 + e) in fdiv_ 1 (rnd (d * d)).
(** irls.h:94-97 RobustIII objective *)
Definition fl_robust3_obj (sd x : R) : outcome R := e <- fdiv_ (rnd (x * x)) sd ;; fdiv_ (rnd (x * x)) (rnd (2 * rnd (1 + e))).
End M.
