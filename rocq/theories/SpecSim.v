(** * The homogeneous matrices of similarity transforms and the matrices of their Lie algebras. *)
From Coq Require Import Reals Bool Arith.
From Verif Require Import Base Alg Mat Inst ModelLie SpecLie ModelSE SpecSE ModelSim.
Local Open Scope R_scope.
(** [s R t; 0 1] *)
Definition homs3 (T : SIM3) (r c : nat) : R :=
  if (r <? 3)%nat then (if (c <? 3)%nat then mscl T * ent (mrot T) r c else comp3 (mtrans T) r) else (if (c <? 3)%nat then 0 else 1).
(** v0 G0 + ... + v6 G6 *)
Definition gen7 (v : V7) (r c : nat) : R := sum (F:=R) 7 (fun i => v7_at v i * sim3_generator i r c).
Definition homs2 (T : SIM2) (r c : nat) : R :=
  if (r <? 2)%nat then (if (c <? 2)%nat then mscl2 T * el22 (mrot2 T) r c else el2 (mtrans2 T) r) else (if (c <? 2)%nat then 0 else 1).
Definition gen4 (v : W4) (r c : nat) : R := sum (F:=R) 4 (fun i => w4_at v i * ent (sim2_generator i) r c).
(** The path of a point that starts at the origin and has velocity exp(s x) R(t x) u at time x, R(t x) being the rotation
    by t x about the unit vector a: the translation of the exponential is where it is at time 1. *)
Definition sim_path (a : V3) (t s : R) (u : V3) (P : R -> V3) : Prop :=
  P 0 = zero3 /\ forall x i, (i < 3)%nat -> derivable_pt_lim (fun y => comp3 (P y) i) x (comp3 (scale3 (exp (s * x)) (rotate a (t * x) u)) i).
