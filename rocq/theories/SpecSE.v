(** * The homogeneous matrices of rigid transforms and the matrices of their Lie algebras. *)
From Coq Require Import Reals Bool Arith.
From Verif Require Import Base Alg Mat Inst ModelLie SpecLie ModelSE.
Local Open Scope R_scope.

(** [R t; 0 1] *)
Definition hom3 (T : SE3) (r c : nat) : R :=
  if (r <? 3)%nat then (if (c <? 3)%nat then ent (rot T) r c else comp3 (trans T) r) else (if (c <? 3)%nat then 0 else 1).
(** v0 G0 + ... + v5 G5 *)
Definition gen6 (v : V6) (r c : nat) : R := sum (F:=R) 6 (fun i => v6_at v i * se3_generator i r c).
(** the product of two n x n matrices *)
Definition times (n : nat) (f g : nat -> nat -> R) (r c : nat) : R := sum (F:=R) n (fun k => f r k * g k c).
(** SE2: [R t; 0 1] and v0 G0 + v1 G1 + v2 G2 *)
Definition el2 (v : V2) (i : nat) : R := match i with 0%nat => ux v | _ => uy v end.
Definition el22 (m : M2) (r c : nat) : R := el2 (match r with 0%nat => s0 m | _ => s1 m end) c.
Definition hom2 (T : SE2) (r c : nat) : R :=
  if (r <? 2)%nat then (if (c <? 2)%nat then el22 (rot2 T) r c else el2 (trans2 T) r) else (if (c <? 2)%nat then 0 else 1).
Definition gen3 (v : V3) (r c : nat) : R := sum (F:=R) 3 (fun i => v3_at v i * ent (se2_generator i) r c).
(** Where a point carried with constant body velocity u under a rotation about the unit axis a gets to after angle t:
    the integral over s from 0 to t of the rotation by s of u (C59_swept proves this). *)
Definition swept (a : V3) (t : R) (u : V3) : V3 :=
  add3 (add3 (scale3 (sin t) (sub3 u (scale3 (dot3 a u) a))) (scale3 (1 - cos t) (cross3 a u))) (scale3 (t * dot3 a u) a).
