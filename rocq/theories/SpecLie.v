(** * What it means to be a rotation: the small specification used by C52-C60. *)
From Coq Require Import Reals Lra.
From Verif Require Import ModelLie.
Local Open Scope R_scope.

(** Determinant by the rule of Sarrus. *)
Definition det3 (m : M3) : R :=
  vx (r0 m) * (vy (r1 m) * vz (r2 m) - vz (r1 m) * vy (r2 m))
  - vy (r0 m) * (vx (r1 m) * vz (r2 m) - vz (r1 m) * vx (r2 m))
  + vz (r0 m) * (vx (r1 m) * vy (r2 m) - vy (r1 m) * vx (r2 m)).
Definition trace3 (m : M3) : R := vx (r0 m) + vy (r1 m) + vz (r2 m).
(** The rows have length one and are mutually perpendicular. *)
Definition orthonormal (m : M3) : Prop :=
  dot3 (r0 m) (r0 m) = 1 /\ dot3 (r1 m) (r1 m) = 1 /\ dot3 (r2 m) (r2 m) = 1 /\
  dot3 (r0 m) (r1 m) = 0 /\ dot3 (r0 m) (r2 m) = 0 /\ dot3 (r1 m) (r2 m) = 0.
Definition rotation (m : M3) : Prop := orthonormal m /\ det3 m = 1.
(** The length of a vector. *)
Definition len3 (v : V3) : R := sqrt (dot3 v v).
(** The rotation by [angle] about the unit vector [a] (Rodrigues' formula in its coordinate-free form):
    it sends p to cos(angle) p + sin(angle) a x p + (1-cos(angle)) (a.p) a. *)
Definition rotate (a : V3) (angle : R) (p : V3) : V3 :=
  add3 (add3 (scale3 (cos angle) p) (scale3 (sin angle) (cross3 a p))) (scale3 ((1 - cos angle) * dot3 a p) a).
(** w = w0 G0 + w1 G1 + w2 G2 as the matrix of p -> w x p *)
Definition hat (w : V3) : M3 :=
  mkM (mk3 0 (- vz w) (vy w)) (mk3 (vz w) 0 (- vx w)) (mk3 (- vy w) (vx w) 0).
(** elements of a 3-vector and of a 3x3 matrix by index *)
Definition comp3 (v : V3) (i : nat) : R := match i with 0%nat => vx v | 1%nat => vy v | _ => vz v end.
Definition ent (m : M3) (i j : nat) : R := comp3 (match i with 0%nat => r0 m | 1%nat => r1 m | _ => r2 m end) j.
Definition zero3 : V3 := mk3 0 0 0.

(** Two dimensions. *)
Definition det2 (m : M2) : R := ux (s0 m) * uy (s1 m) - uy (s0 m) * ux (s1 m).
Definition orthonormal2 (m : M2) : Prop :=
  dot2 (s0 m) (s0 m) = 1 /\ dot2 (s1 m) (s1 m) = 1 /\ dot2 (s0 m) (s1 m) = 0.
Definition rotation2 (m : M2) : Prop := orthonormal2 m /\ det2 m = 1.
