(** * What extrapolation to zero and numerical differentiation mean. *)
From Coq Require Import Reals Arith.
From Verif Require Import RSum.
Local Open Scope R_scope.

(** the value at x of the polynomial with coefficients a 0 .. a n *)
Definition poly (n : nat) (a : nat -> R) (x : R) : R := Sum (n + 1) (fun k => a k * x ^ k).
(** the m-th step: 1, 1/1.1, 1/1.1^2, ... *)
Definition step_at (m : nat) : R := / (11 / 10) ^ m.
(** y m is the value at step m (None where the function is undefined). p is the value at 0 of the polynomial of degree at most j
    through the j+1 samples i-j .. i *)
Definition estimate (y : nat -> option R) (i j : nat) (p : R) : Prop :=
  (j <= i)%nat /\ exists a, (forall m, (i - j <= m <= i)%nat -> y m = Some (poly j a (step_at m))) /\ p = a 0%nat.
(** p is such an estimate and e its error: the larger of the distances to the two estimates of the next lower order it comes from *)
Definition estimate_error (y : nat -> option R) (i j : nat) (p e : R) : Prop :=
  (1 <= j <= i)%nat /\ exists p1 p2, estimate y i j p /\ estimate y i (j - 1) p1 /\ estimate y (i - 1) (j - 1) p2 /\ e = Rmax (Rabs (p - p1)) (Rabs (p - p2)).
(** why the extrapolation may stop after sample m: some estimate exists, none of the newest ones is better than all the earlier
    ones, and the newest one of the highest order is undefined or more than twice the best error away from the previous one *)
Definition gives_up (y : nat -> option R) (m : nat) : Prop :=
  (0 < m)%nat /\ (exists i j p e, (i <= m)%nat /\ estimate_error y i j p e) /\
  (forall j p e, estimate_error y m j p e -> exists i j' p' e', (i < m)%nat /\ estimate_error y i j' p' e' /\ e' <= e) /\
  (forall p q, estimate y m m p -> estimate y (m - 1) (m - 1) q -> exists i j p' e', (i <= m)%nat /\ estimate_error y i j p' e' /\ 2 * e' < Rabs (p - q)).
(** moving coordinate i of v by t *)
Definition moved (v : nat -> R) (i : nat) (t : R) : nat -> R := fun k => if (k =? i)%nat then v k + t else v k.
(** the quadratic function c + b.x + x^T A x / 2 of n coordinates *)
Definition quadratic (n : nat) (c : R) (b : nat -> R) (A : nat -> nat -> R) (x : nat -> R) : R :=
  c + Sum n (fun k => b k * x k) + Sum n (fun k => Sum n (fun l => x k * A k l * x l)) / 2.
(** the order in which estimates are made *)
Definition earlier (i' j' i j : nat) : Prop := (i' < i)%nat \/ i' = i /\ (j' < j)%nat.
(** of the estimates from samples 0 .. m, the first one with the smallest error *)
Definition chosen (y : nat -> option R) (m : nat) (b : option (R * R)) : Prop :=
  match b with
  | Some (p, e) => exists i j, (i <= m)%nat /\ estimate_error y i j p e /\ (forall i' j' p' e', (i' <= m)%nat -> estimate_error y i' j' p' e' -> e <= e' /\ (earlier i' j' i j -> e < e'))
  | None => forall i j p e, (i <= m)%nat -> ~ estimate_error y i j p e
  end.
(** the polynomial in two variables with the terms x^p y^q, p + q <= 4 *)
Definition poly2 (a : nat -> nat -> R) (x y : R) : R := Sum 5 (fun p => Sum (5 - p) (fun q => a p q * x ^ p * y ^ q)).
