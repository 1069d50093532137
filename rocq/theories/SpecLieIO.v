(** * What is assumed of the text of a single number. *)
From Coq Require Import Reals List.
From Verif Require Import ModelFill ModelLie.
Import ListNotations.
Local Open Scope R_scope.

(** the text of x starts with a visible character and reads back as y when white space or the end of the stream follows *)
Definition reads_as (show : R -> text) (parse : text -> option (R * text)) (x y : R) : Prop :=
  (exists c t, show x = c :: t /\ is_white c = false) /\
  (forall t, (t = [] \/ exists c t', t = c :: t' /\ is_white c = true) -> parse (show x ++ t) = Some (y, t)).
Definition exact_text show parse x := reads_as show parse x x.
Definition exact3 show parse v := exact_text show parse (vx v) /\ exact_text show parse (vy v) /\ exact_text show parse (vz v).
Definition exact2 show parse v := exact_text show parse (ux v) /\ exact_text show parse (uy v).
Definition exactM show parse m := exact3 show parse (r0 m) /\ exact3 show parse (r1 m) /\ exact3 show parse (r2 m).
Definition exactM2 show parse m := exact2 show parse (s0 m) /\ exact2 show parse (s1 m).
(** the text of every number is good to a relative error eps (six digits: 5e-6) *)
Definition text_precision show parse (eps : R) : Prop := forall x, exists y, reads_as show parse x y /\ Rabs (y - x) <= eps * Rabs x.
(** there are no more numbers *)
Definition exhausted (parse : text -> option (R * text)) (t : text) : Prop := extract parse t = None.
