(** * Specification vocabulary for sizes and slices (independent of the model). *)
From Coq Require Import ZArith.
Open Scope Z_scope.

(** A template size is "run-time" if it is -1 (Dynamic). *)
Definition agrees (static_arg runtime_arg : Z) : Prop :=
  static_arg = -1 \/ static_arg = runtime_arg.
(** The English condition of C01. *)
Definition slice_legal (Start Length size start length : Z) : Prop :=
  agrees Start start /\ agrees Length length /\
  0 <= start /\ 0 <= length /\ start + length <= size.
(** Template arguments that denote something: -1 or non-negative. *)
Definition template_arg (S : Z) : Prop := S = -1 \/ 0 <= S.
(** A vector type/object pair as it occurs in a program: dynamic with any size, or
    statically sized with its own size. *)
Definition fixed_or_dynamic (Size size : Z) : Prop :=
  (Size = -1 /\ 0 <= size) \/ (0 < Size /\ size = Size).
Definition int32 (x : Z) : Prop := -2147483648 <= x <= 2147483647.
