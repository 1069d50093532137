From Coq Require Import ZArith Bool Lia ZifyBool.
From Verif Require Import Base ModelSize SpecSize.
Open Scope Z_scope.

Ltac unf := unfold check_slice, check_slice_static, pickN, bad_slice, is_dyn, is_dynr, int_add, is_int in *;
  unfold Dynamic, Resizable, INT_MAX, INT_MIN, slice_legal, template_arg, fixed_or_dynamic, int32 in *;
  unfold agrees in *.

Lemma eqb_neg (x : Z) k : 0 <= x -> k < 0 -> (x =? k) = false.
Proof. lia. Qed.

Ltac step_if :=
  match goal with
  | |- context [if ?b then _ else _] =>
      lazymatch b with context [if _ then _ else _] => fail | _ => idtac end;
      let E := fresh "E" in destruct b eqn:E; cbn [bind andb orb negb]
  end.
Ltac fin_slice :=
  split; [split; [intros HH; try discriminate; lia | intros HH; try reflexivity; exfalso; lia]
               | intros HH; try (left; reflexivity); try (right; eexists; reflexivity); exfalso; lia].

Lemma check_slice_exact Size Start Length size start length :
  fixed_or_dynamic Size size -> template_arg Start -> template_arg Length ->
  int32 (start + length) ->
  (check_slice Size Start Length size start length = Ok tt
     <-> slice_legal Start Length size start length)
  /\ (~ slice_legal Start Length size start length ->
      check_slice Size Start Length size start length = CompileError \/
      exists d, check_slice Size Start Length size start length = Abort d).
Proof.
  unf. intros HS HSt HL Hi.
  destruct HS as [[-> Hs]|[Hs ->]]; destruct HSt as [->|HSt]; destruct HL as [->|HL];
    cbn [Z.eqb Pos.eqb negb andb orb bind];
    repeat rewrite eqb_neg by lia;
    cbn [Z.eqb Pos.eqb negb andb orb bind].
  all: repeat step_if; fin_slice.
Qed.

(** Whatever the template arguments (also Resizable vectors): an accepted slice lies inside. *)
Lemma check_slice_sound Size Start Length size start length :
  check_slice Size Start Length size start length = Ok tt ->
  (Size = Dynamic \/ Size = Resizable \/ Size = size) ->
  0 <= (if is_dyn Start then start else Start) /\
  0 <= (if is_dyn Length then length else Length) /\
  (if is_dyn Start then start else Start) + (if is_dyn Length then length else Length) <= size.
Proof.
  unf. intros H HS. revert H.
  assert (HSz : (if (Size =? -1) || (Size =? -2147483647) then size else Size) = size)
    by (destruct ((Size =? -1) || (Size =? -2147483647)) eqn:E; lia).
  rewrite HSz.
  destruct (Start =? -1) eqn:ES; destruct (Length =? -1) eqn:EL; cbn [negb orb andb].
  all: repeat step_if; intros HH; try discriminate; try lia.
Qed.

Lemma size_mismatch_exact S1 S2 s1 s2 :
  (S1 = Dynamic \/ S1 = Resizable \/ S1 = s1) -> (S2 = Dynamic \/ S2 = Resizable \/ S2 = s2) ->
  0 <= s1 -> 0 <= s2 ->
  (s1 = s2 -> size_mismatch S1 S2 s1 s2 = Ok tt) /\
  (s1 <> s2 -> (is_static S1 = true /\ is_static S2 = true /\ size_mismatch S1 S2 s1 s2 = CompileError)
            \/ ((is_static S1 && is_static S2) = false /\ size_mismatch S1 S2 s1 s2 = Abort DSizeMismatch)).
Proof.
  unfold size_mismatch, size_mismatch_, norm_size, is_static, Dynamic, Resizable.
  intros H1 H2 P1 P2.
  destruct H1 as [->|[->| ->]]; destruct H2 as [->|[->| ->]];
    cbn [Z.eqb Pos.eqb negb andb orb]; repeat rewrite (eqb_neg _ _ P1) by lia;
    repeat rewrite (eqb_neg _ _ P2) by lia; cbn [Z.eqb Pos.eqb negb andb orb].
  all: repeat match goal with |- context [if ?b then _ else _] => destruct b eqn:?E end;
       repeat rewrite (eqb_neg _ _ P1) in * by lia; repeat rewrite (eqb_neg _ _ P2) in * by lia;
       cbn [negb andb orb] in *; try lia;
       (split; intros; try reflexivity; try (exfalso; lia); auto).
Qed.
Lemma size_mismatch_ok_inv S1 S2 s1 s2 :
  (S1 = Dynamic \/ S1 = Resizable \/ S1 = s1) -> (S2 = Dynamic \/ S2 = Resizable \/ S2 = s2) ->
  size_mismatch S1 S2 s1 s2 = Ok tt -> s1 = s2.
Proof.
  unfold size_mismatch, size_mismatch_, norm_size, Dynamic, Resizable. intros H1 H2.
  destruct H1 as [->|[->| ->]]; destruct H2 as [->|[->| ->]]; cbn [Z.eqb Pos.eqb orb].
  all: repeat step_if; intros; try discriminate; lia.
Qed.

Lemma sizer_spec S1 S2 :
  template_arg S1 \/ S1 = Resizable -> template_arg S2 \/ S2 = Resizable ->
  (* static as soon as one operand is *)
  (is_static (sizer S1 S2) = is_static S1 || is_static S2) /\
  (* never Resizable *)
  sizer S1 S2 <> Resizable /\
  (* a static result is the size of a static operand *)
  (is_static (sizer S1 S2) = true ->
     (is_static S1 = true /\ sizer S1 S2 = S1) \/ (is_static S2 = true /\ sizer S1 S2 = S2)).
Proof.
  unfold template_arg, sizer, sizer1, simple_sizer, is_static, Dynamic, Resizable. intros H1 H2.
  destruct H1 as [[->|P1]| ->]; destruct H2 as [[->|P2]| ->].
  all: repeat step_if; repeat split; intros; lia.
Qed.
