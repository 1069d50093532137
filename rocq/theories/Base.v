(** * Base: outcomes of C++ code, loops, and a total-correctness predicate. *)
From Coq Require Import ZArith List Lia Bool Arith.
Import ListNotations.

(** Diagnosed stops of the library (message printed, then std::abort). *)
Inductive diag :=
| DSizeMismatch     (* internal/size_mismatch.hh:48-52 "TooN Size Mismatch" *)
| DSliceRange       (* internal/slice_error.hh:127-130 "TooN slice out of range" *)
| DSliceStatic      (* internal/slice_error.hh:103-117 static/dynamic mismatch *)
| DIndex            (* internal/debug.hh:39-46 "Toon index out of range" *)
| DUnderfill        (* internal/comma.hh:57-58, 113-114 *)
| DOverfill         (* internal/overfill_error.hh:57-60, 87-90 *)
| DAssert.          (* a failing C assert *)

(** Result of running a piece of the modelled C++ code. *)
Inductive outcome (A : Type) :=
| Ok (a : A)
| Abort (d : diag)  (* diagnosed stop *)
| UB                (* undefined behaviour *)
| NonFinite         (* a division by zero: IEEE code continues with inf/NaN *)
| CompileError      (* the template does not instantiate *)
| OutOfFuel.        (* the model's step bound was exhausted (never a normal result) *)
Arguments Ok {A} a.
Arguments Abort {A} d.
Arguments UB {A}.
Arguments NonFinite {A}.
Arguments CompileError {A}.
Arguments OutOfFuel {A}.

Definition bind {A B} (x : outcome A) (f : A -> outcome B) : outcome B :=
  match x with
  | Ok a => f a
  | Abort d => Abort d
  | UB => UB
  | NonFinite => NonFinite
  | CompileError => CompileError
  | OutOfFuel => OutOfFuel
  end.

Declare Scope outcome_scope.
Delimit Scope outcome_scope with outcome.
Notation "x <- e ;; f" := (bind e (fun x => f))
  (at level 100, e at next level, right associativity) : outcome_scope.
Notation "' p <- e ;; f" := (bind e (fun p => f))
  (at level 100, p pattern, e at next level, right associativity) : outcome_scope.
Open Scope outcome_scope.

Definition is_ok {A} (x : outcome A) : bool :=
  match x with Ok _ => true | _ => false end.

(** [for (int i = lo; i < lo + k; ++i) s = body i s] *)
Fixpoint for_up {St} (k lo : nat) (body : nat -> St -> outcome St) (s : St) : outcome St :=
  match k with
  | O => Ok s
  | S k' => s' <- body lo s ;; for_up k' (S lo) body s'
  end.
(** [for (int i = lo; i < hi; ++i)] *)
Definition for_ {St} (lo hi : nat) (body : nat -> St -> outcome St) (s : St) : outcome St :=
  for_up (hi - lo) lo body s.
(** [for (int i = hi-1; i >= lo; --i)], [k = hi - lo] iterations *)
Fixpoint for_dn {St} (k lo : nat) (body : nat -> St -> outcome St) (s : St) : outcome St :=
  match k with
  | O => Ok s
  | S k' => s' <- body (lo + k') s ;; for_dn k' lo body s'
  end.
Definition for_down {St} (hi lo : nat) (body : nat -> St -> outcome St) (s : St) : outcome St :=
  for_dn (hi - lo) lo body s.

(** Total correctness: the run ends normally in a state satisfying [Q]. *)
Definition wp {A} (x : outcome A) (Q : A -> Prop) : Prop :=
  match x with Ok a => Q a | _ => False end.
(** Partial correctness: if the run ends normally, [Q] holds. *)
Definition wlp {A} (x : outcome A) (Q : A -> Prop) : Prop :=
  match x with Ok a => Q a | _ => True end.

Lemma wp_ok_inv {A} (x : outcome A) Q : wp x Q -> exists a, x = Ok a /\ Q a.
Proof. destruct x; simpl; intros H; try contradiction. eauto. Qed.
Lemma wp_intro {A} (x : outcome A) (Q : A -> Prop) a : x = Ok a -> Q a -> wp x Q.
Proof. intros ->; auto. Qed.
Lemma wp_bind {A B} (x : outcome A) (f : A -> outcome B) Q :
  wp x (fun a => wp (f a) Q) -> wp (bind x f) Q.
Proof. destruct x; simpl; auto. Qed.
Lemma wp_bind_inv {A B} (x : outcome A) (f : A -> outcome B) Q :
  wp (bind x f) Q -> wp x (fun a => wp (f a) Q).
Proof. destruct x; simpl; auto. Qed.
Lemma wp_mono {A} (x : outcome A) (P Q : A -> Prop) :
  wp x P -> (forall a, P a -> Q a) -> wp x Q.
Proof. destruct x; simpl; auto. Qed.
Lemma wp_and {A} (x : outcome A) (P Q : A -> Prop) :
  wp x P -> wp x Q -> wp x (fun a => P a /\ Q a).
Proof. destruct x; simpl; auto. Qed.
Lemma wlp_bind {A B} (x : outcome A) (f : A -> outcome B) Q :
  wlp x (fun a => wlp (f a) Q) -> wlp (bind x f) Q.
Proof. destruct x; simpl; auto. Qed.
Lemma wlp_mono {A} (x : outcome A) (P Q : A -> Prop) :
  wlp x P -> (forall a, P a -> Q a) -> wlp x Q.
Proof. destruct x; simpl; auto. Qed.
Lemma wp_wlp {A} (x : outcome A) Q : wp x Q -> wlp x Q.
Proof. destruct x; simpl; auto. Qed.
Lemma wlp_ok {A} (x : outcome A) (Q : A -> Prop) a : wlp x Q -> x = Ok a -> Q a.
Proof. intros H ->; exact H. Qed.

Lemma bind_ok {A B} (x : outcome A) (f : A -> outcome B) b :
  bind x f = Ok b -> exists a, x = Ok a /\ f a = Ok b.
Proof. destruct x; simpl; intros H; try discriminate. eauto. Qed.
Lemma bind_assoc {A B C} (x : outcome A) (f : A -> outcome B) (g : B -> outcome C) :
  bind (bind x f) g = bind x (fun a => bind (f a) g).
Proof. destruct x; reflexivity. Qed.

Lemma wp_for_up {S} (I : nat -> S -> Prop) k lo body s :
  I lo s ->
  (forall i s, lo <= i < lo + k -> I i s -> wp (body i s) (I (Datatypes.S i))) ->
  wp (for_up k lo body s) (I (lo + k)).
Proof.
  revert lo s; induction k as [|k IH]; intros lo s H0 Hstep; simpl.
  - rewrite Nat.add_0_r; exact H0.
  - apply wp_bind. eapply wp_mono; [apply Hstep; [lia|exact H0]|].
    intros s' H'. replace (lo + Datatypes.S k) with (Datatypes.S lo + k) by lia.
    apply IH; [exact H'|]. intros i t Hi Ht. apply Hstep; [lia|exact Ht].
Qed.
Lemma wp_for {S} (I : nat -> S -> Prop) lo hi body s :
  lo <= hi -> I lo s ->
  (forall i s, lo <= i < hi -> I i s -> wp (body i s) (I (Datatypes.S i))) ->
  wp (for_ lo hi body s) (I hi).
Proof.
  intros Hle H0 Hstep. unfold for_.
  replace hi with (lo + (hi - lo)) at 2 by lia.
  apply wp_for_up; [exact H0|]. intros i t Hi; apply Hstep; lia.
Qed.
Lemma wlp_for_up {S} (I : nat -> S -> Prop) k lo body s :
  I lo s ->
  (forall i s, lo <= i < lo + k -> I i s -> wlp (body i s) (I (Datatypes.S i))) ->
  wlp (for_up k lo body s) (I (lo + k)).
Proof.
  revert lo s; induction k as [|k IH]; intros lo s H0 Hstep; simpl.
  - rewrite Nat.add_0_r; exact H0.
  - apply wlp_bind. eapply wlp_mono; [apply Hstep; [lia|exact H0]|].
    intros s' H'. replace (lo + Datatypes.S k) with (Datatypes.S lo + k) by lia.
    apply IH; [exact H'|]. intros i t Hi Ht. apply Hstep; [lia|exact Ht].
Qed.
Lemma wlp_for {S} (I : nat -> S -> Prop) lo hi body s :
  lo <= hi -> I lo s ->
  (forall i s, lo <= i < hi -> I i s -> wlp (body i s) (I (Datatypes.S i))) ->
  wlp (for_ lo hi body s) (I hi).
Proof.
  intros Hle H0 Hstep. unfold for_.
  replace hi with (lo + (hi - lo)) at 2 by lia.
  apply wlp_for_up; [exact H0|]. intros i t Hi; apply Hstep; lia.
Qed.
Lemma for_empty {S} lo hi (body : nat -> S -> outcome S) s :
  hi <= lo -> for_ lo hi body s = Ok s.
Proof. intros H. unfold for_. replace (hi - lo) with 0 by lia. reflexivity. Qed.

(** Downward loops: the invariant is indexed by the number of remaining low indices. *)
Lemma wp_for_dn {S} (I : nat -> S -> Prop) k lo body s :
  I (lo + k) s ->
  (forall i s, lo <= i < lo + k -> I (Datatypes.S i) s -> wp (body i s) (I i)) ->
  wp (for_dn k lo body s) (I lo).
Proof.
  revert s; induction k as [|k IH]; intros s H0 Hstep; simpl.
  - rewrite Nat.add_0_r in H0; exact H0.
  - apply wp_bind. eapply wp_mono.
    + apply Hstep; [lia|]. replace (Datatypes.S (lo + k)) with (lo + Datatypes.S k) by lia. exact H0.
    + intros s' H'. apply IH; [exact H'|]. intros i t Hi Ht. apply Hstep; [lia|exact Ht].
Qed.
Lemma wp_for_down {S} (I : nat -> S -> Prop) hi lo body s :
  lo <= hi -> I hi s ->
  (forall i s, lo <= i < hi -> I (Datatypes.S i) s -> wp (body i s) (I i)) ->
  wp (for_down hi lo body s) (I lo).
Proof.
  intros Hle H0 Hstep. unfold for_down.
  apply wp_for_dn.
  - replace (lo + (hi - lo)) with hi by lia. exact H0.
  - intros i t Hi. apply Hstep. lia.
Qed.
Lemma wlp_for_dn {S} (I : nat -> S -> Prop) k lo body s :
  I (lo + k) s ->
  (forall i s, lo <= i < lo + k -> I (Datatypes.S i) s -> wlp (body i s) (I i)) ->
  wlp (for_dn k lo body s) (I lo).
Proof.
  revert s; induction k as [|k IH]; intros s H0 Hstep; simpl.
  - rewrite Nat.add_0_r in H0; exact H0.
  - apply wlp_bind. eapply wlp_mono.
    + apply Hstep; [lia|]. replace (Datatypes.S (lo + k)) with (lo + Datatypes.S k) by lia. exact H0.
    + intros s' H'. apply IH; [exact H'|]. intros i t Hi Ht. apply Hstep; [lia|exact Ht].
Qed.
Lemma wlp_for_down {S} (I : nat -> S -> Prop) hi lo body s :
  lo <= hi -> I hi s ->
  (forall i s, lo <= i < hi -> I (Datatypes.S i) s -> wlp (body i s) (I i)) ->
  wlp (for_down hi lo body s) (I lo).
Proof.
  intros Hle H0 Hstep. unfold for_down.
  apply wlp_for_dn.
  - replace (lo + (hi - lo)) with hi by lia. exact H0.
  - intros i t Hi. apply Hstep. lia.
Qed.
