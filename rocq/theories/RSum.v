(** * Finite sums of reals. *)
From Coq Require Import Reals Arith Lia Lra.
From Verif Require Import Base Alg Inst.
Local Open Scope R_scope.

Notation Sum := (@sum R ROps).
Lemma S_ext n f g : (forall i, (i < n)%nat -> f i = g i) -> Sum n f = Sum n g.
Proof. apply sum_ext. Qed.
Lemma S_mul_l n c f : Sum n (fun i => c * f i) = c * Sum n f.
Proof. exact (@sum_mul_l R ROps RLaws n c f). Qed.
Lemma S_mul_r n c f : Sum n (fun i => f i * c) = Sum n f * c.
Proof. exact (@sum_mul_r R ROps RLaws n c f). Qed.
Lemma S_add n f g : Sum n (fun i => f i + g i) = Sum n f + Sum n g.
Proof. exact (@sum_add R ROps RLaws n f g). Qed.
Lemma S_sub n f g : Sum n (fun i => f i - g i) = Sum n f - Sum n g.
Proof. exact (@sum_sub R ROps RLaws n f g). Qed.
Lemma S_zero n f : (forall i, (i < n)%nat -> f i = 0) -> Sum n f = 0.
Proof. exact (@sum_zero R ROps RLaws n f). Qed.
Lemma S_swap m n f : Sum m (fun i => Sum n (fun j => f i j)) = Sum n (fun j => Sum m (fun i => f i j)).
Proof. exact (@sum_swap R ROps RLaws m n f). Qed.
Lemma S_split m n f : Sum (m + n) f = Sum m f + Sum n (fun i => f (m + i)%nat).
Proof. exact (@sum_split R ROps RLaws m n f). Qed.
Lemma S_first n f : Sum (S n) f = f 0%nat + Sum n (fun i => f (S i)).
Proof. exact (@sum_first R ROps RLaws n f). Qed.
Lemma S_nonneg n f : (forall i, (i < n)%nat -> 0 <= f i) -> 0 <= Sum n f.
Proof. intros H. induction n as [|n IH]; cbn [sum]; cbn [fadd f0 ROps]; [lra|]. assert (0 <= Sum n f) by (apply IH; intros; apply H; lia). assert (0 <= f n) by (apply H; lia). lra. Qed.
Lemma S_pos_zero n f : (forall i, (i < n)%nat -> 0 <= f i) -> Sum n f = 0 -> forall i, (i < n)%nat -> f i = 0.
Proof.
  induction n as [|n IH]; intros H Z i Hi; [lia|]. cbn [sum] in Z. cbn [fadd ROps] in Z.
  assert (0 <= Sum n f) by (apply S_nonneg; intros; apply H; lia). assert (0 <= f n) by (apply H; lia).
  destruct (Nat.eq_dec i n) as [->|]; [lra|]. apply IH; [intros; apply H; lia|lra|lia].
Qed.

Lemma R_div_ok (a b : R) : b <> 0 -> div (F:=R) a b = Ok (a / b).
Proof. intros H. unfold div. assert (E : feqb b f0 = false). { destruct (feqb b f0) eqn:E; [|reflexivity]. apply R_eqb_spec in E. contradiction. } rewrite E. reflexivity. Qed.
Lemma R_div_bad (a : R) : div (F:=R) a 0 = NonFinite.
Proof. unfold div. assert (E : feqb (0 : R) f0 = true) by (apply R_eqb_spec; reflexivity). rewrite E. reflexivity. Qed.
