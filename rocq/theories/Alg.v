(** * Scalars: operations of an ordered field, and finite sums. *)
From Coq Require Import Arith Lia Bool Field_theory Ring Field.
From Verif Require Import Base.

(** The operations the library uses on its scalar type. [junk] is the value of
    an uninitialised element: no law mentions it. *)
Class Ops (F : Type) := {
  f0 : F; f1 : F;
  fadd : F -> F -> F; fmul : F -> F -> F; fsub : F -> F -> F; fopp : F -> F;
  fdiv : F -> F -> F; finv : F -> F;
  feqb : F -> F -> bool; fltb : F -> F -> bool;
  junk : F }.
Declare Scope F_scope.
Delimit Scope F_scope with F.
Notation "0" := f0 : F_scope.
Notation "1" := f1 : F_scope.
Infix "+" := fadd : F_scope.
Infix "*" := fmul : F_scope.
Infix "-" := fsub : F_scope.
Notation "- x" := (fopp x) : F_scope.
Infix "/" := fdiv : F_scope.

Definition flt {F} {Fo : Ops F} (x y : F) : Prop := fltb x y = true.
Definition fle {F} {Fo : Ops F} (x y : F) : Prop := fltb y x = false.
Infix "<" := flt : F_scope.
Infix "<=" := fle : F_scope.

(** The laws of an ordered field (exact arithmetic). *)
Class Laws (F : Type) {Fo : Ops F} : Prop := {
  law_field : field_theory f0 f1 fadd fmul fsub fopp fdiv finv (@eq F);
  law_eqb : forall x y, feqb x y = true <-> x = y;
  law_irr : forall x, ~ (x < x)%F;
  law_trans : forall x y z, (x < y -> y < z -> x < z)%F;
  law_total : forall x y, (x < y)%F \/ x = y \/ (y < x)%F;
  law_add : forall x y z, (x < y -> x + z < y + z)%F;
  law_mul : forall x y, (0 < x -> 0 < y -> 0 < x * y)%F }.

(** C++ [x / y]: a division by zero leaves the finite numbers. *)
Definition div {F} {Fo : Ops F} (x y : F) : outcome F :=
  if feqb y f0 then NonFinite else Ok (x / y)%F.
(** std::abs / fabs *)
Definition fabs {F} {Fo : Ops F} (x : F) : F := if fltb x f0 then (- x)%F else x.

(** sum_{i<n} f i *)
Fixpoint sum {F} {Fo : Ops F} (n : nat) (f : nat -> F) : F :=
  match n with O => f0 | S k => (sum k f + f k)%F end.

Section L.
Context {F : Type} {Fo : Ops F} {Fl : Laws F}.
Open Scope F_scope.
Add Field Ff : law_field.

Lemma eqb_refl (x : F) : feqb x x = true.
Proof. apply law_eqb. reflexivity. Qed.
Lemma eqb_neq (x y : F) : x <> y -> feqb x y = false.
Proof. intros H. destruct (feqb x y) eqn:E; [|reflexivity]. apply law_eqb in E. contradiction. Qed.
Lemma eq_dec (x y : F) : {x = y} + {x <> y}.
Proof. destruct (feqb x y) eqn:E; [left; apply law_eqb; exact E|right]. intros H. apply law_eqb in H. congruence. Qed.
Lemma one_neq_zero : (1 : F) <> 0.
Proof. apply (F_1_neq_0 law_field). Qed.
Lemma div_ok (x y : F) : y <> 0 -> div x y = Ok (x / y).
Proof. intros H. unfold div. rewrite eqb_neq by exact H. reflexivity. Qed.
Lemma div_zero (x : F) : div x 0 = NonFinite.
Proof. unfold div. rewrite eqb_refl. reflexivity. Qed.
Lemma mul_zero (x y : F) : x * y = 0 -> x = 0 \/ y = 0.
Proof.
  intros H. destruct (eq_dec x 0) as [->|Hx]; [left; reflexivity|right].
  transitivity (x * y / x); [field; exact Hx|]. rewrite H. field. exact Hx.
Qed.
Lemma mul_neq (x y : F) : x <> 0 -> y <> 0 -> x * y <> 0.
Proof. intros Hx Hy H. apply mul_zero in H. tauto. Qed.
Lemma mul_cancel (x y z : F) : x <> 0 -> x * y = x * z -> y = z.
Proof. intros Hx H. transitivity (x * y / x); [field; exact Hx|]. rewrite H. field. exact Hx. Qed.
Lemma sub_zero (x y : F) : x - y = 0 -> x = y.
Proof. intros H. transitivity (x - y + y); [ring|]. rewrite H. ring. Qed.

(** ** Order *)
Lemma lt_neq (x y : F) : x < y -> x <> y.
Proof. intros H ->. exact (law_irr _ H). Qed.
Lemma lt_le (x y : F) : x < y -> x <= y.
Proof. unfold fle. intros H. destruct (fltb y x) eqn:E; [|reflexivity]. destruct (law_irr x). apply (law_trans _ y); assumption. Qed.
Lemma le_refl (x : F) : x <= x.
Proof. unfold fle. destruct (fltb x x) eqn:E; [destruct (law_irr x E)|reflexivity]. Qed.
Lemma le_lt_eq (x y : F) : x <= y <-> x < y \/ x = y.
Proof.
  split.
  - unfold fle. intros H. destruct (law_total x y) as [H1|[H1|H1]]; auto. unfold flt in H1. congruence.
  - intros [H| ->]; [apply lt_le; exact H|apply le_refl].
Qed.
Lemma not_lt (x y : F) : ~ x < y <-> y <= x.
Proof. unfold flt, fle. destruct (fltb x y); split; congruence. Qed.
Lemma lt_or_le (x y : F) : x < y \/ y <= x.
Proof. unfold flt, fle. destruct (fltb x y); auto. Qed.
Lemma le_trans (x y z : F) : x <= y -> y <= z -> x <= z.
Proof. rewrite !le_lt_eq. intros [H| ->] [H'| ->]; auto. left. apply (law_trans _ y); assumption. Qed.
Lemma lt_le_trans (x y z : F) : x < y -> y <= z -> x < z.
Proof. rewrite le_lt_eq. intros H [H'| <-]; auto. apply (law_trans _ y); assumption. Qed.
Lemma le_lt_trans (x y z : F) : x <= y -> y < z -> x < z.
Proof. rewrite le_lt_eq. intros [H| ->] H'; auto. apply (law_trans _ y); assumption. Qed.
Lemma le_antisym (x y : F) : x <= y -> y <= x -> x = y.
Proof. rewrite !le_lt_eq. intros [H|H] [H'|H']; auto. destruct (law_irr x). apply (law_trans _ y); assumption. Qed.
Lemma add_le (x y z : F) : x <= y -> x + z <= y + z.
Proof. rewrite !le_lt_eq. intros [H| ->]; auto. left. apply law_add. exact H. Qed.
Lemma add_le2 (x y z w : F) : x <= y -> z <= w -> x + z <= y + w.
Proof.
  intros H1 H2. apply (le_trans _ (y + z)); [apply add_le; exact H1|].
  replace (y + z) with (z + y) by ring. replace (y + w) with (w + y) by ring. apply add_le; exact H2.
Qed.
Lemma lt_sub (x y : F) : x < y <-> 0 < y - x.
Proof.
  split; intros H.
  - apply (law_add _ _ (- x)) in H. replace (x + - x) with (0:F) in H by ring. replace (y - x) with (y + - x) by ring. exact H.
  - apply (law_add _ _ x) in H. replace (0 + x) with x in H by ring. replace (y - x + x) with y in H by ring. exact H.
Qed.
Lemma le_sub (x y : F) : x <= y <-> 0 <= y - x.
Proof.
  rewrite !le_lt_eq, lt_sub. split; (intros [H|H]; [left; exact H|right]).
  - rewrite H. ring.
  - symmetry. apply sub_zero. symmetry. exact H.
Qed.
Lemma neg_pos (x : F) : x < 0 <-> 0 < - x.
Proof. rewrite lt_sub. replace (0 - x) with (- x) by ring. reflexivity. Qed.
Lemma sq_nonneg (x : F) : 0 <= x * x.
Proof.
  rewrite le_lt_eq. destruct (law_total x 0) as [H|[->|H]].
  - left. rewrite neg_pos in H. replace (x * x) with (- x * - x) by ring. apply law_mul; exact H.
  - right. ring.
  - left. apply law_mul; exact H.
Qed.
Lemma sq_pos (x : F) : x <> 0 -> 0 < x * x.
Proof.
  intros Hx. destruct (proj1 (le_lt_eq _ _) (sq_nonneg x)) as [H|H]; [exact H|].
  symmetry in H. apply mul_zero in H. tauto.
Qed.
Lemma zero_lt_one : (0:F) < 1.
Proof. replace (1:F) with (1*1) by ring. apply sq_pos, one_neq_zero. Qed.
Lemma mul_nonneg (x y : F) : 0 <= x -> 0 <= y -> 0 <= x * y.
Proof.
  rewrite !le_lt_eq. intros [H| <-] [H'| <-]; try (right; ring). left. apply law_mul; assumption.
Qed.
Lemma add_nonneg (x y : F) : 0 <= x -> 0 <= y -> 0 <= x + y.
Proof. intros H H'. replace (0:F) with (0+0) by ring. apply add_le2; assumption. Qed.
Lemma add_pos_nonneg (x y : F) : 0 < x -> 0 <= y -> 0 < x + y.
Proof. intros H H'. apply (lt_le_trans _ x); [exact H|]. replace x with (x + 0) at 1 by ring. apply add_le2; [apply le_refl|exact H']. Qed.
Lemma add_zero_nonneg (x y : F) : 0 <= x -> 0 <= y -> x + y = 0 -> x = 0 /\ y = 0.
Proof.
  intros H H' E. assert (x = 0).
  { apply le_antisym; [|exact H]. rewrite <- E. replace x with (x + 0) at 1 by ring. apply add_le2; [apply le_refl|exact H']. }
  split; [assumption|]. subst x. rewrite <- E. ring.
Qed.
Lemma inv_pos (x : F) : 0 < x -> 0 < 1 / x.
Proof.
  intros H. assert (Hx : x <> 0) by (intros ->; exact (law_irr _ H)).
  replace (1 / x) with (x * ((1/x) * (1/x))) by (field; exact Hx). apply law_mul; [exact H|]. apply sq_pos.
  intros E. apply one_neq_zero. transitivity (1 / x * x); [field; exact Hx|]. rewrite E. ring.
Qed.
Lemma div_pos (x y : F) : 0 < x -> 0 < y -> 0 < x / y.
Proof. intros Hx Hy. assert (y <> 0) by (intros ->; exact (law_irr _ Hy)). replace (x / y) with (x * (1 / y)) by (field; assumption). apply law_mul; [exact Hx|apply inv_pos; exact Hy]. Qed.
Lemma mul_le_l (x y z : F) : 0 <= z -> x <= y -> z * x <= z * y.
Proof. intros Hz H. apply le_sub. replace (z * y - z * x) with (z * (y - x)) by ring. apply mul_nonneg; [exact Hz|]. apply le_sub in H. exact H. Qed.
Lemma abs_nonneg (x : F) : 0 <= fabs x.
Proof.
  unfold fabs. destruct (fltb x 0) eqn:E; [|exact E]. apply lt_le. apply neg_pos. exact E.
Qed.
Lemma abs_zero (x : F) : fabs x = 0 <-> x = 0.
Proof.
  unfold fabs. destruct (fltb x 0) eqn:E; [|tauto]. split; intros H.
  - transitivity (- - x); [ring|]. rewrite H. ring.
  - subst. ring.
Qed.
Lemma abs_pos (x : F) : x <> 0 -> 0 < fabs x.
Proof. intros H. destruct (proj1 (le_lt_eq _ _) (abs_nonneg x)) as [H1|H1]; [exact H1|]. symmetry in H1. apply (proj1 (abs_zero x)) in H1. contradiction. Qed.
Lemma abs_cases (x : F) : (0 <= x /\ fabs x = x) \/ (x <= 0 /\ fabs x = - x).
Proof. unfold fabs. destruct (fltb x 0) eqn:E; [right|left; auto]. split; [apply lt_le; exact E|reflexivity]. Qed.
Lemma neg_le (x : F) : x <= 0 <-> 0 <= - x.
Proof. rewrite le_sub. replace (0 - x) with (- x) by ring. reflexivity. Qed.
Lemma abs_pos_id (x : F) : 0 <= x -> fabs x = x.
Proof. unfold fabs. intros H. unfold fle in H. rewrite H. reflexivity. Qed.
Lemma abs_neg_id (x : F) : x <= 0 -> fabs x = - x.
Proof.
  intros H. unfold fabs. destruct (fltb x 0) eqn:E; [reflexivity|]. assert (x = 0) by (apply le_antisym; assumption). subst. ring.
Qed.
Lemma abs_mul (x y : F) : fabs (x * y) = fabs x * fabs y.
Proof.
  destruct (abs_cases x) as [[Hx ->]|[Hx ->]], (abs_cases y) as [[Hy ->]|[Hy ->]].
  - apply abs_pos_id, mul_nonneg; assumption.
  - rewrite abs_neg_id; [ring|]. apply neg_le. apply neg_le in Hy. replace (- (x*y)) with (x * - y) by ring. apply mul_nonneg; assumption.
  - rewrite abs_neg_id; [ring|]. apply neg_le. apply neg_le in Hx. replace (- (x*y)) with (- x * y) by ring. apply mul_nonneg; assumption.
  - rewrite abs_pos_id; [ring|]. apply neg_le in Hx. apply neg_le in Hy. replace (x*y) with (- x * - y) by ring. apply mul_nonneg; assumption.
Qed.
Lemma le_abs (x : F) : x <= fabs x.
Proof. destruct (abs_cases x) as [[Hx ->]|[Hx ->]]; [apply le_refl|]. apply (le_trans _ 0); [exact Hx|apply neg_le; exact Hx]. Qed.
Lemma abs_opp (x : F) : fabs (- x) = fabs x.
Proof.
  destruct (abs_cases x) as [[Hx ->]|[Hx ->]].
  - rewrite abs_neg_id; [ring|]. apply neg_le. replace (- - x) with x by ring. exact Hx.
  - apply abs_pos_id. apply neg_le. exact Hx.
Qed.
Lemma abs_triangle (x y : F) : fabs (x + y) <= fabs x + fabs y.
Proof.
  destruct (abs_cases (x+y)) as [[_ ->]|[_ ->]].
  - apply add_le2; apply le_abs.
  - replace (- (x + y)) with (- x + - y) by ring. apply add_le2; rewrite <- abs_opp; apply le_abs.
Qed.

(** ** Sums *)
Lemma sum_ext n (f g : nat -> F) : (forall i, (i < n)%nat -> f i = g i) -> sum n f = sum n g.
Proof. induction n as [|n IH]; intros H; cbn; [reflexivity|]. rewrite IH, H by (intros; try apply H; lia). reflexivity. Qed.
Lemma sum_zero n (f : nat -> F) : (forall i, (i < n)%nat -> f i = 0) -> sum n f = 0.
Proof. induction n as [|n IH]; intros H; cbn; [reflexivity|]. rewrite IH, H by (intros; try apply H; lia). ring. Qed.
Lemma sum_add n (f g : nat -> F) : sum n (fun i => f i + g i) = sum n f + sum n g.
Proof. induction n as [|n IH]; cbn; [ring|]. rewrite IH. ring. Qed.
Lemma sum_sub n (f g : nat -> F) : sum n (fun i => f i - g i) = sum n f - sum n g.
Proof. induction n as [|n IH]; cbn; [ring|]. rewrite IH. ring. Qed.
Lemma sum_mul_l n c (f : nat -> F) : sum n (fun i => c * f i) = c * sum n f.
Proof. induction n as [|n IH]; cbn; [ring|]. rewrite IH. ring. Qed.
Lemma sum_mul_r n c (f : nat -> F) : sum n (fun i => f i * c) = sum n f * c.
Proof. induction n as [|n IH]; cbn; [ring|]. rewrite IH. ring. Qed.
Lemma sum_opp n (f : nat -> F) : sum n (fun i => - f i) = - sum n f.
Proof. induction n as [|n IH]; cbn; [ring|]. rewrite IH. ring. Qed.
Lemma sum_swap n m (f : nat -> nat -> F) : sum n (fun i => sum m (fun j => f i j)) = sum m (fun j => sum n (fun i => f i j)).
Proof.
  induction n as [|n IH]; cbn; [symmetry; apply sum_zero; reflexivity|].
  rewrite IH, <- sum_add. reflexivity.
Qed.
Lemma sum_one n k (f : nat -> F) : (k < n)%nat -> (forall i, (i < n)%nat -> i <> k -> f i = 0) -> sum n f = f k.
Proof.
  induction n as [|n IH]; intros Hk H; [lia|]. cbn. destruct (Nat.eq_dec k n) as [->|Hn].
  - rewrite sum_zero; [ring|]. intros i Hi. apply H; lia.
  - rewrite IH by (try lia; intros; apply H; lia). rewrite (H n) by lia. ring.
Qed.
Lemma sum_split n m (f : nat -> F) : sum (n + m) f = sum n f + sum m (fun i => f (n + i)%nat).
Proof.
  induction m as [|m IH]; cbn; [rewrite Nat.add_0_r; ring|]. rewrite Nat.add_succ_r. cbn. rewrite IH. ring.
Qed.
Lemma sum_first n (f : nat -> F) : sum (S n) f = f O + sum n (fun i => f (S i)).
Proof. rewrite (sum_split 1 n). cbn. ring. Qed.
Lemma sum_nonneg n (f : nat -> F) : (forall i, (i < n)%nat -> 0 <= f i) -> 0 <= sum n f.
Proof. induction n as [|n IH]; intros H; cbn; [apply le_refl|]. apply add_nonneg; [apply IH; intros; apply H; lia|apply H; lia]. Qed.
Lemma sum_nonneg_zero n (f : nat -> F) : (forall i, (i < n)%nat -> 0 <= f i) -> sum n f = 0 -> forall i, (i < n)%nat -> f i = 0.
Proof.
  induction n as [|n IH]; intros H E i Hi; [lia|]. cbn in E. apply add_zero_nonneg in E as [E1 E2];
    [|apply sum_nonneg; intros; apply H; lia|apply H; lia].
  destruct (Nat.eq_dec i n) as [->|]; [exact E2|]. apply IH; [intros; apply H; lia|exact E1|lia].
Qed.
Lemma sum_le n (f g : nat -> F) : (forall i, (i < n)%nat -> f i <= g i) -> sum n f <= sum n g.
Proof. induction n as [|n IH]; intros H; cbn; [apply le_refl|]. apply add_le2; [apply IH; intros; apply H; lia|apply H; lia]. Qed.
End L.
