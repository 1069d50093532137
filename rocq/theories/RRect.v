(** * Rectangular real matrices up to the entries in range; reflections and their products *)
From Coq Require Import Reals Arith Bool Lia Lra Setoid Morphisms.
From Verif Require Import Alg Inst RSum SpecMat SpecExp LemEig LemExp SpecEig.
Local Open Scope R_scope.

Definition req (m n : nat) (A B : rmat) : Prop := forall i j, (i < m)%nat -> (j < n)%nat -> A i j = B i j.
Definition tp (A : rmat) : rmat := fun i j => A j i.
#[export] Instance req_equiv m n : Equivalence (req m n).
Proof. split; [intros A i j _ _; reflexivity|intros A B H i j Hi Hj; symmetry; apply H; assumption|intros A B C H1 H2 i j Hi Hj; rewrite H1 by assumption; apply H2; assumption]. Qed.
#[export] Instance mm_req m q n : Proper (req m q ==> req q n ==> req m n) (mm q).
Proof. intros A B H C D H2 i j Hi Hj. apply mm_ext; intros; [apply H|apply H2]; assumption. Qed.
#[export] Instance tp_req m n : Proper (req m n ==> req n m) tp.
Proof. intros A B H i j Hi Hj. unfold tp. apply H; assumption. Qed.
Lemma mm_assoc2 p q A B C i j : mm p (mm q A B) C i j = mm q A (mm p B C) i j.
Proof.
  unfold mm. transitivity (Sum p (fun k => Sum q (fun l => A i l * B l k * C k j))); [apply S_ext; intros; rewrite <- S_mul_r; reflexivity|].
  rewrite S_swap. apply S_ext. intros l Hl. rewrite <- S_mul_l. apply S_ext; intros; ring.
Qed.
Lemma r_assoc m n p q A B C : req m n (mm p (mm q A B) C) (mm q A (mm p B C)).
Proof. intros i j _ _. apply mm_assoc2. Qed.
Lemma r_1l m n A : req m n (mm m delta A) A. Proof. intros i j Hi _. apply mm_delta_l; exact Hi. Qed.
Lemma r_1r m n A : req m n (mm n A delta) A. Proof. intros i j _ Hj. apply mm_delta_r; exact Hj. Qed.
Lemma r_tp m n q A B : req m n (tp (mm q A B)) (mm q (tp B) (tp A)).
Proof. intros i j _ _. unfold tp, mm. apply S_ext; intros; ring. Qed.
Lemma tp_tp m n A : req m n (tp (tp A)) A. Proof. intros i j _ _. reflexivity. Qed.
Lemma tp_delta m n : req m n (tp delta) delta. Proof. intros i j _ _. apply delta_sym. Qed.
Lemma r_sub m n m' n' A B : (m' <= m)%nat -> (n' <= n)%nat -> req m n A B -> req m' n' A B.
Proof. intros H1 H2 H i j Hi Hj. apply H; lia. Qed.
(** ** reflections I + b w w^T *)
Definition hous (w : nat -> R) (b : R) : rmat := fun r c => delta r c + b * w r * w c.
Lemma hous_mm m n w b A : req m n (mm m (hous w b) A) (fun r c => A r c + b * w r * Sum m (fun k => w k * A k c)).
Proof.
  intros r c Hr Hc. unfold mm, hous. rewrite (S_ext m _ (fun k => delta r k * A k c + b * w r * (w k * A k c))) by (intros; ring). rewrite S_add, S_mul_l. f_equal. exact (delta_l m r (fun k => A k c) Hr).
Qed.
Lemma mm_hous m n w b A : req m n (mm n A (hous w b)) (fun r c => A r c + b * w c * Sum n (fun k => A r k * w k)).
Proof.
  intros r c Hr Hc. unfold mm, hous. rewrite (S_ext n _ (fun k => A r k * delta k c + b * w c * (A r k * w k))) by (intros; ring). rewrite S_add, S_mul_l. f_equal. exact (delta_r n c (fun k => A r k) Hc).
Qed.
Lemma hous_sym w b : forall r c, tp (hous w b) r c = hous w b r c.
Proof. intros r c. unfold tp, hous. rewrite delta_sym. ring. Qed.
Definition involution (m : nat) (H : rmat) : Prop := req m m (tp H) H /\ req m m (mm m H H) delta.
Lemma hous_inv m w b : b = 0 \/ b * Sum m (fun k => w k * w k) = -2 -> involution m (hous w b).
Proof.
  intros Hb. split; [intros r c _ _; apply hous_sym|]. intros r c Hr Hc. rewrite (hous_mm m m w b (hous w b) r c Hr Hc).
  unfold hous at 2. rewrite (S_ext m (fun k => w k * (delta k c + b * w k * w c)) (fun k => w k * delta k c + b * w c * (w k * w k))) by (intros; ring). rewrite S_add, S_mul_l. rewrite (delta_r m c w Hc). unfold hous.
  destruct Hb as [->|Hb]; [ring|]. set (q := Sum m (fun k => w k * w k)) in *. replace (delta r c + b * w r * w c + b * w r * (w c + b * w c * q)) with (delta r c + 2 * b * w r * w c + b * w r * w c * (b * q)) by ring. rewrite Hb. ring.
Qed.
Lemma inv_delta m : involution m delta.
Proof. split; [apply tp_delta|apply r_1l]. Qed.
(** the product H lo * ... * H (lo + k - 1) *)
Fixpoint chain (m : nat) (H : nat -> rmat) (lo k : nat) : rmat := match k with O => delta | S k' => mm m (H lo) (chain m H (S lo) k') end.
Lemma chain_ext m H G : forall k lo, (forall i, (lo <= i < lo + k)%nat -> req m m (H i) (G i)) -> req m m (chain m H lo k) (chain m G lo k).
Proof.
  induction k as [|k I]; intros lo E; cbn [chain]; [reflexivity|]. rewrite (E lo) by lia. rewrite (I (S lo)) by (intros; apply E; lia). reflexivity.
Qed.
Lemma chain_snoc m H : forall k lo, req m m (chain m H lo (S k)) (mm m (chain m H lo k) (H (lo + k)%nat)).
Proof.
  induction k as [|k I]; intros lo.
  - cbn [chain]. rewrite Nat.add_0_r, r_1r, r_1l. reflexivity.
  - change (chain m H lo (S (S k))) with (mm m (H lo) (chain m H (S lo) (S k))). rewrite (I (S lo)). cbn [chain]. rewrite r_assoc. replace (S lo + k)%nat with (lo + S k)%nat by lia. reflexivity.
Qed.
Lemma chain_orth m H : forall k lo, (forall i, (lo <= i < lo + k)%nat -> involution m (H i)) ->
  req m m (mm m (chain m H lo k) (tp (chain m H lo k))) delta /\ req m m (mm m (tp (chain m H lo k)) (chain m H lo k)) delta.
Proof.
  induction k as [|k I]; intros lo E; cbn [chain].
  - rewrite tp_delta, r_1l. split; reflexivity.
  - destruct (I (S lo)) as [I1 I2]; [intros; apply E; lia|]. destruct (E lo ltac:(lia)) as [S1 S2]. split.
    + rewrite r_tp, r_assoc, <- (r_assoc m m m m (chain m H (S lo) k)), I1, r_1l, S1. exact S2.
    + rewrite r_tp, r_assoc, <- (r_assoc m m m m (tp (H lo))), S1, S2, r_1l. exact I2.
Qed.
(** ** sums that differ in two terms *)
Lemma S_one n a f : (a < n)%nat -> Sum n f = f a + Sum n (fun p => if (p =? a)%nat then 0 else f p).
Proof.
  intros Ha. rewrite (S_ext n f (fun p => delta a p * f p + (if (p =? a)%nat then 0 else f p))).
  - rewrite S_add. f_equal. exact (delta_l n a f Ha).
  - intros p Hp. unfold delta. rewrite (Nat.eqb_sym a p). destruct (p =? a)%nat; cbn [f0 f1 ROps]; ring.
Qed.
Lemma S_two n a b f g : (a < n)%nat -> (b < n)%nat -> a <> b -> (forall p, (p < n)%nat -> p <> a -> p <> b -> f p = g p) -> f a + f b = g a + g b -> Sum n f = Sum n g.
Proof.
  intros Ha Hb N H E. rewrite (S_one n a f Ha), (S_one n a g Ha), (S_one n b _ Hb), (S_one n b (fun p => if (p =? a)%nat then 0 else g p) Hb).
  destruct (b =? a)%nat eqn:Q; [apply Nat.eqb_eq in Q; lia|]. transitivity (f a + f b + Sum n (fun p => if (p =? b)%nat then 0 else if (p =? a)%nat then 0 else f p)); [ring|]. rewrite E.
  rewrite (S_ext n _ (fun p => if (p =? b)%nat then 0 else if (p =? a)%nat then 0 else g p)); [ring|]. intros p Hp. destruct (Nat.eqb_spec p b); [reflexivity|]. destruct (Nat.eqb_spec p a); [reflexivity|]. apply H; assumption.
Qed.
(** a square matrix with orthonormal rows has orthonormal columns *)
Lemma orth_square n A : req n n (mm n A (tp A)) delta -> req n n (mm n (tp A) A) delta.
Proof. intros H i j Hi Hj. exact (orthonormal_cols n A H i j Hi Hj). Qed.
