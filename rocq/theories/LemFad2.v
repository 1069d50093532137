(** * The seeded group elements. *)
From Coq Require Import Reals Lra Lia Arith Bool FunctionalExtensionality.
From Verif Require Import Base Alg Inst Mat SpecMat LemMat LemOps ModelOps RDeriv RSum ModelLie SpecLie LemLie LemSO3 PropSO3 ModelSE SpecSE LemSE LemSE3 PropSE ModelFad SpecFad LemFad.
Open Scope outcome_scope.
Local Open Scope R_scope.

Definition unit_vec (a : nat) : V3 := mk3 (if (a =? 0)%nat then 1 else 0) (if (a =? 1)%nat then 1 else 0) (if (a =? 2)%nat then 1 else 0).
Lemma so3_total w : exists m, so3_exp w = Ok m.
Proof. destruct (C55_derivative w) as (f & E & _). exists (f 1). rewrite <- E. f_equal. destruct w as [a b c]. unfold scale3. cbn [vx vy vz]. f_equal; ring. Qed.
Lemma se3_total v : exists T, se3_exp v = Ok T.
Proof.
  destruct (C59_derivative v) as (f & E & _). exists (f 1). rewrite <- E. f_equal. destruct v as [[a b c] [d e g]]. unfold scale3. cbn [lin ang vx vy vz]. f_equal; f_equal; ring.
Qed.
Definition so3E (start : nat) (mu : nat -> R) : M3 := match so3_exp (three_of start mu) with Ok m => m | _ => so3_default end.
Lemma so3E_ok start mu : so3_exp (three_of start mu) = Ok (so3E start mu).
Proof. unfold so3E. destruct (so3_total (three_of start mu)) as (m & ->). reflexivity. Qed.
Definition se3E (start : nat) (mu : nat -> R) : SE3 := match se3_exp (six_of start mu) with Ok m => m | _ => se3_default end.
Lemma se3E_ok start mu : se3_exp (six_of start mu) = Ok (se3E start mu).
Proof. unfold se3E. destruct (se3_total (six_of start mu)) as (m & ->). reflexivity. Qed.

Lemma three_bump_out start p k h : (k < start \/ start + 3 <= k)%nat -> three_of start (bump p k h) = three_of start p.
Proof. intros H. unfold three_of, bump. destruct (Nat.eqb_spec start k); [lia|]. destruct (Nat.eqb_spec (start + 1) k); [lia|]. destruct (Nat.eqb_spec (start + 2) k); [lia|]. reflexivity. Qed.
Lemma three_bump_in start p a h : (a < 3)%nat -> three_of start p = zero3 -> three_of start (bump p (start + a) h) = scale3 h (unit_vec a).
Proof.
  intros Ha Hz. injection Hz as E0 E1 E2. unfold three_of, bump, scale3, unit_vec. cbn [vx vy vz]. rewrite E0, E1, E2.
  destruct a as [|[|[|a]]]; [| | |lia]; cbn [Nat.eqb]; repeat match goal with |- context[(?x =? ?y)%nat] => destruct (Nat.eqb_spec x y); try lia end; f_equal; ring.
Qed.
Lemma so3E_p start p : three_of start p = zero3 -> so3E start p = id3.
Proof. intros H. unfold so3E. rewrite H, so3_exp_zero. reflexivity. Qed.
Lemma so3E_partial start p k i j : three_of start p = zero3 -> (i < 3)%nat -> (j < 3)%nat ->
  partial (fun q => ent (so3E start q) i j) p k
    (if (start <=? k)%nat && (k <? start + 3)%nat then ent (so3_generator (k - start)) i j else 0).
Proof.
  intros Hz Hi Hj. destruct (Nat.leb_spec start k), (Nat.ltb_spec k (start + 3)); cbn [andb].
  2,3,4: unfold partial; eapply D_ext; [apply (D_const (ent (so3E start p) i j))|]; intros h; unfold so3E; rewrite three_bump_out by lia; reflexivity.
  remember (k - start)%nat as a eqn:Ea. assert (Ha : (a < 3)%nat) by lia. replace k with (start + a)%nat by lia.
  destruct (C55_derivative (unit_vec a)) as (f & E & D). specialize (D i j Hi Hj). unfold partial. eapply D_eq; [eapply D_ext; [exact D|]|].
  - intros h. cbn beta. unfold so3E. rewrite three_bump_in by assumption. rewrite E. reflexivity.
  - destruct a as [|[|[|a]]]; [| | |lia]; unfold unit_vec; cbn [vx vy vz Nat.eqb]; ring.
Qed.
Lemma se3E_p start p : three_of start p = zero3 -> three_of (start + 3) p = zero3 -> se3E start p = se3_default.
Proof. intros H K. unfold se3E, six_of. rewrite H, K, se3_exp_trans. reflexivity. Qed.
Lemma se3E_partial start p k i j : three_of start p = zero3 -> three_of (start + 3) p = zero3 -> (i < 4)%nat -> (j < 4)%nat ->
  partial (fun q => hom3 (se3E start q) i j) p k
    (if (start <=? k)%nat && (k <? start + 6)%nat then se3_generator (k - start) i j else 0).
Proof.
  intros Hz Hz' Hi Hj. destruct (Nat.leb_spec start k), (Nat.ltb_spec k (start + 6)); cbn [andb].
  2,3,4: unfold partial; eapply D_ext; [apply (D_const (hom3 (se3E start p) i j))|]; intros h; unfold se3E, six_of; rewrite !three_bump_out by lia; reflexivity.
  remember (k - start)%nat as a eqn:Ea. assert (Ha : (a < 6)%nat) by lia.
  set (v := if (a <? 3)%nat then mk6 (unit_vec a) zero3 else mk6 zero3 (unit_vec (a - 3))).
  destruct (C59_derivative v) as (f & E & D). specialize (D i j Hi Hj). unfold partial. eapply D_eq; [eapply D_ext; [exact D|]|].
  - intros h. cbn beta. assert (X : six_of start (bump p k h) = mk6 (scale3 h (lin v)) (scale3 h (ang v))).
    { unfold six_of. unfold v. assert (Z : scale3 h zero3 = zero3) by (unfold scale3, zero3; cbn [vx vy vz]; f_equal; ring).
      destruct (Nat.ltb_spec a 3); cbn [lin ang]; rewrite Z; f_equal.
      - replace k with (start + a)%nat by lia. apply three_bump_in; assumption.
      - rewrite three_bump_out by lia. exact Hz'.
      - rewrite three_bump_out by lia. exact Hz.
      - replace k with (start + 3 + (a - 3))%nat by lia. apply three_bump_in; [lia|assumption]. }
    unfold se3E. rewrite X, E. reflexivity.
  - unfold gen6, v. clear Ea. destruct a as [|[|[|[|[|[|a]]]]]]; [| | | | | |lia]; cbn [Nat.ltb Nat.leb Nat.sub sum v6_at lin ang unit_vec zero3 vx vy vz Nat.eqb f0 fadd ROps]; ring.
Qed.
