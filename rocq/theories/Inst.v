(** * Instances of the scalar laws: the rationals (executable, for the examples) and the reals. *)
From Coq Require Import Arith Lia Bool QArith Qcanon Reals Lra.
From Verif Require Import Base Alg.

Definition Qc_ltb (x y : Qc) : bool := match (this x ?= this y)%Q with Lt => true | _ => false end.
Definition Qc_eqb (x y : Qc) : bool := Qeq_bool (this x) (this y).
Global Instance QcOps : Ops Qc := {|
  f0 := Q2Qc 0; f1 := Q2Qc 1; fadd := Qcplus; fmul := Qcmult; fsub := Qcminus; fopp := Qcopp;
  fdiv := Qcdiv; finv := Qcinv; feqb := Qc_eqb; fltb := Qc_ltb; junk := Q2Qc (77 # 3) |}.
Lemma Qc_ltb_spec x y : Qc_ltb x y = true <-> (x < y)%Qc.
Proof.
  unfold Qc_ltb, Qclt. rewrite Qlt_alt. destruct (this x ?= this y)%Q; split; congruence.
Qed.
Global Instance QcLaws : Laws Qc.
Proof.
  constructor; unfold flt; cbn [fltb feqb QcOps f0 f1 fadd fmul fsub fopp fdiv finv].
  - exact Qcft.
  - intros x y. unfold Qc_eqb. split; [intros H; apply Qc_is_canon, Qeq_bool_eq, H|intros ->; apply Qeq_eq_bool; reflexivity].
  - intros x. rewrite Qc_ltb_spec. intros H; exact (Qclt_not_eq _ _ H eq_refl).
  - intros x y z. rewrite !Qc_ltb_spec. apply Qclt_trans.
  - intros x y. rewrite !Qc_ltb_spec. destruct (Qc_dec x y) as [[H|H]|H]; auto.
  - intros x y z. rewrite !Qc_ltb_spec. unfold Qclt, Qcplus, Q2Qc. cbn [this]. intros H.
    rewrite (Qred_correct (x + z)), (Qred_correct (y + z)). apply Qplus_lt_l. exact H.
  - intros x y. rewrite !Qc_ltb_spec. unfold Qclt, Qcmult, Q2Qc. cbn [this]. intros H H'.
    rewrite (Qred_correct (x * y)), (Qred_correct 0) in *. apply Qmult_lt_0_compat; assumption.
Qed.

Definition R_eqb (x y : R) : bool := if Req_EM_T x y then true else false.
Definition R_ltb (x y : R) : bool := if Rlt_dec x y then true else false.
Global Instance ROps : Ops R := {|
  f0 := 0%R; f1 := 1%R; fadd := Rplus; fmul := Rmult; fsub := Rminus; fopp := Ropp;
  fdiv := Rdiv; finv := Rinv; feqb := R_eqb; fltb := R_ltb; junk := 77%R |}.
Lemma R_eqb_spec x y : R_eqb x y = true <-> x = y.
Proof. unfold R_eqb. destruct (Req_EM_T x y); split; congruence. Qed.
Lemma R_ltb_spec x y : R_ltb x y = true <-> (x < y)%R.
Proof. unfold R_ltb. destruct (Rlt_dec x y); split; (congruence || contradiction || auto). Qed.
Lemma R_ltb_false x y : R_ltb x y = false <-> (y <= x)%R.
Proof. unfold R_ltb. destruct (Rlt_dec x y); split; intros; try congruence; try lra. Qed.
Global Instance RLaws : Laws R.
Proof.
  constructor; unfold flt; cbn [fltb feqb ROps f0 f1 fadd fmul fsub fopp fdiv finv].
  - exact Rfield.
  - exact R_eqb_spec.
  - intros x. rewrite R_ltb_spec. lra.
  - intros x y z. rewrite !R_ltb_spec. lra.
  - intros x y. rewrite !R_ltb_spec. lra.
  - intros x y z. rewrite !R_ltb_spec. lra.
  - intros x y. rewrite !R_ltb_spec. apply Rmult_lt_0_compat.
Qed.
Lemma R_le (x y : R) : fle x y <-> (x <= y)%R.
Proof. unfold fle. apply R_ltb_false. Qed.
Lemma R_lt (x y : R) : flt x y <-> (x < y)%R.
Proof. unfold flt. apply R_ltb_spec. Qed.
Lemma R_abs (x : R) : fabs x = Rabs x.
Proof.
  unfold fabs. cbn [fltb ROps f0 fopp]. unfold R_ltb. destruct (Rlt_dec x 0); [rewrite Rabs_left; auto|rewrite Rabs_right; lra].
Qed.
