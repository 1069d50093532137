(** * C81: the Golub-Reinsch SVD *)
From Coq Require Import Reals Arith Bool Lia Lra Psatz Setoid Morphisms.
From Verif Require Import Base Alg Inst Mat SpecMat LemMat LemOps RSum ModelOps ModelSVD ModelGR SpecExp SpecEig SpecSVD SpecGR LemEig LemExp RRect LemGR LemGR2 LemGR3 LemGR4 LemGR5 LemGR6 LemGR7 LemGR8 LemGR9 LemGRflag PropSVD.
Open Scope outcome_scope.
Local Open Scope R_scope.

Lemma exact_sound : sound_test 0 exact_test.
Proof.
  split; [lra|]. intros a Ha. unfold exact_test. split; [apply R_eqb_spec; rewrite Rabs_R0; ring|]. intros x H. apply R_eqb_spec in H. lra.
Qed.
Lemma usv_diag n U d e V r c : usv n U (bidi d (trunc 0 e)) V r c = Sum n (fun i => U r i * d i * V c i).
Proof.
  unfold usv. apply S_ext. intros p Hp. rewrite (S_one n p _ Hp). unfold bidi at 1. rewrite Nat.eqb_refl. rewrite S_zero; [ring|]. intros q Hq. destruct (Nat.eqb_spec q p); [reflexivity|]. unfold bidi, trunc. split_eq; ring.
Qed.
(** everything about one run *)
Definition run_spec (u : R) (wantU wantV : bool) (m n : nat) (A : rmat) (r : grsvd * nat) : Prop := exists U V tol e,
  0 <= tol <= u * (2 * frob m n A) /\ vlen (gr_diag (fst r)) = n /\ mrows (gr_U (fst r)) = m /\ mcols (gr_U (fst r)) = n /\ mrows (gr_V (fst r)) = n /\ mcols (gr_V (fst r)) = n /\
  (wantU = true -> req m n (mel (gr_U (fst r))) U) /\ (wantV = true -> req n n (mel (gr_V (fst r))) V) /\ bases m n U V /\
  (forall r0 c, (r0 < m)%nat -> (c < n)%nat -> Rabs (A r0 c - usv n U (bidi (vat (gr_diag (fst r))) (trunc (snd r) e)) V r0 c) <= INR (93 * n) * tol) /\
  (snd r < n)%nat /\ ((n <= 2)%nat -> snd r = 0%nat) /\ (snd r <> 0%nat -> e (snd r) <> 0) /\ (forall j, (j < n)%nat -> snd r = 0%nat \/ (snd r < j)%nat -> 0 <= vat (gr_diag (fst r)) j) /\
  (tol = 0 -> req n n (mm n (mm m (tp U) U) (bidi (vat (gr_diag (fst r))) (trunc (snd r) e))) (bidi (vat (gr_diag (fst r))) (trunc (snd r) e))).
(** the state in which Diagonalize starts *)
Definition started (m n : nat) (A : rmat) (U V : mat R) (D E : vec R) (anorm : R) (G U0 V0 : rmat) (d e : nat -> R) : Prop :=
  (mrows U = m /\ mcols U = n /\ req m n (mel U) U0) /\ (mrows V = n /\ mcols V = n /\ req n n (mel V) V0) /\ vis D n d /\ vis E (Nat.max m n) e /\ e 0%nat = 0 /\
  0 <= anorm <= 2 * frob m n A /\ (forall r, (r < m)%nat -> G r r <= 1) /\ ((m <= n)%nat -> req m m G delta) /\ (forall tol, 0 <= tol -> fact m n A G tol 0 U0 V0 (bidi d (trunc (n - 1) e))) /\
  (forall r c, (r < n)%nat -> (c < n)%nat -> (r = 0%nat \/ c = 0%nat) -> V0 r c = delta r c).
Lemma start_run {T} A (k : bidiag -> mat R -> mat R -> outcome T) (Q : T -> Prop) : (0 < mcols A)%nat ->
  (forall b U V G U0 V0 d e, started (mrows A) (mcols A) (mel A) U V (bD b) (bE b) (banorm b) G U0 V0 d e -> wp (k b V U) Q) ->
  wp (b <- bidiagonalize A ;; V <- accumulate_rhs (bU b) (bE b) ;; U <- accumulate_lhs (bU b) (bD b) ;; k b V U) Q.
Proof.
  intros Hn Hk. remember (mrows A) as m eqn:Em. remember (mcols A) as n eqn:En.
  eapply wp_seq; [apply (bidiagonalize_ok A m n); congruence|]. intros b (x & d & e & HU & HD & HE & HB).
  assert (Hbe : forall r, (r < n - 1)%nat -> e (r + 1)%nat <> 0 -> (r < m)%nat /\ x r (r + 1)%nat <> 0).
  { intros r Hr Ne. assert (Hrm : (r < m)%nat). { destruct (Nat.lt_ge_cases r m) as [L|L]; [exact L|]. exfalso. apply Ne. pose proof (b_e0 _ _ _ _ _ _ _ _ HB (r + 1)%nat ltac:(lia)) as K. rewrite upd1_out in K by lia. exact K. }
    split; [exact Hrm|]. apply (b_enz _ _ _ _ _ _ _ _ HB r); [lia|exact Hrm|]. rewrite upd1_out by lia. exact Ne. }
  eapply wp_seq; [apply (accumulate_rhs_ok (bU b) (bE b) m n (Nat.max m n) x e); [exact HU|exact HE|lia|exact Hbe]|]. intros V HV.
  eapply wp_seq; [apply (accumulate_lhs_ok (bU b) (bD b) m n x d); [exact HU|exact HD|intros r Hr Nd; apply (b_dnz _ _ _ _ _ _ _ _ HB r); [lia|lia|exact Nd]]|]. intros U HU'.
  apply (Hk b U V (gram0 m n x d) (Umat m n x d) (chain n (HR x e) 0 (n - 1)) d e). split; [exact HU'|]. split; [exact HV|]. split; [exact HD|]. split; [exact HE|]. split.
  { pose proof (b_first _ _ _ _ _ _ _ _ HB) as K. rewrite upd1_out in K by lia. exact K. }
  split; [exact (anorm_bound m n (mel A) x d e (banorm b) _ Hn HB)|]. split; [exact (start_rows m n (mel A) x d e (banorm b) _ Hn HB)|]. split; [exact (UUt m n (mel A) x d e (banorm b) _ Hn HB)|].
  split; [intros tol Ht; apply (start_fact m n (mel A) x d e (banorm b) (bscale b * bg b) Hn HB _ Ht)|].
  intros r c Hr Hc H. apply (chain_id n 1); [intros i r0 c0 _ _ _ H0; apply (HR_low x e i 1); [lia|exact H0]|exact Hr|exact Hc|lia].
Qed.
Lemma run_ok u t wantU wantV fuel A : sound_test u t -> (0 < mcols A)%nat -> (31 <= fuel)%nat ->
  wp (gr_construct t wantU wantV fuel A) (run_spec u wantU wantV (mrows A) (mcols A) (mel A)).
Proof.
  intros (Hu & Ht) Hn Hf. unfold gr_construct. apply start_run; [exact Hn|]. remember (mrows A) as m eqn:Em. remember (mcols A) as n eqn:En.
  intros b U V G U0 V0 d e ((U1 & U2 & U3) & (V1 & V2 & V3) & HD & HE & He0 & [A1 A2] & HG & HGm & HF & _). destruct (Ht (banorm b) A1) as [T0 T1].
  assert (Tp : 0 <= u * banorm b) by (apply Rmult_le_pos; assumption).
  eapply wp_seq; [apply (diagonalize_ok t wantU wantV m n (Nat.max m n) (mel A) G (u * banorm b) (banorm b)
    HG Tp T0 T1 ltac:(lia) fuel Hf Hn n 0 (93 * n) (mkparts U V (bD b) (bE b)) U0 V0 d e); cbn [pU pV pD pE]; try lia|].
  - split; [exact U1|split; [exact U2|]]. intros _. exact U3.
  - split; [exact V1|split; [exact V2|]]. intros _. exact V3.
  - exact HD.
  - exact HE.
  - apply HF. exact Tp.
  - exact He0.
  - intros [p ne] (Ug & Vg & d1 & e1 & (K1 & K2 & K3) & (K4 & K5 & K6) & (K7 & K8) & K9 & [F1 F2 F3 F4 F5] & K11 & K12 & K10). cbn [wp fst snd] in *.
    assert (EB : forall p0 q0, bidi (vat (pD p)) (trunc ne e1) p0 q0 = bidi d1 (trunc ne e1) p0 q0) by (intros; unfold bidi; rewrite K8; reflexivity).
    exists Ug, Vg, (u * banorm b), e1. cbn [fst snd gr_diag gr_U gr_V]. split; [split; [exact Tp|apply Rmult_le_compat_l; assumption]|].
    split; [exact K7|]. split; [exact K1|]. split; [exact K2|]. split; [exact K4|]. split; [exact K5|]. split; [exact K3|]. split; [exact K6|]. split.
    + split; [|split; [|split]].
      * intros i j Hi Hj. exact (orth_square n Vg F2 i j Hi Hj).
      * intros i j Hi Hj. exact (F2 i j Hi Hj).
      * intros L i j Hi Hj. exact (F4 L i j Hi Hj).
      * intros L i j Hi Hj. rewrite <- (HGm L i j Hi Hj). exact (F3 i j Hi Hj).
    + split; [intros r c Hr Hc; rewrite (usv_B n Ug _ (bidi d1 (trunc ne e1)) Vg r c) by (intros p0 q0 _ _; apply EB); apply F1; assumption|]. split; [exact K9|]. split; [exact K11|]. split; [exact K12|]. split; [intros j Hj C; rewrite K8; apply K10; assumption|].
      intros Z p0 q0 Hp Hq. rewrite EB. rewrite <- (F5 Z p0 q0 Hp Hq). apply mm_ext; [reflexivity|]. intros k Hk. apply EB.
Qed.
Theorem C81_construction_terminates :
  forall u test wantU wantV fuel A, sound_test u test -> (0 < mcols A)%nat -> (31 <= fuel)%nat ->
    exists S nError, gr_construct test wantU wantV fuel A = Ok (S, nError) /\ vlen (gr_diag S) = mcols A /\ mrows (gr_U S) = mrows A /\ mcols (gr_U S) = mcols A /\ mrows (gr_V S) = mcols A /\ mcols (gr_V S) = mcols A.
Proof.
  intros u t wU wV fuel A Ht Hn Hf. pose proof (run_ok u t wU wV fuel A Ht Hn Hf) as W. apply wp_ok_inv in W. destruct W as ([S ne] & E & (U & V & tol & e & _ & H1 & H2 & H3 & H4 & H5 & _)). exists S, ne. cbn [fst snd] in *. repeat (split; [assumption|]). assumption.
Qed.
(** what the flags leave out is what would have been computed: there are such U and V in any case *)
Theorem C81_decomposes :
  forall u test wantU wantV fuel A S, sound_test u test -> (0 < mcols A)%nat -> (31 <= fuel)%nat -> gr_construct test wantU wantV fuel A = Ok (S, 0%nat) ->
    exists U V, (wantU = true -> same (mrows A) (mcols A) (mel (gr_U S)) U) /\ (wantV = true -> same (mcols A) (mcols A) (mel (gr_V S)) V) /\
      svd_within (INR (93 * mcols A) * (u * (2 * frob (mrows A) (mcols A) (mel A)))) (mrows A) (mcols A) (mel A) U (vat (gr_diag S)) V.
Proof.
  intros u t wU wV fuel A S Ht Hn Hf E. pose proof (run_ok u t wU wV fuel A Ht Hn Hf) as W. rewrite E in W. cbn [wp] in W. destruct W as (U & V & tol & e & Ht1 & H1 & H2 & H3 & H4 & H5 & HU & HV & HB & HF & _ & _ & _ & Hp & _). cbn [fst snd] in *.
  exists U, V. split; [exact HU|]. split; [exact HV|]. split; [exact HB|]. split; [intros i Hi; apply Hp; [exact Hi|left; reflexivity]|].
  intros r c Hr Hc. rewrite <- (usv_diag (mcols A) U (vat (gr_diag S)) e V r c). eapply Rle_trans; [apply HF; assumption|]. apply Rmult_le_compat_l; [apply pos_INR|apply Ht1].
Qed.
(** U and V are orthogonal even when the iteration was given up *)
Theorem C81_orthogonal_always :
  forall u test fuel A S nError, sound_test u test -> (0 < mcols A)%nat -> (31 <= fuel)%nat -> gr_construct test true true fuel A = Ok (S, nError) -> bases (mrows A) (mcols A) (mel (gr_U S)) (mel (gr_V S)).
Proof.
  intros u t fuel A S ne Ht Hn Hf E. pose proof (run_ok u t true true fuel A Ht Hn Hf) as W. rewrite E in W. cbn [wp] in W. destruct W as (U & V & tol & e & Ht1 & H1 & H2 & H3 & H4 & H5 & HU & HV & (B1 & B2 & B3 & B4) & _). cbn [fst snd] in *. specialize (HU eq_refl). specialize (HV eq_refl).
  split; [|split; [|split]].
  - intros i j Hi Hj. rewrite <- (B1 i j Hi Hj). apply S_ext. intros r Hr. rewrite !HV by assumption. reflexivity.
  - intros i j Hi Hj. rewrite <- (B2 i j Hi Hj). apply S_ext. intros r Hr. rewrite !HV by assumption. reflexivity.
  - intros L i j Hi Hj. rewrite <- (B3 L i j Hi Hj). apply S_ext. intros r Hr. rewrite !HU by assumption. reflexivity.
  - intros L i j Hi Hj. rewrite <- (B4 L i j Hi Hj). apply S_ext. intros r Hr. rewrite !HU by assumption. reflexivity.
Qed.
(** in exact arithmetic the result is the decomposition that C49 assumes *)
Theorem C81_exact :
  forall fuel A S, (0 < mcols A)%nat -> (31 <= fuel)%nat -> gr_construct exact_test true true fuel A = Ok (S, 0%nat) -> gr_holds (mrows A) (mcols A) (mel A) S.
Proof.
  intros fuel A S Hn Hf E. pose proof (run_ok 0 exact_test true true fuel A exact_sound Hn Hf) as W. rewrite E in W. cbn [wp] in W. destruct W as (U & V & tol & e & Ht1 & H1 & H2 & H3 & H4 & H5 & HU & HV & HB & HF & _ & _ & _ & Hp & HP). cbn [fst snd] in *. specialize (HU eq_refl). specialize (HV eq_refl).
  assert (Z : tol = 0) by lra. specialize (HP Z). repeat (split; [assumption|]). split; [|split; [|split]].
  - intros i Hi. apply Hp; [exact Hi|left; reflexivity].
  - intros i j Hi Hj Ni Nj. transitivity (Sum (mrows A) (fun r => U r i * U r j)); [apply S_ext; intros r Hr; rewrite !HU by assumption; reflexivity|].
    pose proof (HP i j Hi Hj) as K. unfold mm at 1 in K. rewrite (S_one (mcols A) j _ Hj) in K. unfold bidi at 1 in K. rewrite Nat.eqb_refl in K. rewrite S_zero in K.
    + rewrite Rplus_0_r in K. unfold mm, tp in K. unfold bidi, trunc in K. revert K. unfold delta. split_eq; intros K; cbn [f0 f1 ROps]; subst; try (eapply Rmult_eq_reg_r; [first [lra|rewrite K; ring]|exact Nj]).
    + intros q Hq. destruct (Nat.eqb_spec q j); [reflexivity|]. unfold bidi, trunc. split_eq; ring.
  - intros i j Hi Hj Ni Nj. rewrite <- (proj1 HB i j Hi Hj). apply S_ext. intros r Hr. rewrite !HV by assumption. reflexivity.
  - intros r c Hr Hc. specialize (HF r c Hr Hc). rewrite Z, Rmult_0_r in HF. rewrite (usv_diag (mcols A) U (vat (gr_diag S)) e V r c) in HF.
    assert (Q : mel A r c - Sum (mcols A) (fun i => U r i * vat (gr_diag S) i * V c i) = 0).
    { pose proof (Rabs_pos (mel A r c - Sum (mcols A) (fun i => U r i * vat (gr_diag S) i * V c i))) as P. destruct (Req_dec (mel A r c - Sum (mcols A) (fun i => U r i * vat (gr_diag S) i * V c i)) 0) as [Q|Q]; [exact Q|]. apply Rabs_no_R0 in Q. lra. }
    transitivity (Sum (mcols A) (fun i => U r i * vat (gr_diag S) i * V c i)); [lra|]. apply S_ext. intros i Hi. rewrite HU, HV by assumption. reflexivity.
Qed.
(** with at most two columns the iteration always ends in time *)
Theorem C81_two_columns :
  forall u test wantU wantV fuel A, sound_test u test -> (0 < mcols A <= 2)%nat -> (31 <= fuel)%nat -> exists S, gr_construct test wantU wantV fuel A = Ok (S, 0%nat).
Proof.
  intros u t wU wV fuel A Ht Hn Hf. pose proof (run_ok u t wU wV fuel A Ht ltac:(lia) Hf) as W. apply wp_ok_inv in W. destruct W as ([S ne] & E & (U & V & tol & e & _ & _ & _ & _ & _ & _ & _ & _ & _ & _ & _ & H2 & _)). cbn [snd] in H2. rewrite (H2 ltac:(lia)) in E. exists S. exact E.
Qed.
(** the singular values do not depend on which of U and V are wanted, nor does one of the two depend on the other *)
Theorem C81_flags :
  forall test wantU wantV fuel A S nError S' nError', gr_construct test wantU wantV fuel A = Ok (S, nError) -> gr_construct test true true fuel A = Ok (S', nError') ->
    gr_diag S = gr_diag S' /\ nError = nError' /\ gr_get_U wantU S = (if wantU then gr_get_U true S' else Abort DAssert) /\ gr_get_V wantV S = (if wantV then gr_get_V true S' else Abort DAssert).
Proof.
  intros t wU wV fuel A S ne S' ne' E E'. destruct (both_construct t wU wV fuel A _ _ E E') as (H1 & H2 & H3 & H4). cbn [fst snd] in *. split; [exact H1|]. split; [exact H4|]. unfold gr_get_U, gr_get_V. split; [destruct wU; [rewrite H2; reflexivity|reflexivity]|destruct wV; [rewrite H3; reflexivity|reflexivity]].
Qed.
(** when the iteration is given up, what is returned is not a decomposition (exact arithmetic) *)
Theorem C81_failure :
  forall fuel A S nError, (0 < mcols A <= mrows A)%nat -> (31 <= fuel)%nat -> gr_construct exact_test true true fuel A = Ok (S, nError) -> nError <> 0%nat -> ~ gr_holds (mrows A) (mcols A) (mel A) S.
Proof.
  intros fuel A S ne Hn Hf E Nz (_ & _ & _ & _ & _ & _ & _ & _ & HA). pose proof (run_ok 0 exact_test true true fuel A exact_sound ltac:(lia) Hf) as W. rewrite E in W. cbn [wp] in W.
  destruct W as (U & V & tol & e & Ht1 & H1 & H2 & H3 & H4 & H5 & HU & HV & (B1 & B2 & B3 & B4) & HF & Hne & _ & Hek & _ & _). cbn [fst snd] in *. specialize (HU eq_refl). specialize (HV eq_refl). specialize (Hek Nz).
  assert (Z : tol = 0) by lra. remember (mrows A) as m eqn:Em. remember (mcols A) as n eqn:En. set (dg := vat (gr_diag S)) in *. set (B := bidi dg (trunc ne e)) in *. set (C := bidi dg (trunc 0 e)).
  assert (EA : forall r c, (r < m)%nat -> (c < n)%nat -> usv n U B V r c = usv n U C V r c).
  { intros r c Hr Hc. specialize (HF r c Hr Hc). rewrite Z, Rmult_0_r in HF. transitivity (mel A r c).
    - pose proof (Rabs_pos (mel A r c - usv n U B V r c)) as P. destruct (Req_dec (mel A r c - usv n U B V r c) 0) as [Q|Q]; [lra|]. apply Rabs_no_R0 in Q. lra.
    - rewrite (HA r c Hr Hc). unfold C. rewrite usv_diag. apply S_ext. intros i Hi. rewrite HU, HV by assumption. reflexivity. }
  assert (EM : req m n (mm n U (mm n B (tp V))) (mm n U (mm n C (tp V)))) by (intros r c Hr Hc; rewrite <- !usv_mm; apply EA; assumption).
  assert (UU : req n n (mm m (tp U) U) delta) by (intros i j Hi Hj; exact (B3 ltac:(lia) i j Hi Hj)). assert (VV : req n n (mm n (tp V) V) delta) by (intros i j Hi Hj; exact (B1 i j Hi Hj)).
  assert (K : req n n B C).
  { transitivity (mm n (mm m (tp U) (mm n U (mm n B (tp V)))) V); [|rewrite EM]; rewrite <- (r_assoc n n n m (tp U)), UU, r_1l, r_assoc, VV, r_1r; reflexivity. }
  specialize (K (ne - 1)%nat ne ltac:(lia) ltac:(lia)). unfold B, C, bidi, trunc in K. revert K. split_eq. intros K. contradiction.
Qed.
(** ** a decomposition that is given up without notice *)
Definition bidiag3 : mat R := mkmat 3 3 (fun r c => if (c =? r)%nat then 1 else if (c =? S r)%nat then 1 else 0).
Lemma bidiag3_start U V D E anorm G U0 V0 d e : started 3 3 (mel bidiag3) U V D E anorm G U0 V0 d e -> unreduced d e.
Proof.
  intros (_ & _ & _ & _ & _ & _ & _ & _ & HF & HV). specialize (HF 0 ltac:(lra)). destruct HF as [FE FV _ FI _]. specialize (FI (le_n 3)). set (B := bidi d (trunc (3 - 1) e)) in *.
  assert (EA : req 3 3 (mel bidiag3) (mm 3 U0 (mm 3 B (tp V0)))).
  { intros r c Hr Hc. specialize (FE r c Hr Hc). cbn [INR] in FE. rewrite Rmult_0_l in FE. rewrite <- usv_mm. pose proof (Rabs_pos (mel bidiag3 r c - usv 3 U0 B V0 r c)). destruct (Req_dec (mel bidiag3 r c - usv 3 U0 B V0 r c) 0) as [Q|Q]; [lra|]. apply Rabs_no_R0 in Q. lra. }
  assert (EM : req 3 3 (mm 3 (tp (mel bidiag3)) (mel bidiag3)) (mm 3 V0 (mm 3 (mm 3 (tp B) B) (tp V0)))).
  { rewrite EA. rewrite r_tp, (r_tp 3 3 3 B). rewrite (tp_tp 3 3 V0). rewrite r_assoc. rewrite <- (r_assoc 3 3 3 3 (tp U0)), FI, r_1l. rewrite r_assoc. rewrite <- (r_assoc 3 3 3 3 (tp B)). reflexivity. }
  assert (V00 : V0 0%nat 0%nat = 1) by (rewrite HV by lia; reflexivity). assert (V01 : V0 0%nat 1%nat = 0) by (rewrite HV by lia; reflexivity). assert (V02 : V0 0%nat 2%nat = 0) by (rewrite HV by lia; reflexivity). assert (V10 : V0 1%nat 0%nat = 0) by (rewrite HV by lia; reflexivity). assert (V20 : V0 2%nat 0%nat = 0) by (rewrite HV by lia; reflexivity).
  pose proof (EM 0%nat 0%nat ltac:(lia) ltac:(lia)) as M00. pose proof (EM 0%nat 1%nat ltac:(lia) ltac:(lia)) as M01. pose proof (EM 0%nat 2%nat ltac:(lia) ltac:(lia)) as M02.
  pose proof (EM 1%nat 1%nat ltac:(lia) ltac:(lia)) as M11. pose proof (EM 1%nat 2%nat ltac:(lia) ltac:(lia)) as M12. pose proof (EM 2%nat 2%nat ltac:(lia) ltac:(lia)) as M22.
  pose proof (FV 1%nat 1%nat ltac:(lia) ltac:(lia)) as W11. pose proof (FV 1%nat 2%nat ltac:(lia) ltac:(lia)) as W12. pose proof (FV 2%nat 2%nat ltac:(lia) ltac:(lia)) as W22. clear FE FI EA EM FV HV.
  unfold mm, tp, B, bidi, trunc, delta in *. cbn [sum fadd f0 f1 ROps mel bidiag3 Nat.eqb Nat.ltb Nat.leb Nat.sub] in *. rewrite ?V00, ?V01, ?V02, ?V10, ?V20 in *.
  set (a := V0 1%nat 1%nat) in *. set (a' := V0 1%nat 2%nat) in *. set (b := V0 2%nat 1%nat) in *. set (b' := V0 2%nat 2%nat) in *. unfold unreduced.
  set (d0 := d 0%nat) in *. set (d1 := d 1%nat) in *. set (d2 := d 2%nat) in *. set (e1 := e 1%nat) in *. set (e2 := e 2%nat) in *. clearbody a a' b b' d0 d1 d2 e1 e2.
  assert (Q1 : d0 * d0 = 1) by lra. assert (Q2 : d0 * e1 * a = 1) by lra. assert (Q3 : d0 * e1 * b = 0) by lra.
  assert (Nde : d0 * e1 <> 0) by (intros C; rewrite C in Q2; lra). assert (b = 0) as -> by (apply Rmult_integral in Q3; destruct Q3; [contradiction|assumption]).
  assert (Q4 : b' * b' = 1) by lra. assert (a' = 0) as -> by (assert (a' * b' = 0) as K by lra; apply Rmult_integral in K; destruct K as [K|K]; [exact K|rewrite K in Q4; lra]).
  assert (Q5 : a * a = 1) by lra. assert (Q6 : (e1 * e1 + d1 * d1) * (a * a) = 2) by lra. assert (Q7 : d1 * e2 * (a * b') = 1) by lra. assert (Q8 : (e2 * e2 + d2 * d2) * (b' * b') = 2) by lra.
  rewrite Q5 in Q6. rewrite Q4 in Q8.
  assert (Q9 : e1 * e1 = 1). { assert ((d0 * d0) * (e1 * e1) * (a * a) = 1) as K by (transitivity ((d0 * e1 * a) * (d0 * e1 * a)); [ring|rewrite Q2; ring]). rewrite Q1, Q5 in K. lra. }
  assert (Q10 : d1 * d1 = 1) by lra. assert (Q11 : e2 * e2 = 1). { assert ((d1 * d1) * (e2 * e2) * ((a * a) * (b' * b')) = 1) as K by (transitivity ((d1 * e2 * (a * b')) * (d1 * e2 * (a * b'))); [ring|rewrite Q7; ring]). rewrite Q10, Q4, Q5 in K. lra. }
  assert (Q12 : d2 * d2 = 1) by lra. repeat split; intros C; subst; lra.
Qed.
Theorem C81_silent_failure_refuted :
  ~ (forall fuel A S nError, (0 < mcols A <= mrows A)%nat -> (31 <= fuel)%nat -> gr_construct exact_test true true fuel A = Ok (S, nError) -> gr_holds (mrows A) (mcols A) (mel A) S).
Proof.
  intros C. assert (W : wp (gr_construct exact_test true true 31 bidiag3) (fun r => snd r = 2%nat)).
  { unfold gr_construct. apply (start_run bidiag3); [cbn; lia|]. change (mrows bidiag3) with 3%nat. change (mcols bidiag3) with 3%nat. intros b U V G U0 V0 d e HS. pose proof (bidiag3_start _ _ _ _ _ _ _ _ _ _ HS) as Hu.
    destruct HS as ((U1 & U2 & U3) & (V1 & V2 & V3) & HD & HE & He0 & [A1 A2] & HG & HGm & HF & _). destruct (proj2 exact_sound (banorm b) A1) as [T0 T1].
    cbn [diagonalize]. rewrite bind_assoc. eapply wp_seq; [apply (iterate_three exact_test true true 3 (mel bidiag3) G (banorm b) HG T0) with (d0 := d) (cnt := 0%nat) (Ug := U0) (Vg := V0) (d := d) (e := e)|]; try lia.
    - intros x Hx. specialize (T1 x Hx). rewrite Rmult_0_l in T1. pose proof (Rabs_pos x). destruct (Req_dec x 0) as [Q|Q]; [exact Q|]. apply Rabs_no_R0 in Q. lra.
    - unfold state. cbn [pU pV pD pE]. split; [split; [exact U1|split; [exact U2|intros _; exact U3]]|]. split; [split; [exact V1|split; [exact V2|intros _; exact V3]]|]. split; [exact HD|]. split; [exact HE|]. split; [apply (HF 0); lra|]. split; [exact He0|]. reflexivity.
    - exact Hu.
    - intros [p z] Hz. cbn [snd] in Hz. subst z. cbn [bind wp snd]. reflexivity. }
  apply wp_ok_inv in W. destruct W as ([S ne] & E & K). cbn [snd] in K. subst ne. pose proof (C 31%nat bidiag3 S 2%nat ltac:(cbn; lia) ltac:(lia) E) as H. exact (C81_failure 31 bidiag3 S 2 ltac:(cbn; lia) ltac:(lia) E ltac:(lia) H).
Qed.
(** a 2 x 2 matrix, so that the claims above are about something *)
Example C81_example : exists S, gr_construct exact_test true true 31 (mkmat 2 2 (fun r c => INR (r + 2 * c) + 1)) = Ok (S, 0%nat) /\ gr_holds 2 2 (fun r c => INR (r + 2 * c) + 1) S.
Proof.
  destruct (C81_two_columns 0 exact_test true true 31 (mkmat 2 2 (fun r c => INR (r + 2 * c) + 1)) exact_sound ltac:(cbn; lia) ltac:(lia)) as (S & E). exists S. split; [exact E|]. exact (C81_exact 31 (mkmat 2 2 (fun r c => INR (r + 2 * c) + 1)) S ltac:(cbn; lia) ltac:(lia) E).
Qed.
Print Assumptions C81_construction_terminates.
Print Assumptions C81_decomposes.
Print Assumptions C81_orthogonal_always.
Print Assumptions C81_exact.
Print Assumptions C81_two_columns.
Print Assumptions C81_flags.
Print Assumptions C81_failure.
Print Assumptions C81_silent_failure_refuted.
