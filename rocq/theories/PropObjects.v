(** * Property theorems C25-C28: Zeros, Ones, Identity; mixed-precision scaling. *)
From Coq Require Import Arith Bool List Lia Field ZArith QArith Qcanon.
From Verif Require Import Base Alg Mat SpecMat LemMat ModelOps LemOps Inst ModelObjects LemObjects PropOps.
Import ListNotations.
Local Open Scope nat_scope.
Local Open Scope F_scope.

Section P.
Context {F : Type} {Fo : Ops F} {Fl : Laws F}.
Add Field Ff : law_field.

(** ** C25. The number an operator stands for: Ones and Identity stand for 1, scaling multiplies. *)
Theorem C25_represented_number :
  forall (s a : F) (h : held F),
    held_val HOne = (1 : F) /\ held_val (hscale HOne s) = s /\ held_val (hscale (HNum a) s) = a * s /\ held_val (hneg h) = - held_val h.
Proof. intros s a h. unfold hscale, hneg, held_val. destruct h; repeat split; ring. Qed.
(** Zeros: assignment, and comparison of a vector with Zeros *)
Theorem C25_zeros :
  forall (v : vec F) (m : mat F),
    gives_vec (zeros_vec v) (vlen v) (fun _ => 0) /\
    gives_mat (zeros_mat m) (mrows m) (mcols m) (fun _ _ => 0) /\
    exists q, zeros_vec_ne v = Ok q /\ (q = true <-> exists i, (i < vlen v)%nat /\ vat v i <> 0).
Proof.
  intros v m. split; [apply (vfill_ok v (fun _ => 0))|]. split; [apply (mfill_ok m (fun _ _ => 0))|apply zeros_vec_ne_ok].
Qed.
(** Ones holding the number x = held_val h: assignment, +=, -=, v+op, op-v, and v-op when scaled. *)
Theorem C25_ones_vector :
  forall (h : held F) (v : vec F),
    gives_vec (ones_vec h v) (vlen v) (fun _ => held_val h) /\
    gives_vec (ones_vec_add h v) (vlen v) (fun i => vat v i + held_val h) /\
    gives_vec (ones_vec_sub h v) (vlen v) (fun i => vat v i - held_val h) /\
    gives_vec (vec_plus_ones v h) (vlen v) (fun i => vat v i + held_val h) /\
    gives_vec (ones_minus_vec h v) (vlen v) (fun i => held_val h - vat v i) /\
    (h <> HOne -> gives_vec (vec_minus_ones v h) (vlen v) (fun i => vat v i - held_val h)).
Proof.
  intros h v. repeat split.
  - apply (vfill_ok v (fun _ => held_val h)).
  - apply vmod_ok. reflexivity.
  - apply vmod_ok. reflexivity.
  - eapply gives_vec_ext; [apply scalars_vector_ok|reflexivity|]. cbv beta iota. intros. ring.
  - exact (scalars_vector_ok _ v true).
  - intros Hh. destruct h as [|s]; [congruence|]. cbn [vec_minus_ones held_val].
    eapply gives_vec_ext; [apply scalars_vector_ok|reflexivity|]. cbv beta iota. intros. ring.
Qed.
Theorem C25_ones_matrix :
  forall (h : held F) (m : mat F),
    gives_mat (ones_mat h m) (mrows m) (mcols m) (fun _ _ => held_val h) /\
    gives_mat (ones_mat_add h m) (mrows m) (mcols m) (fun i j => mel m i j + held_val h) /\
    gives_mat (ones_mat_sub h m) (mrows m) (mcols m) (fun i j => mel m i j - held_val h) /\
    gives_mat (mat_plus_ones m h) (mrows m) (mcols m) (fun i j => mel m i j + held_val h) /\
    gives_mat (ones_minus_mat h m) (mrows m) (mcols m) (fun i j => held_val h - mel m i j) /\
    gives_mat (mat_minus_ones m h) (mrows m) (mcols m) (fun i j => mel m i j - held_val h).
Proof.
  intros h m. repeat split.
  - apply (mfill_ok m (fun _ _ => held_val h)).
  - apply mmod_ok. reflexivity.
  - apply mmod_ok. reflexivity.
  - eapply gives_mat_ext; [apply scalars_matrix_ok|reflexivity|reflexivity|]. cbv beta iota. intros. ring.
  - exact (scalars_matrix_ok _ m true).
  - eapply gives_mat_ext; [apply scalars_matrix_ok|reflexivity|reflexivity|]. cbv beta iota. intros. ring.
Qed.
(** Identity on a square matrix: the result is that of the ordinary operation with the matrix x*I. *)
Theorem C25_identity :
  forall (h : held F) (m : mat F), mrows m = mcols m ->
    gives_mat (identity_eval h m) (mrows m) (mcols m) (fun i j => held_val h * delta i j) /\
    gives_mat (identity_add_assign h m) (mrows m) (mcols m) (fun i j => mel m i j + held_val h * delta i j) /\
    gives_mat (mat_plus_identity m h) (mrows m) (mcols m) (fun i j => mel m i j + held_val h * delta i j) /\
    gives_mat (identity_minus_mat h m) (mrows m) (mcols m) (fun i j => held_val h * delta i j - mel m i j) /\
    (h <> HOne -> gives_mat (mat_minus_identity m h) (mrows m) (mcols m) (fun i j => mel m i j - held_val h * delta i j)).
Proof.
  intros h m Hsq.
  unfold mat_plus_identity, identity_minus_mat.
  rewrite (same_size_eq _ _ Hsq); cbn [bind].
  repeat split.
  - eapply gives_mat_ext; [apply identity_eval_ok; exact Hsq|reflexivity|reflexivity|]. cbv beta iota. intros i j _ _. unfold delta.
    destruct (i =? j)%nat; ring.
  - eapply gives_mat_ext; [apply identity_add_assign_ok; exact Hsq|reflexivity|reflexivity|]. cbv beta iota. intros i j _ _. unfold delta.
    destruct (Nat.eqb_spec i j) as [->|]; ring.
  - eapply gives_mat_ext; [apply add_identity_ok; exact Hsq|reflexivity|reflexivity|]. cbv beta iota zeta. intros i j _ _. unfold delta.
    destruct (Nat.eqb_spec i j) as [->|]; ring.
  - eapply gives_mat_ext; [apply add_identity_ok; exact Hsq|reflexivity|reflexivity|]. cbv beta iota zeta. intros i j _ _. unfold delta.
    destruct (Nat.eqb_spec i j) as [->|]; ring.
  - intros Hh. destruct h as [|s]; [congruence|]. cbn [mat_minus_identity held_val]. rewrite (same_size_eq _ _ Hsq). cbn [bind].
    eapply gives_mat_ext; [apply add_identity_ok; exact Hsq|reflexivity|reflexivity|]. cbv beta iota zeta. intros i j _ _. unfold delta.
    destruct (Nat.eqb_spec i j) as [->|]; ring.
Qed.
(** What is missing: subtracting an unscaled Ones or Identity from a vector or matrix does not compile. *)
Theorem C25_unscaled_subtract_refuted :
  forall (v : vec F) (m : mat F), vec_minus_ones v HOne = CompileError /\ mat_minus_identity m HOne = CompileError.
Proof. intros v m. split; reflexivity. Qed.

(** ** C27. The documentation promises the leading diagonal for a non-square matrix; the code stops. *)
Theorem C27_identity_non_square_refuted :
  forall (h : held F) (m : mat F), mrows m <> mcols m -> identity_eval h m = Abort DSizeMismatch.
Proof. intros h m H. unfold identity_eval. rewrite same_size_bad by exact H. reflexivity. Qed.
Theorem C27_identity_non_square_never_partial :
  forall (h : held F) (m : mat F), mrows m <> mcols m ->
    identity_add_assign h m = Abort DSizeMismatch /\ mat_plus_identity m h = Abort DSizeMismatch /\
    identity_minus_mat h m = Abort DSizeMismatch.
Proof.
  intros h m H. unfold identity_add_assign, mat_plus_identity, identity_minus_mat. rewrite same_size_bad by exact H. auto.
Qed.
End P.

(** ** C26. Dividing a scaled operator by a number, with C++'s int and double. *)
Definition well_typed (x : tnum) : Prop := conv (tty x) (tvl x) = tvl x.
(** held value floating: the constant a/b *)
Theorem C26_floating_scale :
  forall (a : Qc) (b : tnum), well_typed b -> tvl b <> Q2Qc 0 ->
    op_div_num (TNum TDouble a) b = Ok (TNum TDouble (Qcdiv a (tvl b))).
Proof.
  intros a [t b] Hb Hz. unfold op_div_num, tdiv, scale_me. cbn [tty tvl arith conv] in *.
  destruct (Qc_eqb b (Q2Qc 0)) eqn:E; [exfalso; apply Hz; apply (proj1 (law_eqb b (Q2Qc 0))); exact E|].
  cbn [bind]. do 2 f_equal. unfold Qcdiv. rewrite Qcmult_1_l. reflexivity.
Qed.
(** held value int, divided by an int z: the quotient 1/z is truncated to an int first, so the
    result is 0 unless z is 1 or -1 *)
Lemma trunc_frac n d : trunc (Q2Qc (n # d)) = q (Z.quot n (Zpos d)).
Proof.
  unfold trunc, q. f_equal. f_equal. cbn [this Q2Qc]. unfold Qred.
  pose proof (Z.ggcd_correct_divisors n (Zpos d)) as D. pose proof (Z.ggcd_gcd n (Zpos d)) as G.
  destruct (Z.ggcd n (Zpos d)) as [g [aa bb]]. cbn [fst snd] in *. destruct D as [Dn Dd].
  assert (Hg : (0 < g)%Z).
  { subst g. assert (G0 := Z.gcd_nonneg n (Zpos d)). assert (Z.gcd n (Zpos d) <> 0)%Z; [|lia].
    intros E. rewrite E in Dd. discriminate. }
  assert (Hb : (0 < bb)%Z) by (apply (Z.mul_pos_cancel_l g); lia).
  cbn [Qnum Qden]. rewrite Z2Pos.id by exact Hb. rewrite Dn, Dd, Z.quot_mul_cancel_l by lia. reflexivity.
Qed.
Lemma trunc_q z : trunc (q z) = q z.
Proof. unfold q at 1. unfold inject_Z. rewrite trunc_frac, Z.quot_1_r. reflexivity. Qed.
Lemma q_mul a b : Qcmult (q a) (q b) = q (a * b).
Proof. apply Qc_is_canon. unfold q, Qcmult. cbn [this Q2Qc]. rewrite !Qred_correct. unfold Qeq, inject_Z. cbn. lia. Qed.
Lemma q_inj a b : q a = q b -> a = b.
Proof.
  intros H. apply (f_equal this) in H. cbn [q this Q2Qc] in H.
  assert (E : Qeq (inject_Z a) (inject_Z b)) by (rewrite <- (Qred_correct (inject_Z a)), <- (Qred_correct (inject_Z b)), H; reflexivity).
  unfold Qeq, inject_Z in E. cbn in E. lia.
Qed.
Lemma inv_q z : z <> 0%Z -> Qcdiv (Q2Qc 1) (q z) = Q2Qc (Z.sgn z # Z.to_pos (Z.abs z)).
Proof.
  intros Hz. unfold Qcdiv. rewrite Qcmult_1_l. unfold Qcinv, q. apply Qc_is_canon. cbn [this Q2Qc]. rewrite !Qred_correct.
  unfold inject_Z. destruct z as [|p|p]; [congruence|reflexivity|reflexivity].
Qed.
Lemma trunc_inv z : z <> 0%Z -> trunc (Qcdiv (Q2Qc 1) (q z)) = q (Z.quot 1 z).
Proof.
  intros Hz. rewrite inv_q by exact Hz. rewrite trunc_frac. f_equal. destruct z as [|p|p]; [congruence|reflexivity|].
  cbn [Z.sgn Z.abs Z.to_pos]. change (Zneg p) with (- Zpos p)%Z. rewrite Z.quot_opp_r by discriminate. change (-1)%Z with (- (1))%Z.
  rewrite Z.quot_opp_l by discriminate. reflexivity.
Qed.
Theorem C26_integer_scale_exact :
  forall a z : Z, z <> 0%Z -> op_div_num (TNum TInt (q a)) (TNum TInt (q z)) = Ok (TNum TInt (q (a * Z.quot 1 z))).
Proof.
  intros a z Hz. unfold op_div_num, tdiv, scale_me. cbn [tty tvl arith conv].
  destruct (Qc_eqb (q z) (Q2Qc 0)) eqn:E.
  - exfalso. assert (E' : q z = q 0) by (apply (proj1 (law_eqb (q z) (Q2Qc 0))); exact E). apply q_inj in E'. contradiction.
  - cbn [bind]. rewrite trunc_inv by exact Hz. rewrite trunc_q, q_mul, !trunc_q. reflexivity.
Qed.
(** int held value divided by a double y: a * trunc(1/y) *)
Theorem C26_integer_by_floating_exact :
  forall (a : Z) (y : Qc), y <> Q2Qc 0 ->
    op_div_num (TNum TInt (q a)) (TNum TDouble y) = Ok (TNum TDouble (Qcmult (q a) (trunc (Qcdiv (Q2Qc 1) y)))).
Proof.
  intros a y Hy. unfold op_div_num, tdiv, scale_me. cbn [tty tvl arith conv].
  destruct (Qc_eqb y (Q2Qc 0)) eqn:E; [exfalso; apply Hy; apply (proj1 (law_eqb y (Q2Qc 0))); exact E|].
  cbn [bind]. do 2 f_equal.
  assert (Z1 : exists z, trunc (Qcdiv (Q2Qc 1) y) = q z) by (eexists; reflexivity). destruct Z1 as [z ->].
  rewrite q_mul, trunc_q. reflexivity.
Qed.
(** (Ones*4)/2 stands for 0, not 2; (Ones*3)/2.0 for 0 as well. The claim holds only for divisors whose
    reciprocal is an integer. *)
Theorem C26_integer_scale_refuted :
  op_div_num (TNum TInt (q 4)) (TNum TInt (q 2)) = Ok (TNum TInt (q 0)) /\
 op_div_num (TNum TInt (q 3)) (TNum TDouble (q 2)) = Ok (TNum TDouble (q 0)) /\
 (forall a z : Z, (2 <= Z.abs z)%Z -> op_div_num (TNum TInt (q a)) (TNum TInt (q z)) = Ok (TNum TInt (q 0))).
Proof.
  split; [rewrite C26_integer_scale_exact by discriminate; reflexivity|]. split.
  - rewrite C26_integer_by_floating_exact by (intros H; discriminate H). rewrite trunc_inv by discriminate. rewrite q_mul. reflexivity.
  - intros a z Hz. rewrite C26_integer_scale_exact by lia. do 3 f_equal.
    assert (Z.quot 1 z = 0)%Z by (apply Z.quot_small_iff; lia). rewrite H, Z.mul_0_r. reflexivity.
Qed.
(** scaling without division is right for all types *)
Theorem C26_multiplication :
  (forall (a : Qc) (b : tnum), well_typed b -> tvl (op_times_num (TNum TDouble a) b) = Qcmult a (tvl b) /\
                                              tvl (num_times_op b (TNum TDouble a)) = Qcmult a (tvl b)) /\
 (forall (a : Z) (b : Qc), tvl (op_times_num (TNum TInt (q a)) (TNum TDouble b)) = Qcmult (q a) b /\
                           tvl (num_times_op (TNum TDouble b) (TNum TInt (q a))) = Qcmult (q a) b) /\
 (forall a b : Z, tvl (op_times_num (TNum TInt (q a)) (TNum TInt (q b))) = q (a * b) /\
                  tvl (num_times_op (TNum TInt (q b)) (TNum TInt (q a))) = q (a * b)).
Proof.
  split; [|split].
  - intros a [t b] Hb. unfold well_typed in Hb. unfold op_times_num, num_times_op, scale_me. cbn [tty tvl] in *. rewrite Hb.
    destruct t; cbn [arith conv]; auto.
  - intros a b. unfold op_times_num, num_times_op, scale_me. cbn [tty tvl arith conv]. auto.
  - intros a b. unfold op_times_num, num_times_op, scale_me. cbn [tty tvl arith conv]. rewrite !trunc_q, !q_mul, !trunc_q. auto.
Qed.

(** ** C28. Element type P1, scalar type P2; elements and scalar are values of their types. *)
Definition elems_of (t : prec) (m : mat Qc) : Prop := forall i j, (i < mrows m)%nat -> (j < mcols m)%nat -> conv t (mel m i j) = mel m i j.
Theorem C28_same_type_agree :
  forall (P : prec) (m : mat Qc) (s : Qc), elems_of P m -> conv P s = s ->
    agree_mat (t_scalar_times_mat P P s m) (t_mat_times_scalar P P m s) /\
   gives_mat (t_mat_times_scalar P P m s) (mrows m) (mcols m) (fun i j => conv P (Qcmult (mel m i j) s)).
Proof.
  intros P m s Hm Hs.
  assert (G : gives_mat (t_mat_times_scalar P P m s) (mrows m) (mcols m) (fun i j => conv P (Qcmult (mel m i j) s))).
  { apply mfor_ok. intros i j Hi Hj. rewrite mget_ok by assumption. cbn [bind]. unfold mult_op. rewrite Hm, Hs by assumption.
    destruct P; cbn [arith conv]; [|reflexivity]. f_equal.
    generalize (Qcmult (mel m i j) s). intros x. exact (trunc_q (Z.quot (Qnum (this x)) (Zpos (Qden (this x))))). }
  split; [|exact G]. eapply agree_mat_intro; [|exact G].
  apply mfor_ok. intros i j Hi Hj. rewrite mget_ok by assumption. cbn [bind]. unfold mult_op. rewrite Hm, Hs by assumption. rewrite (Qcmult_comm s).
  destruct P; cbn [arith conv]; [|reflexivity]. f_equal.
  generalize (Qcmult (mel m i j) s). intros x. exact (trunc_q (Z.quot (Qnum (this x)) (Zpos (Qden (this x))))).
Qed.
Theorem C28_vectors_agree :
  forall (P1 P2 : prec) (v : vec Qc) (s : Qc), agree_vec (t_scalar_times_vec P1 P2 s v) (t_vec_times_scalar P1 P2 v s).
Proof.
  intros P1 P2 v s. eapply (agree_vec_intro _ _ (vlen v) (fun i => mult_op (arith P1 P2) P1 P2 (vat v i) s)).
  - apply vfor_ok. intros i Hi. rewrite vget_ok by exact Hi. cbn [bind]. f_equal. unfold mult_op. rewrite Qcmult_comm.
    destruct P1, P2; reflexivity.
  - apply vfor_ok. intros i Hi. rewrite vget_ok by exact Hi. reflexivity.
Qed.
(** the matrix form converts the scalar to the element type and every element to the scalar type *)
Theorem C28_mixed_type_exact :
  forall (m : mat Qc) (s : Qc), elems_of TInt m ->
    gives_mat (t_mat_times_scalar TInt TDouble m s) (mrows m) (mcols m) (fun i j => Qcmult (mel m i j) s) /\
   gives_mat (t_scalar_times_mat TInt TDouble s m) (mrows m) (mcols m) (fun i j => Qcmult (mel m i j) (trunc s)).
Proof.
  intros m s Hm. split; apply mfor_ok; intros i j Hi Hj; rewrite mget_ok by assumption; cbn [bind]; unfold mult_op; cbn [arith conv]; f_equal.
  - pose proof (Hm i j Hi Hj) as E. cbn [conv] in E. rewrite E. reflexivity.
  - apply Qcmult_comm.
Qed.
Theorem C28_mixed_type_exact_floating_matrix :
  forall (m : mat Qc) (z : Z),
    gives_mat (t_mat_times_scalar TDouble TInt m (q z)) (mrows m) (mcols m) (fun i j => Qcmult (mel m i j) (q z)) /\
   gives_mat (t_scalar_times_mat TDouble TInt (q z) m) (mrows m) (mcols m) (fun i j => Qcmult (trunc (mel m i j)) (q z)).
Proof.
  intros m z. split; apply mfor_ok; intros i j Hi Hj; rewrite mget_ok by assumption; cbn [bind]; unfold mult_op; cbn [arith conv]; f_equal.
  - rewrite trunc_q. reflexivity.
  - apply Qcmult_comm.
Qed.
(** hence the claim fails for mixed types: 0.5*M of the int matrix (4) is (0), M*0.5 is (2); 2*M of the
    double matrix (0.5) is (0), M*2 is (1) *)
Theorem C28_mixed_type_refuted :
  (exists (m : mat Qc) (s : Qc), elems_of TInt m /\ ~ agree_mat (t_scalar_times_mat TInt TDouble s m) (t_mat_times_scalar TInt TDouble m s)) /\
 (exists (m : mat Qc) (z : Z), ~ agree_mat (t_scalar_times_mat TDouble TInt (q z) m) (t_mat_times_scalar TDouble TInt m (q z))).
Proof.
  split.
  - exists (mkmat 1 1 (fun _ _ => q 4)), (Q2Qc (1#2)). split; [intros i j _ _; exact (trunc_q 4)|].
    intros (a & b & Ea & Eb & _ & _ & H).
    destruct (C28_mixed_type_exact (mkmat 1 1 (fun _ _ => q 4)) (Q2Qc (1#2))) as [(b' & Eb' & B1 & B2 & B3) (a' & Ea' & A1 & A2 & A3)]; [intros i j _ _; exact (trunc_q 4)|].
    assert (a' = a) by congruence. assert (b' = b) by congruence. subst a' b'.
    cbn [mrows mcols] in *. rewrite B1, B2 in H. specialize (H 0 0)%nat. rewrite A3, B3 in H by lia. cbn [mel] in H.
    specialize (H ltac:(lia) ltac:(lia)). discriminate H.
  - exists (mkmat 1 1 (fun _ _ => Q2Qc (1#2))), 2%Z.
    intros (a & b & Ea & Eb & _ & _ & H).
    destruct (C28_mixed_type_exact_floating_matrix (mkmat 1 1 (fun _ _ => Q2Qc (1#2))) 2) as [(b' & Eb' & B1 & B2 & B3) (a' & Ea' & A1 & A2 & A3)].
    assert (a' = a) by congruence. assert (b' = b) by congruence. subst a' b'.
    cbn [mrows mcols] in *. rewrite B1, B2 in H. specialize (H 0 0)%nat. rewrite A3, B3 in H by lia. cbn [mel] in H.
    specialize (H ltac:(lia) ltac:(lia)). discriminate H.
Qed.

Print Assumptions C25_represented_number.
Print Assumptions C25_zeros.
Print Assumptions C25_ones_vector.
Print Assumptions C25_ones_matrix.
Print Assumptions C25_identity.
Print Assumptions C25_unscaled_subtract_refuted.
Print Assumptions C27_identity_non_square_refuted.
Print Assumptions C27_identity_non_square_never_partial.
Print Assumptions C26_floating_scale.
Print Assumptions C26_integer_scale_exact.
Print Assumptions C26_integer_by_floating_exact.
Print Assumptions C26_integer_scale_refuted.
Print Assumptions C26_multiplication.
Print Assumptions C28_same_type_agree.
Print Assumptions C28_vectors_agree.
Print Assumptions C28_mixed_type_exact.
Print Assumptions C28_mixed_type_exact_floating_matrix.
Print Assumptions C28_mixed_type_refuted.

Example C25_nonvac :
  vals (ones_minus_vec (hscale HOne (q 3)) (vq [1;5]%Z)) = [2#1; (-2)#1]%Q /\
 mvals (mat_minus_identity (mq 2 2 [1;2;3;4]%Z) (HNum (q 7))) = [[(-6)#1;2#1];[3#1;(-3)#1]]%Q /\
 mvals (identity_eval HOne (mq 2 2 [9;9;9;9]%Z)) = [[1#1;0#1];[0#1;1#1]]%Q.
Proof. vm_compute. auto. Qed.
Example C26_nonvac : well_typed (TNum TInt (q 2)) /\ op_div_num (TNum TDouble (q 5)) (TNum TInt (q 2)) = Ok (TNum TDouble (Q2Qc (5#2))).
Proof. split; [exact (trunc_q 2)|]. rewrite C26_floating_scale; [|exact (trunc_q 2)|discriminate]. reflexivity. Qed.
Example C27_nonvac : mrows (mq 2 3 [1;2;3;4;5;6]%Z) <> mcols (mq 2 3 [1;2;3;4;5;6]%Z).
Proof. discriminate. Qed.
Example C28_nonvac : elems_of TInt (mq 2 1 [3;4]%Z) /\ mvals (t_mat_times_scalar TInt TDouble (mq 2 1 [3;4]%Z) (Q2Qc (1#2))) = [[3#2];[2#1]]%Q.
Proof. split; [intros i j _ _; apply trunc_q|reflexivity]. Qed.
