(** * SO2 and SE2; reading values and derivatives out. *)
From Coq Require Import Reals Lra Lia Arith Bool.
From Verif Require Import Base Alg Inst Mat SpecMat LemMat LemOps ModelOps RDeriv RSum ModelLie SpecLie LemLie LemSO3 PropSO3 ModelSE SpecSE LemSE LemSE3 PropSE ModelFad SpecFad LemFad LemFad2 LemFad3.
Open Scope outcome_scope.
Local Open Scope R_scope.

Ltac two i H := destruct i as [|[|i]]; [| |exfalso; clear - H; cbn in H; lia].
Lemma fso2_jet D p f d : jet D p f d -> mjet D p 2 2 (fun i j q => el22 (so2_exp (f q)) i j) (fso2_exp d).
Proof.
  intros J. split; [reflexivity|]. split; [reflexivity|]. intros i j Hi Hj. unfold so2_exp, el22, el2. two i Hi; two j Hj; cbn [fso2_exp mel Nat.eqb Nat.ltb Nat.leb s0 s1 ux uy].
  - apply jet_cos. exact J.
  - apply jet_opp. apply jet_sin. exact J.
  - apply jet_sin. exact J.
  - apply jet_cos. exact J.
Qed.
Lemma se2_total v : exists T, se2_exp v = Ok T.
Proof. destruct v as [x y t]. destruct (C60_se2_in_se3 x y t) as (S & _ & E & _). exists S. exact E. Qed.
Definition se2E (start : nat) (mu : nat -> R) : SE2 := match se2_exp (three_of start mu) with Ok m => m | _ => se2_default end.
Lemma se2E_ok start mu : se2_exp (three_of start mu) = Ok (se2E start mu).
Proof. unfold se2E. destruct (se2_total (three_of start mu)) as (m & ->). reflexivity. Qed.
Definition small_se2 (start : nat) (q : nat -> R) : SE2 :=
  mkSE2 (so2_exp (q (start + 2)%nat)) (mk2 (q start + 1 / 2 * (- q (start + 2)%nat * q (start + 1)%nat)) (q (start + 1)%nat + 1 / 2 * (q (start + 2)%nat * q start))).
Lemma se2E_small start q : Rabs (q (start + 2)%nat) < 1 / 10 ^ 5 -> se2E start q = small_se2 start q.
Proof.
  intros H. unfold se2E, se2_exp, three_of. cbn [vx vy vz].
  replace (R_ltb (q (start + 2)%nat * q (start + 2)%nat) (1 / 10 ^ 8)) with true; [reflexivity|].
  symmetry. apply R_ltb_spec. set (t := q (start + 2)%nat) in *. assert (A : t * t = Rabs t * Rabs t) by (unfold Rabs; destruct (Rcase_abs t); ring).
  rewrite A. pose proof (Rabs_pos t). nra.
Qed.
Lemma fad_se2_jet D start p : (start + 3 <= D)%nat -> three_of start p = zero3 -> exists A, make_fad_se2 D start = Ok A /\
  mjet D p 2 2 (fun i j q => el22 (rot2 (se2E start q)) i j) (fr A) /\ vjet D p 2 (fun i q => el2 (trans2 (se2E start q)) i) (ft A).
Proof.
  intros H Hz. pose proof (three_zero start p Hz) as Z. unfold make_fad_se2.
  destruct (fad_vec_jet D (mkvec 3 (fun _ => 0)) start p) as (v & -> & Lv & J); [exact H|intros i Hi; apply Z; exact Hi|]. cbn [bind vlen] in *.
  assert (J0 : jet D p (fun q => q start) (vat v 0)) by (specialize (J 0%nat ltac:(lia)); cbn beta in J; rewrite Nat.add_0_r in J; exact J).
  pose proof (J 1%nat ltac:(lia)) as J1. pose proof (J 2%nat ltac:(lia)) as J2. cbn beta in J1, J2.
  unfold fse2_exp. rewrite Lv, same_size_eq by reflexivity. cbn [bind]. rewrite !vget_ok by lia. cbn [bind].
  assert (V : fval (vat v 2) = 0) by (rewrite (proj1 J2); apply Z; lia).
  cbn [fltb fmul FadOps fval fad_mul fconst]. rewrite V.
  replace (R_ltb (0 * 0) (1 / 10 ^ 8)) with true by (symmetry; apply R_ltb_spec; lra). cbn [bind].
  eexists. split; [reflexivity|]. cbn [fr ft].
  assert (B : forall k h, Rabs h < 1 / 10 ^ 5 -> Rabs (bump p k h (start + 2)%nat) < 1 / 10 ^ 5).
  { intros k h Hh. unfold bump. rewrite (Z 2%nat) by lia. destruct (start + 2 =? k)%nat; [rewrite Rplus_0_l; exact Hh|rewrite Rabs_R0; lra]. }
  assert (B0 : Rabs (p (start + 2)%nat) < 1 / 10 ^ 5) by (rewrite (Z 2%nat) by lia; rewrite Rabs_R0; lra).
  split.
  - destruct (fso2_jet D p _ _ J2) as (Rm & Cm & K). split; [exact Rm|]. split; [exact Cm|]. intros i j Hi Hj.
    eapply (jet_near D p _ _ _ (1 / 10 ^ 5)); [lra| | |exact (K i j Hi Hj)]; cbn beta.
    + rewrite se2E_small by exact B0. reflexivity.
    + intros k h Hk Hh. rewrite se2E_small by (apply B; exact Hh). reflexivity.
  - split; [reflexivity|]. intros i Hi.
    assert (K : jet D p (fun q => el2 (trans2 (small_se2 start q)) i) (match i with 0%nat => (vat v 0%nat + fconst (1 / 2) * (- vat v 2%nat * vat v 1%nat))%F | _ => (vat v 1%nat + fconst (1 / 2) * (vat v 2%nat * vat v 0%nat))%F end)).
    { unfold small_se2, el2. cbn [trans2 ux uy fadd fmul fopp FadOps].
      two i Hi.
      - apply jet_add; [exact J0|]. apply (jet_mul D p (fun _ => 1 / 2)); [apply jet_const|]. apply (jet_mul D p (fun q => - q (start + 2)%nat)); [apply jet_opp; exact J2|exact J1].
      - apply jet_add; [exact J1|]. apply (jet_mul D p (fun _ => 1 / 2)); [apply jet_const|]. apply (jet_mul D p (fun q => q (start + 2)%nat)); [exact J2|exact J0]. }
    eapply (jet_near D p _ _ _ (1 / 10 ^ 5)); [lra| | |exact K]; cbn beta.
    + rewrite se2E_small by exact B0. reflexivity.
    + intros k h Hk Hh. rewrite se2E_small by (apply B; exact Hh). reflexivity.
Qed.
(** extraction *)
Lemma get_value_ok (v : vec fad) : gives_vec (get_value v) (vlen v) (fun i => fval (vat v i)).
Proof.
  unfold get_value. apply wp_ex.
  eapply wp_mono; [apply (wp_for (fun k (r : vec R) => vlen r = vlen v /\ forall i, (i < k)%nat -> vat r i = fval (vat v i)))|].
  - lia.
  - split; [reflexivity|]. lia.
  - intros i r Hi [Lr Er]. rewrite vget_ok by lia. cbn [bind]. rewrite vset_ok by lia. cbn [wp vlen vat]. split; [exact Lr|].
    intros j Hj. destruct (Nat.eqb_spec j i) as [->|Hn]; [reflexivity|]. apply Er. lia.
  - intros r [Lr Er]. split; assumption.
Qed.
Lemma get_derivative_ok D n (v : vec fad) dim : vlen v = n -> (dim < D)%nat -> gives_vec (get_derivative D (Static n) v dim) n (fun i => dk (vat v i) dim).
Proof.
  intros Hn Hd. unfold get_derivative. apply wp_ex.
  eapply wp_mono; [apply (wp_for (fun k (r : vec R) => vlen r = n /\ forall i, (i < k)%nat -> vat r i = dk (vat v i) dim))|].
  - lia.
  - split; [reflexivity|]. lia.
  - intros i r Hi [Lr Er]. rewrite vget_ok by lia. cbn [bind]. rewrite deriv_dk by exact Hd. cbn [bind]. rewrite vset_ok by lia. cbn [wp vlen vat]. split; [exact Lr|].
    intros j Hj. destruct (Nat.eqb_spec j i) as [->|Hne]; [reflexivity|]. apply Er. lia.
  - intros r [Lr Er]. split; assumption.
Qed.
Lemma get_derivative_m_ok D nr nc (v : mat fad) dim : mrows v = nr -> mcols v = nc -> (dim < D)%nat ->
  gives_mat (get_derivative_m D nr nc v dim) nr nc (fun i j => dk (mel v i j) dim).
Proof.
  intros Hr Hc Hd. unfold get_derivative_m. apply wp_ex.
  eapply wp_mono; [apply (wp_for (fun k (r : mat R) => mrows r = nr /\ mcols r = nc /\ forall i j, (i < k)%nat -> (j < nc)%nat -> mel r i j = dk (mel v i j) dim))|].
  - lia.
  - split; [reflexivity|]. split; [reflexivity|]. lia.
  - intros i r Hi (Rr & Cr & Er).
    eapply wp_mono; [apply (wp_for (fun k (r : mat R) => mrows r = nr /\ mcols r = nc /\ forall a b, (b < nc)%nat -> (a < i \/ a = i /\ b < k)%nat -> mel r a b = dk (mel v a b) dim))|].
    + lia.
    + split; [exact Rr|]. split; [exact Cr|]. intros a b Hb Hab. apply Er; [lia|exact Hb].
    + intros c s Hc' (Rs & Cs & Es). rewrite mget_ok by lia. cbn [bind]. rewrite deriv_dk by exact Hd. cbn [bind]. rewrite mset_ok by lia. cbn [wp mrows mcols mel].
      split; [exact Rs|]. split; [exact Cs|]. intros a b Hb Hab. destruct (Nat.eqb_spec a i), (Nat.eqb_spec b c); cbn [andb]; subst; try reflexivity; apply Es; lia.
    + intros s (Rs & Cs & Es). split; [exact Rs|]. split; [exact Cs|]. intros a b Ha Hb. apply Es; lia.
  - intros r (Rr & Cr & Er). split; [exact Rr|]. split; [exact Cr|]. exact Er.
Qed.
Lemma jacobian_loop D n held DT (v : vec fad) : vlen v = n -> (0 < n)%nat -> (held <= D)%nat -> (held <= DT)%nat ->
  gives_mat (get_jacobian DT D held (Static n) v) n DT (fun i j => if (j <? held)%nat then dk (vat v i) j else mel (mnew (F:=R) n DT) i j).
Proof.
  intros Hn Hp Hh Ht. unfold get_jacobian. rewrite vget_ok by lia. cbn [bind]. apply wp_ex.
  eapply wp_mono; [apply (wp_for (fun k (r : mat R) => mrows r = n /\ mcols r = DT /\ forall i j, (i < n)%nat -> (j < DT)%nat -> mel r i j = if (j <? k)%nat then dk (vat v i) j else mel (mnew (F:=R) n DT) i j))|].
  - lia.
  - split; [reflexivity|]. split; [reflexivity|]. intros i j Hi Hj. destruct (Nat.ltb_spec j 0); [lia|]. reflexivity.
  - intros k r Hk (Rr & Cr & Er). destruct (get_derivative_ok D n v k Hn ltac:(lia)) as (d & -> & Ld & Ed). cbn [bind].
    eapply wp_mono; [apply (wp_for (fun c (s : mat R) => mrows s = n /\ mcols s = DT /\ forall i j, (i < n)%nat -> (j < DT)%nat ->
      mel s i j = if (j <? k)%nat || (j =? k)%nat && (i <? c)%nat then dk (vat v i) j else mel (mnew (F:=R) n DT) i j))|].
    + lia.
    + split; [exact Rr|]. split; [exact Cr|]. intros i j Hi Hj. rewrite Er by assumption. destruct (Nat.ltb_spec i 0); [lia|]. rewrite andb_false_r, orb_false_r. reflexivity.
    + intros c s Hc (Rs & Cs & Es). rewrite vget_ok by lia. cbn [bind]. rewrite mset_ok by lia. cbn [wp mrows mcols mel]. split; [exact Rs|]. split; [exact Cs|].
      intros i j Hi Hj. destruct (Nat.eqb_spec i c), (Nat.eqb_spec j k); cbn [andb]; subst.
      * rewrite Ed by exact Hi. destruct (Nat.ltb_spec c (S c)); [|lia]. rewrite orb_true_r. reflexivity.
      * rewrite Es by assumption. destruct (Nat.eqb_spec j k); [lia|]. reflexivity.
      * rewrite Es by assumption. rewrite Nat.eqb_refl. destruct (Nat.ltb_spec i c), (Nat.ltb_spec i (S c)); try lia; reflexivity.
      * rewrite Es by assumption. destruct (Nat.eqb_spec j k); [lia|]. reflexivity.
    + intros s (Rs & Cs & Es). split; [exact Rs|]. split; [exact Cs|]. intros i j Hi Hj. rewrite Es by assumption.
      destruct (Nat.ltb_spec i n); [|lia]. rewrite andb_true_r. destruct (Nat.ltb_spec j k), (Nat.eqb_spec j k), (Nat.ltb_spec j (S k)); cbn [orb]; try reflexivity; lia.
  - intros r (Rr & Cr & Er). split; [exact Rr|]. split; [exact Cr|]. exact Er.
Qed.
