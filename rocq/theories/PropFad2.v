(** * C84: SE2's exponential of automatically differentiated numbers, away from the origin too. *)
From Coq Require Import Reals Lra Lia Arith Bool.
From Verif Require Import Base Alg Inst Mat SpecMat LemMat LemOps ModelOps RDeriv RSum ModelLie SpecLie LemLie LemSO3 PropSO3 ModelSE SpecSE LemSE LemSE3 PropSE ModelFad SpecFad LemFad LemFad2 LemFad3 LemFad4.
Open Scope outcome_scope.
Local Open Scope R_scope.

Lemma jet_local D p f g x : f p = g p -> (forall k, (k < D)%nat -> exists d, 0 < d /\ forall h, Rabs h < d -> f (bump p k h) = g (bump p k h)) -> jet D p f x -> jet D p g x.
Proof.
  intros E0 E. rewrite !jet_dk. intros [Ev H]. split; [congruence|]. intros k Hk. destruct (E k Hk) as (d & Hd & Ed). eapply D_near; [exact Hd| |exact (H k Hk)].
  intros y Hy. rewrite Rminus_0_r in Hy. apply Ed; assumption.
Qed.
Lemma jet_cont D p f x k : jet D p f x -> (k < D)%nat -> forall e, 0 < e -> exists d, 0 < d /\ forall h, Rabs h < d -> Rabs (f (bump p k h) - f p) < e.
Proof.
  intros J Hk e He. apply jet_dk in J. destruct J as [_ H]. specialize (H k Hk). unfold partial in H.
  assert (K : continuity_pt (fun h => f (bump p k h)) 0) by (apply derivable_continuous_pt; exists (dk x k); exact H).
  destruct (K e He) as (d & Hd & Kd). exists d. split; [exact Hd|]. intros h Hh. destruct (Req_dec h 0) as [->|N].
  - rewrite bump_0. replace (f p - f p) with 0 by ring. rewrite Rabs_R0. exact He.
  - specialize (Kd h). cbn in Kd. unfold R_dist in Kd. rewrite bump_0 in Kd. apply Kd. split; [split; [exact I|auto]|]. rewrite Rminus_0_r. exact Hh.
Qed.
Lemma jet_ltb D p f x c : jet D p f x -> f p <> c -> forall k, (k < D)%nat -> exists d, 0 < d /\ forall h, Rabs h < d -> R_ltb (f (bump p k h)) c = R_ltb (f p) c.
Proof.
  intros J N k Hk. destruct (jet_cont D p f x k J Hk (Rabs (f p - c))) as (d & Hd & K); [apply Rabs_pos_lt; lra|]. exists d. split; [exact Hd|]. intros h Hh. specialize (K h Hh).
  destruct (R_ltb (f p) c) eqn:B.
  - apply R_ltb_spec in B. apply R_ltb_spec. rewrite (Rabs_left (f p - c)) in K by lra. apply Rabs_def2 in K. lra.
  - apply R_ltb_false in B. rewrite (Rabs_right (f p - c)) in K by lra. apply Rabs_def2 in K. destruct (R_ltb (f (bump p k h)) c) eqn:B2; [|reflexivity]. apply R_ltb_spec in B2. lra.
Qed.
Definition se2F (f : nat -> (nat -> R) -> R) (q : nat -> R) : SE2 := match se2_exp (mk3 (f 0%nat q) (f 1%nat q) (f 2%nat q)) with Ok m => m | _ => se2_default end.
Lemma se2F_ok f q : se2_exp (mk3 (f 0%nat q) (f 1%nat q) (f 2%nat q)) = Ok (se2F f q).
Proof. unfold se2F. destruct (se2_total (mk3 (f 0%nat q) (f 1%nat q) (f 2%nat q))) as (m & ->). reflexivity. Qed.

(** The exponential of a vector of automatically differentiated numbers: values and derivatives of the exponential of the functions they stand for.
    Where the code changes formula (angle squared 1e-8 and 1e-6) nothing is claimed: the formulas differ there, so there is no derivative. *)
Theorem C84_se2_exp : forall D p f mu, vjet D p 3 f mu -> f 2%nat p * f 2%nat p <> 1 / 10 ^ 8 -> f 2%nat p * f 2%nat p <> 1 / 10 ^ 6 -> exists E A,
  (forall q, se2_exp (mk3 (f 0%nat q) (f 1%nat q) (f 2%nat q)) = Ok (E q)) /\ fse2_exp mu = Ok A /\
  mjet D p 2 2 (fun i j q => el22 (rot2 (E q)) i j) (fr A) /\ vjet D p 2 (fun i q => el2 (trans2 (E q)) i) (ft A).
Proof.
  intros D p f mu [Lv J] N1 N2. exists (se2F f). pose proof (J 0%nat ltac:(lia)) as J0. pose proof (J 1%nat ltac:(lia)) as J1. pose proof (J 2%nat ltac:(lia)) as J2.
  pose proof (jet_mul D p _ _ _ _ J2 J2) as JJ. pose proof (jet_ltb D p _ _ _ JJ N1) as B1. pose proof (jet_ltb D p _ _ _ JJ N2) as B2. cbn beta in B1, B2.
  assert (RT : forall q, rot2 (se2F f q) = so2_exp (f 2%nat q)).
  { intros q. unfold se2F, se2_exp. cbv zeta. cbn [vx vy vz]. destruct (R_ltb (f 2%nat q * f 2%nat q) (1 / 10 ^ 8)) eqn:Q1; [reflexivity|]. destruct (R_ltb (f 2%nat q * f 2%nat q) (1 / 10 ^ 6)); [reflexivity|].
    apply R_ltb_false in Q1. rewrite R_div_ok by (intros Z; rewrite Z in Q1; lra). reflexivity. }
  set (c1 := R_ltb (f 2%nat p * f 2%nat p) (1 / 10 ^ 8)) in *. set (c2 := R_ltb (f 2%nat p * f 2%nat p) (1 / 10 ^ 6)) in *.
  unfold fse2_exp. rewrite Lv, same_size_eq by reflexivity. cbn [bind]. rewrite !vget_ok by lia. cbn [bind].
  cbn [fltb fmul FadOps fval fad_mul fconst]. rewrite (proj1 J2). fold c1 c2.
  assert (TR : forall i (g : (nat -> R) -> R) y, jet D p g y -> g p = el2 (trans2 (se2F f p)) i ->
    (forall q, R_ltb (f 2%nat q * f 2%nat q) (1 / 10 ^ 8) = c1 -> R_ltb (f 2%nat q * f 2%nat q) (1 / 10 ^ 6) = c2 -> g q = el2 (trans2 (se2F f q)) i) -> jet D p (fun q => el2 (trans2 (se2F f q)) i) y).
  { intros i g y Jg Eg Lg. eapply jet_local; [| |exact Jg]; [exact Eg|]. intros k Hk. destruct (B1 k Hk) as (d1 & D1 & K1). destruct (B2 k Hk) as (d2 & D2 & K2).
    exists (Rmin d1 d2). split; [apply Rmin_pos; assumption|]. intros h Hh. pose proof (Rmin_l d1 d2). pose proof (Rmin_r d1 d2). apply Lg; [apply K1; lra|apply K2; lra]. }
  assert (RM : mjet D p 2 2 (fun i j q => el22 (rot2 (se2F f q)) i j) (fso2_exp (vat mu 2))).
  { eapply mjet_ext; [apply (fso2_jet D p _ _ J2)|]. intros i j q _ _. cbn beta. rewrite RT. reflexivity. }
  pose proof (jet_mul D p _ _ _ _ (jet_opp D p _ _ J2) J1) as X0. pose proof (jet_mul D p _ _ _ _ J2 J0) as X1.
  destruct c1 eqn:C1; [|destruct c2 eqn:C2].
  - eexists. split; [apply se2F_ok|]. split; [reflexivity|]. split; [exact RM|]. split; [reflexivity|]. intros i Hi. cbn [ft vat].
    assert (S : forall q, R_ltb (f 2%nat q * f 2%nat q) (1 / 10 ^ 8) = true -> forall k, el2 (trans2 (se2F f q)) k = match k with 0%nat => f 0%nat q + 1 / 2 * (- f 2%nat q * f 1%nat q) | _ => f 1%nat q + 1 / 2 * (f 2%nat q * f 0%nat q) end).
    { intros q Hq k. unfold se2F, se2_exp. cbv zeta. cbn [vx vy vz]. rewrite Hq. destruct k; reflexivity. }
    two i Hi.
    + refine (TR _ _ _ (jet_add D p _ _ _ _ J0 (jet_mul D p _ _ _ _ (jet_const D p (1 / 2)) X0)) _ _); [cbn beta; rewrite S by assumption; reflexivity|intros q Hq Hq2; cbn beta; rewrite S by assumption; reflexivity].
    + refine (TR _ _ _ (jet_add D p _ _ _ _ J1 (jet_mul D p _ _ _ _ (jet_const D p (1 / 2)) X1)) _ _); [cbn beta; rewrite S by assumption; reflexivity|intros q Hq Hq2; cbn beta; rewrite S by assumption; reflexivity].
  - eexists. split; [apply se2F_ok|]. split; [reflexivity|]. split; [exact RM|]. split; [reflexivity|]. intros i Hi. cbn [ft vat].
    set (A := fun q => 1 - f 2%nat q * f 2%nat q * (1 / 6) * (1 - 1 / 20 * (f 2%nat q * f 2%nat q))). set (B := fun q => 1 / 2 - 1 / 4 * (1 / 6) * (f 2%nat q * f 2%nat q)).
    pose proof (jet_sub D p _ _ _ _ (jet_const D p 1) (jet_mul D p _ _ _ _ (jet_mul D p _ _ _ _ JJ (jet_const D p (1 / 6))) (jet_sub D p _ _ _ _ (jet_const D p 1) (jet_mul D p _ _ _ _ (jet_const D p (1 / 20)) JJ)))) as JA.
    pose proof (jet_sub D p _ _ _ _ (jet_const D p (1 / 2)) (jet_mul D p _ _ _ _ (jet_mul D p _ _ _ _ (jet_const D p (1 / 4)) (jet_const D p (1 / 6))) JJ)) as JB.
    assert (S : forall q, R_ltb (f 2%nat q * f 2%nat q) (1 / 10 ^ 8) = false -> R_ltb (f 2%nat q * f 2%nat q) (1 / 10 ^ 6) = true -> forall k, el2 (trans2 (se2F f q)) k = match k with 0%nat => A q * f 0%nat q + B q * (- f 2%nat q * f 1%nat q) | _ => A q * f 1%nat q + B q * (f 2%nat q * f 0%nat q) end).
    { intros q Hq Hq2 k. unfold se2F, se2_exp. cbv zeta. cbn [vx vy vz]. rewrite Hq, Hq2. destruct k; reflexivity. }
    two i Hi.
    + refine (TR _ _ _ (jet_add D p _ _ _ _ (jet_mul D p _ _ _ _ JA J0) (jet_mul D p _ _ _ _ JB X0)) _ _); [cbn beta; rewrite S by assumption; reflexivity|intros q Hq Hq2; cbn beta; rewrite S by assumption; reflexivity].
    + refine (TR _ _ _ (jet_add D p _ _ _ _ (jet_mul D p _ _ _ _ JA J1) (jet_mul D p _ _ _ _ JB X1)) _ _); [cbn beta; rewrite S by assumption; reflexivity|intros q Hq Hq2; cbn beta; rewrite S by assumption; reflexivity].
  - assert (NZ : forall q, R_ltb (f 2%nat q * f 2%nat q) (1 / 10 ^ 8) = false -> f 2%nat q <> 0) by (intros q Hq Z; apply R_ltb_false in Hq; rewrite Z in Hq; lra).
    assert (Fd : div (fconst 1) (vat mu 2) = Ok (fad_div (fconst 1) (vat mu 2))).
    { unfold div. cbn [feqb FadOps f0 fconst fval]. rewrite (proj1 J2). destruct (R_eqb (f 2%nat p) 0) eqn:Q; [apply R_eqb_spec in Q; exfalso; apply (NZ p C1 Q)|reflexivity]. }
    rewrite Fd. cbn [bind]. eexists. split; [apply se2F_ok|]. split; [reflexivity|]. split; [exact RM|]. split; [reflexivity|]. intros i Hi. cbn [ft vat].
    pose proof (jet_div D p _ _ _ _ (jet_const D p 1) J2 (NZ p C1)) as JI. pose proof (jet_mul D p _ _ _ _ (jet_sin D p _ _ J2) JI) as JA.
    pose proof (jet_mul D p _ _ _ _ (jet_sub D p _ _ _ _ (jet_const D p 1) (jet_cos D p _ _ J2)) (jet_mul D p _ _ _ _ JI JI)) as JB.
    set (A := fun q => sin (f 2%nat q) * (1 / f 2%nat q)). set (B := fun q => (1 - cos (f 2%nat q)) * (1 / f 2%nat q * (1 / f 2%nat q))).
    assert (S : forall q, R_ltb (f 2%nat q * f 2%nat q) (1 / 10 ^ 8) = false -> R_ltb (f 2%nat q * f 2%nat q) (1 / 10 ^ 6) = false -> forall k, el2 (trans2 (se2F f q)) k = match k with 0%nat => A q * f 0%nat q + B q * (- f 2%nat q * f 1%nat q) | _ => A q * f 1%nat q + B q * (f 2%nat q * f 0%nat q) end).
    { intros q Hq Hq2 k. unfold se2F, se2_exp. cbv zeta. cbn [vx vy vz]. rewrite Hq, Hq2. rewrite R_div_ok by (apply NZ, Hq). destruct k; reflexivity. }
    two i Hi.
    + refine (TR _ _ _ (jet_add D p _ _ _ _ (jet_mul D p _ _ _ _ JA J0) (jet_mul D p _ _ _ _ JB X0)) _ _); [cbn beta; rewrite S by assumption; reflexivity|intros q Hq Hq2; cbn beta; rewrite S by assumption; reflexivity].
    + refine (TR _ _ _ (jet_add D p _ _ _ _ (jet_mul D p _ _ _ _ JA J1) (jet_mul D p _ _ _ _ JB X1)) _ _); [cbn beta; rewrite S by assumption; reflexivity|intros q Hq Hq2; cbn beta; rewrite S by assumption; reflexivity].
Qed.
(** the parameters themselves: a motion with angle 1 *)
Example C84_se2_exp_case : exists v E A, make_fad_vector 3 (mkvec 3 (fun i => INR i - 1)) 0 = Ok v /\ (forall q, se2_exp (three_of 0 q) = Ok (E q)) /\ fse2_exp v = Ok A /\
  vjet 3 (fun i => INR i - 1) 2 (fun i q => el2 (trans2 (E q)) i) (ft A).
Proof.
  destruct (fad_vec_jet 3 (mkvec 3 (fun i => INR i - 1)) 0 (fun i => INR i - 1)) as (v & Ev & J); [cbn; lia|reflexivity|]. cbn [vlen] in J.
  destruct (C84_se2_exp 3 (fun i => INR i - 1) _ v J) as (E & A & H1 & H2 & _ & H3); cbn; [lra|lra|]. exists v, E, A. split; [exact Ev|]. split; [exact H1|]. split; [exact H2|exact H3].
Qed.
