(** * C44 C45 C74: weighted least squares. *)
From Coq Require Import Arith Bool List Lia Permutation ZArith QArith Qcanon.
From Verif Require Import Base Alg Mat SpecMat LemMat SpecLin LemLin ModelOps LemOps ModelObjects LemObjects LemHelpers Inst LemGauss LemDetMore SpecForm LemForm ModelChol LemChol LemCholSolve LemCholMore PropOps PropChol ModelWLS SpecWLS LemWLS LemWLSRun LemWLSEnergy.
Import ListNotations.
Local Open Scope nat_scope.

Section P.
Context {F : Type} {Fo : Ops F} {Fl : Laws F}.
Add Field Ff : law_field.

(** n parameters, any sequence of well-sized calls: none of them fails. *)
Theorem C44_total : forall n (os : list (wop F)), Forall (op_ok n) os -> exists w0 w, wls_new n = Ok w0 /\ wls_run os w0 = Ok w.
Proof.
  intros n os H. destruct (new_acc (F := F) n) as (w0 & E & A). destruct (run_adds n os H w0 _ _ A) as (w & E' & _). exists w0, w. split; assumption.
Qed.
Lemma run_acc n (os : list (wop F)) w0 w : Forall (op_ok n) os -> wls_new n = Ok w0 -> wls_run os w0 = Ok w -> acc n w (runH n os) (rung n os).
Proof.
  intros H E E'. destruct (new_acc (F := F) n) as (w0' & E0 & A). rewrite E in E0. injection E0 as <-. destruct (run_adds n os H w0 _ _ A) as (w' & E1 & A1 & _). rewrite E' in E1. injection E1 as <-.
  eapply acc_ext; [exact A1| |]; intros; cbv beta; ring.
Qed.
Lemma runH_upper n (os : list (wop F)) r c : Forall (op_ok n) os -> r < n -> c < n -> upper_sym (runH n os) r c = runH n os r c.
Proof. intros H Hr Hc. unfold upper_sym. destruct (Nat.ltb_spec c r); [apply runH_sym; assumption|reflexivity]. Qed.
(** compute(): mu is the stationary point of the energy (the sum of the weighted squared residuals and prior terms,
    SpecWLS.v) and for every x the energy is its value at mu plus the curvature of x - mu; get_C_inv() is the
    symmetric matrix of that curvature. *)
Theorem C44_stationary : forall n (os : list (wop F)) w0 w1 w, Forall (op_ok n) os ->
  wls_new n = Ok w0 -> wls_run os w0 = Ok w1 -> wls_compute w1 = Ok w ->
  vlen (w_mu w) = n /\
  (forall x, energy n os x = fadd (energy n os (vat (w_mu w))) (curvature n os (fun i => fsub (x i) (vat (w_mu w) i)))) /\
  mrows (w_C w) = n /\ mcols (w_C w) = n /\ symmetric n (mel (w_C w)) /\ nonsingular n (mel (w_C w)) /\
  (forall d, curvature n os d = quad n (mel (w_C w)) d).
Proof.
  intros n os w0 w1 w H E E1 E2. pose proof (run_acc n os w0 w1 H E E1) as A.
  destruct (compute_ok n w1 _ _ A) as (C & ch & _ & (RC & KC & VC) & Ech & _ & [(K & mu & Ec & Lmu & NS & Sv)|(_ & Ec)]); [|congruence].
  rewrite E2 in Ec. injection Ec as ->. cbn [w_mu w_C].
  assert (U : forall r c, r < n -> c < n -> upper_sym (runH n os) r c = runH n os r c) by (intros; apply runH_upper; assumption).
  assert (VC' : forall r c, r < n -> c < n -> mel C r c = runH n os r c) by (intros; rewrite VC by assumption; apply U; assumption).
  split; [exact Lmu|]. split.
  { intros x. rewrite !energy_quad, curvature_quad by exact H.
    pose proof (complete_square n (runH n os) (rung n os) (vat mu) x (runH_sym n os H)) as Q. rewrite Q; [ring|]. eapply solves_ext; [exact U| | |exact Sv]; reflexivity. }
  split; [exact RC|]. split; [exact KC|]. split.
  { intros r c Hr Hc. rewrite !VC' by assumption. apply runH_sym; assumption. }
  split.
  { apply (nonsingular_ext n (upper_sym (runH n os))); [|exact NS]. intros; symmetry; apply VC; assumption. }
  intros d. rewrite curvature_quad by exact H. apply quad_ext; [|reflexivity]. intros; symmetry; apply VC'; assumption.
Qed.
(** Non-negative weights: mu minimises the energy, and nothing else does. *)
Theorem C44_minimises : forall n (os : list (wop F)) w0 w1 w, Forall (op_ok n) os -> Forall (op_nonneg n) os ->
  wls_new n = Ok w0 -> wls_run os w0 = Ok w1 -> wls_compute w1 = Ok w ->
  (forall x, fle (energy n os (vat (w_mu w))) (energy n os x)) /\
  (forall x, fle (energy n os x) (energy n os (vat (w_mu w))) -> forall i, i < n -> x i = vat (w_mu w) i).
Proof.
  intros n os w0 w1 w H HN E E1 E2. destruct (C44_stationary n os w0 w1 w H E E1 E2) as (_ & Q & _ & _ & SC & NS & HC).
  assert (PS : forall x, fle (energy n os (vat (w_mu w))) (energy n os x)).
  { intros x. rewrite (Q x). replace (energy n os (vat (w_mu w))) with (fadd (energy n os (vat (w_mu w))) f0) at 1 by ring. apply add_le2; [apply le_refl|]. apply curvature_nonneg. exact HN. }
  split; [exact PS|]. intros x Hx i Hi. pose proof (le_antisym _ _ Hx (PS x)) as Eq.
  assert (Z : quad n (mel (w_C w)) (fun i => fsub (x i) (vat (w_mu w) i)) = f0).
  { rewrite <- HC. pose proof (Q x) as Qx. rewrite Eq in Qx.
    transitivity (fsub (fadd (energy n os (vat (w_mu w))) (curvature n os (fun i => fsub (x i) (vat (w_mu w) i)))) (energy n os (vat (w_mu w)))); [ring|]. rewrite <- Qx. ring. }
  apply sub_zero. apply (NS (fun i => fsub (x i) (vat (w_mu w) i))); [|exact Hi].
  apply psd_null; [|exact Z]. split; [exact SC|]. intros d. rewrite <- HC. apply curvature_nonneg. exact HN.
Qed.
(** Positive curvature (e.g. a positive prior, or enough independent measurements): compute() succeeds. *)
Theorem C44_computes : forall n (os : list (wop F)) w0 w1, Forall (op_ok n) os ->
  (forall d, (exists i, i < n /\ d i <> f0) -> flt f0 (curvature n os d)) ->
  wls_new n = Ok w0 -> wls_run os w0 = Ok w1 -> exists w, wls_compute w1 = Ok w.
Proof.
  intros n os w0 w1 H HP E E1. pose proof (run_acc n os w0 w1 H E E1) as A.
  destruct (compute_ok n w1 _ _ A) as (C & ch & _ & (RC & KC & VC) & Ech & _ & [(K & mu & Ec & _)|(K & Ec)]); [eexists; exact Ec|exfalso].
  assert (VC' : forall r c, r < n -> c < n -> mel C r c = runH n os r c) by (intros; rewrite VC by assumption; apply runH_upper; assumption).
  assert (SC : symmetric n (mel C)) by (intros r c Hr Hc; rewrite !VC' by assumption; apply runH_sym; assumption).
  assert (PD : posdef n (mel C)).
  { split; [exact SC|]. intros x Hx. rewrite (quad_ext n (mel C) (runH n os) x x) by (intros; first [apply VC'; assumption|reflexivity]). rewrite <- curvature_quad by exact H. apply HP. exact Hx. }
  apply (C41_posdef n C ch RC KC SC Ech) in PD. destruct PD as [K' _]. lia.
Qed.
(** No positive weights at all (or too few independent measurements): compute() gives no finite estimate. *)
Theorem C44_underdetermined : forall n (os : list (wop F)) w0 w1, Forall (op_ok n) os -> Forall (op_nonneg n) os ->
  (exists d, (exists i, i < n /\ d i <> f0) /\ curvature n os d = f0) ->
  wls_new n = Ok w0 -> wls_run os w0 = Ok w1 -> wls_compute w1 = NonFinite.
Proof.
  intros n os w0 w1 H HN (d & (i & Hi & Hd) & Z) E E1. pose proof (run_acc n os w0 w1 H E E1) as A.
  destruct (compute_ok n w1 _ _ A) as (C & ch & _ & (RC & KC & VC) & Ech & _ & [(K & mu & Ec & _)|(K & Ec)]); [exfalso|exact Ec].
  destruct (C44_stationary n os w0 w1 _ H E E1 Ec) as (_ & _ & _ & _ & SC & NS & HC). apply Hd. apply NS; [|exact Hi].
  apply psd_null; [|rewrite <- HC; exact Z]. split; [exact SC|]. intros d'. rewrite <- HC. apply curvature_nonneg. exact HN.
Qed.

(** Any order of the calls gives the same mu, C_inv and vector from compute(). *)
Theorem C45_permutation : forall n (os os' : list (wop F)) w0 w w', Forall (op_ok n) os -> Permutation os os' ->
  wls_new n = Ok w0 -> wls_run os w0 = Ok w -> wls_run os' w0 = Ok w' -> agree_wls n (wls_compute w) (wls_compute w').
Proof.
  intros n os os' w0 w w' H P E E1 E2. assert (H' : Forall (op_ok n) os') by (eapply Permutation_Forall; eassumption).
  destruct (run_perm n os os' P) as [P1 P2]. eapply compute_agree; [apply (run_acc n os w0 w); assumption|apply (run_acc n os' w0 w'); assumption| |]; intros; [apply P1|apply P2].
Qed.
(** Two objects joined by += give what one object given all the calls gives. *)
Theorem C45_join : forall n (os os' : list (wop F)) w0 a b w, Forall (op_ok n) os -> Forall (op_ok n) os' ->
  wls_new n = Ok w0 -> wls_run os w0 = Ok a -> wls_run os' w0 = Ok b -> wls_run (os ++ os') w0 = Ok w ->
  exists j, wls_join a b = Ok j /\ agree_wls n (wls_compute j) (wls_compute w).
Proof.
  intros n os os' w0 a b w H H' E Ea Eb Ew. pose proof (run_acc n os w0 a H E Ea) as A. pose proof (run_acc n os' w0 b H' E Eb) as B.
  destruct (join_acc n a b _ _ _ _ A B) as (j & Ej & J). exists j. split; [exact Ej|].
  assert (HH : Forall (op_ok n) (os ++ os')) by (apply Forall_app; split; assumption).
  destruct (run_app n os os') as [R1 R2]. eapply compute_agree; [exact J|apply (run_acc n _ w0 w HH E Ew)| |]; intros; cbv beta; [rewrite R1|rewrite R2]; reflexivity.
Qed.
(** A block add_mJ(Vector, Matrix, weight) is its rows added one by one. *)
Definition rows_one_by_one (m : vec F) (J : mat F) (wt : F) : list (wop F) :=
  map (fun k => Meas (vat m k) (mkvec (mcols J) (mel J k)) wt) (seq 0 (mrows J)).
Theorem C45_rows : forall n (m : vec F) (J : mat F) wt pre post w0 a b, vlen m = mrows J -> mcols J = n -> Forall (op_ok n) pre -> Forall (op_ok n) post ->
  wls_new n = Ok w0 -> wls_run (pre ++ MeasRowsW m J wt :: post) w0 = Ok a -> wls_run (pre ++ rows_one_by_one m J wt ++ post) w0 = Ok b ->
  agree_wls n (wls_compute a) (wls_compute b).
Proof.
  intros n m J wt pre post w0 a b HM HC Hp Hq E Ea Eb.
  assert (H1 : Forall (op_ok n) (pre ++ MeasRowsW m J wt :: post)) by (apply Forall_app; split; [exact Hp|constructor; [cbn [op_ok]; auto|exact Hq]]).
  assert (H3 : Forall (op_ok n) (rows_one_by_one m J wt)) by (unfold rows_one_by_one; apply Forall_forall; intros o Ho; apply in_map_iff in Ho; destruct Ho as (k & <- & _); exact HC).
  assert (H2 : Forall (op_ok n) (pre ++ rows_one_by_one m J wt ++ post)) by (apply Forall_app; split; [exact Hp|apply Forall_app; split; [exact H3|exact Hq]]).
  assert (R : forall k0 l, (forall r c, runH n (map (fun k => Meas (vat m k) (mkvec (mcols J) (mel J k)) wt) (seq k0 l)) r c = sum l (fun k => fmul (fmul wt (mel J (k0 + k) r)) (mel J (k0 + k) c))) /\
              (forall r, rung n (map (fun k => Meas (vat m k) (mkvec (mcols J) (mel J k)) wt) (seq k0 l)) r = sum l (fun k => fmul (vat m (k0 + k)) (fmul wt (mel J (k0 + k) r))))).
  { intros k0 l. revert k0. induction l as [|l IH]; intros k0; [split; reflexivity|]. cbn [seq map runH rung]. destruct (IH (S k0)) as [I1 I2]. split.
    - intros r c. rewrite I1, sum_first, Nat.add_0_r. unfold dH. cbn [den_of dN dm dJ dW dP sum vat]. f_equal; [ring|]. apply sum_ext. intros k Hk. replace (k0 + S k) with (S k0 + k) by lia. reflexivity.
    - intros r. rewrite I2, sum_first, Nat.add_0_r. unfold dg. cbn [den_of dN dm dJ dW dP sum vat]. f_equal; [ring|]. apply sum_ext. intros k Hk. replace (k0 + S k) with (S k0 + k) by lia. reflexivity. }
  destruct (R 0 (mrows J)) as [R1 R2]. cbn [Nat.add] in R1, R2.
  eapply compute_agree; [apply (run_acc n _ w0 a H1 E Ea)|apply (run_acc n _ w0 b H2 E Eb)| |].
  - intros r c Hr. destruct (run_app n pre (MeasRowsW m J wt :: post)) as [-> _]. destruct (run_app n pre (rows_one_by_one m J wt ++ post)) as [-> _]. destruct (run_app n (rows_one_by_one m J wt) post) as [-> _].
    unfold rows_one_by_one. rewrite R1. cbn [runH]. f_equal. f_equal. unfold dH. cbn [den_of dN dm dJ dW dP].
    match goal with |- fadd ?s f0 = ?t => transitivity s; [ring|] end. apply sum_ext. intros k Hk.
    rewrite (sum_ext (mrows J) (fun k0 => fmul (mel J k0 r) (fmul wt (delta k0 k))) (fun k0 => fmul (fmul (mel J k0 r) wt) (delta k0 k))) by (intros; ring). rewrite (sum_delta_r (mrows J) k (fun k0 => fmul (mel J k0 r) wt)) by exact Hk. ring.
  - intros r Hr. destruct (run_app n pre (MeasRowsW m J wt :: post)) as [_ ->]. destruct (run_app n pre (rows_one_by_one m J wt ++ post)) as [_ ->]. destruct (run_app n (rows_one_by_one m J wt) post) as [_ ->].
    unfold rows_one_by_one. rewrite R2. cbn [rung]. f_equal. f_equal. unfold dg. cbn [den_of dN dm dJ dW dP]. apply sum_ext. intros k Hk.
    rewrite (sum_ext (mrows J) (fun k0 => fmul (mel J k0 r) (fmul wt (delta k0 k))) (fun k0 => fmul (fmul (mel J k0 r) wt) (delta k0 k))) by (intros; ring). rewrite (sum_delta_r (mrows J) k (fun k0 => fmul (mel J k0 r) wt)) by exact Hk. ring.
Qed.
(** clear() forgets all calls, also after compute(); and calling compute() in the middle changes nothing. *)
Theorem C45_clear : forall n (old os : list (wop F)) w0 w1 w2 c w, Forall (op_ok n) old -> Forall (op_ok n) os ->
  wls_new n = Ok w0 -> wls_run old w0 = Ok w1 -> (w2 = w1 \/ wls_compute w1 = Ok w2) -> wls_clear w2 = Ok c -> wls_run os w0 = Ok w ->
  exists w', wls_run os c = Ok w' /\ agree_wls n (wls_compute w') (wls_compute w).
Proof.
  intros n old os w0 w1 w2 c w H H' E E1 E2 Ec Ew.
  assert (A : exists H0 g0, acc n w2 H0 g0).
  { pose proof (run_acc n old w0 w1 H E E1) as A. destruct E2 as [->|E2]; [eexists _, _; exact A|].
    destruct (compute_ok n w1 _ _ A) as (C & ch & _ & (RC & KC & VC) & Ech & _ & [(K & mu & Eq & Lmu & _)|(_ & Eq)]); [|congruence]. rewrite E2 in Eq. injection Eq as ->.
    exists (upper_sym (runH n old)), (rung n old). destruct A as (_ & _ & A3 & _ & _ & A6). unfold acc. cbn [w_C w_v w_dec]. split; [exact RC|]. split; [exact KC|]. split; [exact A3|].
    destruct (cholesky_inv n C ch RC KC Ech) as [[_ (X & _)]|[_ (X & _)]]; (split; [exact X|]; split; [intros; apply VC; lia|exact A6]). }
  destruct A as (H0 & g0 & A). destruct (clear_acc n w2 H0 g0 A) as (c' & Ec' & A' & _). rewrite Ec in Ec'. injection Ec' as <-.
  destruct (run_adds n os H' c _ _ A') as (w' & E' & A2 & _). exists w'. split; [exact E'|].
  eapply compute_agree; [exact A2|apply (run_acc n os w0 w H' E Ew)| |]; intros; cbv beta; ring.
Qed.
Theorem C45_compute_midway : forall n (os os' : list (wop F)) w0 w1 c w, Forall (op_ok n) os -> Forall (op_ok n) os' ->
  wls_new n = Ok w0 -> wls_run os w0 = Ok w1 -> wls_compute w1 = Ok c -> wls_run (os ++ os') w0 = Ok w ->
  exists w', wls_run os' c = Ok w' /\ agree_wls n (wls_compute w') (wls_compute w).
Proof.
  intros n os os' w0 w1 c w H H' E E1 Ec Ew. pose proof (run_acc n os w0 w1 H E E1) as A.
  destruct (compute_ok n w1 _ _ A) as (C & ch & _ & (RC & KC & VC) & Ech & _ & [(K & mu & Eq & Lmu & _)|(_ & Eq)]); [|congruence]. rewrite Ec in Eq. injection Eq as ->.
  assert (A' : acc n (mkwls C (w_v w1) ch mu) (runH n os) (rung n os)).
  { destruct A as (_ & _ & A3 & _ & _ & A6). unfold acc. cbn [w_C w_v w_dec]. split; [exact RC|]. split; [exact KC|]. split; [exact A3|].
    destruct (cholesky_inv n C ch RC KC Ech) as [[_ (X & _)]|[_ (X & _)]]; (split; [exact X|]; split; [intros; rewrite VC by lia; apply runH_upper; (assumption || lia)|exact A6]). }
  destruct (run_adds n os' H' _ _ _ A') as (w' & E' & A2 & _). exists w'. split; [exact E'|].
  assert (HH : Forall (op_ok n) (os ++ os')) by (apply Forall_app; split; assumption).
  destruct (run_app n os os') as [R1 R2]. eapply compute_agree; [exact A2|apply (run_acc n _ w0 w HH E Ew)| |]; intros; cbv beta; [rewrite R1|rewrite R2]; reflexivity.
Qed.
(** Sizes: priors, vector measurements and += are tested at run time ... *)
Theorem C74_checked : forall (w w' : wls F) (v : vec F) (m : mat F) wt,
  (mrows (w_C w) <> vlen v -> wls_prior_vec v w = Abort DSizeMismatch) /\
  (mrows (w_C w) <> mrows m -> wls_prior_mat m w = Abort DSizeMismatch) /\
  (vlen v <> mrows m -> wls_add_rows_w v m wt w = Abort DSizeMismatch) /\
  (vlen (w_v w) <> vlen (w_v w') -> wls_join w w' = Abort DSizeMismatch).
Proof.
  intros w w' v m wt. split; [|split; [|split]]; intros H.
  - unfold wls_prior_vec. rewrite same_size_bad by exact H. reflexivity.
  - unfold wls_prior_mat, madd_assign. rewrite same_size_bad by exact H. reflexivity.
  - unfold wls_add_rows_w. rewrite same_size_bad by exact H. reflexivity.
  - unfold wls_join, vadd_assign. rewrite same_size_bad by exact H. reflexivity.
Qed.
(** ... but the Jacobian of a single measurement is not: a shorter one is read out of range ... *)
Theorem C74_short_jacobian_refuted : forall n m (J : vec F) wt (w : wls F), mrows (w_C w) = n -> mcols (w_C w) = n -> vlen (w_v w) = n -> vlen J < n -> wls_add m J wt w = UB.
Proof.
  intros n m J wt w HR HC HV HJ. unfold wls_add. rewrite HR. rewrite for_step by lia. cbv beta iota.
  unfold vget at 1. destruct (Nat.ltb_spec 0 (vlen J)) as [HJ0|]; [|reflexivity]. cbn [bind]. rewrite vadd_at_ok by lia. cbn [bind].
  assert (U : for_ 0 n (fun c C => y <- vget J c ;; madd_at C 0 c (fmul (fmul wt (vat J 0)) y))%outcome (w_C w) = UB).
  { assert (G : forall k lo (C : mat F), lo + k = vlen J -> mrows C = n -> mcols C = n -> for_ lo n (fun c C => y <- vget J c ;; madd_at C 0 c (fmul (fmul wt (vat J 0)) y))%outcome C = UB).
    { induction k as [|k IH]; intros lo C Hk HR' HC'; rewrite for_step by lia.
      - unfold vget at 1. destruct (Nat.ltb_spec lo (vlen J)); [lia|]. reflexivity.
      - rewrite vget_ok by lia. cbn [bind]. rewrite madd_at_ok by lia. cbn [bind]. apply IH; [lia|exact HR'|exact HC']. }
    apply (G (vlen J) 0); [lia|exact HR|exact HC]. }
  rewrite U. reflexivity.
Qed.
(** ... and of a longer one the tail is silently ignored. *)
Theorem C74_long_jacobian_refuted : forall n m (J : vec F) wt (w : wls F), mrows (w_C w) = n -> n <= vlen J ->
  wls_add m J wt w = wls_add m (mkvec n (vat J)) wt w.
Proof.
  intros n m J wt w HR HJ. unfold wls_add. rewrite HR. f_equal. apply for_ext. intros r [C v] Hr. rewrite !vget_ok by (cbn [vlen]; lia). cbn [bind vat].
  destruct (vadd_at v r (fmul m (fmul wt (vat J r)))); try reflexivity. cbn [bind]. f_equal. apply for_ext. intros c C' Hc. rewrite !vget_ok by (cbn [vlen]; lia). reflexivity.
Qed.
End P.
(** get_C_inv() before compute() is not the (symmetric) inverse covariance: only the upper triangle is filled. *)
Theorem C44_C_inv_before_compute_refuted : exists (os : list (wop Qc)) w0 w, Forall (op_ok 2) os /\ wls_new 2 = Ok w0 /\ wls_run os w0 = Ok w /\ ~ symmetric 2 (mel (w_C w)).
Proof.
  exists [Meas (q 1) (vq [1;2]%Z) (q 1)]. eexists _, _. split; [constructor; [reflexivity|constructor]|]. split; [vm_compute; reflexivity|]. split; [vm_compute; reflexivity|].
  intros H. specialize (H 0 1 ltac:(lia) ltac:(lia)). apply (f_equal this) in H. vm_compute in H. discriminate.
Qed.

Print Assumptions C44_total.
Print Assumptions C44_stationary.
Print Assumptions C44_minimises.
Print Assumptions C44_computes.
Print Assumptions C44_underdetermined.
Print Assumptions C44_C_inv_before_compute_refuted.
Print Assumptions C45_permutation.
Print Assumptions C45_join.
Print Assumptions C45_rows.
Print Assumptions C45_clear.
Print Assumptions C45_compute_midway.
Print Assumptions C74_checked.
Print Assumptions C74_short_jacobian_refuted.
Print Assumptions C74_long_jacobian_refuted.

(** Non-vacuity: a straight line a + b t through (0,1), (1,3), (2,5) with a vector measurement, a single one and a sparse one. *)
Definition line_ops : list (wop Qc) :=
  [MeasRowsW (vq [1;3]%Z) (mq 2 2 [1;0;1;1]%Z) (q 1); Meas (q 5) (vq [1;2]%Z) (q 3); Sparse (q 2) (vq [1]%Z) 1 (q 2); PriorS (q 0);
   SparseRows2 (vq [1]%Z) (mq 1 1 [1]%Z) 0 (mq 1 1 [0]%Z) 1 (mq 1 1 [1]%Z)].
Example C44_nonvac : Forall (op_ok 2) line_ops /\ Forall (op_nonneg 2) line_ops /\
  vals (w <- wls_new 2 ;; w <- wls_run line_ops w ;; w <- wls_compute w ;; Ok (w_mu w))%outcome = [1;2]%Q.
Proof.
  split; [|split; [|vm_compute; reflexivity]].
  - repeat constructor; cbn [op_ok mrows mcols vlen mq vq length mel Nat.add]; try lia. intros r c Hr Hc. replace r with 0 by lia. replace c with 0 by lia. reflexivity.
  - assert (P : psd 1 (mel (mq 1 1 [1]%Z))).
    { split; [intros r c Hr Hc; replace r with 0 by lia; replace c with 0 by lia; reflexivity|]. intros x. unfold quad. cbn [sum].
      change (mel (mq 1 1 [1%Z]) 0 0) with (f1 : Qc). match goal with |- fle _ ?e => replace e with (fmul (x 0) (x 0)) by (cbn [fadd fmul f0 f1 QcOps]; ring) end. apply sq_nonneg. }
    constructor; [vm_compute; reflexivity|]. constructor; [vm_compute; reflexivity|]. constructor; [vm_compute; reflexivity|]. constructor; [vm_compute; reflexivity|]. constructor; [exact P|constructor].
Qed.
Example C45_nonvac : Permutation line_ops (rev line_ops) /\ vals (w <- wls_new 2 ;; w <- wls_run (rev line_ops) w ;; w <- wls_compute w ;; Ok (w_mu w))%outcome = [1;2]%Q.
Proof. split; [apply Permutation_rev|vm_compute; reflexivity]. Qed.
Example C74_nonvac : (w <- wls_new 2 ;; wls_add (q 1) (vq [1]%Z) (q 1) w)%outcome = UB.
Proof. vm_compute. reflexivity. Qed.
