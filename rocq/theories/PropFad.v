(** * C84: automatic differentiation (functions/fadbad.h). *)
From Coq Require Import Reals Lra Lia Arith Bool.
From Verif Require Import Base Alg Inst Mat SpecMat LemMat LemOps ModelOps RDeriv RSum ModelLie SpecLie LemLie LemSO3 PropSO3 ModelSE SpecSE LemSE LemSE3 PropSE ModelFad SpecFad LemFad LemFad2 LemFad3 LemFad4 LemChol.
Open Scope outcome_scope.
Local Open Scope R_scope.

(** Computing with automatically differentiated numbers differentiates the computation. *)
Theorem C84_arithmetic : forall D p f g x y, jet D p f x -> jet D p g y ->
  jet D p (fun q => f q + g q) (x + y)%F /\ jet D p (fun q => f q - g q) (x - y)%F /\ jet D p (fun q => f q * g q) (x * y)%F /\
  jet D p (fun q => - f q) (- x)%F /\ (g p <> 0 -> div x y = Ok (x / y)%F /\ jet D p (fun q => f q / g q) (x / y)%F) /\
  (f p <> 0 -> jet D p (fun q => Rabs (f q)) (fad_abs x)) /\ jet D p (fun q => cos (f q)) (fad_cos x) /\ jet D p (fun q => sin (f q)) (fad_sin x).
Proof.
  intros D p f g x y Jx Jy. split; [apply jet_add; assumption|]. split; [apply jet_sub; assumption|]. split; [apply jet_mul; assumption|].
  split; [apply jet_opp; assumption|]. split.
  { intros Hn. split; [|apply jet_div; assumption]. unfold div. cbn [feqb FadOps f0 fconst fval]. rewrite (proj1 Jy).
    destruct (R_eqb (g p) 0) eqn:E; [apply R_eqb_spec in E; contradiction|reflexivity]. }
  split; [intros Hn; apply jet_abs; assumption|]. split; [apply jet_cos; assumption|apply jet_sin; assumption].
Qed.
(** So do the library's vector and matrix products, for every size. *)
Theorem C84_linear_algebra : forall D p n l m f g u w a b c v,
  mjet D p n l f a -> mjet D p l m g b -> vjet D p l u v -> vjet D p l w c ->
  (exists r, mmul a b = Ok r /\ mjet D p n m (fun i j q => Sum l (fun k => f i k q * g k j q)) r) /\
  (exists r, mv a v = Ok r /\ vjet D p n (fun i q => Sum l (fun k => f i k q * u k q)) r) /\
  (exists r, vadd v c = Ok r /\ vjet D p l (fun i q => u i q + w i q) r) /\
  (exists r, dot v c = Ok r /\ jet D p (fun q => Sum l (fun i => u i q * w i q)) r).
Proof.
  intros. split; [eapply mmul_jet; eassumption|]. split; [eapply mv_jet; eassumption|]. split; [eapply vadd_jet; eassumption|eapply dot_jet; eassumption].
Qed.
(** make_fad_vector: element i becomes variable start+i as long as there are so many; the others stay constants; no value changes. *)
Theorem C84_variables : forall D val start, exists v, make_fad_vector D val start = Ok v /\ vlen v = vlen val /\
  (forall p i, (i < vlen val)%nat -> (start + i < D)%nat -> p (start + i)%nat = vat val i -> jet D p (fun q => q (start + i)%nat) (vat v i)) /\
  (forall p i, (i < vlen val)%nat -> (D <= start + i)%nat -> jet D p (fun _ => vat val i) (vat v i)).
Proof.
  intros D val start. destruct (fad_vec_ok D val start) as (v & E & L & V). exists v. split; [exact E|]. split; [exact L|]. split.
  - intros p i Hi Hs Hp. rewrite V by exact Hi. destruct (Nat.ltb_spec (start + i) D); [|lia].
    destruct (jet_var D p (start + i) (fconst (vat val i)) Hs (eq_sym Hp)) as (y & Ey & J). rewrite diff_good in Ey by exact Hs. injection Ey as <-. exact J.
  - intros p i Hi Hs. rewrite V by exact Hi. destruct (Nat.ltb_spec (start + i) D); [lia|]. apply jet_const.
Qed.
(** get_value, get_derivative (vector and matrix) and get_jacobian read back the values and the partial derivatives. *)
Theorem C84_extract : forall D p n f v, vjet D p n f v -> 
  (exists r, get_value v = Ok r /\ vlen r = n /\ forall i, (i < n)%nat -> vat r i = f i p) /\
  (forall k, (k < D)%nat -> exists r, get_derivative D (Static n) v k = Ok r /\ vlen r = n /\ forall i, (i < n)%nat -> partial (f i) p k (vat r i)) /\
  ((0 < n)%nat -> exists J, get_jacobian D D D (Static n) v = Ok J /\ mrows J = n /\ mcols J = D /\
    forall i k, (i < n)%nat -> (k < D)%nat -> partial (f i) p k (mel J i k)).
Proof.
  intros D p n f v [L J]. split; [|split].
  - destruct (get_value_ok v) as (r & E & Lr & Er). exists r. split; [exact E|]. split; [congruence|]. intros i Hi. rewrite Er by lia. apply (J i Hi).
  - intros k Hk. destruct (get_derivative_ok D n v k L Hk) as (r & E & Lr & Er). exists r. split; [exact E|]. split; [exact Lr|]. intros i Hi. rewrite Er by exact Hi.
    specialize (J i Hi). apply jet_dk in J. apply J. exact Hk.
  - intros Hn. destruct (jacobian_loop D n D D v L Hn (le_n D) (le_n D)) as (r & E & Rr & Cr & Er). exists r. split; [exact E|]. split; [exact Rr|]. split; [exact Cr|].
    intros i k Hi Hk. rewrite Er by assumption. destruct (Nat.ltb_spec k D); [|lia]. specialize (J i Hi). apply jet_dk in J. apply J. exact Hk.
Qed.
Theorem C84_extract_matrix : forall D p n m f v k, mjet D p n m f v -> (k < D)%nat ->
  exists r, get_derivative_m D n m v k = Ok r /\ mrows r = n /\ mcols r = m /\ forall i j, (i < n)%nat -> (j < m)%nat -> partial (f i j) p k (mel r i j).
Proof.
  intros D p n m f v k (Lr & Lc & J) Hk. destruct (get_derivative_m_ok D n m v k Lr Lc Hk) as (r & E & Rr & Cr & Er). exists r. split; [exact E|]. split; [exact Rr|]. split; [exact Cr|].
  intros i j Hi Hj. rewrite Er by assumption. specialize (J i j Hi Hj). apply jet_dk in J. apply J. exact Hk.
Qed.
(** make_left_fad_so3(R, start) stands for the rotation exp(mu) R as a function of the parameters mu number start .. start+2, around mu = 0;
    R = identity gives make_fad_so3 itself. *)
Theorem C84_so3 : forall D start p T, (start + 3 <= D)%nat -> three_of start p = zero3 -> exists E : (nat -> R) -> M3,
  (forall mu, so3_exp (three_of start mu) = Ok (E mu)) /\
  (exists m, make_fad_so3 D start = Ok m /\ mjet D p 3 3 (fun i j mu => ent (E mu) i j) m) /\
  (exists m, make_left_fad_so3 D T start = Ok m /\ mjet D p 3 3 (fun i j mu => ent (so3_mul (E mu) T) i j) m).
Proof.
  intros D start p T H Hz. exists (so3E start). split; [apply so3E_ok|]. destruct (fad_so3_jet D start p H Hz) as (m & E & J). split; [exists m; split; assumption|].
  unfold make_left_fad_so3. rewrite E. cbn [bind].
  destruct (mmul_jet D p 3 3 3 _ _ _ _ J (lift_m_jet D p (m3 T))) as (c & -> & Jc). exists c. split; [reflexivity|]. eapply mjet_ext; [exact Jc|].
  intros i j q Hi Hj. cbn beta. unfold so3_mul, mm3, vm3, tr3, dot3, ent, comp3.
  three i Hi; three j Hj; cbn [sum fadd f0 ROps mel m3 v3_at r0 r1 r2 vx vy vz]; ring.
Qed.
Theorem C84_se3 : forall D start p T, (start + 6 <= D)%nat -> three_of start p = zero3 -> three_of (start + 3) p = zero3 -> exists E : (nat -> R) -> SE3,
  (forall mu, se3_exp (six_of start mu) = Ok (E mu)) /\
  (exists A, make_fad_se3 D start = Ok A /\ mjet D p 3 3 (fun i j mu => ent (rot (E mu)) i j) (fr A) /\ vjet D p 3 (fun i mu => comp3 (trans (E mu)) i) (ft A)) /\
  (exists A, make_left_fad_se3 D T start = Ok A /\ mjet D p 3 3 (fun i j mu => ent (rot (se3_mul (E mu) T)) i j) (fr A) /\
     vjet D p 3 (fun i mu => comp3 (trans (se3_mul (E mu) T)) i) (ft A)).
Proof.
  intros D start p T H Hz Hz'. exists (se3E start). split; [apply se3E_ok|]. destruct (fad_se3_jet D start p H Hz Hz') as (A & E & JA & JB).
  split; [exists A; exact (conj E (conj JA JB))|].
  unfold make_left_fad_se3. rewrite E. cbn [bind].
  destruct (fse_mul_jet D p 3 _ _ _ _ A (mkfse (lift_m (m3 (rot T))) (lift_v (v3 (trans T)))) JA JB (lift_m_jet D p (m3 (rot T))) (lift_v_jet D p (v3 (trans T)))) as (C & -> & JC & KC).
  exists C. split; [reflexivity|]. split.
  - eapply mjet_ext; [exact JC|]. intros i j q Hi Hj. cbn beta. unfold se3_mul, so3_mul, mm3, vm3, tr3, dot3, ent, comp3.
    three i Hi; three j Hj; cbn [sum fadd f0 ROps mel m3 v3_at rot r0 r1 r2 vx vy vz]; ring.
  - eapply vjet_ext; [exact KC|]. intros i q Hi. cbn beta. unfold se3_mul, so3_act, mv3, add3, dot3, ent, comp3.
    three i Hi; cbn [sum fadd f0 ROps mel vat m3 v3 v3_at rot trans r0 r1 r2 vx vy vz]; ring.
Qed.
Theorem C84_so2 : forall D start p T, (start + 1 <= D)%nat -> p start = 0 ->
  (exists m, make_fad_so2 D start = Ok m /\ mjet D p 2 2 (fun i j mu => el22 (so2_exp (mu start)) i j) m) /\
  (exists m, make_left_fad_so2 D T start = Ok m /\ mjet D p 2 2 (fun i j mu => el22 (so2_mul (so2_exp (mu start)) T) i j) m).
Proof.
  intros D start p T H Hz. destruct (jet_var D p start (fconst 0)) as (y & Ey & J); [lia|symmetry; exact Hz|].
  unfold make_left_fad_so2, make_fad_so2. rewrite Ey. cbn [bind]. pose proof (fso2_jet D p _ _ J) as K. split; [eexists; split; [reflexivity|exact K]|].
  destruct (mmul_jet D p 2 2 2 _ _ _ _ K (lift_m_jet D p (m2 T))) as (c & -> & Jc). exists c. split; [reflexivity|]. eapply mjet_ext; [exact Jc|].
  intros i j q Hi Hj. cbn beta. unfold so2_mul, mm2, vm2, tr2, dot2, el22, el2.
  two i Hi; two j Hj; cbn [sum fadd f0 ROps mel m2 v2_at s0 s1 ux uy]; ring.
Qed.
Theorem C84_se2 : forall D start p T, (start + 3 <= D)%nat -> three_of start p = zero3 -> exists E : (nat -> R) -> SE2,
  (forall mu, se2_exp (three_of start mu) = Ok (E mu)) /\
  (exists A, make_fad_se2 D start = Ok A /\ mjet D p 2 2 (fun i j mu => el22 (rot2 (E mu)) i j) (fr A) /\ vjet D p 2 (fun i mu => el2 (trans2 (E mu)) i) (ft A)) /\
  (exists A, make_left_fad_se2 D T start = Ok A /\ mjet D p 2 2 (fun i j mu => el22 (rot2 (se2_mul (E mu) T)) i j) (fr A) /\
     vjet D p 2 (fun i mu => el2 (trans2 (se2_mul (E mu) T)) i) (ft A)).
Proof.
  intros D start p T H Hz. exists (se2E start). split; [apply se2E_ok|]. destruct (fad_se2_jet D start p H Hz) as (A & E & JA & JB).
  split; [exists A; exact (conj E (conj JA JB))|].
  unfold make_left_fad_se2. rewrite E. cbn [bind].
  destruct (fse_mul_jet D p 2 _ _ _ _ A (mkfse (lift_m (m2 (rot2 T))) (lift_v (v2 (trans2 T)))) JA JB (lift_m_jet D p (m2 (rot2 T))) (lift_v_jet D p (v2 (trans2 T)))) as (C & -> & JC & KC).
  exists C. split; [reflexivity|]. split.
  - eapply mjet_ext; [exact JC|]. intros i j q Hi Hj. cbn beta. unfold se2_mul, so2_mul, mm2, vm2, tr2, dot2, el22, el2.
    two i Hi; two j Hj; cbn [sum fadd f0 ROps mel m2 v2_at rot2 s0 s1 ux uy]; ring.
  - eapply vjet_ext; [exact KC|]. intros i q Hi. cbn beta. unfold se2_mul, so2_act, mv2, add2, dot2, el22, el2.
    two i Hi; cbn [sum fadd f0 ROps mel vat m2 v2 v2_at rot2 trans2 s0 s1 ux uy]; ring.
Qed.
(** The usual use: the derivatives of a transformed point. Derivative number start+a of make_left_fad_se3(T, start) * x is
    generator_field(a, T x), the column a of the Jacobian that hand-written code computes. *)
Theorem C84_point_jacobian : forall D start T x, (start + 6 <= D)%nat -> exists A y, make_left_fad_se3 D T start = Ok A /\ fse_act A (lift_v (v3 x)) = Ok y /\ vlen y = 3%nat /\
  (forall i, (i < 3)%nat -> fval (vat y i) = comp3 (se3_act T x) i) /\
  forall a i, (a < 6)%nat -> (i < 3)%nat -> fad_deriv D (vat y i) (start + a) = Ok (se3_generator_field a (v4_at (mk4 (se3_act T x) 1)) i).
Proof.
  intros D start T x H. set (p := fun _ : nat => 0). assert (Hz : three_of start p = zero3) by reflexivity. assert (Hz' : three_of (start + 3) p = zero3) by reflexivity.
  destruct (fad_se3_jet D start p H Hz Hz') as (A & E & JA & JB).
  unfold make_left_fad_se3. rewrite E. cbn [bind].
  destruct (fse_mul_jet D p 3 _ _ _ _ A (mkfse (lift_m (m3 (rot T))) (lift_v (v3 (trans T)))) JA JB (lift_m_jet D p (m3 (rot T))) (lift_v_jet D p (v3 (trans T)))) as (C & -> & JC & KC).
  exists C. unfold fse_act. destruct (mv_jet D p 3 3 _ _ _ _ JC (lift_v_jet D p (v3 x))) as (w & -> & Jw). cbn [bind].
  destruct (vadd_jet D p 3 _ _ _ _ KC Jw) as (y & -> & Jy). exists y. split; [reflexivity|]. split; [reflexivity|].
  set (X := v4_at (mk4 (se3_act T x) 1)).
  assert (Y : vjet D p 3 (fun i q => Sum 4 (fun c => hom3 (se3E start q) i c * X c)) y).
  { eapply vjet_ext; [exact Jy|]. intros i q Hi. cbn beta. unfold X.
    unfold hom3, se3_act, so3_act, mv3, add3, dot3, ent, comp3. three i Hi; cbn [sum fadd f0 ROps mel vat m3 v3 v3_at v4_at top w4 rot trans r0 r1 r2 vx vy vz Nat.ltb Nat.leb]; ring. }
  clear Jy. destruct Y as [Ly Jy]. split; [exact Ly|]. split.
  - intros i Hi. rewrite (proj1 (Jy i Hi)), se3E_p by assumption. unfold X, hom3, se3_default. unfold so3_default, id3, ent, comp3.
    three i Hi; cbn [sum fadd f0 ROps v4_at top w4 rot trans r0 r1 r2 vx vy vz Nat.ltb Nat.leb]; ring.
  - intros a i Ha Hi. specialize (Jy i Hi). apply jet_dk in Jy. destruct Jy as [_ Jy]. rewrite deriv_dk by lia. f_equal.
    specialize (Jy (start + a)%nat ltac:(lia)).
    assert (P : partial (fun q => Sum 4 (fun c => hom3 (se3E start q) i c * X c)) p (start + a) (Sum 4 (fun c => se3_generator a i c * X c))).
    { assert (Q : forall c, (c < 4)%nat -> derivable_pt_lim (fun h => hom3 (se3E start (bump p (start + a) h)) i c * X c) 0 (se3_generator a i c * X c)).
      { intros c Hc. pose proof (se3E_partial start p (start + a) i c Hz Hz' ltac:(lia) Hc) as P.
        destruct (Nat.leb_spec start (start + a)); [|lia]. destruct (Nat.ltb_spec (start + a) (start + 6)); [|lia]. cbn [andb] in P. replace (start + a - start)%nat with a in P by lia.
        unfold partial in P. eapply D_eq; [apply D_mult; [exact P|apply (D_const (X c))]|]. cbn beta. ring. }
      unfold partial. cbn [sum fadd f0 ROps]. repeat apply D_plus; try (apply Q; lia). apply D_const. }
    unfold partial in *. rewrite (uniqueness_limite _ _ _ _ Jy P). symmetry. apply C59_generator_field; lia.
Qed.
(** Too few derivatives: the rotation part is written outside the array of derivatives. *)
Theorem C84_room : forall D start, ((start + 3 <= D)%nat <-> exists m, make_fad_so3 D start = Ok m) /\ ((start + 6 <= D)%nat <-> exists A, make_fad_se3 D start = Ok A) /\
  ((D < start + 3)%nat -> make_fad_so3 D start = UB) /\ ((D < start + 6)%nat -> make_fad_se3 D start = UB).
Proof.
  intros D start.
  assert (U : forall s, (D < s + 3)%nat -> make_fad_so3 D s = UB).
  { intros s Hs. unfold make_fad_so3. cbv zeta. unfold mget, mset. cbn [bind fident mrows mcols mel Nat.ltb Nat.leb Nat.eqb andb].
    destruct (Nat.le_gt_cases D s); [rewrite diff_bad by assumption; reflexivity|]. rewrite diff_good by lia. cbn [bind mrows mcols mel Nat.ltb Nat.leb Nat.eqb andb].
    destruct (Nat.le_gt_cases D (s + 1)); [rewrite diff_bad by assumption; reflexivity|]. rewrite diff_good by lia. cbn [bind mrows mcols mel Nat.ltb Nat.leb Nat.eqb andb].
    rewrite diff_bad by lia. reflexivity. }
  assert (V : (D < start + 6)%nat -> make_fad_se3 D start = UB) by (intros H; unfold make_fad_se3; rewrite U by lia; reflexivity).
  split; [|split; [|split; [apply U|exact V]]].
  - split; [intros H; destruct (fad_so3_ok D start H) as (m & E & _); eauto|]. intros (m & E). destruct (Nat.le_gt_cases (start + 3) D) as [|L]; [assumption|]. rewrite U in E by lia. discriminate.
  - split; [intros H; destruct (fad_se3_jet D start (fun _ => 0) H eq_refl eq_refl) as (m & E & _); eauto|]. intros (m & E). destruct (Nat.le_gt_cases (start + 6) D) as [|L]; [assumption|]. rewrite V in E by lia. discriminate.
Qed.
(** get_jacobian sizes its result by the template argument and its loop by the first element: columns the first element does not hold are left
    uninitialised; for F<P> (template argument 0) the loop writes outside the result; and with a dynamic number of rows it does not compile. *)
Theorem C84_jacobian_refuted : forall n D v, vlen v = n -> (0 < n)%nat ->
  (forall held, (held <= D)%nat -> exists J, get_jacobian D D held (Static n) v = Ok J /\ forall i k, (i < n)%nat -> (held <= k < D)%nat -> mel J i k = mel (mnew (F:=R) n D) i k) /\
  (forall held, (0 < held <= D)%nat -> get_jacobian 0 D held (Static n) v = UB) /\
  get_jacobian D D D Dyn v = CompileError.
Proof.
  intros n D v Hn Hp. split; [|split].
  - intros held Hh. destruct (jacobian_loop D n held D v Hn Hp Hh Hh) as (J & E & _ & _ & V). exists J. split; [exact E|]. intros i k Hi Hk. rewrite V by lia.
    destruct (Nat.ltb_spec k held); [lia|reflexivity].
  - intros held [H0 Hh]. unfold get_jacobian. rewrite vget_ok by lia. cbn [bind]. rewrite (for_step 0 held) by lia.
    destruct (get_derivative_ok D n v 0 Hn ltac:(lia)) as (d & -> & Ld & _). cbn [bind]. rewrite (for_step 0 n) by lia. rewrite vget_ok by lia. cbn [bind].
    unfold mset, mnew. cbn [mrows mcols]. destruct (0 <? n)%nat; reflexivity.
  - reflexivity.
Qed.
Print Assumptions C84_arithmetic.
Print Assumptions C84_linear_algebra.
Print Assumptions C84_extract.
Print Assumptions C84_se3.
Print Assumptions C84_se2.
Print Assumptions C84_point_jacobian.
Print Assumptions C84_jacobian_refuted.
(** (x, y) -> (x y, x + y) at (3, 2) *)
Definition fad_pair (x y : fad) : vec fad := mkvec 2 (fun i => match i with O => (x * y)%F | _ => (x + y)%F end).
Example C84_nonvacuous : exists v J, make_fad_vector 2 (mkvec 2 (fun i => match i with O => 3 | _ => 2 end)) 0 = Ok v /\
  get_jacobian 2 2 2 (Static 2) (fad_pair (vat v 0) (vat v 1)) = Ok J /\ mel J 0 0 = 2 /\ mel J 0 1 = 3 /\ mel J 1 0 = 1 /\ mel J 1 1 = 1.
Proof.
  destruct (fad_vec_ok 2 (mkvec 2 (fun i => match i with O => 3 | _ => 2 end)) 0) as (v & E & L & V). cbn [vlen vat] in *.
  destruct (jacobian_loop 2 2 2 2 (fad_pair (vat v 0) (vat v 1)) eq_refl ltac:(lia) ltac:(lia) ltac:(lia)) as (J & EJ & _ & _ & W).
  exists v, J. split; [exact E|]. split; [exact EJ|].
  pose proof (V 0%nat ltac:(lia)) as V0. pose proof (V 1%nat ltac:(lia)) as V1. cbn in V0, V1.
  rewrite !W by lia. cbn [Nat.ltb Nat.leb fad_pair vat fadd fmul FadOps]. rewrite !dk_mul, !dk_add, V0, V1. unfold dk. cbn [fdep fder fval Nat.eqb]. repeat split; ring.
Qed.
(** and the hypotheses of C84_se3 hold with room to spare *)
Example C84_nonvacuous_se3 : exists E A, (forall mu, se3_exp (six_of 1 mu) = Ok (E mu)) /\ make_left_fad_se3 8 (mkSE3 (mkM (mk3 0 (-1) 0) (mk3 1 0 0) (mk3 0 0 1)) (mk3 4 5 6)) 1 = Ok A /\
  jet 8 (fun i => INR i * 0) (fun mu => comp3 (trans (se3_mul (E mu) (mkSE3 (mkM (mk3 0 (-1) 0) (mk3 1 0 0) (mk3 0 0 1)) (mk3 4 5 6)))) 1) (vat (ft A) 1).
Proof.
  destruct (C84_se3 8 1 (fun i => INR i * 0) (mkSE3 (mkM (mk3 0 (-1) 0) (mk3 1 0 0) (mk3 0 0 1)) (mk3 4 5 6))) as (E & HE & _ & A & EA & _ & JA).
  - lia.
  - unfold three_of, zero3. f_equal; ring.
  - unfold three_of, zero3. f_equal; ring.
  - exists E, A. split; [exact HE|]. split; [exact EA|]. apply JA. lia.
Qed.
