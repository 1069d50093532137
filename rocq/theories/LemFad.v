(** * Lemmas about forward automatic differentiation. *)
From Coq Require Import Reals Lra Lia Arith Bool FunctionalExtensionality.
From Verif Require Import Base Alg Inst Mat SpecMat LemMat LemOps ModelOps RDeriv RSum ModelLie ModelSE ModelFad SpecFad.
Open Scope outcome_scope.
Local Open Scope R_scope.

Lemma bump_0 p k : bump p k 0 = p.
Proof. apply functional_extensionality. intros j. unfold bump. destruct (j =? k)%nat; ring. Qed.
Lemma deriv_dk D x k : (k < D)%nat -> fad_deriv D x k = Ok (dk x k).
Proof. intros H. unfold fad_deriv, dk. destruct (fdep x); [|reflexivity]. destruct (Nat.ltb_spec k D); [reflexivity|lia]. Qed.
Lemma jet_dk D p f x : jet D p f x <-> fval x = f p /\ forall k, (k < D)%nat -> partial f p k (dk x k).
Proof.
  unfold jet. split; intros [E H]; (split; [exact E|]); intros k Hk.
  - destruct (H k Hk) as (l & El & Hl). rewrite deriv_dk in El by exact Hk. injection El as <-. exact Hl.
  - exists (dk x k). split; [apply deriv_dk; exact Hk|apply H; exact Hk].
Qed.
Lemma jet_const D p c : jet D p (fun _ => c) (fconst c).
Proof. apply jet_dk. split; [reflexivity|]. intros k _. exact (D_const c 0). Qed.
Lemma dk_dep x k : fdep x = false -> dk x k = 0.
Proof. unfold dk. intros ->. reflexivity. Qed.
Lemma dk_add x y k : dk (fad_add x y) k = dk x k + dk y k.
Proof. unfold fad_add. unfold dk at 1. cbn [fdep fder]. destruct (fdep x) eqn:Ex, (fdep y) eqn:Ey; cbn [orb]; try reflexivity. rewrite !dk_dep by assumption. ring. Qed.
Lemma dk_sub x y k : dk (fad_sub x y) k = dk x k - dk y k.
Proof. unfold fad_sub. unfold dk at 1. cbn [fdep fder]. destruct (fdep x) eqn:Ex, (fdep y) eqn:Ey; cbn [orb]; try reflexivity. rewrite !dk_dep by assumption. ring. Qed.
Lemma dk_mul x y k : dk (fad_mul x y) k = dk x k * fval y + fval x * dk y k.
Proof. unfold fad_mul. unfold dk at 1. cbn [fdep fder]. destruct (fdep x) eqn:Ex, (fdep y) eqn:Ey; cbn [orb]; try reflexivity. rewrite !dk_dep by assumption. ring. Qed.
Lemma dk_opp x k : dk (fad_opp x) k = - dk x k.
Proof. unfold fad_opp. unfold dk at 1. cbn [fdep fder]. destruct (fdep x) eqn:Ex; try reflexivity. rewrite !dk_dep by assumption. ring. Qed.
Lemma dk_div x y k : dk (fad_div x y) k = (dk x k - fval x / fval y * dk y k) / fval y.
Proof. unfold fad_div. unfold dk at 1. cbn [fdep fder]. destruct (fdep x) eqn:Ex, (fdep y) eqn:Ey; cbn [orb]; try reflexivity. rewrite !dk_dep by assumption. unfold Rdiv. ring. Qed.
Lemma dk_cos x k : dk (fad_cos x) k = - sin (fval x) * dk x k.
Proof. unfold fad_cos. unfold dk at 1. cbn [fdep fder]. destruct (fdep x) eqn:Ex; try reflexivity. rewrite !dk_dep by assumption. ring. Qed.
Lemma dk_sin x k : dk (fad_sin x) k = cos (fval x) * dk x k.
Proof. unfold fad_sin. unfold dk at 1. cbn [fdep fder]. destruct (fdep x) eqn:Ex; try reflexivity. rewrite !dk_dep by assumption. ring. Qed.
Ltac jets := rewrite !jet_dk; unfold partial; intros; repeat match goal with H : _ /\ _ |- _ => destruct H end; split; [cbn; congruence|];
  intros k Hk; repeat match goal with H : forall k : nat, (k < _)%nat -> _ |- _ => specialize (H k Hk) end.
Lemma jet_add D p f g x y : jet D p f x -> jet D p g y -> jet D p (fun q => f q + g q) (fad_add x y).
Proof. jets. eapply D_eq; [apply D_plus; eassumption|]. rewrite dk_add. reflexivity. Qed.
Lemma jet_sub D p f g x y : jet D p f x -> jet D p g y -> jet D p (fun q => f q - g q) (fad_sub x y).
Proof. jets. eapply D_eq; [apply D_minus; eassumption|]. rewrite dk_sub. reflexivity. Qed.
Lemma jet_mul D p f g x y : jet D p f x -> jet D p g y -> jet D p (fun q => f q * g q) (fad_mul x y).
Proof. jets. eapply D_eq; [apply D_mult; eassumption|]. cbn beta. rewrite bump_0, dk_mul. congruence. Qed.
Lemma jet_opp D p f x : jet D p f x -> jet D p (fun q => - f q) (fad_opp x).
Proof. jets. eapply D_eq; [apply D_opp; eassumption|]. rewrite dk_opp. reflexivity. Qed.
Lemma jet_div D p f g x y : jet D p f x -> jet D p g y -> g p <> 0 -> jet D p (fun q => f q / g q) (fad_div x y).
Proof.
  jets. eapply D_eq; [apply D_div; [eassumption|eassumption|cbn beta; rewrite bump_0; assumption]|]. cbn beta. rewrite bump_0, dk_div.
  replace (fval x) with (f p) by congruence. replace (fval y) with (g p) by congruence. field. assumption.
Qed.
Lemma jet_cos D p f x : jet D p f x -> jet D p (fun q => cos (f q)) (fad_cos x).
Proof. jets. eapply D_eq; [apply (D_comp _ cos); [eassumption|apply derivable_pt_lim_cos]|]. cbn beta. rewrite bump_0, dk_cos. congruence. Qed.
Lemma jet_sin D p f x : jet D p f x -> jet D p (fun q => sin (f q)) (fad_sin x).
Proof. jets. eapply D_eq; [apply (D_comp _ sin); [eassumption|apply derivable_pt_lim_sin]|]. cbn beta. rewrite bump_0, dk_sin. congruence. Qed.
Lemma jet_ext D p f g x : jet D p f x -> (forall q, f q = g q) -> jet D p g x.
Proof.
  rewrite !jet_dk. intros [E H] Eg. split; [rewrite E; apply Eg|]. intros k Hk. eapply D_ext; [apply H; exact Hk|]. intros h. apply Eg.
Qed.
Lemma D_near f g x l d : 0 < d -> (forall y, Rabs (y - x) < d -> f y = g y) -> derivable_pt_lim f x l -> derivable_pt_lim g x l.
Proof.
  intros Hd E H e He. destruct (H e He) as [d1 H1]. assert (Hm : 0 < Rmin d1 d) by (apply Rmin_pos; [apply cond_pos|exact Hd]). exists (mkposreal _ Hm).
  intros h Hh Hl. cbn in Hl. pose proof (Rmin_l d1 d). pose proof (Rmin_r d1 d). rewrite <- !E; [apply H1; [exact Hh|lra]| |].
  - unfold Rminus. rewrite Rplus_opp_r, Rabs_R0. exact Hd.
  - replace (x + h - x) with h by ring. lra.
Qed.
Lemma jet_near D p f g x d : 0 < d -> f p = g p -> (forall k h, (k < D)%nat -> Rabs h < d -> f (bump p k h) = g (bump p k h)) -> jet D p f x -> jet D p g x.
Proof.
  intros Hd E0 E. rewrite !jet_dk. intros [Ev H]. split; [congruence|]. intros k Hk. eapply D_near; [exact Hd| |exact (H k Hk)].
  intros y Hy. rewrite Rminus_0_r in Hy. apply E; assumption.
Qed.
Lemma jet_abs D p f x : jet D p f x -> f p <> 0 -> jet D p (fun q => Rabs (f q)) (fad_abs x).
Proof.
  intros J Hn. pose proof J as J'. apply jet_dk in J'. destruct J' as [E H]. rewrite jet_dk. unfold fad_abs. rewrite E.
  destruct (R_ltb (f p) 0) eqn:B.
  - apply R_ltb_spec in B. split; [cbn; rewrite E, Rabs_left by exact B; reflexivity|]. intros k Hk. rewrite dk_opp.
    unfold partial. eapply D_eq; [apply (D_comp _ Rabs); [apply (H k Hk)|cbn beta; rewrite bump_0; apply Rabs_derive_2; exact B]|ring].
  - apply R_ltb_false in B. split; [cbn; rewrite E, Rabs_pos_eq by lra; reflexivity|]. intros k Hk.
    unfold partial. eapply D_eq; [apply (D_comp _ Rabs); [apply (H k Hk)|cbn beta; rewrite bump_0; apply Rabs_derive_1; lra]|ring].
Qed.
Lemma jet_sum D p n (f : nat -> (nat -> R) -> R) (x : nat -> fad) : (forall i, (i < n)%nat -> jet D p (f i) (x i)) ->
  jet D p (fun q => Sum n (fun i => f i q)) (sum n x).
Proof.
  induction n as [|n IH]; intros H; cbn [sum].
  - apply jet_const.
  - apply jet_add; [apply IH; intros i Hi; apply H; lia|apply H; lia].
Qed.
Lemma mmul_jet D p n l m f g a b : mjet D p n l f a -> mjet D p l m g b ->
  exists c, mmul a b = Ok c /\ mjet D p n m (fun i j q => Sum l (fun k => f i k q * g k j q)) c.
Proof.
  intros (R1 & C1 & J1) (R2 & C2 & J2). destruct (mmul_ok a b) as (c & E & Rc & Cc & Ec); [congruence|]. exists c. split; [exact E|].
  split; [congruence|]. split; [congruence|]. intros i j Hi Hj. rewrite Ec by congruence. rewrite C1. apply (jet_sum D p l (fun k q => f i k q * g k j q)). intros k Hk.
  apply jet_mul; [apply J1|apply J2]; assumption.
Qed.
Lemma mv_jet D p n l f g a v : mjet D p n l f a -> vjet D p l g v ->
  exists c, mv a v = Ok c /\ vjet D p n (fun i q => Sum l (fun k => f i k q * g k q)) c.
Proof.
  intros (R1 & C1 & J1) (R2 & J2). destruct (mv_ok a v) as (c & E & Rc & Ec); [congruence|]. exists c. split; [exact E|].
  split; [congruence|]. intros i Hi. rewrite Ec by congruence. rewrite C1. apply (jet_sum D p l (fun k q => f i k q * g k q)). intros k Hk.
  apply jet_mul; [apply J1|apply J2]; assumption.
Qed.
Lemma vadd_jet D p n f g a b : vjet D p n f a -> vjet D p n g b -> exists c, vadd a b = Ok c /\ vjet D p n (fun i q => f i q + g i q) c.
Proof.
  intros (R1 & J1) (R2 & J2). destruct (vadd_ok a b) as (c & E & Rc & Ec); [congruence|]. exists c. split; [exact E|].
  split; [congruence|]. intros i Hi. rewrite Ec by congruence. apply jet_add; [apply J1|apply J2]; assumption.
Qed.
Lemma dot_jet D p n f g a b : vjet D p n f a -> vjet D p n g b -> exists c, dot a b = Ok c /\ jet D p (fun q => Sum n (fun i => f i q * g i q)) c.
Proof.
  intros (R1 & J1) (R2 & J2). eexists. split; [apply dot_ok; congruence|]. rewrite R1. apply (jet_sum D p n (fun i q => f i q * g i q)). intros i Hi.
  apply jet_mul; [apply J1|apply J2]; assumption.
Qed.
Lemma lift_v_jet D p v : vjet D p (vlen v) (fun i _ => vat v i) (lift_v v).
Proof. split; [reflexivity|]. intros i _. apply jet_const. Qed.
Lemma lift_m_jet D p m : mjet D p (mrows m) (mcols m) (fun i j _ => mel m i j) (lift_m m).
Proof. split; [reflexivity|]. split; [reflexivity|]. intros i j _ _. apply jet_const. Qed.
(** a variable *)
Lemma jet_var D p k x : (k < D)%nat -> fval x = p k -> exists y, fad_diff D k x = Ok y /\ jet D p (fun q => q k) y.
Proof.
  intros Hk E. unfold fad_diff. destruct (Nat.ltb_spec k D); [|lia]. eexists. split; [reflexivity|]. apply jet_dk. split; [exact E|].
  intros j Hj. unfold partial, bump, dk. cbn [fdep fder]. destruct (Nat.eqb_spec j k).
  - subst j. rewrite Nat.eqb_refl. eapply D_eq; [apply D_plus; [apply D_const|apply D_id]|ring].
  - destruct (Nat.eqb_spec k j); [lia|]. apply D_const.
Qed.
Lemma diff_bad D k x : (D <= k)%nat -> fad_diff D k x = UB.
Proof. intros H. unfold fad_diff. destruct (Nat.ltb_spec k D); [lia|reflexivity]. Qed.
