(** * C72 C76: robust reweighting and IRLS. *)
From Coq Require Import Reals Arith Bool List Lia Lra Psatz ZArith.
From Verif Require Import Base Alg Mat SpecMat LemMat Inst RSum RDeriv ModelOps LemOps ModelObjects LemObjects ModelChol ModelWLS SpecWLS LemWLS LemWLSRun LemWLSEnergy PropWLS ModelIRLS.
Import ListNotations.
Open Scope outcome_scope.
Local Open Scope R_scope.

(** ** C72: the three functions of a reweighting class *)
(** the documentation's relations: objective is the integral of x w(x) from 0, true_scale is w(x) + x w'(x), the derivative of x w(x) *)
Definition objective_ok (w o : R -> R) : Prop := o 0 = 0 /\ forall x, derivable_pt_lim o x (x * w x).
Definition true_scale_ok (w t : R -> R) : Prop := forall x, derivable_pt_lim (fun y => y * w y) x (t x).

Lemma inv_add_pos s x : 0 < s -> 0 < s + Rabs x.
Proof. pose proof (Rabs_pos x). lra. Qed.
Lemma clog_ok x : 0 < x -> clog x = Ok (ln x).
Proof. intros H. unfold clog. assert (E : R_ltb 0 x = true) by (apply R_ltb_spec; exact H). rewrite E. reflexivity. Qed.
Theorem C72_robust1 : forall sigma, 0 < sigma -> let sd := set_sd RobustI sigma in
  exists w t o, (forall x, reweight RobustI sd x = Ok (w x) /\ true_scale RobustI sd x = Ok (t x) /\ objective RobustI sd x = Ok (o x)) /\
    (forall x, w x = 1 / (sigma + Rabs x)) /\ objective_ok w o /\ true_scale_ok w t.
Proof.
  intros s Hs sd. cbn [set_sd RobustI] in sd. subst sd.
  set (w := fun x => 1 / (s + Rabs x)). set (t := fun x => w x - Rabs x * w x * w x). set (o := fun x => Rabs x + s * ln (s * w x)).
  assert (W : forall x, 0 < w x).
  { intros x. unfold w. pose proof (inv_add_pos s x Hs). unfold Rdiv. rewrite Rmult_1_l. apply Rinv_0_lt_compat. exact H. }
  exists w, t, o. split; [|split; [|split; [split|]]].
  - intros x. pose proof (inv_add_pos s x Hs) as P. cbn [reweight true_scale objective RobustI]. unfold robust1_w. rewrite R_div_ok by lra. cbn [bind]. fold (w x).
    split; [reflexivity|]. split; [reflexivity|]. rewrite clog_ok; [reflexivity|]. pose proof (W x). nra.
  - reflexivity.
  - unfold o, w. rewrite Rabs_R0. rewrite Rplus_0_l, Rplus_0_r. replace (s * (1 / s)) with 1 by (field; lra). rewrite ln_1. ring.
  - (* objective *)
    assert (F : forall y, 0 <= y -> derivable_pt_lim (fun y => y + s * ln (s * (1 / (s + y)))) y (y * (1 / (s + y)))).
    { intros y Hy. eapply D_eq; [apply D_plus; [apply D_id|]; apply D_scal; apply D_ln|].
      - apply D_scal. apply D_div; [apply D_const|apply D_plus; [apply D_const|apply D_id]|lra].
      - assert (0 < s + y) by lra. unfold Rdiv. rewrite Rmult_1_l. apply Rmult_lt_0_compat; [lra|]. apply Rinv_0_lt_compat. lra.
      - cbn beta. field. lra. }
    intros x. destruct (Rtotal_order x 0) as [L|[->|L]].
    + eapply D_eq; [apply (D_comp Rabs (fun y => y + s * ln (s * (1 / (s + y)))) x (-1)); [apply Rabs_derive_2; exact L|apply F; apply Rabs_pos]|].
      unfold w. rewrite (Rabs_left x L). ring.
    + eapply D_eq; [apply (D_abs_flat (fun y => y + s * ln (s * (1 / (s + y)))))|ring]. eapply D_eq; [apply F; lra|ring].
    + eapply D_eq; [apply (D_comp Rabs (fun y => y + s * ln (s * (1 / (s + y)))) x 1); [apply Rabs_derive_1; exact L|apply F; apply Rabs_pos]|].
      unfold w. rewrite (Rabs_right x) by lra. ring.
  - intros x. unfold t, w. destruct (Rtotal_order x 0) as [L|[->|L]].
    + eapply D_eq; [apply D_mult; [apply D_id|]; apply D_div; [apply D_const|apply D_plus; [apply D_const|apply Rabs_derive_2; exact L]|pose proof (inv_add_pos s x Hs); lra]|].
      cbn beta. rewrite (Rabs_left x L). field. lra.
    + eapply D_eq; [apply (D_abs_mul (fun y => 1 / (s + y)))|].
      * apply derivable_continuous_pt. exists ((0 * (s + 0) - (0 + 1) * 1) / ((s + 0) * (s + 0))). apply (D_div (fun _ => 1) (fun y => s + y)); [apply D_const|apply D_plus; [apply D_const|apply D_id]|lra].
      * rewrite Rabs_R0. ring.
    + eapply D_eq; [apply D_mult; [apply D_id|]; apply D_div; [apply D_const|apply D_plus; [apply D_const|apply Rabs_derive_1; exact L]|pose proof (inv_add_pos s x Hs); lra]|].
      cbn beta. rewrite (Rabs_right x) by lra. field. lra.
Qed.
(** RobustII: weight and objective agree. Missing: true_scale, which is wrong. *)
Theorem C72_robust2_partial : forall sigma, 0 < sigma -> let sd := set_sd RobustII sigma in
  exists w o, (forall x, reweight RobustII sd x = Ok (w x) /\ objective RobustII sd x = Ok (o x)) /\ (forall x, w x = 1 / (sigma * sigma + x * x)) /\ objective_ok w o.
Proof.
  intros s Hs sd. cbn [set_sd RobustII] in sd. subst sd. assert (P : 0 < s * s) by nra.
  exists (fun x => 1 / (s * s + x * x)), (fun d => / 2 * ln (1 + d * d / (s * s))).
  assert (P2 : forall x, 0 <= x * x / (s * s)).
  { intros x. unfold Rdiv. apply Rmult_le_pos; [nra|]. left. apply Rinv_0_lt_compat. exact P. }
  split; [|split; [reflexivity|split]].
  - intros x. cbn [reweight objective RobustII]. unfold robust2_w. rewrite !R_div_ok by nra. cbn [bind]. split; [reflexivity|]. rewrite clog_ok; [reflexivity|]. pose proof (P2 x). lra.
  - replace (1 + 0 * 0 / (s * s)) with 1 by (field; lra). rewrite ln_1. ring.
  - intros x. eapply D_eq; [apply D_scal; apply D_ln; [apply D_plus; [apply D_const|]; apply D_div; [apply D_sq|apply D_const|nra]|]|].
    + cbn beta. pose proof (P2 x). lra.
    + cbn beta. field. split; [|lra]. assert (0 < s * s + x * x) by nra. nra.
Qed.
Theorem C72_robust2_refuted : forall sigma, 0 < sigma -> let sd := set_sd RobustII sigma in
  exists w t, (forall x, reweight RobustII sd x = Ok (w x) /\ true_scale RobustII sd x = Ok (t x)) /\ ~ true_scale_ok w t.
Proof.
  intros s Hs sd. cbn [set_sd RobustII] in sd. subst sd. assert (P : 0 < s * s) by nra.
  exists (fun x => 1 / (s * s + x * x)), (fun d => d - 2 * d * (1 / (s * s + d * d))). split.
  - intros x. cbn [reweight true_scale RobustII]. unfold robust2_w. rewrite !R_div_ok by nra. split; reflexivity.
  - intros K. specialize (K 0). cbn beta in K. replace (0 - 2 * 0 * (1 / (s * s + 0 * 0))) with 0 in K by ring.
    assert (T : derivable_pt_lim (fun y => y * (1 / (s * s + y * y))) 0 (1 / (s * s))).
    { eapply D_eq; [apply D_mult; [apply D_id|]; apply D_div; [apply D_const|apply D_plus; [apply D_const|apply D_sq]|nra]|]. cbn beta. field. lra. }
    pose proof (uniqueness_limite _ _ _ _ K T) as E. assert (0 < 1 / (s * s)); [|lra]. unfold Rdiv. rewrite Rmult_1_l. apply Rinv_0_lt_compat. exact P.
Qed.
(** RobustIII: weight and objective agree. Missing: true_scale, which it does not have. *)
Theorem C72_robust3_partial : forall sigma, 0 < sigma -> let sd := set_sd RobustIII sigma in
  exists w o, (forall x, reweight RobustIII sd x = Ok (w x) /\ objective RobustIII sd x = Ok (o x)) /\ (forall x, 0 < w x <= 1) /\ objective_ok w o /\ (forall x, o x < sigma * sigma / 2).
Proof.
  intros s Hs sd. cbn [set_sd RobustIII] in sd. subst sd. assert (P : 0 < s * s) by nra.
  assert (P2 : forall x, 0 <= x * x / (s * s)).
  { intros x. unfold Rdiv. apply Rmult_le_pos; [nra|]. left. apply Rinv_0_lt_compat. exact P. }
  exists (fun x => 1 / ((1 + x * x / (s * s)) * (1 + x * x / (s * s)))), (fun x => x * x / (2 * (1 + x * x / (s * s)))).
  assert (E : forall x, 1 + x * x / (s * s) = (s * s + x * x) / (s * s)) by (intros; field; lra).
  assert (PP : forall x, 0 < s * s + x * x) by (intros; nra).
  split; [|split; [|split; [split|]]].
  - intros x. cbn [reweight objective RobustIII]. rewrite R_div_ok by nra. cbn [bind]. pose proof (P2 x). rewrite !R_div_ok by nra. split; reflexivity.
  - intros x. pose proof (P2 x) as Q. set (e := x * x / (s * s)) in *. clearbody e. assert (D : 0 < (1 + e) * (1 + e)) by nra. split.
    + unfold Rdiv. rewrite Rmult_1_l. apply Rinv_0_lt_compat. exact D.
    + apply (Rmult_le_reg_r ((1 + e) * (1 + e))); [exact D|]. replace (1 / ((1 + e) * (1 + e)) * ((1 + e) * (1 + e))) with 1 by (field; nra). nra.
  - unfold Rdiv. ring.
  - intros x. eapply D_eq; [apply D_div; [apply D_sq|apply D_scal; apply D_plus; [apply D_const|]; apply D_div; [apply D_sq|apply D_const|nra]|]|].
    + cbn beta. pose proof (P2 x). lra.
    + cbn beta. specialize (PP x). field. repeat split; nra.
  - intros x. pose proof (P2 x) as Q. apply (Rmult_lt_reg_r (2 * (1 + x * x / (s * s)))); [lra|]. replace (x * x / (2 * (1 + x * x / (s * s))) * (2 * (1 + x * x / (s * s)))) with (x * x) by (specialize (PP x); field; repeat split; nra).
    replace (s * s / 2 * (2 * (1 + x * x / (s * s)))) with (s * s + x * x) by (field; lra). nra.
Qed.
Theorem C72_robust3_refuted : forall dynamic junk m J s s', irls_add RobustIII dynamic junk m J s <> Ok s'.
Proof.
  intros dynamic junk m J s s'. unfold irls_add. destruct (same_size _ _); cbn [bind]; try discriminate.
  destruct (reweight RobustIII (i_sd s) m); cbn [bind]; try discriminate.
Qed.
(** ILinear: weight and true_scale agree. Missing: objective, which is twice the documented integral. *)
Theorem C72_linear_partial : forall sigma, let sd := set_sd ILinear sigma in
  exists w t, (forall x, reweight ILinear sd x = Ok (w x) /\ true_scale ILinear sd x = Ok (t x)) /\ (forall x, w x = 1) /\ true_scale_ok w t.
Proof.
  intros s sd. exists (fun _ => 1), (fun _ => 1). split; [intros; split; reflexivity|]. split; [reflexivity|].
  intros x. apply (D_ext (fun y => y)); [apply D_id|]. intros; cbn beta; ring.
Qed.
Theorem C72_linear_refuted : forall sigma, let sd := set_sd ILinear sigma in
  exists w o, (forall x, reweight ILinear sd x = Ok (w x) /\ objective ILinear sd x = Ok (o x)) /\ ~ objective_ok w o /\ objective_ok w (fun x => o x / 2).
Proof.
  intros s sd. exists (fun _ => 1), (fun d => d * d). split; [intros; split; reflexivity|]. split.
  - intros [_ K]. specialize (K 1). pose proof (uniqueness_limite _ _ _ _ K (D_sq 1)). lra.
  - split; [field|]. intros x. eapply D_eq; [apply D_div; [apply D_sq|apply D_const|lra]|]. cbn beta. field.
Qed.

(** ** C76: IRLS *)
(** what the documentation promises: the normal equations weighted by w(m), and the total of the objectives *)
Definition weighted (w : R -> R) (ms : list (R * vec R)) : list (wop R) := map (fun p => Meas (fst p) (snd p) (w (fst p))) ms.
Definition total (o : R -> R) (ms : list (R * vec R)) : R := fold_right (fun p acc => o (fst p) + acc) 0 ms.
Lemma outer_ok n (T : mat R) (v : nat -> R) : mrows T = n -> mcols T = n ->
  exists T', bind (mmul (as_col (mkvec n v)) (as_row (mkvec n v))) (fun p => madd_assign T p) = Ok T' /\ mat_is T' n n (fun i j => mel T i j + v i * v j).
Proof.
  intros H1 H2. destruct (@mmul_ok R ROps (as_col (mkvec n v)) (as_row (mkvec n v)) eq_refl) as (p & E & P1 & P2 & P3). rewrite E. cbn [bind].
  cbn [as_col as_row mrows mcols vlen mel vat] in *.
  destruct (@madd_assign_ok R ROps T p ltac:(congruence) ltac:(congruence)) as (T' & E' & T1 & T2 & T3). exists T'. split; [exact E'|]. rewrite H1, H2 in *. split; [exact T1|]. split; [exact T2|].
  intros i j Hi Hj. rewrite T3, P3 by auto. cbn [sum fadd fmul f0 ROps]. ring.
Qed.
Theorem C76_accumulates : forall rb sd (w t o : R -> R) junk n ms, (forall x, reweight rb sd x = Ok (w x) /\ true_scale rb sd x = Ok (t x) /\ objective rb sd x = Ok (o x)) ->
  Forall (fun p => vlen (snd p) = n) ms ->
  exists s0 s w0 w1, irls_new sd n = Ok s0 /\ irls_run rb false junk ms s0 = Ok s /\ wls_new n = Ok w0 /\ wls_run (weighted w ms) w0 = Ok w1 /\
    i_wls s = w1 /\ i_res s = total o ms.
Proof.
  intros rb sd w t o junk n ms Hf HJ.
  assert (G : forall ms s H g, Forall (fun p => vlen (snd p) = n) ms -> acc n (i_wls s) H g -> mrows (i_true s) = n -> mcols (i_true s) = n -> i_sd s = sd ->
    exists s' w1, irls_run rb false junk ms s = Ok s' /\ wls_run (weighted w ms) (i_wls s) = Ok w1 /\ i_wls s' = w1 /\ i_res s' = i_res s + total o ms).
  { clear ms HJ. induction ms as [|[m J] ms IH]; intros s H g HJ HA T1 T2 Hs.
    - exists s, (i_wls s). split; [reflexivity|]. split; [reflexivity|]. split; [reflexivity|]. cbn [total fold_right]. ring.
    - pose proof (Forall_inv HJ) as HJ1. pose proof (Forall_inv_tail HJ) as HJ2. cbn [snd] in HJ1. cbn [irls_run weighted map fst snd wls_run wls_call]. fold (weighted w ms).
      unfold irls_add. rewrite T1, same_size_eq by (symmetry; exact HJ1). cbn [bind]. destruct (Hf m) as (F1 & F2 & F3). rewrite Hs, F1. cbn [bind]. rewrite F2. cbn [bind]. rewrite F3. cbn [bind].
      destruct (@add_adds R ROps RLaws n m J (w m) HJ1 (i_wls s) H g HA) as (w' & E & A' & _). rewrite E. cbn [bind scaledm].
      destruct (outer_ok n (i_true s) junk T1 T2) as (T' & ET & TT1 & TT2 & _).
      unfold scaledm. cbn [bind]. apply bind_ok in ET. destruct ET as (p & Ep & ET). rewrite Ep. cbn [bind]. rewrite ET. cbn [bind].
      destruct (IH (mkirls sd w' (i_res s + o m) T') _ _ HJ2 A' TT1 TT2 eq_refl) as (s' & w1 & E1 & E2 & E3 & E4). cbn [i_wls i_res] in E2, E4.
      exists s', w1. split; [exact E1|]. split; [exact E2|]. split; [exact E3|]. rewrite E4. cbn [total fold_right fst]. fold (total o ms). ring. }
  destruct (@new_acc R ROps n) as (w0 & E0 & A0).
  destruct (mfill_ok (mnew n n) (fun _ _ => (f0 : R))) as (T & ET & T1 & T2 & _). cbn [mrows mcols mnew] in T1, T2. fold (zeros_mat (mnew n n) : outcome (mat R)) in ET.
  destruct (G ms (mkirls sd w0 0 T) _ _ HJ A0 T1 T2 eq_refl) as (s & w1 & E1 & E2 & E3 & E4). cbn [i_wls i_res] in *.
  exists (mkirls sd w0 0 T), s, w0, w1. unfold irls_new. rewrite E0. cbn [bind]. rewrite ET. cbn [bind]. repeat split; try assumption. rewrite E4. ring.
Qed.

(** merging two IRLS objects loses the second one's residual *)
Theorem C76_join_refuted : forall rb sd (w t o : R -> R) junk n ms ms', (forall x, reweight rb sd x = Ok (w x) /\ true_scale rb sd x = Ok (t x) /\ objective rb sd x = Ok (o x)) ->
  Forall (fun p => vlen (snd p) = n) ms -> Forall (fun p => vlen (snd p) = n) ms' -> total o ms' <> 0 ->
  forall s0 s s' j, irls_new sd n = Ok s0 -> irls_run rb false junk ms s0 = Ok s -> irls_run rb false junk ms' s0 = Ok s' -> irls_join s s' = Ok j ->
  i_res j <> total o (ms ++ ms').
Proof.
  intros rb sd w t o junk n ms ms' Hf H1 H2 Hn s0 s s' j E0 E1 E2 E.
  destruct (C76_accumulates rb sd w t o junk n ms Hf H1) as (a0 & a & _ & _ & F0 & F1 & _ & _ & _ & F2).
  rewrite E0 in F0. injection F0 as <-. rewrite E1 in F1. injection F1 as <-.
  assert (K : i_res j = i_res s). { unfold irls_join in E. apply bind_ok in E. destruct E as (w1 & _ & E). apply bind_ok in E. destruct E as (t1 & _ & E). injection E as <-. reflexivity. }
  rewrite K, F2. assert (A : total o (ms ++ ms') = total o ms + total o ms').
  { clear. induction ms as [|p ms IH]; cbn [app total fold_right]; [unfold total; ring|]. fold (total o (ms ++ ms')) (total o ms). rewrite IH. ring. }
  rewrite A. lra.
Qed.
(** ... while the normal equations are merged. Missing: the residual. *)
Theorem C76_join_partial : forall rb sd (w t o : R -> R) junk n ms ms', (forall x, reweight rb sd x = Ok (w x) /\ true_scale rb sd x = Ok (t x) /\ objective rb sd x = Ok (o x)) ->
  Forall (fun p => vlen (snd p) = n) ms -> Forall (fun p => vlen (snd p) = n) ms' ->
  forall s0 s s' all, irls_new sd n = Ok s0 -> irls_run rb false junk ms s0 = Ok s -> irls_run rb false junk ms' s0 = Ok s' -> irls_run rb false junk (ms ++ ms') s0 = Ok all ->
  forall j, irls_join s s' = Ok j -> agree_wls n (wls_compute (i_wls j)) (wls_compute (i_wls all)).
Proof.
  intros rb sd w t o junk n ms ms' Hf H1 H2 s0 s s' all E0 E1 E2 E3 j E.
  assert (K : wls_join (i_wls s) (i_wls s') = Ok (i_wls j)).
  { unfold irls_join in E. apply bind_ok in E. destruct E as (w1 & E4 & E). apply bind_ok in E. destruct E as (t1 & _ & E). injection E as <-. exact E4. }
  assert (H3 : Forall (fun p => vlen (snd p) = n) (ms ++ ms')) by (apply Forall_app; split; assumption).
  destruct (C76_accumulates rb sd w t o junk n ms Hf H1) as (a0 & a & w0 & wa & F0 & F1 & F2 & F3 & F4 & _).
  rewrite E0 in F0. injection F0 as <-. rewrite E1 in F1. injection F1 as <-.
  destruct (C76_accumulates rb sd w t o junk n ms' Hf H2) as (b0 & b & w0' & wb & G0 & G1 & G2 & G3 & G4 & _).
  rewrite E0 in G0. injection G0 as <-. rewrite E2 in G1. injection G1 as <-. rewrite F2 in G2. injection G2 as <-.
  destruct (C76_accumulates rb sd w t o junk n (ms ++ ms') Hf H3) as (c0 & c & w0' & wc & K0 & K1 & K2 & K3 & K4 & _).
  rewrite E0 in K0. injection K0 as <-. rewrite E3 in K1. injection K1 as <-. rewrite F2 in K2. injection K2 as <-.
  unfold weighted in K3. rewrite map_app in K3. fold (weighted w ms) (weighted w ms') in K3.
  assert (OK : forall l, Forall (fun p => vlen (snd p) = n) l -> Forall (op_ok n) (weighted w l)).
  { intros l Hl. unfold weighted. apply Forall_map. eapply Forall_impl; [|exact Hl]. intros p Hp. exact Hp. }
  destruct (C45_join n (weighted w ms) (weighted w ms') w0 wa wb wc (OK ms H1) (OK ms' H2) F2 F3 G3 K3) as (j' & EJ & AG).
  rewrite <- F4, <- G4, K in EJ. injection EJ as <-. rewrite K4. exact AG.
Qed.
Theorem C76_clear : forall n s H g, acc n (i_wls s) H g -> mrows (i_true s) = n -> mcols (i_true s) = n ->
  exists c, irls_clear s = Ok c /\ i_res c = 0 /\ mat_is (i_true c) n n (fun _ _ => 0) /\ wls_clear (i_wls s) = Ok (i_wls c) /\ i_sd c = i_sd s.
Proof.
  intros n s H g HA T1 T2. destruct (@clear_acc R ROps n (i_wls s) H g HA) as (w & E & _).
  destruct (mfill_ok (i_true s) (fun _ _ => (f0 : R))) as (T & ET & TT). rewrite T1, T2 in TT.
  exists (mkirls (i_sd s) w 0 T). unfold irls_clear. rewrite E. cbn [bind]. unfold zeros_mat. rewrite ET. cbn [bind]. split; [reflexivity|]. split; [reflexivity|]. split; [exact TT|]. split; reflexivity.
Qed.
(** the "true" information matrix: what a static-size add_mJ adds is whatever was in memory, whatever the measurement *)
Theorem C76_true_C_inv_refuted : forall rb sd (w t o : R -> R) n s H g m J, (forall x, reweight rb sd x = Ok (w x) /\ true_scale rb sd x = Ok (t x) /\ objective rb sd x = Ok (o x)) ->
  (1 <= n)%nat -> acc n (i_wls s) H g -> mrows (i_true s) = n -> mcols (i_true s) = n -> i_sd s = sd -> vlen J = n ->
  forall value, 0 <= value -> exists junk s', irls_add rb false junk m J s = Ok s' /\ mel (i_true s') 0%nat 0%nat = mel (i_true s) 0%nat 0%nat + value.
Proof.
  intros rb sd w t o n s H g m J Hf Hn HA T1 T2 Hs HJ value Hv. exists (fun _ => sqrt value).
  unfold irls_add. rewrite T1, same_size_eq by (symmetry; exact HJ). cbn [bind]. destruct (Hf m) as (F1 & F2 & F3). rewrite Hs, F1. cbn [bind]. rewrite F2. cbn [bind]. rewrite F3. cbn [bind].
  destruct (@add_adds R ROps RLaws n m J (w m) HJ (i_wls s) H g HA) as (w' & E & A' & _). rewrite E. cbn [bind].
  destruct (outer_ok n (i_true s) (fun _ => sqrt value) T1 T2) as (T' & ET & _ & _ & TT). unfold scaledm. cbn [bind]. apply bind_ok in ET. destruct ET as (p & Ep & ET). rewrite Ep. cbn [bind]. rewrite ET. cbn [bind].
  eexists. split; [reflexivity|]. cbn [i_true]. rewrite TT by lia. rewrite sqrt_sqrt by exact Hv. reflexivity.
Qed.
Lemma trunc_small x : Rabs x < 1 -> trunc x = 0%Z.
Proof.
  intros Hx. assert (K : forall y, 0 <= y < 1 -> Int_part y = 0%Z).
  { intros y Hy. destruct (base_Int_part y) as [B1 B2]. assert (IZR (Int_part y) < 1) by lra. assert (-1 < IZR (Int_part y)) by lra. apply lt_IZR in H, H0. lia. }
  unfold trunc. apply Rabs_def2 in Hx. destruct (R_ltb x 0) eqn:E.
  - apply R_ltb_spec in E. rewrite K by lra. reflexivity.
  - apply R_ltb_false in E. apply K. lra.
Qed.
(** with a dynamic size every measurement stops the program: the vector is constructed with m * true_scale as its size *)
Theorem C76_dynamic_refuted : forall sigma n s H g m J junk, 0 < sigma -> (1 <= n)%nat -> acc n (i_wls s) H g -> mrows (i_true s) = n -> mcols (i_true s) = n -> i_sd s = set_sd RobustI sigma -> vlen J = n ->
  irls_add RobustI true junk m J s = Abort DSizeMismatch.
Proof.
  intros sg n s H g m J junk Hsg Hn HA T1 T2 Hs HJ.
  destruct (C72_robust1 sg Hsg) as (w & t & o & Hf & Hw & _ & _). cbn zeta in Hf. rewrite <- Hs in Hf.
  assert (Ht : t m = w m - Rabs m * w m * w m).
  { destruct (Hf m) as (F1 & F2 & _). cbn [reweight true_scale RobustI] in F1, F2. rewrite F1 in F2. cbn [bind] in F2. injection F2 as <-. reflexivity. }
  unfold irls_add. rewrite T1, same_size_eq by (symmetry; exact HJ). cbn [bind]. destruct (Hf m) as (F1 & F2 & F3). rewrite F1. cbn [bind]. rewrite F2. cbn [bind]. rewrite F3. cbn [bind].
  destruct (@add_adds R ROps RLaws n m J (w m) HJ (i_wls s) H g HA) as (w' & E & A' & _). rewrite E. cbn [bind].
  assert (TR : trunc (m * t m) = 0%Z).
  { apply trunc_small. rewrite Ht, Hw. pose proof (Rabs_pos m) as P. set (a := Rabs m) in *.
    assert (X : m * (1 / (sg + a) - a * (1 / (sg + a)) * (1 / (sg + a))) = m * (sg / ((sg + a) * (sg + a)))) by (field; lra). rewrite X, Rabs_mult. fold a.
    assert (Y : 0 <= sg / ((sg + a) * (sg + a))) by (unfold Rdiv; apply Rmult_le_pos; [lra|]; left; apply Rinv_0_lt_compat; nra).
    rewrite (Rabs_right (sg / _)) by lra. apply (Rmult_lt_reg_r ((sg + a) * (sg + a))); [nra|]. replace (a * (sg / ((sg + a) * (sg + a))) * ((sg + a) * (sg + a))) with (a * sg) by (field; lra). nra. }
  unfold scaledm. rewrite TR. cbn [Z.ltb Z.compare bind Z.to_nat].
  destruct (@mmul_ok R ROps (as_col (mkvec 0 junk)) (as_row (mkvec 0 junk)) eq_refl) as (p & Ep & P1 & P2 & _). rewrite Ep. cbn [bind]. cbn [as_col as_row mrows mcols vlen] in P1, P2.
  unfold madd_assign. rewrite T1, P1. rewrite same_size_bad by lia. reflexivity.
Qed.
Print Assumptions C72_robust1.
Print Assumptions C72_robust2_partial.
Print Assumptions C72_robust2_refuted.
Print Assumptions C72_robust3_partial.
Print Assumptions C72_robust3_refuted.
Print Assumptions C72_linear_partial.
Print Assumptions C72_linear_refuted.
Print Assumptions C76_accumulates.
Print Assumptions C76_join_refuted.
Print Assumptions C76_join_partial.
Print Assumptions C76_clear.
Print Assumptions C76_true_C_inv_refuted.
Print Assumptions C76_dynamic_refuted.
Example C76_nonvacuous : exists ms : list (R * vec R), Forall (fun p => vlen (snd p) = 2%nat) ms /\ total (fun x => x * x) ms = 5 /\ length ms = 2%nat.
Proof. exists [(1, mkvec 2 (fun _ => 1)); (2, mkvec 2 (fun i => INR i))]. split; [repeat constructor|]. split; [unfold total; cbn; ring|reflexivity]. Qed.
