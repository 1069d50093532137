(** * Golden section search in floating point. *)
From Coq Require Import Reals ZArith Bool List Lra Lia Psatz.
From Flocq Require Import Core.
From Verif Require Import Base Alg Inst SpecOpt SpecFl LemFl ModelOpt LemOpt ExFl ExFlSO3 ExFlEig ModelFlGolden LemFlGolden.
Import ListNotations.
Open Scope outcome_scope.
Local Open Scope R_scope.

(** without rounding this is the model of C65 *)
Theorem C103_model_is_exact_model : forall fuel f a b c fb maxit tol, fl_golden_section_search fuel (fun x => x) f a b c fb maxit tol = golden_section_search fuel f a b c fb maxit tol.
Proof.
  intros. unfold fl_golden_section_search, golden_section_search. change (fl_golden_init (fun x => x) f a b c fb) with (golden_init f a b c fb).
  assert (L : forall s, fl_golden_loop fuel (fun x => x) f maxit tol s = golden_loop fuel f maxit tol s).
  { induction fuel as [|k IH]; intros s; [reflexivity|]. cbn [fl_golden_loop golden_loop]. change (fl_golden_continue (fun x => x) maxit tol s) with (golden_continue maxit tol s). destruct (golden_continue maxit tol s); [|reflexivity]. rewrite IH. reflexivity. }
  rewrite L. reflexivity.
Qed.
(** the point returned is the best of b and of all the points where the function was evaluated, and these all lie between a and c *)
Theorem C103_best_probe : forall u rnd, rounding u rnd -> monotone rnd -> u <= 1 / 1000 -> forall fuel f a b c maxit tol x fx calls, rnd a = a -> rnd b = b -> rnd c = c -> a <= b <= c ->
  fl_golden_section_search fuel rnd f a b c (f b) maxit tol = Ok (x, fx, calls) -> best_probe f a c b calls x fx.
Proof.
  intros u rnd RN MON U fuel f a b c maxit tol x fx calls Fa Fb Fc H E. unfold fl_golden_section_search in E. destruct (fl_golden_loop fuel rnd f maxit tol _) as [s| | | | |] eqn:L; try discriminate. cbn [bind] in E.
  destruct (loop_inv rnd f (good rnd f a b c) maxit tol (step_good u rnd RN MON U f a b c) fuel _ s (init_good u rnd RN MON U f a b c Fa Fb Fc H) L) as ((_ & (O1 & O2 & O3) & (V1 & V2) & Ha & Hc & B & X1 & X2 & P) & _).
  assert (W : forall z, In z (b :: calls) -> z = b \/ In z calls) by (intros z [K|K]; [left; symmetry; exact K|right; exact K]).
  destruct (R_ltb (gs_f1 s) (gs_f2 s)) eqn:T; [apply R_ltb_spec in T|apply R_ltb_false in T]; injection E as <- <- <-; unfold best_probe.
  - pose proof (Rmin_left (gs_f1 s) (gs_f2 s) ltac:(lra)) as MR. rewrite MR in B. split; [lra|]. split; [exact V1|]. split; [exact B|]. split; [apply W; exact X1|]. intros p Hp. destruct (P p Hp) as [P1 P2]. rewrite MR in P2. split; assumption.
  - pose proof (Rmin_right (gs_f1 s) (gs_f2 s) ltac:(lra)) as MR. rewrite MR in B. split; [lra|]. split; [exact V2|]. split; [exact B|]. split; [apply W; exact X2|]. intros p Hp. destruct (P p Hp) as [P1 P2]. rewrite MR in P2. split; assumption.
Qed.
(** for a bracket that does not contain zero and a tolerance of at least 100 roundings the search ends *)
Theorem C103_terminates : forall u rnd, rounding u rnd -> monotone rnd -> u <= 1 / 1000 -> forall f a b c maxit tol, rnd a = a -> rnd b = b -> rnd c = c -> a <= b <= c -> 0 < a \/ c < 0 -> 0 < tol -> 100 * u <= tol ->
  exists fuel x fx calls, fl_golden_section_search fuel rnd f a b c (f b) maxit tol = Ok (x, fx, calls).
Proof.
  intros u rnd RN MON U f a b c maxit tol Fa Fb Fc H Z Ht Tu. set (s0 := fl_golden_init rnd f a b c (f b)). set (m := Rmin (Rabs a) (Rabs c)).
  assert (Pm : 0 < m) by (unfold m; apply Rmin_glb_lt; apply Rabs_pos_lt; lra).
  assert (Bd : forall y, a <= y <= c -> m <= Rabs y).
  { intros y Hy. unfold m. destruct Z as [Z|Z]; [rewrite !Rabs_right by lra|rewrite !Rabs_left by lra]; [pose proof (Rmin_l a c)|pose proof (Rmin_r (- a) (- c))]; lra. }
  assert (Ptm : 0 < tol * m) by (apply Rmult_lt_0_compat; assumption).
  destruct (Pow_x_infinity (10 / 9) ltac:(rewrite Rabs_right; lra) (wid s0 / (tol * m))) as [N HN]. specialize (HN N (le_n N)). rewrite Rabs_right in HN by (apply Rle_ge, pow_le; lra).
  destruct (ends u rnd RN MON U f maxit tol Ht Tu m Pm a b c Bd N s0 (init_good u rnd RN MON U f a b c Fa Fb Fc H)) as (fuel & r & E).
  { apply Rge_le in HN. apply (Rmult_le_compat_r (tol * m)) in HN; [|lra]. unfold Rdiv in HN. rewrite Rmult_assoc, Rinv_l, Rmult_1_r in HN by lra. exact HN. }
  unfold fl_golden_section_search. fold s0. destruct (R_ltb (gs_f1 r) (gs_f2 r)) eqn:T; exists fuel; do 3 eexists; rewrite E; cbn [bind]; rewrite T; reflexivity.
Qed.
(** if the function is unimodal and was never evaluated twice at one point (b counts as one evaluation), the minimum is found to within the tolerance *)
Theorem C103_finds_minimum : forall u rnd, rounding u rnd -> monotone rnd -> u <= 1 / 1000 -> forall fuel f a b m c maxit tol x fx calls, rnd a = a -> rnd b = b -> rnd c = c -> a <= b <= c -> unimodal f a m c -> (1 < maxit)%Z -> 0 <= tol ->
  fl_golden_section_search fuel rnd f a b c (f b) maxit tol = Ok (x, fx, calls) -> NoDup (b :: calls) -> Rabs (x - m) <= 201 / 100 * tol * Rmax (Rabs a) (Rabs c).
Proof.
  intros u rnd RN MON U fuel f a b m c maxit tol x fx calls Fa Fb Fc H UM Hm Ht E. unfold fl_golden_section_search in E. destruct (fl_golden_loop fuel rnd f maxit tol _) as [s| | | | |] eqn:L; try discriminate. cbn [bind] in E.
  destruct UM as (Um & U1 & U2).
  set (K := fun s : gs => good rnd f a b c s /\ (NoDup (b :: gs_calls s) -> gs_x1 s < gs_x2 s /\ gs_a s <= m <= gs_c s)).
  assert (K0 : K (fl_golden_init rnd f a b c (f b))).
  { split; [apply (init_good u); assumption|]. pose proof (init_good u rnd RN MON U f a b c Fa Fb Fc H) as (_ & (_ & O & _) & _). unfold fl_golden_init in *. destruct (R_ltb _ _); cbn [gs_a gs_x1 gs_x2 gs_c gs_calls] in *; intros ND; (split; [|lra]); apply NoDup_cons_iff in ND as [ND _]; cbn [In] in ND; destruct O as [O|O]; try exact O; exfalso; apply ND; left; congruence. }
  assert (KS : forall s, K s -> K (fl_golden_step rnd f s)).
  { intros t (G & KN). pose proof (step_good u rnd RN MON U f a b c t G) as G'. split; [exact G'|]. destruct G' as (_ & (_ & O' & _) & _). destruct G as (_ & (O1 & O2 & O3) & (V1 & V2) & Ba & Bc & _ & X1 & X2 & _). unfold fl_golden_step in *.
    assert (ND' : forall y, NoDup (b :: y :: gs_calls t) -> NoDup (b :: gs_calls t) /\ ~ In y (b :: gs_calls t)).
    { intros y ND. apply NoDup_cons_iff in ND as [N1 N2]. apply NoDup_cons_iff in N2 as [N2 N3]. split; [constructor; [intros I; apply N1; right; exact I|exact N3]|]. intros [I|I]; [apply N1; left; symmetry; exact I|exact (N2 I)]. }
    destruct (R_ltb (gs_f2 t) (gs_f1 t)) eqn:T; [apply R_ltb_spec in T|apply R_ltb_false in T]; cbn [gs_a gs_x1 gs_x2 gs_c gs_calls] in *; intros ND; apply ND' in ND as [ND NI]; destruct (KN ND) as [XX MM].
    - split; [destruct O' as [O'|O']; [exact O'|exfalso; apply NI; rewrite <- O'; exact X2]|]. split; [|lra]. apply Rnot_lt_le. intros Q. pose proof (U2 (gs_x1 t) (gs_x2 t)). lra.
    - split; [destruct O' as [O'|O']; [exact O'|exfalso; apply NI; rewrite O'; exact X1]|]. split; [lra|]. apply Rnot_lt_le. intros Q. pose proof (U1 (gs_x1 t) (gs_x2 t)). lra. }
  destruct (loop_inv rnd f K maxit tol KS fuel _ s K0 L) as ((G & KN) & C). intros ND.
  assert (CL : calls = gs_calls s /\ (x = gs_x1 s \/ x = gs_x2 s)) by (destruct (R_ltb (gs_f1 s) (gs_f2 s)); injection E as <- _ <-; auto). destruct CL as [-> XS]. destruct (KN ND) as [_ MM]. destruct G as (_ & (O1 & O2 & O3) & _ & Ba & Bc & _).
  assert (AX : forall z, a <= z <= c -> Rabs z <= Rmax (Rabs a) (Rabs c)). { intros z Hz. pose proof (Rmax_l (Rabs a) (Rabs c)). pose proof (Rmax_r (Rabs a) (Rabs c)). unfold Rabs in *. repeat destruct (Rcase_abs _); lra. }
  pose proof (AX (gs_x1 s) ltac:(lra)) as A1. pose proof (AX (gs_x2 s) ltac:(lra)) as A2. set (M := Rmax (Rabs a) (Rabs c)) in *.
  unfold fl_golden_continue in C. apply andb_false_iff in C as [C|C]; [|apply Z.ltb_ge in C; lia]. apply R_ltb_false in C. pose proof (rnd_up u rnd RN U (gs_c s - gs_a s) ltac:(lra)) as W. rewrite (Rabs_right (rnd _)) in C by lra.
  pose proof (Rabs_pos (gs_x1 s)). pose proof (Rabs_pos (gs_x2 s)). pose proof (rnd_up u rnd RN U (Rabs (gs_x2 s) + Rabs (gs_x1 s)) ltac:(lra)) as S1. set (q := rnd (Rabs (gs_x2 s) + Rabs (gs_x1 s))) in *.
  assert (T1 : tol * q <= tol * (1001 / 1000 * (2 * M))) by (apply Rmult_le_compat_l; lra). assert (T0 : 0 <= tol * q) by (apply Rmult_le_pos; lra). pose proof (rnd_up u rnd RN U (tol * q) T0) as S2. assert (0 <= tol * M) by (apply Rmult_le_pos; lra). apply Rabs_le. destruct XS as [->| ->]; lra.
Qed.
(** ** In double precision *)
Local Instance p53 : Prec_gt_0 53 := eq_refl.
Lemma rnd64_mono : monotone rnd64.
Proof. intros x y H. apply round_le; [typeclasses eauto|typeclasses eauto|exact H]. Qed.
Lemma u64_small : / 2 * bpow radix2 (-52) <= 1 / 1000.
Proof. pose proof u64_rng. lra. Qed.
Notation e := (/ 2 ^ 52).
Lemma e_rng : 0 < e < / 10 ^ 15. Proof. lra. Qed.
Lemma b52 : bpow radix2 52 = 2 ^ 52. Proof. cbn. lra. Qed.
Lemma bm52 : bpow radix2 (-52) = e. Proof. cbn. lra. Qed.
(** 1 + 2^-52 moved by less than half of 2^-52 rounds back *)
Lemma back d : Rabs d < / 2 * e -> rnd64 (1 + e + d) = 1 + e.
Proof.
  intros H. rewrite (rnd64_1_2 _ (2 ^ 52 + 1)).
  - rewrite bm52, plus_IZR. change (IZR (2 ^ 52)) with (IZR 4503599627370496). field.
  - pose proof (Rle_abs d). pose proof (Rle_abs (- d)) as K. rewrite Rabs_Ropp in K. lra.
  - rewrite b52, plus_IZR. change (IZR (2 ^ 52)) with (IZR 4503599627370496). replace ((1 + e + d) * 2 ^ 52 - (4503599627370496 + 1)) with (d * 2 ^ 52) by field. rewrite Rabs_mult, (Rabs_right (2 ^ 52)) by lra. lra.
Qed.
Lemma e_step : 36 / 100 * e <= rnd64 (fl_g rnd64 * rnd64 e) <= 41 / 100 * e.
Proof. apply (step_len _ _ rnd64_rounding u64_small). lra. Qed.
Lemma b_is : rnd64 (1 + e) = 1 + e. Proof. exact_ (2 ^ 52 + 1)%Z (-52)%Z. Qed.
Lemma c_is : rnd64 (1 + 2 * e) = 1 + 2 * e. Proof. exact_ (2 ^ 52 + 2)%Z (-52)%Z. Qed.
Lemma e_is : rnd64 e = e. Proof. exact_ 1%Z (-52)%Z. Qed.
Lemma one_is : rnd64 1 = 1. Proof. exact_ 1%Z 0%Z. Qed.
Lemma two_is : rnd64 2 = 2. Proof. exact_ 2%Z 0%Z. Qed.
Lemma left_back : rnd64 (1 + e - rnd64 (fl_g rnd64 * rnd64 (1 + e - 1))) = 1 + e.
Proof. replace (1 + e - 1) with e by ring. pose proof e_step. apply back. rewrite Rabs_Ropp, Rabs_right by lra. lra. Qed.
Lemma right_back : rnd64 (1 + e + rnd64 (fl_g rnd64 * rnd64 (1 + 2 * e - (1 + e)))) = 1 + e.
Proof. replace (1 + 2 * e - (1 + e)) with e by ring. pose proof e_step. apply back. rewrite Rabs_right by lra. lra. Qed.
(** for a tolerance below a quarter of the machine precision the search need not end, whatever the function and maxiterations are: with a = 1 and the two doubles after it, it stays at the second *)
Theorem C103_tiny_tolerance_refuted : forall f maxit tol, (1 < maxit)%Z -> tol <= / 2 ^ 54 -> let a := 1 in let b := 1 + / 2 ^ 52 in let c := 1 + 2 * / 2 ^ 52 in
  rnd64 a = a /\ rnd64 b = b /\ rnd64 c = c /\ forall fuel, fl_golden_section_search fuel rnd64 f a b c (f b) maxit tol = OutOfFuel.
Proof.
  intros f maxit tol Hm Ht a b c. split; [exact one_is|]. split; [exact b_is|]. split; [exact c_is|]. intros fuel. unfold fl_golden_section_search.
  assert (I0 : fl_golden_init rnd64 f a b c (f b) = mkgs 1 (1 + e) (1 + e) c (f (1 + e)) (f (1 + e)) (1 + e :: nil)).
  { unfold fl_golden_init, a, b, c. replace (1 + 2 * e - (1 + e)) with e by ring. replace (1 + e - 1) with e by ring. rewrite e_is. assert (T : R_ltb (Rabs e) (Rabs e) = false) by (apply R_ltb_false; lra). rewrite T. pose proof right_back as RB. replace (1 + 2 * e - (1 + e)) with e in RB by ring. rewrite e_is in RB. cbv zeta. rewrite RB. reflexivity. }
  rewrite I0. set (I := fun s : gs => gs_a s = 1 /\ gs_x1 s = 1 + e /\ gs_x2 s = 1 + e /\ (gs_c s = 1 + e \/ gs_c s = 1 + 2 * e) /\ gs_f1 s = f (1 + e) /\ gs_f2 s = f (1 + e)).
  assert (LF : forall n s, I s -> fl_golden_loop n rnd64 f maxit tol s = OutOfFuel).
  { induction n as [|k IH]; intros s (E1 & E2 & E3 & E4 & E5 & E6); cbn [fl_golden_loop]; [reflexivity|].
    assert (CT : fl_golden_continue rnd64 maxit tol s = true).
    { unfold fl_golden_continue. apply andb_true_iff. split; [|apply Z.ltb_lt; exact Hm]. apply R_ltb_spec. rewrite E1, E2, E3. pose proof (rnd_up _ _ rnd64_rounding u64_small) as RU. rewrite (Rabs_right (1 + e)) by lra. pose proof (RU (1 + e + (1 + e)) ltac:(lra)) as A. set (q := rnd64 (1 + e + (1 + e))) in *.
      assert (Q : rnd64 (tol * q) <= 6 / 10 * e).
      { apply Rle_trans with (rnd64 (/ 2 ^ 54 * (21 / 10))); [apply rnd64_mono; apply Rle_trans with (/ 2 ^ 54 * q); [apply Rmult_le_compat_r; lra|apply Rmult_le_compat_l; lra]|]. pose proof (RU (/ 2 ^ 54 * (21 / 10)) ltac:(lra)). lra. }
      assert (W : 99 / 100 * e <= Rabs (rnd64 (gs_c s - 1))). { apply Rle_trans with (rnd64 (gs_c s - 1)); [|apply Rle_abs]. pose proof (RU (gs_c s - 1) ltac:(destruct E4; lra)). destruct E4; lra. } lra. }
    rewrite CT. apply IH. unfold fl_golden_step. rewrite E5, E6. assert (T : R_ltb (f (1 + e)) (f (1 + e)) = false) by (apply R_ltb_false; lra). rewrite T. unfold I. cbn [gs_a gs_x1 gs_x2 gs_c gs_f1 gs_f2]. cbv zeta. rewrite E1, E2, E3, left_back. repeat split; auto. }
  rewrite LF; [reflexivity|]. unfold I. cbn [gs_a gs_x1 gs_x2 gs_c gs_f1 gs_f2]. repeat split. right. reflexivity.
Qed.
(** without the condition that no point is used twice the minimum can be lost, at every useful tolerance: b is the double after a, the first new point rounds to b, equal values make the search keep the left part *)
Theorem C103_minimum_lost_refuted : forall maxit tol, (1 < maxit)%Z -> / 2 ^ 52 <= tol <= 1 / 10 -> let f := fun x => Rabs (x - 11 / 10) in let a := 1 in let b := 1 + / 2 ^ 52 in let c := 2 in
  rnd64 a = a /\ rnd64 b = b /\ rnd64 c = c /\ unimodal f a (11 / 10) c /\ exists fuel fx calls, fl_golden_section_search fuel rnd64 f a b c (f b) maxit tol = Ok (b, fx, calls) /\ 9 / 100 <= Rabs (b - 11 / 10).
Proof.
  intros maxit tol Hm Ht f a b c. split; [exact one_is|]. split; [exact b_is|]. split; [exact two_is|].
  assert (FL : forall x, x <= 11 / 10 -> f x = 11 / 10 - x) by (intros x Hx; unfold f; rewrite Rabs_left1 by lra; ring).
  assert (FR : forall x, 11 / 10 <= x -> f x = x - 11 / 10) by (intros x Hx; unfold f; rewrite Rabs_right by lra; ring).
  split. { split; [unfold a, c; lra|]. split; intros x y H1 H2; [rewrite !FL by lra|rewrite !FR by lra]; lra. }
  pose proof (rnd_up _ _ rnd64_rounding u64_small) as RU.
  set (y := rnd64 (b + rnd64 (fl_g rnd64 * rnd64 (c - b)))).
  assert (Y : 135 / 100 <= y <= 142 / 100). { pose proof (step_len _ _ rnd64_rounding u64_small (c - b) ltac:(unfold b, c; lra)) as L. unfold y. pose proof (RU (b + rnd64 (fl_g rnd64 * rnd64 (c - b))) ltac:(unfold b in *; lra)). unfold b, c in *. lra. }
  assert (CT : forall (s : gs) w, gs_x1 s = 1 + e -> 1 <= gs_x2 s <= 142 / 100 -> gs_c s - gs_a s = w -> 34 / 100 <= w -> (gs_x2 s <= 101 / 100 \/ 9 / 10 <= w) -> fl_golden_continue rnd64 maxit tol s = true).
  { intros s w E1 E2 E3 E4 E5. unfold fl_golden_continue. apply andb_true_iff. split; [|apply Z.ltb_lt; exact Hm]. apply R_ltb_spec. rewrite E3, E1. rewrite (Rabs_right (gs_x2 s)), (Rabs_right (1 + e)) by lra. pose proof (RU (gs_x2 s + (1 + e)) ltac:(lra)) as A. set (q := rnd64 (gs_x2 s + (1 + e))) in *. assert (T0 : 0 <= tol * q) by (apply Rmult_le_pos; lra). assert (T1 : tol * q <= 1 / 10 * q) by (apply Rmult_le_compat_r; lra). pose proof (RU _ T0). pose proof (RU w ltac:(lra)). rewrite Rabs_right by lra. lra. }
  set (s0 := mkgs 1 (1 + e) y 2 (f (1 + e)) (f y) (y :: nil)). set (s1 := mkgs 1 (1 + e) (1 + e) y (f (1 + e)) (f (1 + e)) (1 + e :: y :: nil)). set (s2 := mkgs 1 (1 + e) (1 + e) (1 + e) (f (1 + e)) (f (1 + e)) (1 + e :: 1 + e :: y :: nil)).
  assert (I0 : fl_golden_init rnd64 f a b c (f b) = s0).
  { unfold fl_golden_init. assert (T : R_ltb (Rabs (rnd64 (c - b))) (Rabs (rnd64 (b - a))) = false). { apply R_ltb_false. unfold a, b, c. replace (1 + e - 1) with e by ring. rewrite e_is. pose proof (RU (2 - (1 + e)) ltac:(lra)). rewrite !Rabs_right by lra. lra. } rewrite T. reflexivity. }
  assert (N0 : fl_golden_step rnd64 f s0 = s1).
  { unfold fl_golden_step, s0, s1. cbn [gs_a gs_x1 gs_x2 gs_c gs_f1 gs_f2 gs_calls]. assert (T : R_ltb (f y) (f (1 + e)) = false) by (apply R_ltb_false; rewrite (FL (1 + e)), (FR y) by lra; lra). rewrite T. cbv zeta. rewrite left_back. reflexivity. }
  assert (N1 : fl_golden_step rnd64 f s1 = s2).
  { unfold fl_golden_step, s1, s2. cbn [gs_a gs_x1 gs_x2 gs_c gs_f1 gs_f2 gs_calls]. assert (T : R_ltb (f (1 + e)) (f (1 + e)) = false) by (apply R_ltb_false; lra). rewrite T. cbv zeta. rewrite left_back. reflexivity. }
  assert (C0 : fl_golden_continue rnd64 maxit tol s0 = true) by (apply (CT s0 1); unfold s0; cbn [gs_a gs_x1 gs_x2 gs_c]; lra).
  assert (C1 : fl_golden_continue rnd64 maxit tol s1 = true) by (apply (CT s1 (y - 1)); unfold s1; cbn [gs_a gs_x1 gs_x2 gs_c]; lra).
  assert (C2 : fl_golden_continue rnd64 maxit tol s2 = false).
  { unfold fl_golden_continue. apply andb_false_iff. left. apply R_ltb_false. unfold s2. cbn [gs_a gs_x1 gs_x2 gs_c]. replace (1 + e - 1) with e by ring. rewrite e_is, !Rabs_right by lra. pose proof (RU (1 + e + (1 + e)) ltac:(lra)) as A. set (q := rnd64 (1 + e + (1 + e))) in *. assert (T1 : e * q <= tol * q) by (apply Rmult_le_compat_r; lra). assert (T2 : e * (19 / 10) <= e * q) by (apply Rmult_le_compat_l; lra). pose proof (RU (tol * q) ltac:(lra)). lra. }
  exists 3%nat, (f (1 + e)), (gs_calls s2). split; [|unfold b; rewrite Rabs_left by lra; lra].
  unfold fl_golden_section_search. rewrite I0. cbn [fl_golden_loop]. rewrite C0, N0, C1, N1, C2. cbn [bind]. unfold s2. cbn [gs_x1 gs_x2 gs_f1 gs_f2 gs_calls]. assert (T : R_ltb (f (1 + e)) (f (1 + e)) = false) by (apply R_ltb_false; lra). rewrite T. reflexivity.
Qed.
(** the hypotheses are met: |x - 2| on 1, 2, 3 in double precision with tolerance 2/5, two evaluations *)
Example C103_case : let f := fun x => Rabs (x - 2) in rounding (/ 2 * bpow radix2 (-52)) rnd64 /\ monotone rnd64 /\ / 2 * bpow radix2 (-52) <= 1 / 1000 /\ 100 * (/ 2 * bpow radix2 (-52)) <= 2 / 5 /\ unimodal f 1 2 3 /\
  exists x1 x2, fl_golden_section_search 2 rnd64 f 1 2 3 (f 2) 50 (2 / 5) = Ok (2, 0, x1 :: x2 :: nil) /\ NoDup (2 :: x1 :: x2 :: nil).
Proof.
  intros f. split; [exact rnd64_rounding|]. split; [exact rnd64_mono|]. split; [exact u64_small|]. split; [pose proof u64_rng; lra|].
  assert (FL : forall x, x <= 2 -> f x = 2 - x) by (intros x Hx; unfold f; rewrite Rabs_left1 by lra; ring).
  assert (FR : forall x, 2 <= x -> f x = x - 2) by (intros x Hx; unfold f; rewrite Rabs_right by lra; ring).
  split. { split; [lra|]. split; intros x y H1 H2; [rewrite !FL by lra|rewrite !FR by lra]; lra. }
  pose proof (rnd_up _ _ rnd64_rounding u64_small) as RU.
  assert (RT : forall x, 1 <= x <= 8 -> 999999 / 1000000 * x <= rnd64 x <= 1000001 / 1000000 * x).
  { intros x Hx. destruct rnd64_rounding as (U0 & EE & _). specialize (EE x). rewrite (Rabs_right x) in EE by lra. pose proof u64_rng as UR. assert (UX : / 2 * bpow radix2 (-52) * x <= 1 / 1000000 * x) by (apply Rmult_le_compat_r; lra). pose proof (Rle_abs (rnd64 x - x)). pose proof (Rle_abs (- (rnd64 x - x))) as K. rewrite Rabs_Ropp in K. lra. }
  pose proof (step_len _ _ rnd64_rounding u64_small 1 ltac:(lra)) as L. rewrite one_is in L. set (h := rnd64 (fl_g rnd64 * 1)) in *.
  pose proof (RT (2 + h) ltac:(lra)) as Y2. pose proof (RT (2 - h) ltac:(lra)) as Y1. exists (rnd64 (2 - h)), (rnd64 (2 + h)).
  assert (I0 : fl_golden_init rnd64 f 1 2 3 (f 2) = mkgs 1 2 (rnd64 (2 + h)) 3 (f 2) (f (rnd64 (2 + h))) (rnd64 (2 + h) :: nil)).
  { unfold fl_golden_init. replace (3 - 2) with 1 by ring. replace (2 - 1) with 1 by ring. rewrite one_is. assert (T : R_ltb (Rabs 1) (Rabs 1) = false) by (apply R_ltb_false; lra). rewrite T. reflexivity. }
  set (y1 := rnd64 (2 - h)) in *. set (y2 := rnd64 (2 + h)) in *.
  assert (N0 : fl_golden_step rnd64 f (mkgs 1 2 y2 3 (f 2) (f y2) (y2 :: nil)) = mkgs 1 y1 2 y2 (f y1) (f 2) (y1 :: y2 :: nil)).
  { unfold fl_golden_step. cbn [gs_a gs_x1 gs_x2 gs_c gs_f1 gs_f2 gs_calls]. assert (T : R_ltb (f y2) (f 2) = false) by (apply R_ltb_false; rewrite (FL 2), (FR y2) by lra; lra). rewrite T. cbv zeta. replace (2 - 1) with 1 by ring. rewrite one_is. reflexivity. }
  assert (C0 : fl_golden_continue rnd64 50 (2 / 5) (mkgs 1 2 y2 3 (f 2) (f y2) (y2 :: nil)) = true).
  { unfold fl_golden_continue. apply andb_true_iff. split; [|reflexivity]. apply R_ltb_spec. cbn [gs_a gs_x1 gs_x2 gs_c]. replace (3 - 1) with 2 by ring. rewrite two_is, !Rabs_right by lra. pose proof (RT (y2 + 2) ltac:(lra)) as A. pose proof (RT (2 / 5 * rnd64 (y2 + 2)) ltac:(lra)). lra. }
  assert (C1 : fl_golden_continue rnd64 50 (2 / 5) (mkgs 1 y1 2 y2 (f y1) (f 2) (y1 :: y2 :: nil)) = false).
  { unfold fl_golden_continue. apply andb_false_iff. left. apply R_ltb_false. cbn [gs_a gs_x1 gs_x2 gs_c]. rewrite (Rabs_right y1), (Rabs_right 2) by lra. pose proof (RT (2 + y1) ltac:(lra)) as A. pose proof (RT (2 / 5 * rnd64 (2 + y1)) ltac:(lra)). pose proof (RT (y2 - 1) ltac:(lra)). rewrite Rabs_right by lra. lra. }
  split.
  - unfold fl_golden_section_search. rewrite I0. cbn [fl_golden_loop]. rewrite C0, N0, C1. cbn [bind gs_x1 gs_x2 gs_f1 gs_f2 gs_calls]. assert (T : R_ltb (f y1) (f 2) = false) by (apply R_ltb_false; rewrite (FL 2), (FL y1) by lra; lra). rewrite T. rewrite (FL 2) by lra. replace (2 - 2) with 0 by ring. reflexivity.
  - constructor; [intros [I|[I|[]]]; lra|]. constructor; [intros [I|[]]; lra|]. constructor; [intros []|constructor].
Qed.
