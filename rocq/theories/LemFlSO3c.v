(** * exp in floating point. *)
From Coq Require Import Reals Lra Lia Psatz.
From Verif Require Import Base Alg Inst ModelLie SpecLie LemLie LemSO3 LemSO3b SpecFlSO3 LemFro RSum ModelFl SpecFl LemFl LemFlChol ModelFlSO3 LemFlSO3.
Open Scope outcome_scope.
Local Open Scope R_scope.

Lemma rodrigues_dist w A B A' B' e1 e2 : Rabs (A - A') * len3 w <= e1 -> Rabs (B - B') * (len3 w * len3 w) <= e2 ->
  dist (rodrigues w A B) (rodrigues w A' B') <= 2 * (e1 + e2).
Proof.
  intros H1 H2. pose proof (len3_nonneg w) as L.
  assert (P1 : 0 <= Rabs (A - A') * len3 w) by (apply Rmult_le_pos; [apply Rabs_pos|exact L]).
  assert (P2 : 0 <= Rabs (B - B') * (len3 w * len3 w)) by (apply Rmult_le_pos; [apply Rabs_pos|nra]).
  unfold dist. apply sq_le; [lra|]. rewrite fro_sq.
  replace (ip (subM (rodrigues w A B) (rodrigues w A' B')) (subM (rodrigues w A B) (rodrigues w A' B')))
    with (2 * ((A - A') * (A - A')) * dot3 w w + 2 * ((B - B') * (B - B')) * (dot3 w w * dot3 w w)) by (clear; unfold ip, subM, rodrigues; dv; lie_unfold; ring).
  assert (Q : forall x, x * x = Rabs x * Rabs x) by (intros; rewrite <- Rabs_mult, Rabs_right; [reflexivity|apply Rle_ge, Rle_0_sqr]).
  rewrite (Q (A - A')), (Q (B - B')), <- len3_sq. set (p := Rabs (A - A')) in *. set (q := Rabs (B - B')) in *. set (l := len3 w) in *.
  replace (2 * (p * p) * (l * l) + 2 * (q * q) * (l * l * (l * l))) with (2 * ((p * l) * (p * l)) + 2 * ((q * (l * l)) * (q * (l * l)))) by ring.
  set (x := p * l) in *. set (y := q * (l * l)) in *. nra.
Qed.
Lemma fro_entries m e : (forall i j, Rabs (ent m i j) <= e) -> fro m <= 3 * e.
Proof.
  intros H. assert (0 <= e) by (pose proof (H 0 0)%nat as G; pose proof (Rabs_pos (ent m 0 0)); lra). apply sq_le; [lra|]. rewrite fro_sq. unfold ip.
  assert (Q : forall i j, ent m i j * ent m i j <= e * e). { intros i j. specialize (H i j). apply Rabs_le_between in H. nra. }
  pose proof (Q 0 0)%nat. pose proof (Q 0 1)%nat. pose proof (Q 0 2)%nat. pose proof (Q 1 0)%nat. pose proof (Q 1 1)%nat. pose proof (Q 1 2)%nat.
  pose proof (Q 2 0)%nat. pose proof (Q 2 1)%nat. pose proof (Q 2 2)%nat. unfold ent, comp3, dot3 in *. lra.
Qed.
Lemma exp3_scaled w k : w <> zero3 -> 0 < k ->
  exp3 (scale3 k w) = rodrigues w (sin (k * len3 w) / len3 w) ((1 - cos (k * len3 w)) / (len3 w * len3 w)).
Proof.
  intros W K. pose proof (len3_pos w W) as L. assert (Lk : len3 (scale3 k w) = k * len3 w) by (rewrite len3_sc, Rabs_right by lra; reflexivity).
  assert (W' : scale3 k w <> zero3). { intros E. rewrite E, len3_0 in Lk. nra. }
  rewrite (exp3_rodrigues _ W'), Lk, rodrigues_scale. f_equal; field; split; lra.
Qed.

Section S.
Variables (u : R) (rnd : R -> R).
Hypothesis RN : rounding u rnd.
Hypothesis U : u <= 1 / 1000.
Notation ur := (u_rng u rnd RN).

Lemma fac_num k c : (k <= 15)%nat -> fac u k c -> Rabs (c - 1) <= 102 / 100 * INR k * u.
Proof. intros K F. eapply Rle_trans; [apply fac_err; [apply ur|exact F]|]. apply (bwd_num u rnd RN U k K). Qed.

Lemma fl_rodrigues_err w A B : Rabs A * len3 w <= 11 / 10 -> Rabs B * (len3 w * len3 w) <= 21 / 10 ->
  dist (fl_rodrigues rnd w A B) (rodrigues w A B) <= 30 * u.
Proof.
  intros HA HB. pose proof ur as Hu. set (l := len3 w) in *. pose proof (len3_nonneg w) as L. fold l in L.
  destruct (comp_len w) as (X & Y & Z). fold l in X, Y, Z.
  pose proof (len3_sq w) as SQ. fold l in SQ. unfold dot3 in SQ.
  (* diagonal *)
  assert (Dg : forall p q, p * p + q * q <= l * l -> Rabs (rnd (1 - rnd (B * rnd (rnd (p * p) + rnd (q * q)))) - (1 - B * (p * p + q * q))) <= 10 * u).
  { intros p q H. destruct (rnd_near u rnd RN (p * p)) as (c1 & N1 & E1). destruct (rnd_near u rnd RN (q * q)) as (c2 & N2 & E2). rewrite E1, E2.
    assert (exists c, fac u 1 c /\ p * p * c1 + q * q * c2 = (p * p + q * q) * c) as (c & Fc & ->).
    { destruct (Req_dec (p * p + q * q) 0) as [Z0|Z0].
      - exists 1. split; [apply (fac_le u 0); [exact Hu|lia|apply fac_1; exact Hu]|]. assert (p = 0) by nra. assert (q = 0) by nra. subst. ring.
      - exists ((p * p * c1 + q * q * c2) / (p * p + q * q)). split; [|field; exact Z0]. apply (near_fac u rnd RN U). destruct N1, N2. pose proof (Rle_0_sqr p). pose proof (Rle_0_sqr q). unfold Rsqr in *.
        split; apply (Rmult_le_reg_r (p * p + q * q)); try lra; unfold Rdiv; rewrite ?Rmult_assoc, ?Rinv_l, ?Rmult_1_r by exact Z0; nra. }
    set (z := p * p + q * q) in *. destruct (rnd_fac u rnd RN (z * c)) as (d & Fd & ->). destruct (rnd_fac u rnd RN (B * (z * c * d))) as (e & Fe & ->).
    pose proof (fac_num 3 _ ltac:(lia) (fac_mul u 2 1 _ _ Hu (fac_mul u 1 1 _ _ Hu Fc Fd) Fe)) as K. replace (INR 3) with 3 in K by (cbn; lra).
    replace (B * (z * c * d) * e) with (B * z * (c * d * e)) by ring. set (f := c * d * e) in *.
    assert (Bz : Rabs (B * z) <= 21 / 10).
    { rewrite Rabs_mult. assert (0 <= z) by (unfold z; nra). rewrite (Rabs_right z) by lra. pose proof (Rabs_pos B). nra. }
    pose proof (rnd_err u rnd RN (1 - B * z * f)) as E. set (r := rnd (1 - B * z * f)) in *.
    assert (G : Rabs (B * z * f - B * z) <= 21 / 10 * (102 / 100 * 3 * u)).
    { replace (B * z * f - B * z) with (B * z * (f - 1)) by ring. rewrite Rabs_mult. apply Rmult_le_compat; try apply Rabs_pos; assumption. }
    apply Rabs_le_between in Bz, G. assert (Rabs (1 - B * z * f) <= 32 / 10) by (apply Rabs_le_between; lra).
    assert (u * Rabs (1 - B * z * f) <= u * (32 / 10)) by (apply Rmult_le_compat_l; lra). assert (E' : Rabs (r - (1 - B * z * f)) <= u * (32 / 10)) by lra.
    apply Rabs_le_between in E'. apply Rabs_le_between. lra. }
  (* off the diagonal *)
  assert (Ob : forall p q, Rabs p <= l -> Rabs q <= l -> Rabs (rnd (B * rnd (p * q)) - B * (p * q)) <= 44 / 10 * u /\ Rabs (B * (p * q)) <= 21 / 10).
  { intros p q P Q. assert (Bz : Rabs (B * (p * q)) <= 21 / 10).
    { rewrite !Rabs_mult. pose proof (Rabs_pos p). pose proof (Rabs_pos q). pose proof (Rabs_pos B). assert (Rabs p * Rabs q <= l * l) by nra. nra. }
    split; [|exact Bz]. destruct (rnd_fac u rnd RN (p * q)) as (c & Fc & ->). destruct (rnd_fac u rnd RN (B * (p * q * c))) as (e & Fe & ->).
    pose proof (fac_num 2 _ ltac:(lia) (fac_mul u 1 1 _ _ Hu Fc Fe)) as K. replace (INR 2) with 2 in K by (cbn; lra).
    replace (B * (p * q * c) * e - B * (p * q)) with (B * (p * q) * (c * e - 1)) by ring. rewrite Rabs_mult.
    apply (Rle_trans _ (21 / 10 * (102 / 100 * 2 * u))); [apply Rmult_le_compat; try apply Rabs_pos; assumption|lra]. }
  assert (Oa : forall r, Rabs r <= l -> Rabs (rnd (A * r) - A * r) <= 11 / 10 * u /\ Rabs (A * r) <= 11 / 10).
  { intros r P. assert (Rabs (A * r) <= 11 / 10) by (rewrite Rabs_mult; pose proof (Rabs_pos r); pose proof (Rabs_pos A); nra). split; [|assumption].
    eapply Rle_trans; [apply (rnd_err u rnd RN)|]. nra. }
  assert (Op : forall p q r, Rabs p <= l -> Rabs q <= l -> Rabs r <= l -> Rabs (rnd (rnd (B * rnd (p * q)) + rnd (A * r)) - (B * (p * q) + A * r)) <= 10 * u).
  { intros p q r P Q V. destruct (Ob p q P Q) as (b1 & b2). destruct (Oa r V) as (a1 & a2). pose proof (rnd_err u rnd RN (rnd (B * rnd (p * q)) + rnd (A * r))) as E.
    set (b := rnd (B * rnd (p * q))) in *. set (a := rnd (A * r)) in *. apply Rabs_le_between in b1, b2, a1, a2.
    assert (Rabs (b + a) <= 33 / 10) by (apply Rabs_le_between; lra). assert (u * Rabs (b + a) <= u * (33 / 10)) by (apply Rmult_le_compat_l; lra).
    assert (E' : Rabs (rnd (b + a) - (b + a)) <= u * (33 / 10)) by lra. apply Rabs_le_between in E'. apply Rabs_le_between. lra. }
  assert (Om : forall p q r, Rabs p <= l -> Rabs q <= l -> Rabs r <= l -> Rabs (rnd (rnd (B * rnd (p * q)) - rnd (A * r)) - (B * (p * q) - A * r)) <= 10 * u).
  { intros p q r P Q V. destruct (Ob p q P Q) as (b1 & b2). destruct (Oa r V) as (a1 & a2). pose proof (rnd_err u rnd RN (rnd (B * rnd (p * q)) - rnd (A * r))) as E.
    set (b := rnd (B * rnd (p * q))) in *. set (a := rnd (A * r)) in *. apply Rabs_le_between in b1, b2, a1, a2.
    assert (Rabs (b - a) <= 33 / 10) by (apply Rabs_le_between; lra). assert (u * Rabs (b - a) <= u * (33 / 10)) by (apply Rmult_le_compat_l; lra).
    assert (E' : Rabs (rnd (b - a) - (b - a)) <= u * (33 / 10)) by lra. apply Rabs_le_between in E'. apply Rabs_le_between. lra. }
  replace (30 * u) with (3 * (10 * u)) by ring. unfold dist. apply fro_entries. intros i j. unfold fl_rodrigues, rodrigues, subM, sub3. cbv zeta.
  destruct i as [|[|i]]; destruct j as [|[|j]]; unfold ent, comp3; cbn [r0 r1 r2 vx vy vz]; try (apply Op; assumption); try (apply Om; assumption); apply Dg; nra.
Qed.

Variables (s : R) (fsin fcos : R -> R).
Hypothesis TR : trig s fsin fcos.
Hypothesis Hs : s <= 1 / 1000.

Lemma s_nonneg : 0 <= s.
Proof. destruct (TR 0) as [H _]. pose proof (Rabs_pos (fsin 0 - sin 0)). lra. Qed.
Lemma trig_1 t : Rabs (sin t) <= 1 /\ Rabs (cos t) <= 1.
Proof. pose proof (SIN_bound t). pose proof (COS_bound t). split; apply Rabs_le_between; lra. Qed.

(** the coefficients, for an angle near the length of w *)
Lemma fl_coeffs_ok w : w <> zero3 -> exists A B k, fl_so3_coeffs rnd fsin fcos (fl_dot3 rnd w w) = Ok (A, B) /\ Rabs (k - 1) <= 4 * u /\
  Rabs (A * len3 w - sin (k * len3 w)) <= 6 * u + s + 1 / 10 ^ 17 /\ Rabs (B * (len3 w * len3 w) - (1 - cos (k * len3 w))) <= 23 * u + s + 1 / 10 ^ 17.
Proof.
  intros W. pose proof ur as Hu. pose proof s_nonneg as s0. set (l := len3 w). pose proof (len3_pos w W) as L. fold l in L.
  destruct (fl_len u rnd RN U w) as (t & Ft & Et). fold l in Et. destruct (fl_dot3_self u rnd RN U w) as (c & Fc & Ec). rewrite <- len3_sq in Ec. fold l in Ec.
  pose proof (fac_pos u 3 t Hu Ft) as Pt. pose proof (fac_pos u 3 c Hu Fc) as Pc.
  unfold fl_so3_coeffs. rewrite Et. set (ts := fl_dot3 rnd w w) in *. cbv zeta. set (z := l * l) in *. assert (z0 : 0 < z) by (unfold z; nra).
  pose proof (fac_num 3 c ltac:(lia) Fc) as Kc. replace (INR 3) with 3 in Kc by (cbn; lra).
  assert (Kc' : 996 / 1000 <= c <= 1004 / 1000) by (apply Rabs_le_between in Kc; lra).
  destruct (rnd_fac u rnd RN (1 / 6)) as (d6 & F6 & E6). destruct (rnd_fac u rnd RN (1 / 20)) as (d20 & F20 & E20). rewrite E6, E20.
  assert (Thr : forall x, 0 < x -> ts < rnd x -> z <= 101 / 100 * x).
  { intros x Hx H. pose proof (rnd_err u rnd RN x) as E. rewrite (Rabs_right x) in E by lra. apply Rabs_le_between in E. rewrite Ec in H. nra. }
  assert (Sl : forall y, 0 <= y -> z <= y * y -> l <= y) by (intros y Hy H; apply sq_le; assumption).
  assert (Pi : 3 < PI) by (pose proof PI2_3_2; lra).
  assert (Tri : forall a b d, Rabs (a - d) <= Rabs (a - b) + Rabs (b - d)). { intros a b d. replace (a - d) with ((a - b) + (b - d)) by ring. apply Rabs_triang. }
  destruct (R_ltb ts (rnd (1 / 10 ^ 8))) eqn:B1; [|destruct (R_ltb ts (rnd (1 / 10 ^ 6))) eqn:B2].
  - apply R_ltb_spec in B1. pose proof (Thr (1 / 10 ^ 8) ltac:(lra) B1) as Zb. pose proof (Sl (101 / 100 * (1 / 10 ^ 4)) ltac:(lra) ltac:(lra)) as Lb.
    destruct (rnd_fac u rnd RN (1 / 6 * d6 * ts)) as (e & Fe & ->).
    pose proof (fac_num 5 _ ltac:(lia) (fac_mul u 4 1 _ _ Hu (fac_mul u 3 1 _ _ Hu Fc F6) Fe)) as K. replace (INR 5) with 5 in K by (cbn; lra).
    replace (1 / 6 * d6 * ts * e) with (1 / 6 * z * (c * d6 * e)) by (rewrite Ec; ring). set (f := c * d6 * e) in *.
    exists (rnd (1 - 1 / 6 * z * f)), (1 / 2), 1. split; [reflexivity|]. rewrite Rminus_diag_eq, Rabs_R0, Rmult_1_l by reflexivity. split; [lra|].
    pose proof (sin_bounds l ltac:(lra) ltac:(lra)) as [Sb _]. pose proof (cos_bounds l ltac:(lra) ltac:(lra)) as [Cb _].
    pose proof (rnd_err u rnd RN (1 - 1 / 6 * z * f)) as E. set (A := rnd (1 - 1 / 6 * z * f)) in *. apply Rabs_le_between in K.
    assert (zf : 0 <= z * f <= 102 / 100 * (102 / 100 * (1 / 10 ^ 8))) by (split; nra).
    assert (EA : Rabs (A - (1 - 1 / 6 * z)) <= 101 / 100 * u).
    { assert (Rabs (1 - 1 / 6 * z * f) <= 1) by (apply Rabs_le_between; lra). assert (u * Rabs (1 - 1 / 6 * z * f) <= u * 1) by (apply Rmult_le_compat_l; lra).
      assert (E' : Rabs (A - (1 - 1 / 6 * z * f)) <= u) by lra. apply Rabs_le_between in E'. apply Rabs_le_between.
      assert (- (51 / 10 * u) * z <= (f - 1) * z <= 51 / 10 * u * z) by nra. assert (0 <= u * z <= u * (1 / 1000)) by nra. lra. }
    split.
    + assert (G1 : Rabs (A * l - (1 - 1 / 6 * z) * l) <= 101 / 100 * u * (1 / 1000)).
      { replace (A * l - (1 - 1 / 6 * z) * l) with ((A - (1 - 1 / 6 * z)) * l) by ring. rewrite Rabs_mult, (Rabs_right l) by lra. apply Rmult_le_compat; try lra. apply Rabs_pos. }
      eapply Rle_trans; [apply (Tri _ ((1 - 1 / 6 * z) * l))|]. assert (G2 : Rabs ((1 - 1 / 6 * z) * l - sin l) <= 1 / 10 ^ 17).
      { assert (P5 : 0 <= l ^ 5 <= 1 / 10 ^ 16). { replace (l ^ 5) with (z * z * l) by (unfold z; ring). split; [apply Rmult_le_pos; nra|]. apply (Rle_trans _ (102 / 100 * (1 / 10 ^ 8) * (102 / 100 * (1 / 10 ^ 8)) * (1 / 1000))); [|lra]. apply Rmult_le_compat; try nra. }
        replace (l ^ 3) with (z * l) in Sb by (unfold z; ring). apply Rabs_le_between. lra. }
      lra.
    + replace (1 / 2 * (l * l)) with (1 / 2 * z) by reflexivity. replace (l ^ 2) with z in Cb by (unfold z; ring). replace (l ^ 4) with (z * z) in Cb by (unfold z; ring).
      assert (z * z <= 102 / 100 * (1 / 10 ^ 8) * (102 / 100 * (1 / 10 ^ 8))) by (apply Rmult_le_compat; lra). apply Rabs_le_between. lra.
  - apply R_ltb_spec in B2. pose proof (Thr (1 / 10 ^ 6) ltac:(lra) B2) as Zb. pose proof (Sl (101 / 100 * (1 / 10 ^ 3)) ltac:(lra) ltac:(lra)) as Lb. clear B1.
    pose proof (sin_bounds l ltac:(lra) ltac:(lra)) as [Sb Sb']. pose proof (cos_bounds l ltac:(lra) ltac:(lra)) as [Cb Cb'].
    assert (uz : 0 <= u * z <= u * (102 / 100 * (1 / 10 ^ 6))) by nra.
    (* 1 - one_20th theta_sq *)
    destruct (rnd_fac u rnd RN (1 / 20 * d20 * ts)) as (e1 & Fe1 & E1).
    pose proof (fac_num 5 _ ltac:(lia) (fac_mul u 4 1 _ _ Hu (fac_mul u 3 1 _ _ Hu Fc F20) Fe1)) as K1. replace (INR 5) with 5 in K1 by (cbn; lra).
    replace (1 / 20 * d20 * ts * e1) with (1 / 20 * z * (c * d20 * e1)) in E1 by (rewrite Ec; ring). rewrite E1. clear E1. set (f1 := c * d20 * e1) in *.
    pose proof (rnd_err u rnd RN (1 - 1 / 20 * z * f1)) as E2. set (g := rnd (1 - 1 / 20 * z * f1)) in *. apply Rabs_le_between in K1.
    assert (zf1 : 0 <= z * f1 <= 102 / 100 * (102 / 100 * (1 / 10 ^ 6))) by (split; nra).
    assert (Eg : - (101 / 100 * u) <= g - (1 - 1 / 20 * z) <= 101 / 100 * u).
    { assert (Rabs (1 - 1 / 20 * z * f1) <= 1) by (apply Rabs_le_between; lra). assert (u * Rabs (1 - 1 / 20 * z * f1) <= u * 1) by (apply Rmult_le_compat_l; lra).
      assert (E' : Rabs (g - (1 - 1 / 20 * z * f1)) <= u) by lra. apply Rabs_le_between in E'. assert (- (51 / 10 * u) * z <= (f1 - 1) * z <= 51 / 10 * u * z) by nra. lra. }
    (* theta_sq one_6th (...) *)
    destruct (rnd_fac u rnd RN (ts * (1 / 6 * d6))) as (e2 & Fe2 & ->). destruct (rnd_fac u rnd RN (ts * (1 / 6 * d6) * e2 * g)) as (e3 & Fe3 & ->).
    pose proof (fac_num 6 _ ltac:(lia) (fac_mul u 5 1 _ _ Hu (fac_mul u 4 1 _ _ Hu (fac_mul u 3 1 _ _ Hu Fc F6) Fe2) Fe3)) as K2. replace (INR 6) with 6 in K2 by (cbn; lra).
    replace (ts * (1 / 6 * d6) * e2 * g * e3) with (1 / 6 * (z * (c * d6 * e2 * e3) * g)) by (rewrite Ec; field). set (f2 := c * d6 * e2 * e3) in *. apply Rabs_le_between in K2.
    pose proof (rnd_err u rnd RN (1 - 1 / 6 * (z * f2 * g))) as E4. set (A := rnd (1 - 1 / 6 * (z * f2 * g))) in *.
    (* 0.25 one_6th theta_sq *)
    destruct (rnd_fac u rnd RN (1 / 4 * (1 / 6 * d6))) as (e4 & Fe4 & ->). destruct (rnd_fac u rnd RN (1 / 4 * (1 / 6 * d6) * e4 * ts)) as (e5 & Fe5 & ->).
    pose proof (fac_num 6 _ ltac:(lia) (fac_mul u 5 1 _ _ Hu (fac_mul u 4 1 _ _ Hu (fac_mul u 3 1 _ _ Hu Fc F6) Fe4) Fe5)) as K3. replace (INR 6) with 6 in K3 by (cbn; lra).
    replace (1 / 4 * (1 / 6 * d6) * e4 * ts * e5) with (1 / 24 * (z * (c * d6 * e4 * e5))) by (rewrite Ec; field). set (f3 := c * d6 * e4 * e5) in *. apply Rabs_le_between in K3.
    pose proof (rnd_err u rnd RN (1 / 2 - 1 / 24 * (z * f3))) as E5. set (B := rnd (1 / 2 - 1 / 24 * (z * f3))) in *.
    exists A, B, 1. split; [reflexivity|]. rewrite Rminus_diag_eq, Rabs_R0, Rmult_1_l by reflexivity. split; [lra|].
    assert (g1 : 99 / 100 <= g <= 101 / 100) by lra.
    assert (zf2 : 0 <= z * f2 <= 103 / 100 * (102 / 100 * (1 / 10 ^ 6))) by (split; nra).
    assert (zf2' : - (62 / 10 * u) * z <= z * f2 - z <= 62 / 10 * u * z) by nra.
    assert (zg : Rabs (z * f2 * g - z * (1 - 1 / 20 * z)) <= 8 * (u * z)).
    { replace (z * f2 * g - z * (1 - 1 / 20 * z)) with ((z * f2 - z) * g + z * (g - (1 - 1 / 20 * z))) by ring.
      apply Rabs_le_between. assert (- (63 / 10 * (u * z)) <= (z * f2 - z) * g <= 63 / 10 * (u * z)) by nra.
      assert (- (101 / 100 * (u * z)) <= z * (g - (1 - 1 / 20 * z)) <= 101 / 100 * (u * z)) by nra. lra. }
    apply Rabs_le_between in zg. assert (zz : 0 <= z * z <= 105 / 100 * (1 / 10 ^ 12)) by nra.
    assert (EA : Rabs (A - (1 - 1 / 6 * (z - 1 / 20 * (z * z)))) <= 101 / 100 * u).
    { assert (Rabs (1 - 1 / 6 * (z * f2 * g)) <= 1) by (apply Rabs_le_between; nra). assert (u * Rabs (1 - 1 / 6 * (z * f2 * g)) <= u * 1) by (apply Rmult_le_compat_l; lra).
      assert (E' : Rabs (A - (1 - 1 / 6 * (z * f2 * g))) <= u) by lra. apply Rabs_le_between in E'. apply Rabs_le_between.
      replace (z * (1 - 1 / 20 * z)) with (z - 1 / 20 * (z * z)) in zg by ring. lra. }
    assert (EB : Rabs (B - (1 / 2 - 1 / 24 * z)) <= u).
    { assert (zf3 : - (62 / 10 * u) * z <= z * f3 - z <= 62 / 10 * u * z) by nra.
      assert (Rabs (1 / 2 - 1 / 24 * (z * f3)) <= 6 / 10) by (apply Rabs_le_between; lra). assert (u * Rabs (1 / 2 - 1 / 24 * (z * f3)) <= u * (6 / 10)) by (apply Rmult_le_compat_l; lra).
      assert (E' : Rabs (B - (1 / 2 - 1 / 24 * (z * f3))) <= u * (6 / 10)) by lra. apply Rabs_le_between in E'. apply Rabs_le_between. lra. }
    replace (l ^ 3) with (z * l) in * by (unfold z; ring). replace (l ^ 5) with (z * z * l) in * by (unfold z; ring). replace (l ^ 7) with (z * z * z * l) in * by (unfold z; ring).
    replace (l ^ 2) with z in * by (unfold z; ring). replace (l ^ 4) with (z * z) in * by (unfold z; ring). replace (l ^ 6) with (z * z * z) in * by (unfold z; ring).
    assert (zzz : 0 <= z * z * z <= 2 * (1 / 10 ^ 18)). { split; [apply Rmult_le_pos; lra|]. apply (Rle_trans _ (105 / 100 * (1 / 10 ^ 12) * (102 / 100 * (1 / 10 ^ 6)))); [apply Rmult_le_compat; lra|lra]. }
    split.
    + assert (G1 : Rabs (A * l - (1 - 1 / 6 * (z - 1 / 20 * (z * z))) * l) <= 101 / 100 * u * (1 / 100)).
      { replace (A * l - (1 - 1 / 6 * (z - 1 / 20 * (z * z))) * l) with ((A - (1 - 1 / 6 * (z - 1 / 20 * (z * z)))) * l) by ring. rewrite Rabs_mult, (Rabs_right l) by lra. apply Rmult_le_compat; try lra. apply Rabs_pos. }
      eapply Rle_trans; [apply (Tri _ ((1 - 1 / 6 * (z - 1 / 20 * (z * z))) * l))|]. assert (G2 : Rabs ((1 - 1 / 6 * (z - 1 / 20 * (z * z))) * l - sin l) <= 1 / 10 ^ 17).
      { assert (P7 : 0 <= z * z * z * l <= 2 * (1 / 10 ^ 18) * (1 / 100)). { split; [apply Rmult_le_pos; lra|]. apply Rmult_le_compat; lra. }
        apply Rabs_le_between. lra. }
      lra.
    + change (l * l) with z.
      assert (G1 : Rabs (B * z - (1 / 2 - 1 / 24 * z) * z) <= u * (1 / 100)).
      { replace (B * z - (1 / 2 - 1 / 24 * z) * z) with ((B - (1 / 2 - 1 / 24 * z)) * z) by ring. rewrite Rabs_mult, (Rabs_right z) by lra. apply Rmult_le_compat; try lra. apply Rabs_pos. }
      eapply Rle_trans; [apply (Tri _ ((1 / 2 - 1 / 24 * z) * z))|]. assert (G2 : Rabs ((1 / 2 - 1 / 24 * z) * z - (1 - cos l)) <= 1 / 10 ^ 17) by (apply Rabs_le_between; lra).
      lra.
  - clear B1. pose proof (rnd_err u rnd RN (1 / 10 ^ 6)) as E. clear E B2. rewrite (fl_div_ok rnd 1 (l * t)) by nra. cbn [bind].
    destruct (rnd_fac u rnd RN (1 / (l * t))) as (i & Fi & ->). set (th := l * t).
    destruct (TR th) as [Ts Tc]. destruct (trig_1 th) as [T1 T2]. apply Rabs_le_between in T1, T2, Ts, Tc.
    destruct (rnd_fac u rnd RN (fsin th * (1 / th * i))) as (e1 & Fe1 & ->). destruct (rnd_fac u rnd RN (1 - fcos th)) as (e2 & Fe2 & ->).
    destruct (rnd_fac u rnd RN (1 / th * i * (1 / th * i))) as (e3 & Fe3 & ->). destruct (rnd_fac u rnd RN ((1 - fcos th) * e2 * (1 / th * i * (1 / th * i) * e3))) as (e4 & Fe4 & ->).
    eexists _, _, t. split; [reflexivity|]. split.
    { pose proof (fac_num 3 t ltac:(lia) Ft) as K. replace (INR 3) with 3 in K by (cbn; lra). lra. }
    replace (t * l) with th by (unfold th; ring). pose proof (fac_inv u 3 t Hu Ft) as Fti.
    pose proof (fac_mul u 3 1 _ _ Hu Fti Fi) as Fj. set (j := / t * i) in *.
    split.
    + pose proof (fac_num 5 _ ltac:(lia) (fac_mul u 4 1 _ _ Hu Fj Fe1)) as K. replace (INR 5) with 5 in K by (cbn; lra). apply Rabs_le_between in K.
      replace (fsin th * (1 / th * i) * e1 * l) with (fsin th * (j * e1)) by (unfold j, th; field; lra). set (f := j * e1) in *.
      replace (fsin th * f - sin th) with ((fsin th - sin th) + fsin th * (f - 1)) by ring.
      assert (Q : Rabs (fsin th * (f - 1)) <= 1001 / 1000 * (51 / 10 * u)). { rewrite Rabs_mult. apply Rmult_le_compat; try apply Rabs_pos; apply Rabs_le_between; lra. }
      apply Rabs_le_between in Q. apply Rabs_le_between. lra.
    + pose proof (fac_num 11 _ ltac:(lia) (fac_mul u 10 1 _ _ Hu (fac_mul u 9 1 _ _ Hu (fac_mul u 8 1 _ _ Hu (fac_mul u 4 4 _ _ Hu Fj Fj) Fe2) Fe3) Fe4)) as K. replace (INR 11) with 11 in K by (cbn; lra). apply Rabs_le_between in K.
      replace ((1 - fcos th) * e2 * (1 / th * i * (1 / th * i) * e3) * e4 * z) with ((1 - fcos th) * (j * j * e2 * e3 * e4)) by (unfold j, th, z; field; lra). set (f := j * j * e2 * e3 * e4) in *.
      replace ((1 - fcos th) * f - (1 - cos th)) with (- (fcos th - cos th) + (1 - fcos th) * (f - 1)) by ring.
      assert (Q : Rabs ((1 - fcos th) * (f - 1)) <= 2001 / 1000 * (1122 / 100 * u)). { rewrite Rabs_mult. apply Rmult_le_compat; try apply Rabs_pos; apply Rabs_le_between; lra. }
      apply Rabs_le_between in Q. apply Rabs_le_between. lra.
Qed.

Lemma fl_exp_ok w : exists m k, fl_so3_exp rnd fsin fcos w = Ok m /\ Rabs (k - 1) <= 4 * u /\ dist m (exp3 (scale3 k w)) <= 90 * u + 4 * s + 1 / 10 ^ 16.
Proof.
  pose proof ur as Hu. pose proof s_nonneg as s0. destruct (V3_dec w zero3) as [->|W].
  - unfold fl_so3_exp. assert (fl_dot3 rnd zero3 zero3 = 0) as ->. { unfold fl_dot3, zero3. cbn [vx vy vz]. rewrite !Rmult_0_l. repeat (rewrite (rnd_0 u rnd RN) || rewrite Rplus_0_l). reflexivity. }
    unfold fl_so3_coeffs. cbv zeta. pose proof (rnd_err u rnd RN (1 / 10 ^ 8)) as E. rewrite (Rabs_right (1 / 10 ^ 8)) in E by lra. apply Rabs_le_between in E.
    rewrite R_ltb_t by lra. cbn [bind]. eexists _, 1. split; [reflexivity|]. rewrite Rminus_diag_eq, Rabs_R0 by reflexivity. split; [lra|].
    rewrite scale3_1, exp3_zero. rewrite <- (rodrigues_0 (rnd (1 - rnd (rnd (1 / 6) * 0))) (1 / 2)).
    eapply Rle_trans; [apply fl_rodrigues_err; rewrite len3_0; lra|]. lra.
  - destruct (fl_coeffs_ok w W) as (A & B & k & E & K & HA & HB). unfold fl_so3_exp. rewrite E. cbn [bind]. exists (fl_rodrigues rnd w A B), k. split; [reflexivity|]. split; [exact K|].
    pose proof (len3_pos w W) as L. assert (k0 : 0 < k) by (apply Rabs_le_between in K; lra). rewrite (exp3_scaled w k W k0). set (l := len3 w) in *.
    destruct (trig_1 (k * l)) as [T1 T2].
    assert (Al : Rabs A * l = Rabs (A * l)) by (rewrite Rabs_mult, (Rabs_right l) by lra; reflexivity).
    assert (Bl : Rabs B * (l * l) = Rabs (B * (l * l))) by (rewrite Rabs_mult, (Rabs_right (l * l)) by nra; reflexivity).
    assert (Tiny : 1 / 10 ^ 17 <= 1 / 1000) by lra.
    eapply Rle_trans; [apply (dist_tri _ (rodrigues w A B))|].
    assert (D1 : dist (fl_rodrigues rnd w A B) (rodrigues w A B) <= 30 * u).
    { apply fl_rodrigues_err; fold l; rewrite ?Al, ?Bl; apply Rabs_le_between in HA, HB, T1, T2; apply Rabs_le_between; lra. }
    assert (D2 : dist (rodrigues w A B) (rodrigues w (sin (k * l) / l) ((1 - cos (k * l)) / (l * l))) <= 2 * ((6 * u + s + 1 / 10 ^ 17) + (23 * u + s + 1 / 10 ^ 17))).
    { apply rodrigues_dist; fold l.
      - rewrite (Rabs_mul_r _ l) by lra. replace ((A - sin (k * l) / l) * l) with (A * l - sin (k * l)) by (field; lra). exact HA.
      - rewrite (Rabs_mul_r _ (l * l)) by nra. replace ((B - (1 - cos (k * l)) / (l * l)) * (l * l)) with (B * (l * l) - (1 - cos (k * l))) by (field; lra). exact HB. }
    lra.
Qed.
End S.
