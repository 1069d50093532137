(** * Lemmas for the 3x3 closed form. *)
From Coq Require Import Reals Arith Bool Lia Lra Psatz.
From Verif Require Import Base Alg Mat SpecMat LemMat Inst RSum ModelOps LemOps ModelHelpers LemHelpers LemChol SpecLin LemLin LemDet ModelLie LemSE2 ModelEig SpecEig LemEig ModelEig3.
Open Scope outcome_scope.
Local Open Scope R_scope.

Lemma R_ltb_irr x : R_ltb x x = false.
Proof. destruct (R_ltb x x) eqn:E; [apply R_ltb_spec in E; lra|reflexivity]. Qed.
Lemma ltb_scale k x y : 0 < k -> R_ltb (k * x) (k * y) = R_ltb x y.
Proof. intros H. destruct (R_ltb x y) eqn:E; [apply R_ltb_spec in E; apply R_ltb_iff; nra|]. apply R_ltb_false in E. destruct (R_ltb (k * x) (k * y)) eqn:E'; [apply R_ltb_spec in E'; nra|reflexivity]. Qed.
Lemma atan2_scale k s c : 0 < k -> atan2 (k * s) (k * c) = atan2 s c.
Proof.
  intros H. unfold atan2. assert (P1 : forall x, R_ltb 0 (k * x) = R_ltb 0 x) by (intros x; rewrite <- (ltb_scale k 0 x H), Rmult_0_r; reflexivity).
  assert (P2 : forall x, R_ltb (k * x) 0 = R_ltb x 0) by (intros x; rewrite <- (ltb_scale k x 0 H), Rmult_0_r; reflexivity).
  rewrite !P1, !P2. destruct (Req_dec c 0) as [->|Nz]; [rewrite !R_ltb_irr; reflexivity|]. replace (k * s / (k * c)) with (s / c) by (field; lra). reflexivity.
Qed.
Lemma polar x y rho : 0 < rho -> rho * rho = x * x + y * y -> rho * cos (atan2 y x) = x /\ rho * sin (atan2 y x) = y.
Proof.
  intros H E. destruct (atan2_ok (x / rho) (y / rho)) as (C & S & _).
  { replace (x / rho * (x / rho) + y / rho * (y / rho)) with ((x * x + y * y) / (rho * rho)) by (field; lra). rewrite <- E. field. lra. }
  assert (A : atan2 y x = atan2 (y / rho) (x / rho)). { rewrite <- (atan2_scale rho (y / rho) (x / rho)) by exact H. replace (rho * (y / rho)) with y by (field; lra). replace (rho * (x / rho)) with x by (field; lra). reflexivity. }
  rewrite A, C, S. split; field; lra.
Qed.
Lemma pow_sixth_ok w : 0 <= w -> pow_sixth (w * w * w) * pow_sixth (w * w * w) = w /\ 0 <= pow_sixth (w * w * w).
Proof.
  intros H. unfold pow_sixth. destruct (R_ltb 0 (w * w * w)) eqn:E.
  - apply R_ltb_spec in E. assert (W : 0 < w). { destruct H as [H|<-]; [exact H|lra]. } split; [|unfold Rpower; apply Rlt_le, exp_pos].
    rewrite <- Rpower_plus. replace (w * w * w) with (Rpower w (INR 3)) by (rewrite Rpower_pow by exact W; cbn [pow]; ring). rewrite Rpower_mult.
    replace (INR 3 * (1 / 6 + 1 / 6)) with 1 by (cbn [INR]; field). apply Rpower_1. exact W.
  - apply R_ltb_false in E. split; [|lra]. assert (W : w = 0); [|rewrite W; ring]. destruct H as [H|H]; [|auto]. assert (0 < w * w * w) by (apply Rmult_lt_0_compat; [apply Rmult_lt_0_compat|]; exact H). lra.
Qed.
(** the discriminant is a sum of squares of 3x3 minors of (I, A, A^2), the off-diagonal coordinates counted twice *)
Definition minor (x1 x2 x3 y1 y2 y3 z1 z2 z3 : R) : R := x1 * (y2 * z3 - y3 * z2) - x2 * (y1 * z3 - y3 * z1) + x3 * (y1 * z2 - y2 * z1).
Lemma discriminant_nonneg A :
  let a := - a11 A - a22 A - a33 A in
  let b := a11 A * a22 A + a11 A * a33 A + a22 A * a33 A - a12 A * a12 A - a13 A * a13 A - a23 A * a23 A in
  let c := a11 A * (a23 A * a23 A) + (a13 A * a13 A) * a22 A + (a12 A * a12 A) * a33 A - a12 A * a13 A * a23 A * 2 - a11 A * a22 A * a33 A in
  let p := b - a * a / 3 in let q := c + (2 * a * a * a - 9 * a * b) / 27 in
  q * q / 4 + p * p * p / 27 <= 0.
Proof.
  intros a b c p q. destruct A as [x11 x12 x13 x22 x23 x33]. cbn [a11 a12 a13 a22 a23 a33] in a, b, c.
  set (s11 := x11 * x11 + x12 * x12 + x13 * x13). set (s22 := x12 * x12 + x22 * x22 + x23 * x23). set (s33 := x13 * x13 + x23 * x23 + x33 * x33).
  set (s12 := x11 * x12 + x12 * x22 + x13 * x23). set (s13 := x11 * x13 + x12 * x23 + x13 * x33). set (s23 := x12 * x13 + x22 * x23 + x23 * x33).
  set (m0 := minor 1 1 1 x11 x22 x33 s11 s22 s33).
  set (k1 := (x22 - x11) * s12 - x12 * (s22 - s11)). set (k2 := (x33 - x11) * s12 - x12 * (s33 - s11)). set (k3 := (x33 - x22) * s12 - x12 * (s33 - s22)).
  set (k4 := (x22 - x11) * s13 - x13 * (s22 - s11)). set (k5 := (x33 - x11) * s13 - x13 * (s33 - s11)). set (k6 := (x33 - x22) * s13 - x13 * (s33 - s22)).
  set (k7 := (x22 - x11) * s23 - x23 * (s22 - s11)). set (k8 := (x33 - x11) * s23 - x23 * (s33 - s11)). set (k9 := (x33 - x22) * s23 - x23 * (s33 - s22)).
  set (g1 := x12 * s13 - x13 * s12). set (g2 := x12 * s23 - x23 * s12). set (g3 := x13 * s23 - x23 * s13).
  assert (E : (-108) * (q * q / 4 + p * p * p / 27) = m0 * m0 + 2 * (k1 * k1 + k2 * k2 + k3 * k3 + k4 * k4 + k5 * k5 + k6 * k6 + k7 * k7 + k8 * k8 + k9 * k9) + 12 * (g1 * g1 + g2 * g2 + g3 * g3)).
  { unfold m0, k1, k2, k3, k4, k5, k6, k7, k8, k9, g1, g2, g3, minor, s11, s22, s33, s12, s13, s23, q, p, c, b, a. field. }
  assert (Q : forall x, 0 <= x * x) by (intros x; exact (Rle_0_sqr x)).
  pose proof (Q m0). pose proof (Q k1). pose proof (Q k2). pose proof (Q k3). pose proof (Q k4). pose proof (Q k5). pose proof (Q k6). pose proof (Q k7). pose proof (Q k8). pose proof (Q k9).
  pose proof (Q g1). pose proof (Q g2). pose proof (Q g3). lra.
Qed.
(** det(A - x I) *)
Definition charp (A : sym3) (x : R) : R :=
  (a11 A - x) * ((a22 A - x) * (a33 A - x) - a23 A * a23 A) - a12 A * (a12 A * (a33 A - x) - a23 A * a13 A) + a13 A * (a12 A * a23 A - (a22 A - x) * a13 A).
Lemma cubic_roots_ok A : let '(t0, t1, t2) := cubic_roots A in forall x, (t0 - x) * (t1 - x) * (t2 - x) = charp A x.
Proof.
  unfold cubic_roots. pose proof (discriminant_nonneg A) as D. cbv zeta in D. cbv zeta.
  set (a := - a11 A - a22 A - a33 A) in *.
  set (b := a11 A * a22 A + a11 A * a33 A + a22 A * a33 A - a12 A * a12 A - a13 A * a13 A - a23 A * a23 A) in *.
  set (c := a11 A * (a23 A * a23 A) + (a13 A * a13 A) * a22 A + (a12 A * a12 A) * a33 A - a12 A * a13 A * a23 A * 2 - a11 A * a22 A * a33 A) in *.
  set (p := b - a * a / 3) in *. set (q := c + (2 * a * a * a - 9 * a * b) / 27) in *. set (disc := q * q / 4 + p * p * p / 27) in *.
  rewrite Rmin_right by exact D. set (alpha := - q / 2). set (beta := sqrt (- disc)).
  assert (Bb : beta * beta = - disc) by (apply sqrt_sqrt; lra).
  set (w := - p / 3). assert (R2 : alpha * alpha - disc = w * w * w) by (unfold alpha, disc, w; field).
  assert (W : 0 <= w). { destruct (Rle_lt_dec 0 w) as [W|W]; [exact W|exfalso]. assert (0 < (- w) * (- w) * (- w)) by (apply Rmult_lt_0_compat; [apply Rmult_lt_0_compat|]; lra). pose proof (Rle_0_sqr alpha). unfold Rsqr in *. nra. }
  rewrite R2. destruct (pow_sixth_ok w W) as (P1 & P2). set (rho := pow_sixth (w * w * w)) in *.
  set (th := atan2 beta alpha / 3). assert (PC : rho * rho * rho * cos (3 * th) = alpha).
  { replace (3 * th) with (atan2 beta alpha) by (unfold th; field). destruct P2 as [P2|P2].
    - apply polar; [apply Rmult_lt_0_compat; [apply Rmult_lt_0_compat|]; exact P2|]. rewrite Bb. replace (rho * rho * rho * (rho * rho * rho)) with ((rho * rho) * (rho * rho) * (rho * rho)) by ring. rewrite P1. lra.
    - assert (w = 0) by (rewrite <- P1, <- P2; ring). assert (Al : alpha = 0). { assert (0 <= - disc) by lra. pose proof (Rle_0_sqr alpha). unfold Rsqr in *. rewrite H in R2. nra. }
      rewrite Al, <- P2. ring. }
  assert (C3 : cos (3 * th) = 4 * (cos th * cos th * cos th) - 3 * cos th).
  { replace (3 * th) with (2 * th + th) by ring. rewrite cos_plus, cos_2a, sin_2a. pose proof (sin2_cos2 th) as SC. unfold Rsqr in SC.
    replace ((cos th * cos th - sin th * sin th) * cos th - 2 * sin th * cos th * sin th) with (cos th * (cos th * cos th - 3 * (sin th * sin th))) by ring. replace (sin th * sin th) with (1 - cos th * cos th) by lra. ring. }
  rewrite C3 in PC. pose proof (sin2_cos2 th) as SC. unfold Rsqr in SC. set (C := cos th) in *. set (S := sin th) in *. clearbody C S th.
  assert (S3 : sqrt 3 * sqrt 3 = 3) by (apply sqrt_sqrt; lra). set (r3 := sqrt 3) in *. clearbody r3.
  set (u0 := 2 * rho * C). set (u1 := - u0 / 2 + -2 * rho * S * r3 / 2). set (u2 := - u0 / 2 - -2 * rho * S * r3 / 2).
  assert (E1 : u0 + u1 + u2 = 0) by (unfold u2, u1, u0; field).
  assert (E2 : u0 * u1 + u0 * u2 + u1 * u2 = p). { transitivity (- (rho * rho) * (3 * (C * C) + (S * S) * (r3 * r3))); [unfold u2, u1, u0; field|]. rewrite S3, P1. replace (S * S) with (1 - C * C) by lra. unfold w. field. }
  assert (E3 : u0 * u1 * u2 = - q). { transitivity (2 * (rho * rho * rho * (C * (C * C - (S * S) * (r3 * r3))))); [unfold u2, u1, u0; field|]. rewrite S3. replace (S * S) with (1 - C * C) by lra.
    replace (rho * rho * rho * (C * (C * C - (1 - C * C) * 3))) with (rho * rho * rho * (4 * (C * C * C) - 3 * C)) by ring. rewrite PC. unfold alpha. field. }
  intros x. set (y := x + 1 * a / 3).
  replace (u0 - 1 * a / 3 - x) with (u0 - y) by (unfold y; field). replace (u1 - 1 * a / 3 - x) with (u1 - y) by (unfold y; field). replace (u2 - 1 * a / 3 - x) with (u2 - y) by (unfold y; field).
  transitivity (u0 * u1 * u2 - (u0 * u1 + u0 * u2 + u1 * u2) * y + (u0 + u1 + u2) * (y * y) - y * y * y); [ring|]. rewrite E1, E2, E3.
  transitivity (- (x * x * x + a * (x * x) + b * x + c)); [unfold y, p, q; field|]. unfold a, b, c, charp. ring.
Qed.
Lemma sort3_ok (v : R * R * R) : let '(t0, t1, t2) := v in let '(e0, e1, e2) := sort3 v in e0 <= e1 <= e2 /\ forall x, (e0 - x) * (e1 - x) * (e2 - x) = (t0 - x) * (t1 - x) * (t2 - x).
Proof.
  destruct v as [[t0 t1] t2]. unfold sort3.
  destruct (R_ltb t1 t0) eqn:E1; [apply R_ltb_spec in E1|apply R_ltb_false in E1].
  - destruct (R_ltb t2 t0) eqn:E2; [apply R_ltb_spec in E2|apply R_ltb_false in E2].
    + destruct (R_ltb t2 t1) eqn:E3; [apply R_ltb_spec in E3|apply R_ltb_false in E3]; (split; [lra|intros; ring]).
    + destruct (R_ltb t0 t1) eqn:E3; [apply R_ltb_spec in E3|apply R_ltb_false in E3]; (split; [lra|intros; ring]).
  - destruct (R_ltb t2 t1) eqn:E2; [apply R_ltb_spec in E2|apply R_ltb_false in E2].
    + destruct (R_ltb t2 t0) eqn:E3; [apply R_ltb_spec in E3|apply R_ltb_false in E3]; (split; [lra|intros; ring]).
    + destruct (R_ltb t1 t0) eqn:E3; [apply R_ltb_spec in E3|apply R_ltb_false in E3]; (split; [lra|intros; ring]).
Qed.
Lemma roots_unique e0 e1 e2 f0 f1 f2 : e0 <= e1 <= e2 -> f0 <= f1 <= f2 -> (forall x, (e0 - x) * (e1 - x) * (e2 - x) = (f0 - x) * (f1 - x) * (f2 - x)) -> e0 = f0 /\ e1 = f1 /\ e2 = f2.
Proof.
  intros He Hf H. assert (Z : forall x y z, x * y * z = 0 -> x = 0 \/ y = 0 \/ z = 0).
  { intros x y z E. apply Rmult_integral in E. destruct E as [E|E]; [apply Rmult_integral in E; tauto|auto]. }
  assert (A0 : e0 = f0). { pose proof (H e0) as A. pose proof (H f0) as B. replace ((e0 - e0) * (e1 - e0) * (e2 - e0)) with 0 in A by ring. replace ((f0 - f0) * (f1 - f0) * (f2 - f0)) with 0 in B by ring. symmetry in A. apply Z in A. apply Z in B. lra. }
  assert (A2 : e2 = f2). { pose proof (H e2) as A. pose proof (H f2) as B. replace ((e0 - e2) * (e1 - e2) * (e2 - e2)) with 0 in A by ring. replace ((f0 - f2) * (f1 - f2) * (f2 - f2)) with 0 in B by ring. symmetry in A. apply Z in A. apply Z in B. lra. }
  split; [exact A0|]. split; [|exact A2]. subst f0 f2. pose proof (H 0) as A. pose proof (H 1) as B. pose proof (H (-1)) as C. nra.
Qed.
(** A v = l v *)
Definition is_eig (A : sym3) (l : R) (v : V3) : Prop :=
  a11 A * vx v + a12 A * vy v + a13 A * vz v = l * vx v /\ a12 A * vx v + a22 A * vy v + a23 A * vz v = l * vy v /\ a13 A * vx v + a23 A * vy v + a33 A * vz v = l * vz v.
Lemma choice1_eig A l : charp A l = 0 -> is_eig A l (choice1 A l).
Proof. unfold charp, is_eig, choice1. cbn [vx vy vz]. intros H. repeat split; lra. Qed.
Lemma choice2_eig A l : charp A l = 0 -> is_eig A l (choice2 A l).
Proof. unfold charp, is_eig, choice2. cbn [vx vy vz]. intros H. repeat split; lra. Qed.
Lemma choice3_eig A l : charp A l = 0 -> is_eig A l (choice3 A l).
Proof. unfold charp, is_eig, choice3. cbn [vx vy vz]. intros H. repeat split; lra. Qed.
Lemma eig_add A l u v : is_eig A l u -> is_eig A l v -> is_eig A l (add3 u v).
Proof. unfold is_eig, add3. cbn [vx vy vz]. intros (A1 & A2 & A3) (B1 & B2 & B3). repeat split; lra. Qed.
Lemma eig_scale A l k v : is_eig A l v -> is_eig A l (scale3 k v).
Proof. unfold is_eig, scale3. cbn [vx vy vz]. intros (A1 & A2 & A3). split; [|split].
  - transitivity (k * (a11 A * vx v + a12 A * vy v + a13 A * vz v)); [ring|rewrite A1; ring].
  - transitivity (k * (a12 A * vx v + a22 A * vy v + a23 A * vz v)); [ring|rewrite A2; ring].
  - transitivity (k * (a13 A * vx v + a23 A * vy v + a33 A * vz v)); [ring|rewrite A3; ring].
Qed.
Lemma raw_eig A eps l : charp A l = 0 -> is_eig A l (raw_vector A eps l).
Proof.
  intros H. unfold raw_vector. pose proof (choice1_eig A l H). pose proof (choice2_eig A l H). pose proof (choice3_eig A l H).
  destruct (R_ltb (norm1_3 (choice1 A l)) eps); [destruct (R_ltb (norm1_3 (add3 (choice1 A l) (choice2 A l))) eps)|destruct (R_ltb (norm1_3 (choice1 A l)) eps)]; auto using eig_add.
Qed.
(** the trace of the adjugate of A - l I *)
Definition adj_trace (A : sym3) (l : R) : R := vz (choice1 A l) + vy (choice2 A l) + vx (choice3 A l).
Lemma raw_norm A eps l : 3 * eps <= Rabs (adj_trace A l) -> eps <= norm1_3 (raw_vector A eps l).
Proof.
  intros H. unfold raw_vector.
  destruct (R_ltb (norm1_3 (choice1 A l)) eps) eqn:E1; [|rewrite E1; apply R_ltb_false in E1; exact E1]. apply R_ltb_spec in E1.
  destruct (R_ltb (norm1_3 (add3 (choice1 A l) (choice2 A l))) eps) eqn:E2; [|apply R_ltb_false in E2; exact E2]. apply R_ltb_spec in E2.
  destruct (Rle_lt_dec eps (norm1_3 (add3 (add3 (choice1 A l) (choice2 A l)) (choice3 A l)))) as [E3|E3]; [exact E3|exfalso]. revert H E1 E2 E3.
  unfold adj_trace, norm1_3, choice1, choice2, choice3, add3. cbn [vx vy vz].
  set (m13 := a12 A * a23 A - a13 A * (a22 A - l)). set (m23 := a12 A * a13 A - a23 A * (a11 A - l)). set (m33 := (a11 A - l) * (a22 A - l) - a12 A * a12 A).
  set (m12 := a12 A * (l - a33 A) + a23 A * a13 A). set (m22 := (l - a11 A) * (l - a33 A) - a13 A * a13 A). set (m11 := (l - a22 A) * (l - a33 A) - a23 A * a23 A).
  replace (a23 A * (l - a11 A) + a12 A * a13 A) with m23 by (unfold m23; ring). replace (a13 A * (l - a22 A) + a23 A * a12 A) with m13 by (unfold m13; ring).
  clearbody m13 m23 m33 m12 m22 m11. unfold Rabs. repeat destruct Rcase_abs; lra.
Qed.
Lemma raw_zero A eps l : 0 < eps -> choice1 A l = mk3 0 0 0 -> choice2 A l = mk3 0 0 0 -> choice3 A l = mk3 0 0 0 -> raw_vector A eps l = mk3 0 0 0.
Proof.
  intros He E1 E2 E3. unfold raw_vector. rewrite E1. assert (Z : norm1_3 (mk3 0 0 0) = 0) by (unfold norm1_3; cbn [vx vy vz]; rewrite Rabs_R0; ring). rewrite Z.
  replace (R_ltb 0 eps) with true by (symmetry; apply R_ltb_iff; exact He). rewrite E2, E3. unfold add3. cbn [vx vy vz]. replace (0 + 0) with 0 by ring. rewrite Z.
  replace (R_ltb 0 eps) with true by (symmetry; apply R_ltb_iff; exact He). replace (0 + 0) with 0 by ring. reflexivity.
Qed.
Lemma vieta A e0 e1 e2 : (forall x, (e0 - x) * (e1 - x) * (e2 - x) = charp A x) ->
  e0 + e1 + e2 = a11 A + a22 A + a33 A /\ e0 * e1 + e0 * e2 + e1 * e2 = a11 A * a22 A + a11 A * a33 A + a22 A * a33 A - a12 A * a12 A - a13 A * a13 A - a23 A * a23 A.
Proof. intros H. pose proof (H 0) as A0. pose proof (H 1) as A1. pose proof (H (-1)) as A2. unfold charp in *. split; lra. Qed.
Lemma adj_trace_roots A e0 e1 e2 l : (forall x, (e0 - x) * (e1 - x) * (e2 - x) = charp A x) -> adj_trace A l = (e1 - l) * (e2 - l) + (e0 - l) * (e2 - l) + (e0 - l) * (e1 - l).
Proof.
  intros H. destruct (vieta A e0 e1 e2 H) as (S1 & S2).
  transitivity (3 * l * l - 2 * (a11 A + a22 A + a33 A) * l + (a11 A * a22 A + a11 A * a33 A + a22 A * a33 A - a12 A * a12 A - a13 A * a13 A - a23 A * a23 A)); [unfold adj_trace, choice1, choice2, choice3; cbn [vx vy vz]; ring|].
  rewrite <- S1, <- S2. ring.
Qed.
(** normalize *)
Lemma dot_pos v : 0 < norm1_3 v -> 0 < dot3 v v.
Proof.
  unfold norm1_3, dot3. intros H. pose proof (Rle_0_sqr (vx v)) as X. pose proof (Rle_0_sqr (vy v)) as Y. pose proof (Rle_0_sqr (vz v)) as Z. unfold Rsqr in *.
  destruct (Req_dec (vx v) 0) as [Ex|Ex]; [|assert (0 < vx v * vx v) by nra; lra].
  destruct (Req_dec (vy v) 0) as [Ey|Ey]; [|assert (0 < vy v * vy v) by nra; lra].
  destruct (Req_dec (vz v) 0) as [Ez|Ez]; [|assert (0 < vz v * vz v) by nra; lra].
  rewrite Ex, Ey, Ez, Rabs_R0 in H. lra.
Qed.
Lemma normalize3_ok v : 0 < dot3 v v -> normalize3 v = Ok (scale3 (/ sqrt (dot3 v v)) v) /\ dot3 (scale3 (/ sqrt (dot3 v v)) v) (scale3 (/ sqrt (dot3 v v)) v) = 1.
Proof.
  intros H. assert (S : 0 < sqrt (dot3 v v)) by (apply sqrt_lt_R0; exact H). split.
  - unfold normalize3. rewrite !R_div_ok by lra. cbn [bind]. unfold scale3. f_equal. f_equal; field; lra.
  - assert (Q : sqrt (dot3 v v) * sqrt (dot3 v v) = dot3 v v) by (apply sqrt_sqrt; lra).
    transitivity (dot3 v v / (sqrt (dot3 v v) * sqrt (dot3 v v))); [unfold dot3 at 1, scale3; cbn [vx vy vz]; transitivity ((vx v * vx v + vy v * vy v + vz v * vz v) / (sqrt (dot3 v v) * sqrt (dot3 v v))); [field; lra|reflexivity]|]. rewrite Q. field. lra.
Qed.
Lemma normalize3_bad : normalize3 (mk3 0 0 0) = NonFinite.
Proof. unfold normalize3, dot3. cbn [vx vy vz]. replace (sqrt (0 * 0 + 0 * 0 + 0 * 0)) with 0 by (replace (0 * 0 + 0 * 0 + 0 * 0) with 0 by ring; symmetry; apply sqrt_0). rewrite R_div_bad by reflexivity. reflexivity. Qed.
Lemma eig_orth A l l' u v : is_eig A l u -> is_eig A l' v -> l <> l' -> dot3 u v = 0.
Proof.
  intros (A1 & A2 & A3) (B1 & B2 & B3) N. assert (E : (l - l') * dot3 u v = 0); [|apply Rmult_integral in E; destruct E; [lra|assumption]].
  transitivity ((l * vx u) * vx v + (l * vy u) * vy v + (l * vz u) * vz v - (vx u * (l' * vx v) + vy u * (l' * vy v) + vz u * (l' * vz v))); [unfold dot3; ring|].
  rewrite <- A1, <- A2, <- A3, <- B1, <- B2, <- B3. ring.
Qed.
Lemma dot_scale k l u v : dot3 (scale3 k u) (scale3 l v) = k * l * dot3 u v.
Proof. unfold dot3, scale3. cbn [vx vy vz]. ring. Qed.
