(** * Rounding errors of the 3-vector operations used by SO3. *)
From Coq Require Import Reals Lra Lia Psatz.
From Verif Require Import Base Alg Inst ModelLie SpecLie LemLie LemSO3 LemSO3b SpecFlSO3 LemFro RSum ModelFl SpecFl LemFl LemFlChol ModelFlSO3.
Open Scope outcome_scope.
Local Open Scope R_scope.

Section S.
Variables (u : R) (rnd : R -> R).
Hypothesis RN : rounding u rnd.
Hypothesis U : u <= 1 / 1000.
Notation ur := (u_rng u rnd RN).

Lemma rnd_err x : Rabs (rnd x - x) <= u * Rabs x.
Proof. apply RN. Qed.
Lemma fwd3 : fwd u 3 <= 301 / 100 * u.
Proof. pose proof ur. unfold fwd. cbn [pow]. nra. Qed.
Lemma fwd2 : fwd u 2 <= 201 / 100 * u.
Proof. pose proof ur. unfold fwd. cbn [pow]. nra. Qed.
Lemma bwd_num k : (k <= 15)%nat -> bwd u k <= 102 / 100 * INR k * u.
Proof.
  intros K. pose proof ur. assert (INR k <= 15) by (replace 15 with (INR 15) by (cbn; lra); apply le_INR, K). pose proof (pos_INR k).
  assert (INR k * u <= 15 / 1000) by nra. assert (0 <= INR k * u) by nra. eapply Rle_trans; [apply bwd_gamma; lra|].
  set (t := INR k * u) in *. apply (Rmult_le_reg_r (1 - t)); [lra|]. replace (t / (1 - t) * (1 - t)) with t by (field; lra).
  replace (102 / 100 * INR k * u) with (102 / 100 * t) by (unfold t; ring). nra.
Qed.
Lemma near_fac k c : near u k c -> fac u k c.
Proof.
  intros [A B]. split; [exact A|]. pose proof ur. pose proof (pow_1mu u k ltac:(lra)).
  apply (Rle_trans _ ((1 + u) ^ k * (1 - u) ^ k)); [apply Rmult_le_compat_r; lra|]. rewrite <- Rpow_mult_distr.
  apply (Rle_trans _ (1 ^ k)); [|rewrite pow1; lra]. apply pow_incr. nra.
Qed.

(** ** dot product *)
Lemma fl_dot3_sum a b : fl_dot3 rnd a b = fsum rnd 3 (fun i => rnd (comp3 a i * comp3 b i)).
Proof. reflexivity. Qed.
Lemma abs_dot a b : Rabs (vx a * vx b) + Rabs (vy a * vy b) + Rabs (vz a * vz b) <= len3 a * len3 b.
Proof.
  rewrite <- (len3_abs a), <- (len3_abs b).
  eapply Rle_trans; [|eapply Rle_trans; [apply Rle_abs|apply cs3_len]]. unfold dot3; cbn [vx vy vz]. rewrite <- !Rabs_mult. lra.
Qed.
Lemma fl_dot3_err a b : Rabs (fl_dot3 rnd a b - dot3 a b) <= fwd u 3 * (len3 a * len3 b).
Proof.
  rewrite fl_dot3_sum. pose proof (fsum_err u rnd RN (comp3 a) (comp3 b) 3) as H.
  replace (Sum 3 (fun i => comp3 a i * comp3 b i)) with (dot3 a b) in H by (cbn; unfold dot3; ring).
  eapply Rle_trans; [exact H|]. apply Rmult_le_compat_l; [apply fwd_nonneg; apply ur|]. cbn. pose proof (abs_dot a b). lra.
Qed.
Lemma fl_dot3_err' a b : Rabs (fl_dot3 rnd a b - dot3 a b) <= 301 / 100 * u * (len3 a * len3 b).
Proof.
  eapply Rle_trans; [apply fl_dot3_err|]. pose proof (len3_nonneg a). pose proof (len3_nonneg b). apply Rmult_le_compat_r; [nra|apply fwd3].
Qed.
Lemma fl_dot3_self v : exists c, fac u 3 c /\ fl_dot3 rnd v v = dot3 v v * c.
Proof.
  pose proof ur as Hu. rewrite fl_dot3_sum. destruct (dot_near u rnd RN (comp3 v) (comp3 v) 3) as (c & Hc & E). rewrite E. clear E.
  change (Sum 3 ?f) with (0 + f 0%nat + f 1%nat + f 2%nat). cbn beta. cbn [comp3].
  pose proof (Hc 0%nat ltac:(lia)) as C0. pose proof (Hc 1%nat ltac:(lia)) as C1. pose proof (Hc 2%nat ltac:(lia)) as C2.
  destruct (Req_dec (dot3 v v) 0) as [Z|Z].
  - exists 1. split; [apply (fac_le u 0); [exact Hu|lia|apply fac_1; exact Hu]|]. pose proof (dot3_zero v Z) as ->. unfold dot3, zero3; cbn. ring.
  - exists ((vx v * vx v * c 0%nat + vy v * vy v * c 1%nat + vz v * vz v * c 2%nat) / dot3 v v). split; [|field; exact Z].
    apply near_fac. pose proof (dot3_nonneg v). assert (P : 0 < dot3 v v) by lra. destruct C0, C1, C2.
    pose proof (Rle_0_sqr (vx v)). pose proof (Rle_0_sqr (vy v)). pose proof (Rle_0_sqr (vz v)). unfold Rsqr in *.
    split; apply (Rmult_le_reg_r (dot3 v v)); try exact P; unfold Rdiv; rewrite ?Rmult_assoc, ?Rinv_l, ?Rmult_1_r by exact Z; unfold dot3; nra.
Qed.
Lemma sqrt_fac c : fac u 3 c -> fac u 2 (sqrt c).
Proof.
  intros F. pose proof ur as Hu. pose proof (fac_pos u 3 c Hu F) as P. unfold fac at 1. apply (fac_le u 3 4) in F; [|exact Hu|lia]. destruct F as [A B].
  pose proof (pow_1mu u 2 Hu) as T. set (t := (1 - u) ^ 2) in *. replace ((1 - u) ^ 4) with (t * t) in * by (unfold t; ring).
  pose proof (sqrt_lt_R0 c P) as Q. pose proof (sqrt_sqrt c ltac:(lra)) as E. set (s := sqrt c) in *. split; [apply sq_le; nra|].
  assert (W : s * t * (s * t) <= 1 * 1). { replace (s * t * (s * t)) with (s * s * (t * t)) by ring. rewrite E, Rmult_1_r. exact B. } apply sq_le; [lra|exact W].
Qed.
(** theta = sqrt(w*w) *)
Lemma fl_len v : exists c, fac u 3 c /\ rnd (sqrt (fl_dot3 rnd v v)) = len3 v * c.
Proof.
  pose proof ur as Hu. destruct (fl_dot3_self v) as (c & F & ->). pose proof (fac_pos u 3 c Hu F) as P. rewrite sqrt_mult by (try lra; apply dot3_nonneg).
  destruct (rnd_fac u rnd RN (sqrt (dot3 v v) * sqrt c)) as (d & G & ->). exists (sqrt c * d). split; [apply (fac_mul u 2 1 _ _ Hu (sqrt_fac c F) G)|].
  unfold len3. ring.
Qed.
Lemma fl_unit3_ok v : v <> zero3 -> exists q, fl_unit3 rnd v = Ok q /\ len3 (sub3 q (direction v)) <= 6 * u.
Proof.
  intros V. pose proof ur as Hu. pose proof (len3_pos v V) as L. unfold fl_unit3. destruct (fl_len v) as (c & F & ->). pose proof (fac_pos u 3 c Hu F) as P.
  rewrite (fl_div_ok rnd 1 (len3 v * c)) by nra. cbn [bind]. eexists. split; [reflexivity|].
  destruct (rnd_fac u rnd RN (1 / (len3 v * c))) as (d & G & ->). pose proof (fac_mul u 3 1 _ _ Hu (fac_inv u 3 c Hu F) G) as H.
  assert (K : forall x, Rabs (rnd (1 / (len3 v * c) * d * x) - 1 / len3 v * x) <= bwd u 5 * Rabs (1 / len3 v * x)).
  { intros x. destruct (rnd_fac u rnd RN (1 / (len3 v * c) * d * x)) as (e & J & ->).
    replace (1 / (len3 v * c) * d * x * e - 1 / len3 v * x) with ((/ c * d * e - 1) * (1 / len3 v * x)) by (field; lra).
    rewrite Rabs_mult. apply Rmult_le_compat_r; [apply Rabs_pos|]. apply fac_err; [exact Hu|]. apply (fac_mul u 4 1); assumption. }
  apply (Rle_trans _ (len3 (scale3 (bwd u 5) (direction v)))).
  - pose proof (bwd_nonneg u 5 Hu). unfold fl_scale3, direction, scale3, sub3. apply len3_comp; cbn [vx vy vz];
      (eapply Rle_trans; [apply K|]); rewrite (Rabs_mult (bwd u 5)), (Rabs_right (bwd u 5)) by lra; lra.
  - rewrite len3_sc. assert (len3 (direction v) = 1) as ->. { unfold len3 at 1. unfold direction. rewrite (unit3_len v V). apply sqrt_1. }
    pose proof (bwd_nonneg u 5 Hu). rewrite Rabs_right by lra. pose proof (bwd_num 5 ltac:(lia)) as B. replace (INR 5) with 5 in B by (cbn; lra). nra.
Qed.
(** directions of nearby vectors *)
Lemma direction_near x y e : y <> zero3 -> x <> zero3 -> len3 (sub3 x y) <= e * len3 y -> len3 (sub3 (direction x) (direction y)) <= 2 * e.
Proof.
  intros Y X H. pose proof (len3_pos y Y) as Ly. pose proof (len3_pos x X) as Lx.
  replace (sub3 (direction x) (direction y)) with (add3 (scale3 ((len3 y - len3 x) / len3 y) (direction x)) (scale3 (1 / len3 y) (sub3 x y)))
    by (unfold direction, add3, scale3, sub3; cbn [vx vy vz]; f_equal; field; lra).
  eapply Rle_trans; [apply len3_add|]. rewrite !len3_sc. assert (len3 (direction x) = 1) as ->. { unfold len3 at 1. unfold direction. rewrite (unit3_len x X). apply sqrt_1. }
  assert (D : Rabs (len3 y - len3 x) <= e * len3 y).
  { pose proof (len3_near x y). pose proof (len3_near y x). rewrite (len3_sub_sym y x) in *. apply Rabs_le_between. lra. }
  unfold Rdiv. rewrite !Rabs_mult, Rabs_R1, (Rabs_right (/ len3 y)) by (apply Rle_ge, Rlt_le, Rinv_0_lt_compat, Ly).
  assert (I : 0 < / len3 y) by (apply Rinv_0_lt_compat, Ly). assert (E : len3 y * / len3 y = 1) by (field; lra).
  assert (Rabs (len3 y - len3 x) * / len3 y <= e). { replace e with (e * len3 y * / len3 y) by (rewrite Rmult_assoc, E; ring). apply Rmult_le_compat_r; lra. }
  assert (len3 (sub3 x y) * / len3 y <= e). { replace e with (e * len3 y * / len3 y) by (rewrite Rmult_assoc, E; ring). apply Rmult_le_compat_r; lra. }
  lra.
Qed.
Lemma near_nz x y e : len3 (sub3 x y) <= e * len3 y -> e < 1 -> y <> zero3 -> x <> zero3.
Proof. intros H K Y E. subst x. pose proof (len3_pos y Y). rewrite len3_sub_sym in H. replace (sub3 y zero3) with y in H by (clear; dv; lie_unfold; f_equal; ring). nra. Qed.
Lemma direction_len v : v <> zero3 -> len3 (direction v) = 1.
Proof. intros V. unfold len3 at 1. unfold direction. rewrite (unit3_len v V). apply sqrt_1. Qed.
(** unit of a computed vector *)
Lemma fl_unit3_near x y e : y <> zero3 -> len3 (sub3 x y) <= e * len3 y -> e < 1 ->
  exists q, fl_unit3 rnd x = Ok q /\ len3 (sub3 q (direction y)) <= 6 * u + 2 * e.
Proof.
  intros Y H K. pose proof (near_nz x y e H K Y) as X. destruct (fl_unit3_ok x X) as (q & E & Q). exists q. split; [exact E|].
  eapply Rle_trans; [apply (len3_tri _ (direction x))|]. pose proof (direction_near x y e Y X H). lra.
Qed.

(** ** v - q (q.v) *)
Lemma fl_perp q a v e : len3 a = 1 -> len3 (sub3 q a) <= e -> e <= 1 / 10 ->
  len3 (sub3 (fl_sub3 rnd v (fl_scale3 rnd (fl_dot3 rnd q v) q)) (perp a v)) <= (8 * u + 21 / 10 * e) * len3 v.
Proof.
  intros A E E1. pose proof ur as Hu. pose proof (len3_nonneg v) as V. pose proof (len3_nonneg q) as Q0. pose proof (len3_near q a) as Q1. rewrite A in Q1.
  assert (Q : len3 q <= 11 / 10) by lra. clear Q1.
  set (s := fl_dot3 rnd q v). pose proof (fl_dot3_err' q v) as S1. fold s in S1. pose proof (cs3_len q v) as S2.
  assert (QV : len3 q * len3 v <= 11 / 10 * len3 v) by nra. assert (QV0 : 0 <= len3 q * len3 v) by nra.
  assert (Sb : Rabs s <= 111 / 100 * len3 v).
  { replace s with (dot3 q v + (s - dot3 q v)) by ring. eapply Rle_trans; [apply Rabs_triang|].
    assert (301 / 100 * u * (len3 q * len3 v) <= 301 / 100 * (1 / 1000) * (11 / 10 * len3 v)) by (apply Rmult_le_compat; nra). lra. }
  set (p := sub3 v (scale3 s q)).
  assert (T1 : len3 (sub3 (fl_sub3 rnd v (fl_scale3 rnd s q)) p) <= 2 * u * (1 + u) * (Rabs s * len3 q) + u * len3 v).
  { assert (K : forall x y, Rabs (rnd (x - rnd (s * y)) - (x - s * y)) <= 2 * u * (1 + u) * Rabs (s * y) + u * Rabs x).
    { intros x y. pose proof (rnd_err (s * y)) as R1. pose proof (rnd_err (x - rnd (s * y))) as R2.
      assert (R3 : Rabs (x - rnd (s * y)) <= Rabs x + (1 + u) * Rabs (s * y)).
      { unfold Rminus. eapply Rle_trans; [apply Rabs_triang|]. rewrite Rabs_Ropp. apply Rplus_le_compat_l.
        replace (rnd (s * y)) with (s * y + (rnd (s * y) - s * y)) by ring. eapply Rle_trans; [apply Rabs_triang|]. lra. }
      replace (rnd (x - rnd (s * y)) - (x - s * y)) with ((rnd (x - rnd (s * y)) - (x - rnd (s * y))) - (rnd (s * y) - s * y)) by ring.
      unfold Rminus at 1. eapply Rle_trans; [apply Rabs_triang|]. rewrite Rabs_Ropp. pose proof (Rabs_pos (s * y)). pose proof (Rabs_pos x). nra. }
    eapply Rle_trans; [|eapply Rle_trans; [apply (len3_add (mk3 (2 * u * (1 + u) * Rabs (s * vx q)) (2 * u * (1 + u) * Rabs (s * vy q)) (2 * u * (1 + u) * Rabs (s * vz q)))
       (mk3 (u * Rabs (vx v)) (u * Rabs (vy v)) (u * Rabs (vz v))))|]].
    - assert (B : forall x y, Rabs (2 * u * (1 + u) * Rabs (s * y) + u * Rabs x) = 2 * u * (1 + u) * Rabs (s * y) + u * Rabs x).
      { intros x y. pose proof (Rabs_pos (s * y)). pose proof (Rabs_pos x). assert (0 <= u * (1 + u)) by nra. apply Rabs_right. nra. }
      unfold p, fl_sub3, fl_scale3, sub3, scale3, add3. apply len3_comp; cbn [vx vy vz]; rewrite B; apply K.
    - apply Rplus_le_compat.
      + replace (mk3 (2 * u * (1 + u) * Rabs (s * vx q)) (2 * u * (1 + u) * Rabs (s * vy q)) (2 * u * (1 + u) * Rabs (s * vz q)))
          with (scale3 (2 * u * (1 + u) * Rabs s) (mk3 (Rabs (vx q)) (Rabs (vy q)) (Rabs (vz q)))) by (unfold scale3; cbn [vx vy vz]; rewrite !Rabs_mult; f_equal; ring).
        rewrite len3_sc, len3_abs. pose proof (Rabs_pos s). assert (0 <= 2 * u * (1 + u)) by nra. rewrite (Rabs_right (2 * u * (1 + u) * Rabs s)) by nra. lra.
      + replace (mk3 (u * Rabs (vx v)) (u * Rabs (vy v)) (u * Rabs (vz v))) with (scale3 u (mk3 (Rabs (vx v)) (Rabs (vy v)) (Rabs (vz v)))) by reflexivity.
        rewrite len3_sc, len3_abs, Rabs_right by lra. lra. }
  assert (T2 : len3 (sub3 p (perp q v)) <= 301 / 100 * u * (len3 q * len3 v) * len3 q).
  { replace (sub3 p (perp q v)) with (scale3 (dot3 q v - s) q) by (unfold p, perp, sub3, scale3; cbn [vx vy vz]; f_equal; ring). rewrite len3_sc.
    apply Rmult_le_compat_r; [exact Q0|]. rewrite Rabs_minus_sym. exact S1. }
  assert (T3 : len3 (sub3 (perp q v) (perp a v)) <= e * len3 v * len3 q + len3 v * e).
  { replace (sub3 (perp q v) (perp a v)) with (add3 (scale3 (- dot3 (sub3 q a) v) q) (scale3 (- dot3 a v) (sub3 q a))) by (clear; dv; unfold perp; lie_unfold; f_equal; ring).
    eapply Rle_trans; [apply len3_add|]. rewrite !len3_sc, !Rabs_Ropp. pose proof (cs3_len (sub3 q a) v) as X1. pose proof (cs3_len a v) as X2. rewrite A in X2.
    pose proof (len3_nonneg (sub3 q a)). apply Rplus_le_compat.
    - apply Rmult_le_compat_r; [exact Q0|]. eapply Rle_trans; [exact X1|]. apply Rmult_le_compat_r; assumption.
    - apply Rmult_le_compat; try assumption; [apply Rabs_pos|lra]. }
  pose proof (len3_nonneg (sub3 q a)). assert (e0 : 0 <= e) by lra.
  assert (Z1 : Rabs s * len3 q <= 1221 / 1000 * len3 v). { pose proof (Rabs_pos s). apply (Rle_trans _ (111 / 100 * len3 v * (11 / 10))); [apply Rmult_le_compat; lra|lra]. }
  assert (Z2 : 2 * u * (1 + u) * (Rabs s * len3 q) <= 2 * u * (1001 / 1000) * (1221 / 1000 * len3 v)).
  { assert (0 <= Rabs s * len3 q) by (apply Rmult_le_pos; [apply Rabs_pos|exact Q0]). apply Rmult_le_compat; [nra|assumption|nra|assumption]. }
  assert (Z3 : 301 / 100 * u * (len3 q * len3 v) * len3 q <= 301 / 100 * u * (11 / 10 * len3 v) * (11 / 10)).
  { apply Rmult_le_compat; [apply Rmult_le_pos; lra|exact Q0| |exact Q]. apply Rmult_le_compat_l; lra. }
  assert (Z4 : e * len3 v * len3 q <= e * len3 v * (11 / 10)). { apply Rmult_le_compat_l; [nra|exact Q]. }
  eapply Rle_trans; [apply (len3_tri _ p)|]. pose proof (len3_tri p (perp q v) (perp a v)) as Tr.
  assert (uv : 0 <= u * len3 v) by nra. lra.
Qed.
(** ** cross product *)
Lemma fl_cross a b : len3 (sub3 (fl_cross3 rnd a b) (cross3 a b)) <= 41 / 10 * u * (len3 a * len3 b).
Proof.
  pose proof ur as Hu. destruct (comp_len a) as (A0 & A1 & A2).
  assert (K : forall x y z w, Rabs (rnd (rnd (x * y) - rnd (z * w)) - (x * y - z * w)) <= 201 / 100 * u * (Rabs (x * y) + Rabs (z * w))).
  { intros x y z w. destruct (rnd_near u rnd RN (x * y)) as (c1 & N1 & ->). destruct (rnd_near u rnd RN (z * w)) as (c2 & N2 & ->).
    destruct (rnd_near u rnd RN (x * y * c1 - z * w * c2)) as (c3 & N3 & ->).
    pose proof (near_err u 2 _ Hu (near_mul u 1 1 _ _ Hu N1 N3)) as M1. pose proof (near_err u 2 _ Hu (near_mul u 1 1 _ _ Hu N2 N3)) as M2. pose proof fwd2 as F2.
    replace ((x * y * c1 - z * w * c2) * c3 - (x * y - z * w)) with (x * y * (c1 * c3 - 1) - z * w * (c2 * c3 - 1)) by ring.
    unfold Rminus at 1. eapply Rle_trans; [apply Rabs_triang|]. rewrite Rabs_Ropp, !Rabs_mult, <- !Rabs_mult. rewrite (Rabs_mult (x * y)), (Rabs_mult (z * w)).
    pose proof (Rabs_pos (x * y)). pose proof (Rabs_pos (z * w)). nra. }
  assert (M : forall x y z w, Rabs (x * y) + Rabs (z * w) <= len3 a * len3 b -> Rabs (rnd (rnd (x * y) - rnd (z * w)) - (x * y - z * w)) <= 201 / 100 * u * (len3 a * len3 b)).
  { intros x y z w H. eapply Rle_trans; [apply K|]. apply Rmult_le_compat_l; lra. }
  assert (P : forall p q r s, (p * p + q * q <= len3 a * len3 a) -> (r * r + s * s <= len3 b * len3 b) -> Rabs (p * s) + Rabs (q * r) <= len3 a * len3 b).
  { intros p q r s X Y. rewrite !Rabs_mult. pose proof (len3_nonneg a). pose proof (len3_nonneg b). apply sq_le; [nra|].
    assert (Rabs p * Rabs p = p * p) by (rewrite <- Rabs_mult, Rabs_right; nra). assert (Rabs q * Rabs q = q * q) by (rewrite <- Rabs_mult, Rabs_right; nra).
    assert (Rabs r * Rabs r = r * r) by (rewrite <- Rabs_mult, Rabs_right; nra). assert (Rabs s * Rabs s = s * s) by (rewrite <- Rabs_mult, Rabs_right; nra).
    set (P := Rabs p) in *. set (Q := Rabs q) in *. set (R := Rabs r) in *. set (S := Rabs s) in *.
    apply (Rle_trans _ ((P * P + Q * Q) * (R * R + S * S))). { pose proof (Rle_0_sqr (P * R - Q * S)). unfold Rsqr in *. nra. }
    replace (len3 a * len3 b * (len3 a * len3 b)) with ((len3 a * len3 a) * (len3 b * len3 b)) by ring. apply Rmult_le_compat; nra. }
  pose proof (len3_sq a) as Sa. pose proof (len3_sq b) as Sb. unfold dot3 in Sa, Sb.
  apply (Rle_trans _ (2 * (201 / 100 * u * (len3 a * len3 b)))).
  - unfold fl_cross3, cross3, sub3. apply len3_max; cbn [vx vy vz]; apply M.
    + apply P; nra.
    + apply P; nra.
    + apply P; nra.
  - pose proof (len3_nonneg a). pose proof (len3_nonneg b). assert (0 <= len3 a * len3 b) by nra. assert (0 <= u * (len3 a * len3 b)) by nra. lra.
Qed.
(** ** products of matrices *)
Lemma fl_mv_err m v : len3 (sub3 (fl_mv3 rnd m v) (mv3 m v)) <= fwd u 3 * (fro m * len3 v).
Proof.
  pose proof (fwd_nonneg u 3 ltac:(apply ur)) as F. pose proof (len3_nonneg v) as V. rewrite fro_rl.
  replace (fwd u 3 * (len3 (rl m) * len3 v)) with (len3 (scale3 (fwd u 3 * len3 v) (rl m))) by (rewrite len3_sc, Rabs_right by nra; ring).
  unfold fl_mv3, mv3, sub3, scale3, rl. apply len3_comp; cbn [vx vy vz]; (eapply Rle_trans; [apply fl_dot3_err|]);
    rewrite Rabs_right; try lra; apply Rle_ge, Rmult_le_pos; try (apply Rmult_le_pos; assumption); apply len3_nonneg.
Qed.
Lemma fl_vm_tr v m : fl_vm3 rnd v m = fl_mv3 rnd (tr3 m) v.
Proof. unfold fl_vm3, fl_mv3, fl_dot3. f_equal; rewrite (Rmult_comm (vx v)), (Rmult_comm (vy v)), (Rmult_comm (vz v)); reflexivity. Qed.
Lemma fl_mm_err a b : dist (fl_mm3 rnd a b) (mm3 a b) <= fwd u 3 * (fro a * fro b).
Proof.
  pose proof (fwd_nonneg u 3 ltac:(apply ur)) as F. unfold dist. rewrite (fro_rl a). pose proof (fro_nonneg b) as B.
  replace (fwd u 3 * (len3 (rl a) * fro b)) with (len3 (scale3 (fwd u 3 * fro b) (rl a))) by (rewrite len3_sc, Rabs_right by nra; ring).
  apply fro_le_v; unfold subM, fl_mm3, mm3, scale3, rl; cbn [r0 r1 r2 vx vy vz]; rewrite fl_vm_tr, vm3_tr;
    (eapply Rle_trans; [apply fl_mv_err|]); rewrite fro_tr; lra.
Qed.
Lemma fl_mul_near a b p q d e : rotation p -> rotation q -> dist a p <= d -> dist b q <= e ->
  dist (fl_mm3 rnd a b) (mm3 p q) <= (1 + d) * (1 + e) * (1 + 3 * fwd u 3) - 1.
Proof.
  intros P Q D E. pose proof (fwd_nonneg u 3 ltac:(apply ur)) as F. eapply Rle_trans; [apply (dist_tri _ (mm3 a b))|].
  pose proof (fl_mm_err a b) as X. pose proof (dist_mm a b p q d e P Q D E) as Y.
  pose proof (fro_near a p d P D) as Fa. pose proof (fro_near b q e Q E) as Fb. pose proof (fro_nonneg a). pose proof (fro_nonneg b).
  pose proof (dist_nonneg a p). pose proof (dist_nonneg b q).
  assert (G : fro a * fro b <= 3 * ((1 + d) * (1 + e))).
  { assert (0 <= (1 + d) * (1 + e)) by nra. apply sq_le; [lra|]. replace (fro a * fro b * (fro a * fro b)) with ((fro a * fro a) * (fro b * fro b)) by ring.
    replace (3 * ((1 + d) * (1 + e)) * (3 * ((1 + d) * (1 + e)))) with ((3 * ((1 + d) * (1 + d))) * (3 * ((1 + e) * (1 + e)))) by ring.
    apply Rmult_le_compat; nra. }
  assert (fwd u 3 * (fro a * fro b) <= fwd u 3 * (3 * ((1 + d) * (1 + e)))) by (apply Rmult_le_compat_l; assumption). nra.
Qed.
End S.
