(** * C105: the downhill simplex optimizer in floating point. *)
From Coq Require Import Reals ZArith Arith Bool Lra Lia Psatz FunctionalExtensionality.
From Flocq Require Import Core.
From Verif Require Import Base Alg SpecMat Inst RSum LemEig SpecFl LemFl LemFlChol3 ModelFl ModelCG ModelSimplex SpecSimplex PropSimplex ExFl ExFlSO3 ModelFlSimplex LemFlSimplex.
Open Scope outcome_scope.
Local Open Scope R_scope.

(** without rounding this is the model of C67 *)
Lemma scan_id s w : forall k, fl_ds_scan (fun x => x) s w k = ds_scan s w k.
Proof. induction k as [|k IH]; [reflexivity|]. cbn [fl_ds_scan ds_scan]. rewrite IH. reflexivity. Qed.
Theorem C105_model_is_exact_model : forall me f n c spread s, fl_ds_new (fun x => x) me f n c spread = ds_new me f n c spread /\ fl_ds_restart (fun x => x) f spread s = ds_restart f spread s /\ fl_ds_iterate (fun x => x) f s = ds_iterate f s.
Proof.
  intros. split; [reflexivity|]. split; [reflexivity|]. unfold fl_ds_iterate, ds_iterate.
  assert (E : fl_ds_find_next_point (fun x => x) f s = ds_find_next_point f s) by (unfold fl_ds_find_next_point; rewrite scan_id; reflexivity). rewrite E.
  destruct (ds_find_next_point f s) as [s'| | | | |]; [|reflexivity..]. reflexivity.
Qed.
Section A.
Variables (u : R) (rnd : R -> R).
Hypothesis RN : rounding u rnd.
Let U : 0 <= u < 1. Proof. apply RN. Qed.
Lemma app_exact k X : app u k (Rabs X) X X. Proof. apply (app_k u rnd RN 0); [lia|apply app_0]. Qed.
Lemma x0_app s w k : (0 < ds_n s)%nat -> (w <= ds_n s)%nat -> app u (ds_n s + 3) (centroid_but (ds_n s) (fun i k => Rabs (ds_simplex s i k)) w k) (rnd (sc_x0 (fl_ds_scan rnd s w (ds_n s + 1)) k * rnd (1 / INR (ds_n s)))) (centroid_but (ds_n s) (ds_simplex s) w k).
Proof.
  intros Hn Hw. assert (Nn : 0 < INR (ds_n s)) by (apply lt_0_INR; lia). pose proof (fscan_sum u rnd RN s w k (ds_n s + 1)) as A. rewrite (sum_but (ds_n s + 1) (fun i => Rabs (ds_simplex s i k)) w) in A by lia. rewrite scan_sum, sum_but in A by lia.
  pose proof (app_rnd u rnd RN 0 _ _ _ (app_0 u (1 / INR (ds_n s)))) as B. pose proof (app_rnd u rnd RN _ _ _ _ (app_mul u rnd RN _ _ _ _ _ _ _ _ A B)) as C. replace (S (ds_n s + 1 + 1))%nat with (ds_n s + 3)%nat in C by lia.
  rewrite (Rabs_right (1 / INR (ds_n s))) in C by (apply Rle_ge; apply Rlt_le, Rdiv_lt_0_compat; lra). assert (Ez : forall z, z * (1 / INR (ds_n s)) = z / INR (ds_n s)) by (intros z; field; lra). rewrite !Ez in C. exact C.
Qed.
Lemma away_app n C X0 x0 V a k : app u (n + 3) C x0 X0 -> forall v w, x0 = v k -> V = w k -> app u (n + 6) (Rabs (1 + a) * C + Rabs a * Rabs V) (fl_away rnd v w a k) (X0 + a * (X0 - V)).
Proof.
  intros A v w -> ->. unfold fl_away. replace (X0 + a * (X0 - w k)) with ((1 + a) * X0 - a * w k) by ring. replace (n + 6)%nat with (S (n + 5)) by lia. apply app_rnd; [exact RN|]. apply (app_sub u).
  - replace (n + 5)%nat with (S (1 + (n + 3))) by lia. apply app_rnd; [exact RN|]. apply (app_mul u rnd RN); [apply app_rnd; [exact RN|apply app_0]|exact A].
  - apply (app_k u rnd RN 1); [lia|]. apply app_rnd; [exact RN|]. rewrite <- Rabs_mult. apply app_0.
Qed.
(** the step is the Nelder-Mead step: the decisions are those of the exact algorithm with the same values, and each new vertex is as near the exact one as n + 8 roundings allow *)
Theorem C105_step : forall f s, (0 < ds_n s)%nat -> exists s', fl_ds_find_next_point rnd f s = Ok s' /\ exists w b sw xr xe xc, let n := ds_n s in let V := ds_simplex s in let v := ds_values s in
  first_max n v w /\ first_min n v b /\ largest_but n v w sw /\
  (ds_n s' = n /\ ds_alpha s' = ds_alpha s /\ ds_rho s' = ds_rho s /\ ds_gamma s' = ds_gamma s /\ ds_sigma s' = ds_sigma s /\ ds_epsilon s' = ds_epsilon s /\ ds_zero_epsilon s' = ds_zero_epsilon s) /\
  let x0 := centroid_but n V w in let C := centroid_but n (fun i k => Rabs (V i k)) w in
  (forall k, Rabs (xr k - away x0 (V w) (ds_alpha s) k) <= fwd u (n + 6) * (Rabs (1 + ds_alpha s) * C k + Rabs (ds_alpha s) * Rabs (V w k))) /\
  (forall k, Rabs (xc k - away x0 (V w) (ds_gamma s) k) <= fwd u (n + 6) * (Rabs (1 + ds_gamma s) * C k + Rabs (ds_gamma s) * Rabs (V w k))) /\
  (forall k, Rabs (xe k - away x0 (V w) (ds_rho s * ds_alpha s) k) <= fwd u (n + 8) * (Rabs (ds_rho s) * (Rabs (1 + ds_alpha s) * C k + Rabs (ds_alpha s) * Rabs (V w k)) + Rabs (1 - ds_rho s) * C k)) /\
  let replace_worst p := replaced V w p n (ds_simplex s') /\ replaced v w (f p) n (ds_values s') in
  ((f xr < v b /\ f xe < f xr /\ replace_worst xe) \/
  (f xr < v b /\ f xr <= f xe /\ replace_worst xr) \/
  (v b <= f xr < sw /\ replace_worst xr) \/
  (v b <= f xr /\ sw <= f xr < v w /\ f xc <= f xr /\ replace_worst xc) \/
  (v b <= f xr /\ sw <= f xr /\ (v w <= f xr \/ f xr < f xc) /\
   (forall i, (i <= n)%nat -> i <> b -> (forall k, Rabs (ds_simplex s' i k - (V b k + ds_sigma s * (V i k - V b k))) <= fwd u 3 * (Rabs (V b k) + Rabs (ds_sigma s) * (Rabs (V i k) + Rabs (V b k)))) /\ ds_values s' i = f (ds_simplex s' i)) /\ ds_simplex s' b = V b /\ ds_values s' b = v b)).
Proof.
  intros f s Hn. destruct (fl_step rnd f s Hn) as (s' & E & w & b & sw & Hw & Hb & Hsw & N & P). cbn zeta in P. exists s'. split; [exact E|].
  set (x0 := fun k => rnd (sc_x0 (fl_ds_scan rnd s w (ds_n s + 1)) k * rnd (1 / INR (ds_n s)))) in *. set (xr := fl_away rnd x0 (ds_simplex s w) (ds_alpha s)) in *. set (xe := fl_mix rnd xr x0 (ds_rho s)) in *. set (xc := fl_away rnd x0 (ds_simplex s w) (ds_gamma s)) in *.
  exists w, b, sw, xr, xe, xc. cbn zeta. split; [exact Hw|]. split; [exact Hb|]. split; [exact Hsw|]. split; [exact N|].
  assert (X : forall k, app u (ds_n s + 3) (centroid_but (ds_n s) (fun i k => Rabs (ds_simplex s i k)) w k) (x0 k) (centroid_but (ds_n s) (ds_simplex s) w k)) by (intros k; apply x0_app; [exact Hn|destruct Hw as (Hw & _); exact Hw]).
  split. { intros k. apply (away_app _ _ _ _ _ (ds_alpha s) k (X k) x0 (ds_simplex s w) eq_refl eq_refl). }
  split. { intros k. apply (away_app _ _ _ _ _ (ds_gamma s) k (X k) x0 (ds_simplex s w) eq_refl eq_refl). }
  split.
  { intros k. pose proof (away_app _ _ _ _ _ (ds_alpha s) k (X k) x0 (ds_simplex s w) eq_refl eq_refl) as A. fold xr in A. unfold xe, fl_mix, away. set (X0 := centroid_but (ds_n s) (ds_simplex s) w k) in *.
    replace (X0 + ds_rho s * ds_alpha s * (X0 - ds_simplex s w k)) with (ds_rho s * (X0 + ds_alpha s * (X0 - ds_simplex s w k)) + (1 - ds_rho s) * X0) by ring. replace (ds_n s + 8)%nat with (S (ds_n s + 7)) by lia.
    apply (app_rnd u rnd RN). apply (app_add u).
    - replace (ds_n s + 7)%nat with (S (0 + (ds_n s + 6))) by lia. apply (app_rnd u rnd RN), (app_mul u rnd RN); [apply app_0|exact A].
    - apply (app_k u rnd RN (S (1 + (ds_n s + 3)))); [lia|]. apply (app_rnd u rnd RN), (app_mul u rnd RN); [apply (app_rnd u rnd RN), app_0|apply X]. }
  destruct P as [P|[P|[P|[P|(T1 & T2 & T3 & Sh & P)]]]]; [left; exact P|right; left; exact P|right; right; left; exact P|right; right; right; left; exact P|].
  right. right. right. right. split; [exact T1|]. split; [exact T2|]. split; [exact T3|]. split; [|exact P]. intros i Hi Ni. destruct (Sh i Hi Ni) as [S1 S2]. split; [|exact S2]. intros k. rewrite S1. unfold fl_shrunk.
  apply (app_rnd u rnd RN 2). apply (app_add u); [apply app_exact|]. apply (app_rnd u rnd RN 1). change 1%nat with (0 + 1)%nat. apply (app_mul u rnd RN); [apply app_0|]. apply (app_rnd u rnd RN). apply (app_sub u); apply app_0.
Qed.
End A.
(** ** every history, whatever the arithmetic rounds to: no assumption on rnd *)
Inductive fl_reaches (rnd : R -> R) (f : point -> R) (s0 : ds) : ds -> Prop :=
| fl_start : fl_reaches rnd f s0 s0
| fl_next s s' : fl_reaches rnd f s0 s -> fl_ds_find_next_point rnd f s = Ok s' -> fl_reaches rnd f s0 s'
| fl_again s spread : fl_reaches rnd f s0 s -> fl_reaches rnd f s0 (fl_ds_restart rnd f spread s)
| fl_params s a r g si e z : fl_reaches rnd f s0 s -> fl_reaches rnd f s0 (mkds (ds_n s) a r g si e z (ds_simplex s) (ds_values s)).
Lemma fl_step_consistent rnd f s s' : (0 < ds_n s)%nat -> ds_consistent f s -> fl_ds_find_next_point rnd f s = Ok s' -> ds_consistent f s' /\ ds_n s' = ds_n s /\ best_value s' <= best_value s.
Proof.
  intros Hn C E. destruct (fl_step rnd f s Hn) as (s1 & E1 & w & b & sw & Hw & Hb & Hsw & (N & _) & P). rewrite E1 in E. injection E as <-. cbn zeta in P. set (x0 := fun k => rnd _) in P. set (xr := fl_away rnd x0 _ (ds_alpha s)) in P. set (xe := fl_mix rnd xr x0 (ds_rho s)) in P. set (xc := fl_away rnd x0 _ (ds_gamma s)) in P.
  pose proof (proj1 (C67_get_best_worst s)) as Gb. assert (Eb : get_best s = b) by (eapply first_min_unique; eassumption). unfold best_value. rewrite Eb. destruct (proj1 (C67_get_best_worst s1)) as (B1 & B2 & _). rewrite N in B1, B2.
  assert (RC : forall p, replaced (ds_simplex s) w p (ds_n s) (ds_simplex s1) -> replaced (ds_values s) w (f p) (ds_n s) (ds_values s1) -> f p <= ds_values s b \/ f p < ds_values s w -> ds_consistent f s1 /\ ds_n s1 = ds_n s /\ ds_values s1 (get_best s1) <= ds_values s b).
  { intros p R1 R2 L. split; [|split; [exact N|]].
    - intros i Hi. rewrite N in Hi. rewrite R1, R2 by exact Hi. destruct (i =? w)%nat; [reflexivity|apply C; exact Hi].
    - destruct Hb as (Hb1 & Hb2 & _). destruct Hw as (Hw1 & Hw2 & _). destruct (Nat.eq_dec b w) as [Ew|Ew].
      + eapply Rle_trans; [apply (B2 w Hw1)|]. rewrite R2 by exact Hw1. rewrite Nat.eqb_refl. rewrite Ew in *. lra.
      + eapply Rle_trans; [apply (B2 b Hb1)|]. rewrite R2 by exact Hb1. destruct (Nat.eqb_spec b w); [contradiction|lra]. }
  pose proof Hw as (Hw1 & Hw2 & _). destruct Hsw as ((j & J1 & J2 & J3) & Ls). pose proof (Hw2 j J1) as Jw.
  destruct P as [(T1 & T2 & R1 & R2)|[(T1 & T2 & R1 & R2)|[(T1 & R1 & R2)|[(T1 & T2 & T3 & R1 & R2)|(T1 & T2 & T3 & Sh & Sb & Sv)]]]].
  - apply (RC xe R1 R2). lra.
  - apply (RC xr R1 R2). lra.
  - apply (RC xr R1 R2). lra.
  - apply (RC xc R1 R2). lra.
  - split; [|split; [exact N|]].
    + intros i Hi. rewrite N in Hi. destruct (Nat.eq_dec i b) as [->|Ni]; [rewrite Sb, Sv; apply C; exact Hi|apply Sh; assumption].
    + destruct Hb as (Hb1 & _). rewrite <- Sv. apply B2. exact Hb1.
Qed.
Lemma fl_restart_consistent rnd f c spread s : ds_consistent f (fl_ds_restart_at rnd f c spread s).
Proof. intros i Hi. reflexivity. Qed.
Lemma fl_restart_best rnd f spread s : ds_consistent f s -> best_value (fl_ds_restart rnd f spread s) <= best_value s.
Proof.
  intros C. unfold best_value. destruct (C67_get_best_worst (fl_ds_restart rnd f spread s)) as ((_ & B & _) & _). eapply Rle_trans; [apply (B (ds_n s)); cbn; lia|]. unfold fl_ds_restart, fl_ds_restart_at, ds_with. cbn [ds_values ds_simplex ds_n].
  rewrite Nat.ltb_irrefl. rewrite C by (destruct (C67_get_best_worst s) as ((G & _) & _); exact G). apply Rle_refl.
Qed.
Theorem C105_history : forall rnd me f n c spread s, (0 < n)%nat -> fl_reaches rnd f (fl_ds_new rnd me f n c spread) s ->
  ds_n s = n /\ (forall i, (i <= n)%nat -> ds_values s i = f (ds_simplex s i)) /\ best_value s <= f c /\
  (exists s', fl_ds_find_next_point rnd f s = Ok s' /\ best_value s' <= best_value s) /\ (forall sp, best_value (fl_ds_restart rnd f sp s) <= best_value s).
Proof.
  intros rnd me f n c spread s Hn H. assert (ds_consistent f s /\ ds_n s = n /\ best_value s <= f c) as (C & N & B).
  { induction H as [|s s' H (C & N & B) E|s sp H (C & N & B)|s a r g si e z H (C & N & B)].
    - split; [apply fl_restart_consistent|]. split; [reflexivity|]. unfold best_value. destruct (C67_get_best_worst (fl_ds_new rnd me f n c spread)) as ((_ & B & _) & _). eapply Rle_trans; [apply (B n); cbn; lia|]. unfold fl_ds_new, fl_ds_restart_at, ds_with. cbn [ds_values ds_n]. rewrite Nat.ltb_irrefl. apply Rle_refl.
    - destruct (fl_step_consistent rnd f s s' ltac:(lia) C E) as (C' & N' & B'). split; [exact C'|]. split; [congruence|lra].
    - split; [apply fl_restart_consistent|]. split; [exact N|]. pose proof (fl_restart_best rnd f sp s C). lra.
    - split; [exact C|]. split; [exact N|exact B]. }
  split; [exact N|]. split; [rewrite <- N; exact C|]. split; [exact B|]. split; [|intros sp; apply fl_restart_best; exact C].
  destruct (fl_step rnd f s ltac:(lia)) as (s' & E & _). exists s'. split; [exact E|]. apply (fl_step_consistent rnd f s s' ltac:(lia) C E).
Qed.
(** ** the stopping test *)
Section F.
Variables (u : R) (rnd : R -> R).
Hypothesis RN : rounding u rnd.
Let U : 0 <= u < 1. Proof. apply RN. Qed.
Lemma near_sqrt k c : near u k c -> near u k (sqrt c).
Proof.
  intros (A & B). unfold near. pose proof (pow_1mu u k U). pose proof (pow_1pu u k ltac:(lra)). set (a := (1 - u) ^ k) in *. set (b := (1 + u) ^ k) in *. assert (C1 : 0 <= c) by lra. assert (D1 : a * a <= c) by nra. assert (D2 : c <= b * b) by nra. split.
  - rewrite <- (sqrt_square a) by lra. apply sqrt_le_1; [nra|exact C1|exact D1].
  - rewrite <- (sqrt_square b) by lra. apply sqrt_le_1; [exact C1|nra|exact D2].
Qed.
Lemma pnorm_near n p : exists c, near u (n + 1) c /\ fl_pnorm rnd n p = pnorm n p * c.
Proof.
  unfold fl_pnorm, pnorm. destruct (dot_near u rnd RN p p n) as (c & Hc & E). unfold fsum in E. rewrite E. set (T := Sum n (fun k => p k * p k)). 
  assert (T0 : 0 <= T) by (apply S_nonneg; intros; nra).
  assert (LU : (1 - u) ^ n * T <= Sum n (fun i => p i * p i * c i) <= (1 + u) ^ n * T).
  { unfold T. rewrite <- !S_mul_l. split; apply S_mono; intros i Hi; destruct (Hc i Hi) as (A & B); pose proof (pow_1mu u n U); nra. }
  destruct (rnd_near u rnd RN (sqrt (Sum n (fun i => p i * p i * c i)))) as (d & Hd & ->). destruct (Req_dec T 0) as [Z|Z].
  - exists 1. split; [apply (near_le u 0); [exact U|lia|apply near_1]|]. rewrite Z in *. assert (Q : Sum n (fun i => p i * p i * c i) = 0) by lra. rewrite Q, sqrt_0. ring.
  - exists (sqrt (Sum n (fun i => p i * p i * c i) / T) * d). split.
    + apply near_mul; [exact U| |exact Hd]. apply near_sqrt. split; [apply (Rmult_le_reg_r T); [lra|]|apply (Rmult_le_reg_r T); [lra|]]; unfold Rdiv; rewrite Rmult_assoc, Rinv_l by lra; lra.
    + assert (P0 : 0 <= Sum n (fun i => p i * p i * c i)) by (pose proof (pow_1mu u n U); nra). rewrite sqrt_div by lra. field. intros K. apply sqrt_eq_0 in K; lra.
Qed.
Lemma pnorm_diff n x y : exists c, near u (n + 2) c /\ fl_pnorm rnd n (fun k => rnd (x k - y k)) = pnorm n (fun k => x k - y k) * c.
Proof.
  destruct (pnorm_near n (fun k => rnd (x k - y k))) as (c & Hc & ->). set (P := pnorm n (fun k => rnd (x k - y k))). set (Q := pnorm n (fun k => x k - y k)).
  assert (LU : (1 - u) * Q <= P <= (1 + u) * Q).
  { unfold P, Q, pnorm. set (T := Sum n (fun k => (x k - y k) * (x k - y k))). assert (T0 : 0 <= T) by (apply S_nonneg; intros; apply Rle_0_sqr).
    assert (B : (1 - u) * (1 - u) * T <= Sum n (fun k => rnd (x k - y k) * rnd (x k - y k)) <= (1 + u) * (1 + u) * T).
    { unfold T. rewrite <- !S_mul_l. split; apply S_mono; intros i Hi; destruct (rnd_d u rnd RN (x i - y i)) as (d & Hd & ->); set (t := x i - y i); assert (- u <= d <= u) by (unfold Rabs in Hd; destruct (Rcase_abs d); lra); replace (t * (1 + d) * (t * (1 + d))) with ((1 + d) * (1 + d) * (t * t)) by ring; apply Rmult_le_compat_r; nra. }
    destruct B as [B1 B2]. set (W := Sum n (fun k => rnd (x k - y k) * rnd (x k - y k))) in *. assert (W0 : 0 <= (1 - u) * (1 - u) * T) by (apply Rmult_le_pos; [nra|exact T0]). assert (E1 : (1 - u) * sqrt T = sqrt ((1 - u) * (1 - u) * T)) by (rewrite sqrt_mult, sqrt_square by (lra || nra); reflexivity). assert (E2 : (1 + u) * sqrt T = sqrt ((1 + u) * (1 + u) * T)) by (rewrite sqrt_mult, sqrt_square by (lra || nra); reflexivity).
    rewrite E1, E2. split; apply sqrt_le_1; lra. }
  assert (Q0 : 0 <= Q) by apply sqrt_pos. destruct (Req_dec Q 0) as [Z|Z].
  - exists 1. split; [apply (near_le u 0); [exact U|lia|apply near_1]|]. rewrite Z in *. assert (P = 0) as -> by lra. ring.
  - exists (P / Q * c). split.
    + replace (n + 2)%nat with (1 + (n + 1))%nat by lia. apply near_mul; [exact U| |exact Hc]. unfold near. rewrite !pow_1. split; (apply (Rmult_le_reg_r Q); [lra|]; unfold Rdiv; rewrite Rmult_assoc, Rinv_l by lra; lra).
    + field. exact Z.
Qed.
(** finished() compares the size of the simplex with the bounds up to a relative error of 2n + 4 roundings *)
Theorem C105_finished : forall s, let n := ds_n s in let b := ds_simplex s (get_best s) in let w := ds_simplex s (get_worst s) in let span := pnorm n (fun k => b k - w k) in let scale := pnorm n b in
  exists c d, near u (n + 2) c /\ fac u (2 * n + 4) d /\ (fl_ds_finished rnd s = true <-> span * c < ds_zero_epsilon s \/ (scale <> 0 /\ span / scale * d < ds_epsilon s)).
Proof.
  intros s n b w span scale. assert (EF : fl_ds_finished rnd s = ((if R_eqb (fl_pnorm rnd n b) 0 then false else R_ltb (rnd (fl_pnorm rnd n (fun k => rnd (b k - w k)) / fl_pnorm rnd n b)) (ds_epsilon s)) || R_ltb (fl_pnorm rnd n (fun k => rnd (b k - w k))) (ds_zero_epsilon s))) by reflexivity.
  rewrite EF. clear EF. destruct (pnorm_diff n b w) as (c & Hc & ->). destruct (pnorm_near n b) as (e & He & ->). fold span scale.
  assert (FC : fac u (n + 2) c). { destruct Hc as (A & B). split; [exact A|]. pose proof (pow_1mu u (n + 2) U). pose proof (pow_1pu u (n + 2) ltac:(lra)). apply Rle_trans with ((1 + u) ^ (n + 2) * (1 - u) ^ (n + 2)); [apply Rmult_le_compat_r; lra|]. rewrite <- Rpow_mult_distr. apply (Rle_trans _ (1 ^ (n + 2))); [apply pow_incr; nra|rewrite pow1; lra]. }
  assert (FE : fac u (n + 1) e). { destruct He as (A & B). split; [exact A|]. pose proof (pow_1mu u (n + 1) U). pose proof (pow_1pu u (n + 1) ltac:(lra)). apply Rle_trans with ((1 + u) ^ (n + 1) * (1 - u) ^ (n + 1)); [apply Rmult_le_compat_r; lra|]. rewrite <- Rpow_mult_distr. apply (Rle_trans _ (1 ^ (n + 1))); [apply pow_incr; nra|rewrite pow1; lra]. }
  pose proof (fac_pos u _ e U FE) as Pe. destruct (Req_dec scale 0) as [Z|Z].
  - exists c, 1. split; [exact Hc|]. split; [apply (fac_le u 0); [exact U|lia|apply fac_1; exact U]|]. rewrite orb_true_iff, (R_ltb_spec (span * c)). rewrite Z, Rmult_0_l. assert (T : R_eqb 0 0 = true) by (apply R_eqb_spec; reflexivity). rewrite T. split; [intros [H|H]; [discriminate|left; exact H]|intros [H|[H _]]; [right; exact H|lra]].
  - assert (T : R_eqb (scale * e) 0 = false). { apply not_true_is_false. intros H. apply R_eqb_spec in H. apply Rmult_integral in H. destruct H; lra. } rewrite T. destruct (rnd_fac u rnd RN (span * c / (scale * e))) as (g & Fg & ->). exists c, (c * / e * g). split; [exact Hc|]. split.
    + replace (2 * n + 4)%nat with (n + 2 + (n + 1) + 1)%nat by lia. apply fac_mul; [exact U| |exact Fg]. apply fac_mul; [exact U|exact FC|apply fac_inv; assumption].
    + rewrite orb_true_iff, !R_ltb_spec. replace (span * c / (scale * e) * g) with (span / scale * (c * / e * g)) by (field; split; lra). tauto.
Qed.
End F.
(** ** In double precision the simplex can collapse *)
Local Instance p53 : Prec_gt_0 53 := eq_refl.
Lemma tie_1_2 x n : 1 <= x < 2 -> x * bpow radix2 52 = IZR n + / 2 -> Z.even n = true -> rnd64 x = IZR n * bpow radix2 (-52).
Proof.
  intros X N E. assert (M : Raux.mag radix2 x = 1%Z :> Z). { apply mag_unique_pos. cbn. lra. }
  unfold rnd64, round, F2R, scaled_mantissa, cexp, FLX_exp. rewrite M. cbn [Fnum Fexp]. replace (- (1 - 53))%Z with 52%Z by lia. replace (1 - 53)%Z with (-52)%Z by lia. rewrite N. f_equal. f_equal.
  assert (F : Zfloor (IZR n + / 2) = n) by (apply Zfloor_imp; rewrite plus_IZR; lra). unfold Znearest. rewrite F. replace (IZR n + / 2 - IZR n) with (/ 2) by ring. rewrite Rcompare_Eq by reflexivity. rewrite E. reflexivity.
Qed.
Notation ep := (/ 2 ^ 52).
Lemma tie_one : rnd64 (1 + / 2 * ep) = 1.
Proof. rewrite (tie_1_2 _ (2 ^ 52)); [change (IZR (2 ^ 52)) with (IZR 4503599627370496); cbn; lra|lra|change (IZR (2 ^ 52)) with (IZR 4503599627370496); cbn; lra|reflexivity]. Qed.
(** (the exact algorithm never does this, C67_never_collapses) one variable, start 1, spread 2^-52, function |x - 1|, a legal start: after one step both vertices are the start point *)
Theorem C105_never_collapses_refuted : forall me, let f := fun p : point => Rabs (p 0%nat - 1) in let s := fl_ds_new rnd64 me f 1 (fun _ => 1) (/ 2 ^ 52) in
  affinely_independent (ds_n s) (ds_simplex s) /\ exists s', fl_ds_find_next_point rnd64 f s = Ok s' /\ ds_simplex s' 0%nat 0%nat = 1 /\ ds_simplex s' 1%nat 0%nat = 1.
Proof.
  intros me f s. assert (R1 : rnd64 1 = 1) by (exact_ 1%Z 0%Z). assert (R2 : rnd64 2 = 2) by (exact_ 2%Z 0%Z). assert (RE : rnd64 ep = ep) by (exact_ 1%Z (-52)%Z). assert (RH : rnd64 (/ 2 * ep) = / 2 * ep) by (exact_ 1%Z (-53)%Z). assert (RB : rnd64 (1 + ep) = 1 + ep) by (exact_ (2 ^ 52 + 1)%Z (-52)%Z). assert (RA : rnd64 (1 - ep) = 1 - ep) by (exact_ (2 ^ 52 - 1)%Z (-52)%Z).
  assert (V0 : ds_simplex s 0%nat 0%nat = 1 + ep) by exact RB. assert (V1 : ds_simplex s 1%nat 0%nat = 1) by reflexivity.
  assert (v0 : ds_values s 0%nat = ep). { change (ds_values s 0%nat) with (Rabs (rnd64 (1 + ep) - 1)). rewrite RB. replace (1 + ep - 1) with ep by ring. apply Rabs_right. lra. }
  assert (v1 : ds_values s 1%nat = 0). { change (ds_values s 1%nat) with (Rabs (1 - 1)). replace (1 - 1) with 0 by ring. apply Rabs_R0. }
  split.
  { intros l L0 L1 i Hi. change (ds_n s) with 1%nat in *. specialize (L1 0%nat ltac:(lia)). cbn [Nat.add sum f0 fadd ROps] in L0, L1. rewrite V0, V1 in L1. assert (Z : l 0%nat = 0). { assert (l 0%nat * ep = 0) as K by lra. apply Rmult_integral in K. destruct K; lra. } destruct i as [|[|i]]; [exact Z|lra|lia]. }
  destruct (fl_step rnd64 f s ltac:(cbn; lia)) as (s' & E & w & b & sw & (W1 & W2 & W3) & (B1 & B2 & B3) & Hsw & _ & P). exists s'. split; [exact E|]. cbn zeta in P. change (ds_n s) with 1%nat in *.
  assert (w = 0%nat) as ->. { destruct w as [|[|w]]; [reflexivity|exfalso; specialize (W2 0%nat ltac:(lia)); lra|lia]. } assert (b = 1%nat) as ->. { destruct b as [|[|b]]; [exfalso; specialize (B2 1%nat ltac:(lia)); lra|reflexivity|lia]. }
  assert (X0 : rnd64 (sc_x0 (fl_ds_scan rnd64 s 0 (1 + 1)) 0%nat * rnd64 (1 / INR 1)) = 1).
  { cbn [Nat.add fl_ds_scan Nat.eqb negb sc_x0]. rewrite V1. cbn [INR]. replace (1 / 1) with 1 by field. replace (0 + 1) with 1 by ring. rewrite R1. replace (1 * 1) with 1 by ring. exact R1. }
  set (x0 := fun k => rnd64 (sc_x0 (fl_ds_scan rnd64 s 0 (1 + 1)) k * rnd64 (1 / INR 1))) in *. set (xr := fl_away rnd64 x0 (ds_simplex s 0%nat) (ds_alpha s)) in *.
  assert (XR : xr 0%nat = 1 - ep). { unfold xr, fl_away. change (x0 0%nat) with (rnd64 (sc_x0 (fl_ds_scan rnd64 s 0 (1 + 1)) 0%nat * rnd64 (1 / INR 1))). rewrite X0, V0. change (ds_alpha s) with 1. replace (1 + 1) with 2 by ring. rewrite R2. replace (2 * 1) with 2 by ring. rewrite R2. replace (1 * (1 + ep)) with (1 + ep) by ring. rewrite RB. replace (2 - (1 + ep)) with (1 - ep) by ring. exact RA. }
  assert (FR : f xr = ep). { unfold f. rewrite XR. replace (1 - ep - 1) with (- ep) by ring. rewrite Rabs_Ropp. apply Rabs_right. lra. }
  assert (SW : sw = 0). { destruct Hsw as ((j & J1 & J2 & J3) & _). destruct j as [|[|j]]; [lia|lra|lia]. } rewrite SW, FR, v0, v1 in P.
  destruct P as [(T & _)|[(T & _)|[(T & _)|[(_ & T & _)|(_ & _ & _ & Sh & Sb & _)]]]]; try lra. destruct (Sh 0%nat ltac:(lia) ltac:(lia)) as [S1 _]. split; [|rewrite Sb; exact V1].
  rewrite S1. unfold fl_shrunk. rewrite V0, V1. change (ds_sigma s) with (/ 2). replace (1 + ep - 1) with ep by ring. rewrite RE, RH. exact tie_one.
Qed.
(** the hypotheses are met: every function, dimension and start, in double precision *)
Example C105_case : forall me f n c, (0 < n)%nat -> rounding (/ 2 * bpow radix2 (-52)) rnd64 /\ exists s', fl_ds_find_next_point rnd64 f (fl_ds_new rnd64 me f n c 1) = Ok s' /\ fl_reaches rnd64 f (fl_ds_new rnd64 me f n c 1) s' /\ best_value s' <= f c.
Proof.
  intros me f n c Hn. split; [exact rnd64_rounding|]. destruct (C105_history rnd64 me f n c 1 _ Hn (fl_start _ _ _)) as (_ & _ & B & (s' & E & B') & _). exists s'. split; [exact E|]. split; [eapply fl_next; [apply fl_start|exact E]|lra].
Qed.
