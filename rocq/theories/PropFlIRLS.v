(** * C109: the robust reweighting functions in floating point. *)
From Coq Require Import Reals Lra Lia Arith Bool.
From Flocq Require Import Core.
From Verif Require Import Base Alg Inst ModelIRLS ModelFl SpecFl LemFl LemFlGolden ExFl ExFlSO3 PropFlGolden ModelFlIRLS.
Open Scope outcome_scope.
Local Open Scope R_scope.

(** without rounding these are the functions of C72 *)
Theorem C109_model_is_exact_model : forall sd x, let id := fun z : R => z in fl_robust1_w id sd x = reweight RobustI sd x /\ fl_robust1_true id sd x = true_scale RobustI sd x /\ fl_robust2_w id sd x = reweight RobustII sd x /\ fl_set_sq id sd = set_sd RobustII sd /\ fl_set_sq id sd = set_sd RobustIII sd /\
  fl_robust3_w id sd x = reweight RobustIII sd x /\ fl_robust3_obj id sd x = objective RobustIII sd x.
Proof. intros. repeat split. Qed.

Section P.
Variables (u : R) (rnd : R -> R).
Hypothesis RN : rounding u rnd.
Let U : 0 <= u < 1. Proof. apply RN. Qed.
Lemma fl_div_pos x y : 0 < y -> exists g, fac u 1 g /\ @div R (FlOps rnd) x y = Ok (rnd (x / y)) /\ rnd (x / y) = x / y * g.
Proof. intros H. destruct (rnd_fac u rnd RN (x / y)) as (g & G & E). exists g. split; [exact G|]. split; [|exact E]. unfold div. cbn [feqb f0 FlOps]. unfold R_eqb. destruct (Req_EM_T y 0); [lra|reflexivity]. Qed.
Lemma fac_mix2 k a b c d : 0 <= a -> 0 <= b -> 0 < a + b -> fac u k c -> fac u k d -> exists e, fac u k e /\ a * c + b * d = (a + b) * e.
Proof.
  intros Ha Hb P [C1 C2] [D1 D2]. exists ((a * c + b * d) / (a + b)). split; [|field; lra]. pose proof (pow_1mu u k U) as Pw. split; (apply Rmult_le_reg_r with (a + b); [exact P|]).
  - replace ((a * c + b * d) / (a + b) * (a + b)) with (a * c + b * d) by (field; lra). assert (a * (1 - u) ^ k <= a * c) by (apply Rmult_le_compat_l; lra). assert (b * (1 - u) ^ k <= b * d) by (apply Rmult_le_compat_l; lra). lra.
  - replace ((a * c + b * d) / (a + b) * (1 - u) ^ k * (a + b)) with (a * (c * (1 - u) ^ k) + b * (d * (1 - u) ^ k)) by (field; lra). assert (a * (c * (1 - u) ^ k) <= a * 1) by (apply Rmult_le_compat_l; lra). assert (b * (d * (1 - u) ^ k) <= b * 1) by (apply Rmult_le_compat_l; lra). lra.
Qed.
Let fp k c : fac u k c -> 0 < c. Proof. apply fac_pos. exact U. Qed.
(** RobustI: the weight 1/(sigma+|x|) to two roundings; true_scale to an error small against the weight *)
Theorem C109_robust1 : forall sigma x, 0 < sigma -> let W := 1 / (sigma + Rabs x) in
  exists w t, fl_robust1_w rnd sigma x = Ok w /\ fl_robust1_true rnd sigma x = Ok t /\ 0 < w /\ Rabs (w - W) <= bwd u 2 * W /\ Rabs (t - (W - Rabs x * W * W)) <= 2 * bwd u 7 * W.
Proof.
  intros s x Hs W. pose proof (Rabs_pos x) as Hx. destruct (rnd_fac u rnd RN (s + Rabs x)) as (a & Fa & Ea). pose proof (fp 1 a Fa) as Pa. assert (Pd : 0 < (s + Rabs x) * a) by (apply Rmult_lt_0_compat; lra).
  destruct (fl_div_pos 1 ((s + Rabs x) * a) Pd) as (g & Fg & Eg & Vg). unfold fl_robust1_true, fl_robust1_w. rewrite Ea, Eg. cbn [bind]. rewrite Vg.
  assert (E : 1 / ((s + Rabs x) * a) * g = W * (/ a * g)) by (unfold W; field; lra). rewrite E. set (h := / a * g) in *. assert (Fh : fac u 2 h) by (change 2%nat with (1 + 1)%nat; apply fac_mul; [exact U|apply fac_inv; assumption|exact Fg]). pose proof (fp 2%nat h Fh) as Ph.
  assert (PW : 0 < W) by (unfold W; apply Rdiv_lt_0_compat; lra). do 2 eexists. split; [reflexivity|]. split; [reflexivity|]. split; [apply Rmult_lt_0_compat; assumption|]. split.
  - replace (W * h - W) with ((h - 1) * W) by ring. rewrite Rabs_mult, (Rabs_right W) by lra. apply Rmult_le_compat_r; [lra|]. apply fac_err; assumption.
  - destruct (rnd_fac u rnd RN (Rabs x * (W * h))) as (b & Fb & ->). destruct (rnd_fac u rnd RN (Rabs x * (W * h) * b * (W * h))) as (c & Fc & ->). destruct (rnd_fac u rnd RN (W * h - Rabs x * (W * h) * b * (W * h) * c)) as (d & Fd & ->).
    pose (y := Rabs x * W). assert (Y : 0 <= y <= 1). { unfold y, W. split; [apply Rmult_le_pos; [lra|left; exact PW]|]. apply Rmult_le_reg_r with (s + Rabs x); [lra|]. replace (Rabs x * (1 / (s + Rabs x)) * (s + Rabs x)) with (Rabs x) by (field; lra). lra. }
    replace ((W * h - Rabs x * (W * h) * b * (W * h) * c) * d - (W - Rabs x * W * W)) with ((h * d - 1 + - (y * (h * h * b * c * d - 1))) * W) by (unfold y; ring). rewrite Rabs_mult, (Rabs_right W) by lra. apply Rmult_le_compat_r; [lra|].
    assert (F1 : fac u 7 (h * d)). { apply (fac_le u 3); [exact U|lia|]. change 3%nat with (2 + 1)%nat. apply fac_mul; assumption. }
    assert (F2 : fac u 7 (h * h * b * c * d)). { change 7%nat with (2 + 2 + 1 + 1 + 1)%nat. repeat (apply fac_mul; [exact U| |assumption]). exact Fh. }
    pose proof (fac_err u 7 _ U F1) as E1. pose proof (fac_err u 7 _ U F2) as E2. pose proof (Rabs_triang (h * d - 1) (- (y * (h * h * b * c * d - 1)))) as T. assert (T2 : Rabs (- (y * (h * h * b * c * d - 1))) = y * Rabs (h * h * b * c * d - 1)) by (rewrite Rabs_Ropp, Rabs_mult, (Rabs_right y) by lra; reflexivity). rewrite T2 in T. pose proof (Rabs_pos (h * h * b * c * d - 1)). assert (y * Rabs (h * h * b * c * d - 1) <= 1 * Rabs (h * h * b * c * d - 1)) by (apply Rmult_le_compat_r; lra). lra.
Qed.
(** RobustII: the weight 1/(sigma^2+x^2) to three roundings, never failing *)
Theorem C109_robust2 : forall sigma x, 0 < sigma -> let W := 1 / (sigma * sigma + x * x) in exists w, fl_robust2_w rnd (fl_set_sq rnd sigma) x = Ok w /\ 0 < w /\ Rabs (w - W) <= bwd u 3 * W.
Proof.
  intros s x Hs W. assert (Hs2 : 0 < s * s) by (apply Rmult_lt_0_compat; exact Hs). pose proof (Rle_0_sqr x) as Hx. unfold Rsqr in Hx. unfold fl_robust2_w, fl_set_sq.
  destruct (rnd_fac u rnd RN (s * s)) as (a & Fa & ->). destruct (rnd_fac u rnd RN (x * x)) as (b & Fb & ->). destruct (fac_mix2 1 (s * s) (x * x) a b ltac:(lra) Hx ltac:(lra) Fa Fb) as (c & Fc & ->). destruct (rnd_fac u rnd RN ((s * s + x * x) * c)) as (d & Fd & ->).
  pose proof (fp 1%nat c Fc). pose proof (fp 1%nat d Fd). assert (Pd : 0 < (s * s + x * x) * c * d) by (apply Rmult_lt_0_compat; [apply Rmult_lt_0_compat; lra|lra]). destruct (fl_div_pos 1 _ Pd) as (g & Fg & Eg & Vg). rewrite Eg, Vg.
  assert (E : 1 / ((s * s + x * x) * c * d) * g = W * (/ c * / d * g)) by (unfold W; field; lra). rewrite E. set (h := / c * / d * g). assert (Fh : fac u 3 h) by (change 3%nat with (1 + 1 + 1)%nat; apply fac_mul; [exact U|apply fac_mul; [exact U|apply fac_inv; assumption|apply fac_inv; assumption]|exact Fg]).
  assert (PW : 0 < W) by (unfold W; apply Rdiv_lt_0_compat; lra). eexists. split; [reflexivity|]. split; [apply Rmult_lt_0_compat; [exact PW|exact (fp 3%nat h Fh)]|]. replace (W * h - W) with ((h - 1) * W) by ring. rewrite Rabs_mult, (Rabs_right W) by lra. apply Rmult_le_compat_r; [lra|]. apply fac_err; assumption.
Qed.
(** RobustIII: the weight 1/(1+x^2/sigma^2)^2 to ten roundings, the objective x^2/(2(1+x^2/sigma^2)) to seven *)
Theorem C109_robust3 : forall sigma x, 0 < sigma -> let e := x * x / (sigma * sigma) in let W := 1 / ((1 + e) * (1 + e)) in let O := x * x / (2 * (1 + e)) in
  exists w o, fl_robust3_w rnd (fl_set_sq rnd sigma) x = Ok w /\ fl_robust3_obj rnd (fl_set_sq rnd sigma) x = Ok o /\ 0 < w /\ Rabs (w - W) <= bwd u 10 * W /\ Rabs (o - O) <= bwd u 7 * O.
Proof.
  intros s x Hs e W O. assert (Hs2 : 0 < s * s) by (apply Rmult_lt_0_compat; exact Hs). pose proof (Rle_0_sqr x) as Hx. unfold Rsqr in Hx. unfold fl_robust3_w, fl_robust3_obj, fl_set_sq.
  destruct (rnd_fac u rnd RN (s * s)) as (a & Fa & ->). destruct (rnd_fac u rnd RN (x * x)) as (b & Fb & ->). pose proof (fp 1%nat a Fa) as Pa. assert (Pd : 0 < s * s * a) by (apply Rmult_lt_0_compat; lra).
  destruct (fl_div_pos (x * x * b) _ Pd) as (g & Fg & -> & ->). cbn [bind]. assert (E : x * x * b / (s * s * a) * g = e * (b * / a * g)) by (unfold e; field; lra). rewrite E. clear E.
  assert (He : 0 <= e) by (unfold e, Rdiv; apply Rmult_le_pos; [exact Hx|left; apply Rinv_0_lt_compat; exact Hs2]). set (h := b * / a * g). assert (Fh : fac u 3 h) by (change 3%nat with (1 + 1 + 1)%nat; apply fac_mul; [exact U|apply fac_mul; [exact U|exact Fb|apply fac_inv; assumption]|exact Fg]).
  destruct (fac_mix2 3 1 e 1 h ltac:(lra) He ltac:(lra) ltac:(apply (fac_le u 0); [exact U|lia|apply fac_1; exact U]) Fh) as (k & Fk & Ek). rewrite Rmult_1_r in Ek. rewrite Ek. destruct (rnd_fac u rnd RN ((1 + e) * k)) as (l & Fl & ->). pose proof (fp 3%nat k Fk) as Pk. pose proof (fp 1%nat l Fl) as Pl.
  destruct (rnd_fac u rnd RN ((1 + e) * k * l * ((1 + e) * k * l))) as (m & Fm & ->). destruct (rnd_fac u rnd RN (2 * ((1 + e) * k * l))) as (n & Fn & ->). pose proof (fp 1%nat m Fm) as Pm. pose proof (fp 1%nat n Fn) as Pn.
  assert (Q : 0 < (1 + e) * k * l) by (apply Rmult_lt_0_compat; [apply Rmult_lt_0_compat; lra|exact Pl]). assert (Q1 : 0 < (1 + e) * k * l * ((1 + e) * k * l) * m) by (apply Rmult_lt_0_compat; [apply Rmult_lt_0_compat; exact Q|exact Pm]). assert (Q2 : 0 < 2 * ((1 + e) * k * l) * n) by (apply Rmult_lt_0_compat; lra).
  destruct (fl_div_pos 1 _ Q1) as (p & Fp & -> & ->). destruct (fl_div_pos (x * x * b) _ Q2) as (q & Fq & -> & ->). assert (PW : 0 < W) by (unfold W; apply Rdiv_lt_0_compat; [lra|apply Rmult_lt_0_compat; lra]). assert (PO : 0 <= O) by (unfold O, Rdiv; apply Rmult_le_pos; [exact Hx|left; apply Rinv_0_lt_compat; lra]).
  assert (FI : fac u 4 (/ (k * l))) by (apply fac_inv; [exact U|]; change 4%nat with (3 + 1)%nat; apply fac_mul; assumption).
  assert (E1 : 1 / ((1 + e) * k * l * ((1 + e) * k * l) * m) * p = W * (/ (k * l) * / (k * l) * / m * p)) by (unfold W; field; repeat split; lra). assert (E2 : x * x * b / (2 * ((1 + e) * k * l) * n) * q = O * (b * / (k * l) * / n * q)) by (unfold O; field; repeat split; lra). rewrite E1, E2.
  assert (F1 : fac u 10 (/ (k * l) * / (k * l) * / m * p)) by (change 10%nat with (4 + 4 + 1 + 1)%nat; apply fac_mul; [exact U|apply fac_mul; [exact U|apply fac_mul; assumption|apply fac_inv; assumption]|exact Fp]).
  assert (F2 : fac u 7 (b * / (k * l) * / n * q)) by (change 7%nat with (1 + 4 + 1 + 1)%nat; apply fac_mul; [exact U|apply fac_mul; [exact U|apply fac_mul; assumption|apply fac_inv; assumption]|exact Fq]).
  do 2 eexists. split; [reflexivity|]. split; [reflexivity|]. split; [apply Rmult_lt_0_compat; [exact PW|exact (fp 10%nat _ F1)]|]. split.
  - set (z := / (k * l) * / (k * l) * / m * p) in *. replace (W * z - W) with ((z - 1) * W) by ring. rewrite Rabs_mult, (Rabs_right W) by lra. apply Rmult_le_compat_r; [lra|]. apply fac_err; assumption.
  - set (z := b * / (k * l) * / n * q) in *. replace (O * z - O) with ((z - 1) * O) by ring. rewrite Rabs_mult, (Rabs_right O) by lra. apply Rmult_le_compat_r; [lra|]. apply fac_err; assumption.
Qed.
(** a larger error never gets a larger weight, the sign of the error does not matter, and RobustIII never weighs more than 1 *)
Hypothesis MON : monotone rnd.
Let rnd_pos z : 0 < z -> 0 < rnd z. Proof. intros H. destruct (rnd_fac u rnd RN z) as (c & F & ->). apply Rmult_lt_0_compat; [exact H|exact (fp 1%nat c F)]. Qed.
Let rnd_nonneg z : 0 <= z -> 0 <= rnd z. Proof. intros [H|H]; [left; auto|rewrite <- H, (rnd_0 u rnd RN); lra]. Qed.
Let sq_le x y : Rabs x <= Rabs y -> x * x <= y * y. Proof. intros H. apply Rsqr_le_abs_1. exact H. Qed.
Let div_anti x y a b : 0 < x <= y -> @div R (FlOps rnd) 1 x = Ok a -> @div R (FlOps rnd) 1 y = Ok b -> b <= a.
Proof.
  intros H Ea Eb. destruct (fl_div_pos 1 x ltac:(lra)) as (_ & _ & E1 & _). destruct (fl_div_pos 1 y ltac:(lra)) as (_ & _ & E2 & _). rewrite E1 in Ea. rewrite E2 in Eb. injection Ea as <-. injection Eb as <-. apply MON. unfold Rdiv. rewrite !Rmult_1_l. apply Rinv_le_contravar; lra.
Qed.
Let quot s x : 0 < s -> @div R (FlOps rnd) (rnd (x * x)) (fl_set_sq rnd s) = Ok (rnd (rnd (x * x) / fl_set_sq rnd s)) /\ 0 <= rnd (rnd (x * x) / fl_set_sq rnd s).
Proof.
  intros Hs. assert (P : 0 < fl_set_sq rnd s) by (apply rnd_pos, Rmult_lt_0_compat; exact Hs). destruct (fl_div_pos (rnd (x * x)) _ P) as (_ & _ & E & _). split; [exact E|]. apply rnd_nonneg. unfold Rdiv. apply Rmult_le_pos; [apply rnd_nonneg; apply Rle_0_sqr|left; apply Rinv_0_lt_compat; exact P].
Qed.
Theorem C109_larger_error_no_larger_weight : forall sigma x y a b, 0 < sigma -> Rabs x <= Rabs y ->
  (fl_robust1_w rnd sigma x = Ok a -> fl_robust1_w rnd sigma y = Ok b -> b <= a) /\ (fl_robust2_w rnd (fl_set_sq rnd sigma) x = Ok a -> fl_robust2_w rnd (fl_set_sq rnd sigma) y = Ok b -> b <= a) /\ (fl_robust3_w rnd (fl_set_sq rnd sigma) x = Ok a -> fl_robust3_w rnd (fl_set_sq rnd sigma) y = Ok b -> b <= a).
Proof.
  intros s x y a b Hs H. pose proof (sq_le x y H) as H2. pose proof (MON _ _ H2) as H3. pose proof (Rabs_pos x). assert (P : 0 < fl_set_sq rnd s) by (apply rnd_pos, Rmult_lt_0_compat; exact Hs). pose proof (rnd_nonneg _ (Rle_0_sqr x)) as X0. unfold Rsqr in X0. split; [|split].
  - apply div_anti. split; [apply rnd_pos; lra|apply MON; lra].
  - apply div_anti. split; [apply rnd_pos; lra|apply MON; lra].
  - unfold fl_robust3_w. destruct (quot s x Hs) as [-> Qx]. destruct (quot s y Hs) as [-> Qy]. cbn [bind]. set (ex := rnd (rnd (x * x) / fl_set_sq rnd s)) in *. set (ey := rnd (rnd (y * y) / fl_set_sq rnd s)) in *. assert (L : ex <= ey) by (unfold ex, ey; apply MON; unfold Rdiv; apply Rmult_le_compat_r; [left; apply Rinv_0_lt_compat; exact P|exact H3]).
    pose proof (rnd_pos (1 + ex) ltac:(lra)) as P1. pose proof (MON (1 + ex) (1 + ey) ltac:(lra)) as L1. apply div_anti. split; [apply rnd_pos, Rmult_lt_0_compat; exact P1|]. apply MON. apply Rmult_le_compat; lra.
Qed.
Theorem C109_sign_does_not_matter : forall sd x, fl_robust1_w rnd sd (- x) = fl_robust1_w rnd sd x /\ fl_robust2_w rnd sd (- x) = fl_robust2_w rnd sd x /\ fl_robust3_w rnd sd (- x) = fl_robust3_w rnd sd x.
Proof. intros sd x. unfold fl_robust1_w, fl_robust2_w, fl_robust3_w. rewrite Rabs_Ropp. replace (- x * - x) with (x * x) by ring. repeat split. Qed.
Theorem C109_robust3_at_most_one : rnd 1 = 1 -> forall sigma x w, 0 < sigma -> fl_robust3_w rnd (fl_set_sq rnd sigma) x = Ok w -> w <= 1 /\ (x = 0 -> w = 1).
Proof.
  intros F1 s x w Hs. unfold fl_robust3_w. destruct (quot s x Hs) as [-> Qx]. cbn [bind]. intros E. split.
  - set (ex := rnd (rnd (x * x) / fl_set_sq rnd s)) in *. assert (P1 : 1 <= rnd (1 + ex)) by (apply Rle_trans with (rnd 1); [rewrite F1; lra|apply MON; lra]). assert (P2 : 1 <= rnd (rnd (1 + ex) * rnd (1 + ex))) by (apply Rle_trans with (rnd 1); [rewrite F1; lra|apply MON; rewrite <- (Rmult_1_l 1) at 1; apply Rmult_le_compat; lra]).
    destruct (fl_div_pos 1 (rnd (rnd (1 + ex) * rnd (1 + ex))) ltac:(lra)) as (_ & _ & E1 & _). rewrite E1 in E. injection E as <-. apply Rle_trans with (rnd 1); [|rewrite F1; lra]. apply MON. unfold Rdiv. rewrite Rmult_1_l. apply Rle_trans with (/ 1); [apply Rinv_le_contravar; lra|rewrite Rinv_1; lra].
  - intros ->. rewrite Rmult_0_l, (rnd_0 u rnd RN) in E. unfold Rdiv in E. rewrite Rmult_0_l, (rnd_0 u rnd RN), Rplus_0_r, F1, Rmult_1_l, F1 in E. destruct (fl_div_pos 1 1 ltac:(lra)) as (_ & _ & E1 & _). rewrite E1 in E. injection E as <-. replace (1 / 1) with 1 by field. exact F1.
Qed.
End P.
(** the hypotheses are met in double precision, and the weights are not constant: RobustI with sigma 1 gives 1 and 1/2 for errors 0 and 1 *)
Example C109_double : rounding (/ 2 * bpow radix2 (-52)) rnd64 /\ monotone rnd64 /\ rnd64 1 = 1 /\ fl_robust1_w rnd64 1 0 = Ok 1 /\ fl_robust1_w rnd64 1 1 = Ok (/ 2).
Proof.
  split; [exact rnd64_rounding|]. split; [exact rnd64_mono|]. split; [exact one_is|]. unfold fl_robust1_w, div. cbn [feqb f0 FlOps fdiv]. rewrite Rabs_R0, Rabs_R1, Rplus_0_r, one_is. replace (1 + 1) with 2 by ring. rewrite two_is. unfold R_eqb. destruct (Req_EM_T 1 0); [lra|]. destruct (Req_EM_T 2 0); [lra|].
  split; [replace (1 / 1) with 1 by field; rewrite one_is; reflexivity|]. replace (1 / 2) with (/ 2) by field. assert (H : rnd64 (/ 2) = / 2) by (exact_ 1%Z (-1)%Z). rewrite H. reflexivity.
Qed.
