(** * C94: rotation objects in floating point: whatever the history, the matrix stays near a rotation, and near the right one. *)
From Coq Require Import Reals Lra Lia Psatz.
From Flocq Require Import Core.
From Verif Require Import Base Alg Inst ModelLie SpecLie LemLie LemSO3 LemSO3b PropSO3 SpecFlSO3 LemFro RSum ModelFl SpecFl LemFl LemFlChol ModelFlSO3 SpecFlHist LemFlSO3 LemFlSO3b LemFlSO3c LemFlSO3d ExFl ExFlSO3.
Open Scope outcome_scope.
Local Open Scope R_scope.

Lemma exp3_exactly w p : mv3 (exp3 w) p = rotate (direction w) (len3 w) p.
Proof. unfold exp3. apply rot_matrix_act. Qed.
Lemma exactly_exp w : exactly (Exp w) (exp3 w).
Proof. intros p. apply exp3_exactly. Qed.
Lemma act_ext m n : (forall p, mv3 m p = mv3 n p) -> m = n.
Proof.
  intros H. pose proof (H (mk3 1 0 0)) as A. pose proof (H (mk3 0 1 0)) as B. pose proof (H (mk3 0 0 1)) as C. clear H. destruct m as [[] [] []], n as [[] [] []].
  unfold mv3, dot3 in A, B, C. cbn in A, B, C. injection A; injection B; injection C; intros. f_equal; f_equal; lra.
Qed.
Lemma div_id a b : @div R (FlOps (fun x => x)) a b = div (F:=R) a b.
Proof. reflexivity. Qed.

(** ** the model without rounding is the model of C52-C56 *)
Theorem C94_model_is_exact_model : let id := fun x : R => x in
  (forall m, fl_so3_coerce id m = so3_coerce m) /\ (forall a b, fl_so3_of_vectors id a b = so3_of_vectors a b) /\
  (forall w, fl_so3_exp id sin cos w = so3_exp w) /\ (forall a b, fl_mm3 id a b = so3_mul a b) /\ (forall m v, fl_mv3 id m v = so3_act m v).
Proof.
  cbv zeta. assert (D : forall a b, fl_dot3 (fun x => x) a b = dot3 a b) by (intros; unfold fl_dot3, dot3; ring).
  assert (Un : forall v, fl_unit3 (fun x => x) v = unit3 v) by (intros; unfold fl_unit3, unit3; rewrite D; reflexivity).
  assert (VM : forall v m, fl_vm3 (fun x => x) v m = vm3 v m) by (intros; unfold fl_vm3, vm3; rewrite !D; reflexivity).
  assert (MM : forall a b, fl_mm3 (fun x => x) a b = mm3 a b) by (intros; unfold fl_mm3, mm3; rewrite !VM; reflexivity).
  assert (Bx : forall X Y (o : outcome X) (f g : X -> outcome Y), (forall x, f x = g x) -> bind o f = bind o g) by (intros X Y [] f g H; cbn; auto).
  repeat split.
  - intros m. unfold fl_so3_coerce, so3_coerce. rewrite Un. apply Bx. intros a. cbv zeta. rewrite D. change (fl_scale3 (fun x => x)) with scale3. change (fl_sub3 (fun x => x)) with sub3.
    rewrite Un. apply Bx. intros b. rewrite !D, Un. apply Bx. intros c. rewrite D. reflexivity.
  - intros a b. unfold fl_so3_of_vectors, so3_of_vectors. cbv zeta. change (fl_cross3 (fun x => x)) with cross3. rewrite !D, !Un.
    destruct (R_eqb (dot3 (cross3 a b) (cross3 a b)) 0); [reflexivity|]. apply Bx. intros n. apply Bx. intros ua. apply Bx. intros ub. rewrite MM. reflexivity.
  - intros w. unfold fl_so3_exp, so3_exp. rewrite D. unfold fl_so3_coeffs, so3_coeffs. cbv zeta. destruct (R_ltb (dot3 w w) (1 / 10 ^ 8)); [reflexivity|].
    destruct (R_ltb (dot3 w w) (1 / 10 ^ 6)); reflexivity.
  - exact MM.
  - intros m v. unfold fl_mv3, so3_act, mv3. rewrite !D. reflexivity.
Qed.

Section S.
Variables (u : R) (rnd : R -> R).
Hypothesis RN : rounding u rnd.
Hypothesis U : u <= 1 / 6800.
Variables (s : R) (fsin fcos : R -> R).
Hypothesis TR : trig s fsin fcos.
Hypothesis Hs : s <= 1 / 1000.
Let U' : u <= 1 / 1000. Proof. lra. Qed.

(** ** the constructors *)
Theorem C94_exp w : exists m k, fl_so3_exp rnd fsin fcos w = Ok m /\ Rabs (k - 1) <= 4 * u /\
  exists t, rotation t /\ (forall p, mv3 t p = rotate (direction (scale3 k w)) (len3 (scale3 k w)) p) /\ dist m t <= exp_error u s.
Proof.
  destruct (fl_exp_ok u rnd RN U' s fsin fcos TR Hs w) as (m & k & E & K & D). exists m, k. split; [exact E|]. split; [exact K|].
  exists (exp3 (scale3 k w)). split; [apply exp3_rotation|]. split; [apply exp3_exactly|exact D].
Qed.
Theorem C94_coerce m : det3 m <> 0 -> 3400 * u * skewness m <= 1 ->
  (0 < det3 m -> exists q t, fl_so3_coerce rnd m = Ok q /\ so3_coerce m = Ok t /\ rotation t /\ dist q t <= 326 * u * skewness m) /\
  (det3 m < 0 -> fl_so3_coerce rnd m = Abort DAssert).
Proof. apply (fl_coerce_ok u rnd RN U'). Qed.
Theorem C94_two_vectors a b : cross3 a b <> zero3 -> 1000 * u * obliqueness a b <= 1 ->
  exists q t, fl_so3_of_vectors rnd a b = Ok q /\ rotation t /\ dist q t <= 102 * u * obliqueness a b /\
    mv3 t (direction a) = direction b /\ mv3 t (cross3 a b) = cross3 a b.
Proof.
  intros H K. destruct (fl_of_vectors_ok u rnd RN U' a b H K) as (q & t & E & T & Q & D). exists q, t. destruct (of_vectors_ok a b H) as (m & M & _ & A & B). rewrite T in M. injection M as <-. auto 10.
Qed.
Theorem C94_product a b p q d e : rotation p -> rotation q -> dist a p <= d -> dist b q <= e ->
  dist (fl_mm3 rnd a b) (mm3 p q) <= (1 + d) * (1 + e) * mul_growth u - 1.
Proof. apply (fl_mul_near u rnd RN). Qed.
(** coerce() repairs: the result is near a rotation again, and has not moved further than the repair needs *)
Theorem C94_repair m q d : rotation q -> dist m q <= d -> d <= 1 / 10 ->
  exists x t, fl_so3_coerce rnd m = Ok x /\ rotation t /\ dist x t <= 652 * u /\ dist t q <= 62 * d.
Proof.
  intros Q D D1. destruct (near_skewness m q d Q D D1) as [P K]. pose proof (u_rng u rnd RN) as Hu.
  destruct (fl_coerce_ok u rnd RN U' m ltac:(lra)) as [G _]; [assert (u * skewness m <= u * 2) by (apply Rmult_le_compat_l; lra); lra|].
  destruct (G P) as (x & t & E & T & Rt & Dx). exists x, t. split; [exact E|]. split; [exact Rt|]. split; [assert (u * skewness m <= u * 2) by (apply Rmult_le_compat_l; lra); lra|].
  destruct (coerce_near m q d Q D D1) as (t' & T' & _ & D'). rewrite T in T'. injection T' as <-. exact D'.
Qed.

(** ** every history *)
Theorem C94_history h : tame u s h -> exists q t, fl_run rnd fsin fcos h = Ok q /\ exactly h t /\ rotation t /\ dist q t <= error u s h /\
  exists r, rotation r /\ dist q r <= drift u s h.
Proof.
  pose proof (u_rng u rnd RN) as Hu. induction h as [|w|m|a b|x IHx y IHy|x IHx|x IHx]; cbn [tame fl_run exactly error drift]; intros H.
  - exists id3, id3. rewrite dist_refl. repeat split; try apply rotation_id; try lra. exists id3. rewrite dist_refl. split; [apply rotation_id|lra].
  - destruct (fl_exp_ok u rnd RN U' s fsin fcos TR Hs w) as (m & k & E & K & D). exists m, (exp3 w). split; [exact E|]. split; [apply exp3_exactly|]. split; [apply exp3_rotation|]. split.
    + eapply Rle_trans; [apply (dist_tri _ (exp3 (scale3 k w)))|]. assert (k0 : 0 < k) by (apply Rabs_le_between in K; lra). pose proof (exp3_lip w k k0) as L. pose proof (len3_nonneg w).
      assert (Rabs (k - 1) * len3 w <= 4 * u * len3 w) by (apply Rmult_le_compat_r; assumption). unfold exp_error. lra.
    + exists (exp3 (scale3 k w)). split; [apply exp3_rotation|exact D].
  - destruct H as [P K]. destruct (fl_coerce_ok u rnd RN U' m ltac:(lra) K) as [G _]. destruct (G P) as (q & t & E & T & Rt & D). exists q, t. do 4 (split; [assumption|]). exists t. split; assumption.
  - destruct H as [P K]. destruct (fl_of_vectors_ok u rnd RN U' a b P K) as (q & t & E & T & Rt & D). exists q, t. do 4 (split; [assumption|]). exists t. split; assumption.
  - destruct H as [Hx Hy]. destruct (IHx Hx) as (p & tp & Ep & Tp & Rp & Dp & rp & Rrp & Drp). destruct (IHy Hy) as (q & tq & Eq & Tq & Rq & Dq & rq & Rrq & Drq).
    rewrite Ep. cbn [bind]. rewrite Eq. cbn [bind]. exists (fl_mm3 rnd p q), (mm3 tp tq). split; [reflexivity|]. split; [exists tp, tq; auto|]. split; [apply rotation_mul; assumption|].
    split; [apply C94_product; assumption|]. exists (mm3 rp rq). split; [apply rotation_mul; assumption|apply C94_product; assumption].
  - destruct (IHx H) as (p & tp & Ep & Tp & Rp & Dp & rp & Rrp & Drp). rewrite Ep. cbn [bind]. exists (tr3 p), (tr3 tp). split; [reflexivity|]. split; [exists tp; auto|].
    split; [apply rotation_inv, Rp|]. rewrite !dist_tr. split; [exact Dp|]. exists (tr3 rp). rewrite dist_tr. split; [apply rotation_inv, Rrp|exact Drp].
  - destruct H as [Hx K]. destruct (IHx Hx) as (p & tp & Ep & Tp & Rp & Dp & rp & Rrp & Drp). rewrite Ep. cbn [bind].
    destruct (C94_repair p rp (drift u s x) Rrp Drp K) as (q & t & E & Rt & D1 & D2). exists q, tp. split; [exact E|]. split; [exact Tp|]. split; [exact Rp|]. split.
    + pose proof (dist_tri q t tp). pose proof (dist_tri t rp tp). pose proof (dist_tri rp p tp). rewrite (dist_sym rp p) in *. lra.
    + exists t. split; assumption.
Qed.
(** exponentials, products and inverses: the drift depends on their number only *)
Theorem C94_drift h : plain h -> tame u s h /\ drift u s h = (1 + exp_error u s) ^ exps h * mul_growth u ^ muls h - 1.
Proof.
  induction h as [|w|m|a b|x IHx y IHy|x IHx|x IHx]; cbn [plain tame drift exps muls]; intros H; try contradiction.
  - split; [exact I|]. cbn. ring.
  - split; [exact I|]. cbn. ring.
  - destruct H as [Hx Hy]. destruct (IHx Hx) as [Tx Dx]. destruct (IHy Hy) as [Ty Dy]. split; [split; assumption|]. rewrite Dx, Dy. cbn [pow]. rewrite !pow_add. ring.
  - apply IHx, H.
Qed.
(** ** what it means to be within d of a rotation *)
Theorem C94_near_rotation q r d : rotation r -> dist q r <= d ->
  (forall v, Rabs (len3 (mv3 q v) - len3 v) <= d * len3 v) /\ dist (mm3 q (tr3 q)) id3 <= (1 + d) * (1 + d) - 1 /\
  Rabs (det3 q - 1) <= (1 + d) * (1 + d) * (1 + d) - 1 /\
  (forall v, len3 (sub3 (fl_mv3 rnd q v) (mv3 r v)) <= (d + 2 * (1 + d) * fwd u 3) * len3 v).
Proof.
  intros Q D. split; [intros v; apply (near_len q r d v Q D)|]. split; [apply (near_orth q r d Q D)|]. split; [apply (det_near q r d Q D)|].
  intros v. pose proof (u_rng u rnd RN) as Hu. eapply Rle_trans; [apply (len3_tri _ (mv3 q v))|]. pose proof (fl_mv_err u rnd RN q v) as A.
  replace (sub3 (mv3 q v) (mv3 r v)) with (mv3 (subM q r) v) by (clear; dv; unfold subM; lie_unfold; f_equal; ring). pose proof (len_mv (subM q r) v) as B. fold (dist q r) in B.
  pose proof (fro_near q r d Q D) as F. pose proof (dist_nonneg q r). pose proof (fro_nonneg q). pose proof (len3_nonneg v) as V. pose proof (fwd_nonneg u 3 ltac:(lra)).
  assert (F2 : fro q <= 2 * (1 + d)) by (apply sq_le; nra).
  assert (fwd u 3 * (fro q * len3 v) <= fwd u 3 * (2 * (1 + d) * len3 v)) by (apply Rmult_le_compat_l; [assumption|apply Rmult_le_compat_r; assumption]).
  assert (dist q r * len3 v <= d * len3 v) by (apply Rmult_le_compat_r; assumption). lra.
Qed.
End S.

(** ** double precision *)
(** nearly parallel vectors: the constructor takes two doubles to a matrix that is no rotation, nor near one *)
Theorem C94_two_vectors_refuted : exists a b m,
  (rnd64 (vx a) = vx a /\ rnd64 (vy a) = vy a /\ rnd64 (vz a) = vz a) /\ (rnd64 (vx b) = vx b /\ rnd64 (vy b) = vy b /\ rnd64 (vz b) = vz b) /\
  cross3 a b <> zero3 /\ fl_so3_of_vectors rnd64 a b = Ok m /\ (forall r, rotation r -> 3 / 10 < dist m r) /\
  13 / 10 * len3 (mk3 1 0 0) < len3 (mv3 m (mk3 1 0 0)).
Proof.
  destruct two_vectors_computed as (m & E & X). exists va, vb, m. split; [exact va_double|]. split; [exact vb_double|]. split.
  { intros F. assert (G : vx (cross3 va vb) = 0) by (rewrite F; reflexivity). unfold cross3, va, vb in G. cbn [vx vy vz] in G. lra. }
  split; [exact E|]. split.
  - intros r [(A & _) _]. destruct (comp_len (r0 r)) as (Rx & _). assert (len3 (r0 r) = 1) as L by (unfold len3; rewrite A; apply sqrt_1). rewrite L in Rx. apply Rabs_le_between in Rx.
    unfold dist. destruct (fro_row_le (subM m r)) as (F & _). cbn [subM r0] in F. destruct (comp_len (sub3 (r0 m) (r0 r))) as (G & _). unfold sub3 at 1 in G. cbn [vx] in G.
    pose proof (Rle_abs (vx (r0 m) - vx (r0 r))). lra.
  - assert (len3 (mk3 1 0 0) = 1) as ->. { unfold len3, dot3; cbn [vx vy vz]. replace (1 * 1 + 0 * 0 + 0 * 0) with 1 by ring. apply sqrt_1. }
    destruct (comp_len (mv3 m (mk3 1 0 0))) as (G & _). unfold mv3 at 1 in G. cbn [vx] in G. unfold dot3 in G. cbn [vx vy vz] in G.
    replace (vx (r0 m) * 1 + vy (r0 m) * 0 + vz (r0 m) * 0) with (vx (r0 m)) in G by ring. pose proof (Rle_abs (vx (r0 m))). lra.
Qed.
(** a million products of a million exponentials, with a sine and cosine accurate to 2^-52: within 2e-8 of a rotation *)
Lemma pow_small x n k : 0 <= x -> (n <= k)%nat -> (1 + x) ^ n <= (1 + x) ^ k.
Proof. intros. apply Rle_pow; [lra|assumption]. Qed.
Lemma pow_exp x n : 0 <= x -> (1 + x) ^ n <= exp (INR n * x).
Proof.
  intros X. induction n as [|n IH]; [cbn; rewrite Rmult_0_l, exp_0; lra|]. rewrite S_INR. replace ((INR n + 1) * x) with (INR n * x + x) by ring. rewrite exp_plus. cbn [pow]. rewrite Rmult_comm.
  apply Rmult_le_compat; try lra; [apply pow_le; lra|]. destruct X as [X|X]; [apply Rlt_le, exp_ineq1; lra|subst x; rewrite exp_0; lra].
Qed.
Lemma exp_small y : 0 <= y <= 1 / 10 -> exp y <= 1 + 12 / 10 * y.
Proof.
  intros Y. assert (E : exp (- y) * exp y = 1) by (rewrite <- exp_plus; replace (- y + y) with 0 by ring; apply exp_0).
  assert (1 - y <= exp (- y)). { destruct (Req_dec y 0) as [->|N]; [rewrite Ropp_0, exp_0; lra|]. pose proof (exp_ineq1 (- y) ltac:(lra)). lra. }
  pose proof (exp_pos y). assert ((1 - y) * exp y <= 1) by nra. assert (exp y <= 1 / (1 - y)). { apply (Rmult_le_reg_l (1 - y)); [lra|]. replace ((1 - y) * (1 / (1 - y))) with 1 by (field; lra). assumption. }
  apply (Rle_trans _ (1 / (1 - y))); [assumption|]. apply (Rmult_le_reg_l (1 - y)); [lra|]. replace ((1 - y) * (1 / (1 - y))) with 1 by (field; lra). nra.
Qed.
Theorem C94_double h fsin fcos : let u := / 2 * bpow radix2 (-52) in trig (2 * u) fsin fcos -> plain h -> INR (exps h) <= 10 ^ 6 -> INR (muls h) <= 10 ^ 6 ->
  exists q t, fl_run rnd64 fsin fcos h = Ok q /\ exactly h t /\ rotation t /\ exists r, rotation r /\ dist q r <= 2 / 10 ^ 8.
Proof.
  intros u TR P E M. pose proof rnd64_rounding as RN. fold u in RN. assert (Us : 0 <= u <= 1112 / 10 ^ 19) by (unfold u; cbn; lra).
  destruct (C94_drift u (2 * u) h P) as [T D]. destruct (C94_history u rnd64 RN ltac:(lra) (2 * u) fsin fcos TR ltac:(lra) h T) as (q & t & R1 & R2 & R3 & _ & r & R4 & R5).
  exists q, t. split; [exact R1|]. split; [exact R2|]. split; [exact R3|]. exists r. split; [exact R4|]. eapply Rle_trans; [exact R5|]. rewrite D.
  pose proof (fwd3 u rnd64 RN ltac:(lra)) as F3. pose proof (fwd_nonneg u 3 ltac:(lra)) as F0. unfold mul_growth. set (x := exp_error u (2 * u)). set (y := 3 * fwd u 3).
  assert (X : 0 <= x <= 12 / 10 ^ 15) by (unfold x, exp_error; lra). assert (Y : 0 <= y <= 2 / 10 ^ 15) by (unfold y; lra).
  pose proof (pow_exp x (exps h) ltac:(lra)) as A. pose proof (pow_exp y (muls h) ltac:(lra)) as B. pose proof (pos_INR (exps h)). pose proof (pos_INR (muls h)).
  assert (A2 : 0 <= INR (exps h) * x <= 12 / 10 ^ 9). { split; [apply Rmult_le_pos; lra|]. apply (Rle_trans _ (10 ^ 6 * (12 / 10 ^ 15))); [apply Rmult_le_compat; lra|lra]. }
  assert (B2 : 0 <= INR (muls h) * y <= 2 / 10 ^ 9). { split; [apply Rmult_le_pos; lra|]. apply (Rle_trans _ (10 ^ 6 * (2 / 10 ^ 15))); [apply Rmult_le_compat; lra|lra]. }
  apply (Rle_trans _ (exp (INR (exps h) * x + INR (muls h) * y) - 1)).
  - apply Rplus_le_compat_r. rewrite exp_plus. apply Rmult_le_compat; try (apply pow_le; lra); assumption.
  - pose proof (exp_small (INR (exps h) * x + INR (muls h) * y) ltac:(lra)). lra.
Qed.
(** the hypotheses are met: true sine and cosine, a history with everything in it *)
Example C94_case : let u := / 2 * bpow radix2 (-52) in
  let h := Coerce (Mul (Inv (Exp (mk3 1 2 3))) (Mul (OfMatrix (mkM (mk3 2 0 0) (mk3 1 3 0) (mk3 0 1 1))) (OfVectors (mk3 1 0 0) (mk3 1 2 0)))) in
  trig 0 sin cos /\ tame u 0 h.
Proof.
  cbv zeta. assert (U : 0 <= / 2 * bpow radix2 (-52) <= / 10 ^ 15) by (cbn; lra). set (u := / 2 * bpow radix2 (-52)) in *.
  split; [intros x; rewrite !Rminus_diag_eq, Rabs_R0 by reflexivity; lra|].
  assert (L : forall a b c k, 0 <= k -> a * a + b * b + c * c <= k * k -> len3 (mk3 a b c) <= k) by (intros; apply len3_le; [assumption|unfold dot3; cbn [vx vy vz]; assumption]).
  assert (S1 : 0 <= skewness (mkM (mk3 2 0 0) (mk3 1 3 0) (mk3 0 1 1)) <= 10).
  { unfold skewness, det3. cbn [r0 r1 r2 vx vy vz]. rewrite Rabs_right by lra. pose proof (L 2 0 0 2 ltac:(lra) ltac:(lra)). pose proof (L 1 3 0 4 ltac:(lra) ltac:(lra)). pose proof (L 0 1 1 2 ltac:(lra) ltac:(lra)).
    pose proof (len3_nonneg (mk3 2 0 0)). pose proof (len3_nonneg (mk3 1 3 0)). pose proof (len3_nonneg (mk3 0 1 1)).
    set (x := len3 (mk3 2 0 0)) in *. set (y := len3 (mk3 1 3 0)) in *. set (z := len3 (mk3 0 1 1)) in *.
    assert (0 <= x * y <= 8) by nra. assert (0 <= x * y * z <= 16) by nra. split; [apply Rmult_le_pos; [lra|]; left; apply Rinv_0_lt_compat; lra|].
    match goal with |- ?p / ?q <= 10 => replace q with 6 by ring end. lra. }
  assert (Cr : cross3 (mk3 1 0 0) (mk3 1 2 0) = mk3 0 0 2) by (unfold cross3; cbn [vx vy vz]; f_equal; ring).
  assert (L2 : len3 (mk3 0 0 2) = 2) by (unfold len3, dot3; cbn [vx vy vz]; replace (0 * 0 + 0 * 0 + 2 * 2) with (2 * 2) by ring; apply sqrt_square; lra).
  assert (S2 : 0 <= obliqueness (mk3 1 0 0) (mk3 1 2 0) <= 2).
  { unfold obliqueness. rewrite Cr, L2. pose proof (L 1 0 0 1 ltac:(lra) ltac:(lra)). pose proof (L 1 2 0 3 ltac:(lra) ltac:(lra)). pose proof (len3_nonneg (mk3 1 0 0)). pose proof (len3_nonneg (mk3 1 2 0)).
    assert (0 <= len3 (mk3 1 0 0) * len3 (mk3 1 2 0) <= 3) by (split; [apply Rmult_le_pos; assumption|nra]). lra. }
  assert (F : 0 <= fwd u 3 <= 5 / 10 ^ 15). { unfold fwd. assert (0 <= u * u <= / 10 ^ 15 * / 10 ^ 15) by nra. assert (0 <= u * u * u <= / 10 ^ 15) by nra. replace ((1 + u) ^ 3 - 1) with (3 * u + 3 * (u * u) + u * u * u) by ring. lra. }
  set (S3 := skewness _) in *. set (O3 := obliqueness _ _) in *.
  assert (uS : 0 <= u * S3 <= / 10 ^ 14) by nra. assert (uO : 0 <= u * O3 <= / 10 ^ 14) by nra.
  cbn [tame]. fold S3. fold O3. repeat split; try lra.
  - unfold det3; cbn [r0 r1 r2 vx vy vz]; lra.
  - rewrite Cr. intros E. injection E. lra.
  - cbn [drift]. fold S3. fold O3. unfold mul_growth, exp_error. set (g := fwd u 3) in *.
    set (x := 90 * u + 4 * 0 + 1 / 10 ^ 16). set (y := 326 * u * S3). set (z := 102 * u * O3). assert (0 <= x <= 1 / 1000) by (unfold x; lra). assert (0 <= y <= 1 / 1000) by (unfold y; lra). assert (0 <= z <= 1 / 1000) by (unfold z; lra).
    assert (0 <= 3 * g <= 1 / 1000) by lra. set (k := 3 * g) in *. clearbody x y z k.
    assert (P1 : (1 + y) * (1 + z) * (1 + k) <= 1004 / 1000). { assert (0 <= (1 + y) * (1 + z) <= 1003 / 1000) by nra. nra. }
    assert (P0 : 0 <= (1 + y) * (1 + z) * (1 + k)) by (apply Rmult_le_pos; [apply Rmult_le_pos|]; lra).
    replace (1 + ((1 + y) * (1 + z) * (1 + k) - 1)) with ((1 + y) * (1 + z) * (1 + k)) by ring. set (w := (1 + y) * (1 + z) * (1 + k)) in *. assert (0 <= (1 + x) * w <= 1006 / 1000) by nra. nra.
Qed.
