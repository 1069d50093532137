(** * Lemmas on homogeneous matrices, the row and column loops, and the accuracy of the Taylor branches of SE3::exp. *)
From Coq Require Import Reals Lra Bool Psatz Arith Lia.
From Verif Require Import Base Alg Mat SpecMat LemMat ModelOps LemOps Inst ModelLie SpecLie LemLie LemSO3 LemSO3b LemSO3c LemSO3d LemHelpers ModelSE SpecSE LemSE LemSE2.
Local Open Scope R_scope.

Definition blk (M : M3) (t : V3) (b : R) (r c : nat) : R :=
  if (r <? 3)%nat then (if (c <? 3)%nat then ent M r c else comp3 t r) else (if (c <? 3)%nat then 0 else b).
Ltac four i H := destruct i as [|[|[|[|i]]]]; [| | | |exfalso; clear - H; cbn in H; lia].
Lemma times_ext n f g f' g' r c : (r < n)%nat -> (c < n)%nat -> (forall i j, (i < n)%nat -> (j < n)%nat -> f i j = f' i j) ->
  (forall i j, (i < n)%nat -> (j < n)%nat -> g i j = g' i j) -> times n f g r c = times n f' g' r c.
Proof. intros Hr Hc Hf Hg. unfold times. apply sum_ext. intros k Hk. rewrite Hf, Hg; auto. Qed.
Lemma blk_times M t b N s d r c : (r < 4)%nat -> (c < 4)%nat ->
  times 4 (blk M t b) (blk N s d) r c = blk (mm3 M N) (add3 (scale3 d t) (mv3 M s)) (b * d) r c.
Proof.
  intros Hr Hc. unfold times, blk, ent, comp3. dv.
  four r Hr; four c Hc; cbn [Nat.ltb Nat.leb sum]; lie_unfold; cbn [fadd f0 ROps]; ring.
Qed.
Lemma hom3_blk T r c : hom3 T r c = blk (rot T) (trans T) 1 r c.
Proof. reflexivity. Qed.
Lemma gen6_blk v r c : (r < 4)%nat -> (c < 4)%nat -> gen6 v r c = blk (hat (ang v)) (lin v) 0 r c.
Proof. intros. rewrite gen6_hatm by auto. unfold hatm, blk. destruct (r <? 3)%nat; auto. destruct (c <? 3)%nat; auto. Qed.
Lemma hat_conj A v : rotation A -> mm3 (mm3 A (hat v)) (tr3 A) = hat (mv3 A v).
Proof. intros H. rewrite <- (rotation_cof A H) at 3. unfold cof3. clear H. dv. unfold hat. lie_unfold. f_equal; f_equal; ring. Qed.
Lemma hat_mv w p : mv3 (hat w) p = cross3 w p.
Proof. unfold hat. dv. lie_unfold. f_equal; ring. Qed.

(** loops over columns and rows *)
Lemma map_cols_ok n f M (A : nat -> nat -> R) : mrows M = n ->
  (forall g i, (i < n)%nat -> f g i = sum (F:=R) n (fun k => A i k * g k)) ->
  gives_mat (map_cols n f M) n (mcols M) (fun i j => sum (F:=R) n (fun k => A i k * mel M k j)).
Proof.
  intros Hn Hf. unfold map_cols. rewrite same_size_eq by auto. cbn [bind].
  apply wp_ok_inv. eapply wp_mono; [apply (wp_for (fun k res => mrows res = n /\ mcols res = mcols M /\
    forall i j, (i < n)%nat -> (j < k)%nat -> mel res i j = sum (F:=R) n (fun k => A i k * mel M k j))); [lia| |]|].
  - repeat split. intros; lia.
  - intros k res Hk (R1 & R2 & R3). cbn [wp]. unfold put_col. cbn [mrows mcols mel]. repeat split; auto.
    intros i j Hi Hj. destruct (Nat.eqb_spec j k) as [->|N]; [apply Hf; auto|apply R3; auto; lia].
  - intros res (R1 & R2 & R3). repeat split; auto.
Qed.
Lemma map_rows_ok n f M (A : nat -> nat -> R) : mcols M = n ->
  (forall g i, (i < n)%nat -> f g i = sum (F:=R) n (fun k => g k * A k i)) ->
  gives_mat (map_rows n f M) (mrows M) n (fun i j => sum (F:=R) n (fun k => mel M i k * A k j)).
Proof.
  intros Hn Hf. unfold map_rows. rewrite same_size_eq by auto. cbn [bind].
  apply wp_ok_inv. eapply wp_mono; [apply (wp_for (fun k res => mrows res = mrows M /\ mcols res = n /\
    forall i j, (i < k)%nat -> (j < n)%nat -> mel res i j = sum (F:=R) n (fun k => mel M i k * A k j))); [lia| |]|].
  - repeat split. intros; lia.
  - intros k res Hk (R1 & R2 & R3). cbn [wp]. unfold put_row. cbn [mrows mcols mel]. repeat split; auto.
    intros i j Hi Hj. destruct (Nat.eqb_spec i k) as [->|N]; [apply Hf; auto|apply R3; auto; lia].
  - intros res (R1 & R2 & R3). repeat split; auto.
Qed.
Lemma conj_matrix_ok n f M (A : nat -> nat -> R) : mrows M = n -> mcols M = n ->
  (forall g i, (i < n)%nat -> f g i = sum (F:=R) n (fun k => A i k * g k)) ->
  gives_mat (conj_matrix n f M) n n (fun i j => sum (F:=R) n (fun k => sum (F:=R) n (fun l => A i k * mel M k l * A j l))).
Proof.
  intros Hr Hc Hf. unfold conj_matrix. rewrite !same_size_eq by auto. cbn [bind].
  apply wp_ok_inv. apply wp_bind. eapply wp_mono; [apply (wp_for (fun k res => mrows res = n /\ mcols res = n /\
    forall i j, (i < n)%nat -> (j < k)%nat -> mel res i j = sum (F:=R) n (fun k => A i k * mel M k j))); [lia| |]|].
  { repeat split. intros; lia. }
  { intros k res Hk (R1 & R2 & R3). cbn [wp]. unfold put_col. cbn [mrows mcols mel]. repeat split; auto.
    intros i j Hi Hj. destruct (Nat.eqb_spec j k) as [->|N]; [apply Hf; auto|apply R3; auto; lia]. }
  intros res (R1 & R2 & R3).
  eapply wp_mono; [apply (wp_for (fun k s => mrows s = n /\ mcols s = n /\
    (forall i j, (i < k)%nat -> (j < n)%nat -> mel s i j = sum (F:=R) n (fun k => sum (F:=R) n (fun l => A i k * mel M k l * A j l))) /\
    (forall i j, (k <= i)%nat -> (i < n)%nat -> (j < n)%nat -> mel s i j = mel res i j))); [lia| |]|].
  - repeat split; auto. intros; lia.
  - intros k s Hk (S1 & S2 & S3 & S4). cbn [wp]. unfold put_row. cbn [mrows mcols mel]. repeat split; auto.
    + intros i j Hi Hj. destruct (Nat.eqb_spec i k) as [->|N]; [|apply S3; auto; lia].
      rewrite Hf by auto. rewrite sum_swap. apply sum_ext. intros l Hl. rewrite S4, R3 by (auto; lia).
      rewrite (sum_ext n (fun k0 => A k k0 * mel M k0 l * A j l) (fun k0 => fmul (A j l) (A k k0 * mel M k0 l))) by (intros; cbn [fmul ROps]; ring).
      rewrite sum_mul_l. reflexivity.
    + intros i j H1 H2 H3. destruct (Nat.eqb_spec i k) as [->|N]; [lia|apply S4; auto; lia].
  - intros s (S1 & S2 & S3 & _). repeat split; auto.
Qed.

(** accuracy *)
Lemma comb_sub a y1 y2 k z1 z2 l p : sub3 (comb a y1 y2 k p) (comb a z1 z2 l p) = comb a (y1 - z1) (y2 - z2) (k - l) p.
Proof. unfold comb. set (q := dot3 a p). clearbody q. dv. lie_unfold. f_equal; ring. Qed.
Lemma comb_len a z1 z2 p : dot3 a a = 1 -> dot3 (comb a z1 z2 0 p) (comb a z1 z2 0 p) = (z1 * z1 + z2 * z2) * (dot3 p p - dot3 a p * dot3 a p).
Proof.
  intros H.
  assert (G : dot3 (comb a z1 z2 0 p) (comb a z1 z2 0 p) =
     z1 * z1 * (dot3 p p - 2 * (dot3 a p * dot3 a p) + dot3 a p * dot3 a p * dot3 a a) + z2 * z2 * (dot3 a a * dot3 p p - dot3 a p * dot3 a p)).
  { unfold comb. clear H. dv. lie_unfold. ring. }
  rewrite G, H. ring.
Qed.
Lemma comb_len_le a z1 z2 p e : dot3 a a = 1 -> Rabs z1 <= e -> Rabs z2 <= e -> len3 (comb a z1 z2 0 p) <= 2 * e * len3 p.
Proof.
  intros H H1 H2. assert (He : 0 <= e) by (pose proof (Rabs_pos z1); lra).
  unfold len3 at 1. rewrite comb_len by exact H.
  rewrite <- (sqrt_square (2 * e * len3 p)); [|pose proof (len3_nonneg p); nra].
  apply sqrt_le_1_alt.
  replace (2 * e * len3 p * (2 * e * len3 p)) with (4 * (e * e) * dot3 p p) by (rewrite <- len3_sq; ring).
  assert (A1 : z1 * z1 <= e * e). { replace (z1 * z1) with (Rabs z1 * Rabs z1); [pose proof (Rabs_pos z1); nra|]. rewrite <- Rabs_mult. apply Rabs_right. nra. }
  assert (A2 : z2 * z2 <= e * e). { replace (z2 * z2) with (Rabs z2 * Rabs z2); [pose proof (Rabs_pos z2); nra|]. rewrite <- Rabs_mult. apply Rabs_right. nra. }
  pose proof (dot3_nonneg p) as Dp.
  assert (CS : 0 <= dot3 p p - dot3 a p * dot3 a p).
  { assert (G : 0 <= dot3 (cross3 a p) (cross3 a p)) by apply dot3_nonneg.
    replace (dot3 (cross3 a p) (cross3 a p)) with (dot3 a a * dot3 p p - dot3 a p * dot3 a p) in G by (clear; dv; lie_unfold; ring).
    rewrite H in G. lra. }
  assert (0 <= dot3 a p * dot3 a p) by nra.
  apply Rle_trans with (2 * (e * e) * (dot3 p p - dot3 a p * dot3 a p)); [apply Rmult_le_compat_r; lra|]. nra.
Qed.
Lemma Etr_swept a t u : Etr a t u = swept a t u.
Proof. reflexivity. Qed.
Lemma swept_derivative a u t i : (i < 3)%nat -> derivable_pt_lim (fun s => comp3 (swept a s u) i) t (comp3 (rotate a t u) i).
Proof.
  intros Hi.
  assert (G : forall p q r, derivable_pt_lim (fun s => sin s * p + (1 - cos s) * q + s * r) t (cos t * p + sin t * q + r)).
  { intros p q r.
    cut (derivable_pt_lim (fun s => (sin s * p + (1 - cos s) * q) + s * r) t ((cos t * p + sin t * 0 + ((0 - - sin t) * q + (1 - cos t) * 0)) + (1 * r + t * 0))).
    { intros H. replace (cos t * p + sin t * q + r) with ((cos t * p + sin t * 0 + ((0 - - sin t) * q + (1 - cos t) * 0)) + (1 * r + t * 0)) by ring. exact H. }
    apply (derivable_pt_lim_plus (fun s => sin s * p + (1 - cos s) * q) (fun s => s * r)).
    - apply (derivable_pt_lim_plus (fun s => sin s * p) (fun s => (1 - cos s) * q)).
      + apply (derivable_pt_lim_mult sin (fun _ => p)); [apply derivable_pt_lim_sin|apply derivable_pt_lim_const].
      + apply (derivable_pt_lim_mult (fun s => 1 - cos s) (fun _ => q)); [|apply derivable_pt_lim_const].
        apply (derivable_pt_lim_minus (fun _ => 1) cos); [apply derivable_pt_lim_const|apply derivable_pt_lim_cos].
    - apply (derivable_pt_lim_mult id (fun _ => r)); [apply derivable_pt_lim_id|apply derivable_pt_lim_const]. }
  assert (E : forall p q r f l, (forall s, f s = sin s * p + (1 - cos s) * q + s * r) -> cos t * p + sin t * q + r = l -> derivable_pt_lim f t l).
  { intros p q r f l Hf <-. apply (derivable_pt_lim_locally_ext (fun s => sin s * p + (1 - cos s) * q + s * r) _ t (t - 1) (t + 1)); [lra|intros; symmetry; apply Hf|apply G]. }
  unfold swept, rotate, comp3. set (k := dot3 a u). clearbody k. destruct a as [a1 a2 a3], u as [u1 u2 u3].
  destruct i as [|[|[|i]]]; [| | |lia]; cbn [vx vy vz add3 sub3 scale3 cross3].
  - apply (E (u1 - k * a1) (a2 * u3 - a3 * u2) (k * a1)); [intros; ring|ring].
  - apply (E (u2 - k * a2) (a3 * u1 - a1 * u3) (k * a2)); [intros; ring|ring].
  - apply (E (u3 - k * a3) (a1 * u2 - a2 * u1) (k * a3)); [intros; ring|ring].
Qed.
Lemma se3_exp_rot u w T : se3_exp (mk6 u w) = Ok T -> so3_exp w = Ok (rot T).
Proof.
  unfold se3_exp, so3_exp, so3_coeffs. cbn [lin ang].
  destruct (R_ltb (dot3 w w) (1 / 10 ^ 8)); [intros E; injection E as <-; reflexivity|].
  destruct (R_ltb (dot3 w w) (1 / 10 ^ 6)); [cbn [bind]; intros E; injection E as <-; cbn [rot]; do 2 f_equal; field|].
  destruct (div 1 (sqrt (dot3 w w))) eqn:E; cbn [bind]; try discriminate.
  intros E'; injection E' as <-; reflexivity.
Qed.
Lemma se3_exp_close a t u : dot3 a a = 1 -> 0 < t < 1 / 1000 ->
  exists T, se3_exp (mk6 u (scale3 t a)) = Ok T /\ closeM (1 / 10 ^ 17) (rot T) (rot_matrix a t) /\
    (t < 1 / 10 ^ 4 -> len3 (sub3 (trans T) (scale3 (1 / t) (swept a t u))) <= 4 / 10 ^ 9 * len3 u) /\
    (1 / 10 ^ 4 <= t -> len3 (sub3 (trans T) (scale3 (1 / t) (swept a t u))) <= 1 / 10 ^ 17 * len3 u).
Proof.
  intros Ha Ht.
  assert (D : dot3 (scale3 t a) (scale3 t a) = t * t) by (rewrite dot3_scale_l, dot3_scale_r, Ha; ring).
  assert (T2 : t * t < 1 / 10 ^ 6) by nra.
  assert (P3 : 3 < PI) by (pose proof PI2_3_2; lra).
  destruct (sin_bounds t) as [[b1 b2] b3]; [lra|lra|].
  destruct (cos_bounds t) as [[c1 c2] c3]; [lra|lra|].
  destruct (so3_exp_close (scale3 t a)) as (m & Em & Cm); [lra|].
  rewrite exp3_unit in Cm by exact Ha.
  assert (Z : exists B C, se3_exp (mk6 u (scale3 t a)) = Ok (mkSE3 m (comb a (1 - C * (t * t)) (B * t) 1 u)) /\
     (t < 1 / 10 ^ 4 -> C = 0 /\ B = 1 / 2) /\ (1 / 10 ^ 4 <= t -> C = 1 / 6 * (1 - 1 / 20 * (t * t)) /\ B = 1 / 2 - 1 / 24 * (t * t))).
  { assert (Zr : forall T, se3_exp (mk6 u (scale3 t a)) = Ok T -> rot T = m).
    { intros T ET. apply se3_exp_rot in ET. rewrite Em in ET. injection ET as ->. reflexivity. }
    revert Zr. unfold se3_exp. cbn [lin ang]. rewrite D. destruct (Rlt_dec t (1 / 10 ^ 4)) as [L|L].
    - rewrite R_ltb_t by nra. intros Zr. specialize (Zr _ eq_refl). cbn [rot] in Zr. rewrite Zr.
      exists (1 / 2), 0. split; [|split; [auto|lra]]. do 2 f_equal. rewrite <- trans_comb by exact Ha.
      clear. dv. lie_unfold. f_equal; ring.
    - rewrite R_ltb_f by nra. rewrite R_ltb_t by lra. cbn [bind]. intros Zr. specialize (Zr _ eq_refl). cbn [rot] in Zr. rewrite Zr.
      eexists _, _. split; [do 2 f_equal; apply trans_comb; exact Ha|]. split; [lra|]. intros _. split; [reflexivity|field]. }
  destruct Z as (B & C & EZ & Z1 & Z2).
  exists (mkSE3 m (comb a (1 - C * (t * t)) (B * t) 1 u)). split; [exact EZ|]. cbn [rot trans]. split; [exact Cm|].
  rewrite <- Etr_swept. unfold Etr. rewrite comb_scale, comb_sub.
  replace (1 - 1 / t * t) with 0 by (field; lra).
  assert (Q2 : 0 < t * t) by nra.
  assert (Red : forall x e, Rabs (x * t) <= e * t -> Rabs x <= e).
  { intros x e He. rewrite <- Rabs_mul_r in He by lra. apply (Rmult_le_reg_r t); lra. }
  assert (T4 : t ^ 4 = t * t * (t * t)) by ring. assert (T3 : t ^ 3 = t * (t * t)) by ring. assert (T5 : t ^ 5 = t * (t * t * (t * t))) by ring.
  assert (T6 : t ^ 6 = t * (t * (t * t * (t * t)))) by ring. assert (T7 : t ^ 7 = t * t * (t * (t * t * (t * t)))) by ring.
  rewrite T3, T4, T5, T6, T7 in *. 
  split; intros L.
  - destruct (Z1 L) as [-> ->].
    replace (4 / 10 ^ 9 * len3 u) with (2 * (2 / 10 ^ 9) * len3 u) by field. apply comb_len_le; [exact Ha| |].
    + apply Red. replace ((1 - 0 * (t * t) - 1 / t * sin t) * t) with (t - sin t) by (field; lra).
      assert (t * t * (t * t) <= 1 / 10 ^ 8 * (t * t)) by (apply Rmult_le_compat_r; nra).
      assert (t * (t * t) <= t * (1 / 10 ^ 8)) by (apply Rmult_le_compat_l; nra).
      assert (0 < t * (t * t)) by (apply Rmult_lt_0_compat; lra).
      assert (0 < t * (t * t * (t * t))) by (repeat apply Rmult_lt_0_compat; lra).
      assert (t * (t * t * (t * t)) <= t * (1 / 10 ^ 8 * (t * t))) by (apply Rmult_le_compat_l; lra).
      apply Rabs_le. split; lra.
    + apply Red. replace ((1 / 2 * t - 1 / t * (1 - cos t)) * t) with (t * t / 2 - 1 + cos t) by (field; lra).
      replace (t ^ 2) with (t * t) in * by ring.
      assert (t * t * (t * t) <= 1 / 10 ^ 8 * (t * t)) by (apply Rmult_le_compat_r; nra).
      assert (t * t <= 1 / 10 ^ 4 * t) by (apply Rmult_le_compat_r; lra).
      apply Rabs_le. split; lra.
  - destruct (Z2 L) as [-> ->].
    replace (1 / 10 ^ 17 * len3 u) with (2 * (1 / 2 / 10 ^ 17) * len3 u) by field.
    assert (S1 : t * t * (t * t) <= 1 / 10 ^ 6 * (t * t)) by (apply Rmult_le_compat_r; lra).
    assert (S0 : t * t * (t * t) <= 1 / 10 ^ 12) by lra.
    assert (S2 : t * (t * t * (t * t)) <= t * (1 / 10 ^ 12)) by (apply Rmult_le_compat_l; lra).
    assert (P4 : 0 < t * (t * t * (t * t))) by (repeat apply Rmult_lt_0_compat; lra).
    assert (S3 : t * t * (t * (t * t * (t * t))) <= 1 / 10 ^ 6 * (t * (t * t * (t * t)))) by (apply Rmult_le_compat_r; lra).
    assert (P5 : 0 < t * t * (t * (t * t * (t * t)))) by (apply Rmult_lt_0_compat; lra).
    assert (S4 : t * (t * (t * t * (t * t))) <= t * (1 / 10 ^ 15)).
    { apply Rmult_le_compat_l; [lra|]. assert (t * (1 / 10 ^ 12) <= 1 / 10 ^ 15) by lra. lra. }
    assert (P6 : 0 < t * (t * (t * t * (t * t)))) by (apply Rmult_lt_0_compat; lra).
    apply comb_len_le; [exact Ha| |].
    + apply Red. replace ((1 - 1 / 6 * (1 - 1 / 20 * (t * t)) * (t * t) - 1 / t * sin t) * t)
        with (t - t * (t * t) / 6 + t * (t * t * (t * t)) / 120 - sin t) by (field; lra).
      apply Rabs_le. split; lra.
    + apply Red. replace (((1 / 2 - 1 / 24 * (t * t)) * t - 1 / t * (1 - cos t)) * t) with (t * t / 2 - t * t * (t * t) / 24 - 1 + cos t) by (field; lra).
      replace (t ^ 2) with (t * t) in * by ring. apply Rabs_le. split; lra.
Qed.
