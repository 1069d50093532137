(** * One reflection of QR.h in floating point is close to an exact one, when the column is steep. *)
From Coq Require Import Reals Arith Bool Lia Lra Psatz.
From Verif Require Import Base Alg Mat SpecMat LemMat Inst RSum ModelOps LemOps ModelFl SpecFl LemFl LemFlSO3 ModelFlQR SpecFlQR LemFlQR LemFlQR2.
Local Open Scope R_scope.

Lemma s_sqrt1 t : 0 <= t -> t * t <= 1 -> t <= 1. Proof. intros; nra. Qed.
Lemma dot_abs_le n f : Rabs (Sum n f) <= Sum n (fun i => Rabs (f i)).
Proof.
  induction n as [|n IH]; [cbn [sum f0 ROps]; rewrite Rabs_R0; lra|]. change (Sum (S n) ?f) with (Sum n f + f n). cbn beta. eapply Rle_trans; [apply Rabs_triang|]. lra.
Qed.
Lemma bwd8 t : 0 <= t < 1 -> t <= 1 / 1000 -> bwd t 8 <= 82 / 10 * t.
Proof.
  intros T0 T1. eapply Rle_trans; [apply (bwd_gamma t 8 T0)|]; replace (INR 8) with 8 by (cbn; lra); [lra|]. apply (Rmult_le_reg_r (1 - 8 * t)); [lra|]. replace (8 * t / (1 - 8 * t) * (1 - 8 * t)) with (8 * t) by (field; lra). nra.
Qed.
Section E.
Variables (u : R) (rnd : R -> R).
Hypothesis RN : rounding u rnd.
Variables (k : nat) (x : nat -> R) (s : R).
Hypothesis Hk : (2 <= k)%nat.
Hypothesis Hs : 0 < s.
Hypothesis ST : steep s k x.
Let th := 4 * fwd u (k + 2) / (s * s).
Hypothesis TH : th <= 1 / 1000.
Notation L := (len k x).
Notation T := (len (k - 1) (fun i => x (S i))).
Definition sg : R := if R_ltb (x 0%nat) 0 then -1 else 1.
Definition w (r : nat) : R := if (r =? 0)%nat then x 0%nat - sg * L else x r.
Definition hh : R := L * L - L * Rabs (x 0%nat).
Lemma sg_sq : sg * sg = 1. Proof. unfold sg. destruct R_ltb; ring. Qed.
Lemma sg_x : sg * x 0%nat = Rabs (x 0%nat).
Proof. unfold sg. destruct (R_ltb (x 0%nat) 0) eqn:E; [apply R_ltb_spec in E; rewrite Rabs_left by exact E; ring|apply R_ltb_false in E; rewrite Rabs_right by lra; ring]. Qed.
Lemma sg_abs : Rabs sg = 1. Proof. unfold sg. destruct R_ltb; [rewrite Rabs_left by lra|rewrite Rabs_right by lra]; ring. Qed.
Lemma L_T : L * L = x 0%nat * x 0%nat + T * T.
Proof. rewrite !len_sq. replace k with (S (k - 1)) at 1 by lia. rewrite S_first. reflexivity. Qed.
Lemma T_pos : 0 < T. Proof. destruct ST; assumption. Qed.
Lemma L_pos : 0 < L.
Proof. pose proof T_pos. pose proof L_T. pose proof (len_nn k x). pose proof (Rle_0_sqr (x 0%nat)) as Q. unfold Rsqr in Q. assert (0 < T * T) by (apply Rmult_lt_0_compat; assumption). destruct (Req_dec L 0) as [E|E]; [rewrite E in *; lra|lra]. Qed.
Lemma x0_lt : Rabs (x 0%nat) < L.
Proof. pose proof T_pos. pose proof L_T. pose proof L_pos. pose proof (Rabs_pos (x 0%nat)). assert (Rabs (x 0%nat) * Rabs (x 0%nat) = x 0%nat * x 0%nat) by (rewrite <- Rabs_mult; apply Rabs_right; apply Rle_ge, Rle_0_sqr). assert (0 < T * T) by (apply Rmult_lt_0_compat; assumption). nra. Qed.
Lemma s_le1 : s <= 1.
Proof.
  destruct ST as [_ S2]. pose proof T_pos. pose proof L_pos. pose proof L_T. pose proof (Rle_0_sqr (x 0%nat)) as Q. unfold Rsqr in Q. assert (T <= L) by nra. assert (s * L <= 1 * L) by lra. apply Rmult_le_reg_r in H3; lra.
Qed.
Lemma hh_pos : 0 < hh. Proof. unfold hh. pose proof x0_lt. pose proof L_pos. replace (L * L - L * Rabs (x 0%nat)) with (L * (L - Rabs (x 0%nat))) by ring. apply Rmult_lt_0_compat; lra. Qed.
Lemma w0_sg : sg * w 0%nat = - (L - Rabs (x 0%nat)).
Proof. unfold w. cbn [Nat.eqb]. rewrite Rmult_minus_distr_l, sg_x, <- Rmult_assoc, sg_sq. ring. Qed.
Lemma w0_abs : Rabs (w 0%nat) = L - Rabs (x 0%nat).
Proof. pose proof w0_sg as E. apply (f_equal Rabs) in E. rewrite Rabs_mult, sg_abs, Rabs_Ropp, Rmult_1_l in E. rewrite E. apply Rabs_right. pose proof x0_lt. lra. Qed.
Lemma hh_w0 : hh = - sg * L * w 0%nat.
Proof. replace (- sg * L * w 0%nat) with (- L * (sg * w 0%nat)) by ring. rewrite w0_sg. unfold hh. ring. Qed.
Lemma w_sum f : Sum k (fun r => w r * f r) = w 0%nat * f 0%nat + Sum (k - 1) (fun i => x (S i) * f (S i)).
Proof. replace k with (S (k - 1)) at 1 by lia. rewrite S_first. reflexivity. Qed.
Lemma w_sq : Sum k (fun r => w r * w r) = 2 * hh.
Proof.
  rewrite w_sum. assert (E : Sum (k - 1) (fun i => x (S i) * w (S i)) = T * T) by (rewrite len_sq; reflexivity). rewrite E.
  assert (E2 : w 0%nat * w 0%nat = (L - Rabs (x 0%nat)) * (L - Rabs (x 0%nat))). { rewrite <- w0_abs. rewrite <- Rabs_mult. symmetry. apply Rabs_right. apply Rle_ge, Rle_0_sqr. }
  rewrite E2. pose proof L_T as E3. assert (E4 : Rabs (x 0%nat) * Rabs (x 0%nat) = x 0%nat * x 0%nat) by (rewrite <- Rabs_mult; apply Rabs_right; apply Rle_ge, Rle_0_sqr). unfold hh. lra.
Qed.
Lemma refl_x r : (r < k)%nat -> reflect k w hh x r = if (r =? 0)%nat then sg * L else 0.
Proof.
  intros Hr. unfold reflect. assert (E : Sum k (fun q => w q * x q) = hh).
  { rewrite w_sum. assert (E : Sum (k - 1) (fun i => x (S i) * x (S i)) = T * T) by (rewrite len_sq; reflexivity). rewrite E. pose proof L_T as E3. unfold hh. rewrite <- sg_x. unfold w. cbn [Nat.eqb]. lra. }
  rewrite E. pose proof hh_pos. replace (hh / hh) with 1 by (field; lra). unfold w. destruct (Nat.eqb_spec r 0) as [->|]; ring.
Qed.
(** ** sizes *)
Lemma u01 : 0 <= u < 1. Proof. destruct RN as [? _]. assumption. Qed.
Lemma fwd_th n : (n <= k + 2)%nat -> fwd u n <= th / 4.
Proof.
  intros Hn. pose proof u01 as U. pose proof (fwd_mono u n (k + 2) (proj1 U) Hn) as M. pose proof (fwd_nonneg u (k + 2) (proj1 U)) as P. pose proof s_le1 as S1.
  assert (Q : 0 < s * s <= 1) by nra. assert (E : th * (s * s) = 4 * fwd u (k + 2)) by (unfold th; field; lra). assert (0 <= th) by (unfold th; apply Rmult_le_pos; [lra|left; apply Rinv_0_lt_compat; lra]). nra.
Qed.
Lemma th_nn : 0 <= th. Proof. pose proof (fwd_th 0 ltac:(lia)) as E. pose proof (fwd_nonneg u 0 (proj1 u01)). lra. Qed.
Lemma u_th : u <= th / 4. Proof. pose proof (fwd_th 1 ltac:(lia)) as E. unfold fwd in E. cbn [pow] in E. lra. Qed.
Lemma th01 : 0 <= th < 1. Proof. pose proof th_nn. lra. Qed.
Lemma near_th n c : (n <= k + 2)%nat -> near u n c -> fac th 1 c.
Proof.
  intros Hn N. pose proof (near_err u n c u01 N) as E. pose proof (fwd_th n Hn). pose proof th_nn. replace c with (1 + (c - 1)) by ring. apply fac_d; [apply th01|lra].
Qed.
Lemma rnd_th z : exists c, fac th 1 c /\ rnd z = z * c.
Proof. destruct (rnd_near u rnd RN z) as (c & N & E). exists c. split; [|exact E]. apply (near_th 1); [lia|exact N]. Qed.
(** ** the scalars *)
Lemma near_sqrt n c : near u n c -> near u n (sqrt c).
Proof.
  intros [A B]. pose proof (pow_1mu u n u01) as [P Q]. pose proof (pow_1pu u n (proj1 u01)) as P2. split.
  - rewrite <- (sqrt_square ((1 - u) ^ n)) by lra. apply sqrt_le_1_alt. nra.
  - rewrite <- (sqrt_square ((1 + u) ^ n)) by lra. apply sqrt_le_1_alt. nra.
Qed.
Lemma dot_self : exists c, near u k c /\ fsum rnd k (fun r => rnd (x r * x r)) = L * L * c.
Proof.
  destruct (dot_near u rnd RN x x k) as (c & Hc & E). pose proof L_pos as P. assert (P2 : 0 < L * L) by (apply Rmult_lt_0_compat; assumption).
  exists (Sum k (fun i => x i * x i * c i) / (L * L)). split; [|rewrite E; field; lra].
  assert (A : (1 - u) ^ k * (L * L) <= Sum k (fun i => x i * x i * c i)). { rewrite len_sq, <- S_mul_l. apply S_le. intros i Hi. destruct (Hc i Hi) as [A _]. pose proof (Rle_0_sqr (x i)) as Q. unfold Rsqr in Q. nra. }
  assert (B : Sum k (fun i => x i * x i * c i) <= (1 + u) ^ k * (L * L)). { rewrite len_sq, <- S_mul_l. apply S_le. intros i Hi. destruct (Hc i Hi) as [_ B]. pose proof (Rle_0_sqr (x i)) as Q. unfold Rsqr in Q. nra. }
  split; apply (Rmult_le_reg_r (L * L) _ _ P2); replace (Sum k (fun i => x i * x i * c i) / (L * L) * (L * L)) with (Sum k (fun i => x i * x i * c i)) by (field; lra); assumption.
Qed.
Lemma a_is : exists c, near u (k + 2) c /\ q_a rnd k x = sg * L * c.
Proof.
  destruct dot_self as (c & Nc & E). unfold q_a. rewrite E. rewrite sqrt_mult_alt by (apply Rle_0_sqr). rewrite sqrt_square by (pose proof L_pos; lra).
  destruct (rnd_near u rnd RN (L * sqrt c)) as (c1 & N1 & ->). fold sg. destruct (rnd_near u rnd RN (L * sqrt c * c1 * sg)) as (c2 & N2 & ->).
  exists (sqrt c * c1 * c2). split; [|ring]. replace (k + 2)%nat with (k + 1 + 1)%nat by lia. apply near_mul; [apply u01| |exact N2]. apply near_mul; [apply u01|apply near_sqrt; exact Nc|exact N1].
Qed.
Lemma a_err : Rabs (q_a rnd k x - sg * L) <= fwd u (k + 2) * L.
Proof. destruct a_is as (c & N & ->). replace (sg * L * c - sg * L) with (sg * (L * (c - 1))) by ring. rewrite !Rabs_mult, sg_abs. pose proof (near_err u _ c u01 N). pose proof L_pos. rewrite (Rabs_right L) by lra. nra. Qed.
Lemma w0_big : s * s * L <= 2 * Rabs (w 0%nat).
Proof.
  rewrite w0_abs. pose proof x0_lt as A. pose proof L_pos as P. pose proof L_T as E. destruct ST as [T1 T2]. pose proof (Rabs_pos (x 0%nat)) as Q.
  assert (E4 : Rabs (x 0%nat) * Rabs (x 0%nat) = x 0%nat * x 0%nat) by (rewrite <- Rabs_mult; apply Rabs_right; apply Rle_ge, Rle_0_sqr).
  assert (B : (s * L) * (s * L) <= T * T) by (apply Rmult_le_compat; try assumption; apply Rmult_le_pos; lra).
  apply (Rmult_le_reg_r L); [exact P|]. assert ((L - Rabs (x 0%nat)) * (L + Rabs (x 0%nat)) <= (L - Rabs (x 0%nat)) * (2 * L)) by (apply Rmult_le_compat_l; lra). lra.
Qed.
Lemma w0_nz : w 0%nat <> 0.
Proof. intros E. pose proof w0_abs as A. rewrite E, Rabs_R0 in A. pose proof x0_lt. lra. Qed.
Lemma u0_is : exists g, fac th 1 g /\ q_u0 rnd k x = w 0%nat * g.
Proof.
  unfold q_u0. set (a := q_a rnd k x). pose proof a_err as A. fold a in A. destruct (rnd_d u rnd RN (x 0%nat - a)) as (d & D & ->).
  set (e := (a - sg * L) / w 0%nat). pose proof w0_nz as W. pose proof L_pos as P. pose proof u_th as UT. pose proof th01 as T0.
  assert (Ee : Rabs e <= th / 2).
  { unfold e, Rdiv. rewrite Rabs_mult, Rabs_inv. assert (WP : 0 < Rabs (w 0%nat)) by (apply Rabs_pos_lt; exact W).
    apply (Rmult_le_reg_r (Rabs (w 0%nat))); [exact WP|]. rewrite Rmult_assoc, Rinv_l, Rmult_1_r by lra. eapply Rle_trans; [exact A|].
    pose proof w0_big as B. assert (SP : 0 < s * s) by (apply Rmult_lt_0_compat; exact Hs). assert (E : fwd u (k + 2) = th * (s * s) / 4) by (unfold th; field; lra). rewrite E.
    assert (th * (s * s * L) <= th * (2 * Rabs (w 0%nat))) by (apply Rmult_le_compat_l; lra). lra. }
  exists (1 + (- e + d - e * d)). split.
  - apply fac_d; [exact T0|]. assert (Rabs (e * d) <= th / 2 * (th / 4)) by (rewrite Rabs_mult; apply Rmult_le_compat; try apply Rabs_pos; lra). pose proof (Rabs_triang (- e + d) (- (e * d))) as X1. pose proof (Rabs_triang (- e) d) as X2. rewrite !Rabs_Ropp in *. replace (- e + d - e * d) with (- e + d + - (e * d)) by ring. nra.
  - unfold e. unfold w at 1. cbn [Nat.eqb]. fold (w 0%nat). assert (Ew : x 0%nat = w 0%nat + sg * L) by (unfold w; cbn [Nat.eqb]; ring). replace (x 0%nat - a) with (w 0%nat - (a - sg * L)) by (rewrite Ew; ring). replace (x 0%nat - sg * L) with (w 0%nat) by reflexivity. field. exact W.
Qed.
Lemma H_is : exists h, fac th 3 h /\ q_H rnd k x = hh * h.
Proof.
  unfold q_H. destruct a_is as (c & Nc & ->). destruct u0_is as (g & Fg & ->). destruct (rnd_th (- (sg * L * c) * (w 0%nat * g))) as (e & Fe & ->).
  exists (c * g * e). split; [|rewrite hh_w0; ring]. apply (fac_mul th 2 1); [apply th01| |exact Fe]. apply (fac_mul th 1 1); [apply th01| |exact Fg]. apply (near_th (k + 2)); [lia|exact Nc].
Qed.
Lemma H_nz : q_H rnd k x <> 0.
Proof. destruct H_is as (h & F & ->). pose proof (fac_pos th 3 h th01 F). pose proof hh_pos. nra. Qed.
Lemma u_is : exists g, (forall r, fac th 1 (g r)) /\ forall r, q_u rnd k x r = w r * g r.
Proof.
  destruct u0_is as (g & Fg & E). exists (fun r => if (r =? 0)%nat then g else 1). split.
  - intros r. destruct (r =? 0)%nat; [exact Fg|]. apply (fac_le th 0); [apply th01|lia|apply fac_1; apply th01].
  - intros r. unfold q_u, w. destruct (Nat.eqb_spec r 0) as [->|]; [rewrite E; unfold w; cbn [Nat.eqb]; reflexivity|ring].
Qed.
(** ** a column y *)
Lemma col_err n (y : nat -> R) :
  len k (fun r => upd rnd n k (q_u rnd k x) (q_H rnd k x) y (n + r) - reflect k w hh (fun r => y (n + r)%nat) r) <= 18 * th * len k (fun r => y (n + r)%nat).
Proof.
  set (z := fun r => y (n + r)%nat). destruct u_is as (g & Fg & Eg). destruct H_is as (h & Fh & Eh). pose proof hh_pos as HP. pose proof th01 as T0. pose proof (fac_pos th 3 h T0 Fh) as PH.
  destruct (dot_near u rnd RN (q_u rnd k x) z k) as (c & Hc & Ed).
  destruct (rnd_th (fsum rnd k (fun r => rnd (q_u rnd k x r * z r)) / q_H rnd k x)) as (e1 & F1 & E1).
  set (va := rnd (fsum rnd k (fun r => rnd (q_u rnd k x r * z r)) / q_H rnd k x)) in *.
  assert (Q : forall r, exists q : nat -> R, (forall j, (j < k)%nat -> fac th 8 (q j)) /\ rnd (q_u rnd k x r * va) = w r * (Sum k (fun j => w j * z j * q j) / hh)).
  { intros r. destruct (rnd_th (q_u rnd k x r * va)) as (e2 & F2 & E2). exists (fun j => g r * g j * c j * e1 * e2 * / h). split.
    - intros j Hj. apply (fac_mul th 5 3); [exact T0| |apply fac_inv; assumption]. apply (fac_mul th 4 1); [exact T0| |exact F2]. apply (fac_mul th 3 1); [exact T0| |exact F1]. apply (fac_mul th 2 1); [exact T0| |apply (near_th k); [lia|apply Hc; exact Hj]]. apply (fac_mul th 1 1); [exact T0|apply Fg|apply Fg].
    - rewrite E2, E1, Ed, Eh, Eg. rewrite (S_ext k (fun i => q_u rnd k x i * z i * c i) (fun i => w i * z i * g i * c i)) by (intros; rewrite Eg; ring).
      rewrite (S_ext k (fun j => w j * z j * (g r * g j * c j * e1 * e2 * / h)) (fun j => (g r * e1 * e2 * / h) * (w j * z j * g j * c j))) by (intros; ring). rewrite S_mul_l. field. lra. }
  set (v := Sum k (fun j => w j * z j) / hh). set (M := 82 / 10 * th * (len k w * len k z) / hh).
  set (E := fun r => rnd (q_u rnd k x r * va) - w r * v).
  assert (MP : 0 <= M). { unfold M. apply Rmult_le_pos; [|left; apply Rinv_0_lt_compat; exact HP]. apply Rmult_le_pos; [lra|]. apply Rmult_le_pos; apply len_nn. }
  assert (BE : forall r, Rabs (E r) <= Rabs (w r * M)).
  { intros r. destruct (Q r) as (q & Fq & Eq). unfold E. rewrite Eq. unfold v. replace (w r * (Sum k (fun j => w j * z j * q j) / hh) - w r * (Sum k (fun j => w j * z j) / hh)) with (w r * ((Sum k (fun j => w j * z j * q j) - Sum k (fun j => w j * z j)) / hh)) by (field; lra).
    rewrite !Rabs_mult. apply Rmult_le_compat_l; [apply Rabs_pos|]. rewrite (Rabs_right M) by lra. unfold M, Rdiv. rewrite Rabs_mult, (Rabs_right (/ hh)) by (apply Rle_ge; left; apply Rinv_0_lt_compat; exact HP). apply Rmult_le_compat_r; [left; apply Rinv_0_lt_compat; exact HP|].
    rewrite <- S_sub. rewrite (S_ext k _ (fun j => w j * z j * (q j - 1))) by (intros; ring).
    eapply Rle_trans; [apply dot_abs_le|]. eapply Rle_trans; [apply (S_le k _ (fun j => 82 / 10 * th * Rabs (w j * z j)))|].
    - intros j Hj. rewrite Rabs_mult. pose proof (fac_err th 8 (q j) T0 (Fq j Hj)) as FE. pose proof (bwd8 th T0 TH) as B8. pose proof (Rabs_pos (w j * z j)). rewrite (Rmult_comm (82 / 10 * th)). apply Rmult_le_compat_l; lra.
    - rewrite S_mul_l. apply Rmult_le_compat_l; [lra|]. apply abs_dot_len. }
  assert (LE : len k E <= 164 / 10 * th * len k z).
  { eapply Rle_trans; [apply (len_le k E (fun r => w r * M)); intros; apply BE|]. rewrite len_scal_r, (Rabs_right M) by lra. unfold M.
    replace (82 / 10 * th * (len k w * len k z) / hh * len k w) with (82 / 10 * th * len k z * ((len k w * len k w) / hh)) by (field; lra). rewrite len_sq, w_sq. apply Req_le. field. lra. }
  assert (ORT : len k (reflect k w hh z) = len k z).
  { rewrite <- (len_mv k (rmat_of w hh) z) by (apply reflect_orth; [lra|apply w_sq]). apply len_ext. intros i Hi. symmetry. apply reflect_mv. exact Hi. }
  set (P := reflect k w hh z) in *.
  assert (BD : forall r, Rabs (upd rnd n k (q_u rnd k x) (q_H rnd k x) y (n + r) - P r + E r) <= Rabs (u * (P r - E r))).
  { intros r. change (upd rnd n k (q_u rnd k x) (q_H rnd k x) y (n + r)) with (rnd (z r - rnd (q_u rnd k x (n + r - n)%nat * va))). replace (n + r - n)%nat with r by lia.
    assert (EP : P r - E r = z r - rnd (q_u rnd k x r * va)) by (unfold P, reflect, E, v; ring). rewrite <- EP. destruct (rnd_d u rnd RN (P r - E r)) as (d & D & ->). replace ((P r - E r) * (1 + d) - P r + E r) with (d * (P r - E r)) by ring. rewrite !Rabs_mult. apply Rmult_le_compat_r; [apply Rabs_pos|]. rewrite (Rabs_right u) by (pose proof u01; lra). exact D. }
  assert (LD : len k (fun r => upd rnd n k (q_u rnd k x) (q_H rnd k x) y (n + r) - P r + E r) <= u * (len k z + len k E)).
  { eapply Rle_trans; [apply (len_le k _ (fun r => u * (P r - E r))); intros; apply BD|]. rewrite len_scal, (Rabs_right u) by (pose proof u01; lra). apply Rmult_le_compat_l; [pose proof u01; lra|]. rewrite <- ORT. eapply Rle_trans; [apply (len_add k P (fun r => - E r))|]. apply Rplus_le_compat_l. apply Req_le. rewrite <- (len_abs k E), <- len_abs. apply len_ext. intros; apply Rabs_Ropp. }
  apply Rle_trans with (len k (fun r => upd rnd n k (q_u rnd k x) (q_H rnd k x) y (n + r) - P r + E r) + len k E).
  - eapply Rle_trans; [|apply Rplus_le_compat_l; apply Req_le; rewrite <- (len_abs k E); reflexivity]. rewrite (len_abs k E).
    eapply Rle_trans; [apply (len_near k _ (fun r => - E r))|]. rewrite Rplus_comm. apply Rplus_le_compat; [apply Req_le; apply len_ext; intros; ring|]. apply Req_le. rewrite <- (len_abs k E), <- len_abs. apply len_ext. intros; apply Rabs_Ropp.
  - pose proof u_th. pose proof u01 as U01. pose proof (len_nn k z) as ZP. pose proof (len_nn k E). assert (u * (len k z + len k E) <= th / 4 * (len k z + 164 / 10 * th * len k z)) by (apply Rmult_le_compat; lra).
    assert (th * (th * len k z) <= 1 / 1000 * (th * len k z)) by (apply Rmult_le_compat_r; [apply Rmult_le_pos; lra|lra]). assert (0 <= th * len k z) by (apply Rmult_le_pos; lra). lra.
Qed.
End E.
