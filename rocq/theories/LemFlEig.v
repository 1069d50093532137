(** * Rounding errors of SymEigen<2>, on the three numbers it reads. *)
From Coq Require Import Reals Lra Lia Psatz Arith Bool.
From Verif Require Import Base Alg Mat Inst RSum ModelLie SpecLie LemLie ModelFl SpecFl LemFl LemFlChol ModelFlSO3 SpecFlSO3 LemFlSO3 ModelFl2D LemFl2D ModelEig ModelFlEig SpecFlEig.
Open Scope outcome_scope.
Local Open Scope R_scope.

Lemma sq_nonneg x : 0 <= x * x.
Proof. pose proof (Rle_0_sqr x). unfold Rsqr in *. assumption. Qed.
Lemma abs_sq x y : 0 <= y -> x * x <= y * y -> Rabs x <= y.
Proof. intros Y H. apply Rsqr_le_abs_0 in H. rewrite (Rabs_right y) in H by lra. exact H. Qed.
Lemma abs_b x y : Rabs x <= y -> - y <= x <= y.
Proof. unfold Rabs. destruct (Rcase_abs x); lra. Qed.
Lemma b_abs x y : - y <= x <= y -> Rabs x <= y.
Proof. unfold Rabs. destruct (Rcase_abs x); lra. Qed.
Section S.
Variables (u : R) (rnd : R -> R).
Hypothesis RN : rounding u rnd.
Hypothesis U : u <= 1 / 6800.
Notation ur := (u_rng u rnd RN).
Variables p b q : R.
Definition sq := p * p + q * q + 2 * (b * b).
Definition N := sqrt sq.
Definition D := (p - q) * (p - q) + 4 * (b * b).
Definition g := sqrt D.
Lemma sq0 : 0 <= sq.
Proof. unfold sq. pose proof (sq_nonneg p). pose proof (sq_nonneg q). pose proof (sq_nonneg b). lra. Qed.
Lemma N0 : 0 <= N.
Proof. apply sqrt_pos. Qed.
Lemma NN : N * N = sq.
Proof. apply sqrt_sqrt, sq0. Qed.
Lemma D0 : 0 <= D.
Proof. unfold D. pose proof (sq_nonneg (p - q)). pose proof (sq_nonneg b). lra. Qed.
Lemma g0 : 0 <= g.
Proof. apply sqrt_pos. Qed.
Lemma gg : g * g = D.
Proof. apply sqrt_sqrt, D0. Qed.
Lemma tg : (p + q) * (p + q) + g * g = 2 * (N * N).
Proof. rewrite gg, NN. unfold D, sq. ring. Qed.
Lemma g_N : g <= 14143 / 10000 * N.
Proof. pose proof N0. pose proof g0. rewrite <- (Rabs_right g) by lra. apply abs_sq; [lra|]. pose proof tg. pose proof (sq_nonneg (p + q)). pose proof (sq_nonneg N). lra. Qed.
Lemma t_N : Rabs (p + q) <= 14143 / 10000 * N.
Proof. pose proof N0. apply abs_sq; [lra|]. pose proof tg. pose proof (sq_nonneg g). pose proof (sq_nonneg N). lra. Qed.
Lemma tg_N : Rabs (p + q) + g <= 2 * N.
Proof.
  pose proof N0. pose proof g0. pose proof (Rabs_pos (p + q)). rewrite <- (Rabs_right (Rabs (p + q) + g)) by lra. apply abs_sq; [lra|].
  assert (E : Rabs (p + q) * Rabs (p + q) = (p + q) * (p + q)) by (rewrite <- Rabs_mult; apply Rabs_right; pose proof (sq_nonneg (p + q)); lra).
  pose proof tg. pose proof (sq_nonneg (Rabs (p + q) - g)). nra.
Qed.
Lemma b_N : Rabs b <= 7072 / 10000 * N.
Proof. pose proof N0. apply abs_sq; [lra|]. pose proof NN as E. unfold sq in E. pose proof (sq_nonneg p). pose proof (sq_nonneg q). pose proof (sq_nonneg N). lra. Qed.
Lemma pq_g : Rabs (p - q) <= g.
Proof. apply abs_sq; [apply g0|]. rewrite gg. unfold D. pose proof (sq_nonneg b). lra. Qed.
Lemma b_g : Rabs b <= g / 2.
Proof. pose proof g0. apply abs_sq; [lra|]. pose proof gg as E. unfold D in E. pose proof (sq_nonneg (p - q)). lra. Qed.

(** the code *)
Definition t' := rnd (p + q).
Definition det' := rnd (rnd (p * q) - rnd (b * b)).
Definition disc' := rnd (rnd (t' * t') - rnd (4 * det')).
Definition clamped := if R_ltb disc' 0 then 0 else disc'.
Definition r' := rnd (sqrt clamped).
Definition l0 := rnd (/ 2 * rnd (t' - r')).
Definition l1 := rnd (/ 2 * rnd (t' + r')).
Definition a' := rnd (p - l0).
(** the exact eigenvalues *)
Definition e0 := (p + q - g) / 2.
Definition e1 := (p + q + g) / 2.

Lemma rd x : exists d, Rabs d <= u /\ rnd x = x * (1 + d).
Proof. apply (rnd_d u rnd RN). Qed.
Lemma near2_err c : near u 2 c -> Rabs (c - 1) <= 201 / 100 * u.
Proof. intros H. eapply Rle_trans; [apply (near_err u 2 c ur H)|]. apply (fwd2 u rnd RN). lra. Qed.
Lemma near3_err c : near u 3 c -> Rabs (c - 1) <= 301 / 100 * u.
Proof. intros H. eapply Rle_trans; [apply (near_err u 3 c ur H)|]. apply (fwd3 u rnd RN). lra. Qed.
Lemma rn x : exists c, near u 1 c /\ rnd x = x * c.
Proof. apply (rnd_near u rnd RN). Qed.
Lemma near_mul2 c d : near u 1 c -> near u 1 d -> near u 2 (c * d).
Proof. intros A B. apply (near_mul u 1 1 c d ur A B). Qed.
Lemma near_mul3 c d e : near u 1 c -> near u 1 d -> near u 1 e -> near u 3 (c * d * e).
Proof. intros A B X. apply (near_mul u 2 1 (c * d) e ur (near_mul2 c d A B) X). Qed.

Lemma t_err : Rabs (t' - (p + q)) <= u * Rabs (p + q).
Proof. apply (rnd_err u rnd RN). Qed.
Lemma disc_err : Rabs (disc' - D) <= 141 / 10 * u * (N * N).
Proof.
  pose proof ur as Hu. pose proof (sq_nonneg N) as N2. unfold disc'. set (X := rnd (t' * t')). set (Y := rnd (4 * det')).
  assert (EX : Rabs (X - (p + q) * (p + q)) <= 602 / 100 * u * (N * N)).
  { unfold X, t'. destruct (rn (p + q)) as (c1 & C1 & ->). destruct (rn ((p + q) * c1 * ((p + q) * c1))) as (c2 & C2 & ->).
    replace ((p + q) * c1 * ((p + q) * c1) * c2 - (p + q) * (p + q)) with ((p + q) * (p + q) * (c1 * c1 * c2 - 1)) by ring.
    pose proof (near3_err _ (near_mul3 _ _ _ C1 C1 C2)) as K. rewrite Rabs_mult, (Rabs_right ((p + q) * (p + q))) by (pose proof (sq_nonneg (p + q)); lra).
    apply (Rle_trans _ (2 * (N * N) * (301 / 100 * u))); [|lra]. pose proof (sq_nonneg (p + q)). pose proof tg. pose proof (sq_nonneg g). apply Rmult_le_compat; try lra. apply Rabs_pos. }
  assert (EY : Rabs (Y - 4 * (p * q - b * b)) <= 602 / 100 * u * (N * N)).
  { unfold Y, det'. destruct (rn (p * q)) as (c1 & C1 & ->). destruct (rn (b * b)) as (c2 & C2 & ->). destruct (rn (p * q * c1 - b * b * c2)) as (c3 & C3 & ->). destruct (rn (4 * ((p * q * c1 - b * b * c2) * c3))) as (c4 & C4 & ->).
    replace (4 * ((p * q * c1 - b * b * c2) * c3) * c4 - 4 * (p * q - b * b)) with (4 * (p * q) * (c1 * c3 * c4 - 1) + - (4 * (b * b) * (c2 * c3 * c4 - 1))) by ring.
    pose proof (near3_err _ (near_mul3 _ _ _ C1 C3 C4)) as K1. pose proof (near3_err _ (near_mul3 _ _ _ C2 C3 C4)) as K2.
    eapply Rle_trans; [apply Rabs_triang|]. rewrite Rabs_Ropp, !Rabs_mult. rewrite (Rabs_right 4) by lra.
    set (P := Rabs p * Rabs q) in *. assert (P0 : 0 <= P) by (apply Rmult_le_pos; apply Rabs_pos). set (B := Rabs b * Rabs b). assert (B0 : B = b * b) by (unfold B; rewrite <- Rabs_mult; apply Rabs_right; pose proof (sq_nonneg b); lra).
    assert (PP : 4 * P + 4 * B <= 2 * (N * N)). { rewrite NN, B0. unfold sq. assert (Rabs p * Rabs p = p * p) by (rewrite <- Rabs_mult; apply Rabs_right; pose proof (sq_nonneg p); lra). assert (Rabs q * Rabs q = q * q) by (rewrite <- Rabs_mult; apply Rabs_right; pose proof (sq_nonneg q); lra). pose proof (sq_nonneg (Rabs p - Rabs q)). unfold P. lra. }
    assert (B1 : 0 <= B) by (rewrite B0; apply sq_nonneg).
    assert (4 * P * Rabs (c1 * c3 * c4 - 1) <= 4 * P * (301 / 100 * u)) by (apply Rmult_le_compat_l; lra). assert (4 * B * Rabs (c2 * c3 * c4 - 1) <= 4 * B * (301 / 100 * u)) by (apply Rmult_le_compat_l; lra).
    assert ((4 * P + 4 * B) * (301 / 100 * u) <= 2 * (N * N) * (301 / 100 * u)) by (apply Rmult_le_compat_r; lra). lra. }
  pose proof (rnd_err u rnd RN (X - Y)) as R1.
  assert (E : Rabs (X - Y - D) <= 1204 / 100 * u * (N * N)). { replace (X - Y - D) with ((X - (p + q) * (p + q)) + - (Y - 4 * (p * q - b * b))) by (unfold D; ring). eapply Rle_trans; [apply Rabs_triang|]. rewrite Rabs_Ropp. lra. }
  assert (DN : 0 <= D <= 2 * (N * N)). { split; [apply D0|]. pose proof tg as T. rewrite gg in T. pose proof (sq_nonneg (p + q)). lra. }
  assert (XY : Rabs (X - Y) <= D + 1204 / 100 * u * (N * N)). { replace (X - Y) with (D + (X - Y - D)) by ring. eapply Rle_trans; [apply Rabs_triang|]. rewrite (Rabs_right D) by lra. lra. }
  assert (uN : 0 <= u * (N * N)) by (apply Rmult_le_pos; lra). assert (u * Rabs (X - Y) <= u * (2 * (N * N) + 1204 / 100 * u * (N * N))) by (apply Rmult_le_compat_l; lra).
  assert (u * (u * (N * N)) <= 1 / 6800 * (u * (N * N))) by (apply Rmult_le_compat_r; lra).
  replace (rnd (X - Y) - D) with ((rnd (X - Y) - (X - Y)) + (X - Y - D)) by ring. eapply Rle_trans; [apply Rabs_triang|]. lra.
Qed.
Lemma clamp_err : 0 <= clamped /\ Rabs (clamped - D) <= 141 / 10 * u * (N * N).
Proof.
  pose proof disc_err as E. pose proof D0. unfold clamped. destruct (R_ltb disc' 0) eqn:T.
  - apply R_ltb_spec in T. split; [lra|]. apply abs_b in E. apply b_abs. lra.
  - apply R_ltb_false in T. split; lra.
Qed.
(** the error of the root *)
Definition h := Rabs (sqrt clamped - g).
Lemma h0 : 0 <= h.
Proof. apply Rabs_pos. Qed.
Lemma h_sq : h * h <= 141 / 10 * u * (N * N) /\ h * g <= 141 / 10 * u * (N * N).
Proof.
  destruct clamp_err as [P E]. pose proof (sqrt_pos clamped) as W0. pose proof (sqrt_sqrt clamped P) as WW. set (w := sqrt clamped) in *. pose proof g0. pose proof gg as G.
  assert (F : h * (w + g) = Rabs (clamped - D)). { unfold h. fold w. rewrite <- (Rabs_right (w + g)) at 1 by lra. rewrite <- Rabs_mult. f_equal. rewrite <- WW, <- G. ring. }
  assert (H1 : h <= w + g). { unfold h. fold w. apply b_abs. lra. } pose proof h0.
  assert (h * h <= h * (w + g)) by (apply Rmult_le_compat_l; lra). assert (h * g <= h * (w + g)) by (apply Rmult_le_compat_l; lra). lra.
Qed.
Definition su := sqrt u.
Lemma su0 : 0 <= su.
Proof. apply sqrt_pos. Qed.
Lemma susu : su * su = u.
Proof. apply sqrt_sqrt, ur. Qed.
Lemma su_small : su <= 122 / 10000.
Proof. pose proof su0. rewrite <- (Rabs_right su) by lra. apply abs_sq; [lra|]. rewrite susu. lra. Qed.
Lemma u_su : u <= 122 / 10000 * su.
Proof. rewrite <- susu at 1. pose proof su0. pose proof su_small. apply Rmult_le_compat_r; lra. Qed.
Lemma h_N : h <= 3756 / 1000 * (su * N).
Proof.
  pose proof su0. pose proof N0. pose proof h0. assert (0 <= su * N) by (apply Rmult_le_pos; lra). rewrite <- (Rabs_right h) by lra. apply abs_sq; [lra|]. destruct h_sq as [A _]. pose proof ur as Hu. pose proof (sq_nonneg N).
  replace (3756 / 1000 * (su * N) * (3756 / 1000 * (su * N))) with ((3756 / 1000 * (3756 / 1000)) * ((su * su) * (N * N))) by ring. rewrite susu. assert (0 <= u * (N * N)) by (apply Rmult_le_pos; lra). lra.
Qed.
Lemma r_err : 0 <= r' /\ Rabs (r' - g) <= h + u * (g + h).
Proof.
  pose proof ur as Hu. pose proof (sqrt_pos clamped) as W0. unfold r'. destruct (rd (sqrt clamped)) as (d & Hd & E). apply abs_b in Hd. split.
  - rewrite E. apply Rmult_le_pos; lra.
  - pose proof (rnd_err u rnd RN (sqrt clamped)) as E1. rewrite (Rabs_right (sqrt clamped)) in E1 by lra. assert (W : sqrt clamped <= g + h). { unfold h. pose proof (Rle_abs (sqrt clamped - g)). lra. }
    assert (u * sqrt clamped <= u * (g + h)) by (apply Rmult_le_compat_l; lra). replace (rnd (sqrt clamped) - g) with ((rnd (sqrt clamped) - sqrt clamped) + (sqrt clamped - g)) by ring. eapply Rle_trans; [apply Rabs_triang|]. fold h. lra.
Qed.
(** half of a sum, rounded twice *)
Lemma half_err x y e : Rabs (x - 2 * y) <= e -> Rabs y <= N -> Rabs (rnd (/ 2 * rnd x) - y) <= e / 2 + 201 / 100 * u * (N + e / 2) /\ Rabs (rnd (/ 2 * rnd x) - x / 2) <= 201 / 100 * u * (N + e / 2).
Proof.
  intros E Y. pose proof ur as Hu. destruct (rn x) as (c1 & C1 & ->). destruct (rn (/ 2 * (x * c1))) as (c2 & C2 & ->). pose proof (near2_err _ (near_mul2 _ _ C1 C2)) as K.
  assert (X : Rabs (x / 2) <= N + e / 2). { replace (x / 2) with (y + (x - 2 * y) * / 2) by field. eapply Rle_trans; [apply Rabs_triang|]. rewrite Rabs_mult, (Rabs_right (/ 2)) by lra. lra. }
  assert (Z : Rabs (/ 2 * (x * c1) * c2 - x / 2) <= 201 / 100 * u * (N + e / 2)). { replace (/ 2 * (x * c1) * c2 - x / 2) with ((c1 * c2 - 1) * (x / 2)) by field. rewrite Rabs_mult. apply Rmult_le_compat; try apply Rabs_pos; lra. }
  split; [|exact Z]. replace (/ 2 * (x * c1) * c2 - y) with ((/ 2 * (x * c1) * c2 - x / 2) + (x - 2 * y) * / 2) by field. eapply Rle_trans; [apply Rabs_triang|]. rewrite (Rabs_mult (x - 2 * y)), (Rabs_right (/ 2)) by lra. lra.
Qed.
Lemma e_N : Rabs e0 <= N /\ Rabs e1 <= N.
Proof. pose proof tg_N as T. pose proof g0. pose proof (Rle_abs (p + q)). pose proof (Rle_abs (- (p + q))) as T2. rewrite Rabs_Ropp in T2. unfold e0, e1. split; apply b_abs; lra. Qed.
Lemma l_err : Rabs (l0 - e0) <= 302 / 100 * u * N + 501 / 1000 * h /\ Rabs (l1 - e1) <= 302 / 100 * u * N + 501 / 1000 * h /\ Rabs (l0 + l1 - (p + q)) <= 5 * u * N.
Proof.
  pose proof ur as Hu. pose proof t_err as T. destruct r_err as [R0 R1]. destruct e_N as [E0 E1]. pose proof tg_N as TG. pose proof N0. pose proof h0. pose proof g0. pose proof h_N as HN. pose proof su_small. pose proof su0. pose proof t_N as TN. pose proof g_N as GN.
  assert (SN : su * N <= 122 / 10000 * N) by (apply Rmult_le_compat_r; lra). set (e := u * Rabs (p + q) + (h + u * (g + h))).
  assert (uN : 0 <= u * N <= 1 / 6800 * N) by (split; [apply Rmult_le_pos; lra|apply Rmult_le_compat_r; lra]). assert (uh : 0 <= u * h <= 1 / 6800 * h) by (split; [apply Rmult_le_pos; lra|apply Rmult_le_compat_r; lra]).
  assert (utg : u * Rabs (p + q) + u * g <= 2 * (u * N)). { rewrite <- Rmult_plus_distr_l. apply (Rle_trans _ (u * (2 * N))); [apply Rmult_le_compat_l; lra|lra]. }
  assert (e0' : 0 <= e <= 2 * (u * N) + h + u * h). { unfold e. pose proof (Rabs_pos (p + q)). assert (0 <= u * Rabs (p + q)) by (apply Rmult_le_pos; lra). assert (0 <= u * (g + h)) by (apply Rmult_le_pos; lra). lra. }
  assert (A : Rabs (t' - r' - 2 * e0) <= e). { replace (t' - r' - 2 * e0) with ((t' - (p + q)) + - (r' - g)) by (unfold e0; field). eapply Rle_trans; [apply Rabs_triang|]. rewrite Rabs_Ropp. unfold e. lra. }
  assert (B : Rabs (t' + r' - 2 * e1) <= e). { replace (t' + r' - 2 * e1) with ((t' - (p + q)) + (r' - g)) by (unfold e1; field). eapply Rle_trans; [apply Rabs_triang|]. unfold e. lra. }
  destruct (half_err _ _ _ A E0) as [A1 A2]. destruct (half_err _ _ _ B E1) as [B1 B2]. fold l0 in A1, A2. fold l1 in B1, B2.
  assert (ue : u * e <= u * (2 * (u * N) + h + u * h)) by (apply Rmult_le_compat_l; lra). assert (u * (u * N) <= 1 / 6800 * (u * N)) by (apply Rmult_le_compat_r; lra). assert (u * (u * h) <= 1 / 6800 * (u * h)) by (apply Rmult_le_compat_r; lra).
  split; [lra|]. split; [lra|].
  (* the trace: better than the sum of the two *)
  destruct (rn (t' - r')) as (c1 & C1 & Ea). destruct (rn (/ 2 * rnd (t' - r'))) as (c2 & C2 & Eb). destruct (rn (t' + r')) as (c3 & C3 & Ec). destruct (rn (/ 2 * rnd (t' + r'))) as (c4 & C4 & Ed).
  pose proof (near2_err _ (near_mul2 _ _ C1 C2)) as K1. pose proof (near2_err _ (near_mul2 _ _ C3 C4)) as K2.
  assert (El0 : l0 = (t' - r') / 2 * (c1 * c2)) by (unfold l0; rewrite Eb, Ea; field). assert (El1 : l1 = (t' + r') / 2 * (c3 * c4)) by (unfold l1; rewrite Ed, Ec; field).
  assert (M : Rabs (t' - r') + Rabs (t' + r') <= 294 / 100 * N).
  { assert (uT : u * Rabs (p + q) <= u * (14143 / 10000 * N)) by (apply Rmult_le_compat_l; lra). apply abs_b in T, TN, R1. assert (uG : u * (g + h) <= u * (14143 / 10000 * N) + u * h) by (rewrite <- Rmult_plus_distr_l; apply Rmult_le_compat_l; lra).
    assert (Ht : - (147 / 100 * N) <= t' <= 147 / 100 * N) by lra. assert (Hr : r' <= 147 / 100 * N) by lra. unfold Rabs. destruct (Rcase_abs (t' - r')), (Rcase_abs (t' + r')); lra. }
  replace (l0 + l1 - (p + q)) with ((t' - r') / 2 * (c1 * c2 - 1) + ((t' + r') / 2 * (c3 * c4 - 1) + (t' - (p + q)))) by (rewrite El0, El1; field).
  eapply Rle_trans; [apply Rabs_triang|]. eapply Rle_trans; [apply Rplus_le_compat_l, Rabs_triang|]. unfold Rdiv. rewrite !Rabs_mult. rewrite (Rabs_right (/ 2)) by lra.
  assert (Rabs (t' - r') * / 2 * Rabs (c1 * c2 - 1) <= Rabs (t' - r') * / 2 * (201 / 100 * u)) by (apply Rmult_le_compat_l; [pose proof (Rabs_pos (t' - r')); lra|exact K1]).
  assert (Rabs (t' + r') * / 2 * Rabs (c3 * c4 - 1) <= Rabs (t' + r') * / 2 * (201 / 100 * u)) by (apply Rmult_le_compat_l; [pose proof (Rabs_pos (t' + r')); lra|exact K2]).
  assert ((Rabs (t' - r') + Rabs (t' + r')) * (201 / 100 * u) <= 294 / 100 * N * (201 / 100 * u)) by (apply Rmult_le_compat_r; lra).
  assert (u * Rabs (p + q) <= u * (14143 / 10000 * N)) by (apply Rmult_le_compat_l; lra). lra.
Qed.
Lemma l_root : Rabs (l0 - e0) <= 2 * (su * N) /\ Rabs (l1 - e1) <= 2 * (su * N).
Proof.
  destruct l_err as (A & B & _). pose proof h_N. pose proof N0. pose proof u_su. assert (u * N <= 122 / 10000 * su * N) by (apply Rmult_le_compat_r; lra). pose proof su0. assert (0 <= su * N) by (apply Rmult_le_pos; lra). split; lra.
Qed.
Lemma l_gap : Rabs (l0 - e0) * g <= 114 / 10 * u * (N * N) /\ Rabs (l1 - e1) * g <= 114 / 10 * u * (N * N).
Proof.
  destruct l_err as (A & B & _). destruct h_sq as [_ H]. pose proof g0. pose proof g_N. pose proof N0. pose proof ur as Hu.
  assert (K : u * N * g <= u * N * (14143 / 10000 * N)) by (apply Rmult_le_compat_l; [apply Rmult_le_pos; lra|lra]). assert (0 <= u * (N * N)) by (apply Rmult_le_pos; [lra|apply sq_nonneg]).
  assert (G : forall x, x <= 302 / 100 * u * N + 501 / 1000 * h -> x * g <= 114 / 10 * u * (N * N)). { intros x X. assert (x * g <= (302 / 100 * u * N + 501 / 1000 * h) * g) by (apply Rmult_le_compat_r; lra). lra. }
  split; apply G; assumption.
Qed.

(** ** the first row *)
Definition mag := rnd (rnd (a' * a') + rnd (b * b)).
Definition rho := sqrt (a' * a' + b * b).
Definition row := if R_eqb mag 0 then Ok (1, 0) else k <- @div R (FlOps rnd) 1 (rnd (sqrt mag)) ;; Ok (rnd (- b * k), rnd (a' * k)).
Lemma mag_dot : mag = fl_dot3 rnd (up (mk2 a' b)) (up (mk2 a' b)).
Proof. rewrite (fl_dot_up u rnd RN). unfold fl_dot2, mag. cbn [ux uy]. rewrite Rplus_0_l. rewrite (proj2 (proj2 RN)). reflexivity. Qed.
Lemma rho_len : rho = len3 (up (mk2 a' b)).
Proof. unfold rho, len3, dot3, up. cbn [vx vy vz ux uy]. f_equal. ring. Qed.
Lemma row_ok : exists x y, row = Ok (x, y) /\ ((a' = 0 /\ b = 0 /\ x = 1 /\ y = 0) \/
  (0 < rho /\ exists f1 f2, Rabs (f1 - 1) <= 51 / 10 * u /\ Rabs (f2 - 1) <= 51 / 10 * u /\ x = - b / rho * f1 /\ y = a' / rho * f2)).
Proof.
  pose proof ur as Hu. unfold row. destruct (fl_dot3_self u rnd RN ltac:(lra) (up (mk2 a' b))) as (c & C & M). rewrite <- mag_dot in M. pose proof (fac_pos u 3 c Hu C) as cp.
  assert (E : dot3 (up (mk2 a' b)) (up (mk2 a' b)) = a' * a' + b * b) by (unfold dot3, up; cbn [vx vy vz ux uy]; ring). rewrite E in M. pose proof (sq_nonneg a') as A2. pose proof (sq_nonneg b) as B2.
  destruct (R_eqb mag 0) eqn:T.
  - apply R_eqb_spec in T. rewrite M in T. assert (Z : a' * a' + b * b = 0) by (destruct (Rmult_integral _ _ T); lra). exists 1, 0. split; [reflexivity|]. left. repeat split; nra.
  - assert (Z : a' * a' + b * b <> 0). { intros Z. rewrite Z, Rmult_0_l in M. apply R_eqb_spec in M. congruence. }
    assert (P : 0 < rho) by (unfold rho; apply sqrt_lt_R0; lra). destruct (fl_len u rnd RN ltac:(lra) (up (mk2 a' b))) as (d & Dd & L). rewrite <- mag_dot, <- rho_len in L. pose proof (fac_pos u 3 d Hu Dd) as dp.
    rewrite L. assert (Nz : rho * d <> 0) by (apply Rgt_not_eq, Rmult_lt_0_compat; lra). rewrite (fl_div_ok rnd 1 (rho * d) Nz). cbn [bind]. destruct (rnd_fac u rnd RN (1 / (rho * d))) as (c1 & C1 & ->).
    destruct (rnd_fac u rnd RN (- b * (1 / (rho * d) * c1))) as (c2 & C2 & ->). destruct (rnd_fac u rnd RN (a' * (1 / (rho * d) * c1))) as (c3 & C3 & ->).
    exists (- b * (1 / (rho * d) * c1) * c2), (a' * (1 / (rho * d) * c1) * c3). split; [reflexivity|]. right. split; [exact P|]. exists (/ d * c1 * c2), (/ d * c1 * c3).
    assert (F : forall e, fac u 1 e -> Rabs (/ d * c1 * e - 1) <= 51 / 10 * u). { intros e He. pose proof (fac_mul u 4 1 _ _ Hu (fac_mul u 3 1 _ _ Hu (fac_inv u 3 d Hu Dd) C1) He) as K. eapply Rle_trans; [apply (fac_err u 5 _ Hu K)|]. pose proof (bwd_num u rnd RN ltac:(lra) 5 ltac:(lia)) as W. cbn [INR] in W. lra. }
    split; [apply F, C2|]. split; [apply F, C3|]. split; field; split; lra.
Qed.
Lemma a'_is : exists d, Rabs d <= 1001 / 1000 * u /\ p - l0 = a' * (1 + d).
Proof.
  pose proof ur as Hu. unfold a'. destruct (rd (p - l0)) as (d & Hd & ->). apply abs_b in Hd. exists (/ (1 + d) - 1). split; [|field; lra].
  replace (/ (1 + d) - 1) with (- d * / (1 + d)) by (field; lra). rewrite Rabs_mult, Rabs_Ropp. assert (I : 0 < / (1 + d) <= 1001 / 1000). { split; [apply Rinv_0_lt_compat; lra|]. apply (Rmult_le_reg_r (1 + d)); [lra|]. rewrite Rinv_l by lra. lra. }
  rewrite (Rabs_right (/ (1 + d))) by lra. rewrite (Rmult_comm (1001 / 1000)). apply Rmult_le_compat; try lra; [apply Rabs_pos|apply b_abs; lra].
Qed.
Lemma ratio x z : 0 < z -> x * x <= z * z -> Rabs (x / z) <= 1.
Proof.
  intros Z H. assert (K : Rabs x <= z) by (apply abs_sq; lra). unfold Rdiv. rewrite Rabs_mult, Rabs_inv. rewrite (Rabs_right z) by lra. apply (Rmult_le_reg_r z); [exact Z|]. rewrite Rmult_assoc, Rinv_l by lra. lra.
Qed.
Lemma chi : Rabs ((p - l0) * (q - l0) - b * b) <= 154 / 10 * u * (N * N).
Proof.
  destruct l_gap as [G _]. destruct l_root as [R0 _]. pose proof g0. set (x := l0 - e0) in *.
  replace ((p - l0) * (q - l0) - b * b) with (x * (x - g) + (e0 * (p + q - e0) - (p * q - b * b)) * -1). 2:{ unfold x. assert (E : g = p + q - 2 * e0) by (unfold e0; field). rewrite E. ring. }
  assert (Z : e0 * (p + q - e0) - (p * q - b * b) = 0). { unfold e0. transitivity ((D - g * g) / 4); [unfold D; field|]. rewrite gg. field. } rewrite Z, Rmult_0_l, Rplus_0_r. rewrite Rabs_mult.
  assert (B : Rabs (x - g) <= Rabs x + g). { eapply Rle_trans; [apply Rabs_triang|]. rewrite Rabs_Ropp, (Rabs_right g) by lra. lra. } pose proof (Rabs_pos x).
  assert (Rabs x * Rabs (x - g) <= Rabs x * (Rabs x + g)) by (apply Rmult_le_compat_l; lra). assert (Q : Rabs x * Rabs x <= 2 * (su * N) * (2 * (su * N))) by (apply Rmult_le_compat; lra).
  replace (2 * (su * N) * (2 * (su * N))) with (4 * (su * su * (N * N))) in Q by ring. rewrite susu in Q. lra.
Qed.
Lemma ql_N : Rabs (q - l0) <= 144 / 100 * N.
Proof.
  destruct l_root as [R0 _]. pose proof su0. pose proof su_small. pose proof N0. assert (su * N <= 122 / 10000 * N) by (apply Rmult_le_compat_r; lra). pose proof g_N. pose proof g0. pose proof pq_g as PQ. apply abs_b in PQ, R0. unfold e0 in R0. apply b_abs. lra.
Qed.
Lemma res0 x y f1 f2 : 0 < rho -> Rabs (f1 - 1) <= 51 / 10 * u -> Rabs (f2 - 1) <= 51 / 10 * u -> x = - b / rho * f1 -> y = a' / rho * f2 ->
  Rabs (p * x + b * y - l0 * x) <= 8 * u * N /\ Rabs (b * x + q * y - l0 * y) <= 154 / 10 * u * (N * N) / rho + 125 / 10 * u * N /\ Rabs x <= 1001 / 1000 /\ Rabs y <= 1001 / 1000.
Proof.
  intros P F1 F2 X Y. pose proof ur as Hu. destruct a'_is as (d & Hd & Ed). pose proof N0 as Np. pose proof b_N as BN. pose proof ql_N as QN. pose proof chi as CH.
  assert (RR : rho * rho = a' * a' + b * b) by (apply sqrt_sqrt; pose proof (sq_nonneg a'); pose proof (sq_nonneg b); lra).
  assert (KA : Rabs (a' / rho) <= 1) by (apply ratio; [exact P|]; rewrite RR; pose proof (sq_nonneg b); lra). assert (KB : Rabs (b / rho) <= 1) by (apply ratio; [exact P|]; rewrite RR; pose proof (sq_nonneg a'); lra).
  pose proof (Rabs_pos (a' / rho)) as KA0. pose proof (Rabs_pos (b / rho)) as KB0. pose proof (Rabs_pos b) as B0. pose proof (Rabs_pos (q - l0)) as Q0.
  assert (FA : Rabs f1 <= 1001 / 1000) by (apply abs_b in F1; apply b_abs; lra). assert (FB : Rabs f2 <= 1001 / 1000) by (apply abs_b in F2; apply b_abs; lra).
  split; [|split; [|split]].
  - replace (p * x + b * y - l0 * x) with (b * (a' / rho) * (f2 - f1 - d * f1)).
    2:{ replace (p * x + b * y - l0 * x) with ((p - l0) * x + b * y) by ring. rewrite Ed, X, Y. field. lra. }
    assert (K : Rabs (f2 - f1 - d * f1) <= 113 / 10 * u). { replace (f2 - f1 - d * f1) with ((f2 - 1) + (- (f1 - 1) + - (d * f1))) by ring. eapply Rle_trans; [apply Rabs_triang|]. eapply Rle_trans; [apply Rplus_le_compat_l, Rabs_triang|]. rewrite !Rabs_Ropp, Rabs_mult. assert (Rabs d * Rabs f1 <= 1001 / 1000 * u * (1001 / 1000)) by (apply Rmult_le_compat; try apply Rabs_pos; lra). lra. }
    rewrite !Rabs_mult. assert (Rabs b * Rabs (a' / rho) <= 7072 / 10000 * N * 1) by (apply Rmult_le_compat; lra). apply (Rle_trans _ (7072 / 10000 * N * 1 * (113 / 10 * u))); [apply Rmult_le_compat; try lra; [apply Rmult_le_pos; lra|apply Rabs_pos]|]. assert (0 <= u * N) by (apply Rmult_le_pos; lra). lra.
  - replace (b * x + q * y - l0 * y) with (((p - l0) * (q - l0) - b * b) / rho + ((q - l0) * (a' / rho) * (f2 - 1 - d) + b * (b / rho) * (1 - f1))).
    2:{ replace (b * x + q * y - l0 * y) with ((q - l0) * y + b * x) by ring. rewrite Ed, X, Y. field. lra. }
    eapply Rle_trans; [apply Rabs_triang|]. eapply Rle_trans; [apply Rplus_le_compat_l, Rabs_triang|]. rewrite !Rabs_mult.
    assert (C1 : Rabs (((p - l0) * (q - l0) - b * b) / rho) <= 154 / 10 * u * (N * N) / rho). { unfold Rdiv. rewrite Rabs_mult, Rabs_inv, (Rabs_right rho) by lra. apply Rmult_le_compat_r; [left; apply Rinv_0_lt_compat, P|exact CH]. }
    assert (K : Rabs (f2 - 1 - d) <= 612 / 100 * u). { eapply Rle_trans; [apply Rabs_triang|]. rewrite Rabs_Ropp. lra. } assert (K1 : Rabs (1 - f1) <= 51 / 10 * u) by (rewrite Rabs_minus_sym; exact F1).
    assert (Rabs (q - l0) * Rabs (a' / rho) <= 144 / 100 * N * 1) by (apply Rmult_le_compat; lra). assert (Rabs b * Rabs (b / rho) <= 7072 / 10000 * N * 1) by (apply Rmult_le_compat; lra).
    assert (Rabs (q - l0) * Rabs (a' / rho) * Rabs (f2 - 1 - d) <= 144 / 100 * N * 1 * (612 / 100 * u)) by (apply Rmult_le_compat; try lra; [apply Rmult_le_pos; lra|apply Rabs_pos]).
    assert (Rabs b * Rabs (b / rho) * Rabs (1 - f1) <= 7072 / 10000 * N * 1 * (51 / 10 * u)) by (apply Rmult_le_compat; try lra; [apply Rmult_le_pos; lra|apply Rabs_pos]).
    assert (0 <= u * N) by (apply Rmult_le_pos; lra). lra.
  - rewrite X. replace (- b / rho * f1) with (- (b / rho * f1)) by (field; lra). rewrite Rabs_Ropp, Rabs_mult. replace (1001 / 1000) with (1 * (1001 / 1000)) by lra. apply Rmult_le_compat; try apply Rabs_pos; lra.
  - rewrite Y, Rabs_mult. replace (1001 / 1000) with (1 * (1001 / 1000)) by lra. apply Rmult_le_compat; try apply Rabs_pos; lra.
Qed.
(** the second row is the first one turned by a quarter: its residual follows *)
Lemma res1 x y X Y : Rabs (p * x + b * y - l0 * x) <= X -> Rabs (b * x + q * y - l0 * y) <= Y -> Rabs x <= 1001 / 1000 -> Rabs y <= 1001 / 1000 ->
  Rabs (p * - y + b * x - l1 * - y) <= Y + 5005 / 1000 * (u * N) /\ Rabs (b * - y + q * x - l1 * x) <= X + 5005 / 1000 * (u * N).
Proof.
  intros HX HY Kx Ky. destruct l_err as (_ & _ & T). set (e := l0 + l1 - (p + q)) in *. pose proof ur. pose proof N0. assert (uN : 0 <= u * N) by (apply Rmult_le_pos; lra).
  assert (M : forall z, Rabs z <= 1001 / 1000 -> Rabs (e * z) <= 5005 / 1000 * (u * N)). { intros z Z. rewrite Rabs_mult. apply (Rle_trans _ (5 * u * N * (1001 / 1000))); [apply Rmult_le_compat; try apply Rabs_pos; lra|lra]. }
  split.
  - replace (p * - y + b * x - l1 * - y) with ((b * x + q * y - l0 * y) + e * y) by (unfold e; ring). eapply Rle_trans; [apply Rabs_triang|]. specialize (M y Ky). lra.
  - replace (b * - y + q * x - l1 * x) with (- (p * x + b * y - l0 * x) + - (e * x)) by (unfold e; ring). eapply Rle_trans; [apply Rabs_triang|]. rewrite !Rabs_Ropp. specialize (M x Kx). lra.
Qed.
(** if m[1][1] <= m[0][0] the first row is far from zero unless the eigenvalues are close *)
Lemma rho_big : q <= p -> 8 * (su * N) <= g -> 0 < su * N -> 25 / 10 * (su * N) <= rho.
Proof.
  intros PQ G P. destruct l_err as (L & _ & _). destruct l_gap as [LG _]. pose proof N0. pose proof su0. pose proof ur as Hu. pose proof g0.
  assert (Lg : Rabs (l0 - e0) <= 143 / 100 * (su * N)).
  { apply (Rmult_le_reg_r (su * N)); [exact P|]. apply (Rmult_le_reg_l 8); [lra|]. assert (K : Rabs (l0 - e0) * (8 * (su * N)) <= Rabs (l0 - e0) * g) by (apply Rmult_le_compat_l; [apply Rabs_pos|exact G]).
    replace (143 / 100 * (su * N) * (su * N)) with (143 / 100 * ((su * su) * (N * N))) by ring. rewrite susu. assert (0 <= u * (N * N)) by (apply Rmult_le_pos; [lra|apply sq_nonneg]). lra. }
  destruct a'_is as (d & Hd & Ed). assert (A : p - l0 >= 257 / 100 * (su * N)). { apply abs_b in Lg. unfold e0 in Lg. lra. }
  apply abs_b in Hd. assert (A' : 25 / 10 * (su * N) <= a').
  { destruct (Rle_dec (25 / 10 * (su * N)) a') as [K|K]; [exact K|]. exfalso. apply Rnot_le_lt in K. assert (a' * (1 + d) <= 25 / 10 * (su * N) * (1 + d)) by (apply Rmult_le_compat_r; lra). assert (25 / 10 * (su * N) * (1 + d) <= 25 / 10 * (su * N) * (1001 / 1000)) by (apply Rmult_le_compat_l; lra). lra. }
  unfold rho. rewrite <- (sqrt_square (25 / 10 * (su * N))) by lra. apply sqrt_le_1_alt. assert (25 / 10 * (su * N) * (25 / 10 * (su * N)) <= a' * a') by (apply Rmult_le_compat; lra). pose proof (sq_nonneg b). lra.
Qed.
Lemma res_desc x y f1 f2 : q <= p -> 0 < rho -> Rabs (f1 - 1) <= 51 / 10 * u -> Rabs (f2 - 1) <= 51 / 10 * u -> x = - b / rho * f1 -> y = a' / rho * f2 ->
  Rabs (p * x + b * y - l0 * x) + Rabs (b * x + q * y - l0 * y) <= 29 * (su * N).
Proof.
  intros PQ P F1 F2 X Y. destruct (res0 x y f1 f2 P F1 F2 X Y) as (A & B & Kx & Ky). pose proof N0. pose proof su0. pose proof ur as Hu. pose proof u_su as US. assert (uN : u * N <= 122 / 10000 * su * N) by (apply Rmult_le_compat_r; lra). assert (sn : 0 <= su * N) by (apply Rmult_le_pos; lra).
  destruct (Rle_dec (8 * (su * N)) g) as [G|G].
  - destruct (Req_dec (su * N) 0) as [Z|Z].
    + assert (Z2 : u * (N * N) = 0) by (rewrite <- susu; replace (su * su * (N * N)) with (su * N * (su * N)) by ring; rewrite Z; ring). replace (154 / 10 * u * (N * N) / rho) with (154 / 10 * (u * (N * N)) / rho) in B by (field; lra). rewrite Z2 in B. unfold Rdiv in B. rewrite !Rmult_0_r, Rmult_0_l in B. lra.
    + pose proof (rho_big PQ G ltac:(lra)) as RB. assert (Q : 154 / 10 * u * (N * N) / rho <= 62 / 10 * (su * N)).
      { apply (Rmult_le_reg_r rho); [exact P|]. unfold Rdiv. rewrite Rmult_assoc, Rinv_l, Rmult_1_r by lra. assert (62 / 10 * (su * N) * (25 / 10 * (su * N)) <= 62 / 10 * (su * N) * rho) by (apply Rmult_le_compat_l; lra).
        replace (62 / 10 * (su * N) * (25 / 10 * (su * N))) with (155 / 10 * ((su * su) * (N * N))) in * by field. rewrite susu in *. assert (0 <= u * (N * N)) by (apply Rmult_le_pos; [lra|apply sq_nonneg]). lra. }
      lra.
  - apply Rnot_le_lt in G. pose proof b_g as BG. pose proof pq_g as PG. destruct l_root as [L _]. apply abs_b in PG, L. unfold e0 in L. assert (K1 : Rabs (p - l0) <= 10 * (su * N)) by (apply b_abs; lra). assert (K2 : Rabs (q - l0) <= 10 * (su * N)) by (apply b_abs; lra).
    pose proof (Rabs_pos x). pose proof (Rabs_pos y). pose proof (Rabs_pos b). pose proof (Rabs_pos (p - l0)). pose proof (Rabs_pos (q - l0)).
    replace (p * x + b * y - l0 * x) with ((p - l0) * x + b * y) by ring. replace (b * x + q * y - l0 * y) with (b * x + (q - l0) * y) by ring.
    pose proof (Rabs_triang ((p - l0) * x) (b * y)) as T1. pose proof (Rabs_triang (b * x) ((q - l0) * y)) as T2. rewrite !Rabs_mult in T1, T2.
    assert (Rabs (p - l0) * Rabs x <= 10 * (su * N) * (1001 / 1000)) by (apply Rmult_le_compat; lra). assert (Rabs b * Rabs y <= 4 * (su * N) * (1001 / 1000)) by (apply Rmult_le_compat; lra).
    assert (Rabs b * Rabs x <= 4 * (su * N) * (1001 / 1000)) by (apply Rmult_le_compat; lra). assert (Rabs (q - l0) * Rabs y <= 10 * (su * N) * (1001 / 1000)) by (apply Rmult_le_compat; lra). lra.
Qed.
End S.
