(** * Positive definite matrices: the pivots stay positive in floating point. *)
From Coq Require Import Reals Lra Lia Arith Bool.
From Verif Require Import Base Alg Inst Mat SpecMat SpecForm LemOps ModelChol LemChol LemCholSolve RSum ModelFl SpecFl LemFl LemFlChol LemFlChol2.
Local Open Scope R_scope.

Lemma sqrt_cs n (p q : nat -> R) : Sum n (fun k => Rabs (p k * q k)) <= sqrt (Sum n (fun k => p k * p k)) * sqrt (Sum n (fun k => q k * q k)).
Proof.
  assert (P1 : 0 <= Sum n (fun k => p k * p k)) by (apply S_nonneg; intros; nra).
  rewrite <- sqrt_mult_alt by exact P1. rewrite <- (sqrt_square (Sum n (fun k => Rabs (p k * q k)))).
  - apply sqrt_le_1_alt. pose proof (@cauchy_schwarz R ROps RLaws n (fun k => Rabs (p k)) (fun k => Rabs (q k))) as CS.
    assert (CS' : Sum n (fun k => Rabs (p k) * Rabs (q k)) * Sum n (fun k => Rabs (p k) * Rabs (q k)) <= Sum n (fun k => Rabs (p k) * Rabs (p k)) * Sum n (fun k => Rabs (q k) * Rabs (q k))) by (apply R_ltb_false; exact CS).
    rewrite (S_ext n (fun k => Rabs (p k * q k)) (fun k => Rabs (p k) * Rabs (q k))) by (intros; apply Rabs_mult).
    assert (Q : forall r : R, Rabs r * Rabs r = r * r) by (intros r; rewrite <- Rabs_mult; apply Rabs_pos_eq; nra).
    rewrite (S_ext n (fun k => Rabs (p k) * Rabs (p k)) (fun k => p k * p k)) in CS' by (intros; apply Q).
    rewrite (S_ext n (fun k => Rabs (q k) * Rabs (q k)) (fun k => q k * q k)) in CS' by (intros; apply Q). exact CS'.
  - apply S_nonneg. intros. apply Rabs_pos.
Qed.
Lemma diag_bound u rnd (RN : rounding u rnd) n a (C : mat R) m i : fl_eqs rnd n a m C -> (i < m)%nat -> (m <= n)%nat -> (forall k, (k <= i)%nat -> 0 < mel C k k) ->
  Sum n (fun k => lw C i k * mel C k k * lw C i k) <= a i i / (1 - u) ^ (i + 2).
Proof.
  intros I Hi Hm P. pose proof (u_rng u rnd RN) as U. destruct (factor_terms u rnd RN n a C m i i I ltac:(lia) ltac:(lia)) as (g & Hg & E). pose proof (pow_1mu u (i + 2) U) as [W1 W2].
  apply (Rmult_le_reg_r ((1 - u) ^ (i + 2))); [exact W1|]. unfold Rdiv. rewrite Rmult_assoc, Rinv_l, Rmult_1_r by lra. rewrite E, <- S_mul_r.
  apply (@Rge_le). apply Rminus_ge. apply Rle_ge. rewrite <- S_sub. apply S_nonneg. intros k Hk.
  destruct (Hg k) as [G1 G2]. unfold lw. destruct (Nat.ltb_spec k i); [pose proof (P k ltac:(lia)); assert (0 <= mel C i k * mel C k k * mel C i k) by nra; nra|].
  destruct (Nat.eqb_spec i k) as [<-|]; [pose proof (P i ltac:(lia)); nra|]. rewrite !Rmult_0_l, ?Rmult_0_r. lra.
Qed.
Lemma S_trunc n c f : (c <= n)%nat -> (forall k, (c <= k < n)%nat -> f k = 0) -> Sum n f = Sum c f.
Proof. intros H Z. replace n with (c + (n - c))%nat by lia. rewrite S_split. rewrite (S_zero (n - c)); [ring|]. intros k Hk. apply Z. lia. Qed.
Lemma S_mono n f g : (forall i, (i < n)%nat -> f i <= g i) -> Sum n f <= Sum n g.
Proof. induction n as [|n IH]; intros H; [cbn; lra|]. change (Sum (S n) ?f) with (Sum n f + f n). cbn beta. pose proof (H n ltac:(lia)). pose proof (IH ltac:(intros; apply H; lia)). lra. Qed.
Lemma S_abs_le n f : Rabs (Sum n f) <= Sum n (fun i => Rabs (f i)).
Proof. induction n as [|n IH]; [cbn; rewrite Rabs_R0; lra|]. change (Sum (S n) ?f) with (Sum n f + f n). cbn beta. eapply Rle_trans; [apply Rabs_triang|]. lra. Qed.
Lemma S_sq_le n f : Sum n f * Sum n f <= INR n * Sum n (fun i => f i * f i).
Proof.
  pose proof (@cauchy_schwarz R ROps RLaws n (fun _ => 1) f) as CS.
  assert (CS' : Sum n (fun k => 1 * f k) * Sum n (fun k => 1 * f k) <= Sum n (fun k => 1 * 1) * Sum n (fun k => f k * f k)) by (apply R_ltb_false; exact CS).
  rewrite (S_ext n (fun k => 1 * f k) f) in CS' by (intros; ring). replace (INR n) with (Sum n (fun _ => 1 * 1)); [exact CS'|].
  clear. induction n as [|n IH]; [reflexivity|]. change (Sum (S n) ?f) with (Sum n f + f n). cbn beta. rewrite IH, S_INR. lra.
Qed.
Lemma lw_above C i k : (i < k)%nat -> lw C i k = 0.
Proof. intros H. unfold lw. destruct (Nat.ltb_spec k i); [lia|]. destruct (Nat.eqb_spec i k); [lia|reflexivity]. Qed.
(** a vector with last component 1 that the columns of L before c are orthogonal to *)
Lemma ortho_exists (C : mat R) c : exists x, x c = 1 /\ forall k, (k < c)%nat -> Sum (S c) (fun i => lw C i k * x i) = 0.
Proof.
  assert (G : forall m, (m <= c)%nat -> exists x, x c = 1 /\ forall k, (c - m <= k < c)%nat -> Sum (S c) (fun i => lw C i k * x i) = 0).
  { induction m as [|m IH]; intros Hm.
    - exists (fun _ => 1). split; [reflexivity|]. intros k Hk. lia.
    - destruct (IH ltac:(lia)) as (x & X1 & X2). set (q := (c - S m)%nat). set (y := Sum (S c - S q) (fun k => mel C (S q + k) q * x (S q + k)%nat)).
      exists (fun i => if (i =? q)%nat then - y else x i). split; [destruct (Nat.eqb_spec c q); [unfold q in *; lia|exact X1]|].
      intros k Hk. destruct (Nat.eq_dec k q) as [->|Hne].
      + rewrite (lw_sum_t C (S c) (fun i => if (i =? q)%nat then - y else x i) q) by (unfold q; lia). rewrite Nat.eqb_refl.
        rewrite (S_ext _ _ (fun k => mel C (S q + k) q * x (S q + k)%nat)); [fold y; ring|]. intros i Hi. destruct (Nat.eqb_spec (S q + i) q); [lia|reflexivity].
      + rewrite <- (X2 k) by (unfold q in *; lia). apply S_ext. intros i Hi. destruct (Nat.eqb_spec i q) as [->|]; [|reflexivity]. rewrite lw_above by (unfold q in *; lia). ring. }
  destruct (G c (Nat.le_refl c)) as (x & X1 & X2). exists x. split; [exact X1|]. intros k Hk. apply X2. lia.
Qed.
Lemma pivot_pos u rnd (RN : rounding u rnd) n a (C : mat R) c :
  fl_eqs rnd n a c C -> (c < n)%nat -> (forall k, (k < c)%nat -> 0 < mel C k k) -> (forall i, (i <= c)%nat -> 0 < a i i) ->
  (INR n + 1) * bwd u (n + 1) * (1 + bwd u (n + 1)) < 1 ->
  (forall x, x c = 1 -> (INR n + 1) * bwd u (n + 1) * (1 + bwd u (n + 1)) * Sum (S c) (fun i => a i i * (x i * x i)) < Sum (S c) (fun i => Sum (S c) (fun j => x i * lower_sym a i j * x j))) ->
  0 < subs rnd (a c c) (fun k => mel C k c) (fun k => mel C c k) c.
Proof.
  intros I Hc PD PA SM HP. pose proof (u_rng u rnd RN) as U. set (w := subs rnd (a c c) (fun k => mel C k c) (fun k => mel C c k) c). destruct (Rlt_dec 0 w) as [W|W]; [exact W|exfalso].
  assert (W' : w <= 0) by lra. clear W.
  set (p := (1 - u) ^ (n + 1)). set (be := bwd u (n + 1)) in *. assert (Pp : 0 < p <= 1) by (apply pow_1mu; exact U). assert (Eb : be = / p - 1) by reflexivity. assert (Eb' : 1 + be = / p) by lra.
  assert (Pb : 0 <= be) by (apply bwd_nonneg; exact U). assert (Epb : p * (1 + be) = 1) by (rewrite Eb'; apply Rinv_r; lra).
  set (M := fun i j => Sum c (fun k => lw C i k * mel C k k * lw C j k)).
  set (s := M c c).
  (* the entries of M *)
  assert (M0 : forall i, 0 <= M i i). { intros i. apply S_nonneg. intros k Hk. pose proof (PD k Hk). nra. }
  assert (ME : forall i j, (i <= c)%nat -> (j <= c)%nat -> ~ (i = c /\ j = c) -> Rabs (M i j - lower_sym a i j) <= be * (sqrt (M i i) * sqrt (M j j))).
  { intros i j Hi Hj Hn.
    assert (exists g, (forall k, fac u (n + 1) (g k)) /\ lower_sym a i j = Sum c (fun k => lw C i k * mel C k k * lw C j k * g k)) as (g & Hg & ->).
    { assert (Q : lower_sym a i j = a (Nat.max i j) (Nat.min i j)) by (unfold lower_sym; destruct (Nat.leb_spec j i); [rewrite Nat.max_l, Nat.min_r by lia|rewrite Nat.max_r, Nat.min_l by lia]; reflexivity).
      rewrite Q. destruct (factor_terms u rnd RN n a C c (Nat.max i j) (Nat.min i j) I ltac:(lia) ltac:(lia)) as (g & Hg & E). exists g. split.
      - intros k. apply (fac_le u (Nat.min i j + 2)); [exact U|lia|apply Hg].
      - rewrite E. rewrite (S_trunc n c); [|lia|].
        + apply S_ext. intros k Hk. destruct (Nat.le_ge_cases i j); [rewrite Nat.max_r, Nat.min_l by lia; ring|rewrite Nat.max_l, Nat.min_r by lia; ring].
        + intros k Hk. rewrite (lw_above C (Nat.min i j)) by lia. ring. }
    unfold M at 1. rewrite Rabs_minus_sym.
    pose proof (fac_sum_err u rnd RN c (fun k => lw C i k * mel C k k * lw C j k) g (fun _ => 1) (n + 1) 0 ltac:(intros; apply Hg) ltac:(intros; apply fac_1; exact U)) as B.
    replace (bwd u 0) with 0 in B by (unfold bwd; cbn; lra). fold be in B. rewrite Rplus_0_r in B.
    rewrite (S_ext c (fun k => lw C i k * mel C k k * lw C j k * 1) (fun k => lw C i k * mel C k k * lw C j k)) in B by (intros; ring).
    eapply Rle_trans; [exact B|]. apply Rmult_le_compat_l; [exact Pb|].
    rewrite (S_ext c _ (fun k => Rabs ((lw C i k * sqrt (mel C k k)) * (lw C j k * sqrt (mel C k k))))).
    2:{ intros k Hk. f_equal. rewrite <- (sqrt_sqrt (mel C k k)) at 1 by (pose proof (PD k Hk); lra). ring. }
    eapply Rle_trans; [apply sqrt_cs|]. right. f_equal; f_equal; apply S_ext; intros k Hk; rewrite <- (sqrt_sqrt (mel C k k)) at 3 by (pose proof (PD k Hk); lra); ring. }
  assert (MD : forall i, (i < c)%nat -> M i i <= a i i * (1 + be)).
  { intros i Hi. pose proof (diag_bound u rnd RN n a C c i I Hi ltac:(lia) ltac:(intros k Hk; apply PD; lia)) as B.
    rewrite (S_trunc n c) in B; [|lia|intros k Hk; rewrite (lw_above C i) by lia; ring]. fold (M i i) in B. eapply Rle_trans; [exact B|]. unfold Rdiv. rewrite Eb'.
    apply Rmult_le_compat_l; [pose proof (PA i ltac:(lia)); lra|]. apply Rinv_le_contravar; [apply Pp|]. unfold p. replace (n + 1)%nat with ((i + 2) + (n + 1 - (i + 2)))%nat by lia. rewrite pow_add.
    pose proof (pow_1mu u (i + 2) U). pose proof (pow_1mu u (n + 1 - (i + 2)) U). nra. }
  assert (MC : a c c * p <= s).
  { destruct (subs_back u rnd RN (a c c) (fun k => mel C k c) (fun k => mel C c k) c) as (g & Hg & G). fold w in G.
    assert (Q : Sum c (fun i => mel C i c * mel C c i * g i) * p <= s).
    { rewrite <- S_mul_r. apply S_mono. intros k Hk. destruct (eqs_upper u rnd RN n a c C c k I Hk ltac:(lia)) as (h & Hh & ->). unfold lw. destruct (Nat.ltb_spec k c); [|lia].
      pose proof (fac_mul u 2 c h (g k) U Hh (Hg k ltac:(lia))) as F. apply (fac_le u (2 + c) (n + 1)) in F; [|exact U|lia]. destruct F as [_ F]. fold p in F. pose proof (PD k Hk).
      assert (0 <= mel C c k * mel C k k * mel C c k) by nra.
      replace (mel C k k * mel C c k * h * mel C c k * g k * p) with (mel C c k * mel C k k * mel C c k * (h * g k * p)) by ring. nra. }
    pose proof (fac_pos u c (g c) U (Hg c (Nat.le_refl c))). rewrite G. assert (w * g c <= 0) by nra. nra. }
  (* a vector on which M vanishes *)
  destruct (ortho_exists C c) as (x & X1 & X2). specialize (HP x X1). set (ep := (INR n + 1) * be * (1 + be)) in *.
  assert (Z : Sum (S c) (fun i => Sum (S c) (fun j => x i * M i j * x j)) = 0).
  { rewrite (S_ext (S c) _ (fun i => Sum c (fun k => lw C i k * x i * (mel C k k * Sum (S c) (fun j => lw C j k * x j))))).
    - rewrite S_swap. apply S_zero. intros k Hk. rewrite S_mul_r, (X2 k Hk). ring.
    - intros i Hi. unfold M. rewrite (S_ext (S c) _ (fun j => Sum c (fun k => lw C i k * x i * (mel C k k * (lw C j k * x j))))).
      + rewrite S_swap. apply S_ext. intros k Hk. rewrite S_mul_l, S_mul_l. reflexivity.
      + intros j Hj. rewrite (Rmult_comm (x i)), Rmult_assoc, <- S_mul_r. apply S_ext. intros k Hk. ring. }
  set (E := fun i j => if ((i =? c) && (j =? c))%nat%bool then 0 else M i j - lower_sym a i j).
  assert (Z2 : Sum (S c) (fun i => Sum (S c) (fun j => x i * M i j * x j)) =
     Sum (S c) (fun i => Sum (S c) (fun j => x i * lower_sym a i j * x j)) + Sum (S c) (fun i => Sum (S c) (fun j => x i * E i j * x j)) + (s - a c c)).
  { assert (K : forall i j, (i < S c)%nat -> (j < S c)%nat -> x i * M i j * x j = x i * lower_sym a i j * x j + x i * E i j * x j + (if ((i =? c) && (j =? c))%nat%bool then s - a c c else 0)).
    { intros i j Hi Hj. unfold E. destruct (Nat.eqb_spec i c), (Nat.eqb_spec j c); cbn [andb]; try ring. subst i j. rewrite X1. unfold lower_sym. rewrite Nat.leb_refl. unfold s. ring. }
    rewrite (S_ext (S c) (fun i => Sum (S c) (fun j => x i * M i j * x j)) (fun i => Sum (S c) (fun j => x i * lower_sym a i j * x j) + Sum (S c) (fun j => x i * E i j * x j) + Sum (S c) (fun j => if ((i =? c) && (j =? c))%nat%bool then s - a c c else 0))).
    - rewrite !S_add. f_equal. change (Sum (S c) ?f) with (Sum c f + f c) at 1. cbn beta. rewrite Nat.eqb_refl. rewrite (S_zero c).
      + change (Sum (S c) ?f) with (Sum c f + f c). cbn beta. rewrite Nat.eqb_refl. cbn [andb]. rewrite (S_zero c); [ring|]. intros j Hj. destruct (Nat.eqb_spec j c); [lia|reflexivity].
      + intros i Hi. apply S_zero. intros j Hj. destruct (Nat.eqb_spec i c); [lia|reflexivity].
    - intros i Hi. rewrite <- !S_add. apply S_ext. intros j Hj. apply K; assumption. }
  set (T := Sum (S c) (fun i => M i i * (x i * x i))).
  assert (EB : Rabs (Sum (S c) (fun i => Sum (S c) (fun j => x i * E i j * x j))) <= be * (INR (S c) * T)).
  { eapply Rle_trans; [apply S_abs_le|]. eapply Rle_trans; [apply S_mono; intros i Hi; apply S_abs_le|].
    apply (Rle_trans _ (Sum (S c) (fun i => Sum (S c) (fun j => be * ((sqrt (M i i) * Rabs (x i)) * (sqrt (M j j) * Rabs (x j))))))).
    - apply S_mono. intros i Hi. apply S_mono. intros j Hj. rewrite !Rabs_mult.
      assert (Q : Rabs (E i j) <= be * (sqrt (M i i) * sqrt (M j j))).
      { unfold E. destruct (Nat.eqb_spec i c), (Nat.eqb_spec j c); cbn [andb]; try (apply ME; lia). rewrite Rabs_R0. pose proof (sqrt_pos (M i i)). pose proof (sqrt_pos (M j j)). assert (0 <= sqrt (M i i) * sqrt (M j j)) by nra. nra. }
      pose proof (Rabs_pos (x i)). pose proof (Rabs_pos (x j)). assert (0 <= Rabs (x i) * Rabs (x j)) by nra.
      replace (Rabs (x i) * Rabs (E i j) * Rabs (x j)) with (Rabs (E i j) * (Rabs (x i) * Rabs (x j))) by ring.
      replace (be * (sqrt (M i i) * Rabs (x i) * (sqrt (M j j) * Rabs (x j)))) with (be * (sqrt (M i i) * sqrt (M j j)) * (Rabs (x i) * Rabs (x j))) by ring.
      apply Rmult_le_compat_r; assumption.
    - rewrite (S_ext (S c) _ (fun i => be * ((sqrt (M i i) * Rabs (x i)) * Sum (S c) (fun j => sqrt (M j j) * Rabs (x j))))).
      2:{ intros i Hi. rewrite S_mul_l. f_equal. rewrite S_mul_l. reflexivity. }
      rewrite S_mul_l, S_mul_r. apply Rmult_le_compat_l; [exact Pb|]. eapply Rle_trans; [apply S_sq_le|]. right. f_equal. apply S_ext. intros i Hi.
      replace (sqrt (M i i) * Rabs (x i) * (sqrt (M i i) * Rabs (x i))) with ((sqrt (M i i) * sqrt (M i i)) * (Rabs (x i) * Rabs (x i))) by ring. rewrite sqrt_sqrt by apply M0. f_equal.
      rewrite <- Rabs_mult. apply Rabs_pos_eq. nra. }
  set (P := Sum c (fun i => a i i * (x i * x i))).
  assert (TB : T <= (1 + be) * P + s).
  { unfold T. change (Sum (S c) ?f) with (Sum c f + f c). cbn beta. rewrite X1. fold s. unfold P. rewrite <- S_mul_l.
    assert (Sum c (fun i => M i i * (x i * x i)) <= Sum c (fun i => (1 + be) * (a i i * (x i * x i)))); [|lra]. apply S_mono. intros i Hi. pose proof (MD i Hi). assert (0 <= x i * x i) by nra. nra. }
  assert (HQ : Sum (S c) (fun i => a i i * (x i * x i)) = P + a c c). { change (Sum (S c) ?f) with (Sum c f + f c). cbn beta. rewrite X1. unfold P. ring. }
  rewrite HQ in HP. assert (PP : 0 <= P). { apply S_nonneg. intros i Hi. pose proof (PA i ltac:(lia)). nra. }
  pose proof (PA c (Nat.le_refl c)) as PC. assert (T0 : 0 <= T) by (apply S_nonneg; intros i Hi; pose proof (M0 i); assert (0 <= x i * x i) by nra; nra).
  rewrite Z in Z2. set (Qd := Sum (S c) (fun i => Sum (S c) (fun j => x i * lower_sym a i j * x j))) in *. set (Er := Sum (S c) (fun i => Sum (S c) (fun j => x i * E i j * x j))) in *.
  assert (NC : INR (S c) <= INR n) by (apply le_INR; lia). pose proof (pos_INR (S c)) as N0. set (N := INR (S c)) in *. set (NN := INR n) in *.
  assert (ER : - (be * (N * T)) <= Er) by (unfold Rabs in EB; destruct (Rcase_abs Er); lra).
  assert (S1 : be * N <= 1). { assert (be * N <= ep). { unfold ep. assert (be * N <= (NN + 1) * be) by nra. assert (0 <= (NN + 1) * be) by nra. nra. } lra. }
  (* 0 > ep (P + acc) - be N ((1+be) P + s) + s - acc *)
  assert (F1 : 0 > ep * (P + a c c) - be * N * ((1 + be) * P + s) + s - a c c).
  { assert (be * N * T <= be * N * ((1 + be) * P + s)) by (apply Rmult_le_compat_l; [nra|exact TB]). lra. }
  assert (F2 : be * N * (1 + be) <= ep). { unfold ep. assert (be * N <= (NN + 1) * be) by nra. nra. }
  assert (F3 : ep * P - be * N * ((1 + be) * P) >= 0) by nra.
  assert (F4 : s * (1 - be * N) >= a c c * p * (1 - be * N)) by nra.
  assert (F5 : ep - 1 + p * (1 - be * N) >= 0).
  { assert (1 - p = p * be) by lra. assert (ep >= (NN + 1) * be) by (unfold ep; nra). assert (p * be * (1 + N) <= (NN + 1) * be).
    { assert (p * be * (1 + N) <= be * (1 + N)) by nra. nra. } nra. }
  nra.
Qed.
