(** * C85: rounding errors of vector and matrix arithmetic. *)
From Coq Require Import Reals Lra Lia Arith Bool List.
From Verif Require Import Base Alg Inst Mat SpecMat LemMat LemOps LemHelpers ModelOps RSum ModelFl SpecFl LemFl ExFl.
Import ListNotations.
Open Scope outcome_scope.
Local Open Scope R_scope.

(** v*w in floating point: the error is at most ((1+u)^n - 1) times the sum of the magnitudes *)
Theorem C85_dot_product_error : forall u rnd, rounding u rnd -> forall a b : vec R, vlen a = vlen b ->
  exists s, @dot R (FlOps rnd) a b = Ok s /\
    Rabs (s - Sum (vlen a) (fun i => vat a i * vat b i)) <= fwd u (vlen a) * Sum (vlen a) (fun i => Rabs (vat a i * vat b i)).
Proof.
  intros u rnd RN a b H. eexists. split; [exact (@dot_ok R (FlOps rnd) a b H)|]. exact (fsum_err u rnd RN (vat a) (vat b) (vlen a)).
Qed.
(** v*w is also the exact product of slightly perturbed vectors (backward error) *)
Theorem C85_dot_product_backward : forall u rnd, rounding u rnd -> forall a b : vec R, vlen a = vlen b ->
  exists s a', @dot R (FlOps rnd) a b = Ok s /\ s = Sum (vlen a) (fun i => a' i * vat b i) /\
    (forall i, (i < vlen a)%nat -> Rabs (a' i - vat a i) <= fwd u (vlen a) * Rabs (vat a i)).
Proof.
  intros u rnd RN a b H. destruct (dot_near u rnd RN (vat a) (vat b) (vlen a)) as (c & Hc & E).
  eexists. exists (fun i => vat a i * c i). split; [exact (@dot_ok R (FlOps rnd) a b H)|]. split.
  - refine (eq_trans E _). apply S_ext. intros i Hi. ring.
  - intros i Hi. replace (vat a i * c i - vat a i) with (vat a i * (c i - 1)) by ring. rewrite Rabs_mult. pose proof (Rabs_pos (vat a i)).
    pose proof (near_err u (vlen a) (c i) (u_rng u rnd RN) (Hc i Hi)). nra.
Qed.
(** A*B, A*v and v*A, entry by entry *)
Theorem C85_matrix_product_error : forall u rnd, rounding u rnd -> forall a b : mat R, mcols a = mrows b ->
  exists m, @mmul R (FlOps rnd) a b = Ok m /\ mrows m = mrows a /\ mcols m = mcols b /\
    forall i j, (i < mrows a)%nat -> (j < mcols b)%nat ->
      Rabs (mel m i j - Sum (mcols a) (fun k => mel a i k * mel b k j)) <= fwd u (mcols a) * Sum (mcols a) (fun k => Rabs (mel a i k * mel b k j)).
Proof.
  intros u rnd RN a b H. destruct (@mmul_ok R (FlOps rnd) a b H) as (m & E & H1 & H2 & H3). exists m. repeat (split; [assumption|]). intros i j Hi Hj.
  rewrite H3 by assumption. exact (fsum_err u rnd RN (fun k => mel a i k) (fun k => mel b k j) (mcols a)).
Qed.
Theorem C85_matrix_vector_error : forall u rnd, rounding u rnd -> forall (a : mat R) (v : vec R), mcols a = vlen v ->
  exists w, @mv R (FlOps rnd) a v = Ok w /\ vlen w = mrows a /\
    forall i, (i < mrows a)%nat ->
      Rabs (vat w i - Sum (mcols a) (fun k => mel a i k * vat v k)) <= fwd u (mcols a) * Sum (mcols a) (fun k => Rabs (mel a i k * vat v k)).
Proof.
  intros u rnd RN a v H. destruct (@mv_ok R (FlOps rnd) a v H) as (w & E & H1 & H2). exists w. repeat (split; [assumption|]). intros i Hi.
  rewrite H2 by assumption. exact (fsum_err u rnd RN (fun k => mel a i k) (vat v) (mcols a)).
Qed.
Theorem C85_vector_matrix_error : forall u rnd, rounding u rnd -> forall (a : mat R) (v : vec R), mrows a = vlen v ->
  exists w, @vm R (FlOps rnd) v a = Ok w /\ vlen w = mcols a /\
    forall j, (j < mcols a)%nat ->
      Rabs (vat w j - Sum (mrows a) (fun k => vat v k * mel a k j)) <= fwd u (mrows a) * Sum (mrows a) (fun k => Rabs (vat v k * mel a k j)).
Proof.
  intros u rnd RN a v H. destruct (@vm_ok R (FlOps rnd) a v H) as (w & E & H1 & H2). exists w. repeat (split; [assumption|]). intros i Hi.
  rewrite H2 by assumption. exact (fsum_err u rnd RN (vat v) (fun k => mel a k i) (mrows a)).
Qed.
(** elementwise operators: one rounding per element *)
Theorem C85_elementwise_error : forall u rnd, rounding u rnd -> forall (a b : vec R) s, vlen a = vlen b -> s <> 0 ->
  exists p m t q, @vadd R (FlOps rnd) a b = Ok p /\ @vsub R (FlOps rnd) a b = Ok m /\ @vscale R (FlOps rnd) a s = Ok t /\ @vdivs R (FlOps rnd) a s = Ok q /\
    vlen p = vlen a /\ vlen m = vlen a /\ vlen t = vlen a /\ vlen q = vlen a /\
    forall i, (i < vlen a)%nat ->
      Rabs (vat p i - (vat a i + vat b i)) <= u * Rabs (vat a i + vat b i) /\
      Rabs (vat m i - (vat a i - vat b i)) <= u * Rabs (vat a i - vat b i) /\
      Rabs (vat t i - vat a i * s) <= u * Rabs (vat a i * s) /\
      Rabs (vat q i - vat a i / s) <= u * Rabs (vat a i / s).
Proof.
  intros u rnd RN a b s H Hs. destruct (@vadd_ok R (FlOps rnd) a b H) as (p & Ep & P1 & P2). destruct (@vsub_ok R (FlOps rnd) a b H) as (m & Em & M1 & M2).
  destruct (@vscale_ok R (FlOps rnd) a s) as (t & Et & T1 & T2).
  assert (D : @gives_vec R (@vdivs R (FlOps rnd) a s) (vlen a) (fun i => rnd (vat a i / s))).
  { apply vfor_ok. intros i Hi. rewrite vget_ok by exact Hi. cbn [bind]. unfold div. cbn [feqb f0 FlOps]. unfold R_eqb. destruct (Req_EM_T s 0); [contradiction|reflexivity]. }
  destruct D as (q & Eq & Q1 & Q2). exists p, m, t, q. repeat (split; [assumption|]). intros i Hi. rewrite P2, M2, T2, Q2 by exact Hi. destruct RN as (_ & E & _).
  exact (conj (E _) (conj (E _) (conj (E _) (E _)))).
Qed.
(** norm_sq(v) and norm(v): a small relative error, whatever v is *)
Lemma sqrt_near u k c : 0 <= u < 1 -> near u k c -> near u k (sqrt c).
Proof.
  intros H [F1 F2]. pose proof (pow_1mu u k H) as [P1 P2]. pose proof (pow_1pu u k ltac:(lra)) as P3. split.
  - eapply Rle_trans; [|apply sqrt_le_1_alt; exact F1]. rewrite <- (sqrt_square ((1 - u) ^ k)) at 1 by lra. apply sqrt_le_1_alt. nra.
  - eapply Rle_trans; [apply sqrt_le_1_alt; exact F2|]. rewrite <- (sqrt_square ((1 + u) ^ k)) at 2 by lra. apply sqrt_le_1_alt. nra.
Qed.
Lemma near_mean u k n (t c : nat -> R) : 0 <= u < 1 -> (forall i, (i < n)%nat -> 0 <= t i) -> (forall i, (i < n)%nat -> near u k (c i)) ->
  exists d, near u k d /\ Sum n (fun i => t i * c i) = Sum n t * d.
Proof.
  intros H Ht Hc. assert (B : (1 - u) ^ k * Sum n t <= Sum n (fun i => t i * c i) <= (1 + u) ^ k * Sum n t).
  { induction n as [|n IH]; [cbn; lra|]. specialize (IH ltac:(intros; apply Ht; lia) ltac:(intros; apply Hc; lia)). change (Sum (S n) ?f) with (Sum n f + f n). cbn beta.
    change (Sum (S n) t) with (Sum n t + t n). pose proof (Hc n ltac:(lia)) as [C1 C2]. pose proof (Ht n ltac:(lia)). nra. }
  destruct (Req_dec (Sum n t) 0) as [Z|Z].
  - exists 1. split; [apply (near_le u 0); [exact H|lia|apply near_1]|]. rewrite Z in *. lra.
  - assert (P : 0 < Sum n t) by (pose proof (S_nonneg n t Ht); lra). exists (Sum n (fun i => t i * c i) / Sum n t). split; [|field; exact Z].
    split; [apply (Rmult_le_reg_r (Sum n t))|apply (Rmult_le_reg_r (Sum n t))]; try exact P; unfold Rdiv; rewrite Rmult_assoc, Rinv_l, Rmult_1_r by exact Z; lra.
Qed.
Lemma sumsq_pos v : 0 <= sumsq v.
Proof. apply S_nonneg. intros i _. nra. Qed.
Lemma norm_sq_near u rnd (v : vec R) : rounding u rnd -> exists c, near u (vlen v) c /\ @dot R (FlOps rnd) v v = Ok (sumsq v * c).
Proof.
  intros RN. destruct (dot_near u rnd RN (vat v) (vat v) (vlen v)) as (c & Hc & E).
  destruct (near_mean u (vlen v) (vlen v) (fun i => vat v i * vat v i) c (u_rng u rnd RN)) as (d & Hd & Ed); [intros; cbn beta; nra|exact Hc|].
  exists d. split; [exact Hd|]. refine (eq_trans (@dot_ok R (FlOps rnd) v v eq_refl) _). f_equal. refine (eq_trans E _). exact Ed.
Qed.
Lemma norm_near u rnd (v : vec R) : rounding u rnd -> exists c, near u (S (vlen v)) c /\ rnd (sqrt (match @dot R (FlOps rnd) v v with Ok d => d | _ => 0 end)) = sqrt (sumsq v) * c.
Proof.
  intros RN. destruct (norm_sq_near u rnd v RN) as (c & Hc & ->). pose proof (sqrt_near u _ c (u_rng u rnd RN) Hc) as Hs. rewrite sqrt_mult_alt by apply sumsq_pos.
  destruct (rnd_near u rnd RN (sqrt (sumsq v) * sqrt c)) as (d & Hd & ->). exists (sqrt c * d). split; [|ring].
  replace (S (vlen v)) with (vlen v + 1)%nat by lia. apply near_mul; [apply (u_rng u rnd RN)|assumption|assumption].
Qed.
Theorem C85_norm_error : forall u rnd, rounding u rnd -> forall v : vec R,
  (exists q, fl_norm_sq rnd v = Ok q /\ Rabs (q - sumsq v) <= fwd u (vlen v) * sumsq v) /\
  (exists x, fl_norm rnd v = Ok x /\ Rabs (x - sqrt (sumsq v)) <= fwd u (vlen v + 1) * sqrt (sumsq v)).
Proof.
  intros u rnd RN v. pose proof (u_rng u rnd RN) as U. split.
  - destruct (norm_sq_near u rnd v RN) as (c & Hc & E). eexists. split; [exact E|]. replace (sumsq v * c - sumsq v) with (sumsq v * (c - 1)) by ring. rewrite Rabs_mult.
    pose proof (sumsq_pos v). rewrite (Rabs_pos_eq (sumsq v)) by assumption. pose proof (near_err u _ c U Hc). nra.
  - destruct (norm_near u rnd v RN) as (c & Hc & E). destruct (norm_sq_near u rnd v RN) as (b & Hb & Eb). unfold fl_norm. rewrite Eb in *. cbn [bind]. eexists. split; [reflexivity|]. rewrite E.
    replace (sqrt (sumsq v) * c - sqrt (sumsq v)) with (sqrt (sumsq v) * (c - 1)) by ring. rewrite Rabs_mult.
    pose proof (sqrt_pos (sumsq v)). rewrite (Rabs_pos_eq (sqrt _)) by assumption. replace (vlen v + 1)%nat with (S (vlen v)) by lia. pose proof (near_err u _ c U Hc). nra.
Qed.
(** unit(v) and normalize(v): every component is accurate, and the result has length 1 up to rounding *)
Lemma near_fac u k c : 0 <= u < 1 -> near u k c -> fac u k c.
Proof.
  intros H [F1 F2]. split; [exact F1|]. pose proof (pow_1mu u k H). apply (Rle_trans _ ((1 + u) ^ k * (1 - u) ^ k)); [nra|]. rewrite <- Rpow_mult_distr.
  apply (Rle_trans _ (1 ^ k)); [|rewrite pow1; lra]. apply pow_incr. nra.
Qed.
Lemma fac_mean u k n (t c : nat -> R) : 0 <= u < 1 -> (forall i, (i < n)%nat -> 0 <= t i) -> (forall i, (i < n)%nat -> fac u k (c i)) ->
  exists d, fac u k d /\ Sum n (fun i => t i * c i) = Sum n t * d.
Proof.
  intros H Ht Hc. assert (B : (1 - u) ^ k * Sum n t <= Sum n (fun i => t i * c i) /\ Sum n (fun i => t i * c i) * (1 - u) ^ k <= Sum n t).
  { induction n as [|n IH]; [cbn; lra|]. specialize (IH ltac:(intros; apply Ht; lia) ltac:(intros; apply Hc; lia)). change (Sum (S n) ?f) with (Sum n f + f n). cbn beta.
    change (Sum (S n) t) with (Sum n t + t n). pose proof (Hc n ltac:(lia)) as [C1 C2]. pose proof (Ht n ltac:(lia)). nra. }
  destruct (Req_dec (Sum n t) 0) as [Z|Z].
  - exists 1. split; [apply (fac_le u 0); [exact H|lia|apply fac_1; exact H]|]. rewrite Z in *. pose proof (pow_1mu u k H). nra.
  - assert (P : 0 < Sum n t) by (pose proof (S_nonneg n t Ht); lra). exists (Sum n (fun i => t i * c i) / Sum n t). split; [|field; exact Z].
    split; apply (Rmult_le_reg_r (Sum n t)); try exact P.
    + unfold Rdiv. rewrite Rmult_assoc, Rinv_l, Rmult_1_r by exact Z. lra.
    + replace (Sum n (fun i => t i * c i) / Sum n t * (1 - u) ^ k * Sum n t) with (Sum n (fun i => t i * c i) * (1 - u) ^ k) by (field; exact Z). lra.
Qed.
(** w is v/|v| with factors of k roundings *)
Lemma unit_shape u rnd (v w : vec R) k : rounding u rnd -> sumsq v <> 0 -> vlen w = vlen v ->
  (forall i, (i < vlen v)%nat -> exists c, fac u k c /\ vat w i = vat v i / sqrt (sumsq v) * c) ->
  (forall i, (i < vlen v)%nat -> Rabs (vat w i - vat v i / sqrt (sumsq v)) <= bwd u k * Rabs (vat v i / sqrt (sumsq v))) /\ Rabs (sumsq w - 1) <= bwd u (2 * k).
Proof.
  intros RN NZ L H. pose proof (u_rng u rnd RN) as U. destruct (fin_choice _ 0 _ H) as (c & Hc). split.
  - intros i Hi. destruct (Hc i Hi) as (F & ->). replace (vat v i / sqrt (sumsq v) * c i - vat v i / sqrt (sumsq v)) with (vat v i / sqrt (sumsq v) * (c i - 1)) by ring.
    rewrite Rabs_mult. pose proof (Rabs_pos (vat v i / sqrt (sumsq v))). pose proof (fac_err u k (c i) U F). nra.
  - assert (P : 0 < sumsq v) by (pose proof (sumsq_pos v); lra).
    destruct (fac_mean u (2 * k) (vlen v) (fun i => vat v i * vat v i * / sumsq v) (fun i => c i * c i) U) as (d & Hd & E).
    + intros i Hi. pose proof (Rinv_0_lt_compat _ P). assert (0 <= vat v i * vat v i) by nra. nra.
    + intros i Hi. replace (2 * k)%nat with (k + k)%nat by lia. apply fac_mul; [exact U|apply (Hc i Hi)|apply (Hc i Hi)].
    + assert (G : sumsq w = d).
      { unfold sumsq at 1. rewrite L. transitivity (Sum (vlen v) (fun i => vat v i * vat v i * / sumsq v * (c i * c i))).
        - apply S_ext. intros i Hi. destruct (Hc i Hi) as (_ & ->). pose proof (sqrt_lt_R0 _ P). rewrite <- (sqrt_sqrt (sumsq v)) at 3 by lra. field. lra.
        - rewrite E, S_mul_r. fold (sumsq v). field. lra. }
      rewrite G. apply fac_err; [exact U|exact Hd].
Qed.
Theorem C85_unit_error : forall u rnd, rounding u rnd -> forall v : vec R, (exists i, (i < vlen v)%nat /\ vat v i <> 0) ->
  exists w, fl_unit rnd v = Ok w /\ vlen w = vlen v /\
    (forall i, (i < vlen v)%nat -> Rabs (vat w i - vat v i / sqrt (sumsq v)) <= bwd u (vlen v + 3) * Rabs (vat v i / sqrt (sumsq v))) /\
    Rabs (sumsq w - 1) <= bwd u (2 * (vlen v + 3)).
Proof.
  intros u rnd RN v (i0 & Hi0 & NZ0). pose proof (u_rng u rnd RN) as U.
  assert (NZ : sumsq v <> 0). { intros Z. pose proof (S_pos_zero (vlen v) (fun i => vat v i * vat v i) ltac:(intros; cbn beta; nra) Z i0 Hi0) as Q. cbn beta in Q. nra. }
  pose proof (sqrt_lt_R0 (sumsq v) ltac:(pose proof (sumsq_pos v); lra)) as PS.
  destruct (norm_sq_near u rnd v RN) as (b & Hb & Eb). destruct (norm_near u rnd v RN) as (c & Hc & Ec). rewrite Eb in Ec. pose proof (near_fac u _ c U Hc) as Fc. pose proof (fac_pos u _ c U Fc) as Pc.
  unfold fl_unit. rewrite Eb. cbn [bind]. rewrite Ec. assert (Z : sqrt (sumsq v) * c <> 0) by nra. unfold div. cbn [feqb f0 FlOps fdiv]. unfold R_eqb. destruct (Req_EM_T (sqrt (sumsq v) * c) 0); [contradiction|]. cbn [bind].
  destruct (rnd_fac u rnd RN (1 / (sqrt (sumsq v) * c))) as (d & Fd & ->).
  destruct (@vscale_ok R (FlOps rnd) v (1 / (sqrt (sumsq v) * c) * d)) as (w & Ew & W1 & W2). exists w. split; [exact Ew|]. split; [exact W1|].
  apply (unit_shape u rnd); [exact RN|exact NZ|exact W1|]. intros i Hi. cbn beta in W2. rewrite W2 by exact Hi. cbn [fmul FlOps].
  destruct (rnd_fac u rnd RN (vat v i * (1 / (sqrt (sumsq v) * c) * d))) as (e & Fe & ->).
  exists (/ c * d * e). split; [|field; split; lra]. replace (vlen v + 3)%nat with (S (vlen v) + 1 + 1)%nat by lia.
  repeat (apply fac_mul; [exact U| |assumption]). apply fac_inv; assumption.
Qed.
Theorem C85_normalize_error : forall u rnd, rounding u rnd -> forall v : vec R, (exists i, (i < vlen v)%nat /\ vat v i <> 0) ->
  exists w, fl_normalize rnd v = Ok w /\ vlen w = vlen v /\
    (forall i, (i < vlen v)%nat -> Rabs (vat w i - vat v i / sqrt (sumsq v)) <= bwd u (vlen v + 2) * Rabs (vat v i / sqrt (sumsq v))) /\
    Rabs (sumsq w - 1) <= bwd u (2 * (vlen v + 2)).
Proof.
  intros u rnd RN v (i0 & Hi0 & NZ0). pose proof (u_rng u rnd RN) as U.
  assert (NZ : sumsq v <> 0). { intros Z. pose proof (S_pos_zero (vlen v) (fun i => vat v i * vat v i) ltac:(intros; cbn beta; nra) Z i0 Hi0) as Q. cbn beta in Q. nra. }
  pose proof (sqrt_lt_R0 (sumsq v) ltac:(pose proof (sumsq_pos v); lra)) as PS.
  destruct (norm_sq_near u rnd v RN) as (b & Hb & Eb). destruct (norm_near u rnd v RN) as (c & Hc & Ec). rewrite Eb in Ec. pose proof (near_fac u _ c U Hc) as Fc. pose proof (fac_pos u _ c U Fc) as Pc.
  unfold fl_normalize. rewrite Eb. cbn [bind]. rewrite Ec. assert (Z : sqrt (sumsq v) * c <> 0) by nra.
  assert (D : @gives_vec R (@vdiv_assign R (FlOps rnd) v (sqrt (sumsq v) * c)) (vlen v) (fun i => rnd (vat v i / (sqrt (sumsq v) * c)))).
  { apply vmod_ok. intros i Hi. unfold div. cbn [feqb f0 FlOps]. unfold R_eqb. destruct (Req_EM_T (sqrt (sumsq v) * c) 0); [contradiction|reflexivity]. }
  destruct D as (w & Ew & W1 & W2). exists w. split; [exact Ew|]. split; [exact W1|].
  apply (unit_shape u rnd); [exact RN|exact NZ|exact W1|]. intros i Hi. rewrite W2 by exact Hi.
  destruct (rnd_fac u rnd RN (vat v i / (sqrt (sumsq v) * c))) as (e & Fe & ->).
  exists (/ c * e). split; [|field; split; lra]. replace (vlen v + 2)%nat with (S (vlen v) + 1)%nat by lia.
  apply fac_mul; [exact U| |assumption]. apply fac_inv; assumption.
Qed.
(** the bounds in the usual form: k roundings cost at most ku/(1-ku) *)
Theorem C85_bounds : forall u k, 0 <= u < 1 -> INR k * u < 1 ->
  0 <= fwd u k <= bwd u k /\ bwd u k <= INR k * u / (1 - INR k * u).
Proof. intros u k H K. split; [split; [apply fwd_nonneg; lra|apply fwd_bwd; exact H]|apply bwd_gamma; assumption]. Qed.

(** whatever the rounding does: v*w and w*v, v+w and w+v, (A*B)^T and B^T*A^T are the same numbers, bit for bit *)
Lemma Sum_fl_ext rnd n f g : (forall i, (i < n)%nat -> f i = g i) -> @sum R (FlOps rnd) n f = @sum R (FlOps rnd) n g.
Proof. induction n as [|n IH]; intros H; cbn [sum]; [reflexivity|]. rewrite IH by (intros; apply H; lia). rewrite H by lia. reflexivity. Qed.
Theorem C85_bitwise_symmetry : forall rnd (a b : vec R) (m p : mat R), vlen a = vlen b -> mcols m = mrows p ->
  @dot R (FlOps rnd) a b = @dot R (FlOps rnd) b a /\
  agree_vec (@vadd R (FlOps rnd) a b) (@vadd R (FlOps rnd) b a) /\
  agree_mat (x <- @mmul R (FlOps rnd) m p ;; Ok (tr x)) (@mmul R (FlOps rnd) (tr p) (tr m)).
Proof.
  intros rnd a b m p H K. split; [|split].
  - rewrite (@dot_ok R (FlOps rnd) a b H), (@dot_ok R (FlOps rnd) b a (eq_sym H)). rewrite H. f_equal. apply Sum_fl_ext. intros i _. cbn [fmul FlOps]. rewrite Rmult_comm. reflexivity.
  - apply (agree_vec_intro _ _ (vlen a) (fun i => rnd (vat a i + vat b i))); [exact (@vadd_ok R (FlOps rnd) a b H)|].
    eapply gives_vec_ext; [exact (@vadd_ok R (FlOps rnd) b a (eq_sym H))|symmetry; exact H|]. intros i _. cbn [fadd FlOps]. rewrite Rplus_comm. reflexivity.
  - destruct (@mmul_ok R (FlOps rnd) m p K) as (x & -> & X1 & X2 & X3). cbn [bind].
    apply (agree_mat_intro _ _ (mcols p) (mrows m) (fun i j => mel x j i)).
    + exists (tr x). split; [reflexivity|]. split; [exact X2|]. split; [exact X1|]. reflexivity.
    + eapply gives_mat_ext; [exact (@mmul_ok R (FlOps rnd) (tr p) (tr m) (eq_sym K))|reflexivity|reflexivity|]. cbn [tr mrows mcols mel]. intros i j Hi Hj. rewrite X3 by assumption. rewrite K.
      apply Sum_fl_ext. intros k _. cbn [fmul FlOps]. rewrite Rmult_comm. reflexivity.
Qed.
(** Non-vacuity: double precision, round to nearest. The dot product of two vectors of length 3 is within 4e-16 times the sum of the magnitudes;
    unit() of any non-zero 3-vector has squared length within 1.3e-15*3 of one. *)
Lemma bwd64 k : (k <= 12)%nat -> bwd (/ 2 * Flocq.Core.Raux.bpow Flocq.Core.Zaux.radix2 (-52)) k <= INR k * (/ 10 ^ 15 / 2).
Proof.
  intros Hk. pose proof u64_rng as U. set (u := / 2 * _) in *. assert (K : INR k <= 12) by (apply (le_INR k 12) in Hk; cbn in Hk; lra). pose proof (pos_INR k).
  assert (S : INR k * u < / 2) by nra.
  eapply Rle_trans; [apply bwd_gamma; [lra|lra]|]. unfold Rdiv at 1. apply (Rmult_le_reg_r (1 - INR k * u)); [lra|]. rewrite Rmult_assoc, Rinv_l, Rmult_1_r by lra.
  assert (u <= / 10 ^ 15 / 4) by lra. assert (0 < / 10 ^ 15) by lra. nra.
Qed.
Example C85_double : forall v : vec R, vlen v = 3%nat -> vat v 1%nat <> 0 ->
  (exists x, fl_norm rnd64 v = Ok x /\ Rabs (x - sqrt (sumsq v)) <= 2 / 10 ^ 15 * sqrt (sumsq v)) /\
  (exists w, fl_unit rnd64 v = Ok w /\ Rabs (sumsq w - 1) <= 6 / 10 ^ 15).
Proof.
  intros v L NZ. split.
  - destruct (C85_norm_error _ _ rnd64_rounding v) as (_ & x & E & B). exists x. split; [exact E|]. eapply Rle_trans; [exact B|]. apply Rmult_le_compat_r; [apply sqrt_pos|].
    rewrite L. eapply Rle_trans; [apply fwd_bwd; pose proof u64_rng; lra|]. eapply Rle_trans; [apply bwd64; lia|]. cbn. lra.
  - destruct (C85_unit_error _ _ rnd64_rounding v) as (w & E & _ & _ & B); [exists 1%nat; split; [lia|exact NZ]|]. exists w. split; [exact E|]. eapply Rle_trans; [exact B|]. rewrite L.
    eapply Rle_trans; [apply bwd64; lia|]. cbn. lra.
Qed.
Print Assumptions C85_dot_product_error. Print Assumptions C85_dot_product_backward. Print Assumptions C85_matrix_product_error. Print Assumptions C85_matrix_vector_error.
Print Assumptions C85_vector_matrix_error. Print Assumptions C85_elementwise_error. Print Assumptions C85_norm_error. Print Assumptions C85_unit_error. Print Assumptions C85_normalize_error.
Print Assumptions C85_bounds. Print Assumptions C85_bitwise_symmetry. Print Assumptions C85_double.
