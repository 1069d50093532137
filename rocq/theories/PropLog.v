(** * C80: the matrix logarithm *)
From Coq Require Import Reals ZArith Arith Bool Lia Lra Setoid Morphisms.
From Verif Require Import Base Alg Inst Mat SpecMat SpecLin LemMat LemOps LemObjects LemHelpers LemDetMore ModelOps ModelObjects ModelHelpers ModelGauss RSum LemEig LemEig3 ModelExp SpecExp LemExp LemExp2 RMat LemSqrt PropSqrt LemLog.
Open Scope outcome_scope.
Local Open Scope R_scope.

(** ** eigenvalues and norms *)
Lemma max_at n (f : nat -> R) : (0 < n)%nat -> exists k, (k < n)%nat /\ forall l, (l < n)%nat -> f l <= f k.
Proof.
  induction n as [|n I]; intros H; [lia|]. destruct n as [|n]; [exists 0%nat; split; [lia|]; intros l Hl; replace l with 0%nat by lia; lra|].
  destruct (I ltac:(lia)) as (k & Hk & M). destruct (Rle_dec (f (S n)) (f k)) as [L|L].
  - exists k. split; [lia|]. intros l Hl. destruct (Nat.eq_dec l (S n)) as [->|N]; [exact L|apply M; lia].
  - exists (S n). split; [lia|]. intros l Hl. destruct (Nat.eq_dec l (S n)) as [->|N]; [lra|]. specialize (M l ltac:(lia)). lra.
Qed.
Lemma eig_column n P Q d i k : inverse_pair n P Q -> (k < n)%nat -> mm n (eigmat n P d Q) P i k = P i k * d k.
Proof.
  intros PQ Hk. unfold mm, eigmat. transitivity (Sum n (fun l => P i l * d l * Sum n (fun j => Q l j * P j k))).
  - transitivity (Sum n (fun j => Sum n (fun l => P i l * d l * (Q l j * P j k)))); [apply S_ext; intros; rewrite <- S_mul_r; apply S_ext; intros; ring|]. rewrite S_swap. apply S_ext. intros l Hl. rewrite <- S_mul_l. reflexivity.
  - transitivity (Sum n (fun l => P i l * d l * delta l k)); [apply S_ext; intros l Hl; destruct (PQ l k Hl Hk) as [_ H]; unfold mm in H; rewrite H; reflexivity|]. exact (delta_r n k (fun l => P i l * d l) Hk).
Qed.
(** an eigenvalue is no larger than the norm *)
Lemma eig_norm n P Q d c k : inverse_pair n P Q -> norm_le n (eigmat n P d Q) c -> (k < n)%nat -> Rabs (d k) <= c.
Proof.
  intros PQ Hc Hk. destruct (max_at n (fun i => Rabs (P i k)) ltac:(lia)) as (i & Hi & M). cbn beta in M.
  assert (Pi : 0 < Rabs (P i k)).
  { destruct (Rle_lt_dec (Rabs (P i k)) 0) as [L|L]; [|exact L]. exfalso. destruct (PQ k k Hk Hk) as [_ H]. unfold mm in H. rewrite S_zero in H.
    - unfold delta in H. rewrite Nat.eqb_refl in H. cbn [f1 ROps] in H. lra.
    - intros j Hj. specialize (M j Hj). pose proof (Rabs_pos (P j k)). assert (Z : P j k = 0) by (destruct (Req_dec (P j k) 0) as [|N]; [assumption|apply Rabs_pos_lt in N; lra]). rewrite Z. ring. }
  apply Rmult_le_reg_l with (Rabs (P i k)); [exact Pi|]. rewrite <- Rabs_mult, <- (eig_column n P Q d i k PQ Hk). unfold mm. eapply Rle_trans; [apply S_abs|]. eapply Rle_trans; [apply (S_le n _ (fun j => Rabs (eigmat n P d Q i j) * Rabs (P i k)))|].
  - intros j Hj. rewrite Rabs_mult. apply Rmult_le_compat_l; [apply Rabs_pos|apply M; exact Hj].
  - rewrite S_mul_r, Rmult_comm. apply Rmult_le_compat_l; [lra|]. apply Hc. exact Hi.
Qed.
Lemma kappa_ge n P Q p q : (0 < n)%nat -> inverse_pair n P Q -> 0 <= q -> norm_le n P p -> norm_le n Q q -> 1 <= p * q.
Proof.
  intros Hn PQ Pq HP HQ. pose proof (norm_mm n P Q p q Pq HP HQ) as H. pose proof (norm_entry n _ _ 0%nat 0%nat Hn Hn H) as K. destruct (PQ 0%nat 0%nat Hn Hn) as [E _]. rewrite E in K. unfold delta in K. cbn [Nat.eqb f1 ROps] in K. rewrite Rabs_R1 in K. exact K.
Qed.
(** ** scalar inequalities for the logarithm *)
Lemma ln_le_minus a : 0 < a -> ln a <= a - 1.
Proof. intros P. pose proof (exp_ineq1_le (ln a)) as H. rewrite exp_ln in H by exact P. lra. Qed.
Lemma ln_ge_inv a : 0 < a -> 1 - / a <= ln a.
Proof. intros P. pose proof (exp_ineq1_le (- ln a)) as H. rewrite exp_Ropp, exp_ln in H by exact P. lra. Qed.
Lemma far_from_one a kap : 1 <= kap -> 0 < a -> 1 / 2 < kap * Rabs (a - 1) -> / (3 * kap) <= Rabs (ln a).
Proof.
  intros Hk Pa H. assert (Pi : 0 < / (3 * kap)) by (apply Rinv_0_lt_compat; lra). assert (Ei : / (3 * kap) * kap = / 3) by (field; lra). destruct (Rle_lt_dec 1 a) as [L|L].
  - rewrite Rabs_right in H by lra. pose proof (ln_ge_inv a Pa) as G. assert (K : / (3 * kap) <= 1 - / a).
    { apply Rmult_le_reg_r with (kap * a); [apply Rmult_lt_0_compat; lra|]. replace (/ (3 * kap) * (kap * a)) with (a * / 3) by (rewrite <- Ei; ring). replace ((1 - / a) * (kap * a)) with (kap * (a - 1)) by (field; lra).
      destruct (Rle_lt_dec a (3 / 2)) as [B|B]; [lra|]. assert (a - 1 <= kap * (a - 1)) by nra. lra. }
    rewrite Rabs_right; [lra|]. lra.
  - rewrite Rabs_left in H by lra. pose proof (ln_le_minus a Pa) as G. rewrite Rabs_left1 by lra. apply Rle_trans with (1 - a); [|lra]. apply Rmult_le_reg_r with kap; [lra|]. rewrite Ei. lra.
Qed.
Lemma near_one a kap : 1 <= kap -> 0 < a -> Rabs (ln a) <= / (4 * kap) -> kap * Rabs (a - 1) <= 1 / 2.
Proof.
  intros Hk Pa H. assert (Ei : / (4 * kap) * kap = / 4) by (field; lra). assert (Q : / (4 * kap) <= / 4) by (apply Rinv_le_contravar; lra).
  assert (G : Rabs (a - 1) <= 2 * Rabs (ln a)).
  { destruct (Rle_lt_dec 1 a) as [L|L].
    - pose proof (ln_ge_inv a Pa) as G. assert (0 <= ln a) by (rewrite <- ln_1; destruct L as [L| <-]; [left; apply ln_increasing; lra|lra]). rewrite Rabs_right in H by lra. rewrite !Rabs_right by lra.
      assert (Ia : 3 / 4 <= / a) by lra. assert (Aa : a <= 4 / 3). { apply Rmult_le_reg_r with (/ a); [apply Rinv_0_lt_compat; exact Pa|]. rewrite Rinv_r by lra. lra. }
      assert (E1 : a - 1 = a * (1 - / a)) by (field; lra). assert (0 <= 1 - / a). { assert (/ a <= 1) by (rewrite <- Rinv_1; apply Rinv_le_contravar; lra). lra. } rewrite E1. nra.
    - pose proof (ln_le_minus a Pa) as G. rewrite (Rabs_left (a - 1)) by lra. rewrite (Rabs_left (ln a)) by lra. lra. }
  assert (0 <= Rabs (ln a)) by apply Rabs_pos. apply Rle_trans with (kap * (2 * Rabs (ln a))); [apply Rmult_le_compat_l; lra|]. apply (Rmult_le_compat_l kap) in H; [|lra]. lra.
Qed.
(** ** the code on a matrix with positive eigenvalues *)
Section W.
Variables (added minus : R -> R -> R) (u eta tol : R) (n : nat) (P Q : rmat) (p q : R) (d : nat -> R).
Hypothesis PQ : inverse_pair n P Q.
Hypothesis Pp : 0 <= p.
Hypothesis Pq : 0 <= q.
Hypothesis HP : norm_le n P p.
Hypothesis HQ : norm_le n Q q.
Hypothesis Hd : forall k, (k < n)%nat -> 0 < d k.
Hypothesis Pu : 0 <= u.
Hypothesis Pe : 0 <= eta.
Hypothesis Pt : 0 <= tol.
Hypothesis Hmin : forall x y, minus x y = 0 -> Rabs (x - y) <= tol.
Notation ev a := (eigmat n P a Q).
Notation eps := (q * (INR n * tol * p)).
Lemma eps_nonneg : 0 <= eps.
Proof. apply Rmult_le_pos; [exact Pq|]. apply Rmult_le_pos; [|exact Pp]. apply Rmult_le_pos; [apply pos_INR|exact Pt]. Qed.
Lemma shift_is a : meq n (fun i j => ev a i j - delta i j) (ev (fun k => a k - 1)).
Proof.
  intros i j Hi Hj. rewrite <- (conj_one n P Q PQ i j Hi Hj). unfold eigmat. rewrite <- S_sub. apply S_ext. intros; ring.
Qed.
Lemma taylor_ok fuel (A L : mat R) a : (forall x f, added x f = 0 -> Rabs f <= u * Rabs x + eta) -> mat_is A n n (ev a) -> (forall k, (k < n)%nat -> 0 < a k) -> norm_le n (ev (fun k => a k - 1)) (1 / 2) -> log_taylor added fuel A = Ok L ->
  exists l, mat_is L n n (ev l) /\ forall k, (k < n)%nat -> Rabs (l k - ln (a k)) <= 2 * (p * q * (u + INR n * eta)).
Proof.
  intros Hadd HA Pa Hn Run. destruct (log_taylor_start added n A _ _ HA (shift_is a)) as (X & F & S & HX & HF & HS & E). rewrite E in Run.
  destruct (log_loop_ok added n _ X HX fuel 0 F S L HF HS Run) as (N & HL & St). exists (fun k => lser (a k - 1) N). split; [apply (is_ext n L _ _ HL); apply (lpart_eig n P Q (fun k => a k - 1) N PQ)|].
  intros k Hk. set (x := fun k => a k - 1) in *. pose proof (eig_norm n P Q x (1 / 2) k PQ Hn Hk) as Bx. rewrite Rabs_minus_sym. replace (ln (a k)) with (ln (1 + x k)) by (f_equal; unfold x; ring).
  eapply Rle_trans; [apply (ln_series (x k) N Bx)|]. apply Rmult_le_compat_l; [lra|].
  assert (NT : norm_le n (ev (fun k => (-1) ^ N * x k ^ Datatypes.S N / (INR N + 1))) (u + INR n * eta)).
  { intros i Hi. eapply Rle_trans; [apply (S_le n _ (fun j => u * Rabs (lpart n (ev x) N i j) + eta))|].
    - intros j Hj. eapply Rle_trans; [|apply Hadd; apply (St i j Hi Hj)]. right. f_equal. rewrite (lterm_eig n P Q x N PQ i j Hi Hj). unfold eigmat, Rdiv. rewrite <- S_mul_r. apply S_ext. intros; ring.
    - rewrite S_add, S_mul_l, const_sum. pose proof (lpart_norm n (ev x) N Hn i Hi) as K. nra. }
  assert (Pc : 0 <= u + INR n * eta) by (pose proof (Rmult_le_pos _ _ (pos_INR n) Pe); lra).
  pose proof (conj_bound n P Q PQ _ p q _ k Pp Pc HP HQ NT Hk) as B. cbn beta in B. pose proof (pos_INR N) as PN. unfold Rdiv in B. rewrite !Rabs_mult, <- RPow_abs in B. replace (Rabs (-1)) with 1 in B by (rewrite Rabs_left; lra). rewrite pow1, Rmult_1_l in B.
  rewrite (Rabs_right (/ (INR N + 1))) in B by (apply Rle_ge; left; apply Rinv_0_lt_compat; lra). rewrite <- RPow_abs in B. unfold Rdiv. lra.
Qed.
(** after c square roots *)
Definition near (c : nat) (a : nat -> R) : Prop := forall k, (k < n)%nat -> 0 < a k /\ 0 <= 2 ^ c * ln (a k) - ln (d k) <= (2 ^ c - 1) * eps.
Lemma near_0 : near 0 d.
Proof. intros k Hk. split; [apply Hd; exact Hk|]. cbn [pow]. lra. Qed.
Lemma near_S c a y : near c a -> (forall k, (k < n)%nat -> 0 < y k /\ a k <= y k * y k <= a k * (1 + eps)) -> near (S c) y.
Proof.
  intros Ha Hy k Hk. destruct (Ha k Hk) as (Pa & B1 & B2). destruct (Hy k Hk) as (Py & Y1 & Y2). split; [exact Py|]. cbn [pow].
  assert (El : 2 * ln (y k) = ln (y k * y k)) by (rewrite ln_mult by exact Py; ring). assert (L1 : ln (a k) <= ln (y k * y k)) by (destruct Y1 as [Y1| ->]; [left; apply ln_increasing; assumption|lra]).
  pose proof eps_nonneg as Pz. assert (L2 : ln (y k * y k) <= ln (a k) + eps).
  { apply Rle_trans with (ln (a k * (1 + eps))); [destruct Y2 as [Y2| ->]; [left; apply ln_increasing; [nra|exact Y2]|lra]|]. rewrite ln_mult by lra. pose proof (ln_le_minus (1 + eps) ltac:(lra)). lra. }
  replace (2 * 2 ^ c * ln (y k)) with (2 ^ c * (2 * ln (y k))) by ring. rewrite El. pose proof (pow_lt 2 c ltac:(lra)) as P2. split; nra.
Qed.
Variable Lam : R.
Hypothesis HLam : forall k, (k < n)%nat -> Rabs (ln (d k)) <= Lam.
Hypothesis Ht : 6 * (p * q) * eps <= 1.
Lemma doubled c a nd (D : mat R) : near c a -> mat_is D n n (ev (fun k => a k - 1)) -> norminf_mat D = Ok nd -> 1 / 2 < nd -> 2 ^ S c <= 12 * (p * q) * Lam.
Proof.
  intros Ha (D1 & D2 & D3) En Hn. destruct (norm_code n D D1 D2) as (nd' & E' & _ & _ & W). rewrite En in E'. injection E' as <-.
  destruct W as [->|(r & Hr & Er)]; [lra|]. assert (n0 : (0 < n)%nat) by lia. pose proof (kappa_ge n P Q p q n0 PQ Pq HP HQ) as K1.
  destruct (max_at n (fun k => Rabs (a k - 1)) n0) as (k & Hk & M). cbn beta in M.
  assert (Big : 1 / 2 < p * q * Rabs (a k - 1)).
  { eapply Rlt_le_trans; [exact Hn|]. rewrite Er. rewrite (S_ext n _ (fun c => Rabs (ev (fun k => a k - 1) r c))) by (intros c' Hc'; rewrite D3 by assumption; reflexivity).
    eapply Rle_trans; [apply (conj_norm n P Q (fun k => a k - 1) p q (Rabs (a k - 1)) (Rabs_pos _) Pq HP HQ M r Hr)|]. right. ring. }
  destruct (Ha k Hk) as (Pa & B1 & B2). pose proof (far_from_one (a k) (p * q) K1 Pa Big) as F. pose proof (HLam k Hk) as BL. pose proof (pow_lt 2 c ltac:(lra)) as P2. pose proof eps_nonneg as Pz.
  assert (U : 2 ^ c * Rabs (ln (a k)) <= Lam + 2 ^ c * eps). { rewrite <- (Rabs_right (2 ^ c)) at 1 by lra. rewrite <- Rabs_mult. apply Rabs_le_inv in BL. apply Rabs_le. split; nra. }
  assert (V : 3 * (p * q) * Rabs (ln (a k)) >= 1). { apply (Rmult_le_compat_l (3 * (p * q))) in F; [|lra]. rewrite Rinv_r in F by lra. lra. }
  cbn [pow]. assert (X1 : 2 ^ c * (3 * (p * q) * Rabs (ln (a k))) <= 3 * (p * q) * Lam + 2 ^ c * (3 * (p * q) * eps)).
  { replace (2 ^ c * (3 * (p * q) * Rabs (ln (a k)))) with (3 * (p * q) * (2 ^ c * Rabs (ln (a k)))) by ring. replace (3 * (p * q) * Lam + 2 ^ c * (3 * (p * q) * eps)) with (3 * (p * q) * (Lam + 2 ^ c * eps)) by ring. apply Rmult_le_compat_l; [lra|exact U]. }
  assert (X2 : 2 ^ c * 1 <= 2 ^ c * (3 * (p * q) * Rabs (ln (a k)))) by (apply Rmult_le_compat_l; lra). assert (X3 : 2 ^ c * (3 * (p * q) * eps) <= 2 ^ c * (1 / 2)) by (apply Rmult_le_compat_l; lra). lra.
Qed.
Lemma scale_ok : (forall x f, added x f = 0 -> Rabs f <= u * Rabs x + eta) -> forall fuel c (A L : mat R) a, mat_is A n n (ev a) -> near c a -> 2 ^ c <= Rmax 1 (12 * (p * q) * Lam) -> log_scale added minus fuel A c = Ok L ->
  exists l, mat_is L n n (ev l) /\ forall k, (k < n)%nat -> Rabs (l k - ln (d k)) <= Rmax 1 (12 * (p * q) * Lam) * (2 * (p * q * (u + INR n * eta)) + eps).
Proof.
  intros Hadd. induction fuel as [|fuel I]; intros c A L a HA Ha Hc Run; [discriminate|]. cbn [log_scale] in Run. destruct (minus_id_is n A _ HA) as (D & ED & HD0). pose proof (is_ext n D _ _ HD0 (shift_is a)) as HD. rewrite ED in Run. cbn [bind] in Run.
  pose proof HD as (D1 & D2 & D3). destruct (norm_code n D D1 D2) as (nd & En & Pn & Nn & _). rewrite En in Run. cbn [bind] in Run. destruct (R_ltb (1 / 2) nd) eqn:T.
  - apply R_ltb_spec in T. apply bind_ok in Run. destruct Run as (A' & Es & Run). destruct (C79_root minus tol n P Q p q a (S fuel) A A' PQ Pp HP HQ (fun k Hk => proj1 (Ha k Hk)) HA Pt Hmin Es) as (y & HA' & Hy).
    apply (I (S c) A' L y HA' (near_S c a y Ha Hy)); [|exact Run]. eapply Rle_trans; [apply (doubled c a nd D Ha HD En T)|apply Rmax_r].
  - apply R_ltb_false in T. apply bind_ok in Run. destruct Run as (L0 & El & Run). destruct (taylor_ok (S fuel) A L0 a Hadd HA (fun k Hk => proj1 (Ha k Hk))) as (l & HL & Bl); [|exact El|].
    + apply (norm_mono n _ nd); [exact T|]. apply (norm_ext n (mel D)); [exact D3|exact Nn].
    + destruct (scale_is n L0 _ (2 ^ c) HL) as (L' & E' & HL'). rewrite E' in Run. injection Run as <-. exists (fun k => 2 ^ c * l k). split.
      * apply (is_ext n L' _ _ HL'). intros i j Hi Hj. rewrite <- (conj_scal n P Q (2 ^ c) l i j Hi Hj). unfold mscal. ring.
      * intros k Hk. destruct (Ha k Hk) as (Pa & B1 & B2). pose proof (Bl k Hk) as B. pose proof (pow_lt 2 c ltac:(lra)) as P2. pose proof eps_nonneg as Pz.
        replace (2 ^ c * l k - ln (d k)) with (2 ^ c * (l k - ln (a k)) + (2 ^ c * ln (a k) - ln (d k))) by ring. eapply Rle_trans; [apply Rabs_triang|]. rewrite Rabs_mult, (Rabs_right (2 ^ c)) by lra. rewrite (Rabs_right (2 ^ c * ln (a k) - ln (d k))) by lra.
        apply Rle_trans with (2 ^ c * (2 * (p * q * (u + INR n * eta)) + eps)); [|apply Rmult_le_compat_r; [|exact Hc]].
        -- apply (Rmult_le_compat_l (2 ^ c)) in B; [|lra]. lra.
        -- pose proof (Rabs_pos (l k - ln (a k))). lra.
Qed.
End W.
(** ** Accuracy: for m = P diag(d) Q with Q the inverse of P and d positive, the result has the same eigenvectors,
    and eigenvalues that differ from ln d by at most
    max(1, 12 K Lam) (2 K (u + n eta) + K n tol), K = |P| |Q|, Lam = max |ln d|. *)
Theorem C80_accurate : forall added minus u eta tol n P Q p q d Lam fuel (m L : mat R),
  inverse_pair n P Q -> 0 <= p -> 0 <= q -> norm_le n P p -> norm_le n Q q ->
  (forall k, (k < n)%nat -> 0 < d k) -> (forall k, (k < n)%nat -> Rabs (ln (d k)) <= Lam) -> mat_is m n n (eigmat n P d Q) ->
  0 <= u -> 0 <= eta -> 0 <= tol -> (forall x f, added x f = 0 -> Rabs f <= u * Rabs x + eta) -> (forall x y, minus x y = 0 -> Rabs (x - y) <= tol) ->
  6 * (p * q) * (q * (INR n * tol * p)) <= 1 ->
  log_mat added minus fuel m = Ok L ->
  exists l, mat_is L n n (eigmat n P l Q) /\
    forall k, (k < n)%nat -> Rabs (l k - ln (d k)) <= Rmax 1 (12 * (p * q) * Lam) * (2 * (p * q * (u + INR n * eta)) + q * (INR n * tol * p)).
Proof.
  intros added minus u eta tol n P Q p q d Lam fuel m L PQ Pp Pq HP HQ Hd HLam Hm Pu Pe Pt Hadd Hmin Ht Run.
  apply (scale_ok added minus u eta tol n P Q p q d PQ Pp Pq HP HQ Pu Pe Pt Hmin Lam HLam Ht Hadd fuel 0 m L d Hm); [apply (near_0 tol n p q d Hd)|cbn [pow]; apply Rmax_l|exact Run].
Qed.
(** the matrix with eigenvalues ln d is a logarithm of m: its exponential is m *)
Theorem C80_logarithm : forall n P Q d, inverse_pair n P Q -> (forall k, (k < n)%nat -> 0 < d k) -> is_exp n (eigmat n P (fun k => ln (d k)) Q) (eigmat n P d Q).
Proof.
  intros n P Q d PQ Hd. apply (is_exp_ext n (eigmat n P (fun k => ln (d k)) Q) _ (eigmat n P (fun k => exp (ln (d k))) Q) _); [reflexivity| |apply (conj_exp n P Q PQ)]. apply conj_ext. intros k Hk. apply exp_ln. apply Hd. exact Hk.
Qed.
(** ** Termination *)
Lemma taylor_ends added eta n (A : mat R) a x : 0 < eta -> (forall x f, Rabs f <= eta -> added x f = 0) -> mat_is A n n a -> meq n (fun i j => a i j - delta i j) x -> norm_le n x (1 / 2) ->
  exists fuel L, mrows L = n /\ mcols L = n /\ forall fuel', (fuel <= fuel')%nat -> log_taylor added fuel' A = Ok L.
Proof.
  intros Pe Hadd HA Hx Hn. destruct (log_taylor_start added n A a x HA Hx) as (X & F & S & HX & HF & HS & E).
  destruct (pow_lt_1_zero (1 / 2) ltac:(rewrite Rabs_right; lra) eta Pe) as [N HN]. specialize (HN (Datatypes.S N) ltac:(lia)). rewrite Rabs_right in HN by (apply Rle_ge; apply pow_le; lra).
  assert (St : lstop added n x N). { intros i j Hi Hj. apply Hadd. eapply Rle_trans; [apply (norm_entry n _ _ i j Hi Hj (lterm_norm n x N Hn))|]. lra. }
  destruct (log_loop_ends added n x X N HX St (Datatypes.S N) 0 F S ltac:(lia) ltac:(lia) HF HS) as [L HL]. destruct (log_loop_ok added n x X HX (Datatypes.S N) 0 F S L HF HS HL) as (N' & (L1 & L2 & _) & _).
  exists (Datatypes.S N), L. split; [exact L1|]. split; [exact L2|]. intros fuel' H. rewrite E. apply (log_loop_mono added X (Datatypes.S N)); assumption.
Qed.
Theorem C80_ends : forall added minus eta tol0 tol n P Q p q d (m : mat R),
  inverse_pair n P Q -> 0 <= p -> 0 <= q -> norm_le n P p -> norm_le n Q q -> (forall k, (k < n)%nat -> 0 < d k) -> mat_is m n n (eigmat n P d Q) ->
  0 < eta -> (forall x f, Rabs f <= eta -> added x f = 0) ->
  0 < tol0 -> (forall x y, Rabs (x - y) <= tol0 -> minus x y = 0) -> 0 <= tol -> (forall x y, minus x y = 0 -> Rabs (x - y) <= tol) ->
  8 * (p * q) * (q * (INR n * tol * p)) <= 1 ->
  exists fuel L, forall fuel', (fuel <= fuel')%nat -> log_mat added minus fuel' m = Ok L.
Proof.
  intros added minus eta tol0 tol n P Q p q d m PQ Pp Pq HP HQ Hd Hm Pe Hadd Pt0 Hmin0 Pt Hmin Ht.
  destruct (bounded n (fun k => Rabs (ln (d k)))) as (Lam & PL & HLam). cbn beta in HLam.
  pose proof (eps_nonneg tol n p q Pp Pq Pt) as Pz. set (eps := q * (INR n * tol * p)) in *.
  assert (Pk : 0 <= p * q) by (apply Rmult_le_pos; assumption).
  assert (ExC : exists C, 8 * (p * q) * Lam <= 2 ^ C).
  { destruct (Pow_x_infinity 2 ltac:(rewrite Rabs_right; lra) (8 * (p * q) * Lam)) as [C HC]. exists C. specialize (HC C (le_n _)). rewrite Rabs_right in HC by (apply Rle_ge; apply pow_le; lra). lra. }
  destruct ExC as [C HC].
  assert (G : forall r c (A : mat R) a, (C <= c + r)%nat -> mat_is A n n (eigmat n P a Q) -> near tol n p q d c a -> exists fuel L, forall fuel', (fuel <= fuel')%nat -> log_scale added minus fuel' A c = Ok L).
  { induction r as [|r I]; intros c A a Hr HA Ha.
    all: destruct (minus_id_is n A _ HA) as (D & ED & HD0); pose proof (is_ext n D _ _ HD0 (shift_is n P Q PQ a)) as HD; pose proof HD as (D1 & D2 & D3); destruct (norm_code n D D1 D2) as (nd & En & Pn & Nn & W).
    all: assert (Fin : nd <= 1 / 2 -> exists fuel L, forall fuel', (fuel <= fuel')%nat -> log_scale added minus fuel' A c = Ok L).
    1, 3: intros Hn; destruct (taylor_ends added eta n A _ _ Pe Hadd HA (shift_is n P Q PQ a)) as (f & L0 & L1 & L2 & HL); [apply (norm_mono n _ nd); [exact Hn|]; apply (norm_ext n (mel D)); [exact D3|exact Nn]|];
      destruct (scale_is n L0 (mel L0) (2 ^ c)) as (L & EL & _); [split; [exact L1|split; [exact L2|reflexivity]]|]; exists (S f), L; intros fuel' Hf; destruct fuel' as [|fuel']; [lia|]; cbn [log_scale]; rewrite ED; cbn [bind]; rewrite En; cbn [bind];
      destruct (R_ltb (1 / 2) nd) eqn:T; [apply R_ltb_spec in T; lra|]; rewrite HL by lia; cbn [bind]; exact EL.
    - apply Fin. destruct W as [->|(i & Hi & Er)]; [lra|]. assert (n0 : (0 < n)%nat) by lia. pose proof (kappa_ge n P Q p q n0 PQ Pq HP HQ) as K1.
      assert (Hc : 8 * (p * q) * Lam <= 2 ^ c) by (eapply Rle_trans; [exact HC|apply Rle_pow; [lra|lia]]). pose proof (pow_lt 2 c ltac:(lra)) as P2.
      assert (Near : forall k, (k < n)%nat -> p * q * Rabs (a k - 1) <= 1 / 2).
      { intros k Hk. destruct (Ha k Hk) as (Pa & B1 & B2). fold eps in B2. apply near_one; [exact K1|exact Pa|]. pose proof (HLam k Hk) as BL. apply Rabs_le_inv in BL.
        apply Rmult_le_reg_l with (2 ^ c); [exact P2|]. apply Rmult_le_reg_l with (8 * (p * q)); [lra|]. replace (8 * (p * q) * (2 ^ c * / (4 * (p * q)))) with (2 * 2 ^ c) by (field; split; intros Z; rewrite Z in K1; lra).
        assert (U : 2 ^ c * Rabs (ln (a k)) <= Lam + 2 ^ c * eps). { rewrite <- (Rabs_right (2 ^ c)) at 1 by lra. rewrite <- Rabs_mult. apply Rabs_le. split; nra. }
        apply Rle_trans with (8 * (p * q) * (Lam + 2 ^ c * eps)); [apply Rmult_le_compat_l; lra|]. assert (2 ^ c * (8 * (p * q) * eps) <= 2 ^ c * 1) by (apply Rmult_le_compat_l; lra). lra. }
      destruct (max_at n (fun k => Rabs (a k - 1)) n0) as (k & Hk & M). cbn beta in M. specialize (Near k Hk).
      rewrite Er, (S_ext n _ (fun c => Rabs (eigmat n P (fun k => a k - 1) Q i c))) by (intros c' Hc'; rewrite D3 by assumption; reflexivity).
      eapply Rle_trans; [apply (conj_norm n P Q (fun k => a k - 1) p q (Rabs (a k - 1)) (Rabs_pos _) Pq HP HQ M i Hi)|]. lra.
    - destruct (Rle_lt_dec nd (1 / 2)) as [L|L]; [exact (Fin L)|]. destruct (C79_ends minus tol0 n P Q a A PQ (fun k Hk => proj1 (Ha k Hk)) HA Pt0 Hmin0) as (f1 & A' & H1).
      destruct (C79_root minus tol n P Q p q a f1 A A' PQ Pp HP HQ (fun k Hk => proj1 (Ha k Hk)) HA Pt Hmin (H1 f1 (le_n _))) as (y & HA' & Hy).
      destruct (I (S c) A' y ltac:(lia) HA' (near_S tol n p q d Pp Pq Pt c a y Ha Hy)) as (f2 & L' & H2). exists (S (f1 + f2)), L'. intros fuel' Hf. destruct fuel' as [|fuel']; [lia|]. cbn [log_scale]. rewrite ED. cbn [bind]. rewrite En. cbn [bind].
      destruct (R_ltb (1 / 2) nd) eqn:T; [|apply R_ltb_false in T; lra]. rewrite H1 by lia. cbn [bind]. apply H2. lia. }
  apply (G C 0%nat m d ltac:(lia) Hm). apply (near_0 tol n p q d Hd).
Qed.
(** ** Other inputs *)
Theorem C80_square : forall added minus fuel (m : mat R), mrows m <> mcols m -> log_mat added minus (S fuel) m = Abort DSizeMismatch.
Proof. intros added minus fuel m H. unfold log_mat. cbn [log_scale]. unfold mat_minus_identity, hscale. rewrite same_size_bad by exact H. reflexivity. Qed.
(** a matrix that is not within 1/2 of the identity and is singular has no logarithm, and none is returned *)
Theorem C80_singular : forall added minus fuel n (m : mat R), mrows m = n -> mcols m = n -> ~ nonsingular n (mel m) -> (exists i, (i < n)%nat /\ Sum n (fun j => Rabs (mel m i j - delta i j)) > 1 / 2) ->
  log_mat added minus (S fuel) m = NonFinite.
Proof.
  intros added minus fuel n m M1 M2 NS (i & Hi & Big). unfold log_mat. cbn [log_scale]. assert (Hm : mat_is m n n (mel m)) by (split; [exact M1|split; [exact M2|reflexivity]]). destruct (minus_id_is n m _ Hm) as (D & ED & D1 & D2 & D3). rewrite ED. cbn [bind].
  destruct (norm_code n D D1 D2) as (nd & En & _ & Nn & _). rewrite En. cbn [bind]. specialize (Nn i Hi). rewrite (S_ext n _ (fun j => Rabs (mel m i j - delta i j))) in Nn by (intros j Hj; rewrite D3 by assumption; reflexivity).
  destruct (R_ltb (1 / 2) nd) eqn:T; [|apply R_ltb_false in T; lra]. rewrite (C79_singular_refuted minus fuel n m M1 M2 NS). reflexivity.
Qed.
(** ** The hypotheses are met: the symmetric matrix with eigenvalues 9 and 1 *)
Example C80_nonvac : forall tol eta, 0 < tol <= 1 / 64 -> 0 < eta -> exists fuel L,
  log_mat (fun _ f => if R_ltb eta (Rabs f) then f else 0) (close tol) fuel (mkmat 2 2 (fun i j => match i, j with 0%nat, 0%nat => 5 | 1%nat, 1%nat => 5 | _, _ => 4 end)) = Ok L /\
  exists l, mat_is L 2 2 (eigmat 2 mixer l (mscal (1 / 2) mixer)) /\ forall k, (k < 2)%nat -> Rabs (l k - ln (ev19 k)) <= Rmax 1 (12 * (2 * 1) * ln 9) * (2 * (2 * 1 * (0 + INR 2 * eta)) + 1 * (INR 2 * tol * 2)).
Proof.
  intros tol eta [Pt Lt] Pe. destruct (close_ok tol Pt) as [C1 C2]. set (m := mkmat 2 2 _). set (added := fun _ f : R => if R_ltb eta (Rabs f) then f else 0).
  assert (PQ : inverse_pair 2 mixer (mscal (1 / 2) mixer)). { intros i j Hi Hj. destruct i as [|[|i]]; [| |lia]; (destruct j as [|[|j]]; [| |lia]); unfold mm, mscal, mixer, delta; cbn; split; lra. }
  assert (Hm : mat_is m 2 2 (eigmat 2 mixer ev19 (mscal (1 / 2) mixer))). { split; [reflexivity|]. split; [reflexivity|]. intros i j Hi Hj. destruct i as [|[|i]]; [| |lia]; (destruct j as [|[|j]]; [| |lia]); unfold eigmat, mscal, mixer, ev19; cbn; lra. }
  assert (Hd : forall k, (k < 2)%nat -> 0 < ev19 k) by (intros [|k] _; cbn; lra).
  assert (A1 : Rabs (-1) = 1) by (rewrite Rabs_left; lra).
  assert (HP : norm_le 2 mixer 2). { intros i Hi. destruct i as [|[|i]]; [| |lia]; cbn; rewrite ?A1, ?Rabs_R1; lra. }
  assert (HQ : norm_le 2 (mscal (1 / 2) mixer) 1). { intros i Hi. unfold mscal. destruct i as [|[|i]]; [| |lia]; cbn; rewrite ?Rabs_mult, ?A1, ?Rabs_R1, ?(Rabs_right (1 / 2)) by lra; lra. }
  assert (T1 : forall x f, Rabs f <= eta -> added x f = 0). { intros x f H. unfold added. destruct (R_ltb eta (Rabs f)) eqn:E; [apply R_ltb_spec in E; lra|reflexivity]. }
  assert (T2 : forall x f, added x f = 0 -> Rabs f <= 0 * Rabs x + eta). { intros x f H. unfold added in H. destruct (R_ltb eta (Rabs f)) eqn:E; [subst f; rewrite Rabs_R0; lra|apply R_ltb_false in E; lra]. }
  assert (I2 : INR 2 = 2) by reflexivity.
  assert (L9 : 0 < ln 9) by (rewrite <- ln_1; apply ln_increasing; lra).
  destruct (C80_ends added (close tol) eta tol tol 2 mixer (mscal (1 / 2) mixer) 2 1 ev19 m PQ) as (fuel & L & HL); try assumption; try lra; [rewrite I2; lra|].
  exists fuel, L. specialize (HL fuel (le_n _)). split; [exact HL|]. apply (C80_accurate added (close tol) 0 eta tol 2 mixer (mscal (1 / 2) mixer) 2 1 ev19 (ln 9) fuel m L PQ); try assumption; try lra.
  - intros k Hk. destruct k as [|k]; cbn [ev19]; [rewrite Rabs_right; lra|]. rewrite ln_1, Rabs_R0. lra.
  - rewrite I2. lra.
Qed.
Example C80_nonvac_singular : log_mat (fun _ f => f) Rminus 1 (mkmat 1 1 (fun _ _ => 0)) = NonFinite.
Proof.
  apply (C80_singular (fun _ f => f) Rminus 0 1 (mkmat 1 1 (fun _ _ => 0)) eq_refl eq_refl).
  - intros NS. specialize (NS (fun _ => 1)). cbn [mel] in NS. assert (C : (1 : R) = f0) by (apply (NS ltac:(intros r Hr; apply S_zero; intros; cbn [fmul ROps]; ring) 0%nat ltac:(lia))). cbn [f0 ROps] in C. lra.
  - exists 0%nat. split; [lia|]. cbn [sum mel]. unfold delta. cbn [Nat.eqb f0 f1 fadd ROps]. replace (0 - 1) with (-1) by ring. rewrite Rabs_left by lra. lra.
Qed.
