(** * Lemmas about the exponential of a matrix *)
From Coq Require Import Reals Arith Lia Lra.
From Verif Require Import Alg Inst RSum SpecMat SpecExp LemEig.
Local Open Scope R_scope.

(** ** finite sums *)
Lemma S_abs n f : Rabs (Sum n f) <= Sum n (fun i => Rabs (f i)).
Proof. induction n as [|n I]; cbn [sum]; cbn [fadd f0 ROps]; [rewrite Rabs_R0; lra|]. eapply Rle_trans; [apply Rabs_triang|]. lra. Qed.
Lemma S_le n f g : (forall i, (i < n)%nat -> f i <= g i) -> Sum n f <= Sum n g.
Proof. induction n as [|n I]; intros H; cbn [sum]; cbn [fadd f0 ROps]; [lra|]. pose proof (H n ltac:(lia)). assert (Sum n f <= Sum n g) by (apply I; intros; apply H; lia). lra. Qed.
Lemma S_S n f : Sum (S n) f = Sum n f + f n. Proof. reflexivity. Qed.
Lemma S_opp n f : Sum n (fun i => - f i) = - Sum n f.
Proof. rewrite <- (S_ext n (fun i => -1 * f i)) by (intros; ring). rewrite S_mul_l. ring. Qed.
Lemma sum_f_S f N : sum_f_R0 f N = Sum (S N) f.
Proof. induction N as [|N I]; cbn [sum_f_R0]; [rewrite S_S; cbn; ring|]. rewrite I, (S_S (S N)). reflexivity. Qed.
Lemma S_triangle N g : Sum N (fun k => Sum (k + 1) (fun p => g p (k - p)%nat)) = Sum N (fun p => Sum (N - p) (fun q => g p q)).
Proof.
  induction N as [|N I]; [reflexivity|]. rewrite S_S, I, S_S. replace (S N - N)%nat with 1%nat by lia.
  replace (N + 1)%nat with (S N) by lia. rewrite S_S. rewrite (S_ext N (fun p => Sum (S N - p) (fun q => g p q)) (fun p => Sum (N - p) (fun q => g p q) + g p (N - p)%nat)).
  - rewrite S_add. replace (N - N)%nat with 0%nat by lia. rewrite (S_S 0). cbn [sum]. cbn [fadd f0 ROps]. ring.
  - intros p Hp. replace (S N - p)%nat with (S (N - p)) by lia. reflexivity.
Qed.
(** ** products and powers *)
Lemma mm_ext n A B C D i j : (forall k, (k < n)%nat -> A i k = C i k) -> (forall k, (k < n)%nat -> B k j = D k j) -> mm n A B i j = mm n C D i j.
Proof. intros H1 H2. apply S_ext. intros k Hk. rewrite H1, H2 by exact Hk. reflexivity. Qed.
Lemma mm_assoc n A B C i j : mm n (mm n A B) C i j = mm n A (mm n B C) i j.
Proof.
  unfold mm. transitivity (Sum n (fun k => Sum n (fun l => A i l * B l k * C k j))).
  - apply S_ext. intros k Hk. rewrite <- S_mul_r. reflexivity.
  - rewrite S_swap. apply S_ext. intros l Hl. rewrite <- S_mul_l. apply S_ext; intros; ring.
Qed.
Lemma mm_delta_l n A i j : (i < n)%nat -> mm n delta A i j = A i j.
Proof. intros H. unfold mm. exact (delta_l n i (fun k => A k j) H). Qed.
Lemma mm_delta_r n A i j : (j < n)%nat -> mm n A delta i j = A i j.
Proof. intros H. unfold mm. exact (delta_r n j (fun k => A i k) H). Qed.
Lemma mpow_add n A p q : forall i j, (i < n)%nat -> mpow n A (p + q) i j = mm n (mpow n A p) (mpow n A q) i j.
Proof.
  induction p as [|p I]; intros i j Hi; cbn [Nat.add mpow].
  - rewrite mm_delta_l by exact Hi. reflexivity.
  - rewrite mm_assoc. apply mm_ext; [reflexivity|]. intros k Hk. apply I. exact Hk.
Qed.
Lemma mpow_scale n A c k : forall i j, mpow n (fun i j => c * A i j) k i j = c ^ k * mpow n A k i j.
Proof.
  induction k as [|k I]; intros i j; cbn [mpow pow]; [ring|]. unfold mm. rewrite <- S_mul_l. apply S_ext. intros l Hl. rewrite I. ring.
Qed.
Lemma mpow_ext n A B k : (forall i j, (i < n)%nat -> (j < n)%nat -> A i j = B i j) -> forall i j, (i < n)%nat -> mpow n A k i j = mpow n B k i j.
Proof. intros H. induction k as [|k I]; intros i j Hi; cbn [mpow]; [reflexivity|]. apply mm_ext; [intros; apply H; assumption|intros; apply I; assumption]. Qed.
(** ** norms *)
Lemma norm_mm n A B a b : 0 <= b -> norm_le n A a -> norm_le n B b -> norm_le n (mm n A B) (a * b).
Proof.
  intros Pb HA HB i Hi. eapply Rle_trans.
  - apply S_le. intros j Hj. apply S_abs.
  - rewrite S_swap. eapply Rle_trans.
    + apply (S_le n _ (fun k => Rabs (A i k) * b)). intros k Hk. rewrite (S_ext n _ (fun j => Rabs (A i k) * Rabs (B k j))) by (intros; apply Rabs_mult). rewrite S_mul_l. apply Rmult_le_compat_l; [apply Rabs_pos|apply HB; exact Hk].
    + rewrite S_mul_r. apply Rmult_le_compat_r; [exact Pb|apply HA; exact Hi].
Qed.
Lemma norm_delta n : norm_le n delta 1.
Proof.
  intros i Hi. rewrite (S_ext n _ (fun j => delta i j * 1)); [rewrite (delta_l n i (fun _ => 1) Hi); lra|]. intros j Hj. unfold delta. destruct (i =? j)%nat; cbn [f0 f1 ROps]; [rewrite Rabs_R1|rewrite Rabs_R0]; ring.
Qed.
Lemma norm_mpow n A a k : 0 <= a -> norm_le n A a -> norm_le n (mpow n A k) (a ^ k).
Proof. intros Pa HA. induction k as [|k I]; cbn [mpow pow]; [apply norm_delta|]. apply norm_mm; [apply pow_le; exact Pa|exact HA|exact I]. Qed.
Lemma norm_entry n A a i j : (i < n)%nat -> (j < n)%nat -> norm_le n A a -> Rabs (A i j) <= a.
Proof.
  intros Hi Hj H. eapply Rle_trans; [|apply (H i Hi)]. pose proof (delta_l n j (fun k => Rabs (A i k)) Hj) as D. rewrite <- D. apply S_le. intros k Hk. unfold delta. pose proof (Rabs_pos (A i k)). destruct (j =? k)%nat; cbn [f0 f1 ROps]; lra.
Qed.
Lemma norm_mono n A a b : a <= b -> norm_le n A a -> norm_le n A b.
Proof. intros H HA i Hi. pose proof (HA i Hi). lra. Qed.
Lemma norm_add n A B a b : norm_le n A a -> norm_le n B b -> norm_le n (fun i j => A i j + B i j) (a + b).
Proof. intros HA HB i Hi. eapply Rle_trans; [apply S_le; intros j Hj; apply Rabs_triang|]. rewrite S_add. pose proof (HA i Hi). pose proof (HB i Hi). lra. Qed.
Lemma norm_scale n A a c : norm_le n A a -> norm_le n (fun i j => c * A i j) (Rabs c * a).
Proof. intros HA i Hi. rewrite (S_ext n _ (fun j => Rabs c * Rabs (A i j))) by (intros; apply Rabs_mult). rewrite S_mul_l. apply Rmult_le_compat_l; [apply Rabs_pos|apply HA; exact Hi]. Qed.
Lemma norm_ext n A B a : (forall i j, (i < n)%nat -> (j < n)%nat -> A i j = B i j) -> norm_le n A a -> norm_le n B a.
Proof. intros E H i Hi. rewrite <- (S_ext n (fun j => Rabs (A i j))); [apply H; exact Hi|]. intros j Hj. rewrite E by assumption. reflexivity. Qed.
Lemma norm_sum n N (T : nat -> rmat) t : (forall k, (k < N)%nat -> norm_le n (T k) (t k)) -> norm_le n (fun i j => Sum N (fun k => T k i j)) (Sum N t).
Proof.
  induction N as [|N I]; intros H.
  - intros i Hi. rewrite S_zero; [cbn; lra|]. intros j Hj. cbn. apply Rabs_R0.
  - apply (norm_add n (fun i j => Sum N (fun k => T k i j)) (T N)); [apply I; intros; apply H; lia|apply H; lia].
Qed.
(** ** limits *)
Lemma cv_const c : Un_cv (fun _ => c) c.
Proof. intros e He. exists 0%nat. intros n _. unfold R_dist. rewrite Rminus_diag_eq by reflexivity. rewrite Rabs_R0. exact He. Qed.
Lemma cv_ext u v l : (forall n, u n = v n) -> Un_cv u l -> Un_cv v l.
Proof. intros E H e He. destruct (H e He) as [N HN]. exists N. intros n Hn. rewrite <- E. apply HN. exact Hn. Qed.
Lemma cv_sum n (u : nat -> nat -> R) l : (forall k, (k < n)%nat -> Un_cv (u k) (l k)) -> Un_cv (fun N => Sum n (fun k => u k N)) (Sum n l).
Proof.
  induction n as [|n I]; intros H; [exact (cv_const 0)|]. apply (CV_plus (fun N => Sum n (fun k => u k N)) (u n)); [apply I; intros; apply H; lia|apply H; lia].
Qed.
Lemma cv_le u l b : Un_cv u l -> (forall n, u n <= b) -> l <= b.
Proof. intros H B. apply Rnot_lt_le. intros C. destruct (H (l - b) ltac:(lra)) as [N HN]. specialize (HN N (le_n N)). unfold R_dist in HN. specialize (B N). apply Rabs_def2 in HN. lra. Qed.
Lemma cv_shift u l p : Un_cv u l -> Un_cv (fun N => u (N + p)%nat) l.
Proof. intros H e He. destruct (H e He) as [N HN]. exists N. intros n Hn. apply HN. lia. Qed.
Lemma cv_unshift u l p : Un_cv (fun N => u (N + p)%nat) l -> Un_cv u l.
Proof. intros H e He. destruct (H e He) as [N HN]. exists (N + p)%nat. intros n Hn. replace n with (n - p + p)%nat by lia. apply HN. lia. Qed.
Lemma cv_abs u l : Un_cv u l -> Un_cv (fun N => Rabs (u N)) (Rabs l).
Proof. apply cv_cvabs. Qed.
Lemma cv_squeeze0 u v : (forall n, Rabs (u n) <= v n) -> Un_cv v 0 -> Un_cv u 0.
Proof. intros B H e He. destruct (H e He) as [N HN]. exists N. intros n Hn. specialize (HN n Hn). specialize (B n). unfold R_dist in *. rewrite Rminus_0_r in *. pose proof (Rle_abs (v n)). lra. Qed.
(** ** partial sums *)
Definition psum (n : nat) (A : rmat) (N : nat) : rmat := fun i j => Sum N (fun k => mpow n A k i j / INR (fact k)).
Definition spsum (a : R) (N : nat) : R := Sum N (fun k => a ^ k / INR (fact k)).
Lemma is_exp_iff n A E : is_exp n A E <-> forall i j, (i < n)%nat -> (j < n)%nat -> Un_cv (fun N => psum n A N i j) (E i j).
Proof.
  unfold is_exp, infinite_sum. split; intros H i j Hi Hj.
  - apply (cv_unshift _ _ 1). intros e He. destruct (H i j Hi Hj e He) as [N HN]. exists N. intros k Hk. specialize (HN k Hk). rewrite sum_f_S in HN. unfold psum. replace (k + 1)%nat with (S k) by lia. exact HN.
  - intros e He. destruct (H i j Hi Hj e He) as [N HN]. exists N. intros k Hk. rewrite sum_f_S. apply (HN (S k)). lia.
Qed.
Lemma fact_pos k : 0 < INR (fact k). Proof. apply INR_fact_lt_0. Qed.
Lemma spsum_cv a : Un_cv (spsum a) (exp a).
Proof.
  apply (cv_unshift _ _ 1). unfold exp. destruct (exist_exp a) as [l H]. cbn [proj1_sig]. unfold exp_in, infinite_sum in H. intros e He. destruct (H e He) as [N HN]. exists N. intros k Hk. specialize (HN k Hk). rewrite sum_f_S in HN. unfold spsum. replace (k + 1)%nat with (S k) by lia.
  rewrite (S_ext (S k) _ (fun i => / INR (fact i) * a ^ i)); [exact HN|]. intros i Hi. unfold Rdiv. ring.
Qed.
Lemma spsum_mono a N M : 0 <= a -> (N <= M)%nat -> spsum a N <= spsum a M.
Proof.
  intros Pa H. unfold spsum. replace M with (N + (M - N))%nat by lia. rewrite S_split. assert (0 <= Sum (M - N) (fun i => a ^ (N + i) / INR (fact (N + i)))); [|lra].
  apply S_nonneg. intros i Hi. apply Rmult_le_pos; [apply pow_le; exact Pa|]. left. apply Rinv_0_lt_compat. apply fact_pos.
Qed.
Lemma spsum_le a N : 0 <= a -> spsum a N <= exp a.
Proof.
  intros Pa. apply Rnot_lt_le. intros C. destruct (spsum_cv a (spsum a N - exp a) ltac:(lra)) as [M HM]. specialize (HM (N + M)%nat ltac:(lia)). unfold R_dist in HM. pose proof (spsum_mono a N (N + M) Pa ltac:(lia)). rewrite Rabs_right in HM; lra.
Qed.
Lemma norm_psum n A a N : 0 <= a -> norm_le n A a -> norm_le n (psum n A N) (spsum a N).
Proof.
  intros Pa HA. apply (norm_sum n N (fun k i j => mpow n A k i j / INR (fact k)) (fun k => a ^ k / INR (fact k))). intros k Hk. pose proof (fact_pos k) as P.
  apply (norm_ext n (fun i j => / INR (fact k) * mpow n A k i j)); [intros; unfold Rdiv; ring|]. replace (a ^ k / INR (fact k)) with (Rabs (/ INR (fact k)) * a ^ k).
  - apply norm_scale. apply norm_mpow; assumption.
  - rewrite Rabs_right; [unfold Rdiv; ring|]. left. apply Rinv_0_lt_compat. exact P.
Qed.
(** existence and uniqueness *)
Lemma some_norm n A : exists a, 0 <= a /\ norm_le n A a.
Proof.
  assert (G : forall m, exists a, 0 <= a /\ forall i, (i < m)%nat -> Sum n (fun j => Rabs (A i j)) <= a).
  { induction m as [|m (a & Pa & Ha)]; [exists 0; split; [lra|intros; lia]|]. exists (a + Sum n (fun j => Rabs (A m j))). assert (P : 0 <= Sum n (fun j => Rabs (A m j))) by (apply S_nonneg; intros; apply Rabs_pos). split; [lra|].
    intros i Hi. destruct (Nat.eq_dec i m) as [->|N]; [lra|]. pose proof (Ha i ltac:(lia)). lra. }
  exact (G n).
Qed.
Lemma exp_exists n A : exists E, is_exp n A E.
Proof.
  destruct (some_norm n A) as (a & Pa & Ha).
  assert (C : forall i j, { l | (i < n)%nat -> (j < n)%nat -> Un_cv (fun N => psum n A N i j) l }).
  { intros i j. destruct (lt_dec i n) as [Hi|Hi]; [|exists 0; intros; contradiction]. destruct (lt_dec j n) as [Hj|Hj]; [|exists 0; intros; contradiction].
    destruct (R_complete (fun N => psum n A N i j)) as [l Hl]; [|exists l; intros; exact Hl].
    assert (Cs : Cauchy_crit (spsum a)) by (apply CV_Cauchy; exists (exp a); apply spsum_cv).
    intros e He. destruct (Cs e He) as [N HN]. exists N.
    assert (G : forall p q, (p >= N)%nat -> (q >= p)%nat -> R_dist (psum n A q i j) (psum n A p i j) < e).
    { intros p q Hp Hq. eapply Rle_lt_trans; [|apply (HN q p); lia]. unfold R_dist. rewrite (Rabs_right (spsum a q - spsum a p)) by (pose proof (spsum_mono a p q Pa Hq); lra).
      unfold psum, spsum. replace q with (p + (q - p))%nat by lia. rewrite !S_split.
      match goal with |- Rabs (?x + ?y - ?x) <= ?z + ?w - ?z => replace (x + y - x) with y by ring; replace (z + w - z) with w by ring end.
      eapply Rle_trans; [apply S_abs|]. apply S_le. intros k Hk. unfold Rdiv. rewrite Rabs_mult. pose proof (Rinv_0_lt_compat _ (fact_pos (p + k))) as P. rewrite (Rabs_right (/ INR (fact (p + k)))) by lra. apply Rmult_le_compat_r; [lra|].
      apply (norm_entry n); [exact Hi|exact Hj|]. apply norm_mpow; assumption. }
    intros p q Hp Hq. destruct (Nat.le_ge_cases p q) as [L|L]; [rewrite R_dist_sym; apply G; assumption|apply G; assumption]. }
  exists (fun i j => proj1_sig (C i j)). apply is_exp_iff. intros i j Hi Hj. destruct (C i j) as [l Hl]. cbn [proj1_sig]. apply Hl; assumption.
Qed.
Lemma exp_unique n A E F : is_exp n A E -> is_exp n A F -> forall i j, (i < n)%nat -> (j < n)%nat -> E i j = F i j.
Proof. intros HE HF i j Hi Hj. apply is_exp_iff with (i := i) (j := j) in HE; try assumption. apply is_exp_iff with (i := i) (j := j) in HF; try assumption. eapply UL_sequence; eassumption. Qed.
Lemma is_exp_ext n A B E F : (forall i j, (i < n)%nat -> (j < n)%nat -> A i j = B i j) -> (forall i j, (i < n)%nat -> (j < n)%nat -> E i j = F i j) -> is_exp n A E -> is_exp n B F.
Proof.
  intros H1 H2 H. apply is_exp_iff. intros i j Hi Hj. rewrite <- H2 by assumption. apply (cv_ext (fun N => psum n A N i j)).
  - intros N. apply S_ext. intros k Hk. rewrite (mpow_ext n A B k H1) by exact Hi. reflexivity.
  - apply is_exp_iff; assumption.
Qed.
Lemma norm_exp n A E a : 0 <= a -> norm_le n A a -> is_exp n A E -> norm_le n E (exp a).
Proof.
  intros Pa HA HE i Hi. apply (cv_le (fun N => Sum n (fun j => Rabs (psum n A N i j)))).
  - apply (cv_sum n (fun j N => Rabs (psum n A N i j))). intros j Hj. apply cv_abs. apply is_exp_iff; assumption.
  - intros N. eapply Rle_trans; [apply (norm_psum n A a N Pa HA i Hi)|apply spsum_le; exact Pa].
Qed.
(** ** doubling *)
Definition pairs (g : nat -> nat -> R) (N : nat) : R := Sum N (fun p => Sum N (fun q => g p q)).
Definition lower (g : nat -> nat -> R) (N : nat) : R := Sum N (fun p => Sum (N - p) (fun q => g p q)).
Lemma pairs_lower g G N : (forall p q, Rabs (g p q) <= G p q) -> Rabs (pairs g N - lower g N) <= pairs G N - lower G N.
Proof.
  intros H. unfold pairs, lower. rewrite <- !S_sub. eapply Rle_trans; [apply S_abs|]. apply S_le. intros p Hp.
  assert (K : forall h, Sum N h - Sum (N - p) h = Sum p (fun q => h (N - p + q)%nat)).
  { intros h. pose proof (S_split (N - p) p h) as Sp. replace (N - p + p)%nat with N in Sp by lia. rewrite Sp. ring. }
  rewrite !K. eapply Rle_trans; [apply S_abs|]. apply S_le. intros q Hq. apply H.
Qed.
Definition term (n : nat) (A : rmat) (i j p q : nat) : R := mpow n A (p + q) i j / (INR (fact p) * INR (fact q)).
Definition sterm (a : R) (p q : nat) : R := a ^ (p + q) / (INR (fact p) * INR (fact q)).
Lemma psum_square n A N i j : (i < n)%nat -> mm n (psum n A N) (psum n A N) i j = pairs (term n A i j) N.
Proof.
  intros Hi. unfold mm, psum, pairs. transitivity (Sum n (fun k => Sum N (fun p => Sum N (fun q => mpow n A p i k * mpow n A q k j / (INR (fact p) * INR (fact q)))))).
  - apply S_ext. intros k Hk. rewrite <- S_mul_r. apply S_ext. intros p Hp. rewrite <- S_mul_l. apply S_ext. intros q Hq. pose proof (fact_pos p). pose proof (fact_pos q). field. lra.
  - rewrite S_swap. apply S_ext. intros p Hp. rewrite S_swap. apply S_ext. intros q Hq. unfold term. rewrite mpow_add by exact Hi. unfold mm, Rdiv. rewrite <- S_mul_r. reflexivity.
Qed.
Lemma spsum_square a N : spsum a N * spsum a N = pairs (sterm a) N.
Proof.
  unfold spsum, pairs. rewrite <- S_mul_r. apply S_ext. intros p Hp. rewrite <- S_mul_l. apply S_ext. intros q Hq. unfold sterm. rewrite pow_add. pose proof (fact_pos p). pose proof (fact_pos q). field. lra.
Qed.
Lemma binomial_row k : Sum (k + 1) (fun p => / (INR (fact p) * INR (fact (k - p)))) = 2 ^ k / INR (fact k).
Proof.
  pose proof (binomial 1 1 k) as B. rewrite sum_f_S in B. replace (1 + 1) with 2 in B by ring. rewrite B. replace (k + 1)%nat with (S k) by lia. unfold Rdiv. rewrite <- S_mul_r. apply S_ext. intros p Hp. unfold C. rewrite !pow1. pose proof (fact_pos p). pose proof (fact_pos (k - p)). pose proof (fact_pos k). field. lra.
Qed.
Lemma psum_double n A N i j : psum n (fun i j => 2 * A i j) N i j = lower (term n A i j) N.
Proof.
  unfold lower. rewrite <- S_triangle. apply S_ext. intros k Hk. rewrite mpow_scale. unfold term.
  transitivity (mpow n A k i j * (2 ^ k / INR (fact k))); [unfold Rdiv; ring|]. rewrite <- binomial_row, <- S_mul_l. apply S_ext. intros p Hp. replace (p + (k - p))%nat with k by lia. reflexivity.
Qed.
Lemma spsum_double a N : spsum (2 * a) N = lower (sterm a) N.
Proof.
  unfold lower. rewrite <- S_triangle. apply S_ext. intros k Hk. rewrite Rpow_mult_distr. unfold sterm.
  transitivity (a ^ k * (2 ^ k / INR (fact k))); [unfold Rdiv; ring|]. rewrite <- binomial_row, <- S_mul_l. apply S_ext. intros p Hp. replace (p + (k - p))%nat with k by lia. reflexivity.
Qed.
Lemma exp_double n A E : is_exp n A E -> is_exp n (fun i j => 2 * A i j) (mm n E E).
Proof.
  intros H. destruct (some_norm n A) as (a & Pa & Ha). apply is_exp_iff. intros i j Hi Hj.
  assert (Sq : Un_cv (fun N => mm n (psum n A N) (psum n A N) i j) (mm n E E i j)).
  { unfold mm. apply (cv_sum n (fun k N => psum n A N i k * psum n A N k j)). intros k Hk. apply (CV_mult (fun N => psum n A N i k) (fun N => psum n A N k j)); apply is_exp_iff; assumption. }
  assert (D : Un_cv (fun N => mm n (psum n A N) (psum n A N) i j - psum n (fun i j => 2 * A i j) N i j) 0).
  { apply (cv_squeeze0 _ (fun N => spsum a N * spsum a N - spsum (2 * a) N)).
    - intros N. rewrite psum_square by exact Hi. rewrite psum_double, spsum_square, spsum_double. apply pairs_lower. intros p q. unfold term, sterm, Rdiv. rewrite Rabs_mult.
      assert (P : 0 < / (INR (fact p) * INR (fact q))) by (apply Rinv_0_lt_compat; apply Rmult_lt_0_compat; apply fact_pos). rewrite (Rabs_right (/ (INR (fact p) * INR (fact q)))) by lra. apply Rmult_le_compat_r; [lra|]. apply (norm_entry n); [exact Hi|exact Hj|]. apply norm_mpow; assumption.
    - replace 0 with (exp a * exp a - exp (2 * a)) by (rewrite <- exp_plus; replace (a + a) with (2 * a) by ring; ring). apply (CV_minus (fun N => spsum a N * spsum a N) (spsum (2 * a))); [apply (CV_mult (spsum a) (spsum a)); apply spsum_cv|apply spsum_cv]. }
  apply (cv_ext (fun N => mm n (psum n A N) (psum n A N) i j - (mm n (psum n A N) (psum n A N) i j - psum n (fun i j => 2 * A i j) N i j))); [intros; ring|].
  replace (mm n E E i j) with (mm n E E i j - 0) by ring. apply (CV_minus (fun N => mm n (psum n A N) (psum n A N) i j)); assumption.
Qed.
(** ** the tail of the series *)
Lemma fact_le N l : INR (fact N) * INR (fact l) <= INR (fact (N + l)).
Proof.
  rewrite <- mult_INR. apply le_INR. induction N as [|N I]; [change (fact 0) with 1%nat; change (0 + l)%nat with l; lia|]. change (fact (S N)) with (S N * fact N)%nat. change (fact (S N + l)) with (S (N + l) * fact (N + l))%nat. rewrite <- Nat.mul_assoc. apply Nat.mul_le_mono; [lia|exact I].
Qed.
Lemma tail_bound n A E N phi : norm_le n A 1 -> is_exp n A E -> 0 <= phi -> norm_le n (fun i j => mpow n A N i j / INR (fact N)) phi -> norm_le n (fun i j => E i j - psum n A N i j) (phi * exp 1).
Proof.
  intros HA HE Pp Hp i Hi.
  apply (cv_le (fun M => Sum n (fun j => Rabs (psum n A (M + N) i j - psum n A N i j)))).
  - apply (cv_sum n (fun j M => Rabs (psum n A (M + N) i j - psum n A N i j))). intros j Hj. apply cv_abs. apply (CV_minus (fun M => psum n A (M + N) i j) (fun _ => psum n A N i j)); [|apply cv_const]. apply (cv_shift (fun M => psum n A M i j)). apply is_exp_iff; assumption.
  - intros M. assert (G : norm_le n (fun i j => Sum M (fun l => mm n (fun i j => (INR (fact N) / INR (fact (N + l))) * mpow n A l i j) (fun i j => mpow n A N i j / INR (fact N)) i j)) (Sum M (fun l => 1 ^ l / INR (fact l) * phi))).
    { apply norm_sum. intros l Hl. apply norm_mm; [exact Pp| |exact Hp]. pose proof (fact_pos N). pose proof (fact_pos l). pose proof (fact_pos (N + l)). pose proof (fact_le N l).
      eapply norm_mono; [|apply norm_scale; apply (norm_mpow n A 1 l); [lra|exact HA]]. rewrite pow1, Rmult_1_r. rewrite Rabs_right by (apply Rle_ge; left; apply Rdiv_lt_0_compat; assumption).
      apply Rmult_le_reg_r with (INR (fact (N + l))); [assumption|]. apply Rmult_le_reg_r with (INR (fact l)); [assumption|]. replace (INR (fact N) / INR (fact (N + l)) * INR (fact (N + l)) * INR (fact l)) with (INR (fact N) * INR (fact l)) by (field; lra). replace (1 / INR (fact l) * INR (fact (N + l)) * INR (fact l)) with (INR (fact (N + l))) by (field; lra). assumption. }
    eapply Rle_trans; [|eapply Rle_trans; [apply (G i Hi)|]].
    + right. apply S_ext. intros j Hj. f_equal. unfold psum. replace (M + N)%nat with (N + M)%nat by lia. rewrite S_split.
      match goal with |- ?x + ?y - ?x = _ => replace (x + y - x) with y by ring end. apply S_ext. intros l Hl. pose proof (fact_pos N). pose proof (fact_pos (N + l)).
      replace (N + l)%nat with (l + N)%nat at 1 by lia. rewrite mpow_add by exact Hi. unfold mm, Rdiv. rewrite <- S_mul_r. apply S_ext. intros k Hk. field. split; lra.
    + rewrite S_mul_r. rewrite Rmult_comm. apply Rmult_le_compat_l; [exact Pp|]. apply (spsum_le 1 M). lra.
Qed.
