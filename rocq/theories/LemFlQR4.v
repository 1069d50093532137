(** * QR.h in floating point: the iterations together. *)
From Coq Require Import Reals Arith Bool Lia Lra Psatz.
From Verif Require Import Base Alg Mat SpecMat LemMat Inst RSum ModelOps LemOps LemHelpers LemChol ModelFl SpecFl LemFl ModelQR LemQR ModelFlQR SpecFlQR LemFlQR LemFlQR2 LemFlQR3.
Open Scope outcome_scope.
Local Open Scope R_scope.

Lemma for_snoc {St} (body : nat -> St -> outcome St) : forall k lo s, for_ lo (lo + S k) body s = (s' <- for_ lo (lo + k) body s ;; body (lo + k)%nat s').
Proof.
  induction k as [|k IH]; intros lo s.
  - rewrite for_step by lia. rewrite (for_empty lo (lo + 0)) by lia. cbn [bind]. rewrite Nat.add_0_r. destruct (body lo s); cbn [bind]; try reflexivity. rewrite for_empty by lia. reflexivity.
  - rewrite for_step by lia. rewrite (for_step lo (lo + S k)) by lia. destruct (body lo s) as [s1| | | | |]; cbn [bind]; try reflexivity.
    replace (lo + S (S k))%nat with (S lo + S k)%nat by lia. rewrite IH. replace (S lo + k)%nat with (lo + S k)%nat by lia. reflexivity.
Qed.
Section R.
Variables (u : R) (rnd : R -> R).
Hypothesis RN : rounding u rnd.
Variables (N C : nat) (s : R).
Hypothesis HN : (N <= C)%nat.
Hypothesis Hs : 0 < s.
Let ep := refl_err u s N.
Hypothesis EP : ep <= 18 / 1000.
Notation th k := (4 * fwd u (k + 2) / (s * s)).
Lemma u_01 : 0 <= u < 1. Proof. destruct RN as [? _]. assumption. Qed.
Lemma th_ep k : (k <= N)%nat -> 18 * th k <= ep.
Proof.
  intros Hk. assert (SP : 0 < s * s) by (apply Rmult_lt_0_compat; exact Hs). unfold ep, refl_err. change ((1 + u) ^ (N + 2) - 1) with (fwd u (N + 2)). apply (Rmult_le_reg_r (s * s)); [exact SP|].
  replace (18 * th k * (s * s)) with (72 * fwd u (k + 2)) by (field; lra). replace (72 * fwd u (N + 2) / (s * s) * (s * s)) with (72 * fwd u (N + 2)) by (field; lra).
  pose proof (fwd_mono u (k + 2) (N + 2) (proj1 u_01) ltac:(lia)). lra.
Qed.
Lemma ep_nn : 0 <= ep.
Proof. assert (SP : 0 < s * s) by (apply Rmult_lt_0_compat; exact Hs). pose proof (th_ep 0 ltac:(lia)) as E. pose proof (fwd_nonneg u (0 + 2) (proj1 u_01)) as F. assert (0 <= th 0) by (unfold Rdiv; apply Rmult_le_pos; [lra|left; apply Rinv_0_lt_compat; exact SP]). lra. Qed.
(** ** one iteration on whole columns *)
Section S.
Variables (n : nat) (m Q : mat R).
Hypothesis Hn : (n < N - 1)%nat.
Let k := (N - n)%nat.
Let x := colx m n.
Hypothesis ST : steep s k x.
Lemma k2 : (2 <= k)%nat. Proof. unfold k. lia. Qed.
Lemma th_k : th k <= 1 / 1000. Proof. pose proof (th_ep k ltac:(unfold k; lia)). lra. Qed.
Definition wf (i : nat) : R := if (i <? n)%nat then 0 else w k x (i - n).
Definition P : nat -> nat -> R := rmat_of wf (hh k x).
Lemma wf_sum f : Sum N (fun i => wf i * f i) = Sum k (fun r => w k x r * f (n + r)%nat).
Proof.
  replace N with (n + k)%nat by (unfold k; lia). rewrite S_split. rewrite (S_zero n).
  - rewrite Rplus_0_l. apply S_ext. intros r Hr. unfold wf. destruct (Nat.ltb_spec (n + r) n); [lia|]. replace (n + r - n)%nat with r by lia. reflexivity.
  - intros i Hi. unfold wf. destruct (Nat.ltb_spec i n); [ring|lia].
Qed.
Lemma hp : 0 < hh k x. Proof. apply (hh_pos k x s k2 ST). Qed.
Lemma P_orth : orthogonal N P.
Proof.
  apply reflect_orth; [pose proof hp; lra|]. rewrite (wf_sum wf). rewrite <- (w_sq k x s k2 ST). apply S_ext. intros r Hr. unfold wf. destruct (Nat.ltb_spec (n + r) n); [lia|]. replace (n + r - n)%nat with r by lia. reflexivity.
Qed.
Lemma P_mv y i : (i < N)%nat -> mv N P y i = if (i <? n)%nat then y i else reflect k (w k x) (hh k x) (fun r => y (n + r)%nat) (i - n).
Proof.
  intros Hi. unfold P. rewrite reflect_mv by exact Hi. unfold reflect. rewrite (wf_sum y). unfold wf at 1. destruct (Nat.ltb_spec i n); [ring|]. replace (n + (i - n))%nat with i by lia. reflexivity.
Qed.
Lemma len_low y : len k (fun r => y (n + r)%nat) <= len N y.
Proof.
  replace N with (n + k)%nat by (unfold k; lia). apply sqrt_le_1_alt. rewrite S_split. pose proof (sq_sum_nn n y). lra.
Qed.
Lemma low_diff y y' : (forall i, (i < n)%nat -> y' i = y i) -> len N (fun i => y' i - mv N P y i) = len k (fun r => y' (n + r)%nat - reflect k (w k x) (hh k x) (fun r => y (n + r)%nat) r).
Proof.
  intros E. replace N with (n + k)%nat at 1 by (unfold k; lia). rewrite len_shift.
  - apply len_ext. intros r Hr. rewrite P_mv by (unfold k in Hr; lia). destruct (Nat.ltb_spec (n + r) n); [lia|]. replace (n + r - n)%nat with r by lia. reflexivity.
  - intros i Hi. rewrite P_mv by lia. destruct (Nat.ltb_spec i n); [|lia]. rewrite E by exact Hi. ring.
Qed.
Lemma upd_col y y' : (forall i, (i < n)%nat -> y' i = y i) -> (forall i, (n <= i < N)%nat -> y' i = upd rnd n k (q_u rnd k x) (q_H rnd k x) y i) ->
  len N (fun i => y' i - mv N P y i) <= ep * len N y.
Proof.
  intros E1 E2. rewrite low_diff by exact E1. eapply Rle_trans; [|apply Rmult_le_compat; [|apply len_nn| |apply (len_low y)]].
  - eapply Rle_trans; [|apply (col_err u rnd RN k x s k2 Hs ST th_k n y)]. apply Req_le. apply len_ext. intros r Hr. rewrite E2 by (unfold k in Hr; lia). reflexivity.
  - pose proof (th_nn u rnd RN k x s k2 Hs ST). lra.
  - apply th_ep. unfold k; lia.
Qed.
Lemma q_col j : len N (fun i => step_q rnd N n m Q i j - mv N P (fun i => mel Q i j) i) <= ep * len N (fun i => mel Q i j).
Proof.
  apply upd_col.
  - intros i Hi. unfold step_q. destruct (Nat.ltb_spec i n); [reflexivity|lia].
  - intros i Hi. unfold step_q. destruct (Nat.ltb_spec i n); [lia|]. reflexivity.
Qed.
Lemma m_col j : (forall c r, (c < n)%nat -> (c < r < N)%nat -> mel m r c = 0) -> len N (fun i => step_m rnd N n m i j - mv N P (fun i => mel m i j) i) <= ep * len N (fun i => mel m i j).
Proof.
  intros Z. destruct (lt_eq_lt_dec j n) as [[Lj|Ej]|Lj].
  - rewrite len_zero; [apply Rmult_le_pos; [apply ep_nn|apply len_nn]|]. intros i Hi. rewrite P_mv by exact Hi. unfold step_m. destruct (Nat.ltb_spec i n); [ring|]. destruct (Nat.ltb_spec j n); [|lia].
    unfold reflect. rewrite (S_zero k). 2:{ intros r Hr. rewrite Z by (unfold k in Hr; lia). ring. } replace (n + (i - n))%nat with i by lia. unfold Rdiv. ring.
  - subst j. rewrite low_diff. 2:{ intros i Hi. unfold step_m. destruct (Nat.ltb_spec i n); [reflexivity|lia]. }
    rewrite (len_ext k _ (fun r => (q_a rnd k x - sg x * len k x) * (if (r =? 0)%nat then 1 else 0))).
    2:{ intros r Hr. change (reflect k (w k x) (hh k x) (fun r0 => mel m (n + r0)%nat n) r) with (reflect k (w k x) (hh k x) x r). rewrite (refl_x k x s k2 ST r Hr). unfold step_m. fold k. fold x. destruct (Nat.ltb_spec (n + r) n); [lia|]. destruct (Nat.ltb_spec n n); [lia|]. rewrite Nat.eqb_refl.
        destruct (Nat.eqb_spec (n + r) n), (Nat.eqb_spec r 0); try lia; ring. }
    rewrite len_scal. assert (E1 : len k (fun r => if (r =? 0)%nat then 1 else 0) = 1).
    { unfold len. assert (E : Sum k (fun i => (if (i =? 0)%nat then 1 else 0) * (if (i =? 0)%nat then 1 else 0)) = 1). { replace k with (S (k - 1)) by (unfold k; lia). rewrite S_first. rewrite (S_zero (k - 1)) by (intros; cbn [Nat.eqb]; ring). cbn [Nat.eqb]. ring. } rewrite E. apply sqrt_1. }
    rewrite E1, Rmult_1_r. eapply Rle_trans; [apply (a_err u rnd RN k x s k2 ST)|]. apply Rmult_le_compat; [apply fwd_nonneg; apply u_01|apply len_nn| |apply (len_low (fun i => mel m i n))].
    pose proof (fwd_th u rnd RN k x s k2 Hs ST (k + 2) ltac:(lia)). pose proof (th_ep k ltac:(unfold k; lia)). pose proof (th_nn u rnd RN k x s k2 Hs ST). lra.
  - apply upd_col.
    + intros i Hi. unfold step_m. destruct (Nat.ltb_spec i n); [reflexivity|lia].
    + intros i Hi. unfold step_m. destruct (Nat.ltb_spec i n); [lia|]. destruct (Nat.ltb_spec j n); [lia|]. destruct (Nat.eqb_spec j n); [lia|]. reflexivity.
Qed.
End S.
Lemma comb n m e l y' y t : (n < N - 1)%nat -> steep s (N - n) (colx m n) -> len N (fun i => y' i - mv N (P n m) y i) <= ep * len N y -> len N (fun i => y i - t i) <= e * l -> len N t = l ->
  len N (fun i => y' i - mv N (P n m) t i) <= ((1 + ep) * (1 + e) - 1) * l.
Proof.
  intros Hn ST A B T. pose proof ep_nn as E0. eapply Rle_trans; [apply (len_tri N y' (mv N (P n m) y))|].
  assert (X : len N (fun i => mv N (P n m) y i - mv N (P n m) t i) = len N (fun i => y i - t i)).
  { rewrite <- (len_mv N (P n m) (fun i => y i - t i)) by (apply P_orth; assumption). apply len_ext. intros i Hi. symmetry. apply mv_sub. }
  rewrite X. pose proof (len_near N y t) as Y. rewrite T in Y. assert (ep * len N y <= ep * (l + e * l)) by (apply Rmult_le_compat_l; lra). lra.
Qed.
Variable A : mat R.
Hypothesis A1 : mrows A = N.
Hypothesis A2 : mcols A = C.
Hypothesis SC : steep_columns rnd s A.
Definition err (n : nat) : R := (1 + ep) ^ n - 1.
Definition finv (n : nat) (m Q : mat R) : Prop := mrows m = N /\ mcols m = C /\ mrows Q = N /\ mcols Q = N /\ (forall c r, (c < n)%nat -> (c < r < N)%nat -> mel m r c = 0) /\
  exists W, orthogonal N W /\ (forall j, (j < C)%nat -> len N (fun i => mel m i j - mv N W (fun i => mel A i j) i) <= err n * len N (fun i => mel A i j)) /\
    (forall j, (j < N)%nat -> len N (fun i => mel Q i j - W i j) <= err n).
Lemma run n : (n <= N - 1)%nat -> exists m Q, for_ 0 n (fl_qr_step rnd) (A, mkmat N N (fun r c => if (r =? c)%nat then 1 else 0)) = Ok (m, Q) /\ finv n m Q.
Proof.
  induction n as [|n IH]; intros Hn.
  - exists A, (mkmat N N (fun r c => if (r =? c)%nat then 1 else 0)). split; [apply for_empty; lia|]. unfold finv. cbn [mrows mcols mel]. split; [exact A1|]. split; [exact A2|]. split; [reflexivity|]. split; [reflexivity|]. split; [intros; lia|].
    exists delta_. split; [apply orth_id|]. assert (E0 : err 0 = 0) by (unfold err; cbn [pow]; ring). rewrite E0. split.
    + intros j Hj. rewrite len_zero; [lra|]. intros i Hi. unfold mv. rewrite (S_delta N i (fun k => mel A k j) Hi). ring.
    + intros j Hj. rewrite len_zero; [lra|]. intros i Hi. unfold delta_. ring.
  - destruct (IH ltac:(lia)) as (m & Q & E & I1 & I2 & I3 & I4 & Z & W & OW & WM & WQ). clear IH.
    assert (ST : steep s (N - n) (colx m n)). { pose proof (SC n m) as X. rewrite A1 in X. apply X; [lia|]. exists Q. rewrite A1. exact E. }
    pose proof (k2 n ltac:(lia)) as K2. pose proof (th_k n ltac:(lia)) as TK.
    destruct (fl_step_ok rnd N C n m Q HN ltac:(lia) I1 I2 I3 I4) as [_ G].
    destruct G as (m' & Q' & ES & J1 & J2 & J3 & J4 & VM & VQ); [apply (H_nz u rnd RN (N - n) (colx m n) s K2 Hs ST TK)|].
    exists m', Q'. split. { change (S n) with (0 + S n)%nat. rewrite for_snoc. cbn [Nat.add]. rewrite E. cbn [bind]. exact ES. }
    unfold finv. split; [exact J1|]. split; [exact J2|]. split; [exact J3|]. split; [exact J4|]. split.
    + intros c r Hc Hr. rewrite VM by lia. unfold step_m. destruct (Nat.ltb_spec r n); [apply Z; lia|]. destruct (Nat.ltb_spec c n); [apply Z; lia|]. destruct (Nat.eqb_spec c n); [|lia]. destruct (Nat.eqb_spec r n); [lia|]. reflexivity.
    + exists (mmul N (P n m) W). pose proof (P_orth n m ltac:(lia) ST) as PO. split; [apply orth_mul; assumption|].
      assert (ER : err (S n) = (1 + ep) * (1 + err n) - 1) by (unfold err; cbn [pow]; ring). rewrite ER. split.
      * intros j Hj. eapply Rle_trans; [|apply (comb n m (err n) (len N (fun i => mel A i j)) (fun i => step_m rnd N n m i j) (fun i => mel m i j) (mv N W (fun i => mel A i j)) ltac:(lia) ST)].
        -- apply Req_le. apply len_ext. intros i Hi. rewrite VM by assumption. f_equal. apply mv_mul.
        -- apply m_col; [lia|exact ST|exact Z].
        -- apply WM; exact Hj.
        -- apply len_mv; exact OW.
      * intros j Hj. rewrite <- (Rmult_1_r ((1 + ep) * (1 + err n) - 1)). eapply Rle_trans; [|apply (comb n m (err n) 1 (fun i => step_q rnd N n m Q i j) (fun i => mel Q i j) (fun i => W i j) ltac:(lia) ST)].
        -- apply Req_le. apply len_ext. intros i Hi. rewrite VQ by assumption. reflexivity.
        -- apply q_col; [lia|exact ST].
        -- rewrite Rmult_1_r. apply WQ; exact Hj.
        -- unfold len. destruct (OW j j Hj Hj) as [_ O2]. rewrite O2, Nat.eqb_refl. apply sqrt_1.
Qed.
End R.
