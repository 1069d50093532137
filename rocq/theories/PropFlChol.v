(** * C86: rounding errors of the Cholesky (LDL^T) decomposition. *)
From Coq Require Import Reals Lra Lia Arith Bool List.
From Verif Require Import Base Alg Inst Mat SpecMat SpecLin SpecForm LemMat LemLin LemForm LemOps LemHelpers ModelOps ModelObjects LemObjects ModelChol LemChol LemCholSolve LemCholMore RSum ModelFl SpecFl LemFl LemFlChol LemFlChol2 LemFlChol3 RRect ExFl PropFl.
Import ListNotations.
Open Scope outcome_scope.
Local Open Scope R_scope.

Section P.
Variables (u : R) (rnd : R -> R).
Hypothesis RN : rounding u rnd.
Let U := u_rng u rnd RN.
Let O := FlOps rnd.
Lemma fl_cholesky n (A : mat R) ch : mrows A = n -> mcols A = n -> @cholesky R O A = Ok ch ->
   (ch_rank ch = n /\ fl_inv rnd n (mel A) n (ch_m ch)) \/ ((ch_rank ch < n)%nat /\ fl_stop rnd n (mel A) (ch_rank ch) (ch_m ch)).
Proof. intros HR HC E. unfold cholesky in E. rewrite same_size_eq in E by lia. cbn [bind] in E. destruct (fl_chol_compute rnd n A HR HC) as (ch' & E' & H). fold O in E'. rewrite E in E'. injection E' as <-. exact H. Qed.
Lemma fl_full n (A : mat R) ch : mrows A = n -> mcols A = n -> @cholesky R O A = Ok ch -> ch_rank ch = n -> fl_inv rnd n (mel A) n (ch_m ch).
Proof. intros HR HC E K. destruct (fl_cholesky n A ch HR HC E) as [[_ H]|[H _]]; [exact H|lia]. Qed.
Lemma fl_LD n (C : mat R) ch : ch_m ch = C -> mrows C = n -> mcols C = n ->
  exists L D, @chol_L R O ch = Ok L /\ @chol_D R O ch = Ok D /\ mrows L = n /\ mcols L = n /\ mrows D = n /\ mcols D = n /\
   (forall i j, (i < n)%nat -> (j < n)%nat -> mel L i j = lw C i j) /\ (forall i j, (i < n)%nat -> (j < n)%nat -> mel D i j = if (i =? j)%nat then mel C i i else 0).
Proof.
  intros <- HR HC. destruct (@chol_L_ok _ O n ch HR HC) as (L & EL & RL & CL & VL). destruct (@chol_D_ok _ O n ch HR HC) as (D & ED & RD & CD & VD). exists L, D.
  refine (conj EL (conj ED (conj RL (conj CL (conj RD (conj CD (conj _ VD))))))). intros i j Hi Hj. rewrite VL by assumption. reflexivity.
Qed.
End P.
Lemma lower_sym_case (a : nat -> nat -> R) i j : lower_sym a i j = a (Nat.max i j) (Nat.min i j).
Proof. unfold lower_sym. destruct (Nat.leb_spec j i); [rewrite Nat.max_l, Nat.min_r by lia|rewrite Nat.max_r, Nat.min_l by lia]; reflexivity. Qed.
Lemma sym_terms u rnd (RN : rounding u rnd) n a (C : mat R) i j : fl_inv rnd n a n C -> (i < n)%nat -> (j < n)%nat ->
  exists g, (forall k, fac u (n + 1) (g k)) /\ lower_sym a i j = Sum n (fun k => lw C i k * mel C k k * lw C j k * g k).
Proof.
  intros I Hi Hj. rewrite lower_sym_case. destruct (factor_terms u rnd RN n a C n (Nat.max i j) (Nat.min i j) (inv_eqs rnd n a n C I) ltac:(lia) ltac:(lia)) as (g & Hg & E). exists g. split.
  - intros k. apply (fac_le u (Nat.min i j + 2)); [apply (u_rng u rnd RN)|lia|apply Hg].
  - rewrite E. apply S_ext. intros k Hk. destruct (Nat.le_ge_cases i j); [rewrite Nat.max_r, Nat.min_l by lia; ring|rewrite Nat.max_l, Nat.min_r by lia; ring].
Qed.
Lemma abs_ldl_lw n (C : mat R) (L D : nat -> nat -> R) i j : (i < n)%nat -> (j < n)%nat ->
  (forall i j, (i < n)%nat -> (j < n)%nat -> L i j = lw C i j) -> (forall i j, (i < n)%nat -> (j < n)%nat -> D i j = if (i =? j)%nat then mel C i i else 0) ->
  abs_ldl n L D i j = Sum n (fun k => Rabs (lw C i k * mel C k k * lw C j k)).
Proof. intros Hi Hj HL HD. apply S_ext. intros k Hk. rewrite !HL, HD by assumption. rewrite Nat.eqb_refl. reflexivity. Qed.

(** the decomposition ends normally on every square matrix *)
Theorem C86_total : forall rnd (A : mat R), mrows A = mcols A -> exists ch, @cholesky R (FlOps rnd) A = Ok ch /\ (ch_rank ch <= mrows A)%nat.
Proof.
  intros rnd A H. unfold cholesky. rewrite same_size_eq by exact H. cbn [bind]. destruct (fl_chol_compute rnd (mrows A) A eq_refl (eq_sym H)) as (ch & E & [[K _]|[K _]]); exists ch; (split; [exact E|lia]).
Qed.
(** rank() < n: a pivot was computed as zero, and backsub divides by it - whatever the rounding does *)
Theorem C86_singular : forall rnd n (A : mat R) ch (v : vec R), mrows A = n -> mcols A = n -> vlen v = n -> @cholesky R (FlOps rnd) A = Ok ch -> (ch_rank ch < n)%nat ->
  @chol_backsub R (FlOps rnd) ch v = NonFinite.
Proof.
  intros rnd n A ch v HR HC HV E K. destruct (fl_cholesky rnd n A ch HR HC E) as [[K' _]|[_ (Rr & Cc & NZ & _ & _ & Z & _)]]; [lia|].
  unfold chol_backsub. rewrite Rr, same_size_eq by lia. cbn [bind]. destruct (wp_ok_inv _ _ (fl_forward rnd n (ch_m ch) v Rr Cc HV)) as (y & -> & Hy & _). cbn [bind].
  rewrite (for_stop (fun z => vlen z = n) 0 n (ch_rank ch)); [reflexivity|lia|exact Hy| |].
  - intros i z Hi Hl. rewrite vget_ok by lia. cbn [bind]. rewrite mget_ok by lia. cbn [bind]. rewrite fl_div_ok by (apply NZ; lia). cbn [bind]. rewrite vset_ok by lia. exact Hl.
  - intros z Hl. rewrite vget_ok by lia. cbn [bind]. rewrite mget_ok by lia. cbn [bind]. rewrite Z. unfold div. cbn [feqb f0 FlOps]. unfold R_eqb. destruct (Req_EM_T 0 0); [reflexivity|contradiction].
Qed.
(** rank() == n: the computed L and D are the exact factors of a matrix that differs from A by at most bwd u (n+1) |L||D||L|^T, elementwise *)
Theorem C86_factors : forall u rnd, rounding u rnd -> forall n (A : mat R) ch, mrows A = n -> mcols A = n -> @cholesky R (FlOps rnd) A = Ok ch -> ch_rank ch = n ->
  exists L D, @chol_L R (FlOps rnd) ch = Ok L /\ @chol_D R (FlOps rnd) ch = Ok D /\ mrows L = n /\ mcols L = n /\ mrows D = n /\ mcols D = n /\
   @unit_lower R ROps n (mel L) /\ @diagonal R ROps n (mel D) /\ (forall i, (i < n)%nat -> mel D i i <> 0) /\
   forall i j, (i < n)%nat -> (j < n)%nat -> Rabs (lower_sym (mel A) i j - Sum n (fun k => mel L i k * mel D k k * mel L j k)) <= bwd u (n + 1) * abs_ldl n (mel L) (mel D) i j.
Proof.
  intros u rnd RN n A ch HR HC E K. pose proof (u_rng u rnd RN) as U. pose proof (fl_full rnd n A ch HR HC E K) as I. pose proof I as (R & C & NZ & _).
  destruct (fl_LD rnd n (ch_m ch) ch eq_refl R C) as (L & D & EL & ED & RL & CL & RD & CD & VL & VD). exists L, D. repeat (split; [assumption|]).
  split. { intros r c Hr Hc H. rewrite VL by assumption. unfold lw. destruct (Nat.ltb_spec c r); [lia|reflexivity]. }
  split. { intros r c Hr Hc H. rewrite VD by assumption. destruct (Nat.eqb_spec r c); [contradiction|reflexivity]. }
  split. { intros i Hi. rewrite VD by assumption. rewrite Nat.eqb_refl. apply NZ. exact Hi. }
  intros i j Hi Hj. rewrite (abs_ldl_lw n (ch_m ch)) by assumption. destruct (sym_terms u rnd RN n (mel A) (ch_m ch) i j I Hi Hj) as (g & Hg & ->).
  rewrite (S_ext n (fun k => mel L i k * mel D k k * mel L j k) (fun k => lw (ch_m ch) i k * mel (ch_m ch) k k * lw (ch_m ch) j k * 1)) by (intros k Hk; rewrite !VL, VD by assumption; rewrite Nat.eqb_refl; ring).
  replace (bwd u (n + 1)) with (bwd u (n + 1) + bwd u 0) by (unfold bwd at 2; cbn; lra).
  apply (fac_sum_err u rnd RN n (fun k => lw (ch_m ch) i k * mel (ch_m ch) k k * lw (ch_m ch) j k) g (fun _ => 1)); intros k Hk; [apply Hg|apply fac_1; exact U].
Qed.
(** backsub(v): the computed x solves (A + E) x = v exactly, for a small E *)
Theorem C86_solution : forall u rnd, rounding u rnd -> forall n (A : mat R) ch (v : vec R), mrows A = n -> mcols A = n -> vlen v = n -> @cholesky R (FlOps rnd) A = Ok ch -> ch_rank ch = n ->
  exists L D x E, @chol_L R (FlOps rnd) ch = Ok L /\ @chol_D R (FlOps rnd) ch = Ok D /\ @chol_backsub R (FlOps rnd) ch v = Ok x /\ vlen x = n /\
   (forall i, (i < n)%nat -> Sum n (fun j => (lower_sym (mel A) i j + E i j) * vat x j) = vat v i) /\
   forall i j, (i < n)%nat -> (j < n)%nat -> Rabs (E i j) <= (bwd u (2 * n) + bwd u (n + 1)) * abs_ldl n (mel L) (mel D) i j.
Proof.
  intros u rnd RN n A ch v HR HC HV EC K. pose proof (u_rng u rnd RN) as U. pose proof (fl_full rnd n A ch HR HC EC K) as I. pose proof I as (R & C & NZ & _).
  destruct (fl_LD rnd n (ch_m ch) ch eq_refl R C) as (L & D & EL & ED & RL & CL & RD & CD & VL & VD).
  destruct (fl_backsub rnd n ch v R C HV NZ) as (x & y & z & EX & HX & Y & Z & X).
  destruct (solve_terms u rnd RN n (ch_m ch) (vat v) (vat x) y z Y ltac:(intros i Hi; rewrite (Z i Hi); apply div_term; [exact RN|apply NZ; exact Hi]) X) as (g & Hg & G).
  exists L, D, x, (fun i j => Sum n (fun k => lw (ch_m ch) i k * mel (ch_m ch) k k * lw (ch_m ch) j k * g i j k) - lower_sym (mel A) i j).
  repeat (split; [assumption|]). split.
  - intros i Hi. rewrite (G i Hi). apply S_ext. intros j Hj. ring.
  - intros i j Hi Hj. rewrite (abs_ldl_lw n (ch_m ch)) by assumption. destruct (sym_terms u rnd RN n (mel A) (ch_m ch) i j I Hi Hj) as (h & Hh & ->).
    apply (fac_sum_err u rnd RN n (fun k => lw (ch_m ch) i k * mel (ch_m ch) k k * lw (ch_m ch) j k) (g i j) h); intros k Hk; [apply Hg; assumption|apply Hh].
Qed.
(** positive pivots: |L||D||L|^T is no larger than the diagonal of A allows *)
Theorem C86_positive_pivots : forall u rnd, rounding u rnd -> forall n (A : mat R) ch L D, mrows A = n -> mcols A = n -> @cholesky R (FlOps rnd) A = Ok ch -> ch_rank ch = n ->
  @chol_L R (FlOps rnd) ch = Ok L -> @chol_D R (FlOps rnd) ch = Ok D -> (forall i, (i < n)%nat -> 0 < mel D i i) ->
  forall i j, (i < n)%nat -> (j < n)%nat -> 0 < mel A i i /\ abs_ldl n (mel L) (mel D) i j <= sqrt (mel A i i) * sqrt (mel A j j) / (1 - u) ^ (n + 1).
Proof.
  intros u rnd RN n A ch L D HR HC EC K EL ED HD. pose proof (u_rng u rnd RN) as U. pose proof (fl_full rnd n A ch HR HC EC K) as I. pose proof I as (R & C & NZ & _).
  destruct (fl_LD rnd n (ch_m ch) ch eq_refl R C) as (L' & D' & EL' & ED' & RL & CL & RD & CD & VL & VD). rewrite EL in EL'. injection EL' as <-. rewrite ED in ED'. injection ED' as <-.
  assert (P : forall k, (k < n)%nat -> 0 < mel (ch_m ch) k k). { intros k Hk. pose proof (HD k Hk) as Q. rewrite VD in Q by assumption. rewrite Nat.eqb_refl in Q. exact Q. }
  assert (B : forall i, (i < n)%nat -> 0 < mel A i i /\ Sum n (fun k => lw (ch_m ch) i k * mel (ch_m ch) k k * lw (ch_m ch) i k) <= mel A i i / (1 - u) ^ (n + 1)).
  { intros i Hi. pose proof (diag_bound u rnd RN n (mel A) (ch_m ch) n i (inv_eqs rnd n _ n _ I) Hi (Nat.le_refl n) ltac:(intros k Hk; apply P; lia)) as B.
    pose proof (pow_1mu u (i + 2) U) as [W1 W2].
    assert (Q : 0 < Sum n (fun k => lw (ch_m ch) i k * mel (ch_m ch) k k * lw (ch_m ch) i k)).
    { rewrite (S_ext n _ (fun k => lw (ch_m ch) i k * (mel (ch_m ch) k k * lw (ch_m ch) i k))) by (intros; ring). rewrite lw_sum by exact Hi.
      assert (0 <= Sum i (fun k => mel (ch_m ch) i k * (mel (ch_m ch) k k * lw (ch_m ch) i k))).
      { apply S_nonneg. intros k Hk. unfold lw. destruct (Nat.ltb_spec k i); [|lia]. pose proof (P k ltac:(lia)). nra. }
      unfold lw at 2. rewrite Nat.ltb_irrefl, Nat.eqb_refl. pose proof (P i Hi). lra. }
    assert (PA : 0 < mel A i i).
    { assert (0 < mel A i i / (1 - u) ^ (i + 2)) as Z by lra. replace (mel A i i) with (mel A i i / (1 - u) ^ (i + 2) * (1 - u) ^ (i + 2)) by (field; lra). nra. }
    split; [exact PA|]. eapply Rle_trans; [exact B|]. unfold Rdiv. apply Rmult_le_compat_l; [lra|]. apply Rinv_le_contravar; [apply (pow_1mu u (n + 1) U)|].
    replace (n + 1)%nat with ((i + 2) + (n + 1 - (i + 2)))%nat by lia. rewrite pow_add. pose proof (pow_1mu u (n + 1 - (i + 2)) U). nra. }
  intros i j Hi Hj. split; [apply B; exact Hi|]. rewrite (abs_ldl_lw n (ch_m ch)) by assumption.
  rewrite (S_ext n _ (fun k => Rabs ((lw (ch_m ch) i k * sqrt (mel (ch_m ch) k k)) * (lw (ch_m ch) j k * sqrt (mel (ch_m ch) k k))))).
  2:{ intros k Hk. f_equal. rewrite <- (sqrt_sqrt (mel (ch_m ch) k k)) at 1 by (pose proof (P k Hk); lra). ring. }
  eapply Rle_trans; [apply sqrt_cs|]. destruct (B i Hi) as (Pi & Bi), (B j Hj) as (Pj & Bj). pose proof (pow_1mu u (n + 1) U) as [W1 W2].
  assert (Q : forall r, Sum n (fun k => lw (ch_m ch) r k * sqrt (mel (ch_m ch) k k) * (lw (ch_m ch) r k * sqrt (mel (ch_m ch) k k))) = Sum n (fun k => lw (ch_m ch) r k * mel (ch_m ch) k k * lw (ch_m ch) r k)).
  { intros r. apply S_ext. intros k Hk. rewrite <- (sqrt_sqrt (mel (ch_m ch) k k)) at 3 by (pose proof (P k Hk); lra). ring. }
  rewrite !Q. apply (Rle_trans _ (sqrt (mel A i i / (1 - u) ^ (n + 1)) * sqrt (mel A j j / (1 - u) ^ (n + 1)))).
  - apply Rmult_le_compat; [apply sqrt_pos|apply sqrt_pos|apply sqrt_le_1_alt; exact Bi|apply sqrt_le_1_alt; exact Bj].
  - unfold Rdiv. rewrite !sqrt_mult_alt by lra. set (t := / (1 - u) ^ (n + 1)). assert (0 < t) by (apply Rinv_0_lt_compat; exact W1).
    replace (sqrt (mel A i i) * sqrt t * (sqrt (mel A j j) * sqrt t)) with (sqrt (mel A i i) * sqrt (mel A j j) * (sqrt t * sqrt t)) by ring. rewrite sqrt_sqrt by lra. lra.
Qed.
(** sufficiently positive definite (with room for the rounding errors): the decomposition completes and every element of D is positive *)
Lemma quad_trunc n c (a : nat -> nat -> R) x : (c <= n)%nat -> (forall i, (c <= i)%nat -> x i = 0) -> @quad R ROps n a x = Sum c (fun i => Sum c (fun j => x i * a i j * x j)).
Proof.
  intros Hc H. unfold quad. change (Sum n (fun r => Sum n (fun q => x r * a r q * x q)) = Sum c (fun i => Sum c (fun j => x i * a i j * x j))).
  rewrite (S_trunc n c); [|exact Hc|].
  - apply S_ext. intros i Hi. apply S_trunc; [exact Hc|]. intros k Hk. rewrite (H k) by lia. ring.
  - intros i Hi. apply S_zero. intros j Hj. rewrite (H i) by lia. ring.
Qed.
Theorem C86_succeeds : forall u rnd, rounding u rnd -> forall n (A : mat R), mrows A = n -> mcols A = n ->
  let eps := (INR n + 1) * bwd u (n + 1) * (1 + bwd u (n + 1)) in
  eps < 1 ->
  (forall x, (exists i, (i < n)%nat /\ x i <> 0) -> eps * Sum n (fun i => mel A i i * (x i * x i)) < @quad R ROps n (lower_sym (mel A)) x) ->
  exists ch D, @cholesky R (FlOps rnd) A = Ok ch /\ ch_rank ch = n /\ @chol_D R (FlOps rnd) ch = Ok D /\ forall i, (i < n)%nat -> 0 < mel D i i.
Proof.
  intros u rnd RN n A HR HC eps SM HP. destruct (C86_total rnd A ltac:(lia)) as (ch & EC & _).
  assert (PA : forall i, (i < n)%nat -> 0 < mel A i i).
  { intros i Hi. pose proof (HP (fun j => if (j =? i)%nat then 1 else 0)) as Q. cbn beta in Q. specialize (Q ltac:(exists i; rewrite Nat.eqb_refl; split; [exact Hi|lra])).
    assert (Q1 : Sum n (fun i0 => mel A i0 i0 * ((if (i0 =? i)%nat then 1 else 0) * (if (i0 =? i)%nat then 1 else 0))) = mel A i i).
    { rewrite (S_one n i) by exact Hi. rewrite Nat.eqb_refl. rewrite (S_zero n); [ring|]. intros j Hj. destruct (Nat.eqb_spec j i); [reflexivity|ring]. }
    assert (Q2 : @quad R ROps n (lower_sym (mel A)) (fun j => if (j =? i)%nat then 1 else 0) = mel A i i).
    { unfold quad. change (Sum n (fun r => Sum n (fun c => (if (r =? i)%nat then 1 else 0) * lower_sym (mel A) r c * (if (c =? i)%nat then 1 else 0))) = mel A i i).
      rewrite (S_one n i) by exact Hi. rewrite Nat.eqb_refl. rewrite (S_one n i) by exact Hi. rewrite Nat.eqb_refl. rewrite !(S_zero n).
      - unfold lower_sym. rewrite Nat.leb_refl. ring.
      - intros j Hj. destruct (Nat.eqb_spec j i); [reflexivity|]. apply S_zero. intros k Hk. ring.
      - intros j Hj. destruct (Nat.eqb_spec j i); [reflexivity|ring]. }
    rewrite Q1, Q2 in Q. pose proof (bwd_nonneg u (n + 1) (u_rng u rnd RN)). pose proof (pos_INR n). assert (0 <= eps) by (unfold eps; apply Rmult_le_pos; [apply Rmult_le_pos; lra|lra]).
    destruct (Rle_dec (mel A i i) 0); nra. }
  assert (PV : forall c C, (c < n)%nat -> fl_eqs rnd n (mel A) c C -> (forall k, (k < c)%nat -> 0 < mel C k k) -> 0 < subs rnd (mel A c c) (fun k => mel C k c) (fun k => mel C c k) c).
  { intros c C Hc I PD. apply (pivot_pos u rnd RN n (mel A) C c I Hc PD); [intros i Hi; apply PA; lia|exact SM|]. intros x X1. fold eps.
    set (y := fun i => if (i <? S c)%nat then x i else 0). assert (Y1 : forall i, (i < S c)%nat -> y i = x i) by (intros i Hi; unfold y; destruct (Nat.ltb_spec i (S c)); [reflexivity|lia]).
    assert (Y0 : forall i, (S c <= i)%nat -> y i = 0) by (intros i Hi; unfold y; destruct (Nat.ltb_spec i (S c)); [lia|reflexivity]).
    specialize (HP y ltac:(exists c; rewrite Y1 by lia; rewrite X1; split; [exact Hc|lra])). rewrite (quad_trunc n (S c)) in HP by (lia || exact Y0).
    rewrite (S_trunc n (S c)) in HP; [|lia|intros k Hk; rewrite Y0 by lia; ring].
    rewrite (S_ext (S c) (fun i => mel A i i * (x i * x i)) (fun i => mel A i i * (y i * y i))) by (intros i Hi; rewrite Y1 by exact Hi; reflexivity).
    rewrite (S_ext (S c) (fun i => Sum (S c) (fun j => x i * lower_sym (mel A) i j * x j)) (fun i => Sum (S c) (fun j => y i * lower_sym (mel A) i j * y j))); [exact HP|].
    intros i Hi. apply S_ext. intros j Hj. rewrite !Y1 by assumption. reflexivity. }
  destruct (fl_cholesky rnd n A ch HR HC EC) as [[K I]|[K I]].
  - pose proof I as (R & C & NZ & _). destruct (fl_LD rnd n (ch_m ch) ch eq_refl R C) as (L & D & EL & ED & RL & CL & RD & CD & VL & VD). exists ch, D. repeat (split; [assumption|]).
    intros i Hi. rewrite VD by assumption. rewrite Nat.eqb_refl. revert i Hi. apply inv_eqs in I. induction i as [i IH] using lt_wf_ind. intros Hi.
    rewrite (proj2 (proj2 I) i i Hi ltac:(lia)). apply PV; [exact Hi|apply (eqs_le rnd n (mel A) n); [lia|exact I]|]. intros k Hk. apply IH; lia.
  - exfalso. pose proof I as (_ & _ & _ & _ & _ & Z1 & Z2). apply stop_eqs in I.
    assert (P : forall k, (k < ch_rank ch)%nat -> 0 < mel (ch_m ch) k k).
    { induction k as [k IH] using lt_wf_ind. intros Hk. rewrite (proj2 (proj2 I) k k Hk ltac:(lia)). apply PV; [lia|apply (eqs_le rnd n (mel A) (ch_rank ch)); [lia|exact I]|]. intros j Hj. apply IH; lia. }
    pose proof (PV (ch_rank ch) (ch_m ch) K I P) as Q. rewrite Z2 in Q. lra.
Qed.
(** determinant(): the determinant of the product L D L^T, up to n-1 roundings *)
Theorem C86_determinant : forall u rnd, rounding u rnd -> forall n (A : mat R) ch, mrows A = n -> mcols A = n -> (0 < n)%nat -> @cholesky R (FlOps rnd) A = Ok ch -> ch_rank ch = n ->
  exists L D d, @chol_L R (FlOps rnd) ch = Ok L /\ @chol_D R (FlOps rnd) ch = Ok D /\ @chol_det R (FlOps rnd) ch = Ok d /\
    let e := @det R ROps n (fun i j => Sum n (fun k => mel L i k * mel D k k * mel L j k)) in Rabs (d - e) <= fwd u (n - 1) * Rabs e.
Proof.
  intros u rnd RN n A ch HR HC Hn EC K. pose proof (u_rng u rnd RN) as U. pose proof (fl_full rnd n A ch HR HC EC K) as I. pose proof I as (Rr & Cc & NZ & _).
  destruct (fl_LD rnd n (ch_m ch) ch eq_refl Rr Cc) as (L & D & EL & ED & RL & CL & RD & CD & VL & VD).
  assert (W : wp (@chol_det R (FlOps rnd) ch) (fun d => exists c, near u (n - 1) c /\ d = @prod R ROps n (fun k => mel (ch_m ch) k k) * c)).
  { unfold chol_det. rewrite mget_ok by lia. cbn [bind]. rewrite Rr.
    apply (wp_for (fun k d => exists c, near u (k - 1) c /\ d = @prod R ROps k (fun k => mel (ch_m ch) k k) * c)); [lia| |].
    - exists 1. split; [apply near_1|]. cbn [prod f1 ROps fmul]. ring.
    - intros k d Hk (c & Hc & ->). rewrite mget_ok by lia. cbn [bind wp fmul FlOps]. destruct (rnd_near u rnd RN (@prod R ROps k (fun k => mel (ch_m ch) k k) * c * mel (ch_m ch) k k)) as (e & He & ->).
      exists (c * e). split; [replace (S k - 1)%nat with ((k - 1) + 1)%nat by lia; apply near_mul; assumption|]. cbn [prod fmul ROps]. ring. }
  destruct (wp_ok_inv _ _ W) as (d & Ed & c & Hc & ->). exists L, D. eexists. split; [exact EL|]. split; [exact ED|]. split; [exact Ed|]. cbv zeta.
  rewrite (@det_ldl R ROps RLaws n _ (mel L) (fun k => mel D k k)).
  - assert (EP : forall m, (m <= n)%nat -> @prod R ROps m (fun k => mel D k k) = @prod R ROps m (fun k => mel (ch_m ch) k k)).
    { induction m as [|m IH]; intros Hm; cbn [prod]; [reflexivity|]. rewrite IH by lia. rewrite VD by lia. rewrite Nat.eqb_refl. reflexivity. }
    rewrite (EP n (Nat.le_refl n)). set (q := @prod R ROps n (fun k => mel (ch_m ch) k k)). replace (q * c - q) with (q * (c - 1)) by ring. rewrite Rabs_mult.
    pose proof (near_err u _ c U Hc). pose proof (Rabs_pos q). nra.
  - intros r k Hr Hk H. rewrite VL by assumption. unfold lw. destruct (Nat.ltb_spec k r); [lia|]. reflexivity.
  - intros r k Hr Hk. reflexivity.
Qed.

(** backsub(M), and get_inverse(): the same for every column of the right-hand side *)
Lemma fl_row_sub rnd (val : vec R) (y : mat R) j x : vlen val = mcols y -> (j < mrows y)%nat ->
  exists w, (yj <- row y j ;; t <- @vscale_l R (FlOps rnd) x yj ;; @vsub_assign R (FlOps rnd) val t) = Ok w /\ vlen w = mcols y /\ forall c, (c < mcols y)%nat -> vat w c = rnd (vat val c - rnd (x * mel y j c)).
Proof.
  intros Hl Hj. rewrite row_ok by exact Hj. cbn [bind]. destruct (@vscale_l_ok R (FlOps rnd) (mkvec (mcols y) (fun c => mel y j c)) x) as (t & -> & Ht & Vt). cbn [bind].
  cbn [vlen vat] in Ht, Vt. destruct (@vsub_assign_ok R (FlOps rnd) val t) as (w & -> & Hw & Vw); [lia|]. exists w. split; [reflexivity|]. split; [lia|]. intros c Hc. rewrite Vw, Vt by lia. reflexivity.
Qed.
Lemma fl_backsub_mat rnd n q (ch : chol R) (m : mat R) : mrows (ch_m ch) = n -> mcols (ch_m ch) = n -> mrows m = n -> mcols m = q -> (forall i, (i < n)%nat -> mel (ch_m ch) i i <> 0) ->
  exists x y z, @chol_backsub_mat R (FlOps rnd) ch m = Ok x /\ mrows x = n /\ mcols x = q /\
    (forall i c, (i < n)%nat -> (c < q)%nat -> mel y i c = subs rnd (mel m i c) (fun k => mel (ch_m ch) i k) (fun k => mel y k c) i) /\
    (forall i c, (i < n)%nat -> (c < q)%nat -> mel z i c = rnd (mel y i c * rnd (1 / mel (ch_m ch) i i))) /\
    (forall i c, (i < n)%nat -> (c < q)%nat -> mel x i c = subs rnd (mel z i c) (fun k => mel (ch_m ch) (S i + k) i) (fun k => mel x (S i + k)%nat c) (n - S i)).
Proof.
  intros HR HC HM HQ Hd. unfold chol_backsub_mat. rewrite HR, HQ, same_size_eq by lia. cbn [bind]. set (C := ch_m ch) in *.
  match goal with |- context [bind ?f ?g] => match f with for_ 0 n _ _ => assert (FY : wp f (fun y => mrows y = n /\ mcols y = q /\ forall i c, (i < n)%nat -> (c < q)%nat -> mel y i c = subs rnd (mel m i c) (fun k => mel C i k) (fun k => mel y k c) i)) end end.
  { apply (wp_for (fun k y => mrows y = n /\ mcols y = q /\ forall i c, (i < k)%nat -> (c < q)%nat -> mel y i c = subs rnd (mel m i c) (fun k => mel C i k) (fun k => mel y k c) i)); [lia|split; [reflexivity|]; split; [reflexivity|]; lia|].
    intros i y Hi (Hl & Hlc & Hy). rewrite row_ok by lia. cbn [bind]. apply wp_bind.
    eapply wp_mono; [apply (wp_for (fun k val => vlen val = q /\ forall c, (c < q)%nat -> vat val c = subs rnd (mel m i c) (fun k => mel C i k) (fun k => mel y k c) k))|].
    - lia.
    - cbn [vlen vat subs]. split; [exact HQ|]. reflexivity.
    - intros j val Hj (V1 & V2). rewrite mget_ok by lia. cbn [bind]. destruct (fl_row_sub rnd val y j (mel C i j)) as (w & -> & W1 & W2); [lia|lia|]. cbn [wp]. split; [lia|].
      intros c Hc. rewrite W2 by lia. rewrite V2 by exact Hc. reflexivity.
    - intros val (V1 & V2). destruct (set_row_ok y i val) as (y' & -> & R' & C' & V'); [lia|lia|]. cbn [wp]. split; [lia|]. split; [lia|].
      intros r c Hr Hc. rewrite V' by lia. destruct (Nat.eqb_spec r i) as [->|].
      + rewrite V2 by exact Hc. apply subs_ext; [reflexivity|reflexivity|]. intros k Hk. rewrite V' by lia. destruct (Nat.eqb_spec k i); [lia|reflexivity].
      + rewrite (Hy r c) by lia. apply subs_ext; [reflexivity|reflexivity|]. intros k Hk. rewrite V' by lia. destruct (Nat.eqb_spec k i); [lia|reflexivity]. }
  destruct (wp_ok_inv _ _ FY) as (y & -> & Hl & Hlc & Hy). cbn [bind].
  match goal with |- context [bind ?f ?g] => match f with for_ 0 n _ _ => assert (FZ : wp f (fun z => mrows z = n /\ mcols z = q /\ forall i c, (i < n)%nat -> (c < q)%nat -> mel z i c = rnd (mel y i c * rnd (1 / mel C i i)))) end end.
  { eapply wp_mono; [apply (wp_for (fun k z => mrows z = n /\ mcols z = q /\ (forall i c, (i < k)%nat -> (c < q)%nat -> mel z i c = rnd (mel y i c * rnd (1 / mel C i i))) /\ forall i c, (k <= i)%nat -> (c < q)%nat -> mel z i c = mel y i c)); [lia| |]|].
    - split; [exact Hl|]. split; [exact Hlc|]. split; [lia|reflexivity].
    - intros i z Hi (H1 & H1' & H2 & H3). rewrite mget_ok by lia. cbn [bind]. rewrite fl_div_ok by (apply Hd; lia). cbn [bind]. rewrite row_ok by lia. cbn [bind].
      destruct (@vmul_assign_ok R (FlOps rnd) (mkvec (mcols z) (fun c => mel z i c)) (rnd (@f1 R (FlOps rnd) / mel C i i))) as (v & -> & L' & V'). cbn [vlen vat] in L', V'. cbn [bind].
      destruct (set_row_ok z i v) as (z' & -> & R' & C' & W'); [lia|lia|]. cbn [wp]. split; [lia|]. split; [lia|]. split.
      + intros r c Hr Hc. rewrite W' by lia. destruct (Nat.eqb_spec r i) as [->|]; [|apply H2; lia]. rewrite V' by lia. rewrite H3 by lia. reflexivity.
      + intros r c Hr Hc. rewrite W' by lia. destruct (Nat.eqb_spec r i); [lia|]. apply H3; lia.
    - intros z (Z1 & Z1' & Z2 & _). split; [exact Z1|]. split; [exact Z1'|exact Z2]. }
  destruct (wp_ok_inv _ _ FZ) as (z & -> & Z1 & Z1' & Z2). cbn [bind].
  match goal with |- context [for_down n 0 ?b ?s] => assert (FX : wp (for_down n 0 b s) (fun x => mrows x = n /\ mcols x = q /\ forall i c, (i < n)%nat -> (c < q)%nat -> mel x i c = subs rnd (mel z i c) (fun k => mel C (S i + k) i) (fun k => mel x (S i + k)%nat c) (n - S i))) end.
  { eapply wp_mono; [apply (wp_for_down (fun k x => mrows x = n /\ mcols x = q /\ forall i c, (k <= i < n)%nat -> (c < q)%nat -> mel x i c = subs rnd (mel z i c) (fun k => mel C (S i + k) i) (fun k => mel x (S i + k)%nat c) (n - S i))); [lia|split; [reflexivity|]; split; [reflexivity|]; lia|]|].
    - intros i x Hi (Hl' & Hlc' & Hx). rewrite row_ok by lia. cbn [bind]. apply wp_bind.
      eapply wp_mono; [apply (wp_for (fun k val => vlen val = q /\ forall c, (c < q)%nat -> vat val c = subs rnd (mel z i c) (fun k => mel C (S i + k) i) (fun k => mel x (S i + k)%nat c) (k - S i)))|].
      + lia.
      + cbn [vlen vat]. rewrite Nat.sub_diag. split; [exact Z1'|reflexivity].
      + intros j val Hj (V1 & V2). rewrite mget_ok by lia. cbn [bind]. destruct (fl_row_sub rnd val x j (mel C j i)) as (w & -> & W1 & W2); [lia|lia|]. cbn [wp]. split; [lia|].
        intros c Hc. rewrite W2 by lia. rewrite V2 by exact Hc. replace (S j - S i)%nat with (S (j - S i)) by lia. cbn [subs]. replace (S i + (j - S i))%nat with j by lia. reflexivity.
      + intros val (V1 & V2). destruct (set_row_ok x i val) as (x' & -> & R' & C' & V'); [lia|lia|]. cbn [wp]. split; [lia|]. split; [lia|].
        intros r c Hr Hc. rewrite V' by lia. destruct (Nat.eqb_spec r i) as [->|].
        * rewrite V2 by exact Hc. apply subs_ext; [reflexivity|reflexivity|]. intros k Hk. rewrite V' by lia. destruct (Nat.eqb_spec (S i + k) i); [lia|reflexivity].
        * rewrite (Hx r c) by lia. apply subs_ext; [reflexivity|reflexivity|]. intros k Hk. rewrite V' by lia. destruct (Nat.eqb_spec (S r + k) i); [lia|reflexivity].
    - intros x (X1 & X2 & X3). split; [exact X1|]. split; [exact X2|]. intros i c Hi Hc. apply X3; [lia|exact Hc]. }
  destruct (wp_ok_inv _ _ FX) as (x & -> & X1 & X2 & X3). exists x, y, z. split; [reflexivity|]. split; [exact X1|]. split; [exact X2|]. split; [exact Hy|]. split; [exact Z2|exact X3].
Qed.
Theorem C86_matrix_solution : forall u rnd, rounding u rnd -> forall n q (A : mat R) ch (B : mat R), mrows A = n -> mcols A = n -> mrows B = n -> mcols B = q -> @cholesky R (FlOps rnd) A = Ok ch -> ch_rank ch = n ->
  exists L D X, @chol_L R (FlOps rnd) ch = Ok L /\ @chol_D R (FlOps rnd) ch = Ok D /\ @chol_backsub_mat R (FlOps rnd) ch B = Ok X /\ mrows X = n /\ mcols X = q /\
   forall c, (c < q)%nat -> exists E,
    (forall i, (i < n)%nat -> Sum n (fun j => (lower_sym (mel A) i j + E i j) * mel X j c) = mel B i c) /\
    (forall i j, (i < n)%nat -> (j < n)%nat -> Rabs (E i j) <= (bwd u (2 * n) + bwd u (n + 1)) * abs_ldl n (mel L) (mel D) i j).
Proof.
  intros u rnd RN n q A ch B HR HC HB HQ EC K. pose proof (u_rng u rnd RN) as U. pose proof (fl_full rnd n A ch HR HC EC K) as I. pose proof I as (Rr & Cc & NZ & _).
  destruct (fl_LD rnd n (ch_m ch) ch eq_refl Rr Cc) as (L & D & EL & ED & RL & CL & RD & CD & VL & VD).
  destruct (fl_backsub_mat rnd n q ch B Rr Cc HB HQ NZ) as (x & y & z & EX & X1 & X2 & Y & Z & X).
  exists L, D, x. refine (conj EL (conj ED (conj EX (conj X1 (conj X2 _))))). intros c Hc.
  destruct (solve_terms u rnd RN n (ch_m ch) (fun i => mel B i c) (fun i => mel x i c) (fun i => mel y i c) (fun i => mel z i c)) as (g & Hg & G).
  - intros i Hi. apply Y; assumption.
  - intros i Hi. cbn beta. rewrite (Z i c Hi Hc). apply recip_term; [exact RN|apply NZ; exact Hi].
  - intros i Hi. apply X; assumption.
  - exists (fun i j => Sum n (fun k => lw (ch_m ch) i k * mel (ch_m ch) k k * lw (ch_m ch) j k * g i j k) - lower_sym (mel A) i j). split.
    + intros i Hi. refine (eq_trans _ (eq_sym (G i Hi))). apply S_ext. intros j Hj. ring.
    + intros i j Hi Hj. rewrite (abs_ldl_lw n (ch_m ch)) by assumption. destruct (sym_terms u rnd RN n (mel A) (ch_m ch) i j I Hi Hj) as (h & Hh & ->).
      apply (fac_sum_err u rnd RN n (fun k => lw (ch_m ch) i k * mel (ch_m ch) k k * lw (ch_m ch) j k) (g i j) h); intros k Hk; [apply Hg; assumption|apply Hh].
Qed.
Theorem C86_inverse : forall u rnd, rounding u rnd -> forall n (A : mat R) ch, mrows A = n -> mcols A = n -> @cholesky R (FlOps rnd) A = Ok ch -> ch_rank ch = n ->
  exists L D X, @chol_L R (FlOps rnd) ch = Ok L /\ @chol_D R (FlOps rnd) ch = Ok D /\ @chol_inverse R (FlOps rnd) ch = Ok X /\ mrows X = n /\ mcols X = n /\
   forall c, (c < n)%nat -> exists E,
    (forall i, (i < n)%nat -> Sum n (fun j => (lower_sym (mel A) i j + E i j) * mel X j c) = if (i =? c)%nat then 1 else 0) /\
    (forall i j, (i < n)%nat -> (j < n)%nat -> Rabs (E i j) <= (bwd u (2 * n) + bwd u (n + 1)) * abs_ldl n (mel L) (mel D) i j).
Proof.
  intros u rnd RN n A ch HR HC EC K. pose proof (fl_full rnd n A ch HR HC EC K) as I. pose proof I as (Rr & Cc & _).
  destruct (@identity_eval_ok R (FlOps rnd) HOne (@mnew R (FlOps rnd) n n) eq_refl) as (B & EB & B1 & B2 & B3). cbn [mrows mcols mnew] in B1, B2, B3.
  destruct (C86_matrix_solution u rnd RN n n A ch B HR HC B1 B2 EC K) as (L & D & X & EL & ED & EX & X1 & X2 & X3). exists L, D, X. refine (conj EL (conj ED (conj _ (conj X1 (conj X2 _))))).
  - unfold chol_inverse. rewrite Rr. cbn [fst]. rewrite EB. cbn [bind]. exact EX.
  - intros c Hc. destruct (X3 c Hc) as (E & E1 & E2). exists E. split; [|exact E2]. intros i Hi. rewrite E1 by exact Hi. rewrite B3 by assumption. reflexivity.
Qed.
(** Non-vacuity: a 2x2 positive definite matrix in double precision. The decomposition completes, D is positive, and backsub solves a system within 1e-14 of the given one. *)
Definition exA : mat R := mkmat 2 2 (fun i j => match i, j with O, O => 4 | S _, S _ => 3 | _, _ => 2 end).
Example C86_double : forall v : vec R, vlen v = 2%nat ->
  exists ch D x E, @cholesky R (FlOps rnd64) exA = Ok ch /\ ch_rank ch = 2%nat /\ @chol_D R (FlOps rnd64) ch = Ok D /\ (forall i, (i < 2)%nat -> 0 < mel D i i) /\
   @chol_backsub R (FlOps rnd64) ch v = Ok x /\ vlen x = 2%nat /\
   (forall i, (i < 2)%nat -> Sum 2 (fun j => (mel exA i j + E i j) * vat x j) = vat v i) /\ (forall i j, (i < 2)%nat -> (j < 2)%nat -> Rabs (E i j) <= / 10 ^ 13).
Proof.
  intros v HV. set (u := / 2 * Flocq.Core.Raux.bpow Flocq.Core.Zaux.radix2 (-52)).
  assert (U : 0 <= u < / 10 ^ 15 / 4) by exact u64_rng. pose proof (bwd_nonneg u 3 ltac:(lra)) as B0. pose proof (bwd64 3 ltac:(lia)) as B1. pose proof (bwd64 4 ltac:(lia)) as B2. fold u in B1, B2. cbn [INR] in B1, B2.
  destruct (C86_succeeds u rnd64 rnd64_rounding 2 exA eq_refl eq_refl) as (ch & D & EC & K & ED & PD).
  - cbn [INR Nat.add]. assert (3 * bwd u 3 * (1 + bwd u 3) <= 3 * (3 * (/ 10 ^ 15 / 2)) * 2); [|lra]. assert (0 <= 3 * bwd u 3 <= 3 * (3 * (/ 10 ^ 15 / 2))) by lra. nra.
  - intros x (i & Hi & Hx). assert (Q : @quad R ROps 2 (lower_sym (mel exA)) x = 4 * (x 0%nat * x 0%nat) + 4 * (x 0%nat * x 1%nat) + 3 * (x 1%nat * x 1%nat)) by (cbn; ring). rewrite Q.
    assert (Q2 : Sum 2 (fun i => mel exA i i * (x i * x i)) = 4 * (x 0%nat * x 0%nat) + 3 * (x 1%nat * x 1%nat)) by (cbn; ring). rewrite Q2. cbn [Nat.add].
    set (eps := (INR 2 + 1) * bwd u 3 * (1 + bwd u 3)). assert (E : 0 <= eps <= / 100).
    { unfold eps. cbn [INR]. split; [apply Rmult_le_pos; [apply Rmult_le_pos; lra|lra]|]. assert (0 <= 3 * bwd u 3 <= 3 * (3 * (/ 10 ^ 15 / 2))) by lra. assert ((1 + 1 + 1) * bwd u 3 * (1 + bwd u 3) <= 3 * (3 * (/ 10 ^ 15 / 2)) * 2) by nra. lra. }
    set (a := x 0%nat) in *. set (b := x 1%nat) in *. assert (P : 0 < a * a + b * b). { destruct i as [|[|i]]; [fold a in Hx; nra|fold b in Hx; nra|lia]. }
    assert (T : 4 * (a * a) + 4 * (a * b) + 3 * (b * b) >= (a * a + b * b)). { pose proof (Rle_0_sqr (3 * a + 2 * b)) as Z. unfold Rsqr in Z. nra. } assert (0 <= a * a) by nra. assert (0 <= b * b) by nra. nra.
  - destruct (C86_solution u rnd64 rnd64_rounding 2 exA ch v eq_refl eq_refl HV EC K) as (L & D' & x & E & EL & ED' & EX & HX & SX & BX). rewrite ED in ED'. injection ED' as <-.
    exists ch, D, x, E. split; [exact EC|]. split; [exact K|]. split; [exact ED|]. split; [exact PD|]. split; [exact EX|]. split; [exact HX|]. split.
    + intros i Hi. rewrite <- (SX i Hi). apply S_ext. intros j Hj. f_equal. f_equal. destruct i as [|[|i]]; destruct j as [|[|j]]; try lia; reflexivity.
    + intros i j Hi Hj. pose proof (C86_positive_pivots u rnd64 rnd64_rounding 2 exA ch L D eq_refl eq_refl EC K EL ED PD i j Hi Hj) as (_ & G). pose proof (BX i j Hi Hj) as B. cbn [Nat.mul Nat.add] in B, G.
      assert (SQ : forall k, (k < 2)%nat -> sqrt (mel exA k k) <= 2). { intros k Hk. rewrite <- (sqrt_square 2) by lra. apply sqrt_le_1_alt. destruct k as [|[|k]]; cbn; lra. }
      pose proof (SQ i Hi). pose proof (SQ j Hj). pose proof (sqrt_pos (mel exA i i)). pose proof (sqrt_pos (mel exA j j)).
      assert (PW : / (1 - u) ^ 3 <= 2). { unfold bwd in B1. lra. } assert (PW0 : 0 < / (1 - u) ^ 3) by (apply Rinv_0_lt_compat; apply pow_lt; lra).
      assert (0 <= sqrt (mel exA i i) * sqrt (mel exA j j) <= 4) by nra. unfold Rdiv in G.
      assert (A8 : abs_ldl 2 (mel L) (mel D) i j <= 8). { eapply Rle_trans; [exact G|]. apply (Rle_trans _ (4 * 2)); [|lra]. apply Rmult_le_compat; lra. }
      assert (A0 : 0 <= abs_ldl 2 (mel L) (mel D) i j) by (apply S_nonneg; intros; apply Rabs_pos). pose proof (bwd_nonneg u 4 ltac:(lra)) as B4. eapply Rle_trans; [exact B|].
      apply (Rle_trans _ (4 / 10 ^ 15 * 8)); [|lra]. apply Rmult_le_compat; try lra.
Qed.
Print Assumptions C86_singular. Print Assumptions C86_total. Print Assumptions C86_factors. Print Assumptions C86_solution. Print Assumptions C86_positive_pivots. Print Assumptions C86_succeeds. Print Assumptions C86_determinant.
Print Assumptions C86_matrix_solution. Print Assumptions C86_inverse. Print Assumptions C86_double.
