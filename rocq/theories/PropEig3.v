(** * C77: the 3x3 closed-form symmetric eigen-decomposition. *)
From Coq Require Import Reals Arith Bool Lia Lra Psatz.
From Verif Require Import Base Alg Mat SpecMat LemMat Inst RSum ModelOps LemOps ModelHelpers LemHelpers LemChol SpecLin LemLin LemDet ModelLie LemSE2 ModelEig SpecEig LemEig ModelEig3 LemEig3 LemEig3b.
Open Scope outcome_scope.
Local Open Scope R_scope.

(** ** Specification *)
(** N is the 1-norm of the 3x3 matrix A: the largest absolute column sum *)
Definition one_norm (A : nat -> nat -> R) (N : R) : Prop :=
  (forall c, (c < 3)%nat -> Sum 3 (fun r => Rabs (A r c)) <= N) /\ exists c, (c < 3)%nat /\ N = Sum 3 (fun r => Rabs (A r c)).
(** e0 <= e1 <= e2 are the roots of the characteristic polynomial, with multiplicity *)
Definition eigenvalues3 (A : nat -> nat -> R) (e0 e1 e2 : R) : Prop :=
  e0 <= e1 <= e2 /\ forall x, det (F:=R) 3 (fun r c => A r c - x * delta r c) = (e0 - x) * (e1 - x) * (e2 - x).

(** ** Lemmas *)
Lemma S3 f : Sum 3 f = f 0%nat + f 1%nat + f 2%nat.
Proof. cbn [sum fadd f0 ROps]. ring. Qed.
Definition sym_of (m : nat -> nat -> R) : sym3 := mksym3 (m 0%nat 0%nat) (m 0%nat 1%nat) (m 0%nat 2%nat) (m 1%nat 1%nat) (m 1%nat 2%nat) (m 2%nat 2%nat).
Lemma det3 (A : nat -> nat -> R) x : symm 3 A -> det (F:=R) 3 (fun r c => A r c - x * delta r c) = charp (sym_of A) x.
Proof.
  intros S. cbv [det sum sgn Nat.even skip Nat.ltb Nat.leb delta Nat.eqb]. cbn [fadd fmul fsub fopp f0 f1 ROps]. unfold charp, sym_of. cbn [a11 a12 a13 a22 a23 a33].
  rewrite (S 1%nat 0%nat), (S 2%nat 0%nat), (S 2%nat 1%nat) by lia. ring.
Qed.
Lemma norm3_ok (m : mat R) : mrows m = 3%nat -> mcols m = 3%nat -> exists N, norm1_mat m = Ok N /\ one_norm (mel m) N.
Proof.
  intros H1 H2. destruct (@norm1_mat_ok R ROps RLaws m) as (N & E & P & U & D). exists N. split; [exact E|]. rewrite H1, H2 in *.
  assert (FA : forall x : R, fabs x = Rabs x) by (intros x; unfold fabs; cbn [fltb f0 fopp ROps]; destruct (R_ltb x 0) eqn:T; [apply R_ltb_spec in T; rewrite Rabs_left by lra; reflexivity|apply R_ltb_false in T; rewrite Rabs_right by lra; reflexivity]).
  assert (U' : forall c, (c < 3)%nat -> Sum 3 (fun r => Rabs (mel m r c)) <= N). { intros c Hc. rewrite (S_ext 3 _ (fun r => fabs (mel m r c))) by (intros; symmetry; apply FA). apply R_ltb_false. exact (U c Hc). }
  split; [exact U'|]. destruct D as [D|(c & Hc & D)].
  - exists 0%nat. split; [lia|]. pose proof (U' 0%nat ltac:(lia)) as L. cbn [f0 ROps] in D. subst N.
    assert (0 <= Sum 3 (fun r => Rabs (mel m r 0%nat))) by (apply S_nonneg; intros; apply Rabs_pos). lra.
  - exists c. split; [exact Hc|]. rewrite D. apply S_ext. intros. apply FA.
Qed.
Lemma one_norm_unique A N N' : one_norm A N -> one_norm A N' -> N = N'.
Proof. intros (U & c & Hc & E) (U' & c' & Hc' & E'). pose proof (U c' Hc'). pose proof (U' c Hc). lra. Qed.
Lemma one_norm_zero A N : one_norm A N -> (N = 0 <-> forall r c, (r < 3)%nat -> (c < 3)%nat -> A r c = 0).
Proof.
  intros (U & c & Hc & E). split.
  - intros -> r c' Hr Hc'. pose proof (U c' Hc') as L. rewrite S3 in L. pose proof (Rabs_pos (A 0%nat c')). pose proof (Rabs_pos (A 1%nat c')). pose proof (Rabs_pos (A 2%nat c')).
    assert (Z : Rabs (A r c') = 0) by (destruct r as [|[|[|r]]]; [lra|lra|lra|lia]). destruct (Req_dec (A r c') 0) as [Ez|Ez]; [exact Ez|apply Rabs_no_R0 in Ez; lra].
  - intros Z. rewrite E, S3, !Z by lia. rewrite Rabs_R0. ring.
Qed.
Lemma one_norm_pos A N r c : one_norm A N -> (r < 3)%nat -> (c < 3)%nat -> A r c <> 0 -> 0 < N.
Proof.
  intros H Hr Hc Nz. pose proof H as (U & k & Hk & E). assert (0 <= N) by (rewrite E; apply S_nonneg; intros; apply Rabs_pos). destruct (Req_dec N 0) as [Z|Z]; [|lra].
  exfalso. apply Nz. exact (proj1 (one_norm_zero A N H) Z r c Hr Hc).
Qed.
Definition sel (l0 l1 l2 : R) (i : nat) : R := match i with 0%nat => l0 | 1%nat => l1 | _ => l2 end.
Lemma eig3_run old (m : mat R) N : mrows m = 3%nat -> mcols m = 3%nat -> symm 3 (mel m) -> one_norm (mel m) N -> 0 < N ->
  exists e0 e1 e2, eigenvalues3 (mel m) e0 e1 e2 /\
    eig3 old m = (e <- finish (/ 10 ^ 7 * N) (fun i => raw_vector (sym_of (mel m)) (/ 10 ^ 7 * N) (sel e0 e1 e2 i)) ;; Ok (mkeig (of_rows e) (mkvec 3 (sel e0 e1 e2)))).
Proof.
  intros H1 H2 S HN PN. destruct (norm3_ok m H1 H2) as (N' & E & HN'). rewrite (one_norm_unique _ _ _ HN' HN) in E. unfold eig3. rewrite E. cbn [bind].
  destruct (R_eqb N 0) eqn:T; [apply R_eqb_spec in T; lra|]. clear T. rewrite !mget_ok by lia. cbn [bind]. fold (sym_of (mel m)).
  pose proof (cubic_roots_ok (sym_of (mel m))) as C. pose proof (sort3_ok (cubic_roots (sym_of (mel m)))) as So. destruct (cubic_roots (sym_of (mel m))) as [[t0 t1] t2]. destruct (sort3 (t0, t1, t2)) as [[e0 e1] e2].
  destruct So as (O & So). exists e0, e1, e2. split; [split; [exact O|]|reflexivity]. intros x. rewrite det3 by exact S. rewrite So. symmetry. apply C.
Qed.
Lemma eigenvalues3_charp A e0 e1 e2 : symm 3 A -> eigenvalues3 A e0 e1 e2 -> forall x, (e0 - x) * (e1 - x) * (e2 - x) = charp (sym_of A) x.
Proof. intros S (_ & H) x. rewrite <- H. apply det3. exact S. Qed.
Lemma eigenvalues3_unique A e0 e1 e2 f0 f1 f2 : eigenvalues3 A e0 e1 e2 -> eigenvalues3 A f0 f1 f2 -> e0 = f0 /\ e1 = f1 /\ e2 = f2.
Proof. intros (O & H) (O' & H'). apply roots_unique; auto. intros x. rewrite <- H, <- H'. reflexivity. Qed.
Lemma rows_eigensystem A (l : nat -> R) (e : rows) : symm 3 A -> (l 0%nat <= l 1%nat <= l 2%nat) -> (forall i, (i < 3)%nat -> is_eig (sym_of A) (l i) (e i)) ->
  (forall i j, (i < 3)%nat -> (j < 3)%nat -> dot3 (e i) (e j) = delta i j) -> eigensystem 3 A (mkeig (of_rows e) (mkvec 3 l)).
Proof.
  intros S O He Hd. split; [reflexivity|]. split; [reflexivity|]. split; [reflexivity|]. cbn [e_vecs e_vals of_rows mel vat].
  assert (V : orthonormal 3 (fun i j => v3_el (e i) j)). { intros i j Hi Hj. rewrite S3. cbn [v3_el]. exact (Hd i j Hi Hj). }
  split; [exact V|]. split; [intros [|[|[|i]]] [|[|[|j]]] Hij; try lia; lra|].
  intros r c Hr Hc. rewrite (S_ext 3 _ (fun k => Sum 3 (fun j => A r j * (v3_el (e k) j * v3_el (e k) c)))).
  - rewrite S_swap. rewrite (S_ext 3 _ (fun j => A r j * delta j c)); [symmetry; apply delta_r; exact Hc|]. intros j Hj. rewrite S_mul_l. f_equal. exact (orthonormal_cols 3 _ V j c Hj Hc).
  - intros k Hk. destruct (He k Hk) as (E1 & E2 & E3). unfold sym_of in *. cbn [a11 a12 a13 a22 a23 a33] in *.
    rewrite S3. cbn [v3_el]. transitivity ((l k * v3_el (e k) r) * v3_el (e k) c); [reflexivity|]. destruct r as [|[|[|r]]]; [| | |lia]; cbn [v3_el]; [rewrite <- E1|rewrite <- E2|rewrite <- E3].
    + ring.
    + rewrite (S 1%nat 0%nat) by lia. ring.
    + rewrite (S 2%nat 0%nat), (S 2%nat 1%nat) by lia. ring.
Qed.

(** ** The eigenvalues *)
(** for every non-zero symmetric matrix the eigenvalues returned are the roots of det(A - x I), ascending *)
Theorem C77_eigenvalues : forall old (m : mat R) E r c, mrows m = 3%nat -> mcols m = 3%nat -> symm 3 (mel m) -> (r < 3)%nat -> (c < 3)%nat -> mel m r c <> 0 -> eig3 old m = Ok E ->
  vlen (e_vals E) = 3%nat /\ eigenvalues3 (mel m) (vat (e_vals E) 0%nat) (vat (e_vals E) 1%nat) (vat (e_vals E) 2%nat).
Proof.
  intros old m E r c H1 H2 S Hr Hc Nz R. destruct (norm3_ok m H1 H2) as (N & _ & HN). pose proof (one_norm_pos _ _ _ _ HN Hr Hc Nz) as PN.
  destruct (eig3_run old m N H1 H2 S HN PN) as (e0 & e1 & e2 & He & Run). rewrite Run in R. destruct (finish _ _); try discriminate R. cbn [bind] in R. injection R as <-. cbn [e_vals vlen vat]. split; [reflexivity|exact He].
Qed.

(** ** Well separated eigenvalues *)
Definition gap (A : nat -> nat -> R) (N e0 e1 e2 : R) : Prop :=
  3 * / 10 ^ 7 * N <= (e1 - e0) * (e2 - e0) /\ 3 * / 10 ^ 7 * N <= (e1 - e0) * (e2 - e1) /\ 3 * / 10 ^ 7 * N <= (e2 - e0) * (e2 - e1).
Theorem C77_separated_partial : forall old (m : mat R) N e0 e1 e2, mrows m = 3%nat -> mcols m = 3%nat -> symm 3 (mel m) -> one_norm (mel m) N -> 0 < N -> eigenvalues3 (mel m) e0 e1 e2 -> gap (mel m) N e0 e1 e2 ->
  exists E, eig3 old m = Ok E /\ eigensystem 3 (mel m) E.
Proof.
  intros old m N e0 e1 e2 H1 H2 S HN PN He (G0 & G1 & G2). destruct (eig3_run old m N H1 H2 S HN PN) as (f0 & f1 & f2 & Hf & Run).
  destruct (eigenvalues3_unique _ _ _ _ _ _ _ Hf He) as (-> & -> & ->). clear Hf. set (A := sym_of (mel m)) in *. pose proof (eigenvalues3_charp _ _ _ _ S He) as Ch. fold A in Ch. destruct He as (O & _).
  set (eps := / 10 ^ 7 * N) in *. assert (P7 : 0 < / 10 ^ 7) by (apply Rinv_0_lt_compat, pow_lt; lra). assert (Pe : 0 < eps) by (apply Rmult_lt_0_compat; assumption).
  replace (3 * / 10 ^ 7 * N) with (3 * eps) in * by (unfold eps; ring). rewrite Run. clear Run.
  assert (D01 : e0 < e1) by (destruct (proj1 O) as [L|L]; [exact L|exfalso; rewrite L in *; lra]). assert (D12 : e1 < e2) by (destruct (proj2 O) as [L|L]; [exact L|exfalso; rewrite L in *; lra]).
  assert (T : forall i, (i < 3)%nat -> eps <= norm1_3 (raw_vector A eps (sel e0 e1 e2 i))).
  { intros i Hi. apply raw_norm. rewrite (adj_trace_roots A e0 e1 e2 _ Ch). destruct i as [|[|[|i]]]; [| | |lia]; cbn [sel].
    - replace ((e1 - e0) * (e2 - e0) + (e0 - e0) * (e2 - e0) + (e0 - e0) * (e1 - e0)) with ((e1 - e0) * (e2 - e0)) by ring. eapply Rle_trans; [exact G0|apply Rle_abs].
    - replace ((e1 - e1) * (e2 - e1) + (e0 - e1) * (e2 - e1) + (e0 - e1) * (e1 - e1)) with (- ((e1 - e0) * (e2 - e1))) by ring. rewrite Rabs_Ropp. eapply Rle_trans; [exact G1|apply Rle_abs].
    - replace ((e1 - e2) * (e2 - e2) + (e0 - e2) * (e2 - e2) + (e0 - e2) * (e1 - e2)) with ((e2 - e0) * (e2 - e1)) by ring. eapply Rle_trans; [exact G2|apply Rle_abs]. }
  assert (Eg : forall i, (i < 3)%nat -> is_eig A (sel e0 e1 e2 i) (raw_vector A eps (sel e0 e1 e2 i))).
  { intros i Hi. apply raw_eig. rewrite <- Ch. destruct i as [|[|[|i]]]; [| | |lia]; cbn [sel]; ring. }
  assert (Dp : forall i, (i < 3)%nat -> 0 < dot3 (raw_vector A eps (sel e0 e1 e2 i)) (raw_vector A eps (sel e0 e1 e2 i))). { intros i Hi. apply dot_pos. pose proof (T i Hi). lra. }
  assert (Or : forall i j, (i < 3)%nat -> (j < 3)%nat -> i <> j -> dot3 (raw_vector A eps (sel e0 e1 e2 i)) (raw_vector A eps (sel e0 e1 e2 j)) = 0).
  { intros i j Hi Hj Hij. apply (eig_orth A (sel e0 e1 e2 i) (sel e0 e1 e2 j)); [apply Eg; exact Hi|apply Eg; exact Hj|]. destruct i as [|[|[|i]]], j as [|[|[|j]]]; try lia; cbn [sel]; lra. }
  unfold finish.
  assert (NB : forall i, (i < 3)%nat -> R_ltb (norm1_3 (raw_vector A eps (sel e0 e1 e2 i))) eps = false). { intros i Hi. destruct (R_ltb _ eps) eqn:Q; [apply R_ltb_spec in Q; pose proof (T i Hi); lra|reflexivity]. }
  rewrite !NB by lia. cbn [orb]. rewrite !(fun i H => proj1 (normalize3_ok _ (Dp i H))) by lia. cbn [bind]. eexists. split; [reflexivity|].
  set (v := fun i => raw_vector A eps (sel e0 e1 e2 i)) in *.
  apply rows_eigensystem; [exact S|exact O| |].
  - intros i Hi. fold A. destruct i as [|[|[|i]]]; [| | |lia]; apply eig_scale; [exact (Eg 0%nat Hi)|exact (Eg 1%nat Hi)|exact (Eg 2%nat Hi)].
  - intros i j Hi Hj. assert (L0 : (0 < 3)%nat) by lia. assert (L1 : (1 < 3)%nat) by lia. assert (L2 : (2 < 3)%nat) by lia.
    destruct i as [|[|[|i]]], j as [|[|[|j]]]; try lia; cbv [delta Nat.eqb]; cbn [f0 f1 ROps];
      try (rewrite dot_scale; first [rewrite (Or 0%nat 1%nat) by lia|rewrite (Or 0%nat 2%nat) by lia|rewrite (Or 1%nat 0%nat) by lia|rewrite (Or 1%nat 2%nat) by lia|rewrite (Or 2%nat 0%nat) by lia|rewrite (Or 2%nat 1%nat) by lia]; ring);
      [exact (proj2 (normalize3_ok _ (Dp 0%nat L0)))|exact (proj2 (normalize3_ok _ (Dp 1%nat L1)))|exact (proj2 (normalize3_ok _ (Dp 2%nat L2)))].
Qed.
(** ** A repeated eigenvalue lam and a simple one mu *)
Definition double_eigenvalue (A : nat -> nat -> R) (lam mu : R) : Prop := eigenvalues3 A lam lam mu \/ eigenvalues3 A mu lam lam.
Definition rows_sum_to (A : nat -> nat -> R) (s : R) : Prop := forall r, (r < 3)%nat -> Sum 3 (fun c => A r c) = s.
Lemma rows_sum_eig A s : symm 3 A -> rows_sum_to A s <-> is_eig (sym_of A) s (mk3 1 1 1).
Proof.
  intros S. unfold rows_sum_to, is_eig, sym_of. cbn [vx vy vz a11 a12 a13 a22 a23 a33]. split.
  - intros H. pose proof (H 0%nat ltac:(lia)) as H0. pose proof (H 1%nat ltac:(lia)) as H1. pose proof (H 2%nat ltac:(lia)) as H2. rewrite S3 in H0, H1, H2. rewrite (S 1%nat 0%nat) in H1 by lia. rewrite (S 2%nat 0%nat), (S 2%nat 1%nat) in H2 by lia. lra.
  - intros (H0 & H1 & H2) [|[|[|r]]] Hr; [| | |lia]; rewrite S3; [lra|rewrite (S 1%nat 0%nat) by lia; lra|rewrite (S 2%nat 0%nat), (S 2%nat 1%nat) by lia; lra].
Qed.
(** the run in the case of a repeated eigenvalue: v is the unit eigenvector of mu *)
Lemma double_run old (m : mat R) N lam mu : mrows m = 3%nat -> mcols m = 3%nat -> symm 3 (mel m) -> one_norm (mel m) N -> 0 < N -> double_eigenvalue (mel m) lam mu -> 3 * / 10 ^ 7 * N <= (mu - lam) * (mu - lam) ->
  exists v, is_eig (sym_of (mel m)) mu v /\ dot3 v v = 1 /\ rank_one (sym_of (mel m)) lam /\ mu <> lam /\
    (forall v1, unit3 (gs v) = Ok v1 -> exists E, eig3 old m = Ok E /\ eigensystem 3 (mel m) E) /\ (unit3 (gs v) = NonFinite -> eig3 old m = NonFinite).
Proof.
  intros H1 H2 S HN PN HE G. destruct (eig3_run old m N H1 H2 S HN PN) as (f0 & f1 & f2 & Hf & Run).
  set (A := sym_of (mel m)) in *. set (eps := / 10 ^ 7 * N) in *. assert (P7 : 0 < / 10 ^ 7) by (apply Rinv_0_lt_compat, pow_lt; lra). assert (Pe : 0 < eps) by (apply Rmult_lt_0_compat; assumption).
  replace (3 * / 10 ^ 7 * N) with (3 * eps) in * by (unfold eps; ring). assert (Ne : mu <> lam) by (intros E; rewrite E in G; lra).
  assert (Facts : (forall x, (lam - x) * (lam - x) * (mu - x) = charp A x)).
  { destruct HE as [HE|HE]; pose proof (eigenvalues3_charp _ _ _ _ S HE) as Ch; fold A in Ch; intros x; rewrite <- Ch; ring. }
  assert (Cl : charp A lam = 0) by (rewrite <- Facts; ring). assert (Cm : charp A mu = 0) by (rewrite <- Facts; ring).
  assert (Rk : rank_one A lam) by (apply double_rank; [exact Cl|rewrite (adj_trace_roots A lam lam mu lam Facts); ring]).
  pose proof (double_raw A eps lam Pe Rk) as Rl.
  assert (Rm : eps <= norm1_3 (raw_vector A eps mu)).
  { apply raw_norm. rewrite (adj_trace_roots A lam lam mu mu Facts). replace ((lam - mu) * (mu - mu) + (lam - mu) * (mu - mu) + (lam - mu) * (lam - mu)) with ((mu - lam) * (mu - lam)) by ring. eapply Rle_trans; [exact G|apply Rle_abs]. }
  assert (Dp : 0 < dot3 (raw_vector A eps mu) (raw_vector A eps mu)) by (apply dot_pos; lra). destruct (normalize3_ok _ Dp) as (Nv & Uv). set (v := scale3 (/ sqrt (dot3 (raw_vector A eps mu) (raw_vector A eps mu))) (raw_vector A eps mu)) in *.
  assert (Ev : is_eig A mu v) by (apply eig_scale, raw_eig; exact Cm). exists v. split; [exact Ev|]. split; [exact Uv|]. split; [exact Rk|]. split; [exact Ne|].
  destruct HE as [HE|HE]; destruct (eigenvalues3_unique _ _ _ _ _ _ _ Hf HE) as (-> & -> & ->); destruct HE as (O & _).
  - assert (F : finish eps (fun i => raw_vector A eps (sel lam lam mu i)) = (v1 <- unit3 (gs v) ;; Ok (set_row3 (set_row3 (set_row3 (fun i => raw_vector A eps (sel lam lam mu i)) 2 v) 0 v1) 1 (cross3 v1 v)))).
    { rewrite finish_last; [cbn [sel]; rewrite Nv; reflexivity|exact Pe|exact Rl|exact Rl|exact Rm]. }
    rewrite Run, F. split; [|intros ->; reflexivity]. intros v1 E1. rewrite E1. cbn [bind]. eexists. split; [reflexivity|]. destruct (gs_triple v v1 Uv E1) as (T1 & T2 & T3 & T4 & T5).
    apply rows_eigensystem; [exact S|exact O| |].
    + intros [|[|[|i]]] Hi; [| | |lia]; cbn [sel set_row3 Nat.eqb]; unfold set_row3; cbn [Nat.eqb]; fold A; [exact (double_space A lam mu v v1 Rk Ev Uv Ne T2)|exact (double_space A lam mu v _ Rk Ev Uv Ne T5)|exact Ev].
    + intros [|[|[|i]]] [|[|[|j]]] Hi Hj; try lia; unfold set_row3; cbn [Nat.eqb]; cbv [delta Nat.eqb]; cbn [f0 f1 ROps]; first [assumption|rewrite dot_comm; assumption].
  - assert (F : finish eps (fun i => raw_vector A eps (sel mu lam lam i)) = (v1 <- unit3 (gs v) ;; Ok (set_row3 (set_row3 (set_row3 (fun i => raw_vector A eps (sel mu lam lam i)) 0 v) 1 v1) 2 (cross3 v1 v)))).
    { rewrite finish_first; [cbn [sel]; rewrite Nv; reflexivity|exact Pe|exact Rl|exact Rl|exact Rm]. }
    rewrite Run, F. split; [|intros ->; reflexivity]. intros v1 E1. rewrite E1. cbn [bind]. eexists. split; [reflexivity|]. destruct (gs_triple v v1 Uv E1) as (T1 & T2 & T3 & T4 & T5).
    apply rows_eigensystem; [exact S|exact O| |].
    + intros [|[|[|i]]] Hi; [| | |lia]; cbn [sel]; unfold set_row3; cbn [Nat.eqb]; fold A; [exact Ev|exact (double_space A lam mu v v1 Rk Ev Uv Ne T2)|exact (double_space A lam mu v _ Rk Ev Uv Ne T5)].
    + intros [|[|[|i]]] [|[|[|j]]] Hi Hj; try lia; unfold set_row3; cbn [Nat.eqb]; cbv [delta Nat.eqb]; cbn [f0 f1 ROps]; first [assumption|rewrite dot_comm; assumption].
Qed.
Theorem C77_repeated_partial : forall old (m : mat R) N lam mu, mrows m = 3%nat -> mcols m = 3%nat -> symm 3 (mel m) -> one_norm (mel m) N -> 0 < N -> double_eigenvalue (mel m) lam mu -> 3 * / 10 ^ 7 * N <= (mu - lam) * (mu - lam) ->
  ~ rows_sum_to (mel m) mu -> exists E, eig3 old m = Ok E /\ eigensystem 3 (mel m) E.
Proof.
  intros old m N lam mu H1 H2 S HN PN HE G Nr. destruct (double_run old m N lam mu H1 H2 S HN PN HE G) as (v & Ev & Uv & Rk & Ne & K & _).
  destruct (gs_ok v Uv) as (v1 & E1); [|exact (K v1 E1)]. intros (X & Y). apply Nr. apply rows_sum_eig; [exact S|].
  assert (V : v = scale3 (vx v) (mk3 1 1 1)) by (destruct v as [x y z]; cbn [vx vy vz] in *; subst x y; unfold scale3; cbn [vx vy vz]; f_equal; ring).
  assert (Xn : vx v <> 0). { intros Z. unfold dot3 in Uv. rewrite <- Y, <- X, Z in Uv. lra. }
  replace (mk3 1 1 1) with (scale3 (/ vx v) v); [apply eig_scale; exact Ev|]. destruct v as [x y z]. cbn [vx vy vz] in *. subst x y. unfold scale3. cbn [vx vy vz]. f_equal; field; exact Xn.
Qed.
(** but when the eigenvector of the simple eigenvalue is along (1,1,1), nothing finite comes out *)
Theorem C77_repeated_refuted : forall old (m : mat R) N lam mu, mrows m = 3%nat -> mcols m = 3%nat -> symm 3 (mel m) -> one_norm (mel m) N -> 0 < N -> double_eigenvalue (mel m) lam mu -> 3 * / 10 ^ 7 * N <= (mu - lam) * (mu - lam) ->
  rows_sum_to (mel m) mu -> eig3 old m = NonFinite.
Proof.
  intros old m N lam mu H1 H2 S HN PN HE G Nr. destruct (double_run old m N lam mu H1 H2 S HN PN HE G) as (v & Ev & Uv & Rk & Ne & _ & K).
  apply K. apply rows_sum_eig in Nr; [|exact S]. destruct (ones_eig _ _ _ _ Rk Ne Ev Uv Nr). apply gs_bad; assumption.
Qed.

(** ** Multiples of the identity, and the zero matrix *)
Lemma id_rows_eig lam A : symm 3 A -> (forall r c, (r < 3)%nat -> (c < 3)%nat -> A r c = lam * delta r c) -> eigensystem 3 A (mkeig (of_rows id_rows) (mkvec 3 (sel lam lam lam))).
Proof.
  intros S H. apply rows_eigensystem; [exact S|cbn [sel]; lra| |].
  - intros i Hi. unfold is_eig, sym_of. cbn [a11 a12 a13 a22 a23 a33]. rewrite !H by lia. cbv [delta Nat.eqb]. cbn [f0 f1 ROps]. destruct i as [|[|[|i]]]; [| | |lia]; cbn [sel id_rows vx vy vz]; repeat split; ring.
  - intros [|[|[|i]]] [|[|[|j]]] Hi Hj; try lia; cbv [delta Nat.eqb]; cbn [f0 f1 ROps id_rows]; unfold dot3; cbn [vx vy vz]; ring.
Qed.
Theorem C77_scalar_matrix : forall old (m : mat R) lam, mrows m = 3%nat -> mcols m = 3%nat -> lam <> 0 -> (forall r c, (r < 3)%nat -> (c < 3)%nat -> mel m r c = lam * delta r c) ->
  exists E, eig3 old m = Ok E /\ eigensystem 3 (mel m) E.
Proof.
  intros old m lam H1 H2 Hl H. assert (S : symm 3 (mel m)). { intros r c Hr Hc. rewrite !H by auto. rewrite (delta_sym r c). reflexivity. }
  destruct (norm3_ok m H1 H2) as (N & _ & HN). assert (PN : 0 < N) by (apply (one_norm_pos _ _ 0%nat 0%nat HN); [lia|lia|rewrite H by lia; cbv [delta Nat.eqb]; cbn [f1 ROps]; lra]).
  destruct (eig3_run old m N H1 H2 S HN PN) as (f0 & f1 & f2 & Hf & Run).
  assert (HE : eigenvalues3 (mel m) lam lam lam). { split; [lra|]. intros x. rewrite det3 by exact S. unfold charp, sym_of. cbn [a11 a12 a13 a22 a23 a33]. rewrite !H by lia. cbv [delta Nat.eqb]. cbn [Alg.f0 Alg.f1 ROps]. ring. }
  destruct (eigenvalues3_unique _ _ _ _ _ _ _ Hf HE) as (-> & -> & ->). set (A := sym_of (mel m)) in *. set (eps := / 10 ^ 7 * N) in *. assert (P7 : 0 < / 10 ^ 7) by (apply Rinv_0_lt_compat, pow_lt; lra). assert (Pe : 0 < eps) by (apply Rmult_lt_0_compat; assumption).
  assert (Rk : rank_one A lam). { unfold rank_one, A, sym_of. cbn [a11 a12 a13 a22 a23 a33]. rewrite !H by lia. cbv [delta Nat.eqb]. cbn [Alg.f0 Alg.f1 ROps]. repeat split; ring. }
  rewrite Run, finish_none; [|cbn [sel]; rewrite (double_raw A eps lam Pe Rk), norm_zero3; exact Pe|cbn [sel]; rewrite (double_raw A eps lam Pe Rk), norm_zero3; exact Pe|cbn [sel]; rewrite (double_raw A eps lam Pe Rk), norm_zero3; exact Pe].
  cbn [bind]. eexists. split; [reflexivity|]. apply id_rows_eig; assumption.
Qed.
(** for the zero matrix the eigenvalues are never written: whatever the object held is returned *)
Theorem C77_zero_refuted : forall old (m : mat R), mrows m = 3%nat -> mcols m = 3%nat -> (forall r c, (r < 3)%nat -> (c < 3)%nat -> mel m r c = 0) -> exists E, eig3 old m = Ok E /\ e_vals E = old.
Proof.
  intros old m H1 H2 H. destruct (norm3_ok m H1 H2) as (N & E & HN). pose proof (proj2 (one_norm_zero _ _ HN) H) as Z. unfold eig3. rewrite E. cbn [bind]. rewrite Z. destruct (R_eqb 0 0) eqn:T; [eexists; split; reflexivity|]. exfalso. assert (R_eqb 0 0 = true) by (apply R_eqb_spec; reflexivity). congruence.
Qed.

(** ** Small matrices: the threshold compares a quadratic quantity with a linear one *)
Theorem C77_small_refuted : forall old (m : mat R) N, mrows m = 3%nat -> mcols m = 3%nat -> symm 3 (mel m) -> one_norm (mel m) N -> 0 < N <= / 10 ^ 9 ->
  exists E, eig3 old m = Ok E /\ (forall r c, (r < 3)%nat -> (c < 3)%nat -> mel (e_vecs E) r c = delta r c) /\
    (forall r c, (r < 3)%nat -> (c < 3)%nat -> r <> c -> mel m r c <> 0 -> ~ eigensystem 3 (mel m) E).
Proof.
  intros old m N H1 H2 S HN (PN & LN). destruct (eig3_run old m N H1 H2 S HN PN) as (e0 & e1 & e2 & He & Run).
  set (A := sym_of (mel m)) in *. pose proof (eigenvalues3_charp _ _ _ _ S He) as Ch. fold A in Ch. set (eps := / 10 ^ 7 * N) in *.
  assert (B : forall r c, (r < 3)%nat -> (c < 3)%nat -> Rabs (mel m r c) <= N).
  { intros r c Hr Hc. pose proof (proj1 HN c Hc) as L. rewrite S3 in L. pose proof (Rabs_pos (mel m 0%nat c)). pose proof (Rabs_pos (mel m 1%nat c)). pose proof (Rabs_pos (mel m 2%nat c)). destruct r as [|[|[|r]]]; [lra|lra|lra|lia]. }
  assert (Sm : forall l, charp A l = 0 -> norm1_3 (raw_vector A eps l) < eps).
  { intros l Z. assert (L : Rabs l <= 3 * N) by (apply (root_bound A e0 e1 e2 l N Ch); try (unfold A, sym_of; cbn [a11 a12 a13 a22 a23 a33]; apply B; lia); [lra|exact Z]).
    eapply Rle_lt_trans; [apply (raw_small A eps l N); try (unfold A, sym_of; cbn [a11 a12 a13 a22 a23 a33]; apply B; lia); exact L|]. unfold eps.
    assert (T : 81 * N < / 10 ^ 7). { apply (Rle_lt_trans _ (81 * / 10 ^ 9)); [lra|]. replace (/ 10 ^ 7) with (100 * / 10 ^ 9) by (field). assert (0 < / 10 ^ 9) by (apply Rinv_0_lt_compat, pow_lt; lra). lra. }
    replace (81 * (N * N)) with ((81 * N) * N) by ring. apply Rmult_lt_compat_r; [exact PN|exact T]. }
  rewrite Run, finish_none; [|cbn [sel]; apply Sm; rewrite <- Ch; ring|cbn [sel]; apply Sm; rewrite <- Ch; ring|cbn [sel]; apply Sm; rewrite <- Ch; ring].
  cbn [bind]. eexists. split; [reflexivity|]. cbn [e_vecs of_rows mel].
  assert (I : forall r c, (r < 3)%nat -> (c < 3)%nat -> v3_el (id_rows r) c = delta r c) by (intros [|[|[|r]]] [|[|[|c]]] Hr Hc; try lia; reflexivity).
  split; [exact I|]. intros r c Hr Hc Hn Nz Hs. apply Nz. destruct Hs as (_ & _ & _ & _ & _ & Hs). rewrite (Hs r c Hr Hc). cbn [e_vals e_vecs of_rows mel vat].
  transitivity (Sum 3 (fun _ => 0)); [apply S_ext|apply S_zero; reflexivity]. intros k Hk. cbn beta. rewrite !I by auto. unfold delta. destruct (k =? r)%nat eqn:K1; [|cbn [Alg.f0 ROps]; ring]. destruct (k =? c)%nat eqn:K2; [apply Nat.eqb_eq in K1, K2; lia|cbn [Alg.f0 ROps]; ring].
Qed.
(** ** Examples *)
Definition m3 (x11 x12 x13 x22 x23 x33 : R) : mat R := mkmat 3 3 (fun r c => match r, c with
  | 0%nat, 0%nat => x11 | 0%nat, 1%nat | 1%nat, 0%nat => x12 | 0%nat, 2%nat | 2%nat, 0%nat => x13 | 1%nat, 1%nat => x22 | 1%nat, 2%nat | 2%nat, 1%nat => x23 | _, _ => x33 end).
Lemma m3_symm x11 x12 x13 x22 x23 x33 : symm 3 (mel (m3 x11 x12 x13 x22 x23 x33)).
Proof. intros [|[|[|r]]] [|[|[|c]]] Hr Hc; try lia; reflexivity. Qed.
Lemma m3_norm x11 x12 x13 x22 x23 x33 N : 0 <= x11 -> 0 <= x12 -> 0 <= x13 -> 0 <= x22 -> 0 <= x23 -> 0 <= x33 -> x11 + x12 + x13 <= N -> x12 + x22 + x23 <= N -> x13 + x23 + x33 = N -> one_norm (mel (m3 x11 x12 x13 x22 x23 x33)) N.
Proof.
  intros P1 P2 P3 P4 P5 P6 L1 L2 L3. split.
  - intros [|[|[|c]]] Hc; [| | |lia]; rewrite S3; cbn [mel m3]; rewrite !Rabs_right by lra; lra.
  - exists 2%nat. split; [lia|]. rewrite S3. cbn [mel m3]. rewrite !Rabs_right by lra. lra.
Qed.
Ltac eigenvalues := split; [lra|]; intros x; rewrite det3 by apply m3_symm; unfold charp, sym_of; cbn [a11 a12 a13 a22 a23 a33 mel m3]; try ring; try field.
Lemma tiny : 0 < / 10 ^ 7 < / 1000.
Proof. split; [apply Rinv_0_lt_compat, pow_lt; lra|]. apply Rinv_lt_contravar; lra. Qed.
(** well separated: 1, 3, 5 *)
Example ex_separated : forall old, exists E, eig3 old (m3 2 1 0 2 0 5) = Ok E /\ eigensystem 3 (mel (m3 2 1 0 2 0 5)) E.
Proof.
  intros old. pose proof tiny. apply (C77_separated_partial old _ 5 1 3 5); try reflexivity; [apply m3_symm|apply m3_norm; lra|lra|eigenvalues|]. unfold gap. lra.
Qed.
(** repeated: 1, 3, 3 *)
Example ex_repeated : forall old, exists E, eig3 old (m3 2 1 0 2 0 3) = Ok E /\ eigensystem 3 (mel (m3 2 1 0 2 0 3)) E.
Proof.
  intros old. pose proof tiny. apply (C77_repeated_partial old _ 3 3 1); try reflexivity; [apply m3_symm|apply m3_norm; lra|lra|right; eigenvalues|lra|].
  intros Hs. pose proof (Hs 0%nat ltac:(lia)) as Hz. rewrite S3 in Hz. cbn [mel m3] in Hz. lra.
Qed.
(** repeated: 1, 1, 4 with (1,1,1) the eigenvector of 4 *)
Example C77_repeated_refuted_example : forall old, eig3 old (m3 2 1 1 2 1 2) = NonFinite.
Proof.
  intros old. pose proof tiny. apply (C77_repeated_refuted old _ 4 1 4); try reflexivity; [apply m3_symm|apply m3_norm; lra|lra|left; eigenvalues|lra|].
  intros [|[|[|r]]] Hr; [| | |lia]; rewrite S3; cbn [mel m3]; lra.
Qed.
Example ex_small : forall old, exists E, eig3 old (m3 (2 * / 10 ^ 10) (/ 10 ^ 10) 0 (2 * / 10 ^ 10) 0 (3 * / 10 ^ 10)) = Ok E /\ ~ eigensystem 3 (mel (m3 (2 * / 10 ^ 10) (/ 10 ^ 10) 0 (2 * / 10 ^ 10) 0 (3 * / 10 ^ 10))) E.
Proof.
  intros old. assert (P : 0 < / 10 ^ 10) by (apply Rinv_0_lt_compat, pow_lt; lra). destruct (C77_small_refuted old (m3 (2 * / 10 ^ 10) (/ 10 ^ 10) 0 (2 * / 10 ^ 10) 0 (3 * / 10 ^ 10)) (3 * / 10 ^ 10)) as (E & R & _ & K); try reflexivity; [apply m3_symm|apply m3_norm; lra|split; [lra|]|].
  - replace (/ 10 ^ 9) with (10 * / 10 ^ 10) by field. lra.
  - exists E. split; [exact R|]. apply (K 0%nat 1%nat); [lia|lia|lia|]. cbn [mel m3]. lra.
Qed.

(** ** One vector below the threshold: the wrong two rows are normalised *)
(** diag(0, 1.5e-7, 3e-7): the first two returned eigenvectors are not unit vectors *)
Theorem C77_one_small_refuted : forall old, exists E, eig3 old (m3 0 0 0 (3 / 2 * / 10 ^ 7) 0 (3 * / 10 ^ 7)) = Ok E /\
  Sum 3 (fun k => mel (e_vecs E) 0%nat k * mel (e_vecs E) 0%nat k) < / 10 ^ 20 /\ ~ eigensystem 3 (mel (m3 0 0 0 (3 / 2 * / 10 ^ 7) 0 (3 * / 10 ^ 7))) E.
Proof.
  intros old. pose proof tiny as (T1 & _). set (d := / 10 ^ 7) in *. set (m := m3 0 0 0 (3 / 2 * d) 0 (3 * d)).
  assert (HN : one_norm (mel m) (3 * d)) by (apply m3_norm; lra). destruct (eig3_run old m (3 * d) eq_refl eq_refl (m3_symm _ _ _ _ _ _) HN ltac:(lra)) as (f0 & f1 & f2 & Hf & Run).
  assert (HE : eigenvalues3 (mel m) 0 (3 / 2 * d) (3 * d)) by (unfold m; eigenvalues). destruct (eigenvalues3_unique _ _ _ _ _ _ _ Hf HE) as (-> & -> & ->). fold d in Run. rewrite Run. clear Run Hf HE.
  set (A := sym_of (mel m)). set (eps := d * (3 * d)). assert (Dd : 0 < d * d) by (apply Rmult_lt_0_compat; exact T1).
  assert (V0 : raw_vector A eps 0 = mk3 (9 / 2 * (d * d)) 0 0).
  { unfold raw_vector. assert (C1 : choice1 A 0 = mk3 0 0 0) by (unfold choice1, A, sym_of, m; cbn [a11 a12 a13 a22 a23 a33 mel m3]; f_equal; ring). assert (C2 : choice2 A 0 = mk3 0 0 0) by (unfold choice2, A, sym_of, m; cbn [a11 a12 a13 a22 a23 a33 mel m3]; f_equal; ring).
    rewrite C1, C2, norm_zero3. rewrite (ltb_true 0 eps) by (unfold eps; lra). replace (add3 (mk3 0 0 0) (mk3 0 0 0)) with (mk3 0 0 0) by (unfold add3; cbn [vx vy vz]; f_equal; ring). rewrite norm_zero3. rewrite (ltb_true 0 eps) by (unfold eps; lra).
    unfold add3, choice3, A, sym_of, m. cbn [a11 a12 a13 a22 a23 a33 mel m3 vx vy vz]. f_equal; field. }
  assert (V1 : raw_vector A eps (3 / 2 * d) = mk3 0 (- (9 / 4 * (d * d))) 0).
  { unfold raw_vector. assert (C1 : choice1 A (3 / 2 * d) = mk3 0 0 0) by (unfold choice1, A, sym_of, m; cbn [a11 a12 a13 a22 a23 a33 mel m3]; f_equal; field). rewrite C1, norm_zero3. rewrite (ltb_true 0 eps) by (unfold eps; lra).
    assert (C2 : add3 (mk3 0 0 0) (choice2 A (3 / 2 * d)) = mk3 0 (- (9 / 4 * (d * d))) 0) by (unfold add3, choice2, A, sym_of, m; cbn [a11 a12 a13 a22 a23 a33 mel m3 vx vy vz]; f_equal; field). rewrite C2.
    rewrite ltb_true by (unfold norm1_3; cbn [vx vy vz]; rewrite Rabs_R0, Rabs_Ropp, Rabs_right by lra; unfold eps; lra). unfold add3, choice3, A, sym_of, m. cbn [a11 a12 a13 a22 a23 a33 mel m3 vx vy vz]. f_equal; field. }
  assert (V2 : raw_vector A eps (3 * d) = mk3 0 0 (9 / 2 * (d * d))).
  { unfold raw_vector. assert (C1 : choice1 A (3 * d) = mk3 0 0 (9 / 2 * (d * d))) by (unfold choice1, A, sym_of, m; cbn [a11 a12 a13 a22 a23 a33 mel m3]; f_equal; field). rewrite C1.
    assert (B : R_ltb (norm1_3 (mk3 0 0 (9 / 2 * (d * d)))) eps = false) by (apply ltb_false; unfold norm1_3; cbn [vx vy vz]; rewrite Rabs_R0, Rabs_right by lra; unfold eps; lra). rewrite B, B. reflexivity. }
  unfold finish. cbn [sel]. rewrite V0, V1, V2.
  assert (N0 : norm1_3 (mk3 (9 / 2 * (d * d)) 0 0) = 9 / 2 * (d * d)) by (unfold norm1_3; cbn [vx vy vz]; rewrite Rabs_R0, Rabs_right by lra; ring). assert (N1 : norm1_3 (mk3 0 (- (9 / 4 * (d * d))) 0) = 9 / 4 * (d * d)) by (unfold norm1_3; cbn [vx vy vz]; rewrite Rabs_R0, Rabs_Ropp, Rabs_right by lra; ring).
  assert (N2 : norm1_3 (mk3 0 0 (9 / 2 * (d * d))) = 9 / 2 * (d * d)) by (unfold norm1_3; cbn [vx vy vz]; rewrite Rabs_R0, Rabs_right by lra; ring). rewrite N0, N1, N2.
  rewrite (ltb_true (9 / 4 * (d * d)) eps) by (unfold eps; lra). rewrite orb_true_r. cbn [orb]. unfold sort_pairs. cbn [fst]. rewrite (ltb_true (9 / 4 * (d * d)) (9 / 2 * (d * d))) by lra. cbn [fst]. rewrite R_ltb_irr. cbn [fst]. rewrite (ltb_false (9 / 2 * (d * d)) (9 / 4 * (d * d))) by lra. cbn [fst].
  rewrite (ltb_false (9 / 2 * (d * d)) eps) by (unfold eps; lra). cbn [negb]. unfold set_row3 at 1. cbn [Nat.eqb].
  assert (Q1 : 0 < dot3 (mk3 0 (- (9 / 4 * (d * d))) 0) (mk3 0 (- (9 / 4 * (d * d))) 0)) by (apply dot_pos; rewrite N1; lra). assert (Q2 : 0 < dot3 (mk3 0 0 (9 / 2 * (d * d))) (mk3 0 0 (9 / 2 * (d * d)))) by (apply dot_pos; rewrite N2; lra).
  rewrite (proj1 (normalize3_ok _ Q1)). cbn [bind]. unfold set_row3 at 1. cbn [Nat.eqb sel]. rewrite V2, (proj1 (normalize3_ok _ Q2)). cbn [bind]. eexists. split; [reflexivity|].
  cbn [e_vecs of_rows mel]. assert (D : Sum 3 (fun k => v3_el (mk3 (9 / 2 * (d * d)) 0 0) k * v3_el (mk3 (9 / 2 * (d * d)) 0 0) k) < / 10 ^ 20).
  { rewrite S3. cbn [v3_el vx vy vz]. replace (9 / 2 * (d * d) * (9 / 2 * (d * d)) + 0 * 0 + 0 * 0) with (81 / 4 * (d * d) * (d * d)) by field.
    replace (/ 10 ^ 20) with (10 ^ 8 * ((d * d) * (d * d))) by (unfold d; field). assert (0 < (d * d) * (d * d)) by (apply Rmult_lt_0_compat; exact Dd). rewrite Rmult_assoc. apply Rmult_lt_compat_r; lra. }
  unfold set_row3. cbn [Nat.eqb sel]. rewrite V0. split; [exact D|]. intros (_ & _ & _ & V & _). specialize (V 0%nat 0%nat ltac:(lia) ltac:(lia)). cbn [e_vecs of_rows mel Nat.eqb sel] in V. rewrite V0 in V.
  cbv [delta Nat.eqb] in V. cbn [Alg.f1 ROps] in V. rewrite V in D. assert (/ 10 ^ 20 < 1); [|lra]. rewrite <- Rinv_1. apply Rinv_lt_contravar; [lra|]. assert (1 < 10) by lra. lra.
Qed.
Print Assumptions C77_eigenvalues.
Print Assumptions C77_separated_partial.
Print Assumptions C77_repeated_partial.
Print Assumptions C77_repeated_refuted.
Print Assumptions C77_scalar_matrix.
Print Assumptions C77_zero_refuted.
Print Assumptions C77_small_refuted.
Print Assumptions C77_one_small_refuted.
