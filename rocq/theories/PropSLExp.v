(** * C92: SL<N>::exp and ln as maps between parameter vectors and matrices of determinant one. *)
From Coq Require Import Reals Arith Bool Lia Lra Psatz.
From Verif Require Import Base Alg Mat SpecMat LemMat Inst RSum RMat SpecLin LemDet LemDetMul LemFlDet2 SpecExp LemExp LemExp2 LemExpAdd LemDetExp ModelOps ModelHelpers ModelExp PropExp PropSqrt PropLog ModelSL LemSL PropSL ModelSLExp.
Open Scope outcome_scope.
Local Open Scope R_scope.

(** ** The exponential is a map into the matrices of determinant one, and a one-parameter group along each line *)
(** the determinant of a matrix exponential is the exponential of the trace *)
Theorem C92_determinant_of_exp : forall n A E, is_exp n A E -> @det R ROps n E = exp (Sum n (fun i => A i i)).
Proof. intros n A E H. exact (det_exp n A E H). Qed.
(** the matrix that SL::exp(v) computes an approximation of *)
Definition sl_exact (N : nat) (G : nat -> mat R) (v : nat -> R) (E : rmat) : Prop := is_exp N (@combination R ROps N G v) E.
Theorem C92_group : forall N G v, (1 <= N)%nat -> generators N G ->
  (exists E, sl_exact N G v E) /\
  (forall E, sl_exact N G v E -> @det R ROps N E = 1) /\
  (forall s t E F, sl_exact N G (fun i => s * v i) E -> sl_exact N G (fun i => t * v i) F -> sl_exact N G (fun i => (s + t) * v i) (mm N E F)) /\
  (forall E F, sl_exact N G v E -> sl_exact N G (fun i => - v i) F -> inverse_pair N E F) /\
  (forall E, (forall i, (i < N * N - 1)%nat -> v i = 0) -> sl_exact N G v E -> forall i j, (i < N)%nat -> (j < N)%nat -> E i j = delta i j).
Proof.
  intros N G v HN HG. assert (Sc : forall s i j, combination N G (fun k => s * v k) i j = s * combination N G v i j).
  { intros s i j. unfold combination. rewrite <- S_mul_l. apply S_ext. intros k Hk. cbn [fmul ROps]. ring. }
  refine (conj _ (conj _ (conj _ (conj _ _)))).
  - apply exp_exists.
  - intros E H. rewrite (det_exp N _ E H). unfold tr. rewrite <- exp_0. f_equal. destruct (C64_exp_matrix (F:=R) N G (mkvec (N * N - 1) v) HN HG) as [K _]. destruct (K eq_refl) as [_ T]. exact T.
  - intros s t E F HE HF. unfold sl_exact in *.
    apply (is_exp_ext N (fun i j => (s + t) * combination N G v i j) _ (mm N E F) _); [intros; symmetry; apply Sc|reflexivity|]. apply exp_add; [apply (is_exp_ext N _ _ E E (fun i j _ _ => Sc s i j) (fun _ _ _ _ => eq_refl) HE)|apply (is_exp_ext N _ _ F F (fun i j _ _ => Sc t i j) (fun _ _ _ _ => eq_refl) HF)].
  - intros E F HE HF. apply (exp_inverse N (combination N G v)); [exact HE|]. apply (is_exp_ext N (combination N G (fun i => - v i)) _ F F); [|reflexivity|exact HF]. intros i j Hi Hj. unfold combination. rewrite <- S_opp. apply S_ext. intros k Hk. cbn [fmul ROps]. ring.
  - intros E Z H. apply (exp_zero N). apply (is_exp_ext N (combination N G v) _ E E); [|reflexivity|exact H]. intros i j Hi Hj. unfold combination. apply S_zero. intros k Hk. rewrite Z by exact Hk. cbn [fmul ROps]. ring.
Qed.
(** ** What exp returns *)
Lemma exp_matrix_is N G (v : vec R) : (1 <= N)%nat -> generators N G -> vlen v = (N * N - 1)%nat -> exists t, sl_exp_matrix N v = Ok t /\ mat_is t N N (combination N G (vat v)).
Proof. intros HN HG Hv. destruct (C64_exp_matrix (F:=R) N G v HN HG) as [K _]. destruct (K Hv) as [H _]. exact H. Qed.
Lemma code_norm N (t : mat R) A a : mat_is t N N A -> 0 <= a -> norm_le N A a -> exists a', norminf_mat t = Ok a' /\ 0 <= a' <= a.
Proof.
  intros (T1 & T2 & T3) A0 NA. destruct (norm_code N t T1 T2) as (a' & E & P & _ & W). exists a'. split; [exact E|]. split; [exact P|]. destruct W as [->|(r & Hr & ->)]; [exact A0|].
  rewrite (S_ext N (fun c => Rabs (mel t r c)) (fun c => Rabs (A r c))) by (intros c Hc; rewrite T3 by assumption; reflexivity). apply NA. exact Hr.
Qed.
Definition exp_error (n : nat) (u eta a : R) : R := Rmax 1 (2 * a) * exp 1 * (u + INR n * eta) * exp a.
Lemma exp_error_mono n u eta a b : 0 <= u -> 0 <= eta -> 0 <= a <= b -> 0 <= exp_error n u eta a <= exp_error n u eta b.
Proof.
  intros U E [A0 AB]. unfold exp_error. pose proof (exp_pos 1). pose proof (exp_pos a). pose proof (pos_INR n). assert (0 <= u + INR n * eta) by nra. assert (0 < Rmax 1 (2 * a)) by (pose proof (Rmax_l 1 (2 * a)); lra). assert (Rmax 1 (2 * a) <= Rmax 1 (2 * b)) by (apply Rle_max_compat_l; lra).
  assert (exp a <= exp b) by (destruct AB as [L|<-]; [left; apply exp_increasing; exact L|lra]). split.
  - repeat apply Rmult_le_pos; lra.
  - apply Rmult_le_compat; [repeat apply Rmult_le_pos; lra|lra| |assumption]. apply Rmult_le_compat_r; [assumption|]. apply Rmult_le_compat_r; lra.
Qed.
Theorem C92_accurate : forall added u eta fuel N G (v : vec R) a E X, (1 <= N)%nat -> generators N G -> vlen v = (N * N - 1)%nat ->
  0 <= u -> 0 <= eta -> (forall x f, added x f = 0 -> Rabs f <= u * Rabs x + eta) -> 0 <= a -> norm_le N (combination N G (vat v)) a ->
  sl_exp added N fuel v = Ok X -> sl_exact N G (vat v) E ->
  mrows X = N /\ mcols X = N /\ norm_le N (fun i j => mel X i j - E i j) (Rmax 1 (2 * a) * exp 1 * (u + INR N * eta) * exp a).
Proof.
  intros added u eta fuel N G v a E X HN HG Hv U Et Hadd A0 NA Run HE. unfold sl_exp in Run. destruct (exp_matrix_is N G v HN HG Hv) as (t & Eq & T). rewrite Eq in Run. cbn [bind] in Run.
  destruct (code_norm N t _ a T A0 NA) as (a' & Ea & P). destruct T as (T1 & T2 & T3).
  destruct (C78_accurate added u eta fuel N t X a' E T1 T2 U Et Hadd Run Ea) as (X1 & X2 & X3).
  - apply (is_exp_ext N (combination N G (vat v)) _ E E); [intros; symmetry; apply T3; assumption|reflexivity|exact HE].
  - split; [exact X1|]. split; [exact X2|]. apply (norm_mono N _ _ _ (proj2 (exp_error_mono N u eta a' a U Et P)) X3).
Qed.
(** so its determinant is close to one *)
Theorem C92_unit_determinant : forall added u eta fuel N G (v : vec R) a X d, (1 <= N)%nat -> generators N G -> vlen v = (N * N - 1)%nat ->
  0 <= u -> 0 <= eta -> (forall x f, added x f = 0 -> Rabs f <= u * Rabs x + eta) -> 0 <= a -> norm_le N (combination N G (vat v)) a ->
  sl_exp added N fuel v = Ok X -> d = Rmax 1 (2 * a) * exp 1 * (u + INR N * eta) * exp a ->
  Rabs (@det R ROps N (mel X) - 1) <= INR (fact N) * ((exp a + d) ^ N - exp a ^ N).
Proof.
  intros added u eta fuel N G v a X d HN HG Hv U Et Hadd A0 NA Run Ed. destruct (C92_group N G (vat v) HN HG) as ([E HE] & Hdet & _).
  destruct (C92_accurate added u eta fuel N G v a E X HN HG Hv U Et Hadd A0 NA Run HE) as (_ & _ & Err).
  pose proof (norm_exp N _ E a A0 NA HE) as NE. pose proof (exp_error_mono N u eta a a U Et ltac:(lra)) as [D0 _]. unfold exp_error in D0. rewrite <- Ed in D0, Err. clear Ed. rewrite <- (Hdet E HE).
  rewrite (@det_ext R ROps N (mel X) (fun i j => E i j + (mel X i j - E i j))) by (intros; ring). apply det_change; [| |left; apply exp_pos|exact D0]; intros i j Hi Hj; [apply (norm_entry N E); assumption|apply (norm_entry N (fun i j => mel X i j - E i j)); assumption].
Qed.
(** exp returns for every vector that is not zero, up to size 2^30 *)
Theorem C92_returns : forall added eta N G (v : vec R) a, (1 <= N)%nat -> generators N G -> vlen v = (N * N - 1)%nat ->
  0 < eta -> (forall x f, Rabs f <= eta -> added x f = 0) -> (exists i, (i < N * N - 1)%nat /\ vat v i <> 0) -> norm_le N (combination N G (vat v)) a -> a <= 2 ^ 30 ->
  exists fuel X, forall fuel', (fuel <= fuel')%nat -> sl_exp added N fuel' v = Ok X.
Proof.
  intros added eta N G v a HN HG Hv Pe Hadd (k & Hk & Nz) NA La. destruct (exp_matrix_is N G v HN HG Hv) as (t & Eq & T).
  assert (A0 : 0 <= a). { specialize (NA 0%nat ltac:(lia)). pose proof (S_nonneg N (fun j => Rabs (combination N G (vat v) 0%nat j)) (fun j _ => Rabs_pos _)). lra. }
  destruct (code_norm N t _ a T A0 NA) as (a' & Ea & P0 & P1). pose proof T as (T1 & T2 & T3).
  assert (P : 0 < a').
  { destruct P0 as [P0|<-]; [exact P0|]. exfalso. destruct (norm_code N t T1 T2) as (z & Ez & _ & Nz' & _). rewrite Ea in Ez. injection Ez as <-.
    assert (Z : forall r c, (r < N)%nat -> (c < N)%nat -> combination N G (vat v) r c = 0).
    { intros r c Hr Hc. rewrite <- T3 by assumption. pose proof (norm_entry N (mel t) 0 r c Hr Hc Nz'). pose proof (Rabs_pos (mel t r c)). apply abs_eq_0. lra. }
    destruct (C64_basis (F:=R) N G (fun _ _ => 0) HN HG ltac:(apply S_zero; reflexivity)) as (w & _ & Uq). apply Nz. rewrite (Uq (vat v) Z k Hk). symmetry. apply (Uq (fun _ => 0)); [|exact Hk]. intros r c Hr Hc. unfold combination. apply S_zero. intros i Hi. cbn [fmul ROps]. ring. }
  destruct (C78_ends added eta N t a' T1 T2 Pe Hadd Ea ltac:(lra)) as (fuel & X & H). exists fuel, X. intros f' Hf. unfold sl_exp. rewrite Eq. cbn [bind]. apply H. exact Hf.
Qed.
(** The claim that exp of the zero vector is the identity does not follow from the code: it converts log2(0) to an int. *)
Theorem C92_zero_refuted : forall added fuel N (v : vec R), (1 <= N)%nat -> vlen v = (N * N - 1)%nat -> (forall i, (i < N * N - 1)%nat -> vat v i = 0) -> sl_exp added N fuel v = UB.
Proof.
  intros added fuel N v HN Hv Z. destruct (C64_generators (F:=R) N HN) as [(G & HG & _) _]. destruct (exp_matrix_is N G v HN HG Hv) as (t & Eq & T1 & T2 & T3). unfold sl_exp. rewrite Eq. cbn [bind]. apply (C78_zero_refuted added fuel N t T1 T2).
  intros i j Hi Hj. rewrite T3 by assumption. unfold combination. apply S_zero. intros k Hk. rewrite Z by exact Hk. cbn [fmul ROps]. ring.
Qed.
(** ** ln *)
(** what ln's vector stands for, N <= 3: the logarithm with its last diagonal element replaced to make the trace zero *)
Lemma ln_comb N G (l : mat R) : (1 <= N <= 3)%nat -> generators N G -> mrows l = N -> mcols l = N ->
  exists v, sl_ln_vector N l = Ok v /\ vlen v = (N * N - 1)%nat /\ forall r c, (r < N)%nat -> (c < N)%nat ->
    combination N G (vat v) r c = mel l r c - (if ((r =? N - 1) && (c =? N - 1))%nat%bool then tr N (mel l) else 0).
Proof.
  intros HN HG H1 H2. destruct (ln_vector_ok (F:=R) N l ltac:(lia) H1 H2) as (v & E & L & Dg & U).
  destruct (C64_ln_offdiagonal (F:=R) N G l ltac:(lia) HG H1 H2) as (v' & E' & _ & Off). rewrite E in E'. injection E' as <-.
  exists v. split; [exact E|]. split; [exact L|]. intros r c Hr Hc. destruct (Nat.eq_dec r c) as [<-|Hn].
  - rewrite (comb_lin (F:=R)) by (auto; lia). rewrite (lin_comb_diag (F:=R)) by lia. unfold diag_limit, count_diag in Dg. unfold tr.
    destruct N as [|[|[|[|N]]]]; try lia; cbn [sum].
    + assert (r = 0)%nat by lia. subst r. cbn [Nat.ltb Nat.leb Nat.sub Nat.eqb andb fsub fadd f0 ROps]. ring.
    + destruct r as [|[|r]]; [| |lia]; cbn [Nat.ltb Nat.leb Nat.sub Nat.eqb andb]; rewrite (Dg 0%nat) by lia; cbn [fsub fadd f0 ROps]; ring.
    + destruct r as [|[|[|r]]]; [| | |lia]; cbn [Nat.ltb Nat.leb Nat.sub Nat.eqb andb]; rewrite ?(Dg 0%nat), ?(Dg 1%nat) by lia; cbn [fsub fadd f0 ROps]; ring.
  - rewrite Off by assumption. destruct (Nat.eqb_spec r (N - 1)), (Nat.eqb_spec c (N - 1)); cbn [andb]; try lia; ring.
Qed.
(** the logarithm of a matrix of determinant one has trace zero: ln's vector is a parameter vector of the matrix, N <= 3 *)
Theorem C92_ln_partial : forall N G (l : mat R) M, (1 <= N <= 3)%nat -> generators N G -> mrows l = N -> mcols l = N ->
  is_exp N (mel l) M -> @det R ROps N M = 1 -> exists v, sl_ln_vector N l = Ok v /\ vlen v = (N * N - 1)%nat /\ sl_exact N G (vat v) M.
Proof.
  intros N G l M HN HG H1 H2 HE Hd. assert (T : tr N (mel l) = 0) by (apply exp_inv; rewrite exp_0, <- Hd; symmetry; apply det_exp; exact HE).
  destruct (C64_ln_partial (F:=R) N G l HN HG H1 H2 T) as (v & E & L & C). exists v. split; [exact E|]. split; [exact L|]. apply (is_exp_ext N (mel l) _ M M); [intros; symmetry; apply C; assumption|reflexivity|exact HE].
Qed.
(** The whole of ln, N <= 3, on a diagonalisable matrix of determinant one with positive eigenvalues. *)
Theorem C92_ln_accurate_partial : forall added minus u eta tol N G P Q p q d Lam fuel (M : mat R) v,
  (1 <= N <= 3)%nat -> generators N G -> inverse_pair N P Q -> 0 <= p -> 0 <= q -> norm_le N P p -> norm_le N Q q ->
  (forall k, (k < N)%nat -> 0 < d k) -> (forall k, (k < N)%nat -> Rabs (ln (d k)) <= Lam) -> mat_is M N N (eigmat N P d Q) -> @det R ROps N (mel M) = 1 ->
  0 <= u -> 0 <= eta -> 0 <= tol -> (forall x f, added x f = 0 -> Rabs f <= u * Rabs x + eta) -> (forall x y, minus x y = 0 -> Rabs (x - y) <= tol) ->
  6 * (p * q) * (q * (INR N * tol * p)) <= 1 ->
  sl_ln added minus N fuel M = Ok v ->
  exists L, is_exp N L (mel M) /\ vlen v = (N * N - 1)%nat /\
    norm_le N (fun i j => combination N G (vat v) i j - L i j) ((INR N + 1) * (p * (Rmax 1 (12 * (p * q) * Lam) * (2 * (p * q * (u + INR N * eta)) + q * (INR N * tol * p))) * q)).
Proof.
  intros added minus u eta tol N G P Q p q d Lam fuel M v HN HG PQ Pp Pq HP HQ Hd HLam Hm Hdet Pu Pe Pt Hadd Hmin Ht Run. unfold sl_ln in Run. apply bind_ok in Run. destruct Run as (L & RunL & Run).
  destruct (C80_accurate added minus u eta tol N P Q p q d Lam fuel M L PQ Pp Pq HP HQ Hd HLam Hm Pu Pe Pt Hadd Hmin Ht RunL) as (l & (L1 & L2 & L3) & Hl).
  set (dl := Rmax 1 (12 * (p * q) * Lam) * (2 * (p * q * (u + INR N * eta)) + q * (INR N * tol * p))) in *.
  set (LM := eigmat N P (fun k => ln (d k)) Q). assert (HX : is_exp N LM (mel M)).
  { apply (is_exp_ext N LM _ (eigmat N P d Q) _); [reflexivity|intros; symmetry; apply Hm; assumption|apply C80_logarithm; assumption]. }
  assert (TL : tr N LM = 0) by (apply exp_inv; rewrite exp_0, <- Hdet; symmetry; apply det_exp; exact HX).
  assert (D0 : 0 <= dl). { pose proof (Rmax_l 1 (12 * (p * q) * Lam)). pose proof (pos_INR N). unfold dl. apply Rmult_le_pos; [lra|]. assert (0 <= p * q) by nra. assert (0 <= u + INR N * eta) by nra. assert (0 <= p * q * (u + INR N * eta)) by nra. assert (0 <= INR N * tol * p) by (repeat apply Rmult_le_pos; lra). nra. }
  assert (ND : norm_le N (fun i j => mel L i j - LM i j) (p * dl * q)).
  { apply (norm_ext N (eigmat N P (fun k => l k - ln (d k)) Q)); [|apply conj_norm; assumption]. intros i j Hi Hj. rewrite L3 by assumption. unfold LM, eigmat. rewrite <- S_sub. apply S_ext. intros k Hk. ring. }
  destruct (ln_comb N G L HN HG L1 L2) as (v' & Ev & Lv & Cv). rewrite Run in Ev. injection Ev as <-. exists LM. split; [exact HX|]. split; [exact Lv|].
  assert (TD : Rabs (tr N (mel L)) <= INR N * (p * dl * q)).
  { replace (tr N (mel L)) with (tr N (fun i j => mel L i j - LM i j)) by (unfold tr in *; rewrite S_sub, TL; ring). apply tr_bound. intros i j Hi Hj. apply (norm_entry N (fun i j => mel L i j - LM i j)); assumption. }
  set (B := p * dl * q) in *. assert (ND2 : norm_le N (fun i j => - (if ((i =? N - 1) && (j =? N - 1))%nat%bool then tr N (mel L) else 0)) (INR N * B)).
  { intros i Hi. assert (B0 : 0 <= B) by (unfold B; apply Rmult_le_pos; [apply Rmult_le_pos|]; assumption). pose proof (pos_INR N) as PN. destruct (Nat.eqb_spec i (N - 1)) as [->|Hn]; cbn [andb].
    - destruct N as [|m]; [lia|]. replace (S m - 1)%nat with m in * by lia. change (Sum (S m) ?f) with (Sum m f + f m). cbn beta. rewrite Nat.eqb_refl. rewrite S_zero; [rewrite Rabs_Ropp; lra|]. intros j Hj. destruct (Nat.eqb_spec j m); [lia|]. rewrite Ropp_0. apply Rabs_R0.
    - rewrite S_zero; [nra|]. intros j Hj. rewrite Ropp_0. apply Rabs_R0. }
  replace ((INR N + 1) * B) with (B + INR N * B) by ring. refine (norm_ext N _ _ _ _ (norm_add N _ _ _ _ ND ND2)). intros i j Hi Hj. cbn beta. rewrite (Cv i j Hi Hj). ring.
Qed.
(** ** The hypotheses are met *)
(** the shear [1 1; 0 1] is the exponential of the vector (0, 1/2, -1/2) *)
Definition shear_v : vec R := mkvec 3 (fun i => match i with 0%nat => 0 | 1%nat => 1 / 2 | _ => -1 / 2 end).
Lemma shear_comb G : generators 2 G -> forall i j, (i < 2)%nat -> (j < 2)%nat -> combination 2 G (vat shear_v) i j = mel shear i j.
Proof.
  intros HG i j Hi Hj. assert (E0 := HG 0%nat ltac:(cbn; lia)). assert (E1 := HG 1%nat ltac:(cbn; lia)). assert (E2 := HG 2%nat ltac:(cbn; lia)).
  cbn in E0, E1, E2. injection E0 as E0. injection E1 as E1. injection E2 as E2. unfold combination. cbn [Nat.mul Nat.add Nat.sub sum shear_v vat]. rewrite <- E0, <- E1, <- E2. unfold shear.
  destruct i as [|[|i]]; [| |lia]; (destruct j as [|[|j]]; [| |lia]); cbn; lra.
Qed.
Example C92_nonvac : forall eta, 0 < eta -> exists G fuel X, generators 2 G /\ norm_le 2 (combination 2 G (vat shear_v)) 1 /\ sl_exp (threshold eta) 2 fuel shear_v = Ok X /\
  sl_exact 2 G (vat shear_v) (fun i j => delta i j + mel shear i j) /\
  norm_le 2 (fun i j => mel X i j - (delta i j + mel shear i j)) (Rmax 1 (2 * 1) * exp 1 * (0 + INR 2 * eta) * exp 1).
Proof.
  intros eta P. destruct (C64_generators (F:=R) 2 ltac:(lia)) as [(G & HG & _) _]. destruct (C78_threshold eta P) as [T1 T2].
  assert (NA : norm_le 2 (combination 2 G (vat shear_v)) 1). { intros i Hi. rewrite (S_ext 2 (fun j => Rabs (combination 2 G (vat shear_v) i j)) (fun j => Rabs (mel shear i j))) by (intros j Hj; rewrite shear_comb by assumption; reflexivity). destruct i as [|[|i]]; [| |lia]; cbn; rewrite ?Rabs_R0, ?Rabs_R1; lra. }
  destruct (C92_returns (threshold eta) eta 2 G shear_v 1 ltac:(lia) HG eq_refl P T1) as (fuel & X & H).
  - exists 1%nat. split; [cbn; lia|]. cbn. lra.
  - exact NA.
  - apply pow_R1_Rle. lra.
  - specialize (H fuel (le_n fuel)). exists G, fuel, X. assert (HE : sl_exact 2 G (vat shear_v) (fun i j => delta i j + mel shear i j)). { apply (is_exp_ext 2 (mel shear) _ (fun i j => delta i j + mel shear i j) _); [intros; symmetry; apply shear_comb; assumption|reflexivity|exact shear_exp]. }
    refine (conj HG (conj NA (conj H (conj HE _)))). apply (C92_accurate (threshold eta) 0 eta fuel 2 G shear_v 1 _ X); try assumption; try reflexivity; try lra; lia.
Qed.
(** ln of the symmetric matrix [5/4 3/4; 3/4 5/4], with eigenvalues 2 and 1/2 *)
Definition ev2 (k : nat) : R := match k with 0%nat => 2 | _ => 1 / 2 end.
Definition boost : mat R := mkmat 2 2 (fun i j => if (i =? j)%nat then 5 / 4 else 3 / 4).
Example C92_nonvac_ln : forall tol eta, 0 < tol <= 1 / 64 -> 0 < eta -> exists G fuel v L, generators 2 G /\ sl_ln (threshold eta) (close tol) 2 fuel boost = Ok v /\ is_exp 2 L (mel boost) /\
  norm_le 2 (fun i j => combination 2 G (vat v) i j - L i j) ((INR 2 + 1) * (2 * (Rmax 1 (12 * (2 * 1) * ln 2) * (2 * (2 * 1 * (0 + INR 2 * eta)) + 1 * (INR 2 * tol * 2))) * 1)).
Proof.
  intros tol eta [Pt Lt] Pe. destruct (close_ok tol Pt) as [C1 C2]. destruct (C78_threshold eta Pe) as [T1 T2]. destruct (C64_generators (F:=R) 2 ltac:(lia)) as [(G & HG & _) _].
  assert (PQ : inverse_pair 2 mixer (mscal (1 / 2) mixer)). { intros i j Hi Hj. destruct i as [|[|i]]; [| |lia]; (destruct j as [|[|j]]; [| |lia]); unfold mm, mscal, mixer, delta; cbn; split; lra. }
  assert (Hm : mat_is boost 2 2 (eigmat 2 mixer ev2 (mscal (1 / 2) mixer))). { split; [reflexivity|]. split; [reflexivity|]. intros i j Hi Hj. destruct i as [|[|i]]; [| |lia]; (destruct j as [|[|j]]; [| |lia]); unfold eigmat, mscal, mixer, ev2; cbn; lra. }
  assert (Hd : forall k, (k < 2)%nat -> 0 < ev2 k) by (intros [|k] _; cbn; lra).
  assert (A1 : Rabs (-1) = 1) by (rewrite Rabs_left; lra).
  assert (HP : norm_le 2 mixer 2). { intros i Hi. destruct i as [|[|i]]; [| |lia]; cbn; rewrite ?A1, ?Rabs_R1; lra. }
  assert (HQ : norm_le 2 (mscal (1 / 2) mixer) 1). { intros i Hi. unfold mscal. destruct i as [|[|i]]; [| |lia]; cbn; rewrite ?Rabs_mult, ?A1, ?Rabs_R1, ?(Rabs_right (1 / 2)) by lra; lra. }
  assert (I2 : INR 2 = 2) by reflexivity.
  assert (L2 : 0 < ln 2) by (rewrite <- ln_1; apply ln_increasing; lra).
  destruct (C80_ends (threshold eta) (close tol) eta tol tol 2 mixer (mscal (1 / 2) mixer) 2 1 ev2 boost PQ) as (fuel & l & HL); try assumption; try lra; [rewrite I2; lra|]. specialize (HL fuel (le_n _)).
  destruct (C80_accurate (threshold eta) (close tol) 0 eta tol 2 mixer (mscal (1 / 2) mixer) 2 1 ev2 (ln 2) fuel boost l PQ) as (e & (l1 & l2 & _) & _); try assumption; try lra.
  { intros k Hk. destruct k as [|k]; cbn [ev2]; [rewrite Rabs_right; lra|]. replace (1 / 2) with (/ 2) by lra. rewrite ln_Rinv, Rabs_Ropp, Rabs_right; lra. }
  { rewrite I2. lra. }
  destruct (ln_comb 2 G l ltac:(lia) HG l1 l2) as (v & Ev & _). assert (Run : sl_ln (threshold eta) (close tol) 2 fuel boost = Ok v) by (unfold sl_ln; rewrite HL; exact Ev).
  destruct (C92_ln_accurate_partial (threshold eta) (close tol) 0 eta tol 2 G mixer (mscal (1 / 2) mixer) 2 1 ev2 (ln 2) fuel boost v ltac:(lia) HG PQ) as (L & HX & _ & HN); try assumption; try lra.
  { intros k Hk. destruct k as [|k]; cbn [ev2]; [rewrite Rabs_right; lra|]. replace (1 / 2) with (/ 2) by lra. rewrite ln_Rinv, Rabs_Ropp, Rabs_right; lra. }
  { cbn. lra. }
  { rewrite I2. lra. }
  exists G, fuel, v, L. split; [exact HG|]. split; [exact Run|]. split; [exact HX|exact HN].
Qed.
Print Assumptions C92_group.
Print Assumptions C92_accurate.
Print Assumptions C92_ln_accurate_partial.
