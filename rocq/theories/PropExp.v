(** * C78: the matrix exponential *)
From Coq Require Import Reals ZArith Arith Bool Lia Lra.
From Verif Require Import Base Alg Inst Mat SpecMat LemMat LemOps LemObjects LemHelpers ModelOps ModelObjects ModelHelpers ModelGauss RSum LemEig LemEig3 ModelExp SpecExp LemExp LemExp2.
Open Scope outcome_scope.
Local Open Scope R_scope.

(** ** The specification: the exponential of a square matrix exists, is unique, is the ordinary
    exponential on 1 x 1 matrices. *)
Theorem C78_defined : forall n A, (exists E, is_exp n A E) /\
  (forall E F, is_exp n A E -> is_exp n A F -> forall i j, (i < n)%nat -> (j < n)%nat -> E i j = F i j).
Proof. intros n A. split; [apply exp_exists|intros E F HE HF; exact (exp_unique n A E F HE HF)]. Qed.
Lemma mpow_one A k : mpow 1 A k 0%nat 0%nat = A 0%nat 0%nat ^ k.
Proof. induction k as [|k I]; [reflexivity|]. cbn [mpow pow]. rewrite <- I. unfold mm. cbn [sum]. cbn [fadd f0 ROps]. ring. Qed.
Theorem C78_scalar : forall A E, is_exp 1 A E -> E 0%nat 0%nat = exp (A 0%nat 0%nat).
Proof.
  intros A E H. rewrite is_exp_iff in H. specialize (H 0%nat 0%nat ltac:(lia) ltac:(lia)). eapply UL_sequence; [exact H|]. apply (cv_ext (spsum (A 0%nat 0%nat))); [|apply spsum_cv].
  intros N. apply S_ext. intros k Hk. rewrite mpow_one. reflexivity.
Qed.
(** ** What the code does, step by step *)
Lemma exp_unfold added n (m : mat R) a : mrows m = n -> mcols m = n -> norminf_mat m = Ok a -> a <> 0 -> (halvings a <= 30)%nat ->
  exists ms, mat_is ms n n (fun i j => mel m i j / 2 ^ halvings a) /\ forall fuel, exp_mat added fuel m = (r <- exp_taylor added fuel ms ;; for_ 0 (halvings a) (fun _ r => mmul r r) r).
Proof.
  intros Hr Hc Ha Hn Hs. assert (P2 : 2 ^ halvings a <> 0) by (apply pow_nonzero; lra).
  destruct (divs_is n m (mel m) (2 ^ halvings a) P2) as (ms & E & Hm); [split; [exact Hr|split; [exact Hc|reflexivity]]|]. exists ms. split; [exact Hm|].
  intros fuel. unfold exp_mat. rewrite same_size_eq by congruence. cbn [bind]. rewrite Ha. cbn [bind]. destruct (R_eqb a 0) eqn:Z; [apply R_eqb_spec in Z; contradiction|]. fold (halvings a).
  destruct (Nat.leb_spec 31 (halvings a)) as [|_]; [lia|]. rewrite E. reflexivity.
Qed.
(** ** Accuracy. The while loop stops when rounding absorbs the next term; if that means the term is
    relatively below u, or below eta outright (u the unit roundoff, eta the underflow threshold), the result
    is within max(1, 2|m|) e (u + n eta) e^|m| of the exponential, in the infinity norm. *)
Theorem C78_accurate : forall added u eta fuel n (m X : mat R) a E, mrows m = n -> mcols m = n ->
  0 <= u -> 0 <= eta -> (forall x f, added x f = 0 -> Rabs f <= u * Rabs x + eta) ->
  exp_mat added fuel m = Ok X -> norminf_mat m = Ok a -> is_exp n (mel m) E ->
  mrows X = n /\ mcols X = n /\ norm_le n (fun i j => mel X i j - E i j) (Rmax 1 (2 * a) * exp 1 * (u + INR n * eta) * exp a).
Proof.
  intros added u eta fuel n m X a E Hr Hc Pu Pe Hadd Run Ha HE.
  destruct (norm_code n m Hr Hc) as (a' & Ea & Pa & Na & _). rewrite Ha in Ea. injection Ea as <-.
  assert (D : a <> 0 /\ (halvings a <= 30)%nat).
  { unfold exp_mat in Run. rewrite same_size_eq in Run by congruence. cbn [bind] in Run. rewrite Ha in Run. cbn [bind] in Run. destruct (R_eqb a 0) eqn:Z; [discriminate|]. fold (halvings a) in Run.
    split; [intros C; apply R_eqb_spec in C; congruence|]. destruct (Nat.leb_spec 31 (halvings a)); [discriminate|lia]. }
  destruct D as [Hn Hs]. assert (Pa' : 0 < a) by lra. destruct (exp_unfold added n m a Hr Hc Ha Hn Hs) as (ms & Hms & Em). rewrite Em in Run. clear Em. apply bind_ok in Run. destruct Run as (T & ET & Run).
  set (s := halvings a) in *. pose proof (pow_lt 2 s ltac:(lra)) as P2. set (A := fun i j => mel m i j / 2 ^ s) in *. set (b := a / 2 ^ s).
  assert (Pb : 0 <= b) by (apply Rmult_le_pos; [lra|left; apply Rinv_0_lt_compat; exact P2]).
  assert (b1 : b <= 1). { pose proof (proj1 (halvings_le a s Pa') (le_n _)) as K. unfold b. apply Rmult_le_reg_r with (2 ^ s); [exact P2|]. replace (a / 2 ^ s * 2 ^ s) with a by (field; lra). lra. }
  assert (NA : norm_le n A b). { unfold A, b. apply (norm_ext n (fun i j => / 2 ^ s * mel m i j)); [intros; unfold Rdiv; ring|]. replace (a / 2 ^ s) with (Rabs (/ 2 ^ s) * a); [apply norm_scale; exact Na|]. rewrite Rabs_right; [unfold Rdiv; ring|]. left. apply Rinv_0_lt_compat. exact P2. }
  destruct (exp_taylor_start added n A ms Hms) as (r0 & f0' & Hr0 & Hf0 & Et). rewrite Et in ET. destruct (exp_loop_ok added n A ms Hms fuel 0 r0 f0' T Hr0 Hf0 ET) as (N & HT & Habs).
  destruct (exp_exists n A) as [EA HEA].
  assert (NT : norm_le n (psum n A N) (exp b)) by (apply (norm_mono n _ (spsum b N)); [apply spsum_le; exact Pb|apply norm_psum; assumption]).
  assert (NE : norm_le n EA (exp b)) by (apply (norm_exp n A); assumption).
  assert (NF : norm_le n (tterm n A N) ((u + INR n * eta) * exp b)).
  { intros i Hi. eapply Rle_trans; [apply (S_le n _ (fun j => u * Rabs (psum n A N i j) + eta)); intros j Hj; apply Hadd; apply Habs; assumption|].
    rewrite S_add, S_mul_l. assert (Sc : Sum n (fun _ => eta) = INR n * eta). { clear. induction n as [|n I]; [cbn [sum INR]; cbn [f0 ROps]; ring|]. rewrite S_S, I, S_INR. ring. } rewrite Sc.
    pose proof (NT i Hi) as K. apply (Rmult_le_compat_l u) in K; [|exact Pu]. assert (1 <= exp b) by (rewrite <- exp_0; destruct Pb as [Pb| <-]; [left; apply exp_increasing; exact Pb|lra]).
    assert (0 <= INR n * eta) by (apply Rmult_le_pos; [apply pos_INR|exact Pe]). nra. }
  assert (Pphi : 0 <= (u + INR n * eta) * exp b) by (apply Rmult_le_pos; [|left; apply exp_pos]; pose proof (Rmult_le_pos _ _ (pos_INR n) Pe); lra).
  assert (NT1 : norm_le n (fun i j => psum n A N i j - EA i j) ((u + INR n * eta) * exp b * exp 1)).
  { intros i Hi. rewrite (S_ext n _ (fun j => Rabs (EA i j - psum n A N i j))) by (intros; apply Rabs_minus_sym). revert i Hi. apply (tail_bound n A EA N); [apply (norm_mono n A b); assumption|exact HEA|exact Pphi|exact NF]. }
  destruct (square_loop n s T _ HT) as (X' & EX & X1 & X2 & X3). rewrite EX in Run. injection Run as ->. split; [exact X1|]. split; [exact X2|].
  assert (Pd : 0 <= (u + INR n * eta) * exp b * exp 1) by (apply Rmult_le_pos; [exact Pphi|left; apply exp_pos]).
  pose proof (sq_error n (psum n A N) EA b _ s Pd NT NE NT1) as NS.
  assert (HE2 : is_exp n (mel m) (sq_iter n EA s)). { apply (is_exp_ext n (fun i j => 2 ^ s * A i j) _ (sq_iter n EA s) _); [intros; unfold A; field; lra|reflexivity|apply sq_exp; exact HEA]. }
  apply (norm_ext n (fun i j => sq_iter n (psum n A N) s i j - sq_iter n EA s i j)).
  - intros i j Hi Hj. rewrite X3 by assumption. rewrite (exp_unique n (mel m) E _ HE HE2) by assumption. reflexivity.
  - eapply norm_mono; [|exact NS]. replace (2 ^ s * ((u + INR n * eta) * exp b * exp 1) * exp (b * (2 ^ s - 1))) with (2 ^ s * (exp 1 * (u + INR n * eta) * exp a)).
    + replace (Rmax 1 (2 * a) * exp 1 * (u + INR n * eta) * exp a) with (Rmax 1 (2 * a) * (exp 1 * (u + INR n * eta) * exp a)) by ring. apply Rmult_le_compat_r; [|apply halvings_max; exact Pa'].
      pose proof (Rmult_le_pos _ _ (pos_INR n) Pe). apply Rmult_le_pos; [apply Rmult_le_pos; [left; apply exp_pos|lra]|left; apply exp_pos].
    + replace a with (b + b * (2 ^ s - 1)) at 1 by (unfold b; field; lra). rewrite exp_plus. ring.
Qed.
(** ** Termination: the loop ends whenever small enough terms are absorbed. *)
Lemma tterm_small n A eta : norm_le n A 1 -> 0 < eta -> exists N, forall i j, (i < n)%nat -> (j < n)%nat -> Rabs (tterm n A N i j) <= eta.
Proof.
  intros HA Pe. destruct (cv_speed_pow_fact 1 eta Pe) as [N HN]. specialize (HN N (le_n N)). unfold R_dist in HN. rewrite Rminus_0_r, pow1 in HN. exists N. intros i j Hi Hj. unfold tterm, Rdiv. rewrite Rabs_mult. pose proof (Rinv_0_lt_compat _ (fact_pos N)) as P. rewrite (Rabs_right (/ INR (fact N))) by lra.
  pose proof (norm_entry n (mpow n A N) (1 ^ N) i j Hi Hj (norm_mpow n A 1 N ltac:(lra) HA)) as K. rewrite pow1 in K. unfold Rdiv in HN. rewrite Rmult_1_l, (Rabs_right (/ INR (fact N))) in HN by lra. nra.
Qed.
Lemma loop_mono added (ms : mat R) : forall fuel K (r f X : mat R), exp_loop added fuel ms r f K = Ok X -> forall fuel', (fuel <= fuel')%nat -> exp_loop added fuel' ms r f K = Ok X.
Proof.
  induction fuel as [|fuel I]; intros K r f X E fuel' L; [discriminate|]. destruct fuel' as [|fuel']; [lia|]. cbn [exp_loop] in *.
  destruct (grow added r f) as [d| | | | |]; cbn [bind] in *; try discriminate. destruct (norminf_mat d) as [nd| | | | |]; cbn [bind] in *; try discriminate. destruct (R_ltb 0 nd); [|exact E].
  destruct (madd_assign r f) as [r'| | | | |]; cbn [bind] in *; try discriminate. destruct (mmul ms f) as [p| | | | |]; cbn [bind] in *; try discriminate. destruct (mdivs p K) as [f'| | | | |]; cbn [bind] in *; try discriminate. apply (I (K + 1) r' f'); [exact E|lia].
Qed.
Lemma ends_at added n (m : mat R) a N : mrows m = n -> mcols m = n -> norminf_mat m = Ok a -> a <> 0 -> (halvings a <= 30)%nat ->
  absorbed added n (psum n (fun i j => mel m i j / 2 ^ halvings a) N) (tterm n (fun i j => mel m i j / 2 ^ halvings a) N) ->
  exists fuel X, forall fuel', (fuel <= fuel')%nat -> exp_mat added fuel' m = Ok X.
Proof.
  intros Hr Hc Ha Hn Hs Habs. destruct (exp_unfold added n m a Hr Hc Ha Hn Hs) as (ms & Hm & Em). set (s := halvings a) in *. set (A := fun i j => mel m i j / 2 ^ s) in *.
  destruct (exp_taylor_start added n A ms Hm) as (r & f & Hr0 & Hf0 & Et). destruct (exp_loop_ends added n A ms N Hm Habs (S N) 0 r f ltac:(lia) ltac:(lia) Hr0 Hf0) as [T HT].
  destruct (exp_loop_ok added n A ms Hm (S N) 0 r f T Hr0 Hf0 HT) as (N' & HTm & _). destruct (square_loop n s T _ HTm) as (X & EX & _). exists (S N), X. intros fuel' L.
  rewrite Em, Et, (loop_mono added ms (S N) _ r f T HT fuel' L). cbn [bind]. exact EX.
Qed.
Theorem C78_ends : forall added eta n (m : mat R) a, mrows m = n -> mcols m = n -> 0 < eta -> (forall x f, Rabs f <= eta -> added x f = 0) ->
  norminf_mat m = Ok a -> 0 < a <= 2 ^ 30 -> exists fuel X, forall fuel', (fuel <= fuel')%nat -> exp_mat added fuel' m = Ok X.
Proof.
  intros added eta n m a Hr Hc Pe Hadd Ha [Pa La].
  destruct (norm_code n m Hr Hc) as (a' & Ea & _ & Na & _). rewrite Ha in Ea. injection Ea as <-.
  assert (Hs : (halvings a <= 30)%nat) by (apply halvings_le; assumption).
  pose proof (pow_lt 2 (halvings a) ltac:(lra)) as P2.
  assert (NA : norm_le n (fun i j => mel m i j / 2 ^ halvings a) 1). { apply (norm_mono n _ (Rabs (/ 2 ^ halvings a) * a)).
    - rewrite Rabs_right by (left; apply Rinv_0_lt_compat; exact P2). pose proof (proj1 (halvings_le a (halvings a) Pa) (le_n _)) as K. apply Rmult_le_reg_l with (2 ^ halvings a); [exact P2|]. replace (2 ^ halvings a * (/ 2 ^ halvings a * a)) with a by (field; lra). lra.
    - apply (norm_ext n (fun i j => / 2 ^ halvings a * mel m i j)); [intros; unfold Rdiv; ring|]. apply norm_scale. exact Na. }
  destruct (tterm_small n _ eta NA Pe) as [N HN]. apply (ends_at added n m a N); try assumption; [lra|]. intros i j Hi Hj. apply Hadd. apply HN; assumption.
Qed.
(** ** In exact arithmetic ((x + f) - x = f): exact for a nilpotent matrix, endless for every other *)
Theorem C78_nilpotent : forall n (m : mat R) a K E, mrows m = n -> mcols m = n -> norminf_mat m = Ok a -> 0 < a <= 2 ^ 30 ->
  (forall i j, (i < n)%nat -> (j < n)%nat -> mpow n (mel m) K i j = 0) -> is_exp n (mel m) E ->
  exists fuel X, (forall fuel', (fuel <= fuel')%nat -> exp_mat (fun _ f => f) fuel' m = Ok X) /\ mat_is X n n E.
Proof.
  intros n m a K E Hr Hc Ha [Pa La] HK HE. assert (Hs : (halvings a <= 30)%nat) by (apply halvings_le; assumption).
  destruct (ends_at (fun _ f => f) n m a K Hr Hc Ha ltac:(lra) Hs) as (fuel & X & HX).
  - intros i j Hi Hj. unfold tterm. rewrite (mpow_ext n _ (fun i j => / 2 ^ halvings a * mel m i j)) by (try exact Hi; intros; unfold Rdiv; ring). rewrite mpow_scale, HK by assumption. unfold Rdiv. ring.
  - exists fuel, X. split; [exact HX|].
    destruct (C78_accurate (fun _ f => f) 0 0 fuel n m X a E Hr Hc ltac:(lra) ltac:(lra)) as (X1 & X2 & X3); [|apply HX; lia|exact Ha|exact HE|].
    + intros x f ->. rewrite Rabs_R0. lra.
    + split; [exact X1|]. split; [exact X2|]. intros i j Hi Hj. pose proof (norm_entry n _ _ i j Hi Hj X3) as B. cbn beta in B. replace (Rmax 1 (2 * a) * exp 1 * (0 + INR n * 0) * exp a) with 0 in B by ring.
      pose proof (Rabs_pos (mel X i j - E i j)). destruct (Req_dec (mel X i j - E i j) 0) as [|N]; [lra|]. apply Rabs_pos_lt in N. lra.
Qed.
Theorem C78_endless : forall n (m : mat R) a, mrows m = n -> mcols m = n -> norminf_mat m = Ok a -> 0 < a <= 2 ^ 30 ->
  (forall K, exists i j, (i < n)%nat /\ (j < n)%nat /\ mpow n (mel m) K i j <> 0) -> forall fuel, exp_mat (fun _ f => f) fuel m = OutOfFuel.
Proof.
  intros n m a Hr Hc Ha [Pa La] HK fuel. assert (Hs : (halvings a <= 30)%nat) by (apply halvings_le; assumption).
  destruct (exp_unfold (fun _ f => f) n m a Hr Hc Ha ltac:(lra) Hs) as (ms & Hm & Em). rewrite Em. set (s := halvings a) in *. set (A := fun i j => mel m i j / 2 ^ s) in *.
  destruct (exp_taylor_start (fun _ f => f) n A ms Hm) as (r & f & Hr0 & Hf0 & Et). rewrite Et, (exp_loop_runs (fun _ f => f) n A ms Hm); [reflexivity| |exact Hr0|exact Hf0].
  intros K C. destruct (HK K) as (i & j & Hi & Hj & N). apply N. specialize (C i j Hi Hj). cbn beta in C. unfold tterm, A in C. rewrite (mpow_ext n _ (fun i j => / 2 ^ s * mel m i j)) in C by (try exact Hi; intros; unfold Rdiv; ring). rewrite mpow_scale in C.
  pose proof (fact_pos K) as F. assert (P : 0 < (/ 2 ^ s) ^ K) by (apply pow_lt; apply Rinv_0_lt_compat; apply pow_lt; lra). apply Rmult_integral in C. destruct C as [C|C]; [apply Rmult_integral in C; destruct C; [lra|assumption]|]. apply Rinv_0_lt_compat in F. lra.
Qed.
(** ** Limits of the domain *)
Theorem C78_zero_refuted : forall added fuel n (m : mat R), mrows m = n -> mcols m = n -> (forall i j, (i < n)%nat -> (j < n)%nat -> mel m i j = 0) -> exp_mat added fuel m = UB.
Proof.
  intros added fuel n m Hr Hc Z. unfold exp_mat. rewrite same_size_eq by congruence. cbn [bind]. destruct (norm_code n m Hr Hc) as (a & E & P & _ & W). rewrite E. cbn [bind].
  assert (a = 0) as -> by (destruct W as [->|(r & Hr' & ->)]; [reflexivity|]; apply S_zero; intros; rewrite Z by assumption; apply Rabs_R0). destruct (R_eqb 0 0) eqn:Q; [reflexivity|]. exfalso. assert (R_eqb 0 0 = true) by (apply R_eqb_spec; reflexivity). congruence.
Qed.
Theorem C78_large_refuted : forall added fuel n (m : mat R) a, mrows m = n -> mcols m = n -> norminf_mat m = Ok a -> 2 ^ 30 < a -> exp_mat added fuel m = UB.
Proof.
  intros added fuel n m a Hr Hc Ha La. unfold exp_mat. rewrite same_size_eq by congruence. cbn [bind]. rewrite Ha. cbn [bind]. destruct (R_eqb a 0); [reflexivity|]. fold (halvings a). destruct (Nat.leb_spec 31 (halvings a)) as [|L]; [reflexivity|].
  assert (P : 0 < a) by (pose proof (pow_lt 2 30 ltac:(lra)); lra). assert (K : (halvings a <= 30)%nat) by lia. apply halvings_le in K; [|exact P]. lra.
Qed.
Theorem C78_square : forall added fuel (m : mat R), mrows m <> mcols m -> exp_mat added fuel m = Abort DSizeMismatch.
Proof. intros added fuel m H. unfold exp_mat. rewrite same_size_bad by exact H. reflexivity. Qed.
(** ** The hypotheses hold: a threshold test satisfies both, and a nilpotent matrix *)
Definition threshold (eta x f : R) : R := if R_ltb eta (Rabs f) then f else 0.
Example C78_threshold : forall eta, 0 < eta -> (forall x f, Rabs f <= eta -> threshold eta x f = 0) /\ (forall x f, threshold eta x f = 0 -> Rabs f <= 0 * Rabs x + eta).
Proof.
  intros eta P. split; intros x f H; unfold threshold in *; destruct (R_ltb eta (Rabs f)) eqn:E; try reflexivity.
  - apply R_ltb_spec in E. lra.
  - subst f. rewrite Rabs_R0. lra.
  - apply R_ltb_false in E. lra.
Qed.
Definition shear : mat R := mkmat 2 2 (fun i j => if (i =? 0)%nat && (j =? 1)%nat then 1 else 0).
Lemma shear_norm : norminf_mat shear = Ok 1.
Proof.
  destruct (norm_code 2 shear eq_refl eq_refl) as (a & E & P & H & W). rewrite E. f_equal. pose proof (H 0%nat ltac:(lia)) as H0. pose proof (H 1%nat ltac:(lia)) as H1.
  unfold shear in *. cbn [mel Nat.eqb andb sum] in *. cbn [fadd f0 ROps] in *. rewrite ?Rabs_R0, ?Rabs_R1 in *. destruct W as [->|(r & Hr & ->)]; [lra|]. destruct r as [|[|r]]; [|exfalso|lia]; cbn [Nat.eqb andb] in *; rewrite ?Rabs_R0, ?Rabs_R1 in *; lra.
Qed.
Lemma shear_square i j : (i < 2)%nat -> (j < 2)%nat -> mpow 2 (mel shear) 2 i j = 0.
Proof. intros Hi Hj. destruct i as [|[|i]]; [| |lia]; (destruct j as [|[|j]]; [| |lia]); cbn; ring. Qed.
Lemma shear_exp : is_exp 2 (mel shear) (fun i j => delta i j + mel shear i j).
Proof.
  apply is_exp_iff. intros i j Hi Hj. apply (cv_unshift _ _ 2). apply (cv_ext (fun _ => delta i j + mel shear i j)); [|apply cv_const].
  intros N. unfold psum. replace (N + 2)%nat with (2 + N)%nat by lia. rewrite S_split, (S_zero N).
  - rewrite S_S, S_S. cbn [sum fact]. cbn [f0 ROps]. cbn [mpow]. rewrite mm_delta_r by exact Hj. cbn [fact Nat.mul Nat.add INR]. field.
  - intros k Hk. replace (2 + k)%nat with (k + 2)%nat by lia. rewrite mpow_add by exact Hi. unfold mm. rewrite S_zero; [unfold Rdiv; ring|]. intros l Hl. rewrite shear_square by assumption. ring.
Qed.
Example C78_nonvac : exists fuel X, (forall fuel', (fuel <= fuel')%nat -> exp_mat (fun _ f => f) fuel' shear = Ok X) /\ mat_is X 2 2 (fun i j => delta i j + mel shear i j).
Proof. apply (C78_nilpotent 2 shear 1 2); [reflexivity|reflexivity|exact shear_norm|split; [lra|apply pow_R1_Rle; lra]|exact shear_square|exact shear_exp]. Qed.
Example C78_nonvac_accurate : forall eta, 0 < eta -> exists fuel X, exp_mat (threshold eta) fuel shear = Ok X /\ norm_le 2 (fun i j => mel X i j - (delta i j + mel shear i j)) (Rmax 1 (2 * 1) * exp 1 * (0 + INR 2 * eta) * exp 1).
Proof.
  intros eta P. destruct (C78_threshold eta P) as [T1 T2]. destruct (C78_ends (threshold eta) eta 2 shear 1 eq_refl eq_refl P T1 shear_norm) as (fuel & X & HX); [split; [lra|apply pow_R1_Rle; lra]|].
  exists fuel, X. specialize (HX fuel (le_n _)). split; [exact HX|]. apply (C78_accurate (threshold eta) 0 eta fuel 2 shear X 1 _ eq_refl eq_refl ltac:(lra) ltac:(lra) T2 HX shear_norm shear_exp).
Qed.
Example C78_nonvac_endless : forall fuel, exp_mat (fun _ f => f) fuel (mkmat 1 1 (fun _ _ => 1)) = OutOfFuel.
Proof.
  assert (E : norminf_mat (mkmat 1 1 (fun _ _ => 1)) = Ok 1).
  { destruct (norm_code 1 (mkmat 1 1 (fun _ _ => 1)) eq_refl eq_refl) as (a & E & P & H & W). rewrite E. f_equal. pose proof (H 0%nat ltac:(lia)) as H0. cbn [mel sum] in *. cbn [fadd f0 ROps] in *. rewrite Rabs_R1 in *. destruct W as [->|(r & Hr & ->)]; lra. }
  apply (C78_endless 1 (mkmat 1 1 (fun _ _ => 1)) 1 eq_refl eq_refl E); [split; [lra|apply pow_R1_Rle; lra]|]. intros K. exists 0%nat, 0%nat. split; [lia|]. split; [lia|]. rewrite mpow_one. cbn [mel]. rewrite pow1. lra.
Qed.
