(** * What the code of the matrix exponential computes *)
From Coq Require Import Reals ZArith Arith Bool Lia Lra.
From Verif Require Import Base Alg Inst Mat SpecMat LemMat LemOps LemObjects LemHelpers ModelOps ModelObjects ModelHelpers ModelGauss RSum LemEig LemEig3 ModelExp SpecExp LemExp.
Open Scope outcome_scope.
Local Open Scope R_scope.

Lemma fabs_R x : @fabs R ROps x = Rabs x.
Proof.
  unfold fabs. cbn [fltb f0 fopp ROps]. destruct (R_ltb x 0) eqn:E; [apply R_ltb_spec in E; rewrite Rabs_left by exact E; reflexivity|]. apply R_ltb_false in E. rewrite Rabs_right by lra. reflexivity.
Qed.
Lemma norm_code n (m : mat R) : mrows m = n -> mcols m = n -> exists a, norminf_mat m = Ok a /\ 0 <= a /\ norm_le n (mel m) a /\ (a = 0 \/ exists r, (r < n)%nat /\ a = Sum n (fun c => Rabs (mel m r c))).
Proof.
  intros Hr Hc. destruct (@norminf_mat_ok R ROps RLaws m) as (a & E & H1 & H2 & H3). exists a. split; [exact E|]. rewrite Hr, Hc in *.
  assert (K : forall r, @sum R ROps n (fun c => fabs (mel m r c)) = Sum n (fun c => Rabs (mel m r c))) by (intros; apply S_ext; intros; apply fabs_R).
  split; [unfold fle in H1; cbn [fltb f0 ROps] in H1; apply R_ltb_false in H1; exact H1|]. split.
  - intros i Hi. specialize (H2 i Hi). unfold fle in H2. cbn [fltb ROps] in H2. apply R_ltb_false in H2. rewrite <- K. exact H2.
  - destruct H3 as [->|(r & Hr' & ->)]; [left; reflexivity|right]. exists r. split; [exact Hr'|]. apply K.
Qed.
(** the loop tests: the norm is positive exactly when some entry is not zero *)
Lemma norm_test n (d : mat R) g : mat_is d n n g -> exists nd, norminf_mat d = Ok nd /\ (R_ltb 0 nd = false <-> forall i j, (i < n)%nat -> (j < n)%nat -> g i j = 0).
Proof.
  intros (D1 & D2 & D3). destruct (norm_code n d D1 D2) as (a & E & P & H & W). exists a. split; [exact E|]. rewrite R_ltb_false. split.
  - intros Ha i j Hi Hj. assert (a = 0) by lra. subst a. pose proof (norm_entry n (mel d) 0 i j Hi Hj H) as K. rewrite D3 in K by assumption. pose proof (Rabs_pos (g i j)). destruct (Req_dec (g i j) 0) as [|N]; [assumption|]. apply Rabs_pos_lt in N. lra.
  - intros Z. destruct W as [->|(r & Hr & ->)]; [lra|]. rewrite S_zero; [lra|]. intros c Hc. rewrite D3, Z by assumption. apply Rabs_R0.
Qed.
Lemma zeros_ok n : gives_mat (zeros_mat (mnew n n)) n n (fun _ _ => 0).
Proof. exact (mfill_ok (mnew n n) (fun _ _ => 0)). Qed.
Lemma ident_ok n : gives_mat (identity_eval HOne (mnew n n)) n n delta.
Proof. destruct (@identity_eval_ok R ROps HOne (mnew n n) eq_refl) as (w & E & H). exists w. split; [exact E|exact H]. Qed.
Lemma mul_is n (A B : mat R) a b : mat_is A n n a -> mat_is B n n b -> gives_mat (mmul A B) n n (mm n a b).
Proof.
  intros (A1 & A2 & A3) (B1 & B2 & B3). destruct (@mmul_ok R ROps A B ltac:(congruence)) as (C & E & C1 & C2 & C3). exists C. split; [exact E|]. split; [congruence|]. split; [congruence|].
  intros i j Hi Hj. rewrite C3 by congruence. rewrite A2. apply S_ext. intros k Hk. cbn [fmul ROps]. rewrite A3, B3 by assumption. reflexivity.
Qed.
Lemma divs_is n (A : mat R) a s : s <> 0 -> mat_is A n n a -> gives_mat (mdivs A s) n n (fun i j => a i j / s).
Proof.
  intros Hs (A1 & A2 & A3). destruct (@mdivs_ok R ROps RLaws A s Hs) as (C & E & C1 & C2 & C3). exists C. split; [exact E|]. split; [congruence|]. split; [congruence|].
  intros i j Hi Hj. rewrite C3 by congruence. rewrite A3 by assumption. reflexivity.
Qed.
Lemma scale_is n (A : mat R) a s : mat_is A n n a -> gives_mat (mscale A s) n n (fun i j => a i j * s).
Proof.
  intros (A1 & A2 & A3). destruct (@mscale_ok R ROps A s) as (C & E & C1 & C2 & C3). exists C. split; [exact E|]. split; [congruence|]. split; [congruence|].
  intros i j Hi Hj. rewrite C3 by congruence. rewrite A3 by assumption. reflexivity.
Qed.
Lemma scale_l_is n (A : mat R) a s : mat_is A n n a -> gives_mat (mscale_l s A) n n (fun i j => s * a i j).
Proof.
  intros (A1 & A2 & A3). destruct (@mscale_l_ok R ROps A s) as (C & E & C1 & C2 & C3). exists C. split; [exact E|]. split; [congruence|]. split; [congruence|].
  intros i j Hi Hj. rewrite C3 by congruence. rewrite A3 by assumption. reflexivity.
Qed.
Lemma neg_is n (A : mat R) a : mat_is A n n a -> gives_mat (mneg A) n n (fun i j => - a i j).
Proof.
  intros (A1 & A2 & A3). destruct (@mneg_ok R ROps RLaws A) as (C & E & C1 & C2 & C3). exists C. split; [exact E|]. split; [congruence|]. split; [congruence|].
  intros i j Hi Hj. rewrite C3 by congruence. rewrite A3 by assumption. reflexivity.
Qed.
Lemma add_is n (A B : mat R) a b : mat_is A n n a -> mat_is B n n b -> gives_mat (madd A B) n n (fun i j => a i j + b i j).
Proof.
  intros (A1 & A2 & A3) (B1 & B2 & B3). destruct (@madd_ok R ROps A B ltac:(congruence) ltac:(congruence)) as (C & E & C1 & C2 & C3). exists C. split; [exact E|]. split; [congruence|]. split; [congruence|].
  intros i j Hi Hj. rewrite C3 by congruence. rewrite A3, B3 by assumption. reflexivity.
Qed.
Lemma add_assign_is n (A B : mat R) a b : mat_is A n n a -> mat_is B n n b -> gives_mat (madd_assign A B) n n (fun i j => a i j + b i j).
Proof.
  intros (A1 & A2 & A3) (B1 & B2 & B3). destruct (@madd_assign_ok R ROps A B ltac:(congruence) ltac:(congruence)) as (C & E & C1 & C2 & C3). exists C. split; [exact E|]. split; [congruence|]. split; [congruence|].
  intros i j Hi Hj. rewrite C3 by congruence. rewrite A3, B3 by assumption. reflexivity.
Qed.
Lemma grow_is added n (A B : mat R) a b : mat_is A n n a -> mat_is B n n b -> gives_mat (grow added A B) n n (fun i j => added (a i j) (b i j)).
Proof.
  intros (A1 & A2 & A3) (B1 & B2 & B3). unfold grow. rewrite !same_size_eq by congruence. cbn [bind].
  destruct (@mfor_ok R ROps (mrows A) (mcols A) (fun r c => x <- mget A r c ;; y <- mget B r c ;; Ok (added x y)) (fun i j => added (a i j) (b i j))) as (C & E & C1 & C2 & C3).
  - intros i j Hi Hj. rewrite !mget_ok by lia. cbn [bind]. rewrite A3, B3 by lia. reflexivity.
  - exists C. split; [exact E|]. split; [congruence|]. split; [congruence|]. intros i j Hi Hj. apply C3; congruence.
Qed.
Lemma is_ext n (A : mat R) a b : mat_is A n n a -> (forall i j, (i < n)%nat -> (j < n)%nat -> a i j = b i j) -> mat_is A n n b.
Proof. intros (A1 & A2 & A3) H. split; [exact A1|]. split; [exact A2|]. intros i j Hi Hj. rewrite A3 by assumption. apply H; assumption. Qed.
(** ** the Taylor series *)
Definition tterm (n : nat) (A : rmat) (k : nat) : rmat := fun i j => mpow n A k i j / INR (fact k).
Definition absorbed (added : R -> R -> R) (n : nat) (x f : rmat) : Prop := forall i j, (i < n)%nat -> (j < n)%nat -> added (x i j) (f i j) = 0.
Lemma tterm_S n A k i j : mm n A (tterm n A k) i j / (INR k + 1) = tterm n A (S k) i j.
Proof.
  unfold tterm. cbn [mpow]. replace (fact (S k)) with (S k * fact k)%nat by reflexivity. rewrite mult_INR, S_INR. pose proof (fact_pos k). pose proof (pos_INR k).
  transitivity (mm n A (mpow n A k) i j / INR (fact k) / (INR k + 1)); [|field; lra]. f_equal. unfold mm, Rdiv. rewrite <- S_mul_r. apply S_ext. intros; ring.
Qed.
Lemma psum_S n A k i j : psum n A k i j + tterm n A k i j = psum n A (S k) i j.
Proof. reflexivity. Qed.
Section L.
Variable added : R -> R -> R.
Lemma exp_loop_step n A fuel (m res f : mat R) K : mat_is m n n A -> mat_is res n n (psum n A K) -> mat_is f n n (tterm n A K) ->
  (absorbed added n (psum n A K) (tterm n A K) /\ exp_loop added (S fuel) m res f (INR K + 1) = Ok res) \/
  (~ absorbed added n (psum n A K) (tterm n A K) /\ exists res' f', mat_is res' n n (psum n A (S K)) /\ mat_is f' n n (tterm n A (S K)) /\
    exp_loop added (S fuel) m res f (INR K + 1) = exp_loop added fuel m res' f' (INR (S K) + 1)).
Proof.
  intros Hm Hr Hf. cbn [exp_loop]. destruct (grow_is added n res f _ _ Hr Hf) as (d & -> & Hd). cbn [bind].
  destruct (norm_test n d _ Hd) as (nd & -> & T). cbn [bind]. destruct (R_ltb 0 nd) eqn:E.
  - right. split; [intros C; apply T in C; congruence|].
    destruct (add_assign_is n res f _ _ Hr Hf) as (res' & -> & Hr'). cbn [bind]. destruct (mul_is n m f _ _ Hm Hf) as (p & -> & Hp). cbn [bind].
    pose proof (pos_INR K). destruct (divs_is n p _ (INR K + 1) ltac:(lra) Hp) as (f' & -> & Hf'). cbn [bind].
    exists res', f'. split; [exact Hr'|]. split; [apply (is_ext n f' _ _ Hf'); intros; apply tterm_S|]. rewrite S_INR. reflexivity.
  - left. split; [exact (proj1 T eq_refl)|reflexivity].
Qed.
Lemma exp_loop_ok n A (m : mat R) : mat_is m n n A -> forall fuel K (res f X : mat R), mat_is res n n (psum n A K) -> mat_is f n n (tterm n A K) ->
  exp_loop added fuel m res f (INR K + 1) = Ok X -> exists N, mat_is X n n (psum n A N) /\ absorbed added n (psum n A N) (tterm n A N).
Proof.
  intros Hm. induction fuel as [|fuel I]; intros K res f X Hr Hf E; [discriminate|].
  destruct (exp_loop_step n A fuel m res f K Hm Hr Hf) as [(Ha & E')|(_ & res' & f' & Hr' & Hf' & E')]; rewrite E' in E.
  - injection E as <-. exists K. split; [exact Hr|exact Ha].
  - exact (I (S K) res' f' X Hr' Hf' E).
Qed.
Lemma exp_loop_ends n A (m : mat R) N : mat_is m n n A -> absorbed added n (psum n A N) (tterm n A N) -> forall fuel K (res f : mat R), (K <= N)%nat -> (N < K + fuel)%nat ->
  mat_is res n n (psum n A K) -> mat_is f n n (tterm n A K) -> exists X, exp_loop added fuel m res f (INR K + 1) = Ok X.
Proof.
  intros Hm Ha. induction fuel as [|fuel I]; intros K res f H1 H2 Hr Hf; [lia|].
  destruct (exp_loop_step n A fuel m res f K Hm Hr Hf) as [(_ & E')|(Hn & res' & f' & Hr' & Hf' & E')]; [exists res; exact E'|]. rewrite E'.
  assert (K <> N) by (intros ->; contradiction). apply (I (S K)); try assumption; lia.
Qed.
Lemma exp_loop_runs n A (m : mat R) : mat_is m n n A -> (forall K, ~ absorbed added n (psum n A K) (tterm n A K)) -> forall fuel K (res f : mat R),
  mat_is res n n (psum n A K) -> mat_is f n n (tterm n A K) -> exp_loop added fuel m res f (INR K + 1) = OutOfFuel.
Proof.
  intros Hm Ha. induction fuel as [|fuel I]; intros K res f Hr Hf; [reflexivity|].
  destruct (exp_loop_step n A fuel m res f K Hm Hr Hf) as [(C & _)|(Hn & res' & f' & Hr' & Hf' & E')]; [destruct (Ha K C)|]. rewrite E'. apply (I (S K)); assumption.
Qed.
Lemma exp_taylor_start n A (m : mat R) : mat_is m n n A -> exists res f, mat_is res n n (psum n A 0) /\ mat_is f n n (tterm n A 0) /\ forall fuel, exp_taylor added fuel m = exp_loop added fuel m res f (INR 0 + 1).
Proof.
  intros (M1 & M2 & M3). destruct (zeros_ok n) as (res & E1 & Hr). destruct (ident_ok n) as (f & E2 & Hf). exists res, f. split; [exact Hr|]. split.
  - apply (is_ext n f _ _ Hf). intros i j Hi Hj. unfold tterm. cbn [mpow fact INR]. field.
  - intros fuel. unfold exp_taylor. rewrite same_size_eq by congruence. cbn [bind]. rewrite M1, M2, E1. cbn [bind]. rewrite E2. cbn [bind INR]. rewrite Rplus_0_l. reflexivity.
Qed.
End L.
(** ** the scaling *)
Lemma ceil_le x k : x <= IZR k <-> (ceil x <= k)%Z.
Proof.
  unfold ceil. destruct (base_Int_part (- x)) as (H1 & H2). split; intros H.
  - assert (IZR (- k) < IZR (Int_part (- x) + 1)) by (rewrite opp_IZR, plus_IZR; lra). apply lt_IZR in H0. lia.
  - assert (H0 : (- k <= Int_part (- x))%Z) by lia. apply IZR_le in H0. rewrite opp_IZR in H0. lra.
Qed.
Definition halvings (a : R) : nat := Z.to_nat (Z.max 0 (ceil (ln a / ln 2))).
Lemma ln2_pos : 0 < ln 2. Proof. rewrite <- ln_1. apply ln_increasing; lra. Qed.
Lemma ln_pow2 s : ln (2 ^ s) = INR s * ln 2.
Proof. induction s as [|s I]; [cbn [pow INR]; rewrite ln_1; ring|]. rewrite S_INR. cbn [pow]. rewrite ln_mult; [rewrite I; ring|lra|apply pow_lt; lra]. Qed.
Lemma halvings_le a s : 0 < a -> (halvings a <= s)%nat <-> a <= 2 ^ s.
Proof.
  intros Pa. unfold halvings. pose proof ln2_pos as L2. pose proof (pow_lt 2 s ltac:(lra)) as P2. transitivity (ceil (ln a / ln 2) <= Z.of_nat s)%Z; [lia|].
  rewrite <- ceil_le, <- INR_IZR_INZ. split; intros H.
  - apply Rnot_lt_le. intros C. apply ln_increasing in C; [|exact P2]. rewrite ln_pow2 in C. apply (Rmult_le_compat_r (ln 2)) in H; [|lra]. replace (ln a / ln 2 * ln 2) with (ln a) in H by (field; lra). lra.
  - apply Rmult_le_reg_r with (ln 2); [exact L2|]. replace (ln a / ln 2 * ln 2) with (ln a) by (field; lra). rewrite <- ln_pow2. destruct H as [H| ->]; [left; apply ln_increasing; assumption|lra].
Qed.
Lemma halvings_max a : 0 < a -> 2 ^ halvings a <= Rmax 1 (2 * a).
Proof.
  intros Pa. destruct (halvings a) as [|s] eqn:E; [apply Rmax_l|]. eapply Rle_trans; [|apply Rmax_r]. cbn [pow].
  assert (H : ~ a <= 2 ^ s) by (rewrite <- halvings_le by exact Pa; lia). lra.
Qed.
(** the repeated squaring *)
Fixpoint sq_iter (n : nat) (X : rmat) (s : nat) : rmat := match s with O => X | S s => mm n (sq_iter n X s) (sq_iter n X s) end.
Lemma square_loop n s (X : mat R) x : mat_is X n n x -> gives_mat (for_ 0 s (fun _ r => mmul r r) X) n n (sq_iter n x s).
Proof.
  intros H. apply wp_ok_inv. eapply wp_mono; [apply (wp_for (fun k u => mat_is u n n (sq_iter n x k)))|].
  - lia.
  - exact H.
  - intros i u Hi Hu. destruct (mul_is n u u _ _ Hu Hu) as (w & -> & Hw). cbn [wp sq_iter]. exact Hw.
  - cbv beta. intros u Hu. exact Hu.
Qed.
Lemma sq_ext n x y s : (forall i j, (i < n)%nat -> (j < n)%nat -> x i j = y i j) -> forall i j, (i < n)%nat -> (j < n)%nat -> sq_iter n x s i j = sq_iter n y s i j.
Proof. intros H. induction s as [|s I]; intros i j Hi Hj; cbn [sq_iter]; [apply H; assumption|]. apply mm_ext; intros; apply I; assumption. Qed.
Lemma sq_exp n A E s : is_exp n A E -> is_exp n (fun i j => 2 ^ s * A i j) (sq_iter n E s).
Proof.
  intros H. induction s as [|s I]; cbn [sq_iter pow].
  - apply (is_exp_ext n A _ E _); [intros; ring|reflexivity|exact H].
  - apply (is_exp_ext n (fun i j => 2 * (2 ^ s * A i j)) _ (mm n (sq_iter n E s) (sq_iter n E s)) _); [intros; ring|reflexivity|]. apply exp_double. exact I.
Qed.
Lemma exp_pow a s : exp (a * 2 ^ S s) = exp (a * 2 ^ s) * exp (a * 2 ^ s).
Proof. rewrite <- exp_plus. f_equal. cbn [pow]. ring. Qed.
Lemma sq_norm n X a s : norm_le n X (exp a) -> norm_le n (sq_iter n X s) (exp (a * 2 ^ s)).
Proof.
  intros H. induction s as [|s I]; cbn [sq_iter]; [cbn [pow]; rewrite Rmult_1_r; exact H|]. rewrite exp_pow. apply norm_mm; [left; apply exp_pos|exact I|exact I].
Qed.
Lemma sq_error n X E a d s : 0 <= d -> norm_le n X (exp a) -> norm_le n E (exp a) -> norm_le n (fun i j => X i j - E i j) d ->
  norm_le n (fun i j => sq_iter n X s i j - sq_iter n E s i j) (2 ^ s * d * exp (a * (2 ^ s - 1))).
Proof.
  intros Pd HX HE HD. induction s as [|s I]; cbn [sq_iter pow].
  - replace (a * (1 - 1)) with 0 by ring. rewrite exp_0, Rmult_1_l, Rmult_1_r. exact HD.
  - pose proof (sq_norm n X a s HX) as NX. pose proof (sq_norm n E a s HE) as NE. set (D := fun i j => sq_iter n X s i j - sq_iter n E s i j) in *.
    apply (norm_ext n (fun i j => mm n D (sq_iter n X s) i j + mm n (sq_iter n E s) D i j)).
    + intros i j Hi Hj. unfold mm, D. rewrite <- S_add, <- S_sub. apply S_ext. intros; ring.
    + pose proof (exp_pos (a * 2 ^ s)) as P1. pose proof (exp_pos (a * (2 ^ s - 1))) as P2. pose proof (pow_lt 2 s ltac:(lra)) as P3.
      assert (P4 : 0 <= 2 ^ s * d * exp (a * (2 ^ s - 1))) by (apply Rmult_le_pos; [apply Rmult_le_pos; lra|lra]).
      replace (2 * 2 ^ s * d * exp (a * (2 * 2 ^ s - 1))) with (2 ^ s * d * exp (a * (2 ^ s - 1)) * exp (a * 2 ^ s) + exp (a * 2 ^ s) * (2 ^ s * d * exp (a * (2 ^ s - 1)))).
      * apply norm_add; apply norm_mm; try assumption; lra.
      * replace (a * (2 * 2 ^ s - 1)) with (a * (2 ^ s - 1) + a * 2 ^ s) by ring. rewrite exp_plus. ring.
Qed.
