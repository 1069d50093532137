(** * Property theorems C24 (cross_product_matrix), C29-C35, C40: helpers.h. *)
From Coq Require Import Arith Bool List Lia Field QArith Qcanon Reals Lra.
From Verif Require Import Base Alg Mat SpecMat LemMat ModelOps LemOps Inst ModelHelpers LemObjects LemHelpers PropOps.
Import ListNotations.
Local Open Scope nat_scope.
Local Open Scope F_scope.

Section P.
Context {F : Type} {Fo : Ops F} {Fl : Laws F}.
Add Field Ff : law_field.

Theorem C24_cross_product_matrix :
  forall a b : vec F, vlen a = 3%nat -> vlen b = 3%nat ->
    exists m, cross_product_matrix a = Ok m /\ mrows m = 3%nat /\ mcols m = 3%nat /\
      (forall i j, (i < 3)%nat -> (j < 3)%nat -> mel m i j = - mel m j i) /\
      agree_vec (mv m b) (cross a b).
Proof.
  intros a b Ha Hb. destruct (cross_product_matrix_ok a Ha) as (m & E & M1 & M2 & M3). exists m.
  split; [exact E|]. split; [exact M1|]. split; [exact M2|]. split.
  - intros i j Hi Hj. rewrite !M3 by assumption.
    destruct i as [|[|[|i]]]; [| | |lia]; (destruct j as [|[|[|j]]]; [| | |lia]); ring.
  - eapply agree_vec_intro; [|apply cross_ok; assumption].
    eapply gives_vec_ext; [apply mv_ok; congruence|exact M1|]. cbv beta. rewrite M1, M2. intros i Hi. cbn [sum]. rewrite !M3 by lia.
    destruct i as [|[|[|i]]]; [| | |lia]; cbv iota; ring.
Qed.

(** ** C30 Matrix norms *)
Definition row_sum (m : mat F) (r : nat) : F := sum (mcols m) (fun c => fabs (mel m r c)).
Definition col_sum (m : mat F) (c : nat) : F := sum (mrows m) (fun r => fabs (mel m r c)).
Theorem C30_norm_inf_is_max_row_sum :
  forall m : mat F, exists x, norminf_mat m = Ok x /\
    (forall r, (r < mrows m)%nat -> row_sum m r <= x) /\
    ((0 < mrows m)%nat -> exists r, (r < mrows m)%nat /\ x = row_sum m r) /\ (mrows m = 0%nat -> x = 0).
Proof.
  intros m. destruct (norminf_mat_ok m) as (x & E & H1 & H2 & H3). exists x. split; [exact E|]. split; [exact H2|]. split.
  - intros Hr. destruct H3 as [->|H3]; [|exact H3]. exists 0%nat. split; [exact Hr|]. apply le_antisym; [|apply H2; exact Hr].
    apply sum_nonneg. intros. apply abs_nonneg.
  - intros Hr. destruct H3 as [->|(r & Hr' & _)]; [reflexivity|lia].
Qed.
Theorem C30_norm_1_is_max_col_sum :
  forall m : mat F, exists x, norm1_mat m = Ok x /\
    (forall c, (c < mcols m)%nat -> col_sum m c <= x) /\
    ((0 < mcols m)%nat -> exists c, (c < mcols m)%nat /\ x = col_sum m c) /\ (mcols m = 0%nat -> x = 0).
Proof.
  intros m. destruct (norm1_mat_ok m) as (x & E & H1 & H2 & H3). exists x. split; [exact E|]. split; [exact H2|]. split.
  - intros Hr. destruct H3 as [->|H3]; [|exact H3]. exists 0%nat. split; [exact Hr|]. apply le_antisym; [|apply H2; exact Hr].
    apply sum_nonneg. intros. apply abs_nonneg.
  - intros Hr. destruct H3 as [->|(r & Hr' & _)]; [reflexivity|lia].
Qed.
Theorem C30_norm_1_is_norm_inf_of_transpose : forall m : mat F, norm1_mat m = norminf_mat (tr m).
Proof.
  intros m. unfold norm1_mat, norminf_mat. cbn [tr mrows mcols]. apply for_ext. intros c n Hc. f_equal. apply for_ext. intros r s Hr.
  rewrite !mget_ok by (cbn [tr mrows mcols]; lia). reflexivity.
Qed.
Theorem C30_norm_inf_compatible :
  forall (m : mat F) (v : vec F), mcols m = vlen v -> (0 < mrows m)%nat -> (0 < vlen v)%nat ->
    exists w a b c, mv m v = Ok w /\ norminf_vec w = Ok a /\ norminf_mat m = Ok b /\ norminf_vec v = Ok c /\ a <= b * c.
Proof.
  intros m v H Hm Hv. destruct (mv_ok m v H) as (w & Ew & W1 & W2).
  destruct (norminf_vec_ok w) as (a & Ea & A1 & i & Hi & ->); [lia|].
  destruct (norminf_mat_ok m) as (b & Eb & B0 & B1 & _).
  destruct (norminf_vec_ok v Hv) as (c & Ec & C1 & k & Hk & Ck).
  exists w, (fabs (vat w i)), b, c. repeat (split; [assumption|]).
  rewrite W1 in Hi. rewrite W2 by exact Hi.
  assert (Cn : 0 <= c) by (rewrite Ck; apply abs_nonneg).
  apply (le_trans _ (sum (mcols m) (fun k => fabs (mel m i k) * c))).
  - assert (G : forall n, (n <= mcols m)%nat -> fabs (sum n (fun k => mel m i k * vat v k)) <= sum n (fun k => fabs (mel m i k) * c)).
    { induction n as [|n IH]; intros Hn; cbn [sum].
      - rewrite (proj2 (abs_zero 0) eq_refl). apply le_refl.
      - eapply le_trans; [apply abs_triangle|]. apply add_le2; [apply IH; lia|]. rewrite abs_mul. apply mul_le_l; [apply abs_nonneg|apply C1; lia]. }
    apply G. lia.
  - rewrite sum_mul_r. replace (b * c) with (c * b) by ring. replace (sum (mcols m) (fun k => fabs (mel m i k)) * c) with (c * sum (mcols m) (fun k => fabs (mel m i k))) by ring.
    apply mul_le_l; [exact Cn|apply B1; exact Hi].
Qed.
Theorem C30_norm_inf_submultiplicative :
  forall A B : mat F, mcols A = mrows B ->
    exists P a b c, mmul A B = Ok P /\ norminf_mat P = Ok a /\ norminf_mat A = Ok b /\ norminf_mat B = Ok c /\ a <= b * c.
Proof.
  intros A B H. destruct (mmul_ok A B H) as (P & EP & P1 & P2 & P3).
  destruct (norminf_mat_ok P) as (a & Ea & A0 & A1 & A2).
  destruct (norminf_mat_ok A) as (b & Eb & B0 & B1 & B2).
  destruct (norminf_mat_ok B) as (c & Ec & C0 & C1 & C2).
  exists P, a, b, c. repeat (split; [assumption|]).
  destruct A2 as [->|(r & Hr & ->)]; [apply mul_nonneg; assumption|]. rewrite P1 in Hr. rewrite P2.
  assert (G : sum (mcols B) (fun j => fabs (mel P r j)) <= sum (mcols B) (fun j => sum (mcols A) (fun k => fabs (mel A r k) * fabs (mel B k j)))).
  { apply sum_le. intros j Hj. rewrite P3 by assumption. generalize (mcols A). intros n.
    induction n as [|n IH]; cbn [sum]; [rewrite (proj2 (abs_zero 0) eq_refl); apply le_refl|].
    eapply le_trans; [apply abs_triangle|]. apply add_le2; [exact IH|]. rewrite abs_mul. apply le_refl. }
  eapply le_trans; [exact G|]. rewrite sum_swap.
  apply (le_trans _ (sum (mcols A) (fun k => fabs (mel A r k) * c))).
  - apply sum_le. intros k Hk. rewrite sum_mul_l. apply mul_le_l; [apply abs_nonneg|]. apply C1. lia.
  - rewrite sum_mul_r. replace (b * c) with (c * b) by ring. replace (sum (mcols A) (fun k => fabs (mel A r k)) * c) with (c * sum (mcols A) (fun k => fabs (mel A r k))) by ring.
    apply mul_le_l; [exact C0|apply B1; exact Hr].
Qed.

(** ** C31 project and unproject *)
Theorem C31_unproject_appends_one :
  forall v : vec F, exists w, unproject_vec v = Ok w /\ vlen w = S (vlen v) /\ (forall i, (i < vlen v)%nat -> vat w i = vat v i) /\ vat w (vlen v) = 1.
Proof.
  intros v. destruct (unproject_vec_ok v) as (w & E & W1 & W2). exists w. split; [exact E|]. split; [exact W1|]. split.
  - intros i Hi. rewrite W2 by lia. apply Nat.ltb_lt in Hi. rewrite Hi. reflexivity.
  - rewrite W2 by lia. rewrite Nat.ltb_irrefl. reflexivity.
Qed.
Theorem C31_project_divides_by_last :
  forall (v : vec F) k, vlen v = S k -> vat v k <> 0 -> gives_vec (project_vec v) k (fun i => vat v i / vat v k).
Proof. intros v k H Hz. apply project_vec_ok; assumption. Qed.
Theorem C31_project_unproject :
  forall v : vec F, agree_vec (w <- unproject_vec v ;; project_vec w) (Ok v).
Proof.
  intros v. destruct (unproject_vec_ok v) as (w & E & W1 & W2). rewrite E. cbn [bind].
  assert (L : vat w (vlen v) = 1) by (rewrite W2 by lia; rewrite Nat.ltb_irrefl; reflexivity).
  eapply (agree_vec_intro _ _ (vlen v) (vat v)); [|exists v; split; [reflexivity|split; auto]].
  eapply gives_vec_ext; [apply (project_vec_ok w (vlen v) W1); rewrite L; apply one_neq_zero|reflexivity|]. cbv beta.
  intros i Hi. rewrite L, W2 by lia. apply Nat.ltb_lt in Hi. rewrite Hi. field. apply one_neq_zero.
Qed.
Theorem C31_project_scale_invariant :
  forall (v : vec F) (s : F) k, vlen v = S k -> vat v k <> 0 -> s <> 0 -> agree_vec (w <- vscale v s ;; project_vec w) (project_vec v).
Proof.
  intros v s k H Hz Hs. destruct (vscale_ok v s) as (w & E & W1 & W2). rewrite E. cbn [bind]. rewrite H in W1, W2.
  eapply agree_vec_intro; [|apply (project_vec_ok v k H Hz)].
  eapply gives_vec_ext; [apply (project_vec_ok w k W1); rewrite W2 by lia; apply mul_neq; assumption|reflexivity|]. cbv beta.
  intros i Hi. rewrite !W2 by lia. field. auto.
Qed.
Theorem C31_project_zero_last :
  forall (v : vec F) k, vlen v = S (S k) -> vat v (S k) = 0 -> project_vec v = NonFinite.
Proof. exact project_vec_zero. Qed.
(** the matrix versions treat every column as the vector versions do *)
Theorem C31_matrix_columns :
  (forall m : mat F, exists w, unproject_mat m = Ok w /\ mrows w = S (mrows m) /\ mcols w = mcols m /\
     forall c, (c < mcols m)%nat -> agree_vec (unproject_vec (mkvec (mrows m) (fun r => mel m r c))) (row (tr w) c)) /\
  (forall (m : mat F) k, mrows m = S k -> (forall c, (c < mcols m)%nat -> mel m k c <> 0) ->
     exists w, project_mat m = Ok w /\ mrows w = k /\ mcols w = mcols m /\
       forall c, (c < mcols m)%nat -> agree_vec (project_vec (mkvec (mrows m) (fun r => mel m r c))) (row (tr w) c)).
Proof.
  split.
  - intros m. destruct (unproject_mat_ok m) as (w & E & W1 & W2 & W3). exists w. repeat (split; [assumption|]). intros c Hc.
    eapply agree_vec_intro; [apply unproject_vec_ok|]. rewrite row_ok by (cbn; lia). cbn [tr mcols mel vlen vat]. eexists. split; [reflexivity|].
    split; [exact W1|]. cbn [vat]. intros i Hi. apply W3; assumption.
  - intros m k H Hz. destruct (project_mat_ok m k H Hz) as (w & E & W1 & W2 & W3). exists w. repeat (split; [assumption|]). intros c Hc.
    eapply agree_vec_intro; [apply (project_vec_ok (mkvec (mrows m) (fun r => mel m r c)) k); [exact H|cbn [vat]; apply Hz; exact Hc]|].
    rewrite row_ok by (cbn; lia). cbn [tr mcols mel vlen vat]. eexists. split; [reflexivity|].
    split; [exact W1|]. cbn [vat]. intros i Hi. apply W3; assumption.
Qed.

(** ** C32 trace and Symmetrize *)
Theorem C32_trace :
  (forall m : mat F, mrows m = mcols m -> trace m = Ok (sum (mrows m) (fun i => mel m i i))) /\
  (forall m : mat F, mrows m <> mcols m -> trace m = Abort DSizeMismatch /\ symmetrize m = Abort DSizeMismatch) /\
  (forall A B : mat F, mcols A = mrows B -> mrows A = mcols B ->
     exists x, (P <- mmul A B ;; trace P) = Ok x /\ (P <- mmul B A ;; trace P) = Ok x).
Proof.
  split; [exact trace_ok|]. split.
  - intros m H. unfold trace, symmetrize. rewrite same_size_bad by exact H. auto.
  - intros A B H H'. destruct (mmul_ok A B H) as (P & -> & P1 & P2 & P3). destruct (mmul_ok B A (eq_sym H')) as (Q & -> & Q1 & Q2 & Q3).
    cbn [bind]. rewrite !trace_ok by congruence. eexists. split; [reflexivity|]. f_equal. rewrite P1, Q1.
    rewrite (sum_ext (mrows A) _ (fun i => sum (mcols A) (fun k => mel A i k * mel B k i))) by (intros i Hi; apply P3; lia).
    rewrite sum_swap, H. apply sum_ext. intros i Hi. rewrite Q3 by lia. rewrite H'. apply sum_ext. intros. ring.
Qed.
Theorem C32_symmetrize :
  forall m : mat F, mrows m = mcols m -> exists w, symmetrize m = Ok w /\
    mat_is w (mrows m) (mrows m) (fun i j => (mel m i j + mel m j i) / (1 + 1)) /\
    (forall i j, (i < mrows m)%nat -> (j < mrows m)%nat -> mel w i j = mel w j i) /\
    (forall i, (i < mrows m)%nat -> mel w i i = mel m i i) /\
    (* trace and quadratic forms are kept *)
    trace w = trace m /\
    (forall x : nat -> F, let qf (a : mat F) := sum (mrows m) (fun i => sum (mrows m) (fun j => x i * mel a i j * x j)) in qf w = qf m) /\
    (* idempotent *)
    agree_mat (symmetrize w) (Ok w).
Proof.
  intros m Hsq. destruct (symmetrize_ok m Hsq) as (w & E & W1 & W2 & W3). rewrite <- Hsq in *. exists w. split; [exact E|].
  pose proof two_neq as T. unfold two in *.
  split; [split; [exact W1|split; [exact W2|exact W3]]|].
  assert (Sy : forall i j, (i < mrows m)%nat -> (j < mrows m)%nat -> mel w i j = mel w j i).
  { intros i j Hi Hj. rewrite !W3 by assumption. field. exact T. }
  assert (Di : forall i, (i < mrows m)%nat -> mel w i i = mel m i i) by (intros i Hi; rewrite W3 by assumption; field; exact T).
  split; [exact Sy|]. split; [exact Di|]. split.
  { rewrite !trace_ok by congruence. f_equal. rewrite W1. apply sum_ext. exact Di. }
  split.
  { intros x. cbv zeta. set (n := mrows m) in *.
    transitivity ((sum n (fun i => sum n (fun j => x i * mel m i j * x j)) + sum n (fun i => sum n (fun j => x i * mel m j i * x j))) / (1 + 1)).
    - rewrite <- sum_add. transitivity (sum n (fun i => sum n (fun j => x i * mel m i j * x j) + sum n (fun j => x i * mel m j i * x j)) * (1 / (1+1))); [|field; exact T].
      rewrite <- sum_mul_r. apply sum_ext. intros i Hi. rewrite <- sum_add, <- sum_mul_r. apply sum_ext. intros j Hj. rewrite W3 by assumption. field. exact T.
    - replace (sum n (fun i => sum n (fun j => x i * mel m j i * x j))) with (sum n (fun i => sum n (fun j => x i * mel m i j * x j))); [field; exact T|].
      rewrite sum_swap. apply sum_ext. intros i Hi. apply sum_ext. intros j Hj. ring. }
  eapply (agree_mat_intro _ _ (mrows w) (mcols w) (mel w)); [|exists w; split; [reflexivity|split; [|split]; auto]].
  eapply gives_mat_ext; [apply symmetrize_ok; congruence|reflexivity|reflexivity|]. cbv beta. unfold two. rewrite W1, W2. intros i j Hi Hj. rewrite (Sy j i) by assumption. field. exact T.
Qed.

(** ** C33 extrema *)
Theorem C33_vector_extrema :
  forall v : vec F, (0 < vlen v)%nat ->
    (exists x i, acc_vec less v = Ok x /\ acc_elem_vec less v = Ok (x, i) /\ (i < vlen v)%nat /\ x = vat v i /\
       (forall j, (j < vlen v)%nat -> x <= vat v j) /\ (forall j, (j < i)%nat -> x < vat v j)) /\
    (exists x i, acc_vec greater v = Ok x /\ acc_elem_vec greater v = Ok (x, i) /\ (i < vlen v)%nat /\ x = vat v i /\
       (forall j, (j < vlen v)%nat -> vat v j <= x) /\ (forall j, (j < i)%nat -> vat v j < x)).
Proof.
  intros v Hv. split.
  - destruct (acc_vec_ok less less0 less1 less2 v Hv) as (x & i & E1 & E2 & H1 & H2 & H3 & H4). exists x, i.
    repeat (split; [assumption || lia|]). split; [intros j Hj; apply H3; lia|intros j Hj; apply H4; lia].
  - destruct (acc_vec_ok greater greater0 greater1 greater2 v Hv) as (x & i & E1 & E2 & H1 & H2 & H3 & H4). exists x, i.
    repeat (split; [assumption || lia|]). split; [intros j Hj; apply H3; lia|intros j Hj; apply H4; lia].
Qed.
Theorem C33_matrix_extrema :
  forall m : mat F, (0 < mrows m)%nat -> (0 < mcols m)%nat ->
    (exists x r c, acc_mat less m = Ok x /\ acc_elem_mat less m = Ok (x, (r, c)) /\ (r < mrows m)%nat /\ (c < mcols m)%nat /\ x = mel m r c /\
       (forall i j, (i < mrows m)%nat -> (j < mcols m)%nat -> x <= mel m i j) /\
       (forall i j, (i < mrows m)%nat -> (j < mcols m)%nat -> (i < r \/ (i = r /\ j < c))%nat -> x < mel m i j)) /\
    (exists x r c, acc_mat greater m = Ok x /\ acc_elem_mat greater m = Ok (x, (r, c)) /\ (r < mrows m)%nat /\ (c < mcols m)%nat /\ x = mel m r c /\
       (forall i j, (i < mrows m)%nat -> (j < mcols m)%nat -> mel m i j <= x) /\
       (forall i j, (i < mrows m)%nat -> (j < mcols m)%nat -> (i < r \/ (i = r /\ j < c))%nat -> mel m i j < x)).
Proof.
  intros m Hr Hc. split; [exact (acc_mat_ok less less0 less1 less2 m Hr Hc)|exact (acc_mat_ok greater greater0 greater1 greater2 m Hr Hc)].
Qed.
(** empty objects: zero (and position zero) *)
Theorem C33_empty :
  forall (cmp : F -> F -> bool) (v : vec F) (m : mat F), vlen v = 0%nat -> (mrows m = 0 \/ mcols m = 0)%nat ->
    acc_vec cmp v = Ok 0 /\ acc_elem_vec cmp v = Ok (0, 0%nat) /\ acc_mat cmp m = Ok 0 /\ acc_elem_mat cmp m = Ok (0, (0%nat, 0%nat)).
Proof.
  intros cmp v m Hv Hm. unfold acc_vec, acc_elem_vec, acc_mat, acc_elem_mat. rewrite Hv. cbn [Nat.eqb].
  destruct Hm as [-> | ->]; cbn [Nat.eqb orb]; rewrite ?orb_true_r; auto.
Qed.

(** ** C34 row-wise and column-wise extrema *)
Theorem C34_rowwise :
  forall m : mat F, (0 < mcols m)%nat ->
    (exists b k, acc_horizontal less m = Ok (b, k) /\ vlen b = mrows m /\ vlen k = mrows m /\
       forall r, (r < mrows m)%nat -> (vat k r < mcols m)%nat /\ vat b r = mel m r (vat k r) /\
          (forall c, (c < mcols m)%nat -> vat b r <= mel m r c) /\ (forall c, (c < vat k r)%nat -> vat b r < mel m r c)) /\
    (exists b k, acc_horizontal greater m = Ok (b, k) /\ vlen b = mrows m /\ vlen k = mrows m /\
       forall r, (r < mrows m)%nat -> (vat k r < mcols m)%nat /\ vat b r = mel m r (vat k r) /\
          (forall c, (c < mcols m)%nat -> mel m r c <= vat b r) /\ (forall c, (c < vat k r)%nat -> mel m r c < vat b r)).
Proof.
  intros m Hc. split.
  - destruct (acc_horizontal_ok less less0 less1 less2 m Hc) as (b & k & E & H1 & H2 & H3). exists b, k. repeat (split; [assumption|]).
    intros r Hr. destruct (H3 r Hr) as (G1 & G2 & G3 & G4). split; [lia|]. split; [exact G2|]. split; intros c Hcc; [apply G3; lia|apply G4; lia].
  - destruct (acc_horizontal_ok greater greater0 greater1 greater2 m Hc) as (b & k & E & H1 & H2 & H3). exists b, k. repeat (split; [assumption|]).
    intros r Hr. destruct (H3 r Hr) as (G1 & G2 & G3 & G4). split; [lia|]. split; [exact G2|]. split; intros c Hcc; [apply G3; lia|apply G4; lia].
Qed.
Theorem C34_columnwise :
  forall m : mat F, (0 < mrows m)%nat ->
    (exists b k, acc_vertical less m = Ok (b, k) /\ vlen b = mcols m /\ vlen k = mcols m /\
       forall c, (c < mcols m)%nat -> (vat k c < mrows m)%nat /\ vat b c = mel m (vat k c) c /\
          (forall r, (r < mrows m)%nat -> vat b c <= mel m r c) /\ (forall r, (r < vat k c)%nat -> vat b c < mel m r c)) /\
    (exists b k, acc_vertical greater m = Ok (b, k) /\ vlen b = mcols m /\ vlen k = mcols m /\
       forall c, (c < mcols m)%nat -> (vat k c < mrows m)%nat /\ vat b c = mel m (vat k c) c /\
          (forall r, (r < mrows m)%nat -> mel m r c <= vat b c) /\ (forall r, (r < vat k c)%nat -> mel m r c < vat b c)).
Proof.
  intros m Hc. split.
  - destruct (acc_vertical_ok less less0 less1 less2 m Hc) as (b & k & E & H1 & H2 & H3). exists b, k. repeat (split; [assumption|]).
    intros r Hr. destruct (H3 r Hr) as (G1 & G2 & G3 & G4). split; [lia|]. split; [exact G2|]. split; intros c Hcc; [apply G3; lia|apply G4; lia].
  - destruct (acc_vertical_ok greater greater0 greater1 greater2 m Hc) as (b & k & E & H1 & H2 & H3). exists b, k. repeat (split; [assumption|]).
    intros r Hr. destruct (H3 r Hr) as (G1 & G2 & G3 & G4). split; [lia|]. split; [exact G2|]. split; intros c Hcc; [apply G3; lia|apply G4; lia].
Qed.
(** with an empty dimension the other dimension's loop still reads an element that does not exist *)
Theorem C34_empty_dimension_refuted :
  forall (cmp : F -> F -> bool) (m : mat F),
    ((0 < mrows m)%nat -> mcols m = 0%nat -> acc_horizontal cmp m = UB) /\
    ((0 < mcols m)%nat -> mrows m = 0%nat -> acc_vertical cmp m = UB).
Proof.
  intros cmp m. split; intros H H'; unfold acc_horizontal, acc_vertical, for_; rewrite Nat.sub_0_r.
  - destruct (mrows m) as [|k]; [lia|]. cbn [for_up]. unfold mget at 1. rewrite H'. rewrite andb_false_r. reflexivity.
  - destruct (mcols m) as [|k]; [lia|]. cbn [for_up]. unfold mget at 1. rewrite H'. reflexivity.
Qed.

(** ** C40 2x2 inverse *)
Theorem C40_inverse_2x2 :
  forall m : mat F, mrows m = 2%nat -> mcols m = 2%nat -> mel m 0 0 * mel m 1 1 - mel m 0 1 * mel m 1 0 <> 0 ->
    exists w, inv2 m = Ok w /\ gives_mat (mmul w m) 2 2 delta /\ gives_mat (mmul m w) 2 2 delta.
Proof.
  intros m Hr Hc Hd.
  assert (Hd' : mel m 0 0 * mel m 1 1 - mel m 1 0 * mel m 0 1 <> 0).
  { intros E. apply Hd. rewrite <- E. ring. }
  destruct (inv2_ok m Hr Hc Hd') as (w & E & W1 & W2 & W3). exists w. split; [exact E|]. split.
  - eapply gives_mat_ext; [apply mmul_ok; congruence|exact W1|exact Hc|]. cbv beta. rewrite W1, W2, Hc. intros i j Hi Hj. cbn [sum]. rewrite !W3 by lia.
    destruct i as [|[|i]]; [| |lia]; (destruct j as [|[|j]]; [| |lia]); unfold delta; cbn [Nat.eqb]; field; exact Hd'.
  - eapply gives_mat_ext; [apply mmul_ok; congruence|exact Hr|exact W2|]. cbv beta. rewrite Hr, W2, Hc. intros i j Hi Hj. cbn [sum]. rewrite !W3 by lia.
    destruct i as [|[|i]]; [| |lia]; (destruct j as [|[|j]]; [| |lia]); unfold delta; cbn [Nat.eqb]; field; exact Hd'.
Qed.
Theorem C40_singular :
  forall m : mat F, mrows m = 2%nat -> mcols m = 2%nat -> mel m 0 0 * mel m 1 1 - mel m 0 1 * mel m 1 0 = 0 -> inv2 m = NonFinite.
Proof.
  intros m Hr Hc Hd. unfold inv2. rewrite !mget_ok by lia. cbn [bind].
  replace (mel m 0 0 * mel m 1 1 - mel m 1 0 * mel m 0 1) with (0 : F); [rewrite div_zero; reflexivity|]. rewrite <- Hd. ring.
Qed.
End P.

(** ** C35 isnan and isfinite *)
Theorem C35_isnan_isfinite :
  forall (F : Type) (v : vec (ieee F)) (m : mat (ieee F)),
    (exists b, isnan_vec v = Ok b /\ (b = true <-> exists i, (i < vlen v)%nat /\ vat v i = NaN)) /\
    (exists b, isfinite_vec v = Ok b /\ (b = true <-> forall i, (i < vlen v)%nat -> exists x, vat v i = Num x)) /\
    (exists b, isnan_mat m = Ok b /\ (b = true <-> exists i j, (i < mrows m)%nat /\ (j < mcols m)%nat /\ mel m i j = NaN)).
Proof.
  assert (Nv : forall (F : Type) (v : vec (ieee F)), exists b, isnan_vec v = Ok b /\ (b = true <-> exists i, (i < vlen v)%nat /\ vat v i = NaN)).
  { intros F v. destruct (returning_ok (vlen v) (fun i => x <- vget v i ;; Ok (if fp_isnan x then Some true else None)) false (fun i => if fp_isnan (vat v i) then Some true else None)) as (b & E & H).
    - intros i Hi. rewrite vget_ok by exact Hi. reflexivity.
    - exists b. split; [exact E|]. destruct H as [[-> H]|(i & Hi & H & _)].
      + split; [discriminate|]. intros (i & Hi & Hx). specialize (H i Hi). rewrite Hx in H. discriminate.
      + destruct (vat v i) eqn:Ev; cbn [fp_isnan] in H; try discriminate. injection H as <-. split; [|reflexivity]. intros _. exists i. auto. }
  intros F v m. split; [apply Nv|]. split.
  - destruct (returning_ok (vlen v) (fun i => x <- vget v i ;; Ok (if negb (fp_isfinite x) then Some false else None)) true (fun i => if negb (fp_isfinite (vat v i)) then Some false else None)) as (b & E & H).
    + intros i Hi. rewrite vget_ok by exact Hi. reflexivity.
    + exists b. split; [exact E|]. destruct H as [[-> H]|(i & Hi & H & _)].
      * split; [|reflexivity]. intros _ i Hi. specialize (H i Hi). destruct (vat v i); [eauto|discriminate|discriminate].
      * assert (b = false) as -> by (destruct (vat v i); cbn in H; congruence). split; [discriminate|]. intros G. destruct (G i Hi) as [x Hx]. rewrite Hx in H. discriminate.
  - set (g := fun r => if existsb (fun c => fp_isnan (mel m r c)) (seq 0 (mcols m)) then Some true else None).
    destruct (returning_ok (mrows m) (fun r => v <- row m r ;; b <- isnan_vec v ;; Ok (if b then Some true else None)) false g) as (b & E & H).
    + intros r Hr. rewrite row_ok by exact Hr. cbn [bind].
      destruct (Nv F (mkvec (mcols m) (fun c => mel m r c))) as (b & -> & Hb). cbn [bind vlen vat] in *. f_equal. unfold g.
      destruct (existsb (fun c => fp_isnan (mel m r c)) (seq 0 (mcols m))) eqn:Ex.
      * apply existsb_exists in Ex. destruct Ex as (c & Hc & Hx). apply in_seq in Hc. rewrite (proj2 Hb); [reflexivity|]. exists c. split; [lia|].
        destruct (mel m r c); try discriminate. reflexivity.
      * destruct b; [|reflexivity]. destruct (proj1 Hb eq_refl) as (c & Hc & Hx). exfalso.
        assert (T : existsb (fun c => fp_isnan (mel m r c)) (seq 0 (mcols m)) = true) by (apply existsb_exists; exists c; split; [apply in_seq; lia|rewrite Hx; reflexivity]). congruence.
    + exists b. split; [exact E|]. unfold g in H. destruct H as [[-> H]|(r & Hr & H & _)].
      * split; [discriminate|]. intros (i & j & Hi & Hj & Hx). specialize (H i Hi).
        assert (T : existsb (fun c => fp_isnan (mel m i c)) (seq 0 (mcols m)) = true) by (apply existsb_exists; exists j; split; [apply in_seq; lia|rewrite Hx; reflexivity]).
        rewrite T in H. discriminate.
      * destruct (existsb (fun c => fp_isnan (mel m r c)) (seq 0 (mcols m))) eqn:Ex; [|discriminate]. injection H as <-. split; [|reflexivity]. intros _.
        apply existsb_exists in Ex. destruct Ex as (c & Hc & Hx). apply in_seq in Hc. exists r, c. split; [exact Hr|]. split; [lia|].
        destruct (mel m r c); try discriminate. reflexivity.
Qed.

(** ** C29 vector norms, over the reals *)
Local Open Scope R_scope.
Definition zero_vec (v : vec R) : Prop := forall i, (i < vlen v)%nat -> vat v i = 0.
(** the value of a finished run *)
Definition val (x : outcome R) : R := match x with Ok a => a | _ => -1 end.

Lemma Rsum_mul_l n c (f : nat -> R) : sum n (fun i => c * f i) = c * sum n f.
Proof. exact (sum_mul_l n c f). Qed.
Lemma Rsum_add n (f g : nat -> R) : sum n (fun i => f i + g i) = sum n f + sum n g.
Proof. exact (sum_add n f g). Qed.
Lemma norm_val (v : vec R) : norm v = Ok (sqrt (sum (vlen v) (fun i => vat v i * vat v i))).
Proof. unfold norm. rewrite dot_ok by reflexivity. reflexivity. Qed.
Lemma ss_nonneg n (f : nat -> R) : 0 <= sum n (fun i => f i * f i).
Proof.
  apply R_le. change (fle (f0 : R) (sum n (fun i => f i * f i))). apply sum_nonneg. intros i _. apply (proj2 (R_le 0 (f i * f i))). nra.
Qed.
Lemma sum_sq_zero n (f : nat -> R) : sum n (fun i => f i * f i) = 0 -> forall i, (i < n)%nat -> f i = 0.
Proof.
  intros H i Hi. assert (f i * f i = 0).
  { apply (@sum_nonneg_zero R ROps RLaws n (fun i => f i * f i)); [|exact H|exact Hi]. intros j _. apply (proj2 (R_le 0 (f j * f j))). nra. }
  nra.
Qed.
Definition ssum (v : vec R) : R := sum (vlen v) (fun i => vat v i * vat v i).
Definition asum (v : vec R) : R := sum (vlen v) (fun i => Rabs (vat v i)).
Lemma norm1_val (v : vec R) : norm1_vec v = Ok (asum v).
Proof. rewrite norm1_vec_ok. f_equal. apply sum_ext. intros. apply R_abs. Qed.
Lemma norminf_val (v : vec R) : (0 < vlen v)%nat -> exists x, norminf_vec v = Ok x /\ (forall i, (i < vlen v)%nat -> Rabs (vat v i) <= x) /\ exists i, (i < vlen v)%nat /\ x = Rabs (vat v i).
Proof.
  intros H. destruct (norminf_vec_ok v H) as (x & E & H1 & i & Hi & H2). exists x. split; [exact E|]. split.
  - intros j Hj. rewrite <- R_abs. apply R_le. apply H1. exact Hj.
  - exists i. split; [exact Hi|]. rewrite <- R_abs. exact H2.
Qed.
Lemma Rsum_le n (f g : nat -> R) : (forall i, (i < n)%nat -> f i <= g i) -> sum n f <= sum n g.
Proof. intros H. apply R_le. apply sum_le. intros i Hi. apply R_le. auto. Qed.
Lemma Rsum_nonneg n (f : nat -> R) : (forall i, (i < n)%nat -> 0 <= f i) -> 0 <= sum n f.
Proof. intros H. apply R_le. change (fle (f0 : R) (sum n f)). apply sum_nonneg. intros i Hi. apply (proj2 (R_le 0 (f i))). auto. Qed.
Lemma Rsum_term n (f : nat -> R) i : (forall i, (i < n)%nat -> 0 <= f i) -> (i < n)%nat -> f i <= sum n f.
Proof.
  induction n as [|n IH]; intros H Hi; [lia|]. cbn [sum]. cbn [fadd ROps].
  assert (0 <= sum n f) by (apply Rsum_nonneg; auto). specialize (H n ltac:(lia)) as Hn.
  destruct (Nat.eq_dec i n) as [->|]; [lra|]. specialize (IH ltac:(auto) ltac:(lia)). lra.
Qed.
Theorem C29_nonneg_and_zero :
  forall v : vec R,
    (exists x, norm v = Ok x /\ norm_2 v = Ok x /\ 0 <= x /\ (x = 0 <-> zero_vec v) /\ norm_sq v = Ok (x * x)) /\
    (exists x, norm1_vec v = Ok x /\ 0 <= x /\ (x = 0 <-> zero_vec v)) /\
    ((0 < vlen v)%nat -> exists x, norminf_vec v = Ok x /\ 0 <= x /\ (x = 0 <-> zero_vec v)).
Proof.
  intros v. split; [|split].
  - unfold norm_2. rewrite norm_val. fold (ssum v). pose proof (ss_nonneg (vlen v) (vat v)) as Hs. fold (ssum v) in Hs.
    eexists. split; [reflexivity|]. split; [reflexivity|]. split; [apply sqrt_pos|]. split.
    + split.
      * intros H. apply sqrt_eq_0 in H; [|exact Hs]. exact (sum_sq_zero _ _ H).
      * intros H. replace (ssum v) with 0; [apply sqrt_0|]. symmetry. unfold ssum. apply (@sum_zero R ROps RLaws (vlen v) (fun i => vat v i * vat v i)). intros i Hi. rewrite H by exact Hi. cbn. ring.
    + unfold norm_sq. rewrite dot_ok by reflexivity. f_equal. rewrite sqrt_sqrt by exact Hs. reflexivity.
  - rewrite norm1_val. eexists. split; [reflexivity|].
    assert (Hp : forall i, (i < vlen v)%nat -> 0 <= Rabs (vat v i)) by (intros; apply Rabs_pos).
    split; [apply Rsum_nonneg; exact Hp|]. split.
    + intros H i Hi. pose proof (Rsum_term (vlen v) (fun i => Rabs (vat v i)) i Hp Hi) as L. fold (asum v) in L. cbv beta in L. rewrite H in L.
      specialize (Hp i Hi). destruct (Req_dec (vat v i) 0) as [|N]; [assumption|]. apply Rabs_pos_lt in N. lra.
    + intros H. unfold asum. apply (@sum_zero R ROps RLaws (vlen v) (fun i => Rabs (vat v i))). intros i Hi. rewrite H by exact Hi. apply Rabs_R0.
  - intros Hv. destruct (norminf_val v Hv) as (x & E & H1 & i & Hi & H2). exists x. split; [exact E|]. split; [rewrite H2; apply Rabs_pos|]. split.
    + intros Hx j Hj. specialize (H1 j Hj). rewrite Hx in H1. pose proof (Rabs_pos (vat v j)). destruct (Req_dec (vat v j) 0) as [|N]; [assumption|]. apply Rabs_pos_lt in N. lra.
    + intros H. rewrite H2, H by exact Hi. apply Rabs_R0.
Qed.
Theorem C29_homogeneous :
  forall (v : vec R) (s : R), exists w, vscale v s = Ok w /\
    val (norm w) = Rabs s * val (norm v) /\ val (norm1_vec w) = Rabs s * val (norm1_vec v) /\
    ((0 < vlen v)%nat -> val (norminf_vec w) = Rabs s * val (norminf_vec v)).
Proof.
  intros v s. destruct (vscale_ok v s) as (w & E & W1 & W2). exists w. split; [exact E|].
  rewrite !norm_val, !norm1_val. cbn [val]. split; [|split].
  - replace (Rabs s) with (sqrt (s * s)) by apply sqrt_Rsqr_abs. rewrite <- sqrt_mult; [|nra|apply ss_nonneg]. f_equal.
    rewrite W1. rewrite <- (Rsum_mul_l (vlen v) (s * s)%R (fun i => vat v i * vat v i)%R).
    apply (@sum_ext R ROps (vlen v) (fun i => vat w i * vat w i)). intros i Hi. rewrite W2 by exact Hi. cbn. ring.
  - unfold asum. rewrite W1. rewrite <- (Rsum_mul_l (vlen v) (Rabs s) (fun i => Rabs (vat v i))).
    apply (@sum_ext R ROps (vlen v) (fun i => Rabs (vat w i))). intros i Hi. rewrite W2 by exact Hi. cbn. rewrite Rabs_mult. ring.
  - intros Hv. destruct (norminf_val v Hv) as (x & -> & H1 & i & Hi & H2).
    destruct (norminf_val w ltac:(lia)) as (y & -> & G1 & j & Hj & G2). cbn [val]. rewrite W1 in *.
    assert (A : forall k, (k < vlen v)%nat -> Rabs (vat w k) = Rabs s * Rabs (vat v k)).
    { intros k Hk. rewrite W2 by exact Hk. cbn. rewrite Rabs_mult. ring. }
    apply Rle_antisym.
    + rewrite G2, A by exact Hj. apply Rmult_le_compat_l; [apply Rabs_pos|apply H1; exact Hj].
    + rewrite H2, <- A by exact Hi. apply G1. exact Hi.
Qed.
Theorem C29_triangle :
  forall a b : vec R, vlen a = vlen b -> exists w, vadd a b = Ok w /\
    val (norm w) <= val (norm a) + val (norm b) /\ val (norm1_vec w) <= val (norm1_vec a) + val (norm1_vec b) /\
    ((0 < vlen a)%nat -> val (norminf_vec w) <= val (norminf_vec a) + val (norminf_vec b)).
Proof.
  intros a b H. destruct (vadd_ok a b H) as (w & E & W1 & W2). exists w. split; [exact E|].
  rewrite !norm_val, !norm1_val. cbn [val]. split; [|split].
  - pose proof (ss_nonneg (vlen a) (vat a)) as A. pose proof (ss_nonneg (vlen b) (vat b)) as B.
    set (SA := sum (vlen a) (fun i => vat a i * vat a i)) in *. set (SB := sum (vlen b) (fun i => vat b i * vat b i)) in *.
    set (SC := sum (vlen a) (fun i => vat a i * vat b i)).
    assert (SW : sum (vlen w) (fun i => vat w i * vat w i) = SA + 2 * SC + SB).
    { rewrite W1. unfold SA, SB, SC. rewrite <- H. clear -W2.
      transitivity (sum (vlen a) (fun i => (vat a i * vat a i + 2 * (vat a i * vat b i)) + vat b i * vat b i)).
      - apply (@sum_ext R ROps (vlen a) (fun i => vat w i * vat w i)). intros i Hi. rewrite W2 by exact Hi. cbn. ring.
      - pose proof (Rsum_add (vlen a) (fun i => vat a i * vat a i + 2 * (vat a i * vat b i))%R (fun i => vat b i * vat b i)%R) as E1.
        pose proof (Rsum_add (vlen a) (fun i => vat a i * vat a i)%R (fun i => 2 * (vat a i * vat b i))%R) as E2.
        pose proof (Rsum_mul_l (vlen a) 2%R (fun i => vat a i * vat b i)%R) as E3.
        cbn [fadd fmul ROps] in *. rewrite E1, E2, E3. reflexivity. }
    rewrite SW. pose proof (sqrt_pos SA). pose proof (sqrt_pos SB).
    assert (CS : SC <= sqrt SA * sqrt SB).
    { rewrite <- sqrt_mult by assumption. destruct (Rle_dec SC 0); [apply Rle_trans with 0; [assumption|apply sqrt_pos]|].
      rewrite <- (sqrt_Rsqr SC) by lra. apply sqrt_le_1; [apply Rle_0_sqr|nra|]. unfold Rsqr.
      pose proof (cauchy_schwarz (vlen a) (vat a) (vat b)) as CS. apply R_le in CS. unfold SA, SB, SC. rewrite <- H. exact CS. }
    apply Rsqr_incr_0; [|apply sqrt_pos|lra].
    assert (PW : 0 <= SA + 2 * SC + SB) by (rewrite <- SW; apply ss_nonneg).
    unfold Rsqr. rewrite sqrt_sqrt by exact PW.
    pose proof (sqrt_sqrt SA A). pose proof (sqrt_sqrt SB B). nra.
  - unfold asum. rewrite W1, <- H. pose proof (Rsum_add (vlen a) (fun i => Rabs (vat a i)) (fun i => Rabs (vat b i))) as E1. cbn [fadd ROps] in E1. rewrite <- E1.
    apply Rsum_le. intros i Hi. rewrite W2 by exact Hi. apply Rabs_triang.
  - intros Hv. destruct (norminf_val a Hv) as (x & -> & H1 & _). destruct (norminf_val b ltac:(lia)) as (y & -> & H2 & _).
    destruct (norminf_val w ltac:(lia)) as (z & -> & _ & i & Hi & ->). cbn [val]. rewrite W1 in Hi. rewrite W2 by exact Hi.
    eapply Rle_trans; [apply Rabs_triang|]. apply Rplus_le_compat; [apply H1|apply H2]; lia.
Qed.
Theorem C29_norm_ordering :
  forall v : vec R, (0 < vlen v)%nat -> exists a b c, norminf_vec v = Ok a /\ norm_2 v = Ok b /\ norm1_vec v = Ok c /\ a <= b <= c.
Proof.
  intros v Hv. destruct (norminf_val v Hv) as (x & Ex & H1 & i & Hi & H2). unfold norm_2. rewrite norm_val, norm1_val. exists x. do 2 eexists.
  split; [exact Ex|]. split; [reflexivity|]. split; [reflexivity|].
  pose proof (ss_nonneg (vlen v) (vat v)) as Hs. split.
  - rewrite H2. rewrite <- (sqrt_Rsqr_abs (vat v i)). apply sqrt_le_1; [apply Rle_0_sqr|exact Hs|]. unfold Rsqr.
    apply (Rsum_term (vlen v) (fun i => vat v i * vat v i)); [intros; nra|exact Hi].
  - assert (An : 0 <= asum v) by (apply Rsum_nonneg; intros; apply Rabs_pos).
    rewrite <- (sqrt_Rsqr (asum v)) by exact An. apply sqrt_le_1; [exact Hs|apply Rle_0_sqr|]. unfold Rsqr, asum. clear.
    generalize (vlen v). induction n as [|n IH]; cbn [sum]; cbn [fadd fmul f0 ROps]; [lra|].
    assert (0 <= sum n (fun i => Rabs (vat v i))) by (apply Rsum_nonneg; intros; apply Rabs_pos).
    pose proof (Rabs_pos (vat v n)). assert (vat v n * vat v n = Rabs (vat v n) * Rabs (vat v n)) by (rewrite <- Rabs_mult; rewrite Rabs_right; nra). nra.
Qed.
Theorem C29_unit_and_normalize :
  forall v : vec R, ~ zero_vec v -> exists k w u, 0 < k /\ unit_vec v = Ok w /\ normalize v = Ok u /\
    vec_is w (vlen v) (fun i => k * vat v i) /\ vec_is u (vlen v) (fun i => k * vat v i) /\ norm w = Ok 1 /\ norm u = Ok 1.
Proof.
  intros v Hz. pose proof (ss_nonneg (vlen v) (vat v)) as Hs. fold (ssum v) in Hs.
  assert (Hp : 0 < ssum v).
  { destruct Hs as [|E]; [assumption|]. exfalso. apply Hz. exact (sum_sq_zero _ _ (eq_sym E)). }
  pose proof (sqrt_lt_R0 _ Hp) as Hq.
  exists (1 / sqrt (ssum v)). unfold unit_vec, normalize. rewrite dot_ok by reflexivity. cbn [bind].
  change (sum (vlen v) (fun i => fmul (vat v i) (vat v i))) with (ssum v).
  rewrite div_ok by (cbn [f0 ROps]; lra). cbn [bind].
  destruct (vscale_ok v (fdiv f1 (sqrt (ssum v)))) as (w & Ew & W1 & W2). destruct (vdiv_assign_ok v (sqrt (ssum v))) as (u & Eu & U1 & U2); [cbn [f0 ROps]; lra|].
  exists w, u. split; [apply Rdiv_lt_0_compat; lra|]. split; [exact Ew|]. split; [exact Eu|].
  assert (W : vec_is w (vlen v) (fun i => 1 / sqrt (ssum v) * vat v i)) by (split; [exact W1|]; intros i Hi; rewrite W2 by exact Hi; cbn; field; lra).
  assert (U : vec_is u (vlen v) (fun i => 1 / sqrt (ssum v) * vat v i)) by (split; [exact U1|]; intros i Hi; rewrite U2 by exact Hi; cbn; field; lra).
  split; [exact W|]. split; [exact U|].
  assert (N : forall z, vec_is z (vlen v) (fun i => 1 / sqrt (ssum v) * vat v i) -> norm z = Ok 1).
  { intros z [Z1 Z2]. rewrite norm_val. f_equal. rewrite <- sqrt_1. f_equal. rewrite Z1.
    transitivity (sum (vlen v) (fun i => (1 / sqrt (ssum v) * (1 / sqrt (ssum v))) * (vat v i * vat v i))).
    - apply (@sum_ext R ROps (vlen v) (fun i => vat z i * vat z i)). intros i Hi. rewrite Z2 by exact Hi. cbn. ring.
    - pose proof (Rsum_mul_l (vlen v) (1 / sqrt (ssum v) * (1 / sqrt (ssum v)))%R (fun i => vat v i * vat v i)%R) as E. cbn [fmul ROps] in E. rewrite E.
      fold (ssum v). rewrite <- (sqrt_sqrt (ssum v)) at 3 by lra. field. lra. }
  split; apply N; assumption.
Qed.
(** norm_inf reads element 0 before looking at the size *)
Theorem C29_norm_inf_empty_refuted : forall v : vec R, vlen v = 0%nat -> norminf_vec v = UB.
Proof. intros v H. unfold norminf_vec, vget. rewrite H. reflexivity. Qed.
Theorem C30_norm_fro :
  forall m : mat R, exists x, norm_fro m = Ok x /\ 0 <= x /\ x * x = sum (mrows m) (fun r => sum (mcols m) (fun c => mel m r c * mel m r c)).
Proof.
  intros m. unfold norm_fro. rewrite sumsq_mat_ok. cbn [bind]. eexists. split; [reflexivity|]. split; [apply sqrt_pos|].
  apply sqrt_sqrt. apply Rsum_nonneg. intros i _. apply ss_nonneg.
Qed.

Print Assumptions C24_cross_product_matrix.
Print Assumptions C30_norm_inf_is_max_row_sum.
Print Assumptions C30_norm_1_is_max_col_sum.
Print Assumptions C30_norm_1_is_norm_inf_of_transpose.
Print Assumptions C30_norm_inf_compatible.
Print Assumptions C30_norm_inf_submultiplicative.
Print Assumptions C31_unproject_appends_one.
Print Assumptions C31_project_divides_by_last.
Print Assumptions C31_project_unproject.
Print Assumptions C31_project_scale_invariant.
Print Assumptions C31_project_zero_last.
Print Assumptions C31_matrix_columns.
Print Assumptions C32_trace.
Print Assumptions C32_symmetrize.
Print Assumptions C33_vector_extrema.
Print Assumptions C33_matrix_extrema.
Print Assumptions C33_empty.
Print Assumptions C34_rowwise.
Print Assumptions C34_columnwise.
Print Assumptions C34_empty_dimension_refuted.
Print Assumptions C40_inverse_2x2.
Print Assumptions C40_singular.
Print Assumptions C35_isnan_isfinite.
Print Assumptions C29_nonneg_and_zero.
Print Assumptions C29_homogeneous.
Print Assumptions C29_triangle.
Print Assumptions C29_norm_ordering.
Print Assumptions C29_unit_and_normalize.
Print Assumptions C29_norm_inf_empty_refuted.
Print Assumptions C30_norm_fro.

(** Non-vacuity *)
Local Close Scope R_scope.
Example C24_matrix_nonvac : mvals (cross_product_matrix (vq [1;2;3]%Z)) = [[0#1;(-3)#1;2#1];[3#1;0#1;(-1)#1];[(-2)#1;1#1;0#1]]%Q.
Proof. reflexivity. Qed.
Example C29_nonvac : exists v : vec R, ~ zero_vec v /\ (0 < vlen v)%nat.
Proof. exists (mkvec 2 (fun _ => 1%R)). split; [|cbn; lia]. intros H. specialize (H 0%nat ltac:(cbn; lia)). cbn in H. lra. Qed.
Example C30_nonvac :
  norminf_mat (mq 2 3 [1;-2;3;4;5;-6]%Z) = Ok (q 15) /\ norm1_mat (mq 2 3 [1;-2;3;4;5;-6]%Z) = Ok (q 9).
Proof. split; vm_compute; reflexivity. Qed.
Example C31_nonvac : vals (project_vec (vq [4;6;2]%Z)) = [2#1;3#1]%Q /\
 mvals (project_mat (mq 3 2 [4;6;8;10;2;1]%Z)) = [[2#1;6#1];[4#1;10#1]]%Q /\ vals (unproject_vec (vq [7;8]%Z)) = [7#1;8#1;1#1]%Q.
Proof. vm_compute. auto. Qed.
Example C32_nonvac : mvals (symmetrize (mq 3 3 [1;2;3;4;5;6;7;8;9]%Z)) = [[1#1;3#1;5#1];[3#1;5#1;7#1];[5#1;7#1;9#1]]%Q /\
 trace (mq 2 2 [1;2;3;4]%Z) = Ok (q 5).
Proof. vm_compute. auto. Qed.
Example C33_nonvac : acc_elem_vec less (vq [3;1;2;1]%Z) = Ok (q 1, 1%nat) /\ acc_elem_mat greater (mq 2 2 [3;7;7;1]%Z) = Ok (q 7, (0,1)%nat).
Proof. vm_compute. auto. Qed.
Example C34_nonvac : exists b k, acc_horizontal less (mq 2 2 [3;1;7;9]%Z) = Ok (b, k) /\ (vat k 0, vat k 1) = (1, 0)%nat.
Proof. vm_compute. do 2 eexists. split; reflexivity. Qed.
Example C35_nonvac : isnan_vec (mkvec 2 (fun i => if i =? 1 then NaN else Num (q 3)))%nat = Ok true /\
 isfinite_vec (mkvec 2 (fun i => if i =? 1 then Inf true else Num (q 3)))%nat = Ok false.
Proof. split; reflexivity. Qed.
Example C40_nonvac : mvals (inv2 (mq 2 2 [1;2;3;4]%Z)) = [[(-2)#1;1#1];[3#2;(-1)#2]]%Q.
Proof. vm_compute. reflexivity. Qed.
