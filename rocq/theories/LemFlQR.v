(** * Lengths of vectors; orthogonal matrices; reflections. *)
From Coq Require Import Reals Arith Bool Lia Lra Psatz.
From Verif Require Import Base Alg Mat SpecMat LemMat Inst RSum LemOps SpecLin LemLin LemDetMore LemDetMul ModelFlQR SpecFlQR.
Local Open Scope R_scope.

Lemma sq_sum_nn n (x : nat -> R) : 0 <= Sum n (fun i => x i * x i).
Proof. apply S_nonneg. intros. apply Rle_0_sqr. Qed.
Lemma len_nn n x : 0 <= len n x. Proof. apply sqrt_pos. Qed.
Lemma len_sq n x : len n x * len n x = Sum n (fun i => x i * x i).
Proof. apply sqrt_def. apply sq_sum_nn. Qed.
Lemma len_ext n x y : (forall i, (i < n)%nat -> x i = y i) -> len n x = len n y.
Proof. intros H. unfold len. f_equal. apply S_ext. intros i Hi. rewrite H by exact Hi. reflexivity. Qed.
Lemma S_le n f g : (forall i, (i < n)%nat -> f i <= g i) -> Sum n f <= Sum n g.
Proof. intros H. assert (K : 0 <= Sum n (fun i => g i - f i)) by (apply S_nonneg; intros i Hi; specialize (H i Hi); lra). rewrite S_sub in K. lra. Qed.
Lemma len_le n x y : (forall i, (i < n)%nat -> Rabs (x i) <= Rabs (y i)) -> len n x <= len n y.
Proof. intros H. apply sqrt_le_1_alt. apply S_le. intros i Hi. apply Rsqr_le_abs_1. apply H; exact Hi. Qed.
Lemma len_scal n c x : len n (fun i => c * x i) = Rabs c * len n x.
Proof.
  unfold len. rewrite (S_ext n _ (fun i => (c * c) * (x i * x i))) by (intros; ring). rewrite S_mul_l. rewrite sqrt_mult by (try apply Rle_0_sqr; apply sq_sum_nn). f_equal. apply (sqrt_Rsqr_abs c).
Qed.
Lemma len_scal_r n c x : len n (fun i => x i * c) = Rabs c * len n x.
Proof. rewrite <- len_scal. apply len_ext. intros; ring. Qed.
Lemma len_abs n x : len n (fun i => Rabs (x i)) = len n x.
Proof. apply Rle_antisym; apply len_le; intros; rewrite Rabs_Rabsolu; lra. Qed.
Lemma dot_len n x y : Rabs (Sum n (fun i => x i * y i)) <= len n x * len n y.
Proof.
  assert (C := @cauchy_schwarz R ROps RLaws n x y). cbn [fmul fle ROps] in C.
  apply Rsqr_incr_0_var; [|apply Rmult_le_pos; apply len_nn]. rewrite <- Rsqr_abs. unfold Rsqr.
  replace (len n x * len n y * (len n x * len n y)) with ((len n x * len n x) * (len n y * len n y)) by ring. rewrite !len_sq.
  unfold fle in C. cbn [fltb ROps] in C. apply R_ltb_false in C. exact C.
Qed.
Lemma abs_dot_len n x y : Sum n (fun i => Rabs (x i * y i)) <= len n x * len n y.
Proof.
  rewrite <- (len_abs n x), <- (len_abs n y). eapply Rle_trans; [|apply dot_len]. eapply Rle_trans; [|apply Rle_abs]. apply Req_le. apply S_ext. intros; apply Rabs_mult.
Qed.
Lemma len_add n x y : len n (fun i => x i + y i) <= len n x + len n y.
Proof.
  pose proof (len_nn n x) as P. pose proof (len_nn n y) as Q. apply Rsqr_incr_0_var; [|lra]. unfold Rsqr. rewrite len_sq.
  rewrite (S_ext n _ (fun i => x i * x i + 2 * (x i * y i) + y i * y i)) by (intros; ring). rewrite !S_add, S_mul_l. rewrite <- !len_sq.
  pose proof (dot_len n x y) as D. pose proof (Rle_abs (Sum n (fun i => x i * y i))). lra.
Qed.
Lemma len_tri n x y z : len n (fun i => x i - z i) <= len n (fun i => x i - y i) + len n (fun i => y i - z i).
Proof. eapply Rle_trans; [|apply len_add]. apply Req_le. apply len_ext. intros; ring. Qed.
Lemma len_opp n x y : len n (fun i => x i - y i) = len n (fun i => y i - x i).
Proof. unfold len. f_equal. apply S_ext. intros; ring. Qed.
Lemma len_near n x y : len n x <= len n y + len n (fun i => x i - y i).
Proof. eapply Rle_trans; [|apply len_add]. apply Req_le. apply len_ext. intros; ring. Qed.
Lemma len_elem n x i : (i < n)%nat -> Rabs (x i) <= len n x.
Proof.
  intros Hi. apply Rsqr_incr_0_var; [|apply len_nn]. rewrite <- Rsqr_abs. unfold Rsqr. rewrite len_sq.
  revert Hi. induction n as [|n IH]; [lia|]. intros Hi. change (Sum (S n) ?f) with (Sum n f + f n). cbn beta. pose proof (sq_sum_nn n x). pose proof (Rle_0_sqr (x n)) as T. unfold Rsqr in T.
  destruct (Nat.eq_dec i n) as [->|E]; [lra|]. specialize (IH ltac:(lia)). lra.
Qed.
(** a vector whose first n elements are zero *)
Lemma len_shift n k x : (forall i, (i < n)%nat -> x i = 0) -> len (n + k) x = len k (fun i => x (n + i)%nat).
Proof. intros Z. unfold len. f_equal. rewrite S_split. rewrite (S_zero n) by (intros i Hi; rewrite Z by exact Hi; ring). ring. Qed.
Lemma len_zero n x : (forall i, (i < n)%nat -> x i = 0) -> len n x = 0.
Proof. intros Z. unfold len. rewrite S_zero by (intros i Hi; rewrite Z by exact Hi; ring). apply sqrt_0. Qed.
(** ** orthogonal matrices *)
Definition mv (n : nat) (W : nat -> nat -> R) (x : nat -> R) (i : nat) : R := Sum n (fun k => W i k * x k).
Lemma mv_sub n W x y i : mv n W (fun k => x k - y k) i = mv n W x i - mv n W y i.
Proof. unfold mv. rewrite <- S_sub. apply S_ext. intros; ring. Qed.
Lemma mv_ext n W x y i : (forall k, (k < n)%nat -> x k = y k) -> mv n W x i = mv n W y i.
Proof. intros H. apply S_ext. intros k Hk. rewrite H by exact Hk. reflexivity. Qed.
Lemma mv_tp n W x y : Sum n (fun i => mv n W x i * y i) = Sum n (fun k => x k * mv n (fun i j => W j i) y k).
Proof.
  unfold mv. rewrite (S_ext n _ (fun i => Sum n (fun k => W i k * x k * y i))) by (intros; rewrite <- S_mul_r; reflexivity). rewrite S_swap. apply S_ext. intros k Hk. rewrite <- S_mul_l. apply S_ext. intros; ring.
Qed.
Definition delta_ (i j : nat) : R := if (i =? j)%nat then 1 else 0.
Lemma S_delta n i f : (i < n)%nat -> Sum n (fun k => delta_ i k * f k) = f i.
Proof. intros Hi. apply (@sum_delta_l R ROps RLaws n i f Hi). Qed.
Lemma mv_inv n W x i : orthogonal n W -> (i < n)%nat -> mv n (fun r c => W c r) (mv n W x) i = x i.
Proof.
  intros O Hi. unfold mv. rewrite (S_ext n _ (fun k => Sum n (fun l => W k i * W k l * x l))).
  2:{ intros k Hk. rewrite <- S_mul_l. apply S_ext. intros; ring. }
  rewrite S_swap. rewrite (S_ext n _ (fun l => delta_ i l * x l)).
  2:{ intros l Hl. rewrite S_mul_r. f_equal. apply (O i l Hi Hl). }
  apply S_delta. exact Hi.
Qed.
Lemma len_mv n W x : orthogonal n W -> len n (mv n W x) = len n x.
Proof.
  intros O. unfold len. f_equal. rewrite mv_tp. apply S_ext. intros k Hk. rewrite mv_inv by assumption. reflexivity.
Qed.
Lemma orth_tp n W : orthogonal n W -> orthogonal n (fun i j => W j i).
Proof. intros O i j Hi Hj. destruct (O i j Hi Hj). split; assumption. Qed.
Lemma orth_id n : orthogonal n delta_.
Proof.
  intros i j Hi Hj. split.
  - rewrite (S_delta n i (fun k => delta_ j k) Hi). unfold delta_. rewrite Nat.eqb_sym. reflexivity.
  - rewrite (S_ext n _ (fun k => delta_ i k * delta_ k j)) by (intros q Hq; unfold delta_; rewrite (Nat.eqb_sym q i); reflexivity). rewrite (S_delta n i (fun k => delta_ k j) Hi). reflexivity.
Qed.
Definition mmul (n : nat) (A B : nat -> nat -> R) (i j : nat) : R := Sum n (fun k => A i k * B k j).
Lemma mv_mul n P W x i : mv n (mmul n P W) x i = mv n P (mv n W x) i.
Proof.
  unfold mv, mmul. rewrite (S_ext n _ (fun k => Sum n (fun l => P i l * W l k * x k))) by (intros; rewrite <- S_mul_r; reflexivity). rewrite S_swap. apply S_ext. intros l Hl. rewrite <- S_mul_l. apply S_ext. intros; ring.
Qed.
Lemma orth_rows n P W : orthogonal n P -> orthogonal n W -> forall i j, (i < n)%nat -> (j < n)%nat -> Sum n (fun k => mmul n P W i k * mmul n P W j k) = delta_ i j.
Proof.
  intros OP OW i j Hi Hj. unfold mmul.
  rewrite (S_ext n _ (fun k => Sum n (fun l => P i l * W l k * Sum n (fun q => P j q * W q k)))) by (intros; rewrite <- S_mul_r; reflexivity).
  rewrite S_swap. rewrite (S_ext n _ (fun l => P i l * P j l)); [apply (OP i j Hi Hj)|]. intros l Hl.
  rewrite (S_ext n _ (fun k => P i l * Sum n (fun q => P j q * (W l k * W q k)))). 2:{ intros k Hk. rewrite <- !S_mul_l. apply S_ext. intros; ring. }
  rewrite S_mul_l. f_equal. rewrite S_swap. rewrite (S_ext n _ (fun q => delta_ l q * P j q)).
  2:{ intros q Hq. rewrite S_mul_l. destruct (OW l q Hl Hq) as [E _]. rewrite E. unfold delta_. ring. }
  apply S_delta. exact Hl.
Qed.
Lemma mmul_tp n P W i j : mmul n P W j i = mmul n (fun a b => W b a) (fun a b => P b a) i j.
Proof. unfold mmul. apply S_ext. intros; ring. Qed.
Lemma orth_mul n P W : orthogonal n P -> orthogonal n W -> orthogonal n (mmul n P W).
Proof.
  intros OP OW i j Hi Hj. split; [apply orth_rows; assumption|].
  rewrite (S_ext n _ (fun k => mmul n (fun a b => W b a) (fun a b => P b a) i k * mmul n (fun a b => W b a) (fun a b => P b a) j k)) by (intros q Hq; rewrite (mmul_tp n P W i q), (mmul_tp n P W j q); reflexivity).
  apply orth_rows; try assumption; apply orth_tp; assumption.
Qed.
(** ** reflections *)
Definition reflect (n : nat) (w : nat -> R) (H : R) (y : nat -> R) (i : nat) : R := y i - w i * (Sum n (fun k => w k * y k) / H).
Definition rmat_of (w : nat -> R) (H : R) (i j : nat) : R := delta_ i j - w i * w j / H.
Lemma reflect_mv n w H y i : (i < n)%nat -> mv n (rmat_of w H) y i = reflect n w H y i.
Proof.
  intros Hi. unfold mv, rmat_of, reflect. rewrite (S_ext n _ (fun k => delta_ i k * y k - w i / H * (w k * y k))) by (intros; unfold Rdiv; ring). rewrite S_sub, S_mul_l, (S_delta n i y Hi). unfold Rdiv. ring.
Qed.
Lemma reflect_orth n w H : H <> 0 -> Sum n (fun k => w k * w k) = 2 * H -> orthogonal n (rmat_of w H).
Proof.
  intros HH E. assert (G : forall i j, (i < n)%nat -> (j < n)%nat -> Sum n (fun k => rmat_of w H i k * rmat_of w H j k) = delta_ i j).
  { intros i j Hi Hj. unfold rmat_of. rewrite (S_ext n _ (fun k => delta_ i k * delta_ j k - w j / H * (delta_ i k * w k) - w i / H * (delta_ j k * w k) + w i * w j / (H * H) * (w k * w k))) by (intros; field; exact HH).
    rewrite S_add, !S_sub, !S_mul_l, E. rewrite (S_delta n i (delta_ j) Hi), (S_delta n i w Hi), (S_delta n j w Hj). unfold delta_ at 1 2. rewrite (Nat.eqb_sym j i). field. exact HH. }
  intros i j Hi Hj. split; [apply G; assumption|]. rewrite <- (G i j Hi Hj) at 1. apply S_ext. intros k Hk. unfold rmat_of, delta_. rewrite (Nat.eqb_sym k i), (Nat.eqb_sym k j), (Rmult_comm (w k) (w i)), (Rmult_comm (w k) (w j)). reflexivity.
Qed.
