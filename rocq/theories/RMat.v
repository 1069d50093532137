(** * Algebra of n x n real matrices up to equality of the entries in range *)
From Coq Require Import Reals Arith Lia Lra Setoid Morphisms.
From Verif Require Import Alg Inst RSum SpecMat SpecExp LemEig LemExp.
Local Open Scope R_scope.

Definition meq (n : nat) (A B : rmat) : Prop := forall i j, (i < n)%nat -> (j < n)%nat -> A i j = B i j.
Definition mplus (A B : rmat) : rmat := fun i j => A i j + B i j.
Definition mscal (c : R) (A : rmat) : rmat := fun i j => c * A i j.
#[export] Instance meq_equiv n : Equivalence (meq n).
Proof. split; [intros A i j _ _; reflexivity|intros A B H i j Hi Hj; symmetry; apply H; assumption|intros A B C H1 H2 i j Hi Hj; rewrite H1 by assumption; apply H2; assumption]. Qed.
#[export] Instance mm_proper n : Proper (meq n ==> meq n ==> meq n) (mm n).
Proof. intros A B H C D H2 i j Hi Hj. apply mm_ext; intros; [apply H|apply H2]; assumption. Qed.
#[export] Instance mplus_proper n : Proper (meq n ==> meq n ==> meq n) mplus.
Proof. intros A B H C D H2 i j Hi Hj. unfold mplus. rewrite H, H2 by assumption. reflexivity. Qed.
#[export] Instance mscal_proper n c : Proper (meq n ==> meq n) (mscal c).
Proof. intros A B H i j Hi Hj. unfold mscal. rewrite H by assumption. reflexivity. Qed.
Lemma m_assoc n A B C : meq n (mm n (mm n A B) C) (mm n A (mm n B C)).
Proof. intros i j _ _. apply mm_assoc. Qed.
Lemma m_1l n A : meq n (mm n delta A) A. Proof. intros i j Hi _. apply mm_delta_l; exact Hi. Qed.
Lemma m_1r n A : meq n (mm n A delta) A. Proof. intros i j _ Hj. apply mm_delta_r; exact Hj. Qed.
Lemma m_dist_l n A B C : meq n (mm n A (mplus B C)) (mplus (mm n A B) (mm n A C)).
Proof. intros i j _ _. unfold mm, mplus. rewrite <- S_add. apply S_ext; intros; ring. Qed.
Lemma m_dist_r n A B C : meq n (mm n (mplus A B) C) (mplus (mm n A C) (mm n B C)).
Proof. intros i j _ _. unfold mm, mplus. rewrite <- S_add. apply S_ext; intros; ring. Qed.
Lemma m_scal_l n c A B : meq n (mm n (mscal c A) B) (mscal c (mm n A B)).
Proof. intros i j _ _. unfold mm, mscal. rewrite <- S_mul_l. apply S_ext; intros; ring. Qed.
Lemma m_scal_r n c A B : meq n (mm n A (mscal c B)) (mscal c (mm n A B)).
Proof. intros i j _ _. unfold mm, mscal. rewrite <- S_mul_l. apply S_ext; intros; ring. Qed.
(** a linear identity is checked entry by entry *)
Ltac lin := let i := fresh in let j := fresh in intros i j _ _; unfold mplus, mscal; try field; try ring.
(** ** diagonalised matrices *)
Section C.
Variables (n : nat) (P Q : rmat).
Hypothesis PQ : inverse_pair n P Q.
Lemma conj_mul d e : meq n (mm n (eigmat n P d Q) (eigmat n P e Q)) (eigmat n P (fun k => d k * e k) Q).
Proof.
  intros i j Hi Hj. unfold eigmat, mm.
  transitivity (Sum n (fun k => Sum n (fun l => P i k * d k * (Sum n (fun t => Q k t * P t l)) * (e l * Q l j)))).
  - transitivity (Sum n (fun t => Sum n (fun k => Sum n (fun l => P i k * d k * Q k t * (P t l * e l * Q l j))))).
    + apply S_ext. intros t Ht. rewrite <- S_mul_r. apply S_ext. intros k Hk. rewrite <- S_mul_l. reflexivity.
    + rewrite S_swap. apply S_ext. intros k Hk. rewrite S_swap. apply S_ext. intros l Hl. rewrite <- S_mul_l, <- S_mul_r. apply S_ext. intros; ring.
  - apply S_ext. intros k Hk. transitivity (Sum n (fun l => delta k l * (P i k * d k * (e l * Q l j)))).
    + apply S_ext. intros l Hl. destruct (PQ k l Hk Hl) as [_ H]. unfold mm in H. rewrite H. ring.
    + rewrite (delta_l n k (fun l => P i k * d k * (e l * Q l j)) Hk). ring.
Qed.
Lemma conj_one : meq n (eigmat n P (fun _ => 1) Q) delta.
Proof. intros i j Hi Hj. destruct (PQ i j Hi Hj) as [H _]. rewrite <- H. apply S_ext. intros; ring. Qed.
Lemma conj_add d e : meq n (mplus (eigmat n P d Q) (eigmat n P e Q)) (eigmat n P (fun k => d k + e k) Q).
Proof. intros i j Hi Hj. unfold mplus, eigmat. rewrite <- S_add. apply S_ext; intros; ring. Qed.
Lemma conj_scal c d : meq n (mscal c (eigmat n P d Q)) (eigmat n P (fun k => c * d k) Q).
Proof. intros i j Hi Hj. unfold mscal, eigmat. rewrite <- S_mul_l. apply S_ext; intros; ring. Qed.
Lemma conj_ext d e : (forall k, (k < n)%nat -> d k = e k) -> meq n (eigmat n P d Q) (eigmat n P e Q).
Proof. intros H i j Hi Hj. apply S_ext. intros k Hk. rewrite H by exact Hk. reflexivity. Qed.
Lemma conj_norm d p q c : 0 <= c -> 0 <= q -> norm_le n P p -> norm_le n Q q -> (forall k, (k < n)%nat -> Rabs (d k) <= c) -> norm_le n (eigmat n P d Q) (p * c * q).
Proof.
  intros Pc Pq HP HQ Hd. apply (norm_ext n (mm n (fun i k => P i k * d k) Q)); [intros; reflexivity|]. apply norm_mm; [exact Pq| |exact HQ].
  intros i Hi. eapply Rle_trans; [apply (S_le n _ (fun k => Rabs (P i k) * c)); intros k Hk; rewrite Rabs_mult; apply Rmult_le_compat_l; [apply Rabs_pos|apply Hd; exact Hk]|]. rewrite S_mul_r. apply Rmult_le_compat_r; [exact Pc|apply HP; exact Hi].
Qed.
(** the eigenvalues back from the matrix *)
Lemma conj_back d k : (k < n)%nat -> mm n Q (mm n (eigmat n P d Q) P) k k = d k.
Proof.
  intros Hk. unfold mm, eigmat. transitivity (Sum n (fun l => delta k l * (d l * delta l k))).
  - transitivity (Sum n (fun l => Sum n (fun i => Q k i * P i l) * (d l * Sum n (fun j => Q l j * P j k)))).
    + transitivity (Sum n (fun i => Sum n (fun l => Q k i * P i l * (d l * Sum n (fun j => Q l j * P j k))))).
      * apply S_ext. intros i Hi. transitivity (Q k i * Sum n (fun l => P i l * (d l * Sum n (fun j => Q l j * P j k)))); [|rewrite <- S_mul_l; apply S_ext; intros; ring].
        f_equal. transitivity (Sum n (fun j => Sum n (fun l => P i l * d l * Q l j * P j k))); [apply S_ext; intros; rewrite <- S_mul_r; reflexivity|]. rewrite S_swap. apply S_ext. intros l Hl. rewrite <- !S_mul_l. apply S_ext; intros; ring.
      * rewrite S_swap. apply S_ext. intros l Hl. rewrite <- S_mul_r. reflexivity.
    + apply S_ext. intros l Hl. destruct (PQ k l Hk Hl) as [_ H1]. destruct (PQ l k Hl Hk) as [_ H2]. unfold mm in H1, H2. rewrite H1, H2. reflexivity.
  - rewrite (delta_l n k (fun l => d l * delta l k) Hk). unfold delta. rewrite Nat.eqb_refl. cbn [f1 ROps]. ring.
Qed.
Lemma conj_bound d p q c k : 0 <= p -> 0 <= c -> norm_le n P p -> norm_le n Q q -> norm_le n (eigmat n P d Q) c -> (k < n)%nat -> Rabs (d k) <= q * (c * p).
Proof.
  intros Pp Pc HP HQ Hc Hk. rewrite <- (conj_back d k Hk). apply (norm_entry n); [exact Hk|exact Hk|]. apply norm_mm; [apply Rmult_le_pos; assumption|exact HQ|]. apply norm_mm; assumption.
Qed.
Lemma conj_inj d e : meq n (eigmat n P d Q) (eigmat n P e Q) -> forall k, (k < n)%nat -> d k = e k.
Proof. intros H k Hk. rewrite <- (conj_back d k Hk), <- (conj_back e k Hk). apply mm_ext; [reflexivity|]. intros l Hl. apply mm_ext; [intros; apply H; assumption|reflexivity]. Qed.
Lemma conj_pow d k : meq n (mpow n (eigmat n P d Q) k) (eigmat n P (fun l => d l ^ k) Q).
Proof.
  induction k as [|k I]; cbn [mpow]; [symmetry; exact conj_one|]. rewrite I, conj_mul. reflexivity.
Qed.
(** the exponential of a diagonalised matrix *)
Lemma conj_exp d : is_exp n (eigmat n P d Q) (eigmat n P (fun k => exp (d k)) Q).
Proof.
  apply is_exp_iff. intros i j Hi Hj. apply (cv_ext (fun N => Sum n (fun k => P i k * spsum (d k) N * Q k j))).
  - intros N. unfold psum, spsum. transitivity (Sum N (fun k => Sum n (fun l => P i l * d l ^ k * Q l j) / INR (fact k))).
    + rewrite (S_ext n _ (fun k => Sum N (fun l => P i k * d k ^ l * Q k j / INR (fact l)))).
      * rewrite S_swap. apply S_ext. intros k Hk. unfold Rdiv. rewrite <- S_mul_r. reflexivity.
      * intros k Hk. rewrite <- S_mul_l, <- S_mul_r. apply S_ext. intros; unfold Rdiv; ring.
    + apply S_ext. intros k Hk. rewrite (conj_pow d k i j Hi Hj). reflexivity.
  - apply (cv_sum n (fun k N => P i k * spsum (d k) N * Q k j) (fun k => P i k * exp (d k) * Q k j)). intros k Hk.
    apply (CV_mult (fun N => P i k * spsum (d k) N) (fun _ => Q k j)); [|apply cv_const]. apply (CV_mult (fun _ => P i k) (spsum (d k))); [apply cv_const|apply spsum_cv].
Qed.
End C.
