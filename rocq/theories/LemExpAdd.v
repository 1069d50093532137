(** * exp (s A) exp (t A) = exp ((s + t) A) *)
From Coq Require Import Reals Arith Bool Lia Lra.
From Verif Require Import Base Alg Mat SpecMat Inst RSum SpecExp LemExp LemExp2.
Local Open Scope R_scope.

Definition term2 (n : nat) (A : rmat) (s t : R) (i j p q : nat) : R := s ^ p * t ^ q * mpow n A (p + q) i j / (INR (fact p) * INR (fact q)).
Definition sterm2 (a s t : R) (p q : nat) : R := s ^ p * t ^ q * a ^ (p + q) / (INR (fact p) * INR (fact q)).
Lemma psum_prod n A s t N i j : (i < n)%nat -> mm n (psum n (fun i j => s * A i j) N) (psum n (fun i j => t * A i j) N) i j = pairs (term2 n A s t i j) N.
Proof.
  intros Hi. unfold mm, psum, pairs. transitivity (Sum n (fun k => Sum N (fun p => Sum N (fun q => s ^ p * t ^ q * (mpow n A p i k * mpow n A q k j) / (INR (fact p) * INR (fact q)))))).
  - apply S_ext. intros k Hk. rewrite <- S_mul_r. apply S_ext. intros p Hp. rewrite <- S_mul_l. apply S_ext. intros q Hq. rewrite !mpow_scale. pose proof (fact_pos p). pose proof (fact_pos q). field. lra.
  - rewrite S_swap. apply S_ext. intros p Hp. rewrite S_swap. apply S_ext. intros q Hq. unfold term2. rewrite mpow_add by exact Hi. unfold mm, Rdiv. rewrite <- S_mul_l, <- S_mul_r. reflexivity.
Qed.
Lemma spsum_prod a s t N : spsum (s * a) N * spsum (t * a) N = pairs (sterm2 a s t) N.
Proof.
  unfold spsum, pairs. rewrite <- S_mul_r. apply S_ext. intros p Hp. rewrite <- S_mul_l. apply S_ext. intros q Hq. unfold sterm2. rewrite pow_add, !Rpow_mult_distr. pose proof (fact_pos p). pose proof (fact_pos q). field. lra.
Qed.
Lemma binomial_row2 s t k : Sum (k + 1) (fun p => s ^ p * t ^ (k - p) / (INR (fact p) * INR (fact (k - p)))) = (s + t) ^ k / INR (fact k).
Proof.
  pose proof (binomial s t k) as B. rewrite sum_f_S in B. rewrite B. replace (k + 1)%nat with (S k) by lia. unfold Rdiv. rewrite <- S_mul_r. apply S_ext. intros p Hp. unfold C. pose proof (fact_pos p). pose proof (fact_pos (k - p)). pose proof (fact_pos k). field. lra.
Qed.
Lemma psum_add n A s t N i j : psum n (fun i j => (s + t) * A i j) N i j = lower (term2 n A s t i j) N.
Proof.
  unfold lower. rewrite <- S_triangle. apply S_ext. intros k Hk. rewrite mpow_scale. unfold term2.
  transitivity (mpow n A k i j * ((s + t) ^ k / INR (fact k))); [unfold Rdiv; ring|]. rewrite <- binomial_row2, <- S_mul_l. apply S_ext. intros p Hp. replace (p + (k - p))%nat with k by lia. unfold Rdiv. ring.
Qed.
Lemma spsum_add a s t N : spsum ((s + t) * a) N = lower (sterm2 a s t) N.
Proof.
  unfold lower. rewrite <- S_triangle. apply S_ext. intros k Hk. rewrite Rpow_mult_distr. unfold sterm2.
  transitivity (a ^ k * ((s + t) ^ k / INR (fact k))); [unfold Rdiv; ring|]. rewrite <- binomial_row2, <- S_mul_l. apply S_ext. intros p Hp. replace (p + (k - p))%nat with k by lia. unfold Rdiv. ring.
Qed.
Theorem exp_add n A s t E G : is_exp n (fun i j => s * A i j) E -> is_exp n (fun i j => t * A i j) G -> is_exp n (fun i j => (s + t) * A i j) (mm n E G).
Proof.
  intros HE HG. destruct (some_norm n A) as (a & Pa & Ha). apply is_exp_iff. intros i j Hi Hj.
  set (U := fun N => mm n (psum n (fun i j => s * A i j) N) (psum n (fun i j => t * A i j) N) i j).
  assert (Sq : Un_cv U (mm n E G i j)).
  { unfold U, mm. apply (cv_sum n (fun k N => psum n (fun i j => s * A i j) N i k * psum n (fun i j => t * A i j) N k j)). intros k Hk. apply (CV_mult (fun N => psum n (fun i j => s * A i j) N i k) (fun N => psum n (fun i j => t * A i j) N k j)); apply is_exp_iff; assumption. }
  assert (D : Un_cv (fun N => U N - psum n (fun i j => (s + t) * A i j) N i j) 0).
  { apply (cv_squeeze0 _ (fun N => spsum (Rabs s * a) N * spsum (Rabs t * a) N - spsum ((Rabs s + Rabs t) * a) N)).
    - intros N. unfold U. rewrite psum_prod by exact Hi. rewrite psum_add, spsum_prod, spsum_add. apply pairs_lower. intros p q. unfold term2, sterm2, Rdiv. rewrite !Rabs_mult, <- !RPow_abs.
      assert (P : 0 < / (INR (fact p) * INR (fact q))) by (apply Rinv_0_lt_compat; apply Rmult_lt_0_compat; apply fact_pos). rewrite (Rabs_right (/ (INR (fact p) * INR (fact q)))) by lra. apply Rmult_le_compat_r; [lra|].
      apply Rmult_le_compat_l; [apply Rmult_le_pos; apply pow_le; apply Rabs_pos|]. apply (norm_entry n); [exact Hi|exact Hj|]. apply norm_mpow; assumption.
    - replace 0 with (exp (Rabs s * a) * exp (Rabs t * a) - exp ((Rabs s + Rabs t) * a)) by (rewrite <- exp_plus, Rmult_plus_distr_r; ring). apply (CV_minus (fun N => spsum (Rabs s * a) N * spsum (Rabs t * a) N) (spsum ((Rabs s + Rabs t) * a))); [apply (CV_mult (spsum (Rabs s * a)) (spsum (Rabs t * a))); apply spsum_cv|apply spsum_cv]. }
  apply (cv_ext (fun N => U N - (U N - psum n (fun i j => (s + t) * A i j) N i j))); [intros; ring|].
  replace (mm n E G i j) with (mm n E G i j - 0) by ring. apply (CV_minus U); assumption.
Qed.
Lemma exp_zero n E : is_exp n (fun _ _ => 0) E -> forall i j, (i < n)%nat -> (j < n)%nat -> E i j = delta i j.
Proof.
  intros H i j Hi Hj. rewrite is_exp_iff in H. specialize (H i j Hi Hj). eapply UL_sequence; [exact H|]. apply (cv_unshift _ _ 1). apply (cv_ext (fun _ => @delta R ROps i j)); [|apply cv_const].
  intros N. unfold psum. replace (N + 1)%nat with (S N) by lia. rewrite S_first. cbn [mpow fact]. change (INR 1) with 1. rewrite (S_zero N).
  - field.
  - intros k Hk. cbn [mpow]. unfold mm. rewrite (S_zero n); [unfold Rdiv; ring|]. intros l Hl. ring.
Qed.
(** the exponentials of A and -A are inverse to each other *)
Lemma exp_inverse n A E G : is_exp n A E -> is_exp n (fun i j => - A i j) G -> inverse_pair n E G.
Proof.
  intros HE HG. assert (HE' : is_exp n (fun i j => 1 * A i j) E) by (apply (is_exp_ext n A _ E E); [intros; ring|reflexivity|exact HE]). assert (HG' : is_exp n (fun i j => -1 * A i j) G) by (apply (is_exp_ext n (fun i j => - A i j) _ G G); [intros; ring|reflexivity|exact HG]).
  intros i j Hi Hj. split.
  - apply (exp_zero n); [|exact Hi|exact Hj]. refine (is_exp_ext n _ _ _ _ _ _ (exp_add n A 1 (-1) E G HE' HG')); [intros; cbn beta; ring|reflexivity].
  - apply (exp_zero n); [|exact Hi|exact Hj]. refine (is_exp_ext n _ _ _ _ _ _ (exp_add n A (-1) 1 G E HG' HE')); [intros; cbn beta; ring|reflexivity].
Qed.
