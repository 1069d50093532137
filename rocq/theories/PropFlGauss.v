(** * C88: gaussian_elimination in floating point. *)
From Coq Require Import Reals Lra Lia Arith Bool.
From Verif Require Import Base Alg Inst Mat SpecMat LemMat SpecLin LemLin ModelGauss LemGauss LemGaussCols RSum ModelFl SpecFl LemFl LemFlChol LemFlChol2 LemFlChol3 SpecFlGauss LemFlGauss LemFlGauss2 RRect ExFl PropFl.
Local Open Scope R_scope.

Section P.
Variables (u : R) (rnd : R -> R).
Hypothesis RN : rounding u rnd.
Let U := u_rng u rnd RN.
Local Notation ge := (@gaussian_elimination R (FlOps rnd)).
Local Notation ge_mat := (@gaussian_elimination_mat R (FlOps rnd)).

Lemma ge_run n (A : mat R) (b : vec R) : mrows A = n -> mcols A = n -> vlen b = n ->
  (exists x A' y s t l, ge A b = Ok x /\ vlen x = n /\ ge_inv rnd n 1 (mel A) (fun r _ => vat b r) n A' y s t l /\
     forall i, (i < n)%nat -> vat x i = subs rnd (y i 0%nat) (fun k => mel A' i (S i + k)%nat) (fun k => vat x (S i + k)%nat) (n - S i)) \/
  (ge A b = NonFinite /\ exists i A' bv s t l, (i < n)%nat /\ ge_inv rnd n 1 (mel A) (fun r _ => vat b r) i A' bv s t l /\ forall r, (i <= r < n)%nat -> mel A' r i = 0).
Proof.
  intros HR HC HB. unfold gaussian_elimination. rewrite HB.
  destruct (fl_ge_elim rnd vswap (@vb_scale R (FlOps rnd)) (@vb_sub R (FlOps rnd)) (fun b r k => vat b r) (fun b => vlen b = n) n 1 (fun b i p => v_swap n b i p) (fun b i f => @v_scale R (FlOps rnd) n b i f) (fun b u i f => @v_sub R (FlOps rnd) n b u i f) A b HR HC HB)
    as [(A' & b' & s & t & l & E & O & I)|[E H]]; rewrite E; cbn [bind]; [left|right; split; [reflexivity|exact H]].
  destruct (fl_backsub_vec rnd n A' b') as (x & Ex & Lx & Vx); [apply I|apply I|exact O|]. exists x, A', (fun r k => vat b' r), s, t, l.
  split; [exact Ex|]. split; [exact Lx|]. split; [exact I|exact Vx].
Qed.

(** Every run ends, with a vector of the right size or with a division by zero. *)
Theorem C88_total : forall n (A : mat R) (b : vec R), mrows A = n -> mcols A = n -> vlen b = n -> (exists x, ge A b = Ok x /\ vlen x = n) \/ ge A b = NonFinite.
Proof. intros n A b HR HC HB. destruct (ge_run n A b HR HC HB) as [(x & ? & ? & ? & ? & ? & E & L & _)|[E _]]; [left; exists x; split; assumption|right; exact E]. Qed.

Lemma solution_of n (a : nat -> nat -> R) (b x y : nat -> R) (A' : mat R) bv s t l :
  ge_inv rnd n 1 a bv n A' (fun r _ => y r) s t l -> (forall r, (r < n)%nat -> bv r 0%nat = b r) ->
  (forall i, (i < n)%nat -> x i = subs rnd (y i) (fun k => mel A' i (S i + k)%nat) (fun k => x (S i + k)%nat) (n - S i)) ->
  exists E, (forall r, (r < n)%nat -> Sum n (fun j => (a (s r) j + E r j) * x j) = b (s r)) /\
    (forall r j, (r < n)%nat -> (j < n)%nat -> Rabs (E r j) <= (bwd u (2 * n) + bwd u n) * abs_lu n (lo l) (up A') r j).
Proof.
  intros I Hb X. pose proof (inv_lu rnd n 1 a bv A' _ s t l I) as LU. pose proof I as (_ & _ & IP & IN & _ & _ & _ & _ & IBu & _).
  destruct (lu_solve u rnd RN n A' l (fun r => b (s r)) y x) as (g & Hg & G).
  - intros r Hr. apply IN. exact Hr.
  - intros r Hr. cbn beta. rewrite <- (Hb (s r)) by (apply IP; exact Hr). apply (IBu r 0%nat Hr). lia.
  - exact X.
  - exists (fun r j => Sum n (fun k => lo l r k * up A' k j * g r j k) - a (s r) j). split.
    + intros r Hr. rewrite G by exact Hr. apply S_ext. intros j Hj. ring.
    + intros r j Hr Hj. destruct (lu_terms u rnd RN n a n A' s l r j LU Hj ltac:(lia) Hr) as (h & Hh & ->).
      apply (fac_sum_err u rnd RN n (fun k => lo l r k * up A' k j) (g r j) h); intros k Hk; [apply Hg; assumption|apply Hh].
Qed.
Lemma factors_of n q a b A bv s t l : ge_inv rnd n q a b n A bv s t l ->
  permutation n s t /\ lower_triangular n (lo l) /\ unit_upper_triangular n (up A) /\ (forall r k, (k <= r < n)%nat -> Rabs (lo l r k) <= Rabs (lo l k k)) /\
  (forall r j, (r < n)%nat -> (j < n)%nat -> Rabs (a (s r) j - Sum n (fun k => lo l r k * up A k j)) <= bwd u n * abs_lu n (lo l) (up A) r j).
Proof.
  intros I. pose proof (inv_lu rnd n q a b A bv s t l I) as LU. destruct I as (_ & _ & IP & IN & IM & _). split; [exact IP|]. split; [|split; [|split]].
  - intros r k Hk. unfold lo. destruct (Nat.leb_spec k r); [lia|reflexivity].
  - intros k j Hk. unfold up. destruct (Nat.ltb_spec k j); [lia|]. reflexivity.
  - intros r k Hk. unfold lo. rewrite Nat.leb_refl. destruct (Nat.leb_spec k r); [|lia]. apply IM; lia.
  - intros r j Hr Hj. destruct (lu_terms u rnd RN n a n A s l r j LU Hj ltac:(lia) Hr) as (h & Hh & ->).
    rewrite (S_ext n (fun k => lo l r k * up A k j) (fun k => lo l r k * up A k j * 1)) by (intros; ring).
    assert (B0 : bwd u 0 = 0) by (unfold bwd; cbn [pow]; field). rewrite <- (Rplus_0_r (bwd u n)), <- B0.
    apply (fac_sum_err u rnd RN n (fun k => lo l r k * up A k j) h (fun _ => 1)); intros k Hk; [apply Hh|apply fac_1; exact U].
Qed.

(** The returned x solves exactly a system whose matrix differs from A by rounding errors of the factors L and U of A (rows permuted, the pivot the largest of its column). *)
Theorem C88_solution : forall n (A : mat R) (b x : vec R), mrows A = n -> mcols A = n -> vlen b = n -> ge A b = Ok x ->
  vlen x = n /\ exists p q L U E,
    permutation n p q /\ lower_triangular n L /\ unit_upper_triangular n U /\ (forall r k, (k <= r < n)%nat -> Rabs (L r k) <= Rabs (L k k)) /\
    (forall r j, (r < n)%nat -> (j < n)%nat -> Rabs (mel A (p r) j - Sum n (fun k => L r k * U k j)) <= bwd u n * abs_lu n L U r j) /\
    (forall r, (r < n)%nat -> Sum n (fun j => (mel A (p r) j + E r j) * vat x j) = vat b (p r)) /\
    (forall r j, (r < n)%nat -> (j < n)%nat -> Rabs (E r j) <= (bwd u (2 * n) + bwd u n) * abs_lu n L U r j).
Proof.
  intros n A b x HR HC HB EX. destruct (ge_run n A b HR HC HB) as [(x' & A' & y & s & t & l & E' & L & I & X)|[E' _]]; rewrite EX in E'; [injection E' as <-|discriminate].
  split; [exact L|]. destruct (factors_of n 1 _ _ _ _ s t l I) as (F1 & F2 & F3 & F4 & F5).
  assert (I' : ge_inv rnd n 1 (mel A) (fun r _ => vat b r) n A' (fun r _ => y r 0%nat) s t l).
  { destruct I as (J1 & J2 & J3 & J4 & J5 & J6 & J7 & J8 & J9 & J10). unfold ge_inv. refine (conj J1 (conj J2 (conj J3 (conj J4 (conj J5 (conj J6 (conj J7 (conj J8 (conj _ _))))))))); intros r c Hr Hc; replace c with 0%nat by lia; [apply J9|apply J10]; lia. }
  destruct (solution_of n (mel A) (vat b) (vat x) (fun r => y r 0%nat) A' _ s t l I' ltac:(reflexivity) X) as (E & E1 & E2).
  exists s, t, (lo l), (up A'), E. refine (conj F1 (conj F2 (conj F3 (conj F4 (conj F5 (conj E1 E2)))))).
Qed.

Lemma growth_nonneg n : 0 <= growth u n.
Proof. unfold growth. apply Rmult_le_pos; [apply pow_le; lra|apply pow_le]. pose proof (pow_1pu u 4 ltac:(lra)). lra. Qed.

Lemma unpermute n (a : nat -> nat -> R) (b x : nat -> R) (s t : nat -> nat) E (eps : R) : permutation n s t ->
  (forall r, (r < n)%nat -> Sum n (fun j => (a (s r) j + E r j) * x j) = b (s r)) -> (forall r j, (r < n)%nat -> (j < n)%nat -> Rabs (E r j) <= eps) ->
  exists E', (forall r, (r < n)%nat -> Sum n (fun j => (a r j + E' r j) * x j) = b r) /\ (forall r j, (r < n)%nat -> (j < n)%nat -> Rabs (E' r j) <= eps).
Proof.
  intros P H B. exists (fun r j => E (t r) j). split.
  - intros r Hr. destruct (P r Hr) as (P1 & P2 & P3 & P4). pose proof (H (t r) P2) as G. rewrite P3 in G. exact G.
  - intros r j Hr Hj. apply B; [apply P; exact Hr|exact Hj].
Qed.

(** In terms of A alone: M bounds its elements. *)
Theorem C88_backward_error : forall n (A : mat R) (b x : vec R) M, mrows A = n -> mcols A = n -> vlen b = n -> (forall i j, (i < n)%nat -> (j < n)%nat -> Rabs (mel A i j) <= M) -> ge A b = Ok x ->
  exists E, (forall r, (r < n)%nat -> Sum n (fun j => (mel A r j + E r j) * vat x j) = vat b r) /\
    (forall r j, (r < n)%nat -> (j < n)%nat -> Rabs (E r j) <= (bwd u (2 * n) + bwd u n) * (growth u n * M)).
Proof.
  intros n A b x M HR HC HB HM EX. destruct (ge_run n A b HR HC HB) as [(x' & A' & y & s & t & l & E' & L & I & X)|[E' _]]; rewrite EX in E'; [injection E' as <-|discriminate].
  assert (I' : ge_inv rnd n 1 (mel A) (fun r _ => vat b r) n A' (fun r _ => y r 0%nat) s t l).
  { destruct I as (J1 & J2 & J3 & J4 & J5 & J6 & J7 & J8 & J9 & J10). unfold ge_inv. refine (conj J1 (conj J2 (conj J3 (conj J4 (conj J5 (conj J6 (conj J7 (conj J8 (conj _ _))))))))); intros r c Hr Hc; replace c with 0%nat by lia; [apply J9|apply J10]; lia. }
  destruct (solution_of n (mel A) (vat b) (vat x) (fun r => y r 0%nat) A' _ s t l I' ltac:(reflexivity) X) as (E & E1 & E2).
  pose proof (inv_lu rnd n 1 _ _ A' _ s t l I) as LU. assert (P : permutation n s t) by (exact (proj1 (proj2 (proj2 I)))).
  apply (unpermute n (mel A) (vat b) (vat x) s t E); [exact P|exact E1|]. intros r j Hr Hj. eapply Rle_trans; [apply E2; assumption|].
  apply Rmult_le_compat_l; [pose proof (bwd_nonneg u (2 * n) U); pose proof (bwd_nonneg u n U); lra|].
  apply (lu_total u rnd RN n (mel A) n A' s l M); try assumption; [intros; apply P; assumption|lia].
Qed.

(** A non-finite result is possible only if a matrix within rounding errors of A is singular. *)
Theorem C88_succeeds : forall n (A : mat R) (b : vec R) M, mrows A = n -> mcols A = n -> vlen b = n -> (forall i j, (i < n)%nat -> (j < n)%nat -> Rabs (mel A i j) <= M) ->
  (forall E, (forall r j, (r < n)%nat -> (j < n)%nat -> Rabs (E r j) <= bwd u n * (growth u n * M)) -> @nonsingular R ROps n (fun r j => mel A r j + E r j)) ->
  exists x, ge A b = Ok x /\ vlen x = n.
Proof.
  intros n A b M HR HC HB HM NS. destruct (ge_run n A b HR HC HB) as [(x & ? & ? & ? & ? & ? & E & L & _)|(_ & i & A' & bv & s & t & l & Hi & I & Z)]; [exists x; split; assumption|exfalso].
  pose proof (stop_lu rnd n 1 _ _ i A' bv s t l Hi I Z) as LU. set (l' := fun r k => if (k =? i)%nat then 0 else l r k) in *. assert (P : permutation n s t) by (exact (proj1 (proj2 (proj2 I)))).
  assert (M0 : 0 <= M) by (eapply Rle_trans; [apply Rabs_pos|apply (HM i i Hi Hi)]).
  set (E := fun r j => if (j <=? i)%nat then Sum n (fun k => lo l' (t r) k * up A' k j) - mel A r j else 0).
  assert (BE : forall r j, (r < n)%nat -> (j < n)%nat -> Rabs (E r j) <= bwd u n * (growth u n * M)).
  { intros r j Hr Hj. unfold E. destruct (Nat.leb_spec j i).
    - destruct (P r Hr) as (P1 & P2 & P3 & P4). destruct (lu_terms u rnd RN n (mel A) (S i) A' s l' (t r) j LU ltac:(lia) ltac:(lia) P2) as (h & Hh & G). rewrite P3 in G. rewrite G, Rabs_minus_sym.
      rewrite (S_ext n (fun k => lo l' (t r) k * up A' k j) (fun k => lo l' (t r) k * up A' k j * 1)) by (intros; ring).
      assert (B0 : bwd u 0 = 0) by (unfold bwd; cbn [pow]; field). rewrite <- (Rplus_0_r (bwd u n)), <- B0.
      eapply Rle_trans; [apply (fac_sum_err u rnd RN n (fun k => lo l' (t r) k * up A' k j) h (fun _ => 1) n 0); intros k Hk; [apply Hh|apply fac_1; exact U]|].
      rewrite B0, Rplus_0_r. apply Rmult_le_compat_l; [apply bwd_nonneg; exact U|]. apply (lu_total u rnd RN n (mel A) (S i) A' s l' M); try assumption; try lia; intros; apply P; assumption.
    - rewrite Rabs_R0. apply Rmult_le_pos; [apply bwd_nonneg; exact U|]. apply Rmult_le_pos; [apply growth_nonneg|exact M0]. }
  pose proof (NS E BE) as N. destruct (@upper_solve R ROps RLaws i (up A') (fun r => - up A' r i)) as [y Hy].
  { intros r c H1 H2 H3. unfold up. destruct (Nat.ltb_spec r c); [lia|]. reflexivity. }
  assert (X : (if (i <? i)%nat then y i else if (i =? i)%nat then 1 else 0) = 0).
  { apply (N (fun c => if (c <? i)%nat then y c else if (c =? i)%nat then 1 else 0)); [|exact Hi]. intros r Hr. destruct (P r Hr) as (_ & P2 & _).
    change (Sum n (fun c => (mel A r c + E r c) * (if (c <? i)%nat then y c else if (c =? i)%nat then 1 else 0)) = 0).
    rewrite (S_cut n i); [|exact Hi|intros k Hk; destruct (Nat.ltb_spec k i), (Nat.eqb_spec k i); try lia; ring]. rewrite Nat.ltb_irrefl, Nat.eqb_refl.
    assert (EE : forall c, (c <= i)%nat -> mel A r c + E r c = Sum i (fun k => lo l' (t r) k * up A' k c)).
    { intros c Hc. unfold E. destruct (Nat.leb_spec c i); [|lia]. rewrite (S_cut n i); [|exact Hi|].
      - unfold lo at 2, l'. rewrite Nat.eqb_refl. destruct (i <=? t r)%nat; ring.
      - intros k Hk. unfold up. destruct (Nat.ltb_spec k c), (Nat.eqb_spec k c); try lia. ring. }
    rewrite EE by lia. rewrite (S_ext i _ (fun c => Sum i (fun k => lo l' (t r) k * up A' k c * y c))).
    - rewrite S_swap. rewrite (S_ext i (fun k => Sum i (fun c => lo l' (t r) k * up A' k c * y c)) (fun k => lo l' (t r) k * - up A' k i)).
      + rewrite Rmult_1_r, <- S_add. apply S_zero. intros k Hk. ring.
      + intros k Hk. rewrite <- (Hy k Hk). change (@sum R ROps i (fun c => fmul (up A' k c) (y c))) with (Sum i (fun c => up A' k c * y c)). rewrite <- S_mul_l. apply S_ext. intros c Hc. ring.
    - intros c Hc. destruct (Nat.ltb_spec c i); [|lia]. rewrite EE by lia. rewrite <- S_mul_r. reflexivity. }
  rewrite Nat.ltb_irrefl, Nat.eqb_refl in X. lra.
Qed.
(** X with X A = 1 (an inverse of A): the error of the result, and a condition under which there is one. *)
Lemma left_apply n X a x i : left_inverse n X a -> (i < n)%nat -> Sum n (fun j => X i j * Sum n (fun k => a j k * x k)) = x i.
Proof.
  intros H Hi. rewrite (S_ext n _ (fun j => Sum n (fun k => X i j * a j k * x k))) by (intros j Hj; rewrite <- S_mul_l; apply S_ext; intros; ring).
  rewrite S_swap. rewrite (S_ext n _ (fun k => (if (i =? k)%nat then 1 else 0) * x k)) by (intros k Hk; rewrite <- (H i k Hi Hk), <- S_mul_r; reflexivity).
  rewrite (S_ext n _ (fun k => if (k =? i)%nat then x i else 0)) by (intros k Hk; destruct (Nat.eqb_spec i k), (Nat.eqb_spec k i); subst; try lia; ring).
  rewrite (S_one n i) by exact Hi. rewrite Nat.eqb_refl, S_zero; [ring|]. intros k Hk. destruct (k =? i)%nat; reflexivity.
Qed.
Theorem C88_forward_error : forall n (A : mat R) (b x : vec R) M X xs, mrows A = n -> mcols A = n -> vlen b = n -> (forall i j, (i < n)%nat -> (j < n)%nat -> Rabs (mel A i j) <= M) -> ge A b = Ok x ->
  left_inverse n X (mel A) -> (forall r, (r < n)%nat -> Sum n (fun j => mel A r j * xs j) = vat b r) ->
  forall i, (i < n)%nat -> Rabs (vat x i - xs i) <= (bwd u (2 * n) + bwd u n) * (growth u n * M) * (Sum n (fun j => Rabs (X i j)) * Sum n (fun k => Rabs (vat x k))).
Proof.
  intros n A b x M X xs HR HC HB HM EX HX HS i Hi. destruct (C88_backward_error n A b x M HR HC HB HM EX) as (E & E1 & E2). set (eps := (bwd u (2 * n) + bwd u n) * (growth u n * M)) in *.
  rewrite <- (left_apply n X (mel A) (vat x) i HX Hi), <- (left_apply n X (mel A) xs i HX Hi). rewrite <- S_sub.
  rewrite (S_ext n _ (fun j => - (X i j * Sum n (fun k => E j k * vat x k)))).
  - eapply Rle_trans; [apply S_abs_le|]. rewrite <- Rmult_assoc, (Rmult_comm eps), Rmult_assoc, <- S_mul_r. apply S_mono. intros j Hj. rewrite Rabs_Ropp, Rabs_mult. apply Rmult_le_compat_l; [apply Rabs_pos|].
    eapply Rle_trans; [apply S_abs_le|]. rewrite <- S_mul_l. apply S_mono. intros k Hk. rewrite Rabs_mult. apply Rmult_le_compat_r; [apply Rabs_pos|apply E2; assumption].
  - intros j Hj. rewrite HS by exact Hj. rewrite <- (E1 j Hj). rewrite (S_ext n (fun k => (mel A j k + E j k) * vat x k) (fun k => mel A j k * vat x k + E j k * vat x k)) by (intros; ring). rewrite S_add. ring.
Qed.
Lemma max_exists n (x : nat -> R) : (0 < n)%nat -> exists i, (i < n)%nat /\ forall k, (k < n)%nat -> Rabs (x k) <= Rabs (x i).
Proof.
  induction n as [|n IH]; intros H; [lia|]. destruct n as [|n]; [exists 0%nat; split; [lia|]; intros k Hk; replace k with 0%nat by lia; lra|]. destruct IH as (i & Hi & Hm); [lia|].
  destruct (Rle_lt_dec (Rabs (x (S n))) (Rabs (x i))).
  - exists i. split; [lia|]. intros k Hk. destruct (Nat.eq_dec k (S n)) as [->|]; [assumption|apply Hm; lia].
  - exists (S n). split; [lia|]. intros k Hk. destruct (Nat.eq_dec k (S n)) as [->|]; [lra|]. pose proof (Hm k ltac:(lia)). lra.
Qed.
Lemma S_cst n (c : R) : Sum n (fun _ => c) = INR n * c.
Proof. induction n as [|n IH]; [cbn; ring|]. change (Sum (S n) ?f) with (Sum n f + f n). rewrite IH, S_INR. ring. Qed.
Theorem C88_well_conditioned : forall n (A : mat R) (b : vec R) M X, mrows A = n -> mcols A = n -> vlen b = n -> (forall i j, (i < n)%nat -> (j < n)%nat -> Rabs (mel A i j) <= M) ->
  left_inverse n X (mel A) -> (forall i, (i < n)%nat -> Sum n (fun j => Rabs (X i j)) * (INR n * (bwd u n * (growth u n * M))) < 1) ->
  exists x, ge A b = Ok x /\ vlen x = n.
Proof.
  intros n A b M X HR HC HB HM HX HN. apply (C88_succeeds n A b M HR HC HB HM). intros E HE x Hx c Hc. set (eps := bwd u n * (growth u n * M)) in *.
  destruct (max_exists n x ltac:(lia)) as (i & Hi & Hm). change (forall r, (r < n)%nat -> Sum n (fun c => (mel A r c + E r c) * x c) = 0) in Hx.
  assert (B : Rabs (x i) <= Sum n (fun j => Rabs (X i j)) * (INR n * eps) * Rabs (x i)).
  { rewrite <- (left_apply n X (mel A) x i HX Hi) at 1. eapply Rle_trans; [apply S_abs_le|]. rewrite Rmult_assoc, <- S_mul_r. apply S_mono. intros j Hj. rewrite Rabs_mult. apply Rmult_le_compat_l; [apply Rabs_pos|].
    replace (Sum n (fun k => mel A j k * x k)) with (- Sum n (fun k => E j k * x k)).
    - rewrite Rabs_Ropp. eapply Rle_trans; [apply S_abs_le|]. apply (Rle_trans _ (Sum n (fun _ => eps * Rabs (x i)))).
      + apply S_mono. intros k Hk. rewrite Rabs_mult. apply Rmult_le_compat; try apply Rabs_pos; [apply HE; assumption|apply Hm; exact Hk].
      + right. rewrite S_cst. ring.
    - pose proof (Hx j Hj) as H0. rewrite (S_ext n _ (fun k => mel A j k * x k + E j k * x k)) in H0 by (intros; ring). rewrite S_add in H0. lra. }
  pose proof (HN i Hi) as L. pose proof (Rabs_pos (x i)) as P. assert (Z : Rabs (x i) = 0) by nra.
  pose proof (Hm c Hc) as Q. rewrite Z in Q. pose proof (Rabs_pos (x c)). destruct (Req_dec (x c) 0) as [|Nz]; [assumption|]. apply Rabs_pos_lt in Nz. lra.
Qed.

(** The overload with a matrix of right-hand sides. *)
Theorem C88_matrix_backward_error : forall n q (A B X : mat R) M, mrows A = n -> mcols A = n -> mrows B = n -> mcols B = q -> (forall i j, (i < n)%nat -> (j < n)%nat -> Rabs (mel A i j) <= M) -> ge_mat A B = Ok X ->
  forall c, (c < q)%nat -> mrows X = n /\ mcols X = q /\ exists E, (forall r, (r < n)%nat -> Sum n (fun j => (mel A r j + E r j) * mel X j c) = mel B r c) /\
    (forall r j, (r < n)%nat -> (j < n)%nat -> Rabs (E r j) <= (bwd u (2 * n) + bwd u n) * (growth u n * M)).
Proof.
  intros n q A B X M HR HC HB HQ HM EX c Hc. pose proof (@gaussian_columns R (FlOps rnd) n q c A B HR HC HB HQ Hc) as S0. rewrite EX in S0. destruct S0 as (x & Ex & X1 & X2 & L & V).
  split; [exact X1|]. split; [exact X2|]. destruct (C88_backward_error n A (mkvec n (fun i => mel B i c)) x M HR HC eq_refl HM Ex) as (E & E1 & E2). exists E. split; [|exact E2].
  intros r Hr. cbn [vat] in E1. rewrite <- (E1 r Hr). apply S_ext. intros j Hj. rewrite V by exact Hj. reflexivity.
Qed.
End P.

(** The matrix overload gives, bit for bit, the columns the vector overload gives: for any arithmetic whatever, rounded or not, with or without special values. *)
Theorem C88_columns : forall (F : Type) (Fo : Ops F) n q (A B : mat F) k, mrows A = n -> mcols A = n -> mrows B = n -> mcols B = q -> (k < q)%nat ->
  (forall X, gaussian_elimination_mat A B = Ok X -> mrows X = n /\ mcols X = q /\ exists x, gaussian_elimination A (mkvec n (fun i => mel B i k)) = Ok x /\ vlen x = n /\ forall i, (i < n)%nat -> vat x i = mel X i k) /\
  (gaussian_elimination_mat A B = NonFinite <-> gaussian_elimination A (mkvec n (fun i => mel B i k)) = NonFinite).
Proof.
  intros F Fo n q A B k HR HC HB HQ Hk. pose proof (gaussian_columns n q k A B HR HC HB HQ Hk) as S0. destruct (gaussian_elimination_mat A B) as [X| | | | |] eqn:E; cbn [osim] in S0.
  - destruct S0 as (x & -> & X1 & X2 & L & V). split; [|split; discriminate]. intros X' H. injection H as <-. split; [exact X1|]. split; [exact X2|]. exists x. split; [reflexivity|]. split; [exact L|exact V].
  - rewrite S0. split; [discriminate|]. split; discriminate.
  - rewrite S0. split; [discriminate|]. split; discriminate.
  - rewrite S0. split; [discriminate|]. split; reflexivity.
  - rewrite S0. split; [discriminate|]. split; discriminate.
  - rewrite S0. split; [discriminate|]. split; discriminate.
Qed.

(** Non-vacuity: a 2x2 matrix that needs an exchange of rows, in double precision. A result is returned for every b, and it solves a system within 1e-13 of the given one. *)
Definition exG : mat R := mkmat 2 2 (fun i j => match i, j with O, O => 0 | S _, S _ => 3 | _, _ => 1 end).
Definition exGi (i j : nat) : R := match i, j with O, O => -3 | S _, S _ => 0 | _, _ => 1 end.
Example C88_double : forall b : vec R, vlen b = 2%nat -> exists x E, @gaussian_elimination R (FlOps rnd64) exG b = Ok x /\ vlen x = 2%nat /\
  (forall r, (r < 2)%nat -> Sum 2 (fun j => (mel exG r j + E r j) * vat x j) = vat b r) /\ (forall r j, (r < 2)%nat -> (j < 2)%nat -> Rabs (E r j) <= / 10 ^ 13).
Proof.
  intros b HB. set (u := / 2 * Flocq.Core.Raux.bpow Flocq.Core.Zaux.radix2 (-52)). assert (U : 0 <= u < / 10 ^ 15 / 4) by exact u64_rng.
  assert (HM : forall i j, (i < 2)%nat -> (j < 2)%nat -> Rabs (mel exG i j) <= 3) by (intros i j Hi Hj; destruct i as [|[|i]], j as [|[|j]]; try lia; cbn; unfold Rabs; destruct (Rcase_abs _); lra).
  assert (G : 0 <= growth u 2 <= 5).
  { split; [apply (growth_nonneg u rnd64 rnd64_rounding)|]. unfold growth. assert (P : (1 + u) ^ 10 <= 5 / 4). { assert (1 <= 1 + u <= 1 + / 100) by lra. assert ((1 + u) ^ 10 <= (1 + / 100) ^ 10) by (apply pow_incr; lra). lra. }
    replace ((1 + u) ^ 2 * (2 * (1 + u) ^ 4) ^ 2) with (4 * (1 + u) ^ 10) by ring. lra. }
  pose proof (bwd64 2 ltac:(lia)) as B2. pose proof (bwd64 4 ltac:(lia)) as B4. fold u in B2, B4. cbn [INR] in B2, B4. pose proof (bwd_nonneg u 2 ltac:(lra)). pose proof (bwd_nonneg u 4 ltac:(lra)).
  destruct (C88_well_conditioned u rnd64 rnd64_rounding 2 exG b 3 exGi eq_refl eq_refl HB HM) as (x & Ex & Lx).
  - intros i k Hi Hk. destruct i as [|[|i]], k as [|[|k]]; try lia; cbn; ring.
  - intros i Hi. assert (S4 : 0 <= Sum 2 (fun j => Rabs (exGi i j)) <= 4).
    { split; [apply S_nonneg; intros; apply Rabs_pos|]. destruct i as [|[|i]]; [| |lia]; cbn; unfold Rabs; repeat destruct (Rcase_abs _); lra. }
    cbn [INR]. assert (T : 0 <= bwd u 2 * (growth u 2 * 3) <= / 1000). { split; [apply Rmult_le_pos; lra|]. apply (Rle_trans _ (((1 + 1) * (/ 10 ^ 15 / 2)) * (5 * 3))); [apply Rmult_le_compat; lra|lra]. }
    apply (Rle_lt_trans _ (4 * ((1 + 1) * / 1000))); [apply Rmult_le_compat; lra|lra].
  - destruct (C88_backward_error u rnd64 rnd64_rounding 2 exG b x 3 eq_refl eq_refl HB HM Ex) as (E & E1 & E2). exists x, E. split; [exact Ex|]. split; [exact Lx|]. split; [exact E1|].
    intros r j Hr Hj. eapply Rle_trans; [apply E2; assumption|]. cbn [Nat.mul Nat.add]. apply (Rle_trans _ ((3 / 10 ^ 15) * (5 * 3))); [apply Rmult_le_compat; lra|lra].
Qed.
Print Assumptions C88_total. Print Assumptions C88_solution. Print Assumptions C88_backward_error. Print Assumptions C88_succeeds. Print Assumptions C88_forward_error. Print Assumptions C88_well_conditioned.
Print Assumptions C88_matrix_backward_error. Print Assumptions C88_columns. Print Assumptions C88_double.
