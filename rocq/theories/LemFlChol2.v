(** * Backward error of the factors and of the solution. *)
From Coq Require Import Reals Lra Lia Arith Bool.
From Verif Require Import Base Alg Inst Mat SpecMat SpecForm ModelChol LemChol LemCholSolve RSum ModelFl SpecFl LemFl LemFlChol.
Local Open Scope R_scope.

(** unit lower triangular factor stored below the diagonal *)
Definition lw (C : mat R) (r c : nat) : R := if (c <? r)%nat then mel C r c else if (r =? c)%nat then 1 else 0.

Lemma lw_sum C n (y : nat -> R) i : (i < n)%nat -> Sum n (fun k => lw C i k * y k) = Sum i (fun k => mel C i k * y k) + y i.
Proof.
  intros Hi. replace n with (i + S (n - S i))%nat by lia. rewrite S_split, S_first. rewrite (S_zero (n - S i)).
  - rewrite Nat.add_0_r. unfold lw at 2. rewrite Nat.ltb_irrefl, Nat.eqb_refl. rewrite (S_ext i _ (fun k => mel C i k * y k)); [ring|].
    intros k Hk. unfold lw. destruct (Nat.ltb_spec k i); [reflexivity|lia].
  - intros k Hk. unfold lw. destruct (Nat.ltb_spec (i + S k) i); [lia|]. destruct (Nat.eqb_spec i (i + S k)); [lia|]. ring.
Qed.
Lemma lw_sum_t C n (y : nat -> R) i : (i < n)%nat -> Sum n (fun r => lw C r i * y r) = y i + Sum (n - S i) (fun k => mel C (S i + k) i * y (S i + k)%nat).
Proof.
  intros Hi. replace n with (i + S (n - S i))%nat at 1 by lia. rewrite S_split, S_first. rewrite Nat.add_0_r. unfold lw at 2. rewrite Nat.ltb_irrefl, Nat.eqb_refl. rewrite (S_zero i).
  - rewrite (S_ext (n - S i) _ (fun k => mel C (S i + k) i * y (S i + k)%nat)); [ring|]. intros k Hk. replace (i + S k)%nat with (S i + k)%nat by lia. unfold lw. destruct (Nat.ltb_spec i (S i + k)); [reflexivity|lia].
  - intros k Hk. unfold lw. destruct (Nat.ltb_spec i k); [lia|]. destruct (Nat.eqb_spec k i); [lia|]. ring.
Qed.

Section E.
Variables (u : R) (rnd : R -> R).
Hypothesis RN : rounding u rnd.
Let U := u_rng u rnd RN.

(** the equations between the stored numbers, for the first [m] columns *)
Definition fl_eqs (n : nat) (a : nat -> nat -> R) (m : nat) (C : mat R) : Prop :=
  (forall c, (c < m)%nat -> mel C c c <> 0) /\
  (forall r c, (c < m)%nat -> (c < r < n)%nat -> mel C r c = rnd (mel C c r * rnd (1 / mel C c c))) /\
  (forall r c, (c < m)%nat -> (c <= r < n)%nat -> mel C c r = subs rnd (a r c) (fun k => mel C k c) (fun k => mel C r k) c).
Lemma inv_eqs n a m C : fl_inv rnd n a m C -> fl_eqs n a m C.
Proof. intros (_ & _ & I0 & I1 & I2 & _). exact (conj I0 (conj I1 I2)). Qed.
Lemma stop_eqs n a m C : fl_stop rnd n a m C -> fl_eqs n a m C.
Proof. intros (_ & _ & I0 & I1 & I2 & _). exact (conj I0 (conj I1 I2)). Qed.
Lemma eqs_le n a m k C : (k <= m)%nat -> fl_eqs n a m C -> fl_eqs n a k C.
Proof. intros H (I0 & I1 & I2). split; [|split]; intros; (apply I0 || apply I1 || apply I2); lia. Qed.
Lemma eqs_upper n a m C j k : fl_eqs n a m C -> (k < m)%nat -> (k < j < n)%nat -> exists h, fac u 2 h /\ mel C k j = mel C k k * mel C j k * h.
Proof.
  intros (I0 & I1 & _) Hk Hj. pose proof (I1 j k Hk Hj) as F. pose proof (I0 k Hk) as N. destruct (rnd_fac u rnd RN (1 / mel C k k)) as (p & Fp & Ep). rewrite Ep in F.
  destruct (rnd_fac u rnd RN (mel C k j * (1 / mel C k k * p))) as (q & Fq & Eq). rewrite Eq in F. exists (/ (p * q)). split.
  - apply fac_inv; [exact U|]. apply (fac_mul u 1 1); assumption.
  - rewrite F. pose proof (fac_pos u 1 p U Fp). pose proof (fac_pos u 1 q U Fq). field. repeat split; lra.
Qed.
(** a(r,c) is the sum of L(r,k) d(k) L(c,k), each term up to c+2 roundings *)
Lemma factor_terms n a (C : mat R) m r c : fl_eqs n a m C -> (c < m)%nat -> (c <= r < n)%nat ->
  exists g, (forall k, fac u (c + 2) (g k)) /\ a r c = Sum n (fun k => lw C r k * mel C k k * lw C c k * g k).
Proof.
  intros I Hc Hr. pose proof (proj2 (proj2 I) r c Hc Hr) as E. destruct (subs_back u rnd RN (a r c) (fun k => mel C k c) (fun k => mel C r k) c) as (g & Hg & G). rewrite <- E in G.
  assert (T : forall j k, (k < m)%nat -> (k < j < n)%nat -> exists h, fac u 2 h /\ mel C k j = mel C k k * mel C j k * h) by (intros; apply (eqs_upper n a m); assumption).
  assert (F1 : fac u 2 1) by (apply (fac_le u 0); [exact U|lia|apply fac_1; exact U]).
  destruct (fin_choice (fun k h => fac u 2 h /\ mel C k c = mel C k k * mel C c k * h) 1 c) as (h & Hh); [intros k Hk; apply T; lia|].
  assert (HD : exists h', fac u 2 h' /\ mel C c r = lw C r c * mel C c c * h').
  { destruct (Nat.eq_dec r c) as [->|Hne].
    - exists 1. split; [exact F1|]. unfold lw. rewrite Nat.ltb_irrefl, Nat.eqb_refl. ring.
    - destruct (T r c Hc ltac:(lia)) as (h' & F' & E'). exists h'. split; [exact F'|]. rewrite E'. unfold lw. destruct (Nat.ltb_spec c r); [ring|lia]. }
  destruct HD as (h' & F' & E').
  exists (fun k => if (k <? c)%nat then h k * g k else if (k =? c)%nat then h' * g c else 1). split.
  - intros k. rewrite Nat.add_comm. destruct (Nat.ltb_spec k c).
    + apply fac_mul; [exact U|apply Hh; assumption|apply Hg; lia].
    + destruct (Nat.eqb_spec k c); [|apply (fac_le u 0); [exact U|lia|apply fac_1; exact U]]. apply fac_mul; [exact U|exact F'|apply Hg; lia].
  - rewrite (S_ext n _ (fun k => lw C c k * (lw C r k * mel C k k * (if (k <? c)%nat then h k * g k else if (k =? c)%nat then h' * g c else 1)))) by (intros; ring).
    rewrite lw_sum by lia. rewrite Nat.ltb_irrefl, Nat.eqb_refl. rewrite G, E'. rewrite Rplus_comm. f_equal; [|ring].
    apply S_ext. intros k Hk. destruct (Nat.ltb_spec k c); [|lia]. destruct (Hh k Hk) as (_ & ->). unfold lw. destruct (Nat.ltb_spec k r); [ring|lia].
Qed.
(** v = (sum of L D L^T, perturbed) x *)
Lemma solve_terms n (C : mat R) (v x y z : nat -> R) :
  (forall i, (i < n)%nat -> y i = subs rnd (v i) (fun k => mel C i k) y i) ->
  (forall i, (i < n)%nat -> exists g, fac u 2 g /\ y i = mel C i i * z i * g) ->
  (forall i, (i < n)%nat -> x i = subs rnd (z i) (fun k => mel C (S i + k) i) (fun k => x (S i + k)%nat) (n - S i)) ->
  exists g : nat -> nat -> nat -> R, (forall i j k, (i < n)%nat -> (j < n)%nat -> (k < n)%nat -> fac u (2 * n) (g i j k)) /\
    forall i, (i < n)%nat -> v i = Sum n (fun j => Sum n (fun k => lw C i k * mel C k k * lw C j k * g i j k) * x j).
Proof.
  intros Y HZ X. assert (F1 : forall k, fac u k 1) by (intros k; apply (fac_le u 0); [exact U|lia|apply fac_1; exact U]).
  assert (HY : forall i, (i < n)%nat -> exists g, (forall k, fac u i (g k)) /\ v i = Sum n (fun k => lw C i k * (y k * g k))).
  { intros i Hi. destruct (subs_back u rnd RN (v i) (fun k => mel C i k) y i) as (g & Hg & G). rewrite <- (Y i Hi) in G. exists (fun k => if (k <=? i)%nat then g k else 1). split.
    - intros k. destruct (Nat.leb_spec k i); [apply Hg; assumption|apply F1].
    - rewrite lw_sum by exact Hi. rewrite G, Nat.leb_refl. rewrite Rplus_comm. f_equal. apply S_ext. intros k Hk. destruct (Nat.leb_spec k i); [ring|lia]. }
  destruct (fin_choice _ (fun _ => 1) n HY) as (gy & HGY).
  destruct (fin_choice _ 1 n HZ) as (gz & HGZ).
  assert (HX : forall i, (i < n)%nat -> exists g, (forall k, fac u (n - S i) (g k)) /\ z i = Sum n (fun r => lw C r i * (x r * g r))).
  { intros i Hi. destruct (subs_back u rnd RN (z i) (fun k => mel C (S i + k) i) (fun k => x (S i + k)%nat) (n - S i)) as (g & Hg & G). rewrite <- (X i Hi) in G.
    exists (fun r => if (r =? i)%nat then g (n - S i)%nat else if (r - S i <=? n - S i)%nat then g (r - S i)%nat else 1). split.
    - intros k. destruct (Nat.eqb_spec k i); [apply Hg; lia|]. destruct (Nat.leb_spec (k - S i) (n - S i)); [apply Hg; assumption|apply F1].
    - rewrite lw_sum_t by exact Hi. rewrite G, Nat.eqb_refl. f_equal. apply S_ext. intros k Hk. destruct (Nat.eqb_spec (S i + k) i); [lia|].
      replace (S i + k - S i)%nat with k by lia. destruct (Nat.leb_spec k (n - S i)); [ring|lia]. }
  destruct (fin_choice _ (fun _ => 1) n HX) as (gx & HGX).
  exists (fun i j k => gy i k * gz k * gx k j). split.
  - intros i j k Hi Hj Hk. apply (fac_le u (i + 2 + (n - S k))); [exact U|lia|]. apply fac_mul; [exact U|apply fac_mul; [exact U|apply HGY; exact Hi|apply HGZ; exact Hk]|apply HGX; exact Hk].
  - intros i Hi. destruct (HGY i Hi) as (_ & ->).
    rewrite (S_ext n (fun j => Sum n (fun k => lw C i k * mel C k k * lw C j k * (gy i k * gz k * gx k j)) * x j) (fun j => Sum n (fun k => lw C i k * mel C k k * lw C j k * (gy i k * gz k * gx k j) * x j))) by (intros; rewrite S_mul_r; reflexivity).
    rewrite S_swap. apply S_ext. intros k Hk. destruct (HGZ k Hk) as (_ & ->). destruct (HGX k Hk) as (_ & ->).
    rewrite (S_ext n (fun j => lw C i k * mel C k k * lw C j k * (gy i k * gz k * gx k j) * x j) (fun j => (lw C i k * mel C k k * gy i k * gz k) * (lw C j k * (x j * gx k j)))) by (intros; ring). rewrite S_mul_l. ring.
Qed.
Lemma div_term d y : d <> 0 -> exists g, fac u 2 g /\ y = d * rnd (y / d) * g.
Proof.
  intros H. destruct (rnd_fac u rnd RN (y / d)) as (p & Fp & Ep). exists (/ p). split; [apply (fac_le u 1); [exact U|lia|apply fac_inv; [exact U|exact Fp]]|]. rewrite Ep.
  pose proof (fac_pos u 1 p U Fp). field. split; lra.
Qed.
Lemma recip_term d y : d <> 0 -> exists g, fac u 2 g /\ y = d * rnd (y * rnd (1 / d)) * g.
Proof.
  intros H. destruct (rnd_fac u rnd RN (1 / d)) as (p & Fp & ->). destruct (rnd_fac u rnd RN (y * (1 / d * p))) as (q & Fq & ->). exists (/ (p * q)).
  split; [apply fac_inv; [exact U|apply (fac_mul u 1 1); assumption]|]. pose proof (fac_pos u 1 p U Fp). pose proof (fac_pos u 1 q U Fq). field. repeat split; lra.
Qed.
Lemma fac_sum_err n (t g h : nat -> R) p q : (forall k, (k < n)%nat -> fac u p (g k)) -> (forall k, (k < n)%nat -> fac u q (h k)) ->
  Rabs (Sum n (fun k => t k * g k) - Sum n (fun k => t k * h k)) <= (bwd u p + bwd u q) * Sum n (fun k => Rabs (t k)).
Proof.
  intros G H. induction n as [|n IH].
  - cbn. rewrite Rminus_0_r, Rabs_R0, Rmult_0_r. lra.
  - change (Sum (S n) ?f) with (Sum n f + f n). cbn beta.
    replace (Sum n (fun i => t i * g i) + t n * g n - (Sum n (fun i => t i * h i) + t n * h n)) with ((Sum n (fun i => t i * g i) - Sum n (fun k => t k * h k)) + t n * ((g n - 1) - (h n - 1))) by ring.
    eapply Rle_trans; [apply Rabs_triang|]. rewrite Rabs_mult. specialize (IH ltac:(intros i Hi; apply G; lia) ltac:(intros i Hi; apply H; lia)).
    pose proof (fac_err u p (g n) U (G n ltac:(lia))). pose proof (fac_err u q (h n) U (H n ltac:(lia))). pose proof (Rabs_pos (t n)).
    pose proof (Rabs_triang (g n - 1) (- (h n - 1))) as TR. rewrite Rabs_Ropp in TR. replace (g n - 1 + - (h n - 1)) with (g n - 1 - (h n - 1)) in TR by ring. nra.
Qed.
End E.
