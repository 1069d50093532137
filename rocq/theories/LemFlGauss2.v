(** * Gaussian elimination with rounding: backward error and growth. *)
From Coq Require Import Reals Lra Lia Arith Bool.
From Verif Require Import Base Alg Inst Mat SpecMat LemMat SpecLin LemLin RSum ModelFl SpecFl LemFl LemFlChol LemFlChol2 LemFlChol3 SpecFlGauss LemFlGauss.
Local Open Scope R_scope.

Definition lo (l : nat -> nat -> R) (r k : nat) : R := if (k <=? r)%nat then l r k else 0.
Definition up (A : mat R) (k j : nat) : R := if (k <? j)%nat then mel A k j else if (k =? j)%nat then 1 else 0.
Lemma S_cut n c f : (c < n)%nat -> (forall k, (c < k < n)%nat -> f k = 0) -> Sum n f = Sum c f + f c.
Proof. intros Hc H. rewrite (S_trunc n (S c)) by (try lia; intros k Hk; apply H; lia). reflexivity. Qed.

Section E.
Variables (u : R) (rnd : R -> R).
Hypothesis RN : rounding u rnd.
Let U := u_rng u rnd RN.

(** the equations of the first [m] columns *)
Definition lu_eqs (n : nat) (a : nat -> nat -> R) (m : nat) (A : mat R) (s : nat -> nat) (l : nat -> nat -> R) : Prop :=
  (forall r j, (j < m)%nat -> (j <= r < n)%nat -> l r j = subs rnd (a (s r) j) (l r) (fun k => mel A k j) j) /\
  (forall r j, (j < m)%nat -> (r < j)%nat -> l r r <> 0 /\ mel A r j = rnd (subs rnd (a (s r) j) (l r) (fun k => mel A k j) r * rnd (1 / l r r))) /\
  (forall r k, (k < m)%nat -> (k <= r < n)%nat -> Rabs (l r k) <= Rabs (l k k)).
Lemma inv_lu n q a b A bv s t l : ge_inv rnd n q a b n A bv s t l -> lu_eqs n a n A s l.
Proof.
  intros (I1 & I2 & IP & IN & IM & IL & IU & _). split; [exact IL|]. split; [|exact IM]. intros r j Hj Hr. split; [apply IN; lia|apply IU; lia].
Qed.
(** at the step without a pivot: one more column *)
Lemma stop_lu n q a b i A bv s t l : (i < n)%nat -> ge_inv rnd n q a b i A bv s t l -> (forall r, (i <= r < n)%nat -> mel A r i = 0) ->
  lu_eqs n a (S i) A s (fun r k => if (k =? i)%nat then 0 else l r k).
Proof.
  intros Hi (I1 & I2 & IP & IN & IM & IL & IU & IA & _) Z. set (l' := fun r k => if (k =? i)%nat then 0 else l r k).
  assert (SB : forall v r y k, (k <= i)%nat -> subs rnd v (l' r) y k = subs rnd v (l r) y k).
  { intros v r y k Hk. apply subs_ext; [reflexivity| |reflexivity]. intros m Hm. unfold l'. destruct (Nat.eqb_spec m i); [lia|reflexivity]. }
  split; [|split].
  - intros r j Hj Hr. rewrite SB by lia. unfold l'. destruct (Nat.eqb_spec j i) as [->|]; [rewrite <- IA by lia; symmetry; apply Z; lia|apply IL; lia].
  - intros r j Hj Hr. rewrite SB by lia. unfold l'. destruct (Nat.eqb_spec r i); [lia|]. split; [apply IN; lia|apply IU; lia].
  - intros r k Hk Hr. unfold l'. destruct (Nat.eqb_spec k i) as [->|]; [lra|]. apply IM; lia.
Qed.

(** a = L U, each term up to n roundings *)
Lemma lu_terms n a m A s l r j : lu_eqs n a m A s l -> (j < m)%nat -> (m <= n)%nat -> (r < n)%nat ->
  exists g, (forall k, fac u n (g k)) /\ a (s r) j = Sum n (fun k => lo l r k * up A k j * g k).
Proof.
  intros (E1 & E2 & _) Hj Hm Hr. assert (F1 : forall k, fac u k 1) by (intros k; apply (fac_le u 0); [exact U|lia|apply fac_1; exact U]).
  destruct (le_lt_dec j r) as [Hjr|Hjr].
  - destruct (subs_back u rnd RN (a (s r) j) (l r) (fun k => mel A k j) j) as (g & Hg & G). rewrite <- E1 in G by lia.
    exists (fun k => if (k <=? j)%nat then g k else 1). split.
    + intros k. destruct (Nat.leb_spec k j); [apply (fac_le u j); [exact U|lia|apply Hg; assumption]|apply F1].
    + rewrite (S_cut n j); [|lia|].
      * rewrite Nat.leb_refl. unfold lo at 2, up at 2. rewrite Nat.ltb_irrefl, Nat.eqb_refl. destruct (Nat.leb_spec j r); [|lia].
        rewrite G, Rplus_comm. f_equal; [|ring]. apply S_ext. intros k Hk. unfold lo, up. destruct (Nat.leb_spec k r), (Nat.ltb_spec k j), (Nat.leb_spec k j); try lia. reflexivity.
      * intros k Hk. unfold up. destruct (Nat.ltb_spec k j), (Nat.eqb_spec k j); try lia. ring.
  - destruct (E2 r j Hj Hjr) as (N & E). destruct (subs_back u rnd RN (a (s r) j) (l r) (fun k => mel A k j) r) as (g & Hg & G). set (v := subs rnd (a (s r) j) (l r) (fun k => mel A k j) r) in *.
    destruct (recip_term u rnd RN (l r r) v N) as (h & Fh & Eh). rewrite <- E in Eh.
    exists (fun k => if (k <? r)%nat then g k else if (k =? r)%nat then g k * h else 1). split.
    + intros k. destruct (Nat.ltb_spec k r); [apply (fac_le u r); [exact U|lia|apply Hg; lia]|]. destruct (Nat.eqb_spec k r); [|apply F1].
      apply (fac_le u (r + 2)); [exact U|lia|]. apply fac_mul; [exact U|apply Hg; lia|exact Fh].
    + rewrite (S_cut n r); [|lia|].
      * rewrite Nat.ltb_irrefl, Nat.eqb_refl. unfold lo at 2, up at 2. rewrite Nat.leb_refl. destruct (Nat.ltb_spec r j); [|lia].
        rewrite G, Rplus_comm. f_equal; [|rewrite Eh; ring]. apply S_ext. intros k Hk. unfold lo, up. destruct (Nat.leb_spec k r), (Nat.ltb_spec k j), (Nat.ltb_spec k r); try lia. reflexivity.
      * intros k Hk. unfold lo. destruct (Nat.leb_spec k r); [lia|]. ring.
Qed.
Lemma rnd_abs x : Rabs (rnd x) <= (1 + u) * Rabs x.
Proof. destruct (rnd_d u rnd RN x) as (d & Hd & ->). rewrite Rabs_mult, Rmult_comm. apply Rmult_le_compat_r; [apply Rabs_pos|]. eapply Rle_trans; [apply Rabs_triang|]. rewrite Rabs_R1. lra. Qed.

(** growth of the elements *)
Definition rho : R := 2 * (1 + u) ^ 4.
Lemma rho_ge : 2 <= rho.
Proof. unfold rho. pose proof (pow_1pu u 4 ltac:(lra)). lra. Qed.
Lemma rho_pow_pos k : 0 < rho ^ k.
Proof. apply pow_lt. pose proof rho_ge. lra. Qed.
Lemma pivot_term (x d e : R) (M : R) : d <> 0 -> Rabs e <= Rabs d -> Rabs x <= M -> Rabs (e * rnd (x * rnd (1 / d))) <= (1 + u) ^ 2 * M.
Proof.
  intros Hd He Hx. rewrite Rabs_mult. apply Rabs_pos_lt in Hd as P. pose proof (Rabs_pos e). pose proof (Rabs_pos x).
  assert (B : Rabs (rnd (x * rnd (1 / d))) <= (1 + u) ^ 2 * (M / Rabs d)).
  { eapply Rle_trans; [apply rnd_abs|]. rewrite Rabs_mult. assert (T : Rabs (rnd (1 / d)) <= (1 + u) * (1 / Rabs d)).
    { eapply Rle_trans; [apply rnd_abs|]. unfold Rdiv. rewrite Rabs_mult, Rabs_R1, Rabs_inv. lra. }
    assert (0 < 1 / Rabs d) by (apply Rdiv_lt_0_compat; lra). replace ((1 + u) ^ 2 * (M / Rabs d)) with ((1 + u) * (M * ((1 + u) * (1 / Rabs d)))) by (field; lra).
    apply Rmult_le_compat_l; [lra|]. apply Rmult_le_compat; try lra. apply Rabs_pos. }
  assert (0 <= M) by lra. assert (0 <= M / Rabs d) by (apply Rmult_le_pos; [lra|left; apply Rinv_0_lt_compat; exact P]). assert (0 < (1 + u) ^ 2) by (apply pow_lt; lra).
  apply (Rle_trans _ (Rabs d * ((1 + u) ^ 2 * (M / Rabs d)))); [|right; field; lra]. apply Rmult_le_compat; try lra. apply Rabs_pos.
Qed.
Lemma subs_growth n a m A s l M : lu_eqs n a m A s l -> (forall r, (r < n)%nat -> (s r < n)%nat) -> (forall i j, (i < n)%nat -> (j < n)%nat -> Rabs (a i j) <= M) -> (m <= n)%nat ->
  forall k r j, (k <= r < n)%nat -> (k <= j < m)%nat -> Rabs (subs rnd (a (s r) j) (l r) (fun i => mel A i j) k) <= M * rho ^ k.
Proof.
  intros (E1 & E2 & E3) Hs HM Hm. induction k as [|k IH]; intros r j Hr Hj.
  - cbn [subs pow]. rewrite Rmult_1_r. apply HM; [apply Hs; lia|lia].
  - cbn [subs]. set (x := subs rnd (a (s r) j) (l r) (fun i => mel A i j) k). assert (X : Rabs x <= M * rho ^ k) by (apply IH; lia).
    destruct (E2 k j ltac:(lia) ltac:(lia)) as (N & E).
    assert (T : Rabs (l r k * mel A k j) <= (1 + u) ^ 2 * (M * rho ^ k)). { rewrite E. apply pivot_term; [exact N|apply E3; lia|apply IH; lia]. }
    pose proof (rnd_abs (x - rnd (l r k * mel A k j))) as B1. pose proof (rnd_abs (l r k * mel A k j)) as B2. pose proof (Rabs_triang x (- rnd (l r k * mel A k j))) as B3. rewrite Rabs_Ropp in B3. fold (x - rnd (l r k * mel A k j)) in B3.
    set (Q := M * rho ^ k) in *. assert (Q0 : 0 <= Q) by (pose proof (Rabs_pos x); lra). replace (M * rho ^ S k) with (Q * rho) by (unfold Q; cbn [pow]; ring). unfold rho.
    assert (B2' : Rabs (rnd (l r k * mel A k j)) <= (1 + u) ^ 3 * Q). { eapply Rle_trans; [exact B2|]. replace ((1 + u) ^ 3 * Q) with ((1 + u) * ((1 + u) ^ 2 * Q)) by ring. apply Rmult_le_compat_l; lra. }
    eapply Rle_trans; [exact B1|]. pose proof (pow_1pu u 3 ltac:(lra)) as P3. apply (Rle_trans _ ((1 + u) * (Q + (1 + u) ^ 3 * Q))); [apply Rmult_le_compat_l; lra|].
    replace (Q * (2 * (1 + u) ^ 4)) with ((1 + u) * ((1 + u) ^ 3 * Q + (1 + u) ^ 3 * Q)) by ring. apply Rmult_le_compat_l; [lra|]. assert (1 * Q <= (1 + u) ^ 3 * Q) by (apply Rmult_le_compat_r; lra). lra.
Qed.
Lemma lu_growth n a m A s l M r k j : lu_eqs n a m A s l -> (forall r, (r < n)%nat -> (s r < n)%nat) -> (forall i j, (i < n)%nat -> (j < n)%nat -> Rabs (a i j) <= M) -> (m <= n)%nat ->
  (r < n)%nat -> (j < m)%nat -> Rabs (lo l r k * up A k j) <= (1 + u) ^ 2 * (M * rho ^ k).
Proof.
  intros E Hs HM Hm Hr Hj. pose proof (subs_growth n a m A s l M E Hs HM Hm) as G. destruct E as (E1 & E2 & E3).
  assert (M0 : 0 <= M) by (eapply Rle_trans; [apply Rabs_pos|apply (HM r j); lia]). assert (B : 0 <= M * rho ^ k) by (apply Rmult_le_pos; [exact M0|left; apply rho_pow_pos]).
  assert (P2 : 1 <= (1 + u) ^ 2) by (apply pow_1pu; lra). assert (B2 : 0 <= (1 + u) ^ 2 * (M * rho ^ k)) by (apply Rmult_le_pos; lra).
  unfold lo, up. destruct (Nat.leb_spec k r); [|rewrite Rmult_0_l, Rabs_R0; exact B2]. destruct (Nat.ltb_spec k j).
  - destruct (E2 k j Hj ltac:(lia)) as (N & ->). apply pivot_term; [exact N|apply E3; lia|apply G; lia].
  - destruct (Nat.eqb_spec k j) as [->|]; [|rewrite Rmult_0_r, Rabs_R0; exact B2]. rewrite Rmult_1_r. rewrite E1 by lia. eapply Rle_trans; [apply G; lia|].
    rewrite <- (Rmult_1_l (M * rho ^ j)) at 1. apply Rmult_le_compat_r; assumption.
Qed.
Lemma rho_sum n : Sum n (fun k => rho ^ k) <= rho ^ n.
Proof. induction n as [|n IH]; [cbn; lra|]. change (Sum (S n) (fun k => rho ^ k)) with (Sum n (fun k => rho ^ k) + rho ^ n). cbn [pow]. pose proof rho_ge. pose proof (rho_pow_pos n). nra. Qed.
Lemma lu_total n a m A s l M r j : lu_eqs n a m A s l -> (forall r, (r < n)%nat -> (s r < n)%nat) -> (forall i j, (i < n)%nat -> (j < n)%nat -> Rabs (a i j) <= M) -> (m <= n)%nat ->
  (r < n)%nat -> (j < m)%nat -> abs_lu n (lo l) (up A) r j <= growth u n * M.
Proof.
  intros E Hs HM Hm Hr Hj. assert (M0 : 0 <= M) by (eapply Rle_trans; [apply Rabs_pos|apply (HM r j); lia]).
  unfold abs_lu. apply (Rle_trans _ (Sum n (fun k => (1 + u) ^ 2 * M * rho ^ k))).
  - apply S_mono. intros k Hk. rewrite Rmult_assoc. apply (lu_growth n a m A s l M); assumption.
  - rewrite S_mul_l. unfold growth. fold rho. pose proof (rho_sum n). assert (0 <= (1 + u) ^ 2 * M) by (apply Rmult_le_pos; [apply pow_le; lra|exact M0]).
    replace ((1 + u) ^ 2 * rho ^ n * M) with ((1 + u) ^ 2 * M * rho ^ n) by ring. apply Rmult_le_compat_l; assumption.
Qed.

(** the two triangular solves *)
Lemma lu_solve_gen n (A : mat R) (l : nat -> nat -> R) (b y x : nat -> R) :
  (forall r, (r < n)%nat -> exists h, fac u 2 h /\ subs rnd (b r) (l r) y r = l r r * y r * h) ->
  (forall i, (i < n)%nat -> x i = subs rnd (y i) (fun k => mel A i (S i + k)%nat) (fun k => x (S i + k)%nat) (n - S i)) ->
  exists g : nat -> nat -> nat -> R, (forall i j k, (i < n)%nat -> (j < n)%nat -> (k < n)%nat -> fac u (2 * n) (g i j k)) /\
    forall r, (r < n)%nat -> b r = Sum n (fun j => Sum n (fun k => lo l r k * up A k j * g r j k) * x j).
Proof.
  intros Y X. assert (F1 : forall k, fac u k 1) by (intros k; apply (fac_le u 0); [exact U|lia|apply fac_1; exact U]).
  assert (HY : forall r, (r < n)%nat -> exists g, (forall k, (k < r)%nat -> fac u r (g k)) /\ fac u (r + 2) (g r) /\ (forall k, (r < k)%nat -> g k = 1) /\ b r = Sum n (fun k => lo l r k * (y k * g k))).
  { intros r Hr. destruct (subs_back u rnd RN (b r) (l r) y r) as (g & Hg & G). set (v := subs rnd (b r) (l r) y r) in *. destruct (Y r Hr) as (h & Fh & Eh). fold v in Eh.
    exists (fun k => if (k <? r)%nat then g k else if (k =? r)%nat then g k * h else 1). split; [|split; [|split]].
    - intros k Hk. destruct (Nat.ltb_spec k r); [apply Hg; lia|lia].
    - rewrite Nat.ltb_irrefl, Nat.eqb_refl. apply fac_mul; [exact U|apply Hg; lia|exact Fh].
    - intros k Hk. destruct (Nat.ltb_spec k r), (Nat.eqb_spec k r); try lia. reflexivity.
    - rewrite (S_cut n r); [|lia|].
      + rewrite Nat.ltb_irrefl, Nat.eqb_refl. unfold lo at 2. rewrite Nat.leb_refl. rewrite G, Rplus_comm. f_equal; [|rewrite Eh; ring].
        apply S_ext. intros k Hk. unfold lo. destruct (Nat.leb_spec k r), (Nat.ltb_spec k r); try lia. ring.
      + intros k Hk. unfold lo. destruct (Nat.leb_spec k r); [lia|]. ring. }
  destruct (fin_choice _ (fun _ => 1) n HY) as (gy & HGY).
  assert (HX : forall i, (i < n)%nat -> exists g, (forall k, fac u (n - S i) (g k)) /\ y i = Sum n (fun j => up A i j * (x j * g j))).
  { intros i Hi. destruct (subs_back u rnd RN (y i) (fun k => mel A i (S i + k)%nat) (fun k => x (S i + k)%nat) (n - S i)) as (g & Hg & G). rewrite <- (X i Hi) in G.
    exists (fun r => if (r =? i)%nat then g (n - S i)%nat else if (r - S i <=? n - S i)%nat then g (r - S i)%nat else 1). split.
    - intros k. destruct (Nat.eqb_spec k i); [apply Hg; lia|]. destruct (Nat.leb_spec (k - S i) (n - S i)); [apply Hg; assumption|apply F1].
    - replace n with (i + S (n - S i))%nat at 1 by lia. rewrite S_split, S_first, Nat.add_0_r, Nat.eqb_refl. rewrite (S_zero i).
      + rewrite G. unfold up at 1. rewrite Nat.ltb_irrefl, Nat.eqb_refl. rewrite Rplus_0_l. f_equal; [ring|]. apply S_ext. intros k Hk. replace (i + S k)%nat with (S i + k)%nat by lia.
        unfold up. destruct (Nat.ltb_spec i (S i + k)), (Nat.eqb_spec (S i + k) i); try lia. replace (S i + k - S i)%nat with k by lia. destruct (Nat.leb_spec k (n - S i)); [ring|lia].
      + intros k Hk. unfold up. destruct (Nat.ltb_spec i k), (Nat.eqb_spec i k); try lia. ring. }
  destruct (fin_choice _ (fun _ => 1) n HX) as (gx & HGX).
  exists (fun r j k => if (k <=? r)%nat then gy r k * gx k j else 1). split.
  - intros r j k Hr Hj Hk. destruct (Nat.leb_spec k r); [|apply F1]. destruct (HGY r Hr) as (G1 & G2 & _). pose proof (proj1 (HGX k Hk) j) as GX. destruct (Nat.eq_dec k r) as [->|].
    + apply (fac_le u (r + 2 + (n - S r))); [exact U|lia|]. apply fac_mul; [exact U|exact G2|exact GX].
    + apply (fac_le u (r + (n - S k))); [exact U|lia|]. apply fac_mul; [exact U|apply G1; lia|exact GX].
  - intros r Hr. destruct (HGY r Hr) as (_ & _ & _ & ->).
    rewrite (S_ext n (fun j => Sum n (fun k => lo l r k * up A k j * (if (k <=? r)%nat then gy r k * gx k j else 1)) * x j) (fun j => Sum n (fun k => lo l r k * up A k j * (if (k <=? r)%nat then gy r k * gx k j else 1) * x j))) by (intros; rewrite S_mul_r; reflexivity).
    rewrite S_swap. apply S_ext. intros k Hk. destruct (HGX k Hk) as (_ & ->). rewrite <- S_mul_r, <- S_mul_l. apply S_ext. intros j Hj. unfold lo. destruct (Nat.leb_spec k r); ring.
Qed.
Lemma lu_solve n (A : mat R) (l : nat -> nat -> R) (b y x : nat -> R) :
  (forall r, (r < n)%nat -> l r r <> 0) ->
  (forall r, (r < n)%nat -> y r = rnd (subs rnd (b r) (l r) y r * rnd (1 / l r r))) ->
  (forall i, (i < n)%nat -> x i = subs rnd (y i) (fun k => mel A i (S i + k)%nat) (fun k => x (S i + k)%nat) (n - S i)) ->
  exists g : nat -> nat -> nat -> R, (forall i j k, (i < n)%nat -> (j < n)%nat -> (k < n)%nat -> fac u (2 * n) (g i j k)) /\
    forall r, (r < n)%nat -> b r = Sum n (fun j => Sum n (fun k => lo l r k * up A k j * g r j k) * x j).
Proof.
  intros N Y X. apply (lu_solve_gen n A l b y x); [|exact X]. intros r Hr. rewrite (Y r Hr). apply (recip_term u rnd RN). apply N. exact Hr.
Qed.
End E.
