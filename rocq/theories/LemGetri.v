(** * The reference getri computes the inverse. *)
From Coq Require Import Arith Bool Lia Field.
From Verif Require Import Base Alg Mat SpecMat LemMat SpecLin LemLin ModelLU SpecLU LemLU ModelGetrf LemGetrfStep LemGetrf.
Open Scope outcome_scope.

Section L.
Context {F : Type} {Fo : Ops F} {Fl : Laws F}.
Open Scope F_scope.
Add Field Ff : law_field.
Lemma zero_pivot_ok n (m : mat F) : mrows m = n -> mcols m = n -> exists z, zero_pivot n m = Ok z /\ info_ok n m z.
Proof.
  intros Hr Hc. apply wp_ok_inv. unfold zero_pivot. apply (wp_for (fun j z => info_ok j m z)); [lia|intros k Hk; lia|].
  intros i [k|] Hi I; unfold info_ok in *.
  - cbn [wp]. destruct I as (I1 & I2). split; [lia|exact I2].
  - rewrite mget_ok by lia. cbn [bind wp]. destruct (feqb (mel m i i) f0) eqn:E.
    + split; [lia|]. split; [apply law_eqb; exact E|exact I].
    + intros k Hk. destruct (Nat.eq_dec k i) as [->|]; [|apply I; lia]. intros Z. apply law_eqb in Z. congruence.
Qed.
(** ** dtrti2 *)
Lemma lower_sum n (l x : nat -> nat -> F) r c : (r < n)%nat -> sum n (fun k => lower l r k * lower x k c) = sum (S r) (fun k => l r k * lower x k c).
Proof.
  intros Hr. replace n with (S r + (n - S r))%nat by lia. rewrite sum_split. rewrite (sum_zero (n - S r)).
  2:{ intros k Hk. unfold lower at 1. destruct (Nat.leb_spec (S r + k) r); [lia|]. ring. }
  rewrite (sum_ext (S r) (fun k => lower l r k * lower x k c) (fun k => l r k * lower x k c)); [ring|]. intros k Hk. unfold lower at 1. destruct (Nat.leb_spec k r); [reflexivity|lia].
Qed.
Definition tinv (n : nat) (m0 : mat F) (j : nat) (m : mat F) : Prop :=
  mrows m = n /\ mcols m = n /\ (forall r c, (j <= r)%nat \/ (r < c)%nat -> mel m r c = mel m0 r c) /\
  (forall r c, (r < j)%nat -> (c < n)%nat -> sum n (fun k => lower (mel m0) r k * lower (mel m) k c) = delta r c).
Lemma trti2_step_ok n m0 j (m : mat F) : (j < n)%nat -> mel m0 j j <> 0 -> tinv n m0 j m -> exists m', trti2_step j m = Ok m' /\ tinv n m0 (S j) m'.
Proof.
  intros Hj Nz (Hr & Hc & HV & HS). unfold trti2_step. rewrite mget_ok by lia. cbn [bind]. rewrite HV by lia. rewrite div_ok by exact Nz. cbn [bind]. set (d := 1 / mel m0 j j).
  rewrite mset_ok by lia. cbn [bind]. set (m1 := mkmat _ _ _ : mat F).
  assert (R1 : mrows m1 = n) by exact Hr. assert (C1 : mcols m1 = n) by exact Hc. assert (V1 : forall r c, mel m1 r c = if (r =? j)%nat && (c =? j)%nat then d else mel m r c) by reflexivity. clearbody m1.
  assert (T : exists m2, for_ 0 j (fun k m => temp <- mget m j k ;; m <- for_ 0 k (fun i m => x <- mget m j i ;; a <- mget m k i ;; mset m j i (x + temp * a)) m ;; a <- mget m k k ;; mset m j k (temp * a)) m1 = Ok m2 /\
     mrows m2 = n /\ mcols m2 = n /\ forall r c, mel m2 r c = if (r =? j)%nat && (c <? j)%nat then sum j (fun t => mel m0 j t * lower (mel m) t c) else mel m1 r c).
  { apply wp_ok_inv. eapply wp_mono; [apply (wp_for (fun k m2 => mrows m2 = n /\ mcols m2 = n /\ forall r c, mel m2 r c = if (r =? j)%nat && (c <? k)%nat then sum k (fun t => mel m0 j t * lower (mel m) t c) else mel m1 r c))|intros m2 H; exact H].
    - lia.
    - split; [exact R1|]. split; [exact C1|]. intros r c. destruct (Nat.ltb_spec c 0); [lia|]. rewrite andb_false_r. reflexivity.
    - intros k m2 Hk (R2 & C2 & V2). rewrite mget_ok by lia. cbn [bind]. set (temp := mel m2 j k).
      assert (Et : temp = mel m0 j k). { unfold temp. rewrite V2, Nat.eqb_refl. destruct (Nat.ltb_spec k k); [lia|]. cbn [andb]. rewrite V1, Nat.eqb_refl. destruct (Nat.eqb_spec k j); [lia|]. cbn [andb]. apply HV. lia. }
      destruct (row_loop 0 k j (fun i m => x <- mget m j i ;; a <- mget m k i ;; mset m j i (x + temp * a)) m2 (fun i => mel m2 j i + temp * mel m2 k i)) as (m3 & E3 & R3 & C3 & V3); [lia..| |].
      { intros i m' Hi Rm Cm Hm'. rewrite !mget_ok by lia. cbn [bind]. rewrite !Hm' by lia. reflexivity. }
      rewrite E3. cbn [bind]. rewrite mget_ok by lia. cbn [bind]. rewrite mset_ok by lia. cbn [wp mrows mcols mel]. split; [lia|]. split; [lia|].
      assert (Vk : forall i, mel m2 k i = mel m k i). { intros i. rewrite V2. destruct (Nat.eqb_spec k j); [lia|]. cbn [andb]. rewrite V1. destruct (Nat.eqb_spec k j); [lia|]. reflexivity. }
      assert (V3k : mel m3 k k = mel m k k). { rewrite V3. destruct (Nat.eqb_spec k j); [lia|]. cbn [andb]. apply Vk. }
      intros r c. destruct (Nat.eqb_spec r j) as [->|Nr].
      2:{ cbn [andb]. rewrite V3. destruct (Nat.eqb_spec r j); [lia|]. cbn [andb]. rewrite V2. destruct (Nat.eqb_spec r j); [lia|]. reflexivity. }
      cbn [andb]. destruct (Nat.eqb_spec c k) as [->|Nc].
      + destruct (Nat.ltb_spec k (S k)); [|lia]. rewrite V3k, Et. change (sum (S k) ?f) with (sum k f + f k). cbn beta. rewrite (sum_zero k).
        * unfold lower. rewrite Nat.leb_refl. ring.
        * intros t Ht. unfold lower. destruct (Nat.leb_spec k t); [lia|]. ring.
      + rewrite V3, Nat.eqb_refl. cbn [andb Nat.leb]. rewrite V2, Nat.eqb_refl. cbn [andb]. destruct (Nat.ltb_spec c k), (Nat.ltb_spec c (S k)); try lia; [|reflexivity].
        rewrite Vk, Et. change (sum (S k) ?f) with (sum k f + f k). cbn beta. unfold lower at 3. destruct (Nat.leb_spec c k); [|lia]. ring. }
  destruct T as (m2 & -> & R2 & C2 & V2). cbn [bind].
  destruct (row_loop 0 j j (fun i m => x <- mget m j i ;; mset m j i (- d * x)) m2 (fun i => - d * mel m2 j i)) as (m3 & E3 & R3 & C3 & V3); [lia..| |].
  { intros i m' Hi Rm Cm Hm'. rewrite mget_ok by lia. cbn [bind]. rewrite Hm' by lia. reflexivity. }
  rewrite E3. exists m3. split; [reflexivity|].
  assert (W : forall r c, mel m3 r c = if (r =? j)%nat then (if (c <? j)%nat then - d * sum j (fun t => mel m0 j t * lower (mel m) t c) else if (c =? j)%nat then d else mel m r c) else mel m r c).
  { intros r c. rewrite V3, !V2, !V1. destruct (Nat.eqb_spec r j) as [->|]; [|cbn [andb]; reflexivity]. cbn [andb Nat.leb]. rewrite ?Nat.eqb_refl. destruct (Nat.ltb_spec c j); cbn [andb]; reflexivity. }
  split; [lia|]. split; [lia|]. split.
  - intros r c H. rewrite W. destruct (Nat.eqb_spec r j) as [->|].
    + destruct (Nat.ltb_spec c j); [lia|]. destruct (Nat.eqb_spec c j); [lia|]. apply HV. lia.
    + apply HV. lia.
  - intros r c Hr' Hc'. assert (Lw : forall k, (k < j)%nat -> lower (mel m3) k c = lower (mel m) k c). { intros k Hk. unfold lower. rewrite W. destruct (Nat.eqb_spec k j); [lia|]. reflexivity. }
    destruct (Nat.eq_dec r j) as [->|Nr].
    + rewrite lower_sum by exact Hj. change (sum (S j) ?f) with (sum j f + f j). cbn beta. rewrite (sum_ext j (fun k => mel m0 j k * lower (mel m3) k c) (fun t => mel m0 j t * lower (mel m) t c)) by (intros; rewrite Lw by lia; reflexivity).
      unfold lower at 2. rewrite W, Nat.eqb_refl. unfold delta. destruct (Nat.leb_spec c j), (Nat.ltb_spec c j), (Nat.eqb_spec c j), (Nat.eqb_spec j c); try lia.
      * unfold d. field. exact Nz.
      * rewrite sum_zero; [unfold d; field; exact Nz|]. intros t Ht. unfold lower. destruct (Nat.leb_spec c t); [lia|]. ring.
      * rewrite sum_zero; [ring|]. intros t Ht. unfold lower. destruct (Nat.leb_spec c t); [lia|]. ring.
    + rewrite <- HS by lia. rewrite !lower_sum by lia. apply sum_ext. intros k Hk. rewrite Lw by lia. reflexivity.
Qed.
(** ** the loop of dgetri: rows from the last to the first *)
Definition ginv (n : nat) (m1 : mat F) (j : nat) (m : mat F) : Prop :=
  mrows m = n /\ mcols m = n /\ (forall r c, (r < j)%nat -> (c < n)%nat -> mel m r c = mel m1 r c) /\
  (forall r c, (j <= r < n)%nat -> (c < n)%nat -> sum n (fun k => unit_upper (mel m1) r k * mel m k c) = lower (mel m1) r c).
Lemma unit_upper_sum n (u y : nat -> nat -> F) r c : (r < n)%nat -> sum n (fun k => unit_upper u r k * y k c) = y r c + sum (n - S r) (fun k => u r (S r + k)%nat * y (S r + k)%nat c).
Proof.
  intros Hr. replace n with (S r + (n - S r))%nat at 1 by lia. rewrite sum_split. change (sum (S r) ?f) with (sum r f + f r). cbn beta. rewrite (sum_zero r).
  2:{ intros k Hk. unfold unit_upper. destruct (Nat.ltb_spec r k), (Nat.eqb_spec r k); try lia. ring. }
  unfold unit_upper at 1. rewrite Nat.eqb_refl. destruct (Nat.ltb_spec r r); [lia|].
  rewrite (sum_ext (n - S r) (fun i => unit_upper u r (S r + i) * y (S r + i)%nat c) (fun k => u r (S r + k)%nat * y (S r + k)%nat c)); [ring|].
  intros k Hk. unfold unit_upper. destruct (Nat.ltb_spec r (S r + k)); [reflexivity|lia].
Qed.
Lemma getri_step_ok n m1 j (m : mat F) : (j < n)%nat -> ginv n m1 (S j) m -> exists m', getri_step n j m = Ok m' /\ ginv n m1 j m'.
Proof.
  intros Hj (Hr & Hc & HV & HS). unfold getri_step.
  destruct (row_loop (S j) n j (fun i m => mset m j i f0) m (fun _ => 0)) as (m2 & E2 & R2 & C2 & V2); [lia..| |]; [reflexivity|]. rewrite E2. cbn [bind].
  assert (T : exists m3, for_ (S j) n (fun k m3 => w <- mget m j k ;; for_ 0 n (fun i m3 => x <- mget m3 j i ;; a <- mget m3 k i ;; mset m3 j i (x - w * a)) m3) m2 = Ok m3 /\ mrows m3 = n /\ mcols m3 = n /\
     forall r c, (c < n)%nat -> mel m3 r c = if (r =? j)%nat then mel m2 j c - sum (n - S j) (fun k => mel m j (S j + k)%nat * mel m (S j + k)%nat c) else mel m r c).
  { apply wp_ok_inv. apply (wp_for (fun k m3 => mrows m3 = n /\ mcols m3 = n /\ forall r c, (c < n)%nat -> mel m3 r c = if (r =? j)%nat then mel m2 j c - sum (k - S j) (fun k => mel m j (S j + k)%nat * mel m (S j + k)%nat c) else mel m r c)).
    - lia.
    - split; [lia|]. split; [lia|]. intros r c Hc'. rewrite Nat.sub_diag. cbn [sum]. destruct (Nat.eqb_spec r j) as [->|N]; [ring|]. rewrite V2. destruct (Nat.eqb_spec r j); [lia|]. reflexivity.
    - intros k m3 Hk (R3 & C3 & V3). rewrite mget_ok by lia. cbn [bind]. set (w := mel m j k).
      destruct (row_loop 0 n j (fun i m3 => x <- mget m3 j i ;; a <- mget m3 k i ;; mset m3 j i (x - w * a)) m3 (fun i => mel m3 j i - w * mel m3 k i)) as (m4 & E4 & R4 & C4 & V4); [lia..| |].
      { intros i m' Hi Rm Cm Hm'. rewrite !mget_ok by lia. cbn [bind]. rewrite !Hm' by lia. reflexivity. }
      rewrite E4. cbn [wp]. split; [lia|]. split; [lia|]. intros r c Hc'. rewrite V4. destruct (Nat.eqb_spec r j) as [->|N]; cbn [andb].
      + cbn [Nat.leb]. destruct (Nat.ltb_spec c n); [|lia]. cbn [andb]. rewrite !V3 by lia. rewrite Nat.eqb_refl. destruct (Nat.eqb_spec k j); [lia|].
        replace (S k - S j)%nat with (S (k - S j)) by lia. change (sum (S (k - S j)) ?f) with (sum (k - S j) f + f (k - S j)%nat). cbn beta. replace (S j + (k - S j))%nat with k by lia. fold w. ring.
      + rewrite V3 by lia. destruct (Nat.eqb_spec r j); [lia|]. reflexivity. }
  destruct T as (m3 & -> & R3 & C3 & V3). exists m3. split; [reflexivity|]. split; [exact R3|]. split; [exact C3|]. 
  assert (Row : forall r c, (c < n)%nat -> r <> j -> mel m3 r c = mel m r c) by (intros r c Hc' N; rewrite V3 by exact Hc'; destruct (Nat.eqb_spec r j); [lia|reflexivity]).
  split.
  - intros r c H1 H2. rewrite Row by lia. apply HV; lia.
  - intros r c H1 H2. rewrite unit_upper_sum by lia. rewrite (sum_ext (n - S r) (fun k => mel m1 r (S r + k)%nat * mel m3 (S r + k)%nat c) (fun k => mel m1 r (S r + k)%nat * mel m (S r + k)%nat c)) by (intros k Hk; rewrite Row by lia; reflexivity).
    destruct (Nat.eq_dec r j) as [->|N].
    + rewrite V3, Nat.eqb_refl by lia. rewrite (sum_ext (n - S j) (fun k => mel m j (S j + k)%nat * mel m (S j + k)%nat c) (fun k => mel m1 j (S j + k)%nat * mel m (S j + k)%nat c)) by (intros k Hk; rewrite HV by lia; reflexivity).
      rewrite V2, Nat.eqb_refl. unfold lower. destruct (Nat.leb_spec (S j) c), (Nat.ltb_spec c n), (Nat.leb_spec c j); try lia; cbn [andb]; [ring|]. rewrite HV by lia. ring.
    + rewrite Row by lia. rewrite <- unit_upper_sum by lia. apply HS; lia.
Qed.
(** ** getri *)
Lemma row_exchange n piv j (m : mat F) : (j < n)%nat -> (j <= piv < n)%nat -> mrows m = n -> mcols m = n ->
  exists m', (if (piv =? j)%nat then Ok m else for_ 0 n (fun i m => x <- mget m j i ;; y <- mget m piv i ;; m <- mset m j i y ;; mset m piv i x) m) = Ok m' /\ mrows m' = n /\ mcols m' = n /\
    forall r c, (c < n)%nat -> mel m' r c = exchange j piv (fun r => mel m r c) r.
Proof.
  intros Hj Hp Hr Hc. destruct (Nat.eqb_spec piv j) as [->|N].
  - exists m. split; [reflexivity|]. split; [exact Hr|]. split; [exact Hc|]. intros r c _. rewrite exchange_swp, swp_id. reflexivity.
  - destruct (row_swap 0 n j piv (fun i m => x <- mget m j i ;; y <- mget m piv i ;; m <- mset m j i y ;; mset m piv i x) m) as (m' & E & R & C & V); [lia..| |]; [reflexivity|].
    exists m'. split; [exact E|]. split; [lia|]. split; [lia|]. intros r c H. rewrite exchange_swp, V. destruct (Nat.ltb_spec c n); [reflexivity|lia].
Qed.
Lemma getri_ok n (A : nat -> nat -> F) (L : lu F) : factorised n A L -> (forall i, (i < n)%nat -> mel (lu_m L) i i <> 0) ->
  exists V, lu_inverse L = Ok (V, None) /\ mrows V = n /\ mcols V = n /\ forall r c, (r < n)%nat -> (c < n)%nat -> sum n (fun k => A r k * mel V k c) = delta r c.
Proof.
  intros HF Nz. pose proof HF as (Hr & Hc & Hp & _). unfold lu_inverse, getri. rewrite Hr. set (m := lu_m L) in *. destruct (zero_pivot_ok n m Hr Hc) as (z & -> & Z). cbn [bind].
  destruct z as [i|]; [destruct Z as (Z1 & Z2 & _); exfalso; exact (Nz i Z1 Z2)|].
  assert (T1 : exists m1, for_ 0 n trti2_step m = Ok m1 /\ tinv n m n m1).
  { apply wp_ok_inv. apply (wp_for (tinv n m)); [lia| |].
    - split; [exact Hr|]. split; [exact Hc|]. split; [reflexivity|]. intros; lia.
    - intros j s Hj I. destruct (trti2_step_ok n m j s) as (s' & -> & I'); [lia|apply Nz; lia|exact I|]. exact I'. }
  destruct T1 as (m1 & -> & (R1 & C1 & U1 & L1)). cbn [bind].
  assert (T2 : exists m2, for_down n 0 (getri_step n) m1 = Ok m2 /\ ginv n m1 0 m2).
  { apply wp_ok_inv. apply (wp_for_down (ginv n m1)); [lia| |].
    - split; [exact R1|]. split; [exact C1|]. split; [reflexivity|]. intros; lia.
    - intros j s Hj I. destruct (getri_step_ok n m1 j s) as (s' & -> & I'); [lia|exact I|]. exact I'. }
  destruct T2 as (m2 & -> & (R2 & C2 & _ & S2)). cbn [bind].
  assert (T3 : exists m3, for_down (n - 1) 0 (fun j m => let p := lu_piv L j in if (p =? j)%nat then Ok m else for_ 0 n (fun i m => x <- mget m j i ;; y <- mget m p i ;; m <- mset m j i y ;; mset m p i x) m) m2 = Ok m3 /\
     mrows m3 = n /\ mcols m3 = n /\ forall k c, (k < n)%nat -> (c < n)%nat -> mel m3 k c = undo (lu_piv L) n (fun r => mel m2 r c) k).
  { apply wp_ok_inv. eapply wp_mono; [apply (wp_for_down (fun j X => mrows X = n /\ mcols X = n /\ forall k c, (k < n)%nat -> (c < n)%nat -> undo (lu_piv L) j (fun r => mel X r c) k = undo (lu_piv L) n (fun r => mel m2 r c) k))|].
    - lia.
    - split; [exact R2|]. split; [exact C2|]. intros k c Hk Hc'. destruct n as [|n']; [lia|]. replace (S n' - 1)%nat with n' by lia. cbn [undo]. assert (P : lu_piv L n' = n') by (specialize (Hp n' ltac:(lia)); lia).
      rewrite P. apply (undo_ext (S n')); [lia|intros; apply Hp; lia| |exact Hk]. intros l Hl. rewrite exchange_swp, swp_id. reflexivity.
    - intros j X Hj (X1 & X2 & X3). cbn zeta. destruct (row_exchange n (lu_piv L j) j X) as (X' & -> & R' & C' & V'); [lia|apply Hp; lia|exact X1|exact X2|]. cbn [wp]. split; [exact R'|]. split; [exact C'|].
      intros k c Hk Hc'. rewrite <- X3 by assumption. cbn [undo]. apply (undo_ext n); [lia|intros; apply Hp; lia| |exact Hk]. intros l Hl. apply V'. exact Hc'.
    - intros X (X1 & X2 & X3). split; [exact X1|]. split; [exact X2|]. exact X3. }
  destruct T3 as (m3 & E3 & R3 & C3 & V3). cbn zeta in E3. rewrite E3. cbn [bind]. exists m3. split; [reflexivity|]. split; [exact R3|]. split; [exact C3|]. intros r c Hr' Hc'.
  apply (solve_ok n A L (fun i => delta i c) (fun i => lower (mel m1) i c) (fun i => mel m2 i c) (fun i => mel m3 i c) HF); [| | |exact Hr'].
  - intros i Hi. fold m. apply L1; assumption.
  - intros i Hi. fold m. rewrite <- (S2 i c) by lia. apply sum_ext. intros k Hk. f_equal. unfold unit_upper. destruct (Nat.ltb_spec i k); [|reflexivity]. symmetry. apply U1. right. lia.
  - intros k Hk. apply V3; assumption.
Qed.
Lemma getri_singular (L : lu F) n i : mrows (lu_m L) = n -> mcols (lu_m L) = n -> (i < n)%nat -> mel (lu_m L) i i = 0 -> (forall k, (k < i)%nat -> mel (lu_m L) k k <> 0) -> lu_inverse L = Ok (lu_m L, Some i).
Proof.
  intros Hr Hc Hi Z Nz. unfold lu_inverse, getri. rewrite Hr. destruct (zero_pivot_ok n (lu_m L) Hr Hc) as (z & -> & I). cbn [bind]. unfold info_ok in I. destruct z as [k|].
  - destruct I as (K1 & K2 & K3). assert (k = i). { destruct (Nat.lt_trichotomy k i) as [H|[H|H]]; [exfalso; exact (Nz k H K2)|exact H|exfalso; exact (K3 i H Z)]. } subst. reflexivity.
  - exfalso. exact (I i Hi Z).
Qed.
End L.
