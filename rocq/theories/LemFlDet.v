(** * determinant.h with rounding: the numbers the code computes. *)
From Coq Require Import Reals Lra Lia Arith Bool.
From Verif Require Import Base Alg Inst Mat SpecMat LemMat SpecLin LemLin ModelGauss LemGaussStep LemGauss LemDet LemDetMul LemDetMore SpecLU LemLU RSum ModelFl SpecFl LemFl LemFlChol LemFlChol2 LemFlChol3 SpecFlGauss LemFlGauss LemFlGauss2.
Local Open Scope R_scope.

Section G.
Variables (u : R) (rnd : R -> R).
Hypothesis RN : rounding u rnd.
Let U := u_rng u rnd RN.
Local Notation O := (FlOps rnd).

Lemma fl_find_pivot (A : mat R) n i : (i < n)%nat -> (n <= mrows A)%nat -> (i < mcols A)%nat ->
  exists p, @find_pivot R O A n i = Ok p /\ (i <= p < n)%nat /\ forall r, (i <= r < n)%nat -> Rabs (mel A r i) <= Rabs (mel A p i).
Proof.
  intros Hi HR HC. destruct (@find_pivot_ord R O) with (A := A) (n := n) (i := i) as (p & E & Hp & Hm); [| | |exact Hi|exact HR|exact HC|].
  - intros x. apply fl_le. lra.
  - intros x y z. rewrite !fl_le. lra.
  - intros x y H. apply fl_le. unfold flt in H. cbn [fltb FlOps] in H. apply R_ltb_spec in H. lra.
  - exists p. split; [exact E|]. split; [exact Hp|]. intros r Hr. pose proof (Hm r Hr) as M. apply fl_le in M. rewrite !fl_fabs in M. exact M.
Qed.

(** what one step does, when the determinant so far does not become zero *)
Definition dstepped (n i p : nat) (A A' : mat R) (d d' : R) : Prop :=
  mrows A' = n /\ mcols A' = n /\
  (forall r c, (c < i)%nat -> mel A' r c = mel A r c) /\
  (forall r, (r < n)%nat -> mel A' r i = mel A (swp i p r) i) /\
  (forall r c, (i < c < n)%nat -> (r < i)%nat -> mel A' r c = mel A r c) /\
  (forall c, (i < c < n)%nat -> mel A' i c = mel A p c) /\
  (forall r c, (i < c < n)%nat -> (i < r < n)%nat -> mel A' r c = rnd (mel A (swp i p r) c - rnd (rnd (mel A (swp i p r) i / mel A p i) * mel A p c))) /\
  d' = rnd ((if (p =? i)%nat then d else rnd (d * - (1))) * mel A p i).
Lemma fl_det_step n (A : mat R) d i : (i < n)%nat -> mrows A = n -> mcols A = n -> d <> 0 ->
  exists p, (i <= p < n)%nat /\ (forall r, (i <= r < n)%nat -> Rabs (mel A r i) <= Rabs (mel A p i)) /\
   (mel A p i = 0 -> exists A', @det_step R O n i (A, d, false) = Ok (A', 0, true)) /\
   (mel A p i <> 0 -> exists A' d', @det_step R O n i (A, d, false) = Ok (A', d', false) /\ dstepped n i p A A' d d').
Proof.
  intros Hi HR HC Hd. destruct (fl_find_pivot A n i) as (p & Ep & Hp & Hm); [lia..|]. exists p. split; [exact Hp|]. split; [exact Hm|].
  unfold det_step. rewrite Ep. cbn [bind]. rewrite mget_ok by lia. cbn [bind].
  set (d1 := if (p =? i)%nat then d else rnd (d * - (1))).
  assert (Hd1 : d1 <> 0). { unfold d1. destruct (p =? i)%nat; [exact Hd|]. apply (rnd_nz u rnd RN). lra. }
  assert (Sw : exists A1, (if (p =? i)%nat then Ok (A, d) else
     (A <- for_ i n (fun j A => mswap A i p j) A ;; Ok (A, @fmul R O d (@fopp R O (@f1 R O))))%outcome) = Ok (A1, d1) /\ mrows A1 = n /\ mcols A1 = n /\
     (forall r c, (c < n)%nat -> mel A1 r c = if (i <=? c)%nat then mel A (swp i p r) c else mel A r c) /\ (forall r c, (c < i)%nat -> mel A1 r c = mel A r c)).
  { unfold d1. destruct (Nat.eqb_spec p i) as [->|Hpi].
    - exists A. split; [reflexivity|]. split; [exact HR|]. split; [exact HC|]. split; [|reflexivity]. intros r c Hc. rewrite swp_id. destruct (i <=? c)%nat; reflexivity.
    - destruct (row_swap i n i p (fun j A => mswap A i p j) A) as (A1 & E1 & R1 & C1 & V1); [lia..|reflexivity|].
      rewrite E1. cbn [bind]. exists A1. split; [reflexivity|]. split; [lia|]. split; [lia|]. split.
      + intros r c Hc. rewrite V1. destruct (Nat.leb_spec i c), (Nat.ltb_spec c n); try lia; reflexivity.
      + intros r c Hc. rewrite V1. destruct (Nat.leb_spec i c); [lia|reflexivity]. }
  destruct Sw as (A1 & -> & R1 & C1 & V1 & V1l). cbn [bind]. rewrite mget_ok by lia. cbn [bind].
  assert (Hsi : swp i p i = p) by (unfold swp; rewrite Nat.eqb_refl; reflexivity).
  assert (Hlow : forall r, (r < i)%nat -> swp i p r = r) by (intros r Hr; unfold swp; destruct (Nat.eqb_spec r i), (Nat.eqb_spec r p); lia).
  assert (Vi : mel A1 i i = mel A p i) by (rewrite V1 by lia; rewrite Nat.leb_refl, Hsi; reflexivity). rewrite Vi.
  change (@fmul R O d1 (mel A p i)) with (rnd (d1 * mel A p i)). change (@feqb R O) with R_eqb. change (@f0 R O) with 0. split.
  - intros Z. rewrite Z, Rmult_0_r, (rnd_0 u rnd RN). replace (R_eqb 0 0) with true by (symmetry; apply R_eqb_spec; reflexivity). exists A1. reflexivity.
  - intros Hnz. destruct (R_eqb (rnd (d1 * mel A p i)) 0) eqn:Z.
    { apply R_eqb_spec in Z. exfalso. revert Z. apply (rnd_nz u rnd RN). apply Rmult_integral_contrapositive_currified; assumption. }
    match goal with |- context [bind ?f ?g] => match f with for_ (S i) n _ _ => assert (W : wp f (fun A2 => mrows A2 = n /\ mcols A2 = n /\
      forall r c, mel A2 r c = if ((i <? r)%nat && (r <? n)%nat) && ((i <? c)%nat && (c <? n)%nat) then rnd (mel A1 r c - rnd (rnd (mel A1 r i / mel A p i) * mel A1 i c)) else mel A1 r c)) end end.
    { apply (wp_for (fun w A2 => mrows A2 = n /\ mcols A2 = n /\
      forall r c, mel A2 r c = if ((i <? r)%nat && (r <? w)%nat) && ((i <? c)%nat && (c <? n)%nat) then rnd (mel A1 r c - rnd (rnd (mel A1 r i / mel A p i) * mel A1 i c)) else mel A1 r c)).
      - lia.
      - split; [exact R1|]. split; [exact C1|]. intros r c. destruct (Nat.ltb_spec i r), (Nat.ltb_spec r (S i)); try lia; reflexivity.
      - intros w A2 Hw (R2 & C2 & V2). rewrite mget_ok by lia. cbn [bind]. rewrite fl_div_ok by exact Hnz. cbn [bind].
        assert (V2i : forall c, mel A2 i c = mel A1 i c) by (intros c; rewrite V2; rewrite Nat.ltb_irrefl; reflexivity).
        assert (V2w : forall c, mel A2 w c = mel A1 w c) by (intros c; rewrite V2; rewrite Nat.ltb_irrefl, andb_false_r; reflexivity).
        rewrite V2w. set (f := rnd (mel A1 w i / mel A p i)).
        destruct (row_loop (S i) n w (fun j A => (x <- mget A w j ;; y <- mget A i j ;; mset A w j (@fsub R O x (@fmul R O f y)))%outcome) A2 (fun j => rnd (mel A1 w j - rnd (f * mel A1 i j)))) as (A3 & E3 & R3 & C3 & V3); [lia..| |].
        { intros j m' Hj Rm Cm Hm'. rewrite !mget_ok by lia. cbn [bind]. rewrite !Hm' by lia. rewrite V2i, V2w. reflexivity. }
        rewrite E3. cbn [wp]. split; [lia|]. split; [lia|]. intros r c. rewrite V3, V2. unfold f.
        destruct (Nat.eqb_spec r w), (Nat.ltb_spec i r), (Nat.ltb_spec r w), (Nat.ltb_spec r (S w)), (Nat.leb_spec (S i) c), (Nat.ltb_spec i c), (Nat.ltb_spec c n); try lia; cbn [andb]; subst; reflexivity. }
    destruct (wp_ok_inv _ _ W) as (A2 & -> & R2 & C2 & V2). cbn [bind]. exists A2, (rnd (d1 * mel A p i)). split; [reflexivity|].
    unfold dstepped. split; [exact R2|]. split; [exact C2|]. split; [|split; [|split; [|split; [|split; [|reflexivity]]]]].
    + intros r c Hc. rewrite V2. destruct (Nat.ltb_spec i c); [lia|]. cbn [andb]. rewrite andb_false_r. apply V1l. exact Hc.
    + intros r Hr. rewrite V2. rewrite Nat.ltb_irrefl. cbn [andb]. rewrite andb_false_r. rewrite V1 by lia. rewrite Nat.leb_refl. reflexivity.
    + intros r c Hc Hr. rewrite V2. destruct (Nat.ltb_spec i r); [lia|]. cbn [andb]. rewrite V1 by lia. destruct (Nat.leb_spec i c); [|lia]. rewrite Hlow by exact Hr. reflexivity.
    + intros c Hc. rewrite V2. rewrite Nat.ltb_irrefl. cbn [andb]. rewrite V1 by lia. destruct (Nat.leb_spec i c); [|lia]. rewrite Hsi. reflexivity.
    + intros r c Hc Hr. rewrite V2. destruct (Nat.ltb_spec i r), (Nat.ltb_spec r n), (Nat.ltb_spec i c), (Nat.ltb_spec c n); try lia. cbn [andb].
      rewrite !V1 by lia. rewrite Nat.leb_refl. destruct (Nat.leb_spec i c); [|lia]. rewrite Hsi. reflexivity.
Qed.

Definition det_inv (n : nat) (a : nat -> nat -> R) (i : nat) (A : mat R) (d : R) (s t : nat -> nat) (l : nat -> nat -> R) (e : R) : Prop :=
  mrows A = n /\ mcols A = n /\ permutation n s t /\
  ((e = 1 \/ e = -1) /\ forall b, @det R ROps n (fun r c => b (s r) c) = e * @det R ROps n b) /\
  (forall k, (k < i)%nat -> mel A k k <> 0) /\
  (forall r k, (k < i)%nat -> (k < r < n)%nat -> Rabs (l r k) <= 1 + u) /\
  (forall r k, (k < i)%nat -> (k < r < n)%nat -> l r k = rnd (subs rnd (a (s r) k) (l r) (fun m => mel A m k) k / mel A k k)) /\
  (forall r j, (r < i)%nat -> (r <= j < n)%nat -> mel A r j = subs rnd (a (s r) j) (l r) (fun m => mel A m j) r) /\
  (forall r j, (i <= r < n)%nat -> (i <= j < n)%nat -> mel A r j = subs rnd (a (s r) j) (l r) (fun m => mel A m j) i) /\
  exists c, fac u (2 * i) c /\ d = e * @prod_ R ROps i (fun k => mel A k k) * c.
Lemma det_inv_nz n a i A d s t l e : det_inv n a i A d s t l e -> d <> 0.
Proof.
  intros (_ & _ & _ & (E & _) & N & _ & _ & _ & _ & c & Fc & ->). pose proof (fac_pos u _ c U Fc) as P. apply Rmult_integral_contrapositive_currified; [|lra].
  apply Rmult_integral_contrapositive_currified; [destruct E; lra|]. apply (@prod_nonzero R ROps RLaws). exact N.
Qed.
Lemma rnd_abs' x : Rabs (rnd x) <= (1 + u) * Rabs x.
Proof. exact (rnd_abs u rnd RN x). Qed.
Lemma det_inv_step n a i (A A' : mat R) d d' p s t l e : (i < n)%nat -> det_inv n a i A d s t l e -> (i <= p < n)%nat ->
  (forall r, (i <= r < n)%nat -> Rabs (mel A r i) <= Rabs (mel A p i)) -> mel A p i <> 0 -> dstepped n i p A A' d d' ->
  det_inv n a (S i) A' d' (fun r => s (swp i p r)) (fun r => swp i p (t r)) (fun r k => if (k <? i)%nat then l (swp i p r) k else rnd (mel A (swp i p r) k / mel A p k)) (if (p =? i)%nat then e else - e).
Proof.
  intros Hi (I1 & I2 & IP & (Ie & ID) & IN & IM & IL & IU & IA & c0 & Fc & Ed) Hp Hm Hnz (S1 & S2 & S3 & S4 & S5 & S6 & S7 & S8).
  assert (Hge : forall r, (i <= r)%nat -> (i <= swp i p r)%nat) by (intros r Hr; unfold swp; destruct (r =? i)%nat, (r =? p)%nat; lia).
  assert (Hsi : swp i p i = p) by (unfold swp; rewrite Nat.eqb_refl; reflexivity).
  assert (Hlow : forall r, (r < i)%nat -> swp i p r = r) by (intros r Hr; unfold swp; destruct (Nat.eqb_spec r i), (Nat.eqb_spec r p); lia).
  assert (Hlt : forall r, (r < n)%nat -> (swp i p r < n)%nat) by (intros r Hr; apply swp_lt; lia).
  assert (Hkr : forall r k, (k < i)%nat -> (k < r < n)%nat -> (k < swp i p r < n)%nat).
  { intros r k Hk Hr. split; [|apply Hlt; lia]. destruct (le_lt_dec i r) as [G|G]; [pose proof (Hge r G); lia|rewrite Hlow by exact G; lia]. }
  set (l' := fun r k => if (k <? i)%nat then l (swp i p r) k else rnd (mel A (swp i p r) k / mel A p k)).
  assert (L1 : forall r k, (k < i)%nat -> l' r k = l (swp i p r) k) by (intros r k Hk; unfold l'; destruct (Nat.ltb_spec k i); [reflexivity|lia]).
  assert (L2 : forall r, l' r i = rnd (mel A (swp i p r) i / mel A p i)) by (intros r; unfold l'; rewrite Nat.ltb_irrefl; reflexivity).
  assert (CU : forall m k, (m < i)%nat -> (m <= k < n)%nat -> mel A' m k = mel A m k).
  { intros m k Hmi Hk. destruct (lt_dec k i); [apply S3; assumption|]. destruct (Nat.eq_dec k i) as [->|]; [rewrite S4, Hlow by lia; reflexivity|apply S5; lia]. }
  assert (SB : forall v r j k, (k <= i)%nat -> (k <= j < n)%nat -> subs rnd v (l' r) (fun m => mel A' m j) k = subs rnd v (l (swp i p r)) (fun m => mel A m j) k).
  { intros v r j k Hk Hj. apply subs_ext; [reflexivity| |]; intros m Hmk; [apply L1; lia|apply CU; lia]. }
  unfold det_inv. split; [lia|]. split; [lia|]. split; [|split; [|split; [|split; [|split; [|split; [|split]]]]]].
  - intros r Hr. destruct (IP r Hr) as (P1 & P2 & P3 & P4). destruct (IP (swp i p r) (Hlt r Hr)) as (Q1 & Q2 & Q3 & Q4).
    split; [exact Q1|]. split; [apply Hlt; exact P2|]. split; [rewrite swp_inv; exact P3|]. rewrite Q4. apply swp_inv.
  - destruct (Nat.eqb_spec p i) as [->|Hpi].
    + split; [exact Ie|]. intros b. rewrite <- ID. apply (@det_ext R ROps). intros r c Hr Hc. rewrite swp_id. reflexivity.
    + split; [destruct Ie as [-> | ->]; [right|left]; lra|]. intros b. pose proof (@det_swap_ne R ROps RLaws n i p (fun r c => b (s r) c) ltac:(lia) ltac:(lia) ltac:(lia)) as E. cbv beta in E. refine (eq_trans E _).
      rewrite ID. cbn [fopp ROps]. ring.
  - intros k Hk. destruct (Nat.eq_dec k i) as [->|]; [rewrite S4, Hsi by lia; exact Hnz|]. rewrite CU by lia. apply IN. lia.
  - intros r k Hk Hr. destruct (Nat.eq_dec k i) as [->|].
    + rewrite L2. eapply Rle_trans; [apply rnd_abs'|]. rewrite <- (Rmult_1_r (1 + u)) at 2. apply Rmult_le_compat_l; [lra|]. unfold Rdiv. rewrite Rabs_mult, Rabs_inv. apply Rabs_pos_lt in Hnz as P.
      apply (Rmult_le_reg_r (Rabs (mel A p i))); [exact P|]. rewrite Rmult_assoc, Rinv_l, Rmult_1_r, Rmult_1_l by lra. apply Hm. split; [apply Hge; lia|apply Hlt; lia].
    + rewrite L1 by lia. apply IM; [lia|]. apply Hkr; lia.
  - intros r k Hk Hr. rewrite SB by lia. destruct (Nat.eq_dec k i) as [->|].
    + rewrite L2. rewrite S4, Hsi by lia. rewrite <- IA; [reflexivity| |lia]. split; [apply Hge; lia|apply Hlt; lia].
    + rewrite L1 by lia. rewrite CU by lia. apply IL; [lia|]. apply Hkr; lia.
  - intros r j Hr Hj. rewrite SB by lia. destruct (Nat.eq_dec r i) as [->|].
    + rewrite Hsi. rewrite <- IA by lia. destruct (Nat.eq_dec j i) as [->|]; [rewrite S4, Hsi by lia; reflexivity|apply S6; lia].
    + rewrite CU by lia. rewrite Hlow by lia. apply IU; lia.
  - intros r j Hr Hj. rewrite S7 by lia. cbn [subs]. rewrite SB by lia. rewrite L2. rewrite (IA (swp i p r) j); [|split; [apply Hge; lia|apply Hlt; lia]|lia]. rewrite S6 by lia. reflexivity.
  - cbn [prod_]. set (d1 := if (p =? i)%nat then d else rnd (d * - (1))) in *.
    assert (D1 : exists c1, fac u (2 * i + 1) c1 /\ d1 = (if (p =? i)%nat then e else - e) * @prod_ R ROps i (fun k => mel A k k) * c1).
    { unfold d1. destruct (p =? i)%nat.
      - exists c0. split; [apply (fac_le u (2 * i)); [exact U|lia|exact Fc]|exact Ed].
      - destruct (rnd_fac u rnd RN (d * - (1))) as (g & Fg & ->). exists (c0 * g). split; [apply fac_mul; assumption|]. rewrite Ed. ring. }
    destruct D1 as (c1 & F1 & E1). destruct (rnd_fac u rnd RN (d1 * mel A p i)) as (g & Fg & Eg). exists (c1 * g). split.
    + replace (2 * S i)%nat with (2 * i + 1 + 1)%nat by lia. apply fac_mul; assumption.
    + rewrite S8, Eg, E1. rewrite S4, Hsi by lia. rewrite (@prod_ext R ROps i (fun k => mel A' k k) (fun k => mel A k k)) by (intros k Hk; apply CU; lia). cbn [fmul ROps]. ring.
Qed.
(** the whole computation *)
Lemma fl_det_run n (A0 : mat R) : mrows A0 = n -> mcols A0 = n ->
  exists d, @determinant_gaussian_elimination R O A0 = Ok d /\
   ((exists A s t l e, det_inv n (mel A0) n A d s t l e) \/
    (d = 0 /\ exists i A d' s t l e, (i < n)%nat /\ det_inv n (mel A0) i A d' s t l e /\ forall r, (i <= r < n)%nat -> mel A r i = 0)).
Proof.
  intros HR HC. unfold determinant_gaussian_elimination. rewrite HR, HC, same_size_ok. cbn [bind].
  set (Q := fun d : R => d = 0 /\ exists i A d' s t l e, (i < n)%nat /\ det_inv n (mel A0) i A d' s t l e /\ forall r, (i <= r < n)%nat -> mel A r i = 0).
  assert (W : wp (for_ 0 n (@det_step R O n) (A0, @f1 R O, false)) (fun st : mat R * R * bool => let '(A, d, fin) := st in if fin then Q d else exists s t l e, det_inv n (mel A0) n A d s t l e)).
  { apply (wp_for (fun i (st : mat R * R * bool) => let '(A, d, fin) := st in if fin then Q d else exists s t l e, det_inv n (mel A0) i A d s t l e)); [lia| |].
    - exists (fun r => r), (fun r => r), (fun _ _ => 0), 1. unfold det_inv. split; [exact HR|]. split; [exact HC|]. split; [intros r Hr; auto|]. split; [split; [left; reflexivity|]|].
      + intros b. rewrite Rmult_1_l. reflexivity.
      + split; [lia|]. split; [lia|]. split; [lia|]. split; [lia|]. split; [reflexivity|]. exists 1. split; [apply fac_1; exact U|]. cbn. ring.
    - intros i [[A d] fin] Hi H. destruct fin; [exact H|]. destruct H as (s & t & l & e & I). pose proof I as (R1 & C1 & _). destruct (fl_det_step n A d i) as (p & Hp & Hm & Hz & Hn); [lia|exact R1|exact C1|apply (det_inv_nz _ _ _ _ _ _ _ _ _ I)|].
      destruct (Req_dec (mel A p i) 0) as [Z|Z].
      + destruct (Hz Z) as (A' & ->). cbn [wp]. split; [reflexivity|]. exists i, A, d, s, t, l, e. split; [lia|]. split; [exact I|]. intros r Hr. pose proof (Hm r Hr) as M. rewrite Z, Rabs_R0 in M.
        pose proof (Rabs_pos (mel A r i)). destruct (Req_dec (mel A r i) 0) as [|N]; [assumption|]. apply Rabs_pos_lt in N. lra.
      + destruct (Hn Z) as (A' & d' & -> & S'). cbn [wp]. eexists _, _, _, _. apply (det_inv_step n _ i A A' d d' p s t l e); try assumption. lia. }
  destruct (wp_ok_inv _ _ W) as ([[A d] fin] & -> & H). cbn [bind]. exists d. split; [reflexivity|]. destruct fin; [right; exact H|left]. destruct H as (s & t & l & e & I). exists A, s, t, l, e. exact I.
Qed.
End G.
