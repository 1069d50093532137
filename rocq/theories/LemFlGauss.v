(** * Gaussian elimination with rounding: the numbers the code computes. *)
From Coq Require Import Reals Lra Lia Arith Bool.
From Verif Require Import Base Alg Inst Mat SpecMat LemMat SpecLin LemLin ModelGauss LemGaussStep LemGauss LemGaussCols RSum ModelFl SpecFl LemFl LemFlChol.
Local Open Scope R_scope.

Section G.
Variable rnd : R -> R.
Local Notation O := (FlOps rnd).

Lemma fl_fabs x : @fabs R O x = Rabs x.
Proof.
  unfold fabs. cbn [fltb FlOps fopp f0]. unfold Rabs. destruct (R_ltb x 0) eqn:E.
  - apply R_ltb_spec in E. destruct (Rcase_abs x); lra.
  - apply R_ltb_false in E. destruct (Rcase_abs x); lra.
Qed.
Lemma fl_le x y : @fle R O x y <-> x <= y.
Proof. unfold fle. cbn [fltb FlOps]. split; intros H; [apply R_ltb_false in H; lra|apply R_ltb_false; lra]. Qed.

(** after [i] steps: row r of the reduced system comes from row (s r) of the given one; [l] holds the pivots and the multipliers *)
Definition ge_inv (n q : nat) (a b : nat -> nat -> R) (i : nat) (A : mat R) (bv : nat -> nat -> R) (s t : nat -> nat) (l : nat -> nat -> R) : Prop :=
  mrows A = n /\ mcols A = n /\
  (forall r, (r < n)%nat -> (s r < n)%nat /\ (t r < n)%nat /\ s (t r) = r /\ t (s r) = r) /\
  (forall k, (k < i)%nat -> l k k <> 0) /\
  (forall r k, (k < i)%nat -> (k <= r < n)%nat -> Rabs (l r k) <= Rabs (l k k)) /\
  (forall r k, (k < i)%nat -> (k <= r < n)%nat -> l r k = subs rnd (a (s r) k) (l r) (fun m => mel A m k) k) /\
  (forall r j, (r < i)%nat -> (r < j < n)%nat -> mel A r j = rnd (subs rnd (a (s r) j) (l r) (fun m => mel A m j) r * rnd (1 / l r r))) /\
  (forall r j, (i <= r < n)%nat -> (i <= j < n)%nat -> mel A r j = subs rnd (a (s r) j) (l r) (fun m => mel A m j) i) /\
  (forall r c, (r < i)%nat -> (c < q)%nat -> bv r c = rnd (subs rnd (b (s r) c) (l r) (fun m => bv m c) r * rnd (1 / l r r))) /\
  (forall r c, (i <= r < n)%nat -> (c < q)%nat -> bv r c = subs rnd (b (s r) c) (l r) (fun m => bv m c) i).

Section B.
Context {B : Type} (bswap : B -> nat -> nat -> outcome B) (bscale : B -> nat -> R -> outcome B)
  (bsub : B -> nat -> nat -> R -> outcome B) (bval : B -> nat -> nat -> R) (bok : B -> Prop) (n q : nat).
Hypothesis Hswap : forall b i p, bok b -> (i < n)%nat -> (p < n)%nat -> i <> p ->
  exists b', bswap b i p = Ok b' /\ bok b' /\ forall r k, (r < n)%nat -> (k < q)%nat -> bval b' r k = bval b (swp i p r) k.
Hypothesis Hscale : forall b i f, bok b -> (i < n)%nat ->
  exists b', bscale b i f = Ok b' /\ bok b' /\ forall r k, (r < n)%nat -> (k < q)%nat -> bval b' r k = if (r =? i)%nat then @fmul R O (bval b i k) f else bval b r k.
Hypothesis Hsub : forall b u i f, bok b -> (i < n)%nat -> (u < n)%nat -> u <> i ->
  exists b', bsub b u i f = Ok b' /\ bok b' /\ forall r k, (r < n)%nat -> (k < q)%nat -> bval b' r k = if (r =? u)%nat then @fsub R O (bval b u k) (@fmul R O f (bval b i k)) else bval b r k.

Lemma fl_ge_step (A : mat R) bb i : (i < n)%nat -> mrows A = n -> mcols A = n -> bok bb ->
  exists p, (i <= p < n)%nat /\ (forall r, (i <= r < n)%nat -> Rabs (mel A r i) <= Rabs (mel A p i)) /\
   (mel A p i = 0 -> @ge_step R O B bswap bscale bsub n i (A, bb) = NonFinite) /\
   (mel A p i <> 0 -> exists A' b', @ge_step R O B bswap bscale bsub n i (A, bb) = Ok (A', b') /\ bok b' /\ @stepped R O B bval n q i p A A' bb b').
Proof.
  intros Hi HR HC HB.
  destruct (@ge_step_ord R O) with (B := B) (bswap := bswap) (bscale := bscale) (bsub := bsub) (bval := bval) (bok := bok) (n := n) (q := q) (A := A) (b := bb) (i := i) as (p & Hp & Hm & Hz & Hn).
  - intros x. apply fl_le. lra.
  - intros x y z. rewrite !fl_le. lra.
  - intros x y H. apply fl_le. unfold flt in H. cbn [fltb FlOps] in H. apply R_ltb_spec in H. lra.
  - intros x y. apply fl_div_ok.
  - intros x. apply fl_div_bad.
  - exact Hswap.
  - exact Hscale.
  - exact Hsub.
  - exact Hi.
  - exact HR.
  - exact HC.
  - exact HB.
  - exists p. split; [exact Hp|]. split; [|split; [exact Hz|exact Hn]]. intros r Hr. pose proof (Hm r Hr) as M. apply fl_le in M. rewrite !fl_fabs in M. exact M.
Qed.

Lemma ge_inv_step a b0 i (A A' : mat R) (bb b' : B) p s t l : (i < n)%nat -> ge_inv n q a b0 i A (bval bb) s t l -> (i <= p < n)%nat ->
  (forall r, (i <= r < n)%nat -> Rabs (mel A r i) <= Rabs (mel A p i)) -> mel A p i <> 0 -> @stepped R O B bval n q i p A A' bb b' ->
  ge_inv n q a b0 (S i) A' (bval b') (fun r => s (swp i p r)) (fun r => swp i p (t r)) (fun r k => if (k <? i)%nat then l (swp i p r) k else mel A (swp i p r) k).
Proof.
  intros Hi (I1 & I2 & IP & IN & IM & IL & IU & IA & IBu & IB) Hp Hm Hnz (S1 & S2 & S3 & S4 & S5 & S6 & S7 & S8 & S9 & S10).
  assert (Hge : forall r, (i <= r)%nat -> (i <= swp i p r)%nat) by (intros r Hr; unfold swp; destruct (r =? i)%nat, (r =? p)%nat; lia).
  assert (Hsi : swp i p i = p) by (unfold swp; rewrite Nat.eqb_refl; reflexivity).
  assert (Hlow : forall r, (r < i)%nat -> swp i p r = r) by (intros r Hr; unfold swp; destruct (Nat.eqb_spec r i), (Nat.eqb_spec r p); lia).
  assert (Hlt : forall r, (r < n)%nat -> (swp i p r < n)%nat) by (intros r Hr; apply swp_lt; lia).
  set (l' := fun r k => if (k <? i)%nat then l (swp i p r) k else mel A (swp i p r) k).
  assert (L1 : forall r k, (k < i)%nat -> l' r k = l (swp i p r) k) by (intros r k Hk; unfold l'; destruct (Nat.ltb_spec k i); [reflexivity|lia]).
  assert (L2 : forall r, l' r i = mel A (swp i p r) i) by (intros r; unfold l'; rewrite Nat.ltb_irrefl; reflexivity).
  assert (CU : forall m k, (m < i)%nat -> (m < k < n)%nat -> mel A' m k = mel A m k).
  { intros m k Hmi Hk. destruct (lt_dec k i); [apply S3; assumption|]. destruct (Nat.eq_dec k i) as [->|]; [rewrite S4, Hlow by exact Hmi; reflexivity|apply S5; lia]. }
  assert (SB : forall v r j k, (k <= i)%nat -> (k <= j < n)%nat -> subs rnd v (l' r) (fun m => mel A' m j) k = subs rnd v (l (swp i p r)) (fun m => mel A m j) k).
  { intros v r j k Hk Hj. apply subs_ext; [reflexivity| |]; intros m Hmk; [apply L1; lia|apply CU; lia]. }
  assert (SBb : forall v r c k, (k <= i)%nat -> (c < q)%nat -> subs rnd v (l' r) (fun m => bval b' m c) k = subs rnd v (l (swp i p r)) (fun m => bval bb m c) k).
  { intros v r c k Hk Hc. apply subs_ext; [reflexivity| |]; intros m Hmk; [apply L1; lia|apply S8; lia]. }
  unfold ge_inv. split; [lia|]. split; [lia|]. split; [|split; [|split; [|split; [|split; [|split; [|split]]]]]].
  - intros r Hr. destruct (IP r Hr) as (P1 & P2 & P3 & P4). destruct (IP (swp i p r) (Hlt r Hr)) as (Q1 & Q2 & Q3 & Q4).
    split; [exact Q1|]. split; [apply Hlt; exact P2|]. split; [rewrite swp_inv; exact P3|]. rewrite Q4. apply swp_inv.
  - intros k Hk. destruct (Nat.eq_dec k i) as [->|]; [rewrite L2, Hsi; exact Hnz|]. rewrite L1 by lia. rewrite Hlow by lia. apply IN. lia.
  - intros r k Hk Hr. destruct (Nat.eq_dec k i) as [->|].
    + rewrite !L2, Hsi. apply Hm. split; [apply Hge; lia|apply Hlt; lia].
    + rewrite !L1 by lia. rewrite (Hlow k) by lia. apply IM; [lia|]. split; [|apply Hlt; lia]. destruct (le_lt_dec i r); [pose proof (Hge r ltac:(assumption)); lia|rewrite Hlow by assumption; lia].
  - intros r k Hk Hr. assert (Hr' : (k <= swp i p r < n)%nat). { split; [|apply Hlt; lia]. destruct (le_lt_dec i r); [pose proof (Hge r ltac:(assumption)); lia|rewrite Hlow by assumption; lia]. }
    rewrite SB by lia. destruct (Nat.eq_dec k i) as [->|].
    + rewrite L2. apply IA; lia.
    + rewrite L1 by lia. apply IL; lia.
  - intros r j Hr Hj. rewrite SB by lia. destruct (Nat.eq_dec r i) as [->|].
    + rewrite S6 by lia. rewrite L2, Hsi. rewrite (IA p j) by lia. reflexivity.
    + rewrite CU by lia. rewrite L1 by lia. rewrite Hlow by lia. apply IU; lia.
  - intros r j Hr Hj. rewrite S7 by lia. cbn [subs]. rewrite SB by lia. rewrite L2. rewrite (IA (swp i p r) j); [reflexivity| |lia]. split; [apply Hge; lia|apply Hlt; lia].
  - intros r c Hr Hc. rewrite SBb by lia. destruct (Nat.eq_dec r i) as [->|].
    + rewrite S9 by exact Hc. rewrite L2, Hsi. rewrite (IB p c) by (lia || exact Hc). reflexivity.
    + rewrite S8 by lia. rewrite L1 by lia. rewrite Hlow by lia. apply IBu; lia.
  - intros r c Hr Hc. rewrite S10 by lia. cbn [subs]. rewrite SBb by lia. rewrite L2. rewrite (IB (swp i p r) c); [reflexivity| |lia]. split; [apply Hge; lia|apply Hlt; lia].
Qed.

(** the whole elimination, or the step at which no pivot was left *)
Lemma fl_ge_elim (A0 : mat R) bb : mrows A0 = n -> mcols A0 = n -> bok bb ->
  (exists A b s t l, @ge_elim R O B bswap bscale bsub n A0 bb = Ok (A, b) /\ bok b /\ ge_inv n q (mel A0) (bval bb) n A (bval b) s t l) \/
  (@ge_elim R O B bswap bscale bsub n A0 bb = NonFinite /\ exists i A bv s t l, (i < n)%nat /\ ge_inv n q (mel A0) (bval bb) i A bv s t l /\ forall r, (i <= r < n)%nat -> mel A r i = 0).
Proof.
  intros HR HC HB. unfold ge_elim, for_. rewrite Nat.sub_0_r.
  set (P := fun i (st : mat R * B) => bok (snd st) /\ exists s t l, ge_inv n q (mel A0) (bval bb) i (fst st) (bval (snd st)) s t l).
  assert (G : forall k i st, (i + k = n)%nat -> P i st ->
     (exists st', for_up k i (@ge_step R O B bswap bscale bsub n) st = Ok st' /\ P n st') \/
     (for_up k i (@ge_step R O B bswap bscale bsub n) st = NonFinite /\ exists i A bv s t l, (i < n)%nat /\ ge_inv n q (mel A0) (bval bb) i A bv s t l /\ forall r, (i <= r < n)%nat -> mel A r i = 0)).
  { induction k as [|k IH]; intros i st Hk Hs.
    - left. exists st. split; [reflexivity|]. replace n with i by lia. exact Hs.
    - destruct st as [A b]. destruct Hs as (Ob & s & t & l & I). cbn [fst snd] in *. pose proof I as (R1 & C1 & _). destruct (fl_ge_step A b i) as (p & Hp & Hm & Hz & Hn); [lia|assumption..|].
      cbn [for_up]. destruct (Req_dec (mel A p i) 0) as [Z|Z].
      + right. rewrite Hz by exact Z. split; [reflexivity|]. exists i, A, (bval b), s, t, l. split; [lia|]. split; [exact I|]. intros r Hr. pose proof (Hm r Hr) as M. rewrite Z, Rabs_R0 in M.
        pose proof (Rabs_pos (mel A r i)). destruct (Req_dec (mel A r i) 0) as [|N]; [assumption|]. apply Rabs_pos_lt in N. lra.
      + destruct Hn as (A' & b' & E' & O' & S'); [exact Z|]. rewrite E'. cbn [bind]. apply IH; [lia|]. unfold P. cbn [fst snd]. split; [exact O'|].
        eexists _, _, _. apply (ge_inv_step _ _ i A A' b b' p s t l); try assumption. lia. }
  destruct (G n 0%nat (A0, bb)) as [(st & Es & Hs)|Hn]; [lia| | |right; exact Hn].
  - unfold P. cbn [fst snd]. split; [exact HB|]. exists (fun r => r), (fun r => r), (fun _ _ => 0). unfold ge_inv.
    split; [exact HR|]. split; [exact HC|]. split; [intros r Hr; auto|]. repeat split; intros; try lia; reflexivity.
  - left. destruct st as [A b]. destruct Hs as (Ob & s & t & l & I). exists A, b, s, t, l. split; [exact Es|]. split; [exact Ob|exact I].
Qed.
End B.

(** back substitution *)
Lemma gsubs_subs v x y k : @gsubs R O v x y k = subs rnd v x y k.
Proof. induction k as [|k IH]; [reflexivity|]. cbn [gsubs subs]. rewrite IH. reflexivity. Qed.
Lemma fl_backsub_vec n (A : mat R) (b : vec R) : mrows A = n -> mcols A = n -> vlen b = n ->
  exists x, @backsub_vec R O n A b = Ok x /\ vlen x = n /\
    forall i, (i < n)%nat -> vat x i = subs rnd (vat b i) (fun k => mel A i (S i + k)%nat) (fun k => vat x (S i + k)%nat) (n - S i).
Proof. intros HR HC HB. destruct (@bs_vec_ok R O n A b HR HC HB) as (x & E & L & V). exists x. split; [exact E|]. split; [exact L|]. intros i Hi. rewrite <- gsubs_subs. apply V. exact Hi. Qed.
Lemma fl_backsub_cols n q (A b : mat R) : mrows A = n -> mcols A = n -> mrows b = n -> mcols b = q ->
  exists x, @backsub_mat R O n A b = Ok x /\ mrows x = n /\ mcols x = q /\
    forall i c, (i < n)%nat -> (c < q)%nat -> mel x i c = subs rnd (mel b i c) (fun k => mel A i (S i + k)%nat) (fun k => mel x (S i + k)%nat c) (n - S i).
Proof. intros HR HC HB HQ. destruct (@bs_mat_ok R O n q A b HR HC HB HQ) as (x & E & L & M & V). exists x. split; [exact E|]. split; [exact L|]. split; [exact M|]. intros i c Hi Hc. rewrite <- gsubs_subs. apply V; assumption. Qed.
End G.
