(** * LU with rounding: the numbers getrf computes, and what they factorise. *)
From Coq Require Import Reals Lra Lia Arith Bool.
From Verif Require Import Base Alg Inst Mat SpecMat LemMat LemHelpers SpecLin LemLin LemDet LemDetMul LemDetMore ModelLU SpecLU LemLU ModelGetrf LemGetrfStep LemGetrf RSum ModelFl SpecFl LemFl LemFlChol LemFlChol2 LemFlChol3 SpecFlGauss LemFlGauss LemFlGauss2 LemFlDet LemFlDet2.
Local Open Scope R_scope.

(** where the column that is now at c came from *)
Definition sg (piv : nat -> nat) (j c : nat) : nat := interchanged piv j (fun k => k) c.
Lemma interchanged_sg {X} piv (f : nat -> X) : forall j c, interchanged piv j f c = f (sg piv j c).
Proof. induction j as [|j IH]; intros c; [reflexivity|]. unfold sg. cbn [interchanged]. rewrite !exchange_swp. apply IH. Qed.
Lemma sg_S piv j c : sg piv (S j) c = sg piv j (swp j (piv j) c).
Proof. unfold sg. cbn [interchanged]. rewrite exchange_swp. reflexivity. Qed.
Lemma sg_lt n piv : forall j c, (j <= n)%nat -> (forall k, (k < j)%nat -> (k <= piv k < n)%nat) -> (c < n)%nat -> (sg piv j c < n)%nat.
Proof.
  induction j as [|j IH]; intros c Hj Hp Hc; [exact Hc|]. rewrite sg_S. apply IH; [lia|intros; apply Hp; lia|]. pose proof (Hp j ltac:(lia)). apply swp_lt; lia.
Qed.
Lemma sg_ext piv piv' : forall j c, (forall i, (i < j)%nat -> piv' i = piv i) -> sg piv' j c = sg piv j c.
Proof. intros j c H. unfold sg. apply interchanged_ext. exact H. Qed.
(** the interchanges can be undone *)
Lemma interchanged_undo {X} n piv : forall m (f : nat -> X), (m <= n)%nat -> (forall i, (i < m)%nat -> (i <= piv i < n)%nat) -> forall c, (c < n)%nat -> interchanged piv m (undo piv m f) c = f c.
Proof.
  induction m as [|m IH]; intros f Hm Hp c Hc; [reflexivity|]. cbn [interchanged undo]. rewrite exchange_swp. pose proof (Hp m ltac:(lia)) as P.
  rewrite IH; [|lia|intros; apply Hp; lia|apply swp_lt; lia]. rewrite exchange_swp, swp_inv. reflexivity.
Qed.
Lemma undo_all {X} n piv (P : X -> Prop) : forall m (f : nat -> X), (m <= n)%nat -> (forall i, (i < m)%nat -> (i <= piv i < n)%nat) -> (forall c, (c < n)%nat -> P (f c)) -> forall c, (c < n)%nat -> P (undo piv m f c).
Proof.
  induction m as [|m IH]; intros f Hm Hp H c Hc; [apply H; exact Hc|]. cbn [undo]. pose proof (Hp m ltac:(lia)) as Q. apply IH; [lia|intros; apply Hp; lia| |exact Hc].
  intros d Hd. rewrite exchange_swp. apply H. apply swp_lt; lia.
Qed.

Lemma undo_map piv : forall k X (f : nat -> X) d, undo piv k f d = f (undo piv k (fun i => i) d).
Proof. induction k as [|k IH]; intros X f d; [reflexivity|]. cbn [undo]. rewrite (IH X (exchange k (piv k) f)), (IH nat (exchange k (piv k) (fun i => i))). rewrite !exchange_swp. reflexivity. Qed.

Section G.
Variables (u : R) (rnd : R -> R).
Hypothesis RN : rounding u rnd.
Let U := u_rng u rnd RN.
Local Notation O := (FlOps rnd).

Definition fl_lu_inv (n : nat) (a : nat -> nat -> R) (j : nat) (s : mat R * (nat -> nat) * option nat) : Prop :=
  let '(m, piv, info) := s in
  mrows m = n /\ mcols m = n /\ (forall k, (k < j)%nat -> (k <= piv k < n)%nat) /\
  (forall r c, (c < j)%nat -> (c <= r < n)%nat -> mel m r c = subs rnd (a r (sg piv j c)) (fun k => mel m k c) (fun k => mel m r k) c) /\
  (forall r c, (r < j)%nat -> (r < c < n)%nat -> (exists g, fac u 2 g /\ subs rnd (a r (sg piv j c)) (fun k => mel m k c) (fun k => mel m r k) r = mel m r r * mel m r c * g) /\ Rabs (mel m r c) <= (1 + u) ^ 2) /\
  (forall r c, (j <= r < n)%nat -> (j <= c < n)%nat -> mel m r c = subs rnd (a r (sg piv j c)) (fun k => mel m k c) (fun k => mel m r k) j) /\
  @info_ok R O j m info.

Lemma mult_bound p x : p <> 0 -> Rabs x <= Rabs p -> Rabs (rnd (x * rnd (1 / p))) <= (1 + u) ^ 2.
Proof.
  intros Hp Hx. pose proof (pivot_term u rnd RN x p p (Rabs p) Hp ltac:(lra) Hx) as H. rewrite Rabs_mult in H. apply Rabs_pos_lt in Hp. nra.
Qed.
Lemma fl_lu_step n a j s : (j < n)%nat -> fl_lu_inv n a j s -> exists s', @getf2_step R O n j s = Ok s' /\ fl_lu_inv n a (S j) s'.
Proof.
  intros Hj. destruct s as [[m piv] info]. intros (Hr & Hc & Hp & HU & HL & HA & HI).
  assert (Zr : forall p, (forall c, (j <= c < n)%nat -> @fle R O (@fabs R O (mel m j c)) (@fabs R O (mel m j p))) -> mel m j p = 0 -> forall c, (j <= c < n)%nat -> mel m j c = 0).
  { intros p H Z c Hc'. specialize (H c Hc'). apply fl_le in H. rewrite !fl_fabs, Z, Rabs_R0 in H. pose proof (Rabs_pos (mel m j c)). destruct (Req_dec (mel m j c) 0) as [|N]; [assumption|]. apply Rabs_pos_lt in N. lra. }
  destruct (@getf2_step_ord R O) with (m := m) (piv := piv) (info := info) (n := n) (j := j) as (p & m' & piv' & info' & E & Pp & Pm & Pv & In & Iz & ST).
  - intros x. apply fl_le. lra.
  - intros x y z. rewrite !fl_le. lra.
  - intros x y H. apply fl_le. unfold flt in H. cbn [fltb FlOps] in H. apply R_ltb_spec in H. lra.
  - intros x y. apply fl_div_ok.
  - apply R_eqb_spec.
  - exact Hj.
  - exact Hr.
  - exact Hc.
  - intros p _ Z H. exact (Zr p H Z).
  - intros x H. unfold flt in H. cbn [fltb FlOps] in H. apply R_ltb_spec in H. lra.
  - destruct ST as (R' & C' & S1 & S2 & S3 & S4 & S5 & S6). exists (m', piv', info'). split; [exact E|]. cbn [f0 f1 fmul fsub fdiv FlOps] in *.
    assert (Az : mel m j p = 0 -> forall c, (j <= c < n)%nat -> mel m j c = 0) by (apply Zr; exact Pm).
    assert (Pa : forall c, (j <= c < n)%nat -> Rabs (mel m j c) <= Rabs (mel m j p)) by (intros c Hc'; pose proof (Pm c Hc') as H; apply fl_le in H; rewrite !fl_fabs in H; exact H).
    assert (Dg : forall k, (k < j)%nat -> mel m' k k = mel m k k) by (intros k Hk; apply S1; lia). assert (Dj : mel m' j j = mel m j p) by (apply S2; lia).
    assert (Sj : swp j p j = p) by (unfold swp; rewrite Nat.eqb_refl; reflexivity).
    assert (Sl : forall c, (c < j)%nat -> swp j p c = c) by (intros c H; unfold swp; destruct (Nat.eqb_spec c j), (Nat.eqb_spec c p); lia).
    assert (Sh : forall c, (j <= c < n)%nat -> (j <= swp j p c < n)%nat) by (intros c H; unfold swp; destruct (Nat.eqb_spec c j), (Nat.eqb_spec c p); lia).
    assert (SG : forall c, sg piv' (S j) c = sg piv j (swp j p c)).
    { intros c. rewrite sg_S, Pv, Nat.eqb_refl. apply sg_ext. intros i Hi. rewrite Pv. destruct (Nat.eqb_spec i j); [lia|reflexivity]. }
    assert (SB : forall v r c k, (k <= j)%nat -> (r < n)%nat -> (c < n)%nat -> subs rnd v (fun i => mel m' i c) (fun i => mel m' r i) k = subs rnd v (fun i => mel m i (swp j p c)) (fun i => mel m r i) k).
    { intros v r c k Hk Hr' Hc'. apply subs_ext; [reflexivity| |]; intros i Hi; [apply S3; lia|apply S1; lia]. }
    refine (conj R' (conj C' (conj _ (conj _ (conj _ (conj _ _)))))).
    + intros k Hk. rewrite Pv. destruct (Nat.eqb_spec k j) as [->|]; [lia|apply Hp; lia].
    + intros r c Hc' Hr'. rewrite SG, SB by lia. destruct (Nat.eq_dec c j) as [->|].
      * rewrite Sj, S2 by lia. apply HA; lia.
      * rewrite Sl by lia. rewrite S1 by lia. apply HU; lia.
    + intros r c Hr' Hc'. rewrite SG, SB by lia. destruct (Nat.eq_dec r j) as [->|].
      * rewrite Dj. rewrite <- (HA j (swp j p c)) by (apply Sh || lia; lia). destruct (Req_dec (mel m j p) 0) as [Z|N].
        -- rewrite (S5 Z c) by lia. rewrite (Az Z (swp j p c)) by (apply Sh; lia). split; [exists 1; split; [apply (fac_le u 0); [exact U|lia|apply fac_1; exact U]|ring]|]. rewrite Rabs_R0. apply pow_le. lra.
        -- rewrite (S4 N c) by lia. rewrite (Rmult_comm (rnd (1 / mel m j p))). split; [apply (recip_term u rnd RN); exact N|]. apply mult_bound; [exact N|]. apply Pa. apply Sh. lia.
      * rewrite Dg by lia. rewrite (S3 r c) by lia. apply HL; [lia|]. destruct (le_lt_dec j c); [pose proof (Sh c); lia|rewrite Sl by assumption; lia].
    + intros r c Hr' Hc'. rewrite SG. cbn [subs]. rewrite SB by lia. rewrite S6 by lia. rewrite (S2 r) by lia. rewrite <- (HA r (swp j p c)) by (apply Sh || lia; lia). reflexivity.
    + unfold info_ok in *. cbn [f0 FlOps] in *. destruct (Req_dec (mel m j p) 0) as [Z|N].
      * destruct (Iz Z) as (Pj & ->). destruct info as [i|].
        -- destruct HI as (I1 & I2 & I3). split; [lia|]. split; [rewrite Dg by lia; exact I2|]. intros k Hk. rewrite Dg by lia. apply I3. exact Hk.
        -- split; [lia|]. split; [rewrite Dj; exact Z|]. intros k Hk. rewrite Dg by lia. apply HI. exact Hk.
      * rewrite (In N). destruct info as [i|].
        -- destruct HI as (I1 & I2 & I3). split; [lia|]. split; [rewrite Dg by lia; exact I2|]. intros k Hk. rewrite Dg by lia. apply I3. exact Hk.
        -- intros k Hk. destruct (Nat.eq_dec k j) as [->|]; [rewrite Dj; exact N|]. rewrite Dg by lia. apply HI. lia.
Qed.
Lemma fl_getrf n (A : mat R) : mrows A = n -> mcols A = n -> exists m piv info, @getrf R O n A = Ok (m, piv, info) /\ fl_lu_inv n (mel A) n (m, piv, info).
Proof.
  intros Hr Hc. assert (W : wp (@getrf R O n A) (fl_lu_inv n (mel A) n)).
  { unfold getrf. apply (wp_for (fl_lu_inv n (mel A))); [lia| |].
    - refine (conj Hr (conj Hc (conj _ (conj _ (conj _ (conj _ _)))))); try (intros; lia); [reflexivity|intros k Hk; lia].
    - intros j s Hj I. destruct (fl_lu_step n (mel A) j s) as (s' & -> & I'); [lia|exact I|]. exact I'. }
  apply wp_ok_inv in W. destruct W as ([[m piv] info] & E & I). exists m, piv, info. split; [exact E|exact I].
Qed.
(** in the coordinates of LAPACK *)
Definition tmat (n : nat) (m : mat R) : mat R := mkmat n n (fun k j => mel m j k).
Lemma fl_lu_dlu n a m piv info : fl_lu_inv n a n (m, piv, info) -> dlu_eqs u rnd n (fun i j => a j i) n (tmat n m) (sg piv n) (fun r k => mel m k r).
Proof.
  intros (_ & _ & _ & HU & HL & _). split; [|split].
  - intros r j Hj Hr. cbn [mel tmat]. apply HU; lia.
  - intros r j Hj Hr. cbn [mel tmat]. apply HL; lia.
  - intros r k Hk Hr. apply HL; lia.
Qed.
Lemma fl_lu_factorised n (a : nat -> nat -> R) M m piv info : fl_lu_inv n a n (m, piv, info) -> (forall i j, (i < n)%nat -> (j < n)%nat -> Rabs (a i j) <= M) ->
  exists E, (forall r c, (r < n)%nat -> (c < n)%nat -> Rabs (E r c) <= bwd u n * (growth u n * M)) /\ @factorised R ROps n (fun r c => a r c + E r c) (mklu m piv).
Proof.
  intros I HM. pose proof (fl_lu_dlu n a m piv info I) as D. destruct I as (H1 & H2 & Hp & _).
  set (P := fun r c => Sum n (fun k => @lower R ROps (mel m) r k * @unit_upper R ROps (mel m) k c)).
  exists (fun r c => undo piv n (P r) c - a r c). split.
  - intros r c Hr Hc. set (e := undo piv n (fun c => P r c - a r (sg piv n c)) c).
    assert (Q : undo piv n (P r) c - a r c = e).
    { unfold e. transitivity (undo piv n (fun c => P r c) c - undo piv n (fun c => a r (sg piv n c)) c).
      - f_equal. assert (UI : forall k (f : nat -> R), (k <= n)%nat -> forall d, (d < n)%nat -> undo piv k (interchanged piv k f) d = f d).
        { induction k as [|k IH]; intros f Hk d Hd; [reflexivity|]. cbn [undo interchanged]. rewrite (undo_ext n piv k _ (interchanged piv k f)); [apply IH; [lia|exact Hd]|lia|intros i Hi; apply Hp; lia| |exact Hd].
          intros i Hi. rewrite !exchange_swp, swp_inv. reflexivity. }
        rewrite <- (UI n (a r) ltac:(lia) c Hc) at 1. apply (undo_ext n); [lia|intros i Hi; apply Hp; lia| |exact Hc]. intros k Hk. apply interchanged_sg.
      - rewrite (undo_map piv n R (fun c => P r c)), (undo_map piv n R (fun c => a r (sg piv n c))), (undo_map piv n R (fun c => P r c - a r (sg piv n c))). reflexivity. }
    rewrite Q. unfold e. apply (undo_all n piv (fun x => Rabs x <= bwd u n * (growth u n * M)) n); [lia|exact Hp| |exact Hc]. intros d Hd.
    pose proof (dlu_err u rnd RN n (fun i j => a j i) n (tmat n m) (sg piv n) (fun r k => mel m k r) M d r D) as B. cbv beta in B. unfold P.
    rewrite (S_ext n _ (fun k => ulo (fun r k => mel m k r) d k * upd (tmat n m) k r)).
    + apply B; try assumption; [intros i Hi; apply (sg_lt n); [lia|exact Hp|exact Hi]|intros i j Hi Hj; apply HM; assumption|lia].
    + intros k Hk. unfold lower, unit_upper, ulo, upd. cbn [mel tmat f0 f1 ROps]. destruct (Nat.leb_spec k r), (Nat.ltb_spec k d), (Nat.eqb_spec k d), (Nat.eqb_spec d k); try lia; ring.
  - split; [exact H1|]. split; [exact H2|]. split; [exact Hp|]. intros r c Hr Hc. cbn [lu_m lu_piv].
    transitivity (interchanged piv n (undo piv n (P r)) c); [|apply (interchanged_undo n piv n (P r)); [lia|exact Hp|exact Hc]].
    rewrite (interchanged_sg piv (undo piv n (P r))), (interchanged_sg piv (fun c => a r c + (undo piv n (P r) c - a r c))). ring.
Qed.

(** the triangular solves *)
Lemma fl_inner lo hi (m : mat R) i (y : vec R) x : (lo <= hi)%nat -> (i < mrows m)%nat -> (hi <= mcols m)%nat -> (hi <= vlen y)%nat ->
  for_ lo hi (fun k acc => (a <- mget m i k ;; z <- vget y k ;; Ok (@fsub R O acc (@fmul R O a z)))%outcome) x = Ok (subs rnd x (fun k => mel m i (lo + k)%nat) (fun k => vat y (lo + k)%nat) (hi - lo)).
Proof.
  intros H Hi Hc Hy. apply wp_eq. apply (wp_for (fun k acc => acc = subs rnd x (fun k => mel m i (lo + k)%nat) (fun k => vat y (lo + k)%nat) (k - lo))).
  - exact H.
  - rewrite Nat.sub_diag. reflexivity.
  - intros k acc Hk ->. rewrite mget_ok, vget_ok by lia. cbn [bind wp]. replace (S k - lo)%nat with (S (k - lo)) by lia. cbn [subs]. replace (lo + (k - lo))%nat with k by lia. reflexivity.
Qed.
Lemma fl_trsm_upper n (m : mat R) (b : vec R) : mrows m = n -> mcols m = n -> vlen b = n -> (forall i, (i < n)%nat -> mel m i i <> 0) ->
  exists y, @trsm_upper R O m b = Ok y /\ vlen y = n /\ forall i, (i < n)%nat -> vat y i = rnd (subs rnd (vat b i) (fun k => mel m i k) (vat y) i / mel m i i).
Proof.
  intros H1 H2 Hb Hd. apply wp_ok_inv. unfold trsm_upper. rewrite H1.
  eapply wp_mono; [apply (wp_for (fun i y => vlen y = n /\ (forall k, (i <= k < n)%nat -> vat y k = vat b k) /\ forall k, (k < i)%nat -> vat y k = rnd (subs rnd (vat b k) (fun j => mel m k j) (vat y) k / mel m k k)))|].
  - lia.
  - split; [exact Hb|]. split; [reflexivity|lia].
  - intros i y Hi (Y1 & Y2 & Y3). rewrite vget_ok by lia. cbn [bind]. rewrite fl_inner by lia. cbn [bind]. rewrite mget_ok by lia. cbn [bind].
    rewrite fl_div_ok by (apply Hd; lia). cbn [bind]. rewrite vset_ok by lia. cbn [wp vlen vat]. split; [exact Y1|]. split.
    + intros k Hk. destruct (Nat.eqb_spec k i); [lia|]. apply Y2. lia.
    + intros k Hk. set (v := rnd (_ / mel m i i)). assert (E : subs rnd (vat b k) (fun j => mel m k j) (fun j => if (j =? i)%nat then v else vat y j) k = subs rnd (vat b k) (fun j => mel m k j) (vat y) k).
      { apply subs_ext; [reflexivity|reflexivity|]. intros j Hj. destruct (Nat.eqb_spec j i); [lia|reflexivity]. }
      rewrite E. destruct (Nat.eqb_spec k i) as [->|Nk]; [|apply Y3; lia]. unfold v. rewrite Nat.sub_0_r, (Y2 i) by lia. reflexivity.
  - intros y (Y1 & _ & Y3). split; [exact Y1|exact Y3].
Qed.
Lemma fl_trsm_upper_bad n (m : mat R) (b : vec R) i : mrows m = n -> mcols m = n -> vlen b = n -> (i < n)%nat -> mel m i i = 0 -> (forall k, (k < i)%nat -> mel m k k <> 0) -> @trsm_upper R O m b = NonFinite.
Proof.
  intros H1 H2 Hb Hi Z Nz. unfold trsm_upper. rewrite H1.
  match goal with |- for_ _ _ ?f _ = _ => set (body := f) end.
  assert (G : forall k lo (y : vec R), (lo + k = i)%nat -> vlen y = n -> for_ lo n body y = NonFinite).
  { induction k as [|k IH]; intros lo y Hk Hy; rewrite LemChol.for_step by lia; unfold body at 1; rewrite vget_ok by lia; cbn [bind]; rewrite fl_inner by lia; cbn [bind]; rewrite mget_ok by lia; cbn [bind].
    - replace lo with i by lia. rewrite Z, fl_div_bad. reflexivity.
    - rewrite fl_div_ok by (apply Nz; lia). cbn [bind]. rewrite vset_ok by lia. cbn [bind]. apply IH; [lia|exact Hy]. }
  apply (G i 0%nat); [lia|exact Hb].
Qed.
Lemma fl_trsm_unit n (m : mat R) (b : vec R) : mrows m = n -> mcols m = n -> vlen b = n ->
  exists z, @trsm_unit_lower R O m b = Ok z /\ vlen z = n /\ forall i, (i < n)%nat -> vat z i = subs rnd (vat b i) (fun k => mel m i (S i + k)%nat) (fun k => vat z (S i + k)%nat) (n - S i).
Proof.
  intros H1 H2 Hb. apply wp_ok_inv. unfold trsm_unit_lower. rewrite H1.
  eapply wp_mono; [apply (wp_for_down (fun i y => vlen y = n /\ (forall k, (k < i)%nat -> vat y k = vat b k) /\ forall k, (i <= k < n)%nat -> vat y k = subs rnd (vat b k) (fun j => mel m k (S k + j)%nat) (fun j => vat y (S k + j)%nat) (n - S k)))|].
  - lia.
  - split; [exact Hb|]. split; [reflexivity|lia].
  - intros i y Hi (Y1 & Y2 & Y3). rewrite vget_ok by lia. cbn [bind]. rewrite fl_inner by lia. cbn [bind]. rewrite vset_ok by lia. cbn [wp vlen vat]. split; [exact Y1|]. split.
    + intros k Hk. destruct (Nat.eqb_spec k i); [lia|]. apply Y2. lia.
    + intros k Hk. set (v := subs rnd (vat y i) _ _ _).
      assert (E : subs rnd (vat b k) (fun j => mel m k (S k + j)%nat) (fun j => if (S k + j =? i)%nat then v else vat y (S k + j)%nat) (n - S k) = subs rnd (vat b k) (fun j => mel m k (S k + j)%nat) (fun j => vat y (S k + j)%nat) (n - S k)).
      { apply subs_ext; [reflexivity|reflexivity|]. intros j Hj. destruct (Nat.eqb_spec (S k + j) i); [lia|reflexivity]. }
      rewrite E. destruct (Nat.eqb_spec k i) as [->|Nk]; [|apply Y3; lia]. unfold v. rewrite (Y2 i) by lia. replace (i + 1)%nat with (S i) by lia. reflexivity.
  - intros z (Y1 & _ & Y3). split; [exact Y1|]. intros i Hi. apply Y3. lia.
Qed.
End G.
