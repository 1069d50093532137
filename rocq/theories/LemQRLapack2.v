(** * QR_Lapack: the order of the diagonal, the start of geqp3 and the library's loops. *)
From Coq Require Import Reals Arith Bool Lia Lra Psatz Setoid Morphisms.
From Verif Require Import Base Alg Inst Mat SpecMat LemMat RSum SpecExp LemExp LemEig RRect LemGR ModelQRLapack LemQRLapack.
Open Scope outcome_scope.
Local Open Scope R_scope.

(** ** the order of the diagonal *)
Definition qsort (M N j : nat) (s : qst) : Prop :=
  forall k c, (k < j)%nat -> (k <= c < N)%nat -> nrm2 M k (Wm j (q_a s)) c <= q_a s k k * q_a s k k.
Lemma swap_sort M N j p s : (j <= p < N)%nat -> qsort M N j s -> qsort M N j (swap_cols j p s).
Proof.
  intros Hp H k c Hk Hc.
  assert (E : nrm2 M k (Wm j (q_a (swap_cols j p s))) c = nrm2 M k (Wm j (q_a s)) (exch j p (fun x => x) c)).
  { unfold nrm2. apply S_ext. intros r Hr. unfold from. destruct (k <=? r)%nat; [|reflexivity].
    assert (Q : Wm j (q_a (swap_cols j p s)) r c = Wm j (q_a s) r (exch j p (fun x => x) c)).
    { unfold Wm. cbn [swap_cols q_a]. rewrite (exch_arg j p (q_a s r)). destruct (Nat.ltb_spec c j) as [L|L].
      - replace (exch j p (fun x => x) c) with c by (symmetry; apply exch_o; lia). destruct (Nat.ltb_spec c j); [reflexivity|lia].
      - pose proof (exch_ge j p c j (le_n j) ltac:(lia) L). destruct (Nat.ltb_spec (exch j p (fun x => x) c) j); [lia|reflexivity]. }
    rewrite Q. reflexivity. }
  rewrite E. cbn [swap_cols q_a]. rewrite (exch_o j p (q_a s k) k) by lia. apply H; [exact Hk|]. split; [apply exch_ge; lia|apply exch_lt; lia].
Qed.
Lemma hous_norm M k j A (y : nat -> R) : (j < M)%nat -> (k <= j)%nat ->
  let v := larfg_v M j A in let t := larfg_tau M j A in let d := Sum M (fun i => v i * y i) in
  Sum M (from k (fun r => (y r + - t * v r * d) * (y r + - t * v r * d))) = Sum M (from k (fun r => y r * y r)).
Proof.
  intros Hj Hk v t d.
  rewrite (S_ext M _ (fun r => from k (fun r => y r * y r) r + (-2 * t * d * (v r * y r) + t * t * d * d * (v r * v r)))).
  2:{ intros r Hr. unfold from. destruct (Nat.leb_spec k r); [ring|]. unfold v. rewrite v_low by lia. ring. }
  rewrite !S_add, !S_mul_l. fold d. destruct (larfg_tau_v M j A Hj) as [T|T]; fold v t in T; [rewrite T; ring|].
  set (q := Sum M (fun k0 => v k0 * v k0)) in *. replace (t * t * d * d * q) with (t * d * d * (t * q)) by ring. rewrite T. ring.
Qed.
Lemma house_sort M N j s : (j < M)%nat -> (forall c, (j <= c < N)%nat -> nrm2 M j (q_a s) c <= nrm2 M j (q_a s) j) -> qsort M N j s -> qsort M N (S j) (house M j s).
Proof.
  intros Hj Hmax H k c Hk Hc.
  assert (E : nrm2 M k (Wm (S j) (q_a (house M j s))) c = nrm2 M k (Wm j (q_a s)) c).
  { unfold nrm2. rewrite <- (hous_norm M k j (q_a s) (fun r => Wm j (q_a s) r c) Hj ltac:(lia)).
    apply S_ext. intros r Hr. unfold from. destruct (k <=? r)%nat; [|reflexivity].
    rewrite <- (house_W M N j s Hj r c Hr ltac:(lia)). rewrite (hous_mm M N _ _ _ r c Hr ltac:(lia)). reflexivity. }
  rewrite E. destruct (Nat.eq_dec k j) as [->|Nk].
  - cbn [house q_a]. rewrite Nat.eqb_refl. destruct (Nat.ltb_spec j j); [lia|]. rewrite larfg_beta_sq by exact Hj.
    eapply Rle_trans; [|apply (Hmax c); lia]. right. unfold nrm2. apply S_ext. intros r Hr. unfold from. destruct (j <=? r)%nat; [|reflexivity].
    unfold Wm. destruct (Nat.ltb_spec c j); [lia|reflexivity].
  - cbn [house q_a]. destruct (Nat.eqb_spec k j), (Nat.ltb_spec j k); try lia. apply H; lia.
Qed.
Lemma step_sort M N j s : (j < M)%nat -> (j < N)%nat -> qsort M N j s -> qsort M N (S j) (geqp3_step M N 0 j s).
Proof.
  intros Hm Hn H. unfold geqp3_step. cbn [Nat.ltb Nat.leb]. destruct (pick_range M N j (q_a s) Hn) as [P1 P2]. set (p := pick M N j (q_a s)) in *.
  apply house_sort; [exact Hm| |apply swap_sort; [exact P1|exact H]].
  intros c Hc.
  assert (E : forall c, nrm2 M j (q_a (swap_cols j p s)) c = nrm2 M j (q_a s) (exch j p (fun x => x) c)).
  { intros c'. unfold nrm2. apply S_ext. intros r Hr. unfold from. destruct (j <=? r)%nat; [|reflexivity]. cbn [swap_cols q_a]. rewrite (exch_arg j p (q_a s r)). reflexivity. }
  rewrite !E. rewrite exch_l. apply P2. split; [apply exch_ge; lia|apply exch_lt; lia].
Qed.
(** ** the start *)
Lemma front_free N A t : exists s, geqp3_front N (mkq A (fun _ => 0%nat) t) = (s, 0%nat) /\ q_a s = A /\ forall c, (c < N)%nat -> q_p s c = S c.
Proof.
  unfold geqp3_front.
  match goal with |- context [?f N 0%nat _ 0%nat] => set (go := f) end.
  assert (G : forall k lo s, (forall c, (c < lo)%nat -> q_p s c = S c) -> (forall c, (lo <= c)%nat -> q_p s c = 0%nat) -> q_a s = A ->
    exists s', go k lo s 0%nat = (s', 0%nat) /\ q_a s' = A /\ forall c, (c < lo + k)%nat -> q_p s' c = S c).
  { induction k as [|k IH]; intros lo s H1 H2 H3; cbn [go]; fold go.
    - exists s. split; [reflexivity|]. split; [exact H3|]. intros c Hc. apply H1. lia.
    - rewrite (H2 lo) by lia. cbn [Nat.eqb]. destruct (IH (S lo) (mkq (q_a s) (setn (q_p s) lo (S lo)) (q_t s))) as (s' & E & Ea & Ep).
      + intros c Hc. cbn [q_p]. unfold setn. destruct (Nat.eqb_spec c lo); [subst; reflexivity|apply H1; lia].
      + intros c Hc. cbn [q_p]. unfold setn. destruct (Nat.eqb_spec c lo); [lia|apply H2; lia].
      + exact H3.
      + exists s'. split; [exact E|]. split; [exact Ea|]. intros c Hc. apply Ep. lia. }
  destruct (G N 0%nat (mkq A (fun _ => 0%nat) t)) as (s & E & Ea & Ep); [intros; lia|reflexivity|reflexivity|]. exists s. split; [exact E|]. split; [exact Ea|exact Ep].
Qed.
Lemma front_fixed N A p t : (forall c, (c < N)%nat -> p c = S c) -> exists s, geqp3_front N (mkq A p t) = (s, N) /\ q_a s = A /\ forall c, (c < N)%nat -> q_p s c = S c.
Proof.
  intros Hp. unfold geqp3_front.
  match goal with |- context [?f N 0%nat _ 0%nat] => set (go := f) end.
  assert (G : forall k lo s, (lo + k = N)%nat -> (forall c, (c < N)%nat -> q_p s c = S c) -> q_a s = A -> exists s', go k lo s lo = (s', N) /\ q_a s' = A /\ forall c, (c < N)%nat -> q_p s' c = S c).
  { induction k as [|k IH]; intros lo s HN H1 H3; cbn [go]; fold go.
    - exists s. split; [f_equal; lia|]. split; [exact H3|exact H1].
    - rewrite (H1 lo) by lia. cbn [Nat.eqb]. rewrite Nat.eqb_refl. destruct (IH (S lo) (mkq (q_a s) (setn (q_p s) lo (S lo)) (q_t s))) as (s' & E & Ea & Ep).
      + lia.
      + intros c Hc. cbn [q_p]. unfold setn. destruct (Nat.eqb_spec c lo); [subst; reflexivity|apply H1; lia].
      + exact H3.
      + exists s'. split; [exact E|]. split; [exact Ea|exact Ep]. }
  apply (G N 0%nat (mkq A p t)); [lia|exact Hp|reflexivity].
Qed.
Lemma start_inv M N s A : q_a s = A -> (forall c, (c < N)%nat -> q_p s c = S c) -> qinv M N 0 A s.
Proof.
  intros Ea Ep. split; [lia|]. split; [|split].
  - cbn [chain]. rewrite r_1l. intros r c Hr Hc. unfold Wm. cbn [Nat.ltb Nat.leb andb]. rewrite Ep by exact Hc. cbn [Nat.sub]. rewrite Nat.sub_0_r, Ea. reflexivity.
  - intros c Hc. rewrite Ep by exact Hc. lia.
  - intros c d Hc Hd E. rewrite !Ep in E by assumption. lia.
Qed.
Lemma geqp3_free M N A : let K := Nat.min M N in qinv M N K A (geqp3 M N A (fun _ => 0%nat)) /\ qsort M N K (geqp3 M N A (fun _ => 0%nat)).
Proof.
  intros K. unfold geqp3. destruct (front_free N A (fun _ => 0)) as (s & E & Ea & Ep). rewrite E.
  apply (iter_up_inv (geqp3_step M N 0) (fun j s => qinv M N j A s /\ qsort M N j s) K 0 s).
  - intros i t Hi [I1 I2]. split; [apply step_inv; [lia|lia|exact I1]|apply step_sort; [lia|lia|exact I2]].
  - split; [apply start_inv; assumption|intros k c Hk; lia].
Qed.
Lemma geqp3_fixed M N A p : (forall c, (c < N)%nat -> p c = S c) -> let s := geqp3 M N A p in qinv M N (Nat.min M N) A s /\ forall c, (c < N)%nat -> q_p s c = S c.
Proof.
  intros Hp s. unfold s, geqp3. destruct (front_fixed N A p (fun _ => 0) Hp) as (s0 & E & Ea & Ep). rewrite E.
  apply (iter_up_inv (geqp3_step M N N) (fun j s => qinv M N j A s /\ forall c, (c < N)%nat -> q_p s c = S c) (Nat.min M N) 0 s0).
  - intros i t Hi [I1 I2]. split; [apply step_inv; [lia|lia|exact I1]|]. unfold geqp3_step. destruct (Nat.ltb_spec i N); [|lia]. exact I2.
  - split; [apply start_inv; assumption|exact Ep].
Qed.
(** ** the library's loops *)
Lemma zero_lower M N K A : (K <= M)%nat -> (K <= N)%nat ->
  wp (for_ 1 K (fun r m => for_ 0 r (fun c m => mset m r c 0) m) (mkmat M N A)) (fun m => mis m M N (fun r c => if ((r <? K) && (c <? r))%bool then 0 else A r c)).
Proof.
  intros HM HN. destruct (Nat.eq_dec K 0) as [->|NK].
  { rewrite for_empty by lia. split; [reflexivity|]. split; [reflexivity|]. intros r c. reflexivity. }
  apply (wp_for (fun i m => mis m M N (fun r c => if ((r <? i) && (c <? r))%bool then 0 else A r c))).
  - lia.
  - split; [reflexivity|]. split; [reflexivity|]. intros r c. destruct (Nat.ltb_spec r 1), (Nat.ltb_spec c r); cbn [andb]; try lia; reflexivity.
  - intros i m Hi Hm. eapply wp_mono; [apply (for_row m M N _ i 0 i (fun _ => 0) _ Hm); [lia|lia|]|].
    + intros c U Hc HU. eapply wp_mset_end; [exact HU|lia|lia|]. intros U' HU'. exact HU'.
    + intros U HU. eapply mis_ext; [exact HU|]. intros r c. unfold rowset. destruct (Nat.eqb_spec r i) as [->|Nr]; cbn [andb].
      * destruct (Nat.leb_spec 0 c), (Nat.ltb_spec c i), (Nat.ltb_spec i i), (Nat.ltb_spec i (S i)); cbn [andb]; try lia; reflexivity.
      * destruct (Nat.ltb_spec r (S i)), (Nat.ltb_spec r i); cbn [andb]; try lia; reflexivity.
Qed.
Lemma map_vec N (p : vec nat) (g : nat -> nat -> nat) (body : nat -> vec nat -> outcome (vec nat)) : vlen p = N ->
  (forall i q, (i < N)%nat -> vlen q = N -> vat q i = vat p i -> body i q = Ok (mkvec N (fun k => if (k =? i)%nat then g i (vat p i) else vat q k))) ->
  exists q, for_ 0 N body p = Ok q /\ vlen q = N /\ forall i, (i < N)%nat -> vat q i = g i (vat p i).
Proof.
  intros Hp Hb. apply wp_ok_inv. eapply wp_mono; [apply (wp_for (fun i q => vlen q = N /\ forall k, vat q k = if (k <? i)%nat then g k (vat p k) else vat p k))|].
  - lia.
  - split; [exact Hp|]. intros k. reflexivity.
  - intros i q Hi [H1 H2]. rewrite Hb; [|lia|exact H1|rewrite H2; destruct (Nat.ltb_spec i i); [lia|reflexivity]]. cbn [wp vlen vat]. split; [reflexivity|]. intros k. rewrite H2.
    destruct (Nat.eqb_spec k i), (Nat.ltb_spec k i), (Nat.ltb_spec k (S i)); try lia; subst; reflexivity.
  - intros q [H1 H2]. split; [exact H1|]. intros i Hi. rewrite H2. destruct (Nat.ltb_spec i N); [reflexivity|lia].
Qed.
Lemma make_ok A b : exists d s, qrl_make A b = Ok d /\
  (if b then s = geqp3 (mrows A) (mcols A) (mel A) (fun _ => 0%nat) else exists p, (forall c, (c < mcols A)%nat -> p c = S c) /\ s = geqp3 (mrows A) (mcols A) (mel A) p) /\
  mis (qrl_R d) (mrows A) (mcols A) (fun r c => if ((r <? Nat.min (mrows A) (mcols A)) && (c <? r))%bool then 0 else q_a s r c) /\
  mis (qrl_Q d) (Nat.min (mrows A) (mcols A)) (Nat.min (mrows A) (mcols A)) (orgqr (Nat.min (mrows A) (mcols A)) (q_a s) (q_t s)) /\
  vlen (qrl_P d) = mcols A /\ forall i, (i < mcols A)%nat -> vat (qrl_P d) i = (q_p s i - 1)%nat.
Proof.
  unfold qrl_make. set (M := mrows A). set (N := mcols A). set (K := Nat.min M N).
  assert (P : exists p, (if b then Ok (mkvec N (fun _ => 0%nat)) else for_ 0 N (fun i p => vset p i (i + 1)%nat) (mkvec N (fun _ => 0%nat))) = Ok p /\
    if b then vat p = (fun _ => 0%nat) else forall c, (c < N)%nat -> vat p c = S c).
  { destruct b; [eexists; split; reflexivity|].
    destruct (map_vec N (mkvec N (fun _ => 0%nat)) (fun i _ => (i + 1)%nat) (fun i p => vset p i (i + 1)%nat) eq_refl) as (q & E & _ & H).
    - intros i q Hi Hq _. rewrite vset_ok by lia. rewrite Hq. reflexivity.
    - exists q. split; [exact E|]. intros c Hc. rewrite H by exact Hc. lia. }
  destruct P as (p & E & Hp). rewrite E. cbn [bind]. cbv zeta. set (s := geqp3 M N (mel A) (vat p)).
  destruct (wp_ok_inv _ _ (zero_lower M N K (q_a s) ltac:(lia) ltac:(lia))) as (C & EC & HC). rewrite EC. cbn [bind].
  destruct (map_vec N (mkvec N (q_p s)) (fun _ x => (x - 1)%nat) (fun i p => x <- vget p i ;; vset p i (x - 1)%nat) eq_refl) as (q & Eq & Lq & Hq).
  { intros i q Hi Hq Hv. rewrite vget_ok by lia. cbn [bind]. rewrite vset_ok by lia. rewrite Hq, Hv. reflexivity. }
  rewrite Eq. cbn [bind]. exists (mkqrl C (mkmat K K (orgqr K (q_a s) (q_t s))) q), s. split; [reflexivity|]. split.
  { destruct b; [unfold s; rewrite Hp; reflexivity|exists (vat p); split; [exact Hp|reflexivity]]. }
  cbn [qrl_R qrl_Q qrl_P ql_copy ql_Q ql_pivot]. split; [exact HC|]. split; [split; [reflexivity|split; reflexivity]|]. split; [exact Lq|]. exact Hq.
Qed.
