From Coq Require Import ZArith Bool List Lia ZifyBool.
From Verif Require Import Base ModelSize ModelView SpecSize SpecView LemSize.
Import ListNotations.
Open Scope Z_scope.

(** ** Memory lemmas *)
Lemma upd_length {A} (l : list A) n x : length (upd l n x) = length l.
Proof. revert n; induction l as [|h t IH]; intros [|n]; simpl; auto. Qed.
Lemma nth_upd_eq {A} (l : list A) n x : (n < length l)%nat -> nth_error (upd l n x) n = Some x.
Proof. revert n; induction l as [|h t IH]; intros [|n]; simpl; intros H; try lia; auto. apply IH; lia. Qed.
Lemma nth_upd_neq {A} (l : list A) n k x : n <> k -> nth_error (upd l n x) k = nth_error l k.
Proof. revert n k; induction l as [|h t IH]; intros [|n] [|k]; simpl; intros H; try lia; auto. Qed.

Lemma rd_wr_eq {V} (m : mem V) a v w : rd m a = Some w -> rd (wr m a v) a = Some v.
Proof.
  unfold rd, wr. destruct a as [b o]; cbn [fst snd].
  destruct (nth_error m b) as [blk|] eqn:Hb; [|discriminate].
  destruct (0 <=? o) eqn:Ho; [|discriminate]. intros Hr.
  rewrite nth_upd_eq by (apply nth_error_Some; rewrite Hb; discriminate).
  apply nth_upd_eq. apply nth_error_Some. rewrite Hr; discriminate.
Qed.
Lemma rd_wr_neq {V} (m : mem V) a a' v : rd m a <> None -> a <> a' -> rd (wr m a v) a' = rd m a'.
Proof.
  unfold rd, wr. destruct a as [b o], a' as [b' o']; cbn [fst snd]. intros Hex Hne.
  destruct (nth_error m b) as [blk|] eqn:Hb; [|reflexivity].
  destruct (0 <=? o) eqn:Ho; [|congruence].
  destruct (Nat.eq_dec b b') as [<-|Hbb].
  - rewrite nth_upd_eq by (apply nth_error_Some; rewrite Hb; discriminate). rewrite Hb.
    destruct (0 <=? o') eqn:Ho'; [|reflexivity].
    apply nth_upd_neq. intros E. apply Hne. f_equal. lia.
  - rewrite nth_upd_neq by exact Hbb. reflexivity.
Qed.
Lemma addr_eq_dec (a b : addr) : {a = b} + {a <> b}.
Proof. decide equality; [apply Z.eq_dec|apply Nat.eq_dec]. Qed.
Lemma rd_wr_None {V} (m : mem V) a v a' : rd m a <> None -> (rd (wr m a v) a' = None <-> rd m a' = None).
Proof.
  intros Hex. destruct (addr_eq_dec a a') as [<-|Hne].
  - destruct (rd m a) as [w|] eqn:E; [|congruence]. rewrite (rd_wr_eq m a v w E). split; discriminate.
  - rewrite rd_wr_neq by assumption. reflexivity.
Qed.
Lemma wr_length {V} (m : mem V) a v : length (wr m a v) = length m.
Proof. unfold wr. destruct (nth_error m (fst a)); [apply upd_length|reflexivity]. Qed.

Lemma same_cells_refl {V} (m : mem V) : same_cells m m.
Proof. intros a; reflexivity. Qed.
Lemma same_cells_trans {V} (m1 m2 m3 : mem V) : same_cells m1 m2 -> same_cells m2 m3 -> same_cells m1 m3.
Proof. intros H1 H2 a. rewrite (H1 a). apply H2. Qed.
Lemma in_mem_same_cells {V} (m m' : mem V) o : same_cells m m' -> in_mem m o -> in_mem m' o.
Proof.
  intros Hs Hi i Hr. destruct (Hi i Hr) as [v Hv]. destruct (rd m' (oaddr o i)) eqn:E; [eauto|].
  apply Hs in E. congruence.
Qed.
Lemma store_ok {V} (m : mem V) a v w : rd m a = Some w ->
  exists m', store m a v = Ok m' /\ rd m' a = Some v /\ unchanged_outside (eq a) m m'.
Proof.
  intros Hr. unfold store. rewrite Hr. exists (wr m a v). repeat split.
  - apply (rd_wr_eq m a v w Hr).
  - apply rd_wr_None; congruence.
  - apply rd_wr_None; congruence.
  - intros b Hb. apply rd_wr_neq; congruence.
Qed.

(** ** One view operation *)
Lemma slice_size_ok S n : (S = -1 \/ S = n) -> slice_size S n = n.
Proof. unfold slice_size, Dynamic. intros [->| ->]; [reflexivity|]. destruct (n =? -1); reflexivity. Qed.
Lemma slice_size_pick L l : slice_size L (if is_dyn L then l else L) = pick L l.
Proof. unfold slice_size, is_dyn, pick, Dynamic. destruct (L =? -1); reflexivity. Qed.
Lemma pick_wt L l : L = -1 \/ L = pick L l.
Proof. unfold pick. destruct (L =? -1) eqn:E; [left; lia|right; reflexivity]. Qed.
Lemma pick_same x : pick x x = x.
Proof. unfold pick. destruct (x =? -1); reflexivity. Qed.

Lemma bind_check {A} (x : outcome unit) (k : outcome A) r : bind x (fun _ => k) = Ok r -> x = Ok tt /\ k = Ok r.
Proof. destruct x as [[]| | | | |]; simpl; intros H; try discriminate; auto. Qed.

Lemma vslice_t_spec v St Ln s l v' :
  (vS v = -1 \/ vS v = vn v) -> 0 <= vn v ->
  vslice_t St Ln v s l = Ok v' ->
  v' = mkv Ln (vblk v) (voff v + vst v * pick St s) (pick Ln l) (vst v) /\
  0 <= pick St s /\ 0 <= pick Ln l /\ pick St s + pick Ln l <= vn v.
Proof.
  intros HS Hn H. unfold vslice_t in H. apply bind_check in H as [Hc H].
  injection H as <-. apply check_slice_sound in Hc; [|destruct HS as [->| ->]; auto].
  rewrite slice_size_pick. unfold pick. fold (is_dyn St) (is_dyn Ln) in *.
  unfold is_dyn, Dynamic in *. auto.
Qed.
Lemma mslice_t_spec m Rs Cs Rl Cl rs cs rl cl m' :
  well_typed (OM m) ->
  mslice_t Rs Cs Rl Cl m rs cs rl cl = Ok m' ->
  m' = mkm Rl Cl (mblk m) (moff m + mrs m * pick Rs rs + mcs m * pick Cs cs) (pick Rl rl) (pick Cl cl) (mrs m) (mcs m) /\
  0 <= pick Rs rs /\ 0 <= pick Rl rl /\ pick Rs rs + pick Rl rl <= mr m /\
  0 <= pick Cs cs /\ 0 <= pick Cl cl /\ pick Cs cs + pick Cl cl <= mc m.
Proof.
  intros (HR & HC & Hr & Hc) H. unfold mslice_t in H.
  apply bind_check in H as [H1 H]. apply bind_check in H as [H2 H]. injection H as <-.
  apply check_slice_sound in H1; [|destruct HR as [->| ->]; auto].
  apply check_slice_sound in H2; [|destruct HC as [->| ->]; auto].
  rewrite !slice_size_pick. unfold pick, is_dyn, Dynamic in *. intuition.
Qed.

Lemma omap_ok {A B} (f : A -> B) x b : omap f x = Ok b -> exists a, x = Ok a /\ b = f a.
Proof. unfold omap. intros H. apply bind_ok in H as (a & Ha & Hb). injection Hb as <-. eauto. Qed.

Ltac addr_ring := unfold oaddr, vaddr, maddr; cbn [vblk voff vst vn mblk moff mrs mcs mr mc fst snd]; f_equal; ring.

Ltac op_fin :=
  split; [cbn in *; repeat split; auto using pick_wt; try lia |
  split; [cbn in *; try reflexivity; try (f_equal; lia) |
  split; [intros [i1 i2] Hi; cbn in Hi |- *; split; [repeat split; try lia |
            try (assert (i1 = 0) by lia; subst i1); try (assert (i2 = 0) by lia; subst i2); addr_ring]
         | intros [i1 i2] [j1 j2] Hi Hj EE; cbn in Hi, Hj, EE; inversion EE; f_equal; lia ]]].
Lemma apply_op_spec cb p o o' :
  well_typed o -> apply_op cb p o = Ok o' ->
  well_typed o' /\ dims o' = view_dims p o /\
  (forall i, in_range o' i -> in_range o (parent_index p i) /\ oaddr o' i = oaddr o (parent_index p i)) /\
  (forall i j, in_range o' i -> in_range o' j -> parent_index p i = parent_index p j -> i = j).
Proof.
  intros Hwt H. destruct p, o as [v|m]; cbn [apply_op] in H; try discriminate.
  - (* Slice *) apply omap_ok in H as (v' & H & ->). unfold vslice in H. destruct Hwt as [HS Hn].
    apply vslice_t_spec in H as (-> & H1 & H2 & H3); auto.
    change (pick Dynamic start) with start in *. change (pick Dynamic length) with length in *.
    op_fin.
  - (* SliceT *) apply omap_ok in H as (v' & H & ->). destruct Hwt as [HS Hn].
    apply vslice_t_spec in H as (-> & H1 & H2 & H3); auto. op_fin.
  - (* SliceS *) apply omap_ok in H as (v' & H & ->). destruct Hwt as [HS Hn].
    unfold vslice_static in H. apply bind_check in H as [_ H].
    apply vslice_t_spec in H as (-> & H1 & H2 & H3); auto. rewrite !pick_same in *. op_fin.
  - (* AsRow *) injection H as <-. destruct Hwt as [HS Hn]. unfold as_row. rewrite (slice_size_ok _ _ HS). op_fin.
  - (* AsCol *) injection H as <-. destruct Hwt as [HS Hn]. unfold as_col. rewrite (slice_size_ok _ _ HS). op_fin.
  - (* AsSlice *) injection H as <-. destruct Hwt as [HS Hn]. unfold as_slice. rewrite (slice_size_ok _ _ HS). op_fin.
  - (* MSlice *) apply omap_ok in H as (v' & H & ->). unfold mslice in H.
    apply mslice_t_spec in H as (-> & H1 & H2 & H3 & H4 & H5 & H6); auto.
    change (pick Dynamic rs) with rs in *. change (pick Dynamic cs) with cs in *.
    change (pick Dynamic rl) with rl in *. change (pick Dynamic cl) with cl in *. op_fin.
  - (* MSliceT *) apply omap_ok in H as (v' & H & ->).
    apply mslice_t_spec in H as (-> & H1 & H2 & H3 & H4 & H5 & H6); auto. op_fin.
  - (* MSliceS *) apply omap_ok in H as (v' & H & ->). unfold mslice_static in H.
    apply bind_check in H as [_ H]. apply bind_check in H as [_ H].
    apply mslice_t_spec in H as (-> & H1 & H2 & H3 & H4 & H5 & H6); auto. rewrite !pick_same in *. op_fin.
  - (* Row *) apply omap_ok in H as (v' & H & ->). unfold mrow in H.
    destruct ((0 <=? r) && (r <? mr m)) eqn:E; [|destruct cb; discriminate]. injection H as <-.
    destruct Hwt as (HR & HC & Hr & Hc). rewrite (slice_size_ok _ _ HC). op_fin.
  - (* Transpose *) injection H as <-. destruct Hwt as (HR & HC & Hr & Hc). unfold mT.
    rewrite (slice_size_ok _ _ HC), (slice_size_ok _ _ HR). op_fin.
  - (* Diag *) injection H as <-. destruct Hwt as (HR & HC & Hr & Hc).
    assert (HD : diag_size (mR m) (mC m) = -1 \/ diag_size (mR m) (mC m) = Z.min (mc m) (mr m)).
    { unfold diag_size, Dynamic. destruct ((mR m =? -1) || (mC m =? -1)) eqn:E; [left; reflexivity|].
      right. destruct HR as [HR|HR]; [rewrite HR in E; discriminate|]. destruct HC as [HC|HC]; [lia|].
      rewrite HR, HC. destruct (mr m <? mc m) eqn:E'; lia. }
    unfold mdiag. rewrite (slice_size_ok _ _ HD). op_fin.
Qed.

Lemma apply_ops_spec cb ps : forall o o',
  well_typed o -> apply_ops cb ps o = Ok o' ->
  well_typed o' /\
  (forall i, in_range o' i -> in_range o (origin_index ps i) /\ oaddr o' i = oaddr o (origin_index ps i)) /\
  (forall i j, in_range o' i -> in_range o' j -> origin_index ps i = origin_index ps j -> i = j).
Proof.
  induction ps as [|p ps IH]; intros o o' Hwt H; cbn [apply_ops origin_index] in *.
  - injection H as <-. repeat split; auto.
  - apply bind_ok in H as (o1 & H1 & H2).
    destruct (apply_op_spec _ _ _ _ Hwt H1) as (Hwt1 & _ & Hi1 & Hj1).
    destruct (IH _ _ Hwt1 H2) as (Hwt2 & Hi2 & Hj2). split; [exact Hwt2|]. split.
    + intros i Hi. destruct (Hi2 i Hi) as [Ha Hb]. destruct (Hi1 _ Ha) as [Hc Hd].
      split; [exact Hc|]. rewrite Hb; exact Hd.
    + intros i j Hi Hj E. apply Hj2; auto. apply Hj1; auto; [apply (Hi2 i Hi)|apply (Hi2 j Hj)].
Qed.

(** ** Base objects are good *)
Lemma rd_block {V} (m : mem V) blk lo n o : block_has m blk lo n -> lo <= o < lo + n ->
  exists v, rd m (blk, o) = Some v.
Proof.
  intros (H0 & l & Hl & Hlen) Ho. unfold rd; cbn [fst snd]. rewrite Hl.
  replace (0 <=? o) with true by lia.
  destruct (nth_error l (Z.to_nat o)) eqn:E; [eauto|]. apply nth_error_None in E. lia.
Qed.
Lemma lin_inj (n a b a' b' : Z) : 0 <= b < n -> 0 <= b' < n -> a * n + b = a' * n + b' -> a = a' /\ b = b'.
Proof. intros H1 H2 H. assert (a = a') by nia. subst. lia. Qed.

Lemma base_good {V} (m : mem V) o : base_object m o -> good m o.
Proof.
  intros H. destruct H as [S blk off n HS Hn HB | R C blk off r c HR HC Hr Hc HB | R C blk off r c HR HC Hr Hc HB].
  - split; [|split].
    + cbn; auto.
    + intros i [Hi _]. cbn [vn base_vec] in Hi. unfold oaddr, vaddr, base_vec; cbn.
      apply (rd_block m blk off n); [exact HB|lia].
    + intros [i1 i2] [j1 j2]. cbn. intros Hi Hj E. injection E as E. f_equal; lia.
  - split; [|split].
    + cbn; auto.
    + intros [i1 i2] [H1 H2]. cbn in H1, H2. unfold oaddr, maddr, base_rowmajor; cbn.
      apply (rd_block m blk off (r * c)); [exact HB|nia].
    + intros [i1 i2] [j1 j2]. cbn. intros Hi Hj E. injection E as E.
      destruct (lin_inj c i1 i2 j1 j2); [lia|lia|lia|]. congruence.
  - split; [|split].
    + cbn; auto.
    + intros [i1 i2] [H1 H2]. cbn in H1, H2. unfold oaddr, maddr, base_colmajor; cbn.
      apply (rd_block m blk off (r * c)); [exact HB|nia].
    + intros [i1 i2] [j1 j2]. cbn. intros Hi Hj E. injection E as E.
      destruct (lin_inj r i2 i1 j2 j1); [lia|lia|lia|]. congruence.
Qed.

Lemma good_chain {V} cb ps (m : mem V) o o' : good m o -> apply_ops cb ps o = Ok o' -> good m o'.
Proof.
  intros (Hwt & Hin & Hna) H. destruct (apply_ops_spec _ _ _ _ Hwt H) as (Hwt' & Hi & Hj).
  split; [exact Hwt'|]. split.
  - intros i Hr. destruct (Hi i Hr) as [Ha ->]. apply Hin; exact Ha.
  - intros i j Hri Hrj E. apply Hj; auto. apply Hna; [apply Hi; auto|apply Hi; auto|].
    destruct (Hi i Hri) as [_ <-]. destruct (Hi j Hrj) as [_ <-]. exact E.
Qed.
