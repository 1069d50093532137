(** * Property theorems C01-C10, C14, C15: slices, views, assignment, swap.
    Statements only; the proofs are in LemSize.v, LemView.v, LemAssign.v. *)
From Coq Require Import ZArith Bool List Lia ZifyBool.
From Verif Require Import Base ModelSize ModelView SpecSize SpecView LemSize LemView LemAssign.
Import ListNotations.
Open Scope Z_scope.

(** A concrete memory used by the non-vacuity examples: one 3x4 block and one 5-element block. *)
Definition mem0 : mem Z := [[0;1;2;3;4;5;6;7;8;9;10;11]; [20;21;22;23;24]].
Definition mat0 : mview := base_rowmajor 3 (-1) 0 0 3 4.
Definition vec0 : vview := base_vec (-1) 1 0 5.
Example mat0_base : base_object mem0 (OM mat0).
Proof. apply BO_row; try lia. split; [lia|]. eexists. split; [reflexivity|]. cbn. lia. Qed.
Example vec0_base : base_object mem0 (OV vec0).
Proof. apply BO_vec; try lia. split; [lia|]. eexists. split; [reflexivity|]. cbn. lia. Qed.

(** ** C01 *)
Theorem C01_vector_slice_exact :
  forall (v : vview) (Start Length start length : Z),
    fixed_or_dynamic (vS v) (vn v) -> template_arg Start -> template_arg Length ->
    int32 (start + length) ->
    (slice_legal Start Length (vn v) start length ->
       exists w, vslice_t Start Length v start length = Ok w /\ vn w = length /\
                 forall i, vaddr w i = vaddr v (start + i)) /\
    (~ slice_legal Start Length (vn v) start length ->
       vslice_t Start Length v start length = CompileError \/
       exists d, vslice_t Start Length v start length = Abort d).
Proof.
  intros v St Ln s l Hf Hs Hl Hi. unfold vslice_t.
  destruct (check_slice_exact _ _ _ _ _ _ Hf Hs Hl Hi) as [H1 H2]. split.
  - intros Hlegal. rewrite (proj2 H1 Hlegal). cbn [bind]. eexists. split; [reflexivity|].
    destruct Hlegal as (A1 & A2 & _). cbn [vn]. rewrite slice_size_pick.
    assert (E1 : pick Ln l = l) by (unfold pick, agrees in *; destruct (Ln =? -1) eqn:E; lia).
    assert (E2 : (if is_dyn St then s else St) = s) by (unfold is_dyn, Dynamic, agrees in *; destruct (St =? -1) eqn:E; lia).
    split; [exact E1|]. intros i. rewrite E2. unfold vaddr; cbn. f_equal; ring.
  - intros Hn. destruct (H2 Hn) as [->|(d & ->)]; cbn; [left; reflexivity|right; eauto].
Qed.
Print Assumptions C01_vector_slice_exact.
Example C01_vector_slice_exact_nonvac :
  fixed_or_dynamic (vS vec0) (vn vec0) /\ slice_legal (-1) 3 (vn vec0) 1 3 /\ ~ slice_legal (-1) (-1) (vn vec0) 3 3.
Proof. unfold fixed_or_dynamic, slice_legal, agrees; cbn; lia. Qed.

Theorem C01_matrix_slice_exact :
  forall (m : mview) (Rs Cs Rl Cl rs cs rl cl : Z),
    fixed_or_dynamic (mR m) (mr m) -> fixed_or_dynamic (mC m) (mc m) ->
    template_arg Rs -> template_arg Cs -> template_arg Rl -> template_arg Cl ->
    int32 (rs + rl) -> int32 (cs + cl) ->
    (slice_legal Rs Rl (mr m) rs rl /\ slice_legal Cs Cl (mc m) cs cl ->
       exists w, mslice_t Rs Cs Rl Cl m rs cs rl cl = Ok w /\ mr w = rl /\ mc w = cl /\
                 forall r c, maddr w r c = maddr m (rs + r) (cs + c)) /\
    (~ (slice_legal Rs Rl (mr m) rs rl /\ slice_legal Cs Cl (mc m) cs cl) ->
       mslice_t Rs Cs Rl Cl m rs cs rl cl = CompileError \/
       exists d, mslice_t Rs Cs Rl Cl m rs cs rl cl = Abort d).
Proof.
  intros m Rs Cs Rl Cl rs cs rl cl Hf1 Hf2 T1 T2 T3 T4 I1 I2. unfold mslice_t.
  destruct (check_slice_exact _ _ _ _ _ _ Hf1 T1 T3 I1) as [H1 H2].
  destruct (check_slice_exact _ _ _ _ _ _ Hf2 T2 T4 I2) as [H3 H4]. split.
  - intros [L1 L2]. rewrite (proj2 H1 L1), (proj2 H3 L2). cbn [bind]. eexists. split; [reflexivity|].
    destruct L1 as (A1 & A2 & _). destruct L2 as (B1 & B2 & _). cbn [mr mc]. rewrite !slice_size_pick.
    assert (E1 : pick Rl rl = rl) by (unfold pick, agrees in *; destruct (Rl =? -1) eqn:E; lia).
    assert (E2 : pick Cl cl = cl) by (unfold pick, agrees in *; destruct (Cl =? -1) eqn:E; lia).
    assert (E3 : (if is_dyn Rs then rs else Rs) = rs) by (unfold is_dyn, Dynamic, agrees in *; destruct (Rs =? -1) eqn:E; lia).
    assert (E4 : (if is_dyn Cs then cs else Cs) = cs) by (unfold is_dyn, Dynamic, agrees in *; destruct (Cs =? -1) eqn:E; lia).
    split; [exact E1|]. split; [exact E2|]. intros r c. rewrite E3, E4. unfold maddr; cbn. f_equal; ring.
  - intros Hn.
    assert (D : slice_legal Rs Rl (mr m) rs rl \/ ~ slice_legal Rs Rl (mr m) rs rl)
      by (unfold slice_legal, agrees; lia).
    destruct D as [D|D].
    + rewrite (proj2 H1 D). cbn [bind]. destruct (H4 (fun e => Hn (conj D e))) as [->|(d & ->)]; cbn; [left|right]; eauto.
    + destruct (H2 D) as [->|(d & ->)]; cbn; [left; reflexivity|right; eauto].
Qed.
Print Assumptions C01_matrix_slice_exact.
Example C01_matrix_slice_exact_nonvac :
  fixed_or_dynamic (mR mat0) (mr mat0) /\ fixed_or_dynamic (mC mat0) (mc mat0) /\
  slice_legal 1 2 (mr mat0) 1 2 /\ slice_legal (-1) (-1) (mc mat0) 0 4.
Proof. unfold fixed_or_dynamic, slice_legal, agrees; cbn; lia. Qed.

(** Also for Resizable vectors, and with no hypothesis on the arguments: an accepted slice
    lies inside the vector. *)
Theorem C01_accepted_slice_inside :
  forall (v w : vview) (Start Length start length : Z),
    (vS v = Dynamic \/ vS v = Resizable \/ vS v = vn v) ->
    vslice_t Start Length v start length = Ok w ->
    0 <= vn w /\ exists k, 0 <= k /\ k + vn w <= vn v /\ forall i, vaddr w i = vaddr v (k + i).
Proof.
  intros v w St Ln s l HS H. unfold vslice_t in H. apply bind_check in H as [Hc H]. injection H as <-.
  apply check_slice_sound in Hc; [|exact HS]. cbn [vn]. rewrite slice_size_pick.
  assert (E : pick Ln l = if is_dyn Ln then l else Ln) by reflexivity. rewrite E.
  split; [tauto|]. exists (if is_dyn St then s else St). split; [tauto|]. split; [lia|].
  intros i. unfold vaddr; cbn. f_equal; ring.
Qed.
Print Assumptions C01_accepted_slice_inside.

(** The full claim fails: start+length is added in [int]; with start = length = 2^30 ... the
    check itself overflows (undefined behaviour) instead of diagnosing. *)
Theorem C01_overflow_refuted :
  exists size start length, 0 <= size <= INT_MAX /\ int32 start /\ int32 length /\
    ~ slice_legal (-1) (-1) size start length /\
    check_slice Dynamic Dynamic Dynamic size start length = UB.
Proof. exists 10, 2147483647, 1. unfold int32, slice_legal, INT_MAX. repeat split; try lia. Qed.
Print Assumptions C01_overflow_refuted.
(** ... and for a Resizable vector a static start that contradicts the run-time start is
    silently used instead of being diagnosed (slice_error.hh:107,112 skip the comparison). *)
Theorem C01_resizable_mismatch_refuted :
  exists v Start Length start length w,
    vS v = Resizable /\ ~ slice_legal Start Length (vn v) start length /\
    vslice_t Start Length v start length = Ok w /\ vaddr w 0 = vaddr v Start /\ Start <> start.
Proof.
  exists (base_vec Resizable 0 0 10), 2, 3, 7, 1. eexists.
  split; [reflexivity|]. split; [unfold slice_legal, agrees; lia|]. split; [reflexivity|].
  split; [reflexivity|lia].
Qed.
Print Assumptions C01_resizable_mismatch_refuted.

(** ** C02 *)
Theorem C02_view_chain_inside :
  forall (V : Type) (cb : bool) (m : mem V) (o o' : obj) (ops : list vop),
    base_object m o -> apply_ops cb ops o = Ok o' ->
    (forall i, in_range o' i -> in_range o (origin_index ops i) /\ oaddr o' i = oaddr o (origin_index ops i)) /\
    (forall i, in_range o' i -> exists x, rd m (oaddr o' i) = Some x) /\
    (forall i j, in_range o' i -> in_range o' j -> oaddr o' i = oaddr o' j -> i = j).
Proof.
  intros V cb m o o' ops Hb H. pose proof (base_good m o Hb) as Hg.
  destruct (good_chain cb ops m o o' Hg H) as (_ & Hin & Hna).
  destruct Hg as [Hwt _]. destruct (apply_ops_spec _ _ _ _ Hwt H) as (_ & Hi & _). auto.
Qed.
Print Assumptions C02_view_chain_inside.
Example C02_nonvac :
  exists o', apply_ops false [Transpose; MSlice 1 0 2 3; Row 1; Slice 1 2; AsCol] (OM mat0) = Ok o'
    /\ in_range o' (1, 0) /\ oaddr o' (1, 0) = (0%nat, 10).
Proof. eexists. split; [reflexivity|]. split; [cbn; lia|reflexivity]. Qed.
(** Each operation has the documented number of elements. *)
Theorem C02_view_dimensions :
  forall cb p o o', well_typed o -> apply_op cb p o = Ok o' -> dims o' = view_dims p o.
Proof. intros cb p o o' Hwt H. destruct (apply_op_spec cb p o o' Hwt H) as (_ & HD & _). exact HD. Qed.
Print Assumptions C02_view_dimensions.

(** ** C03 *)
Definition oget {V} cb (m : mem V) (o : obj) (i : idx) : outcome V :=
  match o with OV v => vget cb m v (fst i) | OM a => mget cb m a (fst i) (snd i) end.
Definition oset {V} cb (m : mem V) (o : obj) (i : idx) (x : V) : outcome (mem V) :=
  match o with OV v => vset cb m v (fst i) x | OM a => mset cb m a (fst i) (snd i) x end.
Theorem C03_write_through_view :
  forall (V : Type) (cb : bool) (m : mem V) (o o' : obj) (ops : list vop) (i : idx) (x : V),
    base_object m o -> apply_ops cb ops o = Ok o' -> in_range o' i ->
    exists m', oset cb m o' i x = Ok m' /\
      oget cb m' o' i = Ok x /\
      oget cb m' o (origin_index ops i) = Ok x /\
      (forall a, a <> oaddr o (origin_index ops i) -> rd m' a = rd m a).
Proof.
  intros V cb m o o' ops i x Hb H Hi. pose proof (base_good m o Hb) as Hg.
  pose proof (good_chain cb ops m o o' Hg H) as Hg'.
  destruct Hg as (Hwt & Hin0 & _). destruct (apply_ops_spec _ _ _ _ Hwt H) as (_ & Hor & _).
  destruct (Hor i Hi) as [Hr Ha]. destruct Hg' as (_ & Hin & _). destruct (Hin i Hi) as [w Hw].
  destruct (store_ok m (oaddr o' i) x w Hw) as (m' & Hs & Hrd & Hsc & Hu).
  exists m'.
  assert (G : forall p k, in_range p k -> rd m' (oaddr p k) = Some x -> oget cb m' p k = Ok x).
  { intros [v|a] [k1 k2] Hk Hx; cbn in *; [apply vget_ok|apply mget_ok]; tauto. }
  split; [|split; [|split]].
  - destruct o' as [v|a]; cbn in *; [rewrite vset_ok|rewrite mset_ok]; tauto.
  - apply G; auto.
  - apply G; auto. rewrite <- Ha. exact Hrd.
  - intros a Hne. apply Hu. rewrite Ha. auto.
Qed.
Print Assumptions C03_write_through_view.
Example C03_nonvac :
  exists o' m', apply_ops true [Transpose; Diag] (OM mat0) = Ok o' /\ in_range o' (2, 0) /\
    oset true mem0 o' (2, 0) 99 = Ok m' /\ rd m' (0%nat, 10) = Some 99.
Proof. eexists. eexists. split; [reflexivity|]. split; [cbn; lia|]. split; reflexivity. Qed.

(** ** C04 *)
Theorem C04_transpose_involution :
  forall m, well_typed (OM m) -> mT (mT m) = m.
Proof.
  intros [R C b o r c rs cs] (HR & HC & Hr & Hc). unfold mT; cbn in *.
  repeat first [rewrite (slice_size_ok R r HR) | rewrite (slice_size_ok C c HC)]. reflexivity.
Qed.
Print Assumptions C04_transpose_involution.
Theorem C04_same_element :
  forall cb m r c row col, well_typed (OM m) ->
    mrow cb m r = Ok row -> mrow cb (mT m) c = Ok col ->
    vaddr row c = maddr m r c /\ maddr (mT m) c r = maddr m r c /\ vaddr col r = maddr m r c /\
    vn row = mc m /\ vn col = mr m.
Proof.
  intros cb m r c row col (HR & HC & _) H1 H2. unfold mrow in *.
  destruct ((0 <=? r) && (r <? mr m)); [|destruct cb; discriminate]. injection H1 as <-.
  destruct ((0 <=? c) && (c <? mr (mT m))); [|destruct cb; discriminate]. injection H2 as <-.
  unfold mT, vaddr, maddr; cbn.
  repeat first [rewrite (slice_size_ok _ _ HR) | rewrite (slice_size_ok _ _ HC)].
  repeat split; f_equal; ring.
Qed.
Print Assumptions C04_same_element.
Theorem C04_slice_of_slice :
  forall v a n b k w x, well_typed (OV v) -> vn v <= INT_MAX ->
    vslice v a n = Ok w -> vslice w b k = Ok x -> vslice v (a + b) k = Ok x.
Proof.
  intros v a n b k w x [HS Hn] Hm H1 H2. pose proof H1 as H1'. unfold vslice in H1, H2.
  apply vslice_t_spec in H1 as (-> & A1 & A2 & A3); auto.
  apply vslice_t_spec in H2 as (-> & B1 & B2 & B3); cbn; auto.
  change (pick Dynamic a) with a in *. change (pick Dynamic n) with n in *.
  change (pick Dynamic b) with b in *. change (pick Dynamic k) with k in *. cbn in *.
  rewrite vslice_win; auto; try lia.
  - unfold win. do 2 f_equal. ring.
  - destruct HS as [E|E]; [right; exact E|].
    destruct (Z.eq_dec (vn v) 0) as [E0|E0]; [|left; lia].
    exfalso. unfold vslice, vslice_t in H1'. apply bind_check in H1' as [Hc _].
    unfold check_slice, bad_slice, is_dyn, Dynamic, Resizable in Hc. rewrite E, E0 in Hc. discriminate.
Qed.
Print Assumptions C04_slice_of_slice.
Theorem C04_diagonal_row_col :
  forall m v, well_typed (OM m) -> well_typed (OV v) ->
    (vn (mdiag m) = Z.min (mr m) (mc m) /\ forall i, vaddr (mdiag m) i = maddr m i i) /\
    (mr (as_row v) = 1 /\ mc (as_row v) = vn v /\ forall i, maddr (as_row v) 0 i = vaddr v i) /\
    (mr (as_col v) = vn v /\ mc (as_col v) = 1 /\ forall i, maddr (as_col v) i 0 = vaddr v i).
Proof.
  intros m v Hm Hv.
  pose proof (apply_op_spec false Diag (OM m) _ Hm eq_refl) as (_ & HD & _).
  cbn in HD. injection HD as HD. destruct Hv as [HS Hn].
  repeat split; auto; try (intros i; unfold vaddr, maddr, mdiag, as_row, as_col; cbn; f_equal; ring);
    unfold as_row, as_col; cbn; apply slice_size_ok; exact HS.
Qed.
Print Assumptions C04_diagonal_row_col.
Example C04_nonvac : well_typed (OM mat0) /\ well_typed (OV vec0) /\ vn vec0 <= INT_MAX /\
  (exists w x, vslice vec0 1 4 = Ok w /\ vslice w 2 1 = Ok x) /\
  (exists row col, mrow true mat0 2 = Ok row /\ mrow true (mT mat0) 3 = Ok col).
Proof.
  unfold INT_MAX; cbn. repeat split; auto; try lia.
  - do 2 eexists. split; reflexivity.
  - do 2 eexists. split; reflexivity.
Qed.

(** ** C05 *)
Theorem C05_layout :
  forall R C blk off r c,
    (forall i j, maddr (base_rowmajor R C blk off r c) i j = (blk, off + (i * c + j))) /\
    (forall i j, maddr (base_colmajor R C blk off r c) i j = (blk, off + (j * r + i))).
Proof. intros; split; intros; unfold maddr; cbn; do 2 f_equal; ring. Qed.
Print Assumptions C05_layout.
Theorem C05_layout_bijection :
  forall R C blk off r c, 0 <= r -> 0 <= c ->
    (forall k, 0 <= k < r * c ->
       exists! i : idx, in_range (OM (base_rowmajor R C blk off r c)) i /\
                        oaddr (OM (base_rowmajor R C blk off r c)) i = (blk, off + k)) /\
    (forall k, 0 <= k < r * c ->
       exists! i : idx, in_range (OM (base_colmajor R C blk off r c)) i /\
                        oaddr (OM (base_colmajor R C blk off r c)) i = (blk, off + k)) /\
    (forall i, in_range (OM (base_rowmajor R C blk off r c)) i ->
       exists k, 0 <= k < r * c /\ oaddr (OM (base_rowmajor R C blk off r c)) i = (blk, off + k)) /\
    (forall i, in_range (OM (base_colmajor R C blk off r c)) i ->
       exists k, 0 <= k < r * c /\ oaddr (OM (base_colmajor R C blk off r c)) i = (blk, off + k)).
Proof.
  intros R C blk off r c Hr Hc. split; [|split; [|split]].
  - intros k Hk. assert (0 < c) by nia. exists (k / c, k mod c).
    unfold in_range, oaddr; cbn [fst snd mr mc base_rowmajor].
    pose proof (Z.div_mod k c ltac:(lia)). pose proof (Z.mod_pos_bound k c ltac:(lia)).
    split; [split; [split; [split; [apply Z.div_pos; lia|apply Z.div_lt_upper_bound; nia]|exact H1]|]|]; cbn [fst snd].
    + unfold maddr; cbn [mblk moff mrs mcs base_rowmajor base_colmajor]. f_equal. lia.
    + intros [i1 i2] [[Ha Hb] E]. cbn [fst snd] in *. unfold maddr in E; cbn [mblk moff mrs mcs base_rowmajor base_colmajor] in E. injection E as E.
      destruct (lin_inj c i1 i2 (k / c) (k mod c)); [lia|lia|lia|congruence].
  - intros k Hk. assert (0 < r) by nia. exists (k mod r, k / r).
    unfold in_range, oaddr; cbn [fst snd mr mc base_colmajor].
    pose proof (Z.div_mod k r ltac:(lia)). pose proof (Z.mod_pos_bound k r ltac:(lia)).
    split; [split; [split; [exact H1|split; [apply Z.div_pos; lia|apply Z.div_lt_upper_bound; nia]]|]|]; cbn [fst snd].
    + unfold maddr; cbn [mblk moff mrs mcs base_rowmajor base_colmajor]. f_equal. lia.
    + intros [i1 i2] [[Ha Hb] E]. cbn [fst snd] in *. unfold maddr in E; cbn [mblk moff mrs mcs base_rowmajor base_colmajor] in E. injection E as E.
      destruct (lin_inj r i2 i1 (k / r) (k mod r)); [lia|lia|lia|congruence].
  - intros [i1 i2]; cbn. intros [H1 H2]. exists (i1 * c + i2). split; [nia|]. unfold maddr; cbn. f_equal; ring.
  - intros [i1 i2]; cbn. intros [H1 H2]. exists (i2 * r + i1). split; [nia|]. unfold maddr; cbn. f_equal; ring.
Qed.
Print Assumptions C05_layout_bijection.
Example C05_nonvac : exists k, 0 <= k < 3 * 4 /\ maddr mat0 2 3 = (0%nat, 0 + k).
Proof. exists 11. split; [lia|reflexivity]. Qed.

(** ** C06 *)
Theorem C06_vector_assign :
  forall (V : Type) (cb : bool) (m : mem V) (dst src : vview),
    good m (OV dst) -> good m (OV src) -> vn dst = vn src -> disjoint (OV dst) (OV src) ->
    exists m', vassign cb dst src m = Ok m' /\
      (forall i, 0 <= i < vn dst -> rd m' (vaddr dst i) = rd m (vaddr src i)) /\
      (forall a, ~ element_of a (OV dst) -> rd m' a = rd m a) /\
      (forall i, 0 <= i < vn src -> rd m' (vaddr src i) = rd m (vaddr src i)).
Proof.
  intros V cb m dst src Hd Hs Hn Hdis.
  destruct (vassign_spec cb m dst src Hd Hs Hn) as (m' & Hm & Hv & Hu).
  - intros i j Hj Hi. apply (Hdis (j, 0) (i, 0)); cbn; lia.
  - exists m'. split; [exact Hm|]. split; [|split].
    + intros i Hi. apply (Hv (i, 0)). cbn; lia.
    + apply Hu.
    + intros i Hi. apply Hu. intros ([j1 j2] & Hj & E). apply (Hdis (j1, j2) (i, 0)) in Hj; [|cbn; lia]. apply Hj. symmetry; exact E.
Qed.
Print Assumptions C06_vector_assign.
Theorem C06_matrix_assign :
  forall (V : Type) (cb : bool) (m : mem V) (dst src : mview),
    good m (OM dst) -> good m (OM src) -> mr dst = mr src -> mc dst = mc src -> disjoint (OM dst) (OM src) ->
    exists m', massign cb dst src m = Ok m' /\
      (forall r c, 0 <= r < mr dst -> 0 <= c < mc dst -> rd m' (maddr dst r c) = rd m (maddr src r c)) /\
      (forall a, ~ element_of a (OM dst) -> rd m' a = rd m a).
Proof.
  intros V cb m dst src Hd Hs Hr Hc Hdis.
  destruct (massign_spec cb m dst src Hd Hs Hr Hc) as (m' & Hm & Hv & Hu).
  - intros i j Hi Hj _. apply Hdis; auto. destruct i; cbn in *. lia.
  - exists m'. split; [exact Hm|]. split.
    + intros r c H1 H2. apply (Hv (r, c)). cbn; lia.
    + apply Hu.
Qed.
Print Assumptions C06_matrix_assign.
Theorem C06_assign_mismatch_stops :
  forall (V : Type) (cb : bool) (m : mem V),
    (forall dst src, well_typed (OV dst) -> well_typed (OV src) -> vn dst <> vn src ->
       vassign cb dst src m = CompileError \/ vassign cb dst src m = Abort DSizeMismatch) /\
    (forall dst src, well_typed (OM dst) -> well_typed (OM src) -> (mr dst <> mr src \/ mc dst <> mc src) ->
       massign cb dst src m = CompileError \/ massign cb dst src m = Abort DSizeMismatch).
Proof. intros V cb m; split; [exact (vassign_mismatch cb m)|exact (massign_mismatch cb m)]. Qed.
Print Assumptions C06_assign_mismatch_stops.
Example C06_nonvac : exists dst, mrow false mat0 1 = Ok dst /\ good mem0 (OV dst) /\
  good mem0 (OV (win vec0 1 4)) /\ vn dst = 4 /\ disjoint (OV dst) (OV (win vec0 1 4)).
Proof.
  eexists. split; [reflexivity|]. split; [|split; [|split]].
  - eapply (good_chain false [Row 1] mem0 (OM mat0)); [apply base_good, mat0_base|reflexivity].
  - apply good_win; [apply base_good, vec0_base|lia|lia|cbn; lia].
  - reflexivity.
  - intros i j _ _ E. inversion E.
Qed.
(** Elementwise compound assignment, also with dst and src the same object (v += v). *)
Theorem C06_compound_assign :
  forall (V : Type) (f : V -> V -> V) (cb : bool) (m : mem V) (dst src : vview),
    good m (OV dst) -> good m (OV src) -> vn dst = vn src ->
    (disjoint (OV dst) (OV src) \/ dst = src) ->
    exists m', vcompound f cb dst src m = Ok m' /\
      (forall i, 0 <= i < vn dst -> exists x y, rd m (vaddr dst i) = Some x /\ rd m (vaddr src i) = Some y /\
                 rd m' (vaddr dst i) = Some (f x y)) /\
      (forall a, ~ element_of a (OV dst) -> rd m' a = rd m a).
Proof.
  intros V f cb m dst src Hd Hs Hn Hdis.
  destruct (vcompound_spec f cb m dst src Hd Hs Hn) as (m' & Hm & Hv & Hu).
  - intros i j Hj Hi. destruct Hdis as [Hdis| ->].
    + apply (Hdis (j, 0) (i, 0)); cbn; lia.
    + intros E. apply (vaddr_inj m src) in E; auto; lia.
  - exists m'. split; [exact Hm|]. split; [|apply Hu].
    intros i Hi. destruct Hd as (_ & Hin & _). destruct Hs as (_ & Hin' & _).
    destruct (Hin (i, 0)) as [x Hx]; [cbn; lia|]. destruct (Hin' (i, 0)) as [y Hy]; [cbn; lia|].
    specialize (Hv (i, 0)). unfold value_at in Hv. rewrite Hx, Hy in Hv. exists x, y. split; [exact Hx|]. split; [exact Hy|].
    apply Hv. cbn; lia.
Qed.
Print Assumptions C06_compound_assign.

(** ** C07 *)
Theorem C07_overlap_partial :
  (* destination at or before the source: behaves as if the source was copied first.
     Missing: destination after the source, where the claim is false (next theorems). *)
  forall (V : Type) (cb : bool) (m : mem V) (v : vview) (a b n : Z),
    good m (OV v) -> 0 <= a <= b -> 0 <= n -> b + n <= vn v ->
    exists m', vassign cb (win v a n) (win v b n) m = Ok m' /\
      (forall i, 0 <= i < n -> rd m' (vaddr v (a + i)) = rd m (vaddr v (b + i))) /\
      (forall j, 0 <= j < vn v -> ~ (a <= j < a + n) -> rd m' (vaddr v j) = rd m (vaddr v j)).
Proof. intros; apply overlap_left; assumption. Qed.
Print Assumptions C07_overlap_partial.
(** [win v a n] is what v.slice(a,n) returns. *)
Theorem C07_win_is_slice :
  forall v a n, well_typed (OV v) -> (0 < vn v \/ vS v = -1) -> 0 <= a -> 0 <= n -> a + n <= vn v -> vn v <= INT_MAX ->
    vslice v a n = Ok (win v a n).
Proof. intros v a n [HS _]. apply vslice_win. exact HS. Qed.
Print Assumptions C07_win_is_slice.
(** What really happens when the destination starts after the source. *)
Theorem C07_overlap_right_smears :
  forall (V : Type) (cb : bool) (m : mem V) (v : vview) (a b n : Z),
    good m (OV v) -> 0 <= b < a -> 0 <= n -> a + n <= vn v ->
    exists m', vassign cb (win v a n) (win v b n) m = Ok m' /\
      (forall i, 0 <= i < n -> rd m' (vaddr v (a + i)) = rd m (vaddr v (b + i mod (a - b)))) /\
      (forall j, 0 <= j < vn v -> ~ (a <= j < a + n) -> rd m' (vaddr v j) = rd m (vaddr v j)).
Proof. intros; apply overlap_right; assumption. Qed.
Print Assumptions C07_overlap_right_smears.
Theorem C07_overlap_refuted :
  exists (m m' : mem Z) (v d s : vview), good m (OV v) /\ vslice v 1 4 = Ok d /\ vslice v 0 4 = Ok s /\
    vassign false d s m = Ok m' /\ exists i, 0 <= i < 4 /\ rd m' (vaddr d i) <> rd m (vaddr s i).
Proof.
  exists mem0. eexists. exists vec0. do 2 eexists. split; [apply base_good, vec0_base|].
  split; [reflexivity|]. split; [reflexivity|]. split; [vm_compute; reflexivity|].
  exists 1. split; [lia|]. vm_compute. discriminate.
Qed.
Print Assumptions C07_overlap_refuted.

(** ** C08 *)
Theorem C08_transpose_assign_refuted :
  exists (m m' : mem Z) (a : mview), base_object m (OM a) /\ mr a = mc a /\
    massign false a (mT a) m = Ok m' /\
    exists r c, 0 <= r < mr a /\ 0 <= c < mc a /\ rd m' (maddr a r c) <> rd m (maddr a c r).
Proof.
  exists [[1;2;3;4]]. eexists. exists (base_rowmajor 2 2 0 0 2 2). split.
  { apply BO_row; try lia. split; [lia|]. eexists. split; [reflexivity|]. cbn. lia. }
  split; [reflexivity|]. split; [vm_compute; reflexivity|]. exists 1, 0. vm_compute. repeat split; discriminate.
Qed.
Print Assumptions C08_transpose_assign_refuted.
(** Exactly: the lower triangle is mirrored into the upper one, so the transpose is obtained
    iff the old matrix was symmetric. *)
Theorem C08_transpose_assign_partial :
  forall (V : Type) (cb : bool) (m : mem V) (a : mview), good m (OM a) -> mr a = mc a ->
    exists m', massign cb a (mT a) m = Ok m' /\
      (forall r c, 0 <= r < mr a -> 0 <= c < mc a ->
         rd m' (maddr a r c) = rd m (maddr a (Z.max r c) (Z.min r c))) /\
      (forall x, ~ element_of x (OM a) -> rd m' x = rd m x) /\
      ((forall r c, 0 <= r < mr a -> 0 <= c < mc a -> rd m (maddr a r c) = rd m (maddr a c r)) ->
       forall r c, 0 <= r < mr a -> 0 <= c < mc a -> rd m' (maddr a r c) = rd m (maddr a c r)).
Proof.
  intros V cb m a Hg Hsq. destruct (transpose_assign cb m a Hg Hsq) as (m' & Hm & Hv & Hu).
  exists m'. split; [exact Hm|]. split; [exact Hv|]. split; [apply Hu|].
  intros Hsym r c Hr Hc. rewrite Hv by assumption.
  destruct (Z_le_gt_dec r c) as [H|H].
  - replace (Z.max r c) with c by lia. replace (Z.min r c) with r by lia. reflexivity.
  - replace (Z.max r c) with r by lia. replace (Z.min r c) with c by lia. apply Hsym; lia.
Qed.
Print Assumptions C08_transpose_assign_partial.
Example C08_nonvac : good [[1;2;3;4]] (OM (base_rowmajor 2 2 0 0 2 2)).
Proof. apply base_good, BO_row; try lia. split; [lia|]. eexists. split; [reflexivity|]. cbn. lia. Qed.

(** ** C09 *)
Theorem C09_size_mismatch_exact :
  forall S1 S2 s1 s2,
    (S1 = Dynamic \/ S1 = Resizable \/ S1 = s1) -> (S2 = Dynamic \/ S2 = Resizable \/ S2 = s2) ->
    0 <= s1 -> 0 <= s2 ->
    (s1 = s2 -> size_mismatch S1 S2 s1 s2 = Ok tt) /\
    (s1 <> s2 -> (is_static S1 = true /\ is_static S2 = true /\ size_mismatch S1 S2 s1 s2 = CompileError)
              \/ ((is_static S1 && is_static S2) = false /\ size_mismatch S1 S2 s1 s2 = Abort DSizeMismatch)).
Proof. exact size_mismatch_exact. Qed.
Print Assumptions C09_size_mismatch_exact.
Theorem C09_result_size :
  forall S1 S2 s1 s2,
    template_arg S1 \/ S1 = Resizable -> template_arg S2 \/ S2 = Resizable ->
    (S1 = Dynamic \/ S1 = Resizable \/ S1 = s1) -> (S2 = Dynamic \/ S2 = Resizable \/ S2 = s2) ->
    size_mismatch S1 S2 s1 s2 = Ok tt ->
    (is_static (sizer S1 S2) = is_static S1 || is_static S2) /\ sizer S1 S2 <> Resizable /\
    (is_static (sizer S1 S2) = true -> sizer S1 S2 = s1 /\ sizer S1 S2 = s2).
Proof.
  intros S1 S2 s1 s2 T1 T2 H1 H2 Hok. apply size_mismatch_ok_inv in Hok as Heq; auto. subst s2.
  destruct (sizer_spec S1 S2 T1 T2) as (A & B & C). split; [exact A|]. split; [exact B|].
  intros Hst. destruct (C Hst) as [[Hs ->]|[Hs ->]]; unfold is_static, Dynamic, Resizable in *; lia.
Qed.
Print Assumptions C09_result_size.
Example C09_nonvac : size_mismatch 3 Dynamic 3 3 = Ok tt /\ size_mismatch Resizable 3 4 3 = Abort DSizeMismatch
  /\ size_mismatch 3 4 3 4 = CompileError /\ sizer 3 Resizable = 3 /\ sizer Resizable Dynamic = Dynamic.
Proof. repeat split. Qed.

(** ** C10 *)
Theorem C10_swap_exchanges :
  forall (V : Type) (cb : bool) (m : mem V) (v1 v2 : vview),
    good m (OV v1) -> good m (OV v2) -> vn v1 = vn v2 -> disjoint (OV v1) (OV v2) ->
    exists m', vswap cb v1 v2 m = Ok m' /\
      (forall i, 0 <= i < vn v1 -> rd m' (vaddr v1 i) = rd m (vaddr v2 i) /\ rd m' (vaddr v2 i) = rd m (vaddr v1 i)) /\
      (forall a, ~ element_of a (OV v1) -> ~ element_of a (OV v2) -> rd m' a = rd m a).
Proof.
  intros V cb m v1 v2 H1 H2 Hn Hd. destruct (vswap_spec cb m v1 v2 H1 H2 Hn Hd) as (m' & Hm & A & B & C).
  exists m'. split; [exact Hm|]. split.
  - intros i Hi. split; [apply (A (i, 0))|apply (B (i, 0))]; cbn; lia.
  - intros a N1 N2. apply C. tauto.
Qed.
Print Assumptions C10_swap_exchanges.
Theorem C10_swap_twice :
  forall (V : Type) (cb : bool) (m : mem V) (v1 v2 : vview),
    good m (OV v1) -> good m (OV v2) -> vn v1 = vn v2 -> disjoint (OV v1) (OV v2) ->
    exists m1 m2, vswap cb v1 v2 m = Ok m1 /\ vswap cb v1 v2 m1 = Ok m2 /\ forall a, rd m2 a = rd m a.
Proof.
  intros V cb m v1 v2 H1 H2 Hn Hd. destruct (vswap_spec cb m v1 v2 H1 H2 Hn Hd) as (m1 & Hm & A & B & Cc & C).
  assert (G : forall o, good m o -> good m1 o).
  { intros o (W & I & N). split; [exact W|]. split; [|exact N]. eapply in_mem_same_cells; eauto. }
  destruct (vswap_spec cb m1 v1 v2 (G _ H1) (G _ H2) Hn Hd) as (m2 & Hm2 & A2 & B2 & Cc2 & C2).
  exists m1, m2. split; [exact Hm|]. split; [exact Hm2|]. intros a.
  assert (D : forall v, (exists i, in_range (OV v) (i, 0) /\ a = vaddr v i) \/ ~ element_of a (OV v)).
  { intros v. destruct (vn v) as [|p|p] eqn:E.
    - right. intros ([i1 i2] & [Hi _] & _). cbn in Hi. lia.
    - assert (Q : forall k, (exists i, 0 <= i < Z.of_nat k /\ a = vaddr v i) \/ (forall i, 0 <= i < Z.of_nat k -> a <> vaddr v i)).
      { induction k as [|k IH]; [right; intros; lia|]. destruct IH as [(i & Hi & Ha)|IH].
        - left. exists i. split; [lia|exact Ha].
        - destruct (addr_eq_dec a (vaddr v (Z.of_nat k))) as [Ea|Ea].
          + left. exists (Z.of_nat k). split; [lia|exact Ea].
          + right. intros i Hi. destruct (Z.eq_dec i (Z.of_nat k)) as [->|]; [exact Ea|apply IH; lia]. }
      destruct (Q (Z.to_nat (vn v))) as [(i & Hi & Ha)|Hno].
      + left. exists i. split; [cbn; lia|exact Ha].
      + right. intros ([i1 i2] & [Hi _] & Ha). apply (Hno i1); [cbn in Hi; lia|exact Ha].
    - right. intros ([i1 i2] & [Hi _] & _). cbn in Hi. lia. }
  unfold value_at in *. cbn [oaddr fst] in *.
  destruct (D v1) as [(i & Hi & ->)|N1].
  - specialize (A2 (i, 0) Hi). cbn [fst] in A2. rewrite A2. apply (B (i, 0)). cbn in *; lia.
  - destruct (D v2) as [(i & Hi & ->)|N2].
    + specialize (B2 (i, 0) Hi). cbn [fst] in B2. rewrite B2. apply (A (i, 0)). cbn in *; lia.
    + rewrite C2 by tauto. apply C. tauto.
Qed.
Print Assumptions C10_swap_twice.
Theorem C10_swap_mismatch_stops :
  forall (V : Type) cb (m : mem V) v1 v2, well_typed (OV v1) -> well_typed (OV v2) -> vn v1 <> vn v2 ->
    vswap cb v1 v2 m = CompileError \/ vswap cb v1 v2 m = Abort DSizeMismatch.
Proof. intros V cb m v1 v2. exact (vswap_mismatch cb m v1 v2). Qed.
Print Assumptions C10_swap_mismatch_stops.
Example C10_nonvac : good mem0 (OV (win vec0 0 2)) /\ good mem0 (OV (win vec0 3 2)) /\
  disjoint (OV (win vec0 0 2)) (OV (win vec0 3 2)).
Proof.
  split; [apply good_win; [apply base_good, vec0_base|lia|lia|cbn; lia]|].
  split; [apply good_win; [apply base_good, vec0_base|lia|lia|cbn; lia]|].
  intros [i1 i2] [j1 j2]. unfold in_range, oaddr. cbn [fst snd vn win]. intros Hi Hj E.
  unfold vaddr in E. cbn [vblk voff vst win vec0 base_vec] in E.
  assert (H : snd (0%nat, 0) = 0) by reflexivity. apply (f_equal snd) in E. cbn [snd] in E. lia.
Qed.

(** ** C14: every view of a Resizable vector claims Resizable = -0x7fffffff elements *)
Theorem C14_resizable_view_size_refuted :
  forall v, vS v = Resizable ->
    vn (as_slice v) = -2147483647 /\ mc (as_row v) = -2147483647 /\ mr (as_col v) = -2147483647.
Proof. intros v H. unfold as_slice, as_row, as_col, slice_size; cbn. rewrite H. repeat split. Qed.
Print Assumptions C14_resizable_view_size_refuted.
(** Consequence: an in-place scalar operation through as_slice() (as normalize does,
    helpers.h:162-175) changes nothing, for every Resizable vector. *)
Theorem C14_resizable_normalize_noop_refuted :
  forall (V : Type) (f : V -> V) cb (m : mem V) v, vS v = Resizable ->
    vcompound_scalar f cb (as_slice v) m = Ok m.
Proof. intros V f cb m v H. unfold vcompound_scalar, as_slice, slice_size; cbn. rewrite H. reflexivity. Qed.
Print Assumptions C14_resizable_normalize_noop_refuted.
(** What does hold: for static and Dynamic vectors the sizes are right. *)
Theorem C14_view_size_partial :
  forall v, well_typed (OV v) ->
    vn (as_slice v) = vn v /\ mc (as_row v) = vn v /\ mr (as_col v) = vn v.
Proof. intros v [HS Hn]. unfold as_slice, as_row, as_col; cbn. rewrite (slice_size_ok _ _ HS). auto. Qed.
Print Assumptions C14_view_size_partial.

(** ** C15 *)
Theorem C15_bounds_check_vector :
  forall (V : Type) (m : mem V) v i, good m (OV v) ->
    (vget true m v i = Abort DIndex <-> ~ (0 <= i < vn v)) /\
    (forall cb, 0 <= i < vn v -> exists x, rd m (vaddr v i) = Some x /\ vget cb m v i = Ok x) /\
    (forall x, vset true m v i x = Abort DIndex <-> ~ (0 <= i < vn v)) /\
    vget true m v i <> UB /\ (forall x, vset true m v i x <> UB).
Proof.
  intros V m v i (Hwt & Hin & Hna).
  assert (R : forall cb, 0 <= i < vn v -> exists x, rd m (vaddr v i) = Some x /\ vget cb m v i = Ok x).
  { intros cb Hi. destruct (Hin (i, 0)) as [x Hx]; [cbn; lia|]. exists x. split; [exact Hx|]. apply vget_ok; auto. }
  assert (N : ~ (0 <= i < vn v) -> check_index true (vn v) i = Abort DIndex).
  { intros H. unfold check_index. replace ((i <? 0) || (vn v <=? i)) with true by lia. reflexivity. }
  assert (D : 0 <= i < vn v \/ ~ (0 <= i < vn v)) by lia.
  split; [|split; [exact R|split; [|split]]].
  - split; [|intros H; unfold vget; rewrite (N H); reflexivity].
    intros H Hi. destruct (R true Hi) as (x & _ & E). congruence.
  - intros x. split; [|intros H; unfold vset; rewrite (N H); reflexivity].
    intros H Hi. rewrite vset_ok in H by exact Hi. destruct (R true Hi) as (y & Hy & _). unfold store in H. rewrite Hy in H. discriminate.
  - destruct D as [Hi|Hi]; [destruct (R true Hi) as (x & _ & E); congruence|unfold vget; rewrite (N Hi); discriminate].
  - intros x. destruct D as [Hi|Hi]; [|unfold vset; rewrite (N Hi); discriminate].
    rewrite vset_ok by exact Hi. destruct (R true Hi) as (y & Hy & _). unfold store. rewrite Hy. discriminate.
Qed.
Print Assumptions C15_bounds_check_vector.
Theorem C15_bounds_check_matrix :
  forall (V : Type) (m : mem V) a r c, good m (OM a) ->
    (mget true m a r c = Abort DIndex <-> ~ (0 <= r < mr a /\ 0 <= c < mc a)) /\
    (forall cb, 0 <= r < mr a -> 0 <= c < mc a -> exists x, rd m (maddr a r c) = Some x /\ mget cb m a r c = Ok x) /\
    mget true m a r c <> UB /\
    (* M[r][c]: row access then element access *)
    ((row <- mrow true a r ;; vget true m row c)%outcome = mget true m a r c) /\
    (forall x, mset true m a r c x = Abort DIndex <-> ~ (0 <= r < mr a /\ 0 <= c < mc a)).
Proof.
  intros V m a r c (Hwt & Hin & Hna).
  assert (R : forall cb, 0 <= r < mr a -> 0 <= c < mc a -> exists x, rd m (maddr a r c) = Some x /\ mget cb m a r c = Ok x).
  { intros cb Hr Hc. destruct (Hin (r, c)) as [x Hx]; [cbn; lia|]. exists x. split; [exact Hx|]. apply mget_ok; auto. }
  assert (N : ~ (0 <= r < mr a /\ 0 <= c < mc a) -> mget true m a r c = Abort DIndex /\ forall x, mset true m a r c x = Abort DIndex).
  { intros H. unfold mget, mset, check_index. cbn [andb].
    destruct ((r <? 0) || (mr a <=? r)) eqn:E; cbn; [auto|].
    replace ((c <? 0) || (mc a <=? c)) with true by lia. auto. }
  assert (D : (0 <= r < mr a /\ 0 <= c < mc a) \/ ~ (0 <= r < mr a /\ 0 <= c < mc a)) by lia.
  split; [|split; [exact R|split; [|split]]].
  - split; [|intros H; apply N; exact H]. intros H [H1 H2]. destruct (R true H1 H2) as (x & _ & E). congruence.
  - destruct D as [[H1 H2]|H]; [destruct (R true H1 H2) as (x & _ & E)|destruct (N H) as [E _]]; congruence.
  - destruct Hwt as (HR & HC & Hr0 & Hc0). unfold mrow, mget, check_index. cbn [andb].
    destruct ((0 <=? r) && (r <? mr a)) eqn:E.
    + replace ((r <? 0) || (mr a <=? r)) with false by lia. cbn [bind]. unfold vget, check_index. cbn [vn andb].
      rewrite (slice_size_ok _ _ HC). destruct ((c <? 0) || (mc a <=? c)); cbn; [reflexivity|].
      f_equal. unfold vaddr, maddr; cbn. f_equal; ring.
    + replace ((r <? 0) || (mr a <=? r)) with true by lia. reflexivity.
  - intros x. split; [|intros H; apply N; exact H]. intros H [H1 H2]. rewrite mset_ok in H by assumption.
    destruct (R true H1 H2) as (y & Hy & _). unfold store in H. rewrite Hy in H. discriminate.
Qed.
Print Assumptions C15_bounds_check_matrix.
Example C15_nonvac : good mem0 (OM mat0) /\ mget true mem0 mat0 2 3 = Ok 11 /\ mget true mem0 mat0 0 4 = Abort DIndex
  /\ mget false mem0 mat0 0 4 = Ok 4 (* unchecked build: silently another element *).
Proof. split; [apply base_good, mat0_base|]. repeat split. Qed.
