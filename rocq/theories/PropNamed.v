(** * C90: vectors with named elements; vectors over planar complex data. *)
From Coq Require Import ZArith Bool List Lia ZifyBool Arith.
From Verif Require Import Base ModelSize ModelView ModelNamed SpecSize SpecView LemSize LemView LemAssign PropView.
Import ListNotations.
Open Scope Z_scope.

Lemma position_nth : forall names x k, position x names = Some k -> nth_error names k = Some x.
Proof.
  induction names as [|y t IH]; cbn [position]; intros x k H; [discriminate|]. destruct (Nat.eqb_spec x y) as [->|N].
  - injection H as <-. reflexivity.
  - destruct (position x t) as [j|] eqn:E; [|discriminate]. injection H as <-. cbn. apply IH. exact E.
Qed.
Lemma position_none : forall names x, position x names = None -> ~ In x names.
Proof.
  induction names as [|y t IH]; cbn [position]; intros x H; [intros []|]. destruct (Nat.eqb_spec x y) as [E0|N]; [discriminate|].
  destruct (position x t) as [j|] eqn:E; [discriminate|]. intros [G|G]; [congruence|]. exact (IH x E G).
Qed.
Lemma has_dup_spec : forall names, has_dup names = false <-> NoDup names.
Proof.
  induction names as [|y t IH]; cbn [has_dup]; [split; [constructor|reflexivity]|]. destruct (position y t) as [k|] eqn:E.
  - split; [discriminate|]. intros H. inversion H as [|? ? N]; subst. exfalso. apply N. eapply nth_error_In. apply position_nth. exact E.
  - rewrite IH. split; [intros H; constructor; [apply position_none; exact E|exact H]|]. intros H. inversion H; assumption.
Qed.
Lemma nth_position : forall names k x, NoDup names -> nth_error names k = Some x -> position x names = Some k.
Proof.
  intros names k x ND H. destruct (position x names) as [j|] eqn:E.
  - f_equal. pose proof (position_nth _ _ _ E) as G. apply (proj1 (NoDup_nth_error names) ND).
    + apply nth_error_Some. rewrite G. discriminate.
    + congruence.
  - exfalso. apply (position_none _ _ E). eapply nth_error_In. exact H.
Qed.
(** Which declarations compile: distinct names, at least one, and the size must be their number. *)
Theorem C90_declaration : forall names S blk off,
  (NoDup names /\ names <> [] /\ S = Z.of_nat (length names) -> named_vector names S blk off = Ok (base_vec S blk off S)) /\
  (~ (NoDup names /\ names <> [] /\ S = Z.of_nat (length names)) -> named_vector names S blk off = CompileError).
Proof.
  intros names S0 blk off. unfold named_vector. pose proof (has_dup_spec names) as HD. split.
  - intros (ND & NE & ->). rewrite (proj2 HD ND). destruct names; [congruence|]. rewrite Z.eqb_refl. reflexivity.
  - intros H. destruct (has_dup names) eqn:E; [reflexivity|]. destruct names as [|x t]; [reflexivity|]. destruct (Z.eqb_spec S0 (Z.of_nat (length (x :: t)))) as [->|]; [|reflexivity].
    exfalso. apply H. split; [apply HD; reflexivity|]. split; [discriminate|reflexivity].
Qed.
(** Member number i is element i, however the vector is viewed: after any chain of view operations,
    reading and writing an element of the view is reading and writing the member of that number,
    writing a member is seen by the view, and nothing else changes. *)
Theorem C90_named_members : forall (V : Type) cb (m : mem V) names S blk off v ops o' i x, named_vector names S blk off = Ok v -> block_has m blk off S ->
  apply_ops cb ops (OV v) = Ok o' -> in_range o' i -> nth_error names (Z.to_nat (fst (origin_index ops i))) = Some x ->
  (exists y, oget cb m o' i = Ok y /\ member_get m names v x = Ok y) /\
  (forall y, exists m', member_set m names v x y = Ok m' /\ oset cb m o' i y = Ok m' /\ oget cb m' o' i = Ok y /\ member_get m' names v x = Ok y /\
     (forall x', In x' names -> x' <> x -> member_get m' names v x' = member_get m names v x') /\ (forall a, a <> oaddr o' i -> rd m' a = rd m a)).
Proof.
  intros V cb m names S0 blk off v ops o' i x HN HB HA Hi HX.
  assert (K : NoDup names /\ names <> [] /\ S0 = Z.of_nat (length names) /\ v = base_vec S0 blk off S0).
  { unfold named_vector in HN. destruct (has_dup names) eqn:E; [discriminate|]. destruct names as [|n0 t]; [discriminate|].
    destruct (Z.eqb_spec S0 (Z.of_nat (length (n0 :: t)))) as [->|]; [|discriminate]. injection HN as <-. split; [apply has_dup_spec; exact E|]. split; [discriminate|]. split; reflexivity. }
  destruct K as (ND & NE & HS & ->). assert (HO : base_object m (OV (base_vec S0 blk off S0))) by (apply BO_vec; [right; reflexivity|lia|exact HB]).
  destruct (C02_view_chain_inside V cb m _ o' ops HO HA) as (CI & CE & _). destruct (CI i Hi) as (IR & EA). destruct (CE i Hi) as (w & RW).
  cbn [in_range base_vec vn] in IR. destruct IR as (IR & _). cbn [oaddr] in EA. unfold vaddr in EA. cbn [vblk voff vst base_vec] in EA.
  pose proof (nth_position _ _ _ ND HX) as PX. set (k := fst (origin_index ops i)) in *.
  assert (MA : member_addr names (base_vec S0 blk off S0) x = Ok (oaddr o' i)). { unfold member_addr. rewrite PX, EA. cbn [vblk voff base_vec]. do 2 f_equal. rewrite Z2Nat.id by lia. ring. }
  assert (G : forall (mm : mem V) y, rd mm (oaddr o' i) = Some y -> oget cb mm o' i = Ok y).
  { intros mm y Hy. clear - Hi Hy. destruct o' as [u|a], i as [i1 i2]; cbn in *; [apply vget_ok|apply mget_ok]; tauto. }
  split.
  - exists w. split; [apply G; exact RW|]. unfold member_get. rewrite MA. cbn [bind]. unfold load. rewrite RW. reflexivity.
  - intros y. destruct (store_ok m (oaddr o' i) y w RW) as (m' & ST & RD & _ & UN). exists m'. split; [unfold member_set; rewrite MA; exact ST|]. split; [|split; [apply G; exact RD|split; [|split]]].
    + clear - Hi ST. destruct o' as [u|a], i as [i1 i2]; cbn in *; [rewrite vset_ok|rewrite mset_ok]; tauto.
    + unfold member_get. rewrite MA. cbn [bind]. unfold load. rewrite RD. reflexivity.
    + intros x' Hx' Nx'. unfold member_get, member_addr. destruct (position x' names) as [j|] eqn:E; [|reflexivity]. cbn [bind]. unfold load. rewrite UN; [reflexivity|].
      rewrite EA. cbn [vblk voff base_vec]. intros Q. injection Q as Q. apply Nx'. apply position_nth in E. apply position_nth in PX. assert (j = Z.to_nat k) by lia. congruence.
    + intros a Ha. apply UN. congruence.
Qed.
(** The members are exactly the elements: every index below the size has a member. *)
Theorem C90_members_all : forall names S blk off v, named_vector names S blk off = Ok v ->
  vn v = Z.of_nat (length names) /\ forall i, 0 <= i < vn v -> exists x, nth_error names (Z.to_nat i) = Some x /\ member_addr names v x = Ok (vaddr v i).
Proof.
  intros names S0 blk off v HN. unfold named_vector in HN. destruct (has_dup names) eqn:E; [discriminate|]. apply has_dup_spec in E.
  assert (K : S0 = Z.of_nat (length names) /\ v = base_vec S0 blk off S0).
  { destruct names as [|n0 t]; [discriminate|]. destruct (Z.eqb_spec S0 (Z.of_nat (length (n0 :: t)))) as [->|]; [|discriminate]. injection HN as <-. split; reflexivity. }
  destruct K as (-> & ->). split; [reflexivity|]. cbn [vn base_vec]. intros i Hi. destruct (nth_error names (Z.to_nat i)) as [x|] eqn:X.
  - exists x. split; [reflexivity|]. unfold member_addr, vaddr. rewrite (nth_position _ _ _ E X). cbn [vblk voff vst base_vec]. do 2 f_equal. rewrite Z2Nat.id by lia. ring.
  - exfalso. apply nth_error_None in X. lia.
Qed.
(** CMYK *)
Example C90_cmyk : exists v o', named_vector [0;1;2;3]%nat 4 1 0 = Ok v /\ block_has mem0 1 0 4 /\ apply_ops true [Slice 1 3; AsCol] (OV v) = Ok o' /\ in_range o' (2, 0) /\
  nth_error [0;1;2;3]%nat (Z.to_nat (fst (origin_index [Slice 1 3; AsCol] (2, 0)))) = Some 3%nat /\ member_get mem0 [0;1;2;3]%nat v 3%nat = Ok 23 /\ named_vector [0;1;0]%nat 3 1 0 = CompileError.
Proof. eexists. eexists. split; [reflexivity|]. split; [split; [lia|]; eexists; split; [reflexivity|cbn; lia]|]. split; [reflexivity|]. split; [cbn; lia|]. repeat split; reflexivity. Qed.

(** ** Planar complex data *)
Definition re_view (p : pview) : vview := mkv (pS p) (fst (re (pdata p))) (snd (re (pdata p))) (pn p) (pst p).
Definition im_view (p : pview) : vview := mkv (pS p) (fst (im (pdata p))) (snd (im (pdata p))) (pn p) (pst p).
Lemma papply_views : forall q p p', papply q p = Ok p' -> apply_op true q (OV (re_view p)) = Ok (OV (re_view p')) /\ apply_op true q (OV (im_view p)) = Ok (OV (im_view p')).
Proof.
  assert (T : forall S0 L0 s l p p', pslice_t S0 L0 p s l = Ok p' -> vslice_t S0 L0 (re_view p) s l = Ok (re_view p') /\ vslice_t S0 L0 (im_view p) s l = Ok (im_view p')).
  { intros S0 L0 s l p p' H. unfold pslice_t in H. unfold vslice_t. cbn [re_view im_view vS vn]. destruct (check_slice (pS p) S0 L0 (pn p) s l); cbn [bind] in *; try discriminate.
    injection H as <-. split; reflexivity. }
  intros q p p' H. destruct q; cbn [papply] in H; try discriminate; cbn [apply_op].
  - destruct (T _ _ _ _ _ _ H) as (A & B). unfold vslice. rewrite A, B. split; reflexivity.
  - destruct (T _ _ _ _ _ _ H) as (A & B). rewrite A, B. split; reflexivity.
  - unfold vslice_static. cbn [re_view im_view vS]. destruct (check_slice_static (pS p) Start Length); cbn [bind] in *; try discriminate.
    destruct (T _ _ _ _ _ _ H) as (A & B). rewrite A, B. split; reflexivity.
  - injection H as <-. split; reflexivity.
Qed.
Lemma papply_all_views : forall qs p p', papply_all qs p = Ok p' -> apply_ops true qs (OV (re_view p)) = Ok (OV (re_view p')) /\ apply_ops true qs (OV (im_view p)) = Ok (OV (im_view p')).
Proof.
  induction qs as [|q t IH]; intros p p' H; cbn [papply_all apply_ops] in *; [injection H as <-; split; reflexivity|].
  destruct (papply q p) as [p1| | | | | ] eqn:E; cbn [bind] in H; try discriminate. destruct (papply_views _ _ _ E) as (A & B). destruct (IH _ _ H) as (A' & B').
  rewrite A, B. cbn [bind]. split; assumption.
Qed.
(** Element i of any chain of accepted slices of a vector over the arrays re and im (n elements each)
    is the complex number (re[k], im[k]) with the documented k, which lies inside both arrays. *)
Theorem C90_planar_read : forall (V : Type) cb (m : mem V) S b1 o1 b2 o2 n p qs p' i, (S = Dynamic \/ S = n) -> 0 <= n -> block_has m b1 o1 n -> block_has m b2 o2 n ->
  planar_new PDouble S (mkpp (b1, o1) (b2, o2)) n = Ok p -> papply_all qs p = Ok p' -> 0 <= i < pn p' ->
  let k := fst (origin_index qs (i, 0)) in
  0 <= k < n /\ exists x y, rd m (b1, o1 + k) = Some x /\ rd m (b2, o2 + k) = Some y /\ pget cb m p' i = Ok (x, y).
Proof.
  intros V cb m S0 b1 o1 b2 o2 n p qs p' i HS Hn B1 B2 HP HQ Hi k. injection HP as <-. destruct (papply_all_views _ _ _ HQ) as (VR & VI).
  assert (SZ : slice_size S0 n = n). { unfold slice_size. destruct (Z.eqb_spec S0 Dynamic); lia. }
  unfold re_view in VR at 1. unfold im_view in VI at 1. cbn [pS pdata pn pst re im fst snd] in VR, VI. rewrite SZ in VR, VI.
  assert (BR : base_object m (OV (base_vec S0 b1 o1 n))) by (apply BO_vec; [destruct HS; [left|right]; assumption|exact Hn|exact B1]).
  assert (BI : base_object m (OV (base_vec S0 b2 o2 n))) by (apply BO_vec; [destruct HS; [left|right]; assumption|exact Hn|exact B2]).
  destruct (C02_view_chain_inside V true m _ _ qs BR VR) as (CR & ER & _). destruct (C02_view_chain_inside V true m _ _ qs BI VI) as (CI & EI & _).
  assert (IR : in_range (OV (re_view p')) (i, 0)) by (cbn [in_range re_view vn fst snd]; lia). assert (II : in_range (OV (im_view p')) (i, 0)) by (cbn [in_range im_view vn fst snd]; lia).
  destruct (CR _ IR) as (KR & AR). destruct (CI _ II) as (_ & AI). destruct (ER _ IR) as (x & RX). destruct (EI _ II) as (y & RY). fold k in KR. cbn [in_range base_vec vn] in KR.
  split; [tauto|]. exists x, y. rewrite AR in RX. rewrite AI in RY. cbn [oaddr] in *. unfold vaddr in *. cbn [vblk voff vst base_vec fst snd re_view im_view] in *. rewrite Z.mul_1_r in *.
  split; [exact RX|]. split; [exact RY|]. unfold pget. rewrite check_index_in by lia. cbn [bind]. unfold pderef, aplus, load. rewrite AR, RX. cbn [bind]. rewrite AI, RY. reflexivity.
Qed.
Example C90_planar_nonvac : exists p p', planar_new PDouble Dynamic (mkpp (0%nat, 2) (1%nat, 0)) 5 = Ok p /\ block_has mem0 0 2 5 /\ block_has mem0 1 0 5 /\
  papply_all [Slice 1 4; SliceT (-1) 2 2 2] p = Ok p' /\ pn p' = 2 /\ pget true mem0 p' 1 = Ok (6, 24) /\ pget true mem0 p' 2 = Abort DIndex.
Proof.
  eexists. eexists. split; [reflexivity|]. split; [split; [lia|]; eexists; split; [reflexivity|cbn; lia]|]. split; [split; [lia|]; eexists; split; [reflexivity|cbn; lia]|].
  split; [reflexivity|]. repeat split; reflexivity.
Qed.
(** Refuted: the class takes any complex precision (the template is declared for complex<Precision>) and
    is documented to represent mutable data; only complex<double> can be constructed, and no element can be written. *)
Theorem C90_planar_refuted : forall (V : Type) cb (m : mem V) S p sz v i x, planar_new PFloat S p sz = CompileError /\ pset cb m v i x = CompileError.
Proof. intros. split; reflexivity. Qed.
