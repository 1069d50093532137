(** * C01: slices whose position and length are all template arguments. *)
From Coq Require Import ZArith Bool List Lia ZifyBool.
From Verif Require Import Base ModelSize ModelView SpecSize SpecView LemSize LemView LemAssign PropView.
Import ListNotations.
Open Scope Z_scope.

Lemma check_static_exact Size Start Length size : fixed_or_dynamic Size size ->
  (0 <= Start /\ 0 <= Length /\ (Size = Dynamic \/ Start + Length <= size) -> check_slice_static Size Start Length = Ok tt) /\
  (~ (0 <= Start /\ 0 <= Length /\ (Size = Dynamic \/ Start + Length <= size)) -> check_slice_static Size Start Length = CompileError).
Proof.
  unf. intros HS. destruct HS as [[-> Hs]|[Hs ->]]; cbn [Z.eqb Pos.eqb negb andb orb bind]; repeat rewrite eqb_neg by lia; cbn [negb andb orb bind];
    split; intros H; repeat step_if; try reflexivity; try lia.
Qed.
(** v.slice<Start,Length>(): exactly the ranges inside the vector, the empty ones included; the others do not compile, or stop for a vector whose
    length is known at run time only. *)
Theorem C01_static_slice_exact : forall (v : vview) (Start Length : Z), fixed_or_dynamic (vS v) (vn v) -> int32 (Start + Length) ->
  (0 <= Start /\ 0 <= Length /\ Start + Length <= vn v ->
     exists w, vslice_static Start Length v = Ok w /\ vn w = Length /\ forall i, vaddr w i = vaddr v (Start + i)) /\
  (~ (0 <= Start /\ 0 <= Length /\ Start + Length <= vn v) ->
     vslice_static Start Length v = CompileError \/ (vS v = Dynamic /\ exists d, vslice_static Start Length v = Abort d)).
Proof.
  intros v St Ln HS Hi. destruct (check_static_exact (vS v) St Ln (vn v) HS) as [G B]. unfold vslice_static. split.
  - intros (A1 & A2 & A3). rewrite G by auto. cbn [bind]. destruct (C01_vector_slice_exact v St Ln St Ln HS) as [H _]; [unfold template_arg; lia|unfold template_arg; lia|exact Hi|].
    apply H. unfold slice_legal, agrees. lia.
  - intros N. destruct (Z_le_dec 0 St) as [a|a]; [|left; rewrite B by lia; reflexivity]. destruct (Z_le_dec 0 Ln) as [b|b]; [|left; rewrite B by lia; reflexivity].
    destruct (Z.eq_dec (vS v) Dynamic) as [e|e]; [|left; rewrite B by lia; reflexivity].
    rewrite G by auto. cbn [bind]. destruct (C01_vector_slice_exact v St Ln St Ln HS) as [_ H]; [unfold template_arg; lia|unfold template_arg; lia|exact Hi|].
    destruct H as [H|[d H]]; [unfold slice_legal, agrees; lia|left; exact H|right; split; [exact e|exists d; exact H]].
Qed.
Theorem C01_static_matrix_slice_exact : forall (m : mview) (Rs Cs Rl Cl : Z), fixed_or_dynamic (mR m) (mr m) -> fixed_or_dynamic (mC m) (mc m) -> int32 (Rs + Rl) -> int32 (Cs + Cl) ->
  (0 <= Rs /\ 0 <= Rl /\ Rs + Rl <= mr m /\ 0 <= Cs /\ 0 <= Cl /\ Cs + Cl <= mc m ->
     exists w, mslice_static Rs Cs Rl Cl m = Ok w /\ mr w = Rl /\ mc w = Cl /\ forall r c, maddr w r c = maddr m (Rs + r) (Cs + c)) /\
  (~ (0 <= Rs /\ 0 <= Rl /\ Rs + Rl <= mr m /\ 0 <= Cs /\ 0 <= Cl /\ Cs + Cl <= mc m) ->
     mslice_static Rs Cs Rl Cl m = CompileError \/ ((mR m = Dynamic \/ mC m = Dynamic) /\ exists d, mslice_static Rs Cs Rl Cl m = Abort d)).
Proof.
  intros m Rs Cs Rl Cl H1 H2 I1 I2. destruct (check_static_exact (mR m) Rs Rl (mr m) H1) as [G1 B1]. destruct (check_static_exact (mC m) Cs Cl (mc m) H2) as [G2 B2]. unfold mslice_static.
  assert (T : 0 <= Rs -> 0 <= Rl -> 0 <= Cs -> 0 <= Cl -> template_arg Rs /\ template_arg Cs /\ template_arg Rl /\ template_arg Cl) by (unfold template_arg; lia).
  split.
  - intros A. rewrite G1, G2 by lia. cbn [bind]. destruct (T ltac:(lia) ltac:(lia) ltac:(lia) ltac:(lia)) as (t1 & t2 & t3 & t4).
    destruct (C01_matrix_slice_exact m Rs Cs Rl Cl Rs Cs Rl Cl H1 H2 t1 t2 t3 t4 I1 I2) as [H _]. apply H. unfold slice_legal, agrees. lia.
  - intros N.
    assert (X : (0 <= Rs /\ 0 <= Rl /\ (mR m = Dynamic \/ Rs + Rl <= mr m)) \/ ~ (0 <= Rs /\ 0 <= Rl /\ (mR m = Dynamic \/ Rs + Rl <= mr m))) by lia.
    assert (Y : (0 <= Cs /\ 0 <= Cl /\ (mC m = Dynamic \/ Cs + Cl <= mc m)) \/ ~ (0 <= Cs /\ 0 <= Cl /\ (mC m = Dynamic \/ Cs + Cl <= mc m))) by lia.
    destruct X as [X|X]; [|left; rewrite B1 by exact X; reflexivity]. rewrite G1 by exact X. cbn [bind]. destruct Y as [Y|Y]; [|left; rewrite B2 by exact Y; reflexivity]. rewrite G2 by exact Y. cbn [bind].
    destruct (T ltac:(lia) ltac:(lia) ltac:(lia) ltac:(lia)) as (t1 & t2 & t3 & t4).
    destruct (C01_matrix_slice_exact m Rs Cs Rl Cl Rs Cs Rl Cl H1 H2 t1 t2 t3 t4 I1 I2) as [_ H]. destruct H as [H|[d H]]; [unfold slice_legal, agrees; lia|left; exact H|right; split; [lia|exists d; exact H]].
Qed.
Example C01_static_slice_case : fixed_or_dynamic (vS vec0) (vn vec0) /\ fixed_or_dynamic (mR mat0) (mr mat0) /\
  vslice_static 5 0 vec0 = Ok (base_vec 0 1 5 0) /\ vslice_static 5 1 vec0 = Abort DSliceRange /\ mslice_static 1 0 3 1 mat0 = CompileError.
Proof. unfold fixed_or_dynamic; cbn. repeat split; lia. Qed.

(** ** C06: compound assignment of matrices, also of a matrix to itself (m += m) *)
Theorem C06_matrix_compound_assign :
  forall (V : Type) (f : V -> V -> V) (cb : bool) (m : mem V) (dst src : mview),
    good m (OM dst) -> good m (OM src) -> mr dst = mr src -> mc dst = mc src ->
    (disjoint (OM dst) (OM src) \/ dst = src) ->
    exists m', mcompound f cb dst src m = Ok m' /\
      (forall r c, 0 <= r < mr dst -> 0 <= c < mc dst -> exists x y, rd m (maddr dst r c) = Some x /\ rd m (maddr src r c) = Some y /\
                 rd m' (maddr dst r c) = Some (f x y)) /\
      (forall a, ~ element_of a (OM dst) -> rd m' a = rd m a).
Proof.
  intros V f cb m dst src Hd Hs Hr Hc Hdis.
  destruct (mcompound_spec f cb m dst src Hd Hs Hr Hc) as (m' & Hm & Hv & Hu).
  - intros i j Hi Hj L. destruct Hdis as [Hdis| ->].
    + apply Hdis; auto. destruct i; cbn in *. lia.
    + intros E. apply Hs in E; auto. subst j. unfold lex in L. lia.
  - exists m'. split; [exact Hm|]. split; [|apply Hu].
    intros r c Ir Ic. destruct Hd as (_ & Hin & _). destruct Hs as (_ & Hin' & _).
    destruct (Hin (r, c)) as [x Hx]; [cbn; lia|]. destruct (Hin' (r, c)) as [y Hy]; [cbn; lia|].
    specialize (Hv (r, c)). unfold value_at in Hv. rewrite Hx, Hy in Hv. exists x, y. split; [exact Hx|]. split; [exact Hy|].
    apply Hv. cbn; lia.
Qed.
(** sizes that differ are found when compiling, or stop *)
Theorem C06_compound_mismatch_stops :
  forall (V : Type) (f : V -> V -> V) (cb : bool) (m : mem V),
    (forall dst src, well_typed (OV dst) -> well_typed (OV src) -> vn dst <> vn src ->
       vcompound f cb dst src m = CompileError \/ vcompound f cb dst src m = Abort DSizeMismatch) /\
    (forall dst src, well_typed (OM dst) -> well_typed (OM src) -> (mr dst <> mr src \/ mc dst <> mc src) ->
       mcompound f cb dst src m = CompileError \/ mcompound f cb dst src m = Abort DSizeMismatch).
Proof.
  intros V f cb m. split.
  - intros dst src [H1 H2] [H3 H4] Hne. unfold vcompound.
    destruct (size_mismatch_exact (vS dst) (vS src) (vn dst) (vn src)) as [_ H]; unfold Dynamic; try tauto.
    destruct (H Hne) as [(_ & _ & ->)|(_ & ->)]; cbn; auto.
  - intros dst src (HR & HC & Hr & Hc) (HR' & HC' & Hr' & Hc') Hne. unfold mcompound.
    destruct (Z.eq_dec (mr dst) (mr src)) as [E|E].
    + destruct (size_mismatch_exact (mR dst) (mR src) (mr dst) (mr src)) as [H _]; unfold Dynamic; try tauto.
      rewrite (H E). cbn [bind].
      destruct (size_mismatch_exact (mC dst) (mC src) (mc dst) (mc src)) as [_ H']; unfold Dynamic; try tauto.
      destruct H' as [(_ & _ & ->)|(_ & ->)]; [tauto|cbn; auto|cbn; auto].
    + destruct (size_mismatch_exact (mR dst) (mR src) (mr dst) (mr src)) as [_ H]; unfold Dynamic; try tauto.
      destruct (H E) as [(_ & _ & ->)|(_ & ->)]; cbn; auto.
Qed.
(** ** C08: m += m.T() and the like. Entries on and above the diagonal get m(r,c) op m(c,r); those below see the one above them already changed. *)
Theorem C08_compound_transpose :
  forall (V : Type) (f : V -> V -> V) (cb : bool) (m : mem V) (a : mview), good m (OM a) -> mr a = mc a ->
    exists m', mcompound f cb a (mT a) m = Ok m' /\
      (forall r c, 0 <= r < mr a -> 0 <= c < mc a -> exists x y, rd m (maddr a r c) = Some x /\ rd m (maddr a c r) = Some y /\
         rd m' (maddr a r c) = Some (if r <=? c then f x y else f x (f y x))) /\
      (forall z, ~ element_of z (OM a) -> rd m' z = rd m z).
Proof.
  intros V f cb m a Hg Hsq. pose proof Hg as Hgood.
  destruct Hg as ((HR & HC & Hr & Hc) & Hin & Hna).
  set (g := fun i : idx => lift2 (fun x y => if fst i <=? snd i then f x y else f x (f y x)) (rd m (maddr a (fst i) (snd i))) (rd m (maddr a (snd i) (fst i)))).
  assert (W : exists m', mcompound f cb a (mT a) m = Ok m' /\
     (forall i, in_range (OM a) i -> rd m' (oaddr (OM a) i) = g i) /\
     unchanged_outside (fun x => element_of x (OM a)) m m').
  { apply wp_ok_inv. unfold mcompound. unfold mT at 1 2 3 4. cbn [mR mC mr mc].
    rewrite (slice_size_ok _ _ HC), (slice_size_ok _ _ HR).
    rewrite <- Hsq at 1. rewrite size_ok by (auto; rewrite Hsq; auto). cbn [bind].
    rewrite Hsq at 1. rewrite size_ok by (auto; rewrite <- Hsq; auto). cbn [bind].
    apply (mloop m a g (fun r c m => _)); [exact Hgood|].
    intros r c mk Hir Hic HP.
    destruct (Hin (r, c)) as [x Hx]; [cbn; lia|]. destruct (Hin (c, r)) as [y Hy]; [cbn; lia|]. cbn [oaddr fst snd] in Hx, Hy.
    unfold g. cbn [fst snd]. rewrite Hx, Hy. cbn [lift2]. eexists. split; [reflexivity|]. rewrite !Z2Nat.id by lia.
    assert (Haddr : maddr (mT a) r c = maddr a c r) by (unfold maddr, mT; cbn; f_equal; ring).
    assert (Hrx : rd mk (maddr a r c) = Some x).
    { rewrite <- Hx. change (maddr a r c) with (oaddr (OM a) (r, c)). eapply progress_read; [exact HP|]. intros j Hj Hrj E.
      apply Hna in E; auto; [|cbn; lia]. subst j. unfold lex in Hj; cbn in Hj. lia. }
    assert (Hry : rd mk (maddr (mT a) r c) = Some (if r <=? c then y else f y x)).
    { rewrite Haddr. destruct (Z.leb_spec r c) as [Hge|Hlt].
      - rewrite <- Hy. change (maddr a c r) with (oaddr (OM a) (c, r)).
        eapply progress_read; [exact HP|]. intros j Hj Hrj E.
        apply Hna in E; auto; [|cbn; lia]. subst j. unfold lex in Hj; cbn in Hj. lia.
      - assert (Hd := pg_done _ _ _ _ _ HP (c, r)). cbn [fst snd in_range oaddr] in Hd.
        rewrite Hd; [|unfold lex; cbn; lia|lia]. unfold g; cbn [fst snd]. rewrite Hx, Hy. cbn [lift2]. replace (c <=? r) with true by lia. reflexivity. }
    rewrite (mget_ok cb mk a r c x) by (auto; lia). cbn [bind]. rewrite (mget_ok cb mk (mT a) r c (if r <=? c then y else f y x)); auto.
    - cbn [bind]. rewrite mset_ok by lia. destruct (r <=? c); reflexivity.
    - unfold mT; cbn [mr]. rewrite (slice_size_ok _ _ HC). lia.
    - unfold mT; cbn [mc]. rewrite (slice_size_ok _ _ HR). lia. }
  destruct W as (m' & Hm & Hv & Hu). exists m'. split; [exact Hm|]. split; [|apply Hu].
  intros r c Hir Hic. destruct (Hin (r, c)) as [x Hx]; [cbn; lia|]. destruct (Hin (c, r)) as [y Hy]; [cbn; lia|]. cbn [oaddr fst snd] in Hx, Hy.
  exists x, y. split; [exact Hx|]. split; [exact Hy|]. specialize (Hv (r, c) ltac:(cbn; lia)). unfold g in Hv. cbn [fst snd oaddr] in Hv. rewrite Hx, Hy in Hv. exact Hv.
Qed.
(** so m += m.T() is symmetric only if m was skew or what lies below the diagonal is zero: [x + (y + x)] against [y + x] *)
Theorem C08_compound_transpose_refuted : forall (cb : bool) (m : mem Z) (a : mview) r c x, good m (OM a) -> mr a = mc a -> 0 <= c < r -> r < mr a ->
  rd m (maddr a r c) = Some x -> x <> 0 -> exists m', mcompound Z.add cb a (mT a) m = Ok m' /\ rd m' (maddr a r c) <> rd m' (maddr a c r).
Proof.
  intros cb m a r c x Hg Hsq Hc Hr Hx Nx. destruct (C08_compound_transpose Z Z.add cb m a Hg Hsq) as (m' & E & H & _). exists m'. split; [exact E|].
  destruct (H r c ltac:(lia) ltac:(lia)) as (x1 & y1 & X1 & Y1 & Z1). destruct (H c r ltac:(lia) ltac:(lia)) as (x2 & y2 & X2 & Y2 & Z2).
  rewrite Z1, Z2. replace (r <=? c) with false by lia. replace (c <=? r) with true by lia. intros F. injection F as F. assert (x1 = x) by congruence. assert (y1 = x2) by congruence. assert (y2 = x) by congruence. lia.
Qed.

(** the left 3x3 part of a 3x4 matrix: m += m, and m += m.T() *)
Example C06_compound_case : exists a, mslice mat0 0 0 3 3 = Ok a /\ good mem0 (OM a) /\ mr a = mc a /\ (exists x, rd mem0 (maddr a 1 0) = Some x /\ x <> 0) /\
  (exists m', mcompound Z.add false a (mT a) mem0 = Ok m' /\ rd m' (maddr a 1 0) <> rd m' (maddr a 0 1)).
Proof.
  eexists. split; [reflexivity|]. split; [eapply (good_chain false [MSlice 0 0 3 3] mem0 (OM mat0)); [apply base_good, mat0_base|reflexivity]|]. split; [reflexivity|].
  split; [eexists; split; [vm_compute; reflexivity|lia]|]. eexists. split; [vm_compute; reflexivity|]. vm_compute. discriminate.
Qed.
Print Assumptions C01_static_slice_exact. Print Assumptions C06_matrix_compound_assign. Print Assumptions C06_compound_mismatch_stops. Print Assumptions C08_compound_transpose. Print Assumptions C08_compound_transpose_refuted.
