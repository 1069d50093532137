From Coq Require Import ZArith Bool List Lia ZifyBool.
From Verif Require Import Base ModelSize ModelView SpecSize SpecView LemSize LemView.
Import ListNotations.
Open Scope Z_scope.

Lemma check_index_in cb s i : 0 <= i < s -> check_index cb s i = Ok tt.
Proof. unfold check_index. intros H. replace ((i <? 0) || (s <=? i)) with false by lia. rewrite andb_false_r. reflexivity. Qed.

Lemma vget_ok {V} cb (m : mem V) v i x : 0 <= i < vn v -> rd m (vaddr v i) = Some x -> vget cb m v i = Ok x.
Proof. intros H E. unfold vget. rewrite check_index_in by exact H. cbn [bind]. unfold load. rewrite E. reflexivity. Qed.
Lemma mget_ok {V} cb (m : mem V) a r c x : 0 <= r < mr a -> 0 <= c < mc a -> rd m (maddr a r c) = Some x -> mget cb m a r c = Ok x.
Proof. intros H H' E. unfold mget. rewrite !check_index_in by assumption. cbn [bind]. unfold load. rewrite E. reflexivity. Qed.
Lemma vset_ok {V} cb (m : mem V) v i x : 0 <= i < vn v -> vset cb m v i x = store m (vaddr v i) x.
Proof. intros H. unfold vset. rewrite check_index_in by exact H. reflexivity. Qed.
Lemma mset_ok {V} cb (m : mem V) a r c x : 0 <= r < mr a -> 0 <= c < mc a -> mset cb m a r c x = store m (maddr a r c) x.
Proof. intros H H'. unfold mset. rewrite !check_index_in by assumption. reflexivity. Qed.

(** The progress of an elementwise update of object [dst]: the indices in [D] have received
    the value prescribed by [f], every other cell is as in the initial memory [m]. *)
Record progress {V} (m : mem V) (dst : obj) (f : idx -> option V) (D : idx -> Prop) (mk : mem V) : Prop := {
  pg_cells : same_cells m mk;
  pg_done : forall i, D i -> in_range dst i -> rd mk (oaddr dst i) = f i;
  pg_rest : forall a, (forall i, D i -> in_range dst i -> a <> oaddr dst i) -> rd mk a = rd m a
}.
Lemma progress_init {V} (m : mem V) dst f (D : idx -> Prop) : (forall i, D i -> in_range dst i -> False) -> progress m dst f D m.
Proof.
  intros H. constructor.
  - apply same_cells_refl.
  - intros i HD Hr; exfalso; eauto.
  - reflexivity.
Qed.
Lemma progress_step {V} (m : mem V) dst f (D D' : idx -> Prop) mk i v :
  good m dst -> in_range dst i -> f i = Some v ->
  (forall j, in_range dst j -> (D' j <-> D j \/ j = i)) -> 
  progress m dst f D mk ->
  wp (store mk (oaddr dst i) v) (progress m dst f D').
Proof.
  intros (Hwt & Hin & Hna) Hi Hf HD [Pc Pd Pr].
  destruct (Hin i Hi) as [w Hw].
  destruct (rd mk (oaddr dst i)) as [w'|] eqn:Ew; [|apply Pc in Ew; congruence].
  destruct (store_ok mk (oaddr dst i) v w' Ew) as (m' & Hs & Hr & Hsc & Hun).
  eapply wp_intro; [exact Hs|]. constructor.
  - eapply same_cells_trans; eauto.
  - intros j Dj Rj. apply HD in Dj; [|exact Rj]. destruct (addr_eq_dec (oaddr dst i) (oaddr dst j)) as [E|E].
    + apply Hna in E; auto. subst j. rewrite Hr, Hf. reflexivity.
    + rewrite Hun by exact E. destruct Dj as [Dj| ->]; [|congruence]. apply Pd; assumption.
  - intros a Ha. rewrite Hun.
    + apply Pr. intros j Dj Rj. apply Ha; [apply HD; auto|exact Rj].
    + intros E. apply (Ha i); [apply HD; auto|exact Hi|auto].
Qed.
Lemma progress_ext {V} (m : mem V) dst f (D D' : idx -> Prop) mk :
  (forall i, in_range dst i -> (D i <-> D' i)) -> progress m dst f D mk -> progress m dst f D' mk.
Proof.
  intros H [Pc Pd Pr]. constructor; auto.
  - intros i Di Ri. apply Pd; auto. apply H; auto.
  - intros a Ha. apply Pr. intros i Di Ri. apply Ha; auto. apply H; auto.
Qed.
Lemma progress_done {V} (m : mem V) dst f (D : idx -> Prop) mk :
  (forall i, in_range dst i -> D i) -> progress m dst f D mk ->
  (forall i, in_range dst i -> rd mk (oaddr dst i) = f i) /\ unchanged_outside (fun a => element_of a dst) m mk.
Proof.
  intros H [Pc Pd Pr]. split; [auto|]. split; [exact Pc|]. intros a Ha. apply Pr.
  intros i Di Ri E. apply Ha. exists i. auto.
Qed.
(** In an unfinished state, a cell not hit by the finished indices is still the original. *)
Lemma progress_read {V} (m : mem V) dst f (D : idx -> Prop) mk a :
  progress m dst f D mk -> (forall i, D i -> in_range dst i -> oaddr dst i <> a) -> rd mk a = rd m a.
Proof. intros [_ _ Pr] H. apply Pr. intros i Di Ri E. apply (H i); auto. Qed.

(** Loop shape: vectors. *)
Lemma vloop {V} (m : mem V) dst (f : idx -> option V) body :
  good m (OV dst) ->
  (forall i mk, 0 <= i < vn dst -> progress m (OV dst) f (fun j => fst j < i) mk ->
     exists v, f (i, 0) = Some v /\ body (Z.to_nat i) mk = store mk (vaddr dst i) v) ->
  wp (for_ 0 (Z.to_nat (vn dst)) body m)
     (fun m' => (forall i, in_range (OV dst) i -> rd m' (oaddr (OV dst) i) = f i) /\
                unchanged_outside (fun a => element_of a (OV dst)) m m').
Proof.
  intros Hg Hb.
  eapply wp_mono.
  - apply (wp_for (fun k => progress m (OV dst) f (fun j => fst j < Z.of_nat k))).
    + lia.
    + apply progress_init. cbn. intros i; lia.
    + intros k mk Hk HP. destruct (Hb (Z.of_nat k) mk) as (v & Hv & Hs); [lia|exact HP|].
      rewrite Nat2Z.id in Hs. rewrite Hs.
      apply (progress_step m (OV dst) f (fun j => fst j < Z.of_nat k) _ mk (Z.of_nat k, 0) v Hg); auto.
      * cbn; lia.
      * intros [j1 j2]; cbn. intros [R1 R2]. split; [intros H|intros [H|H]]; [|lia|inversion H; lia].
        destruct (Z.eq_dec j1 (Z.of_nat k)); [right; congruence|left; lia].
  - intros m' HP. cbn beta in HP. apply progress_done in HP; [exact HP|].
    intros [i1 i2]; cbn; lia.
Qed.
(** Loop shape: matrices, row by row. *)
Definition lex (r c : Z) (j : idx) : Prop := fst j < r \/ (fst j = r /\ snd j < c).
Lemma mloop {V} (m : mem V) dst (f : idx -> option V) body :
  good m (OM dst) ->
  (forall r c mk, 0 <= r < mr dst -> 0 <= c < mc dst -> progress m (OM dst) f (lex r c) mk ->
     exists v, f (r, c) = Some v /\ body (Z.to_nat r) (Z.to_nat c) mk = store mk (maddr dst r c) v) ->
  wp (for_ 0 (Z.to_nat (mr dst)) (fun r m => for_ 0 (Z.to_nat (mc dst)) (body r) m) m)
     (fun m' => (forall i, in_range (OM dst) i -> rd m' (oaddr (OM dst) i) = f i) /\
                unchanged_outside (fun a => element_of a (OM dst)) m m').
Proof.
  intros Hg Hb.
  assert (Hwt : 0 <= mr dst /\ 0 <= mc dst) by (destruct Hg as [(?&?&?&?) _]; auto).
  eapply wp_mono.
  - apply (wp_for (fun k => progress m (OM dst) f (lex (Z.of_nat k) 0))).
    + lia.
    + apply progress_init. unfold lex; cbn. intros i; lia.
    + intros k mk Hk HP. eapply wp_mono.
      * apply (wp_for (fun l => progress m (OM dst) f (lex (Z.of_nat k) (Z.of_nat l)))); [lia|exact HP|].
        intros l ml Hl HPl. destruct (Hb (Z.of_nat k) (Z.of_nat l) ml) as (v & Hv & Hs); [lia|lia|exact HPl|].
        rewrite !Nat2Z.id in Hs. rewrite Hs.
        apply (progress_step m (OM dst) f (lex (Z.of_nat k) (Z.of_nat l)) _ ml (Z.of_nat k, Z.of_nat l) v Hg); auto.
        -- cbn; lia.
        -- unfold lex. intros [j1 j2]; cbn. intros [R1 R2]. split; [intros H|intros [H|H]]; [|lia|inversion H; lia].
           destruct (Z.eq_dec j1 (Z.of_nat k)); [destruct (Z.eq_dec j2 (Z.of_nat l))|]; [right; congruence|left; lia|left; lia].
      * intros m' HP'. eapply progress_ext; [|exact HP']. unfold lex; intros [j1 j2]; cbn; lia.
  - intros m' HP. cbn beta in HP. apply progress_done in HP; [exact HP|].
    unfold lex; intros [i1 i2]; cbn; lia.
Qed.

(** ** Assignment *)
Definition value_at {V} (m : mem V) (o : obj) (i : idx) : option V := rd m (oaddr o i).

Lemma size_ok S1 S2 n : (S1 = -1 \/ S1 = n) -> (S2 = -1 \/ S2 = n) -> 0 <= n -> size_mismatch S1 S2 n n = Ok tt.
Proof. intros H1 H2 Hn. apply size_mismatch_exact; auto; unfold Dynamic; tauto. Qed.

Lemma vassign_spec {V} cb (m : mem V) dst src :
  good m (OV dst) -> good m (OV src) -> vn dst = vn src ->
  (forall i j, 0 <= j < i -> i < vn dst -> vaddr dst j <> vaddr src i) ->
  exists m', vassign cb dst src m = Ok m' /\
    (forall i, in_range (OV dst) i -> value_at m' (OV dst) i = value_at m (OV src) i) /\
    unchanged_outside (fun a => element_of a (OV dst)) m m'.
Proof.
  intros Hd Hs Hn Hord. apply wp_ok_inv. unfold vassign.
  destruct Hd as ([HSd Hnd] & Hrest). destruct Hs as ([HSs Hns] & Hsin & Hsna).
  rewrite Hn. rewrite size_ok by (auto; rewrite <- Hn; auto). cbn [bind]. rewrite <- Hn.
  apply (vloop m dst (fun i => value_at m (OV src) i)); [split; [split; auto|auto]|].
  intros i mk Hi HP.
  destruct (Hsin (i, 0)) as [x Hx]; [cbn; lia|]. exists x. split; [exact Hx|].
  rewrite Z2Nat.id by lia.
  assert (Hr : rd mk (vaddr src i) = Some x).
  { rewrite <- Hx. cbn [oaddr fst]. eapply progress_read; [exact HP|]. intros [j1 j2]; cbn. intros Hj [Hr1 Hr2]. apply Hord; lia. }
  rewrite (vget_ok cb mk src i x) by (auto; lia). cbn [bind]. apply vset_ok; lia.
Qed.
Lemma massign_spec {V} cb (m : mem V) dst src :
  good m (OM dst) -> good m (OM src) -> mr dst = mr src -> mc dst = mc src ->
  (forall i j, in_range (OM dst) i -> in_range (OM dst) j -> lex (fst i) (snd i) j ->
     oaddr (OM dst) j <> oaddr (OM src) i) ->
  exists m', massign cb dst src m = Ok m' /\
    (forall i, in_range (OM dst) i -> value_at m' (OM dst) i = value_at m (OM src) i) /\
    unchanged_outside (fun a => element_of a (OM dst)) m m'.
Proof.
  intros Hd Hs Hr Hc Hord. apply wp_ok_inv. unfold massign.
  pose proof Hd as Hgood.
  destruct Hd as ((HRd & HCd & Hrd & Hcd) & _). destruct Hs as ((HRs & HCs & Hrs & Hcs) & Hsin & Hsna).
  rewrite Hr, Hc. rewrite size_ok by (auto; rewrite <- Hr; auto). cbn [bind].
  rewrite size_ok by (auto; rewrite <- Hc; auto). cbn [bind]. rewrite <- Hr, <- Hc.
  apply (mloop m dst (fun i => value_at m (OM src) i) (fun r c m => _)); [exact Hgood|].
  intros r c mk Hir Hic HP.
  destruct (Hsin (r, c)) as [x Hx]; [cbn; lia|]. exists x. split; [exact Hx|].
  rewrite !Z2Nat.id by lia.
  assert (Hrd' : rd mk (maddr src r c) = Some x).
  { rewrite <- Hx. cbn [oaddr fst snd]. eapply progress_read; [exact HP|]. intros j Hj Hrj.
    apply (Hord (r, c) j); auto. cbn; lia. }
  rewrite (mget_ok cb mk src r c x) by (auto; lia). cbn [bind]. apply mset_ok; lia.
Qed.

Lemma vassign_mismatch {V} cb (m : mem V) dst src :
  well_typed (OV dst) -> well_typed (OV src) -> vn dst <> vn src ->
  vassign cb dst src m = CompileError \/ vassign cb dst src m = Abort DSizeMismatch.
Proof.
  intros [H1 H2] [H3 H4] Hne. unfold vassign.
  destruct (size_mismatch_exact (vS dst) (vS src) (vn dst) (vn src)) as [_ H]; unfold Dynamic; try tauto.
  destruct (H Hne) as [(_ & _ & ->)|(_ & ->)]; cbn; auto.
Qed.
Lemma massign_mismatch {V} cb (m : mem V) dst src :
  well_typed (OM dst) -> well_typed (OM src) -> (mr dst <> mr src \/ mc dst <> mc src) ->
  massign cb dst src m = CompileError \/ massign cb dst src m = Abort DSizeMismatch.
Proof.
  intros (HR & HC & Hr & Hc) (HR' & HC' & Hr' & Hc') Hne. unfold massign.
  destruct (Z.eq_dec (mr dst) (mr src)) as [E|E].
  - destruct (size_mismatch_exact (mR dst) (mR src) (mr dst) (mr src)) as [H _]; unfold Dynamic; try tauto.
    rewrite (H E). cbn [bind].
    destruct (size_mismatch_exact (mC dst) (mC src) (mc dst) (mc src)) as [_ H']; unfold Dynamic; try tauto.
    destruct H' as [(_ & _ & ->)|(_ & ->)]; [tauto|cbn; auto|cbn; auto].
  - destruct (size_mismatch_exact (mR dst) (mR src) (mr dst) (mr src)) as [_ H]; unfold Dynamic; try tauto.
    destruct (H E) as [(_ & _ & ->)|(_ & ->)]; cbn; auto.
Qed.

(** ** Compound assignment *)
Definition lift2 {V} (f : V -> V -> V) (x y : option V) : option V :=
  match x, y with Some a, Some b => Some (f a b) | _, _ => None end.
Lemma vcompound_spec {V} (f : V -> V -> V) cb (m : mem V) dst src :
  good m (OV dst) -> good m (OV src) -> vn dst = vn src ->
  (forall i j, 0 <= j < i -> i < vn dst -> vaddr dst j <> vaddr src i) ->
  exists m', vcompound f cb dst src m = Ok m' /\
    (forall i, in_range (OV dst) i ->
        value_at m' (OV dst) i = lift2 f (value_at m (OV dst) i) (value_at m (OV src) i)) /\
    unchanged_outside (fun a => element_of a (OV dst)) m m'.
Proof.
  intros Hd Hs Hn Hord. apply wp_ok_inv. unfold vcompound. pose proof Hd as Hgood.
  destruct Hd as ([HSd Hnd] & Hdin & Hdna). destruct Hs as ([HSs Hns] & Hsin & Hsna).
  rewrite Hn. rewrite size_ok by (auto; rewrite <- Hn; auto). cbn [bind]. rewrite <- Hn.
  apply (vloop m dst (fun i => lift2 f (value_at m (OV dst) i) (value_at m (OV src) i))); [exact Hgood|].
  intros i mk Hi HP. unfold value_at.
  destruct (Hdin (i, 0)) as [x Hx]; [cbn; lia|]. destruct (Hsin (i, 0)) as [y Hy]; [cbn; lia|].
  exists (f x y). rewrite Hx, Hy. split; [reflexivity|].
  rewrite Z2Nat.id by lia.
  assert (Hrx : rd mk (vaddr dst i) = Some x).
  { rewrite <- Hx. cbn [oaddr fst]. eapply progress_read; [exact HP|]. intros [j1 j2]; cbn. intros Hj [Hr1 Hr2] E.
    assert (Heq : (j1, j2) = (i, 0)) by (apply Hdna; cbn; auto; lia). inversion Heq; lia. }
  assert (Hry : rd mk (vaddr src i) = Some y).
  { rewrite <- Hy. cbn [oaddr fst]. eapply progress_read; [exact HP|]. intros [j1 j2]; cbn. intros Hj [Hr1 Hr2]. apply Hord; lia. }
  rewrite (vget_ok cb mk dst i x) by (auto; lia). cbn [bind].
  rewrite (vget_ok cb mk src i y) by (auto; lia). cbn [bind]. apply vset_ok; lia.
Qed.
Lemma vcompound_scalar_spec {V} (f : V -> V) cb (m : mem V) dst :
  good m (OV dst) ->
  exists m', vcompound_scalar f cb dst m = Ok m' /\
    (forall i, in_range (OV dst) i -> value_at m' (OV dst) i = option_map f (value_at m (OV dst) i)) /\
    unchanged_outside (fun a => element_of a (OV dst)) m m'.
Proof.
  intros Hd. apply wp_ok_inv. unfold vcompound_scalar. pose proof Hd as Hgood.
  destruct Hd as ([HSd Hnd] & Hdin & Hdna).
  apply (vloop m dst (fun i => option_map f (value_at m (OV dst) i))); [exact Hgood|].
  intros i mk Hi HP. unfold value_at.
  destruct (Hdin (i, 0)) as [x Hx]; [cbn; lia|].
  exists (f x). rewrite Hx. split; [reflexivity|]. rewrite Z2Nat.id by lia.
  assert (Hrx : rd mk (vaddr dst i) = Some x).
  { rewrite <- Hx. cbn [oaddr fst]. eapply progress_read; [exact HP|]. intros [j1 j2]; cbn. intros Hj [Hr1 Hr2] E.
    assert (Heq : (j1, j2) = (i, 0)) by (apply Hdna; cbn; auto; lia). inversion Heq; lia. }
  rewrite (vget_ok cb mk dst i x) by (auto; lia). cbn [bind]. apply vset_ok; lia.
Qed.
Lemma mcompound_spec {V} (f : V -> V -> V) cb (m : mem V) dst src :
  good m (OM dst) -> good m (OM src) -> mr dst = mr src -> mc dst = mc src ->
  (forall i j, in_range (OM dst) i -> in_range (OM dst) j -> lex (fst i) (snd i) j ->
     oaddr (OM dst) j <> oaddr (OM src) i) ->
  exists m', mcompound f cb dst src m = Ok m' /\
    (forall i, in_range (OM dst) i ->
        value_at m' (OM dst) i = lift2 f (value_at m (OM dst) i) (value_at m (OM src) i)) /\
    unchanged_outside (fun a => element_of a (OM dst)) m m'.
Proof.
  intros Hd Hs Hr Hc Hord. apply wp_ok_inv. unfold mcompound.
  pose proof Hd as Hgood.
  destruct Hd as ((HRd & HCd & Hrd & Hcd) & Hdin & Hdna). destruct Hs as ((HRs & HCs & Hrs & Hcs) & Hsin & Hsna).
  rewrite Hr, Hc. rewrite size_ok by (auto; rewrite <- Hr; auto). cbn [bind].
  rewrite size_ok by (auto; rewrite <- Hc; auto). cbn [bind]. rewrite <- Hr, <- Hc.
  apply (mloop m dst (fun i => lift2 f (value_at m (OM dst) i) (value_at m (OM src) i)) (fun r c m => _)); [exact Hgood|].
  intros r c mk Hir Hic HP. unfold value_at.
  destruct (Hdin (r, c)) as [x Hx]; [cbn; lia|]. destruct (Hsin (r, c)) as [y Hy]; [cbn; lia|].
  exists (f x y). rewrite Hx, Hy. split; [reflexivity|].
  rewrite !Z2Nat.id by lia.
  assert (Hrx : rd mk (maddr dst r c) = Some x).
  { rewrite <- Hx. cbn [oaddr fst snd]. eapply progress_read; [exact HP|]. intros j Hj Hrj E.
    assert (Heq : j = (r, c)) by (apply Hdna; auto; cbn; lia). subst j. unfold lex in Hj; cbn in Hj; lia. }
  assert (Hry : rd mk (maddr src r c) = Some y).
  { rewrite <- Hy. cbn [oaddr fst snd]. eapply progress_read; [exact HP|]. intros j Hj Hrj.
    apply (Hord (r, c) j); auto. cbn; lia. }
  rewrite (mget_ok cb mk dst r c x) by (auto; lia). cbn [bind].
  rewrite (mget_ok cb mk src r c y) by (auto; lia). cbn [bind]. apply mset_ok; lia.
Qed.

(** ** Swap *)
Lemma vswap_spec {V} cb (m : mem V) v1 v2 :
  good m (OV v1) -> good m (OV v2) -> vn v1 = vn v2 -> disjoint (OV v1) (OV v2) ->
  exists m', vswap cb v1 v2 m = Ok m' /\
    (forall i, in_range (OV v1) i -> value_at m' (OV v1) i = value_at m (OV v2) i) /\
    (forall i, in_range (OV v2) i -> value_at m' (OV v2) i = value_at m (OV v1) i) /\
    unchanged_outside (fun a => element_of a (OV v1) \/ element_of a (OV v2)) m m'.
Proof.
  intros H1 H2 Hn Hdis. apply wp_ok_inv. unfold vswap.
  destruct H1 as ([HS1 Hn1] & Hin1 & Hna1). destruct H2 as ([HS2 Hn2] & Hin2 & Hna2).
  rewrite Hn. rewrite size_ok by (auto; rewrite <- Hn; auto). cbn [bind].
  eapply wp_mono.
  - apply (wp_for (fun k mk => same_cells m mk /\
      (forall j, 0 <= j < Z.of_nat k -> j < vn v2 -> rd mk (vaddr v1 j) = rd m (vaddr v2 j) /\ rd mk (vaddr v2 j) = rd m (vaddr v1 j)) /\
      (forall a, (forall j, 0 <= j < Z.of_nat k -> j < vn v2 -> a <> vaddr v1 j /\ a <> vaddr v2 j) -> rd mk a = rd m a))).
    + lia.
    + split; [apply same_cells_refl|]. split; [intros; lia|reflexivity].
    + intros k mk Hk (Hc & Hdone & Hrest).
      set (i := Z.of_nat k).
      assert (Hi : 0 <= i < vn v2) by lia.
      destruct (Hin1 (i, 0)) as [x Hx]; [cbn; lia|]. destruct (Hin2 (i, 0)) as [y Hy]; [cbn; lia|].
      cbn [oaddr fst] in Hx, Hy.
      assert (N11 : forall j, 0 <= j < vn v2 -> j <> i -> vaddr v1 i <> vaddr v1 j).
      { intros j Hj Hne E. apply Hne. assert (EE : (i, 0) = (j, 0)) by (apply Hna1; cbn; auto; lia). congruence. }
      assert (N22 : forall j, 0 <= j < vn v2 -> j <> i -> vaddr v2 i <> vaddr v2 j).
      { intros j Hj Hne E. apply Hne. assert (EE : (i, 0) = (j, 0)) by (apply Hna2; cbn; auto; lia). congruence. }
      assert (N12 : forall j l, 0 <= j < vn v2 -> 0 <= l < vn v2 -> vaddr v1 j <> vaddr v2 l).
      { intros j l Hj Hl. apply (Hdis (j, 0) (l, 0)); cbn; lia. }
      assert (Rx : rd mk (vaddr v1 i) = Some x).
      { rewrite <- Hx. apply Hrest. intros j Hj Hj'. split; [apply N11; lia|apply N12; lia]. }
      assert (Ry : rd mk (vaddr v2 i) = Some y).
      { rewrite <- Hy. apply Hrest. intros j Hj Hj'. split; [apply not_eq_sym, N12; lia|apply N22; lia]. }
      rewrite (vget_ok cb mk v1 i x) by (auto; lia). cbn [bind].
      rewrite (vget_ok cb mk v2 i y) by (auto; lia). cbn [bind].
      rewrite vset_ok by lia.
      destruct (store_ok mk (vaddr v1 i) y x Rx) as (ma & Sa & Ra & Ca & Ua). rewrite Sa. cbn [bind].
      rewrite vset_ok by lia.
      assert (Ry' : rd ma (vaddr v2 i) = Some y) by (rewrite Ua; [exact Ry|apply N12; lia]).
      destruct (store_ok ma (vaddr v2 i) x y Ry') as (mb & Sb & Rb & Cb & Ub). rewrite Sb. cbn [wp].
      split; [|split].
      * eapply same_cells_trans; [|exact Cb]. eapply same_cells_trans; eauto.
      * intros j Hj Hj'. destruct (Z.eq_dec j i) as [->|Hne].
        -- split; [|rewrite Rb, Hx; reflexivity]. rewrite Ub by (apply not_eq_sym, N12; lia). rewrite Ra, Hy. reflexivity.
        -- destruct (Hdone j) as [D1 D2]; [lia|lia|]. rewrite !Ub, !Ua; auto; try (apply N11; lia); try (apply N22; lia); try (apply N12; lia); apply not_eq_sym, N12; lia.
      * intros a Ha. rewrite Ub, Ua.
        -- apply Hrest. intros j Hj Hj'. apply Ha; lia.
        -- intros E. destruct (Ha i) as [Q _]; [lia|lia|congruence].
        -- intros E. destruct (Ha i) as [_ Q]; [lia|lia|congruence].
  - intros m' (Hc & Hdone & Hrest). split; [|split; [|split]].
    + intros [i1 i2]; cbn. intros [Hi _]. apply Hdone; cbn; lia.
    + intros [i1 i2]; cbn. intros [Hi _]. apply Hdone; cbn; lia.
    + exact Hc.
    + intros a Ha. apply Hrest. intros j Hj Hj'. split; intros E; apply Ha; [left|right]; exists (j, 0); cbn; auto with zarith.
Qed.
Lemma vswap_mismatch {V} cb (m : mem V) v1 v2 :
  well_typed (OV v1) -> well_typed (OV v2) -> vn v1 <> vn v2 ->
  vswap cb v1 v2 m = CompileError \/ vswap cb v1 v2 m = Abort DSizeMismatch.
Proof.
  intros [H1 H2] [H3 H4] Hne. unfold vswap.
  destruct (size_mismatch_exact (vS v1) (vS v2) (vn v1) (vn v2)) as [_ H]; unfold Dynamic; try tauto.
  destruct (H Hne) as [(_ & _ & ->)|(_ & ->)]; cbn; auto.
Qed.
(** extensionality of memories *)
Lemma list_ext {A} (l l' : list A) : (forall n, nth_error l n = nth_error l' n) -> l = l'.
Proof.
  revert l'; induction l as [|h t IH]; intros [|h' t'] H; auto.
  - specialize (H 0%nat); discriminate.
  - specialize (H 0%nat); discriminate.
  - f_equal; [specialize (H 0%nat); cbn in H; congruence|]. apply IH. intros n. apply (H (Datatypes.S n)).
Qed.

(** ** Overlap: two windows of the same vector, [a] and [b] the starts, [n] the length *)
Definition win (v : vview) (a n : Z) : vview := mkv (-1) (vblk v) (voff v + vst v * a) n (vst v).
Lemma win_addr v a n i : vaddr (win v a n) i = vaddr v (a + i).
Proof. unfold win, vaddr; cbn. f_equal; ring. Qed.
Lemma good_win {V} (m : mem V) v a n : good m (OV v) -> 0 <= a -> 0 <= n -> a + n <= vn v -> good m (OV (win v a n)).
Proof.
  intros ([HS Hn] & Hin & Hna) Ha Hn' Hle. split; [cbn; auto|]. split.
  - intros [i1 i2]; cbn [in_range fst snd win vn]. intros [Hi _]. cbn [oaddr fst]. rewrite win_addr.
    apply (Hin (a + i1, 0)). cbn; lia.
  - intros [i1 i2] [j1 j2]; cbn [in_range fst snd win vn oaddr]. intros [Hi ->] [Hj ->] E.
    rewrite !win_addr in E. assert (EE : (a + i1, 0) = (a + j1, 0)) by (apply Hna; cbn; auto; lia).
    inversion EE. f_equal; lia.
Qed.
Lemma vaddr_inj {V} (m : mem V) v i j : good m (OV v) -> 0 <= i < vn v -> 0 <= j < vn v -> vaddr v i = vaddr v j -> i = j.
Proof. intros (_ & _ & Hna) Hi Hj E. assert (EE : (i, 0) = (j, 0)) by (apply Hna; cbn; auto). congruence. Qed.

Lemma vslice_win v a n : (vS v = -1 \/ vS v = vn v) -> 0 < vn v \/ vS v = -1 -> 0 <= a -> 0 <= n -> a + n <= vn v -> vn v <= INT_MAX ->
  vslice v a n = Ok (win v a n).
Proof.
  intros HS Hn Ha Hn' Hle Hmax. unfold vslice, vslice_t.
  destruct (check_slice_exact (vS v) Dynamic Dynamic (vn v) a n) as [H _].
  - unfold fixed_or_dynamic. destruct HS as [->|E]; [left; lia|]. destruct Hn as [Hn|E']; [right; lia|left; lia].
  - left; reflexivity.
  - left; reflexivity.
  - unfold int32, INT_MAX in *; lia.
  - rewrite (proj2 H); [|unfold slice_legal, agrees, Dynamic; intuition].
    cbn. unfold win, slice_size, Dynamic. cbn. reflexivity.
Qed.

(** Destination starting at or before the source: exact copy. *)
Lemma overlap_left {V} cb (m : mem V) v a b n :
  good m (OV v) -> 0 <= a <= b -> 0 <= n -> b + n <= vn v ->
  exists m', vassign cb (win v a n) (win v b n) m = Ok m' /\
    (forall i, 0 <= i < n -> rd m' (vaddr v (a + i)) = rd m (vaddr v (b + i))) /\
    (forall j, 0 <= j < vn v -> ~ (a <= j < a + n) -> rd m' (vaddr v j) = rd m (vaddr v j)).
Proof.
  intros Hg Hab Hn Hle.
  destruct (vassign_spec cb m (win v a n) (win v b n)) as (m' & Hm & Hv & Hu).
  - apply good_win; auto; lia.
  - apply good_win; auto; lia.
  - reflexivity.
  - cbn [vn win]. intros i j Hj Hi. rewrite !win_addr. intros E.
    apply (vaddr_inj m v) in E; auto; lia.
  - exists m'. split; [exact Hm|]. split.
    + intros i Hi. specialize (Hv (i, 0)). unfold value_at in Hv. cbn [oaddr fst in_range snd vn win] in Hv.
      rewrite !win_addr in Hv. apply Hv. lia.
    + intros j Hj Hnj. apply Hu. intros ([i1 i2] & [Hi _] & E). cbn [oaddr fst vn win] in *. rewrite win_addr in E.
      apply (vaddr_inj m v) in E; auto; lia.
Qed.
(** Destination starting after the source: the first [a-b] source elements are repeated. *)
Lemma overlap_right {V} cb (m : mem V) v a b n :
  good m (OV v) -> 0 <= b < a -> 0 <= n -> a + n <= vn v ->
  exists m', vassign cb (win v a n) (win v b n) m = Ok m' /\
    (forall i, 0 <= i < n -> rd m' (vaddr v (a + i)) = rd m (vaddr v (b + i mod (a - b)))) /\
    (forall j, 0 <= j < vn v -> ~ (a <= j < a + n) -> rd m' (vaddr v j) = rd m (vaddr v j)).
Proof.
  intros Hg Hab Hn Hle.
  set (f := fun i : idx => rd m (vaddr v (b + fst i mod (a - b)))).
  assert (Hgd : good m (OV (win v a n))) by (apply good_win; auto; lia).
  assert (Hex : forall k, 0 <= k < vn v -> exists x, rd m (vaddr v k) = Some x).
  { intros k Hk. destruct Hg as (_ & Hin & _). apply (Hin (k, 0)). cbn; lia. }
  assert (W : exists m', vassign cb (win v a n) (win v b n) m = Ok m' /\
     (forall i, in_range (OV (win v a n)) i -> rd m' (oaddr (OV (win v a n)) i) = f i) /\
     unchanged_outside (fun x => element_of x (OV (win v a n))) m m').
  { apply wp_ok_inv. unfold vassign. cbn [vS vn win]. rewrite size_ok by auto. cbn [bind].
    change n with (vn (win v a n)). apply (vloop m (win v a n) f); [exact Hgd|].
    cbn [vn win]. intros i mk Hi HP.
    pose proof (Z.mod_pos_bound i (a - b) ltac:(lia)) as Hmod.
    assert (Hmod' : i mod (a - b) <= i) by (apply Z.mod_le; lia).
    destruct (Hex (b + i mod (a - b))) as [x Hx]; [lia|].
    exists x. split; [exact Hx|]. rewrite Z2Nat.id by lia.
    assert (Hr : rd mk (vaddr (win v b n) i) = Some x).
    { rewrite win_addr. destruct (Z_lt_ge_dec i (a - b)) as [Hlt|Hge].
      - rewrite Z.mod_small in Hx by lia. rewrite <- Hx.
        eapply progress_read; [exact HP|]. intros [j1 j2]; cbn [fst snd in_range vn win oaddr]. intros Hj [Hr _].
        rewrite win_addr. intros E. apply (vaddr_inj m v) in E; auto; lia.
      - assert (Hd := pg_done _ _ _ _ _ HP (i - (a - b), 0)). cbn [fst snd in_range vn win oaddr] in Hd.
        rewrite win_addr in Hd. replace (a + (i - (a - b))) with (b + i) in Hd by ring.
        rewrite Hd by lia. unfold f. cbn [fst].
        replace ((i - (a - b)) mod (a - b)) with (i mod (a - b)); [exact Hx|].
        replace i with ((i - (a - b)) + 1 * (a - b)) at 1 by ring. apply Z.mod_add. lia. }
    rewrite (vget_ok cb mk _ i x) by (auto; cbn; lia). cbn [bind]. apply vset_ok; cbn; lia. }
  destruct W as (m' & Hm & Hv & Hu). exists m'. split; [exact Hm|]. split.
  - intros i Hi. specialize (Hv (i, 0)). cbn [oaddr fst in_range snd vn win] in Hv. rewrite win_addr in Hv. apply Hv. lia.
  - intros j Hj Hnj. apply Hu. intros ([i1 i2] & [Hi _] & E). cbn [oaddr fst vn win] in *. rewrite win_addr in E.
    apply (vaddr_inj m v) in E; auto; lia.
Qed.

(** ** M = M.T() *)
Lemma transpose_assign {V} cb (m : mem V) a :
  good m (OM a) -> mr a = mc a ->
  exists m', massign cb a (mT a) m = Ok m' /\
    (forall r c, 0 <= r < mr a -> 0 <= c < mc a -> rd m' (maddr a r c) = rd m (maddr a (Z.max r c) (Z.min r c))) /\
    unchanged_outside (fun x => element_of x (OM a)) m m'.
Proof.
  intros Hg Hsq. pose proof Hg as Hgood.
  destruct Hg as ((HR & HC & Hr & Hc) & Hin & Hna).
  set (f := fun i : idx => rd m (maddr a (Z.max (fst i) (snd i)) (Z.min (fst i) (snd i)))).
  assert (W : exists m', massign cb a (mT a) m = Ok m' /\
     (forall i, in_range (OM a) i -> rd m' (oaddr (OM a) i) = f i) /\
     unchanged_outside (fun x => element_of x (OM a)) m m').
  { apply wp_ok_inv. unfold massign. unfold mT at 1 2 3 4. cbn [mR mC mr mc].
    rewrite (slice_size_ok _ _ HC), (slice_size_ok _ _ HR).
    rewrite <- Hsq at 1. rewrite size_ok by (auto; rewrite Hsq; auto). cbn [bind].
    rewrite Hsq at 1. rewrite size_ok by (auto; rewrite <- Hsq; auto). cbn [bind].
    apply (mloop m a f (fun r c m => _)); [exact Hgood|].
    intros r c mk Hir Hic HP.
    destruct (Hin (Z.max r c, Z.min r c)) as [x Hx]; [cbn; lia|]. cbn [oaddr fst snd] in Hx.
    exists x. split; [exact Hx|]. rewrite !Z2Nat.id by lia.
    assert (Haddr : maddr (mT a) r c = maddr a c r) by (unfold maddr, mT; cbn; f_equal; ring).
    assert (Hrd : rd mk (maddr (mT a) r c) = Some x).
    { rewrite Haddr. destruct (Z_lt_ge_dec c r) as [Hlt|Hge].
      - assert (Hd := pg_done _ _ _ _ _ HP (c, r)). cbn [fst snd in_range oaddr] in Hd.
        rewrite Hd; [|unfold lex; cbn; lia|lia]. unfold f; cbn [fst snd]. rewrite Z.max_comm, Z.min_comm. exact Hx.
      - replace (Z.max r c) with c in Hx by lia. replace (Z.min r c) with r in Hx by lia. rewrite <- Hx.
        change (maddr a c r) with (oaddr (OM a) (c, r)).
        eapply progress_read; [exact HP|]. intros j Hj Hrj E.
        apply Hna in E; auto; [|cbn; lia]. subst j. unfold lex in Hj; cbn in Hj. lia. }
    rewrite (mget_ok cb mk (mT a) r c x); auto.
    - cbn [bind]. apply mset_ok; lia.
    - unfold mT; cbn [mr]. rewrite (slice_size_ok _ _ HC). lia.
    - unfold mT; cbn [mc]. rewrite (slice_size_ok _ _ HR). lia. }
  destruct W as (m' & Hm & Hv & Hu). exists m'. split; [exact Hm|]. split; [|exact Hu].
  intros r c Hir Hic. apply (Hv (r, c)). cbn; lia.
Qed.
