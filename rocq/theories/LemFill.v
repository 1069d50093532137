(** * Proofs about filling and text I/O. *)
From Coq Require Import ZArith List Bool Arith Lia ZifyBool.
From Verif Require Import Base ModelSize SpecSize LemSize ModelView SpecView LemView LemAssign ModelFill.
Import ListNotations.
Open Scope Z_scope.
Open Scope outcome_scope.

Section L.
Context {V : Type}.
Implicit Types (m : mem V).

Lemma vfill_rest_ok cb v m0 (all : list V) : good m0 (OV v) -> Z.of_nat (length all) = vn v ->
  forall xs pre m, all = pre ++ xs ->
  progress m0 (OV v) (fun i => nth_error all (Z.to_nat (fst i))) (fun j => fst j < Z.of_nat (length pre)) m ->
  wp (vfill_rest cb v (Z.of_nat (length pre)) xs m)
     (progress m0 (OV v) (fun i => nth_error all (Z.to_nat (fst i))) (fun j => fst j < vn v)).
Proof.
  intros Hg Hlen. induction xs as [|x xs IH]; intros pre m Hall P; cbn [vfill_rest].
  - rewrite app_nil_r in Hall. subst pre. rewrite Hlen in *. rewrite Z.ltb_irrefl. exact P.
  - assert (Hl : (length all = length pre + S (length xs))%nat) by (rewrite Hall, app_length; reflexivity).
    assert (Hc : check_overfill (Z.of_nat (length pre)) (vS v) (vn v) = Ok tt).
    { destruct Hg as ((HS & _) & _). unfold check_overfill. destruct (vS v =? -1) eqn:E.
      - replace (vn v <=? Z.of_nat (length pre)) with false by lia. reflexivity.
      - replace (vS v <=? Z.of_nat (length pre)) with false by lia. reflexivity. }
    rewrite Hc. cbn [bind]. rewrite vset_ok by lia. apply wp_bind.
    eapply wp_mono.
    + apply (progress_step m0 (OV v) (fun i => nth_error all (Z.to_nat (fst i))) (fun j => fst j < Z.of_nat (length pre)) (fun j => fst j < Z.of_nat (length (pre ++ [x]))) m (Z.of_nat (length pre), 0) x Hg).
      * cbn. lia.
      * cbn. rewrite Nat2Z.id, Hall, nth_error_app2, Nat.sub_diag by lia. reflexivity.
      * intros [j1 j2]. cbn. intros Hj. rewrite app_length; cbn. split; [intros H|intros [H|[= -> ->]]; lia].
        destruct (Z.eq_dec j1 (Z.of_nat (length pre))); [right; f_equal; lia|left; lia].
      * exact P.
    + intros m' P'. replace (Z.of_nat (length pre) + 1) with (Z.of_nat (length (pre ++ [x]))) by (rewrite app_length; cbn; lia).
      apply IH; [rewrite <- app_assoc; exact Hall|exact P'].
Qed.
Lemma vfill_ok cb v m x xs : good m (OV v) -> Z.of_nat (length (x :: xs)) = vn v -> xs <> [] ->
  wp (vfill cb v x xs m) (fun m' =>
    (forall i, in_range (OV v) i -> rd m' (oaddr (OV v) i) = nth_error (x :: xs) (Z.to_nat (fst i))) /\
    unchanged_outside (fun a => element_of a (OV v)) m m').
Proof.
  intros Hg Hl Hne. unfold vfill. assert (2 <= vn v) by (destruct xs; [congruence|cbn in Hl; lia]).
  assert (Hc : check_overfill 1 (vS v) (vn v) = Ok tt).
  { destruct Hg as ((HS & _) & _). unfold check_overfill. destruct (vS v =? -1) eqn:E.
    - replace (vn v <=? 1) with false by lia. reflexivity.
    - replace (vS v <=? 1) with false by lia. reflexivity. }
  rewrite Hc. cbn [bind]. rewrite vset_ok by lia. apply wp_bind. eapply wp_mono.
  - apply (progress_step m (OV v) (fun i => nth_error (x :: xs) (Z.to_nat (fst i))) (fun j => fst j < 0) (fun j => fst j < 1) m (0, 0) x Hg); cbn.
    + lia.
    + reflexivity.
    + intros [j1 j2]; cbn. intros Hj. split; [intros H1|intros [H1|[= -> ->]]; lia]. right; f_equal; lia.
    + apply progress_init. intros [j1 j2]; cbn. lia.
  - intros m' P. eapply wp_mono.
    + apply (vfill_rest_ok cb v m (x :: xs) Hg Hl xs [x] m' eq_refl). cbn. exact P.
    + intros m2 P2. eapply progress_done in P2; [exact P2|]. intros i [Hi _]. cbn; lia.
Qed.

Lemma vfill_rest_bad cb v xs : well_typed (OV v) -> forall N m, 0 <= N -> in_mem m (OV v) -> N + Z.of_nat (length xs) <> vn v ->
  N <= vn v ->
  vfill_rest cb v N xs m = CompileError \/ vfill_rest cb v N xs m = Abort DUnderfill \/ vfill_rest cb v N xs m = Abort DOverfill.
Proof.
  intros Hwt. induction xs as [|x xs IH]; intros N m H0 Hin Hne Hle; cbn [vfill_rest].
  - cbn in Hne. replace (N <? vn v) with true by lia. auto.
  - cbn [length] in Hne. unfold check_overfill. destruct Hwt as [HS Hn].
    destruct (vS v =? -1) eqn:E.
    + destruct (vn v <=? N) eqn:E2; cbn [bind]; [auto|].
      rewrite vset_ok by lia. destruct (Hin (N, 0)) as [w Hw]; [cbn; lia|].
      destruct (store_ok m (vaddr v N) x w Hw) as (m' & Hs & _ & Hsc & _). rewrite Hs. cbn [bind].
      apply IH; [lia| |lia|lia]. eapply in_mem_same_cells; eauto.
    + destruct (vS v <=? N) eqn:E2; cbn [bind]; [auto|].
      rewrite vset_ok by lia. destruct (Hin (N, 0)) as [w Hw]; [cbn; lia|].
      destruct (store_ok m (vaddr v N) x w Hw) as (m' & Hs & _ & Hsc & _). rewrite Hs. cbn [bind].
      apply IH; [lia| |lia|lia]. eapply in_mem_same_cells; eauto.
Qed.
Lemma vfill_bad cb v m x xs : good m (OV v) -> (Z.of_nat (length (x :: xs)) <> vn v \/ xs = []) ->
  vfill cb v x xs m = CompileError \/ vfill cb v x xs m = Abort DUnderfill \/ vfill cb v x xs m = Abort DOverfill.
Proof.
  intros (Hwt & Hin & _) Hne. unfold vfill, check_overfill. pose proof Hwt as [HS Hn].
  assert (K : 2 <= vn v -> (m' <- vset cb m v 0 x ;; vfill_rest cb v 1 xs m') = CompileError \/
     (m' <- vset cb m v 0 x ;; vfill_rest cb v 1 xs m') = Abort DUnderfill \/
     (m' <- vset cb m v 0 x ;; vfill_rest cb v 1 xs m') = Abort DOverfill).
  { intros H2. rewrite vset_ok by lia. destruct (Hin (0, 0)) as [w Hw]; [cbn; lia|].
    destruct (store_ok m (vaddr v 0) x w Hw) as (m' & Hs & _ & Hsc & _). rewrite Hs. cbn [bind].
    apply vfill_rest_bad; auto; try lia.
    - eapply in_mem_same_cells; eauto.
    - destruct Hne as [Hne| ->]; cbn [length] in *; lia. }
  destruct (vS v =? -1) eqn:E.
  - destruct (vn v <=? 1) eqn:E2; cbn [bind]; [auto|]. apply K. lia.
  - destruct (vS v <=? 1) eqn:E2; cbn [bind]; [auto|]. apply K. lia.
Qed.

(** ** matrices *)
Lemma set_rc_ok cb a r c (x : V) m : well_typed (OM a) -> 0 <= r < mr a -> 0 <= c < mc a ->
  set_rc cb a r c x m = store m (maddr a r c) x.
Proof.
  intros (HR & HC & _) Hr Hc. unfold set_rc, mrow. replace ((0 <=? r) && (r <? mr a)) with true by lia. cbn [bind].
  rewrite vset_ok; cbn [vn]; rewrite (slice_size_ok _ _ HC); [|lia]. f_equal. unfold vaddr, maddr; cbn. f_equal; ring.
Qed.
Lemma check_moverfill_ok a N : well_typed (OM a) -> 0 <= N < mr a * mc a -> check_moverfill N (mR a) (mC a) (mr a * mc a) = Ok tt.
Proof.
  intros (HR & HC & _) HN. unfold check_moverfill. destruct ((mR a =? -1) || (mC a =? -1)) eqn:E.
  - replace (mr a * mc a <=? N) with false by lia. reflexivity.
  - destruct HR as [HR|HR]; [lia|]. destruct HC as [HC|HC]; [lia|]. rewrite HR, HC.
    replace (mr a * mc a <=? N) with false by lia. reflexivity.
Qed.
Lemma check_moverfill_over a N : well_typed (OM a) -> mr a * mc a <= N ->
  check_moverfill N (mR a) (mC a) (mr a * mc a) = Abort DOverfill \/ check_moverfill N (mR a) (mC a) (mr a * mc a) = CompileError.
Proof.
  intros (HR & HC & _) HN. unfold check_moverfill. destruct ((mR a =? -1) || (mC a =? -1)) eqn:E.
  - replace (mr a * mc a <=? N) with true by lia. auto.
  - destruct HR as [HR|HR]; [lia|]. destruct HC as [HC|HC]; [lia|]. rewrite HR, HC.
    replace (mr a * mc a <=? N) with true by lia. auto.
Qed.
(** row-major position of an index *)
Definition pos (a : mview) (i : idx) : Z := fst i * mc a + snd i.
Lemma pos_inj a i j : in_range (OM a) i -> in_range (OM a) j -> pos a i = pos a j -> i = j.
Proof.
  destruct i as [i1 i2], j as [j1 j2]; unfold pos; cbn. intros Hi Hj E.
  destruct (lin_inj (mc a) i1 i2 j1 j2); [lia|lia|lia|congruence].
Qed.
Lemma pos_range a i : in_range (OM a) i -> 0 <= pos a i < mr a * mc a.
Proof. destruct i as [i1 i2]; unfold pos; cbn. intros [H1 H2]. nia. Qed.

Lemma mfill_rest_ok cb a m0 (all : list V) : good m0 (OM a) -> Z.of_nat (length all) = mr a * mc a -> 0 < mc a ->
  forall xs pre m r c, all = pre ++ xs -> 0 <= c < mc a -> 0 <= r -> r * mc a + c = Z.of_nat (length pre) ->
  progress m0 (OM a) (fun i => nth_error all (Z.to_nat (pos a i))) (fun j => pos a j < Z.of_nat (length pre)) m ->
  wp (mfill_rest cb a (Z.of_nat (length pre)) r c xs m)
     (progress m0 (OM a) (fun i => nth_error all (Z.to_nat (pos a i))) (fun j => pos a j < mr a * mc a)).
Proof.
  intros Hg Hlen Hmc. induction xs as [|x xs IH]; intros pre m r c Hall Hc Hr Hpos P; cbn [mfill_rest].
  - rewrite app_nil_r in Hall. subst pre. rewrite Hlen in *. replace (r <? mr a) with false by nia. exact P.
  - assert (Hl : (length all = length pre + S (length xs))%nat) by (rewrite Hall, app_length; reflexivity).
    rewrite check_moverfill_ok by (try apply Hg; lia). cbn [bind].
    assert (Hr' : r < mr a) by nia.
    rewrite set_rc_ok by (try apply Hg; lia). apply wp_bind. eapply wp_mono.
    + apply (progress_step m0 (OM a) (fun i => nth_error all (Z.to_nat (pos a i))) (fun j => pos a j < Z.of_nat (length pre)) (fun j => pos a j < Z.of_nat (length (pre ++ [x]))) m (r, c) x Hg).
      * cbn. lia.
      * unfold pos; cbn [fst snd]. rewrite Hpos, Nat2Z.id, Hall, nth_error_app2, Nat.sub_diag by lia. reflexivity.
      * intros j Hj. rewrite app_length; cbn [length]. split.
        -- intros H. destruct (Z.eq_dec (pos a j) (Z.of_nat (length pre))) as [E|E]; [right|left; lia].
           apply (pos_inj a); auto; [cbn; lia|]. unfold pos at 2; cbn. lia.
        -- intros [H| ->]; [lia|]. unfold pos; cbn. lia.
      * exact P.
    + intros m' P'. replace (Z.of_nat (length pre) + 1) with (Z.of_nat (length (pre ++ [x]))) by (rewrite app_length; cbn; lia).
      assert (LL : Z.of_nat (length (pre ++ [x])) = Z.of_nat (length pre) + 1) by (rewrite app_length; cbn; lia).
      destruct (c + 1 =? mc a) eqn:E; apply IH; try (rewrite <- app_assoc; exact Hall); try exact P'; try lia.
Qed.
Lemma mfill_ok cb a m x xs : good m (OM a) -> Z.of_nat (length (x :: xs)) = mr a * mc a -> 2 <= mc a ->
  wp (mfill cb a x xs m) (fun m' =>
    (forall i, in_range (OM a) i -> rd m' (oaddr (OM a) i) = nth_error (x :: xs) (Z.to_nat (pos a i))) /\
    unchanged_outside (fun b => element_of b (OM a)) m m').
Proof.
  intros Hg Hl Hc. unfold mfill. cbn [length] in Hl.
  assert (0 < mr a) by nia. rewrite check_moverfill_ok by (try apply Hg; nia). cbn [bind].
  rewrite set_rc_ok by (try apply Hg; lia). apply wp_bind. eapply wp_mono.
  - apply (progress_step m (OM a) (fun i => nth_error (x :: xs) (Z.to_nat (pos a i))) (fun j => pos a j < 0) (fun j => pos a j < 1) m (0, 0) x Hg).
    + cbn; lia.
    + reflexivity.
    + intros j Hj. split.
      * intros H1. right. apply (pos_inj a); auto; [cbn; lia|]. pose proof (pos_range a j Hj). unfold pos at 2; cbn. lia.
      * intros [H1| ->]; [lia|]. unfold pos; cbn; lia.
    + apply progress_init. intros j H1 Hj. pose proof (pos_range a j Hj). lia.
  - intros m' P. eapply wp_mono.
    + apply (mfill_rest_ok cb a m (x :: xs) Hg Hl ltac:(lia) xs [x] m' 0 1); auto; try lia. 
    + intros m2 P2. eapply progress_done in P2; [exact P2|]. intros i Hi. apply pos_range. exact Hi.
Qed.
Lemma mfill_rest_bad cb a xs : well_typed (OM a) -> 2 <= mc a -> forall N r c m, in_mem m (OM a) ->
  0 <= c < mc a -> 0 <= r -> r * mc a + c = N -> N <= mr a * mc a -> N + Z.of_nat (length xs) <> mr a * mc a ->
  mfill_rest cb a N r c xs m = CompileError \/ mfill_rest cb a N r c xs m = Abort DUnderfill \/ mfill_rest cb a N r c xs m = Abort DOverfill.
Proof.
  intros Hwt Hmc. induction xs as [|x xs IH]; intros N r c m Hin Hc Hr HN Hle Hne; cbn [mfill_rest].
  - cbn in Hne. replace (r <? mr a) with true by nia. auto.
  - cbn [length] in Hne. destruct (Z.eq_dec N (mr a * mc a)) as [E|E].
    + destruct (check_moverfill_over a N Hwt) as [-> | ->]; [lia|cbn; auto|cbn; auto].
    + rewrite check_moverfill_ok by (auto; nia). cbn [bind]. assert (r < mr a) by nia.
      rewrite set_rc_ok by (auto; lia). destruct (Hin (r, c)) as [w Hw]; [cbn; lia|].
      destruct (store_ok m (maddr a r c) x w Hw) as (m' & Hs & _ & Hsc & _). rewrite Hs. cbn [bind].
      assert (Hin' : in_mem m' (OM a)) by (eapply in_mem_same_cells; eauto).
      destruct (c + 1 =? mc a) eqn:E2; apply IH; auto; try lia.
Qed.
Lemma mfill_bad cb a m x xs : good m (OM a) -> 2 <= mc a -> Z.of_nat (length (x :: xs)) <> mr a * mc a ->
  mfill cb a x xs m = CompileError \/ mfill cb a x xs m = Abort DUnderfill \/ mfill cb a x xs m = Abort DOverfill.
Proof.
  intros (Hwt & Hin & _) Hmc Hne. unfold mfill. cbn [length] in Hne. destruct (Z_le_gt_dec (mr a) 0) as [H0|H0].
  - destruct (check_moverfill_over a 0 Hwt) as [-> | ->]; [|cbn; auto|cbn; auto]. pose proof Hwt as (_ & _ & ? & ?). nia.
  - rewrite check_moverfill_ok by (auto; nia). cbn [bind]. rewrite set_rc_ok by (auto; lia).
    destruct (Hin (0, 0)) as [w Hw]; [cbn; lia|].
    destruct (store_ok m (maddr a 0 0) x w Hw) as (m' & Hs & _ & Hsc & _). rewrite Hs. cbn [bind].
    apply mfill_rest_bad; auto; try nia. eapply in_mem_same_cells; eauto.
Qed.
(** one column: the column counter starts at 1 and never meets num_cols() = 1 *)
Lemma mfill_rest_onecol cb a xs : mc a = 1 -> 0 < mr a -> forall N c m, 1 <= c -> forall m', mfill_rest cb a N 0 c xs m <> Ok m'.
Proof.
  intros H1 Hr. induction xs as [|x xs IH]; intros N c m Hc m'; cbn [mfill_rest].
  - replace (0 <? mr a) with true by lia. discriminate.
  - destruct (check_moverfill N (mR a) (mC a) (mr a * mc a)) as [[]| | | | |]; cbn; try discriminate.
    destruct (set_rc cb a 0 c x m) as [m1| | | | |]; cbn; try discriminate.
    rewrite H1. replace (c + 1 =? 1) with false by lia. apply IH. lia.
Qed.

(** ** Data *)
Lemma data_vec_ok cb v m xs : good m (OV v) -> Z.of_nat (length xs) = vn v ->
  exists m', data_vec cb v xs m = Ok m' /\
    (forall i, in_range (OV v) i -> rd m' (oaddr (OV v) i) = nth_error xs (Z.to_nat (fst i))) /\
    unchanged_outside (fun a => element_of a (OV v)) m m'.
Proof.
  intros Hg Hl. unfold data_vec. rewrite Hl, size_ok; [|apply Hg|auto|apply Hg]. cbn [bind].
  apply wp_ok_inv. replace (length xs) with (Z.to_nat (vn v)) by lia.
  eapply wp_mono; [apply (vloop m v (fun i => nth_error xs (Z.to_nat (fst i))) _ Hg)|].
  - intros i mk Hi P. cbn [fst]. destruct (nth_error xs (Z.to_nat i)) as [x|] eqn:E; [|apply nth_error_None in E; lia].
    exists x. split; [reflexivity|]. rewrite Z2Nat.id by lia. apply vset_ok. lia.
  - cbn. intros m' H. exact H.
Qed.
Lemma data_vec_bad cb v m (xs : list V) : well_typed (OV v) -> Z.of_nat (length xs) <> vn v ->
  data_vec cb v xs m = CompileError \/ data_vec cb v xs m = Abort DSizeMismatch.
Proof.
  intros [HS Hn] Hne. unfold data_vec.
  destruct (size_mismatch_exact (vS v) (Z.of_nat (length xs)) (vn v) (Z.of_nat (length xs))) as [_ H]; auto; try lia.
  { unfold Dynamic. tauto. }
  destruct H as [(_ & _ & ->)|(_ & ->)]; [lia|cbn; auto|cbn; auto].
Qed.

Lemma data_mat_ok cb a m xs : good m (OM a) -> mR a = mr a -> mC a = mc a -> Z.of_nat (length xs) = mr a * mc a ->
  exists m', data_mat cb a xs m = Ok m' /\
    (forall i, in_range (OM a) i -> rd m' (oaddr (OM a) i) = nth_error xs (Z.to_nat (pos a i))) /\
    unchanged_outside (fun b => element_of b (OM a)) m m'.
Proof.
  intros Hg HR HC Hl. unfold data_mat.
  assert (Hnn : 0 <= mr a /\ 0 <= mc a) by (destruct Hg as ((_ & _ & ? & ?) & _); auto).
  rewrite HR, HC. replace (mr a =? -1) with false by lia. replace (mc a =? -1) with false by lia.
  rewrite Hl, size_ok; auto; [|nia]. cbn [bind].
  set (f := fun i => nth_error xs (Z.to_nat (pos a i))).
  apply wp_ok_inv. apply wp_bind. eapply wp_mono.
  - apply (wp_for (fun r mn => progress m (OM a) f (fun j => pos a j < Z.of_nat r * mc a) (fst mn) /\ Z.of_nat (snd mn) = Z.of_nat r * mc a)).
    + lia.
    + cbn [fst snd]. split; [|reflexivity]. apply progress_init. intros j H1 Hj. pose proof (pos_range a j Hj). lia.
    + intros r mn Hr [P Hn]. eapply wp_mono.
      * apply (wp_for (fun c mn => progress m (OM a) f (fun j => pos a j < Z.of_nat r * mc a + Z.of_nat c) (fst mn) /\
                                   Z.of_nat (snd mn) = Z.of_nat r * mc a + Z.of_nat c)).
        -- lia.
        -- cbn. rewrite Z.add_0_r. auto.
        -- intros c [mk n] Hc [P' Hn']. cbn [fst snd] in *.
           destruct (nth_error xs n) as [x|] eqn:Ex; [|apply nth_error_None in Ex; nia].
           rewrite set_rc_ok by (try apply Hg; lia). apply wp_bind. eapply wp_mono.
           ++ apply (progress_step m (OM a) f (fun j => pos a j < Z.of_nat r * mc a + Z.of_nat c)
                (fun j => pos a j < Z.of_nat r * mc a + Z.of_nat (S c)) mk (Z.of_nat r, Z.of_nat c) x Hg).
              ** cbn; lia.
              ** unfold f, pos; cbn [fst snd]. rewrite <- Hn', Nat2Z.id. exact Ex.
              ** intros j Hj. split.
                 --- intros H. destruct (Z.eq_dec (pos a j) (Z.of_nat r * mc a + Z.of_nat c)) as [E|E]; [right|left; lia].
                     apply (pos_inj a); auto; cbn; lia.
                 --- intros [H| ->]; [lia|]. unfold pos; cbn [fst snd]; lia.
              ** exact P'.
           ++ intros m' P''. cbn. split; [exact P''|lia].
      * intros [mk n] [P' Hn']. cbn [fst snd] in *. rewrite Z2Nat.id in * by lia. split; [|lia].
        eapply progress_ext; [|exact P']. intros; lia.
  - intros [mk n] [P Hn]. cbn [fst snd] in *. cbn. eapply progress_done in P; [exact P|].
    intros i Hi. pose proof (pos_range a i Hi). rewrite Z2Nat.id by lia. lia.
Qed.
Lemma data_mat_bad cb a m (xs : list V) : well_typed (OM a) -> Z.of_nat (length xs) <> mr a * mc a ->
  data_mat cb a xs m = CompileError \/ data_mat cb a xs m = Abort DSizeMismatch.
Proof.
  intros (HR & HC & Hr & Hc) Hne. unfold data_mat.
  set (RC := if mR a =? -1 then -1 else if mC a =? -1 then -1 else mR a * mC a).
  destruct (size_mismatch_exact RC (Z.of_nat (length xs)) (mr a * mc a) (Z.of_nat (length xs))) as [_ H]; auto; try lia; try nia.
  { unfold RC, Dynamic. destruct (mR a =? -1) eqn:E1; [auto|]. destruct (mC a =? -1) eqn:E2; [auto|].
    destruct HR as [HR|HR]; [lia|]. destruct HC as [HC|HC]; [lia|]. rewrite HR, HC. auto. }
  destruct H as [(_ & _ & ->)|(_ & ->)]; [lia|cbn; auto|cbn; auto].
Qed.
Lemma data_mat_dyn cb a m (xs : list V) : well_typed (OM a) -> (mR a = -1 \/ mC a = -1) -> Z.of_nat (length xs) = mr a * mc a ->
  data_mat cb a xs m = Ok m.
Proof.
  intros (HR & HC & Hr & Hc) Hd Hl. unfold data_mat.
  replace (if mR a =? -1 then -1 else if mC a =? -1 then -1 else mR a * mC a) with (-1).
  2:{ destruct (mR a =? -1) eqn:E1; [reflexivity|]. destruct (mC a =? -1) eqn:E2; [reflexivity|]. lia. }
  rewrite Hl, size_ok; auto; [|nia]. cbn [bind]. unfold for_. rewrite !Nat.sub_0_r.
  assert (E : forall k c0 lo (body : nat -> nat -> mem V * nat -> outcome (mem V * nat)) s,
     (c0 = 0%nat \/ k = 0%nat) -> for_up k lo (fun r mn => for_up c0 0 (body r) mn) s = Ok s).
  { induction k as [|k IH]; intros c0 lo body s H; cbn [for_up]; [reflexivity|]. destruct H as [H|H]; [|lia].
    subst c0. change (for_up k (S lo) (fun r mn => for_up 0 0 (body r) mn) s = Ok s). apply IH. auto. }
  match goal with |- bind ?e _ = _ => assert (E2 : e = Ok (m, 0%nat)) end.
  { apply (E (Z.to_nat (mR a)) (Z.to_nat (mC a)) 0%nat (fun r c mn => let '(m, n) := mn in
     match nth_error xs n with
     | Some x => m' <- set_rc cb a (Z.of_nat r) (Z.of_nat c) x m ;; Ok (m', S n)
     | None => UB end) (m, 0%nat)).
    destruct Hd as [H|H]; rewrite H; auto. }
  rewrite E2. reflexivity.
Qed.
Lemma make_vec_ok cb v m0 (all : list V) : good m0 (OV v) -> Z.of_nat (length all) = vn v ->
  wp (make_vector cb v all m0) (fun m' =>
    (forall i, in_range (OV v) i -> rd m' (oaddr (OV v) i) = nth_error all (Z.to_nat (fst i))) /\
    unchanged_outside (fun a => element_of a (OV v)) m0 m').
Proof.
  intros Hg Hl.
  assert (G : forall xs pre m, all = pre ++ xs ->
    progress m0 (OV v) (fun i => nth_error all (Z.to_nat (fst i))) (fun j => fst j < Z.of_nat (length pre)) m ->
    wp (make_vec_from cb v (Z.of_nat (length pre)) xs m)
     (progress m0 (OV v) (fun i => nth_error all (Z.to_nat (fst i))) (fun j => fst j < vn v))).
  { induction xs as [|x xs IH]; intros pre m Hall P; cbn [make_vec_from].
    - rewrite app_nil_r in Hall. subst pre. rewrite Hl in *. exact P.
    - assert (Hl' : (length all = length pre + S (length xs))%nat) by (rewrite Hall, app_length; reflexivity).
      rewrite vset_ok by lia. apply wp_bind. eapply wp_mono.
      + apply (progress_step m0 (OV v) (fun i => nth_error all (Z.to_nat (fst i))) (fun j => fst j < Z.of_nat (length pre)) (fun j => fst j < Z.of_nat (length (pre ++ [x]))) m (Z.of_nat (length pre), 0) x Hg).
        * cbn. lia.
        * cbn. rewrite Nat2Z.id, Hall, nth_error_app2, Nat.sub_diag by lia. reflexivity.
        * intros [j1 j2]. cbn. intros Hj. rewrite app_length; cbn. split; [intros H|intros [H|[= -> ->]]; lia].
          destruct (Z.eq_dec j1 (Z.of_nat (length pre))); [right; f_equal; lia|left; lia].
        * exact P.
      + intros m' P'. replace (Z.of_nat (length pre) + 1) with (Z.of_nat (length (pre ++ [x]))) by (rewrite app_length; cbn; lia).
        apply IH; [rewrite <- app_assoc; exact Hall|exact P']. }
  eapply wp_mono; [apply (G all [] m0 eq_refl)|].
  - apply progress_init. intros [j1 j2]; cbn; lia.
  - intros m' P. eapply progress_done in P; [exact P|]. intros i [Hi _]; cbn; lia.
Qed.

(** ** Streams *)
Variable show : V -> text.
Variable parse : text -> option (V * text).
Variable pad : V -> nat.
Definition white (t : text) : Prop := forall c, In c t -> is_white c = true.
Definition at_break (t : text) : Prop := match t with [] => True | c :: _ => is_white c = true end.
Hypothesis show_starts : forall x, exists c t, show x = c :: t /\ is_white c = false.
Hypothesis parse_show : forall x t, at_break t -> parse (show x ++ t) = Some (x, t).

Lemma skip_white_app w x t : white w -> skip_white (w ++ show x ++ t) = show x ++ t.
Proof.
  induction w as [|c w IH]; intros Hw; cbn [app skip_white].
  - destruct (show_starts x) as (c & t' & E & Hc). rewrite E. cbn. rewrite Hc. reflexivity.
  - rewrite (Hw c) by (left; reflexivity). apply IH. intros d Hd. apply Hw. right; exact Hd.
Qed.
Lemma extract_ok w x t : white w -> at_break t -> extract parse (w ++ show x ++ t) = Some (x, t).
Proof. intros Hw Ht. unfold extract. rewrite skip_white_app by exact Hw. apply parse_show. exact Ht. Qed.
Inductive yields : text -> list V -> text -> Prop :=
| Y0 t : yields t [] t
| Y1 w x t vals rest : white w -> at_break t -> yields t vals rest -> yields (w ++ show x ++ t) (x :: vals) rest.
Lemma white_repeat n : white (repeat Blank n).
Proof. intros c H. apply repeat_spec in H. subst. reflexivity. Qed.
Lemma white_app a b : white a -> white b -> white (a ++ b).
Proof. intros Ha Hb c H. apply in_app_or in H as [H|H]; auto. Qed.
(** leading white space does not matter, as long as something is read *)
Lemma yields_white w t vals rest : white w -> yields t vals rest -> exists w', white w' /\ 
  (vals <> [] -> w' = []) /\ (yields (w ++ t) vals (w' ++ rest)).
Proof.
  intros Hw Y. destruct Y as [t|w0 x t vals rest Hw0 Ht Y].
  - exists w. split; [exact Hw|]. split; [congruence|]. constructor.
  - exists []. split; [intros c []|]. split; [auto|]. rewrite app_assoc. constructor; auto using white_app.
Qed.

Lemma skipn_cons {A} (vals : list A) k x l : skipn k vals = x :: l -> nth_error vals k = Some x /\ skipn (S k) vals = l.
Proof.
  revert vals. induction k as [|k IH]; intros [|y vals] E; try discriminate.
  - cbn in E. injection E as -> ->. split; reflexivity.
  - destruct (IH vals E). split; auto.
Qed.
Lemma read_vec_ok cb v m t vals rest : good m (OV v) -> Z.of_nat (length vals) = vn v -> yields t vals rest ->
  wp (read_vec parse cb v t m) (fun r => snd r = Some rest /\
    (forall i, in_range (OV v) i -> rd (fst r) (oaddr (OV v) i) = nth_error vals (Z.to_nat (fst i))) /\
    unchanged_outside (fun a => element_of a (OV v)) m (fst r)).
Proof.
  intros Hg Hl Y. unfold read_vec.
  set (f := fun i : idx => nth_error vals (Z.to_nat (fst i))).
  eapply wp_mono.
  - apply (wp_for (fun k s => progress m (OV v) f (fun j => fst j < Z.of_nat k) (fst s) /\
       exists t', snd s = Some t' /\ yields t' (skipn k vals) rest)).
    + lia.
    + cbn [fst snd]. split; [apply progress_init; intros [j1 j2]; cbn; lia|]. exists t. auto.
    + intros k [mk ot] Hk [P (t' & E & Y')]. cbn [fst snd] in *. subst ot.
      destruct (skipn k vals) as [|x vals'] eqn:Es.
      { apply (f_equal (@length V)) in Es. rewrite skipn_length in Es. cbn in Es. lia. }
      destruct (skipn_cons _ _ _ _ Es) as [Ex Es'].
      inversion Y' as [|w x0 t1 v1 r1 Hw Ht Y1]; subst x0 v1 r1 t'.
      rewrite extract_ok by auto. rewrite vset_ok by lia. apply wp_bind. eapply wp_mono.
      * apply (progress_step m (OV v) f (fun j => fst j < Z.of_nat k) (fun j => fst j < Z.of_nat (S k)) mk (Z.of_nat k, 0) x Hg).
        -- cbn; lia.
        -- unfold f; cbn [fst]. rewrite Nat2Z.id. exact Ex.
        -- intros [j1 j2] Hj; cbn [fst in_range] in *. split; [intros H|intros [H|[= -> ->]]; lia].
           destruct (Z.eq_dec j1 (Z.of_nat k)); [right; f_equal; cbn in *; lia|left; lia].
        -- exact P.
      * intros m' P'. cbn. split; [exact P'|]. exists t1. split; [reflexivity|]. rewrite <- Es' in Y1. exact Y1.
  - intros [mk ot] [P (t' & E & Y')]. cbn [fst snd] in *. rewrite skipn_all2 in Y' by lia.
    inversion Y'; subst. split; [reflexivity|]. rewrite Z2Nat.id in P by (destruct Hg as ((_ & ?) & _); lia).
    eapply progress_done in P; [exact P|]. intros i [Hi _]; cbn in *; lia.
Qed.
Lemma read_mat_ok cb a m t vals rest : good m (OM a) -> Z.of_nat (length vals) = mr a * mc a -> yields t vals rest ->
  wp (read_mat parse cb a t m) (fun r => snd r = Some rest /\
    (forall i, in_range (OM a) i -> rd (fst r) (oaddr (OM a) i) = nth_error vals (Z.to_nat (pos a i))) /\
    unchanged_outside (fun b => element_of b (OM a)) m (fst r)).
Proof.
  intros Hg Hl Y. unfold read_mat.
  assert (Hnn : 0 <= mr a /\ 0 <= mc a) by (destruct Hg as ((_ & _ & ? & ?) & _); auto).
  set (f := fun i : idx => nth_error vals (Z.to_nat (pos a i))).
  set (J := fun (n : nat) (s : mem V * option text) => progress m (OM a) f (fun j => pos a j < Z.of_nat n) (fst s) /\
       exists t', snd s = Some t' /\ yields t' (skipn n vals) rest).
  eapply wp_mono.
  - apply (wp_for (fun r s => J (r * Z.to_nat (mc a))%nat s)).
    + lia.
    + split; cbn [fst snd]; [apply progress_init; intros j Hj Hr; pose proof (pos_range a j Hr); cbn in Hj; lia|]. exists t. auto.
    + intros r s Hr HJ. eapply wp_mono.
      * apply (wp_for (fun c s => J (r * Z.to_nat (mc a) + c)%nat s)); [lia|rewrite Nat.add_0_r; exact HJ|].
        intros c [mk ot] Hc [P (t' & E & Y')]. cbn [fst snd] in *. subst ot.
        set (k := (r * Z.to_nat (mc a) + c)%nat) in *.
        assert (Hk : (k < length vals)%nat) by (unfold k; nia).
        assert (Kz : Z.of_nat k = Z.of_nat r * mc a + Z.of_nat c) by (unfold k; nia).
        destruct (skipn k vals) as [|x vals'] eqn:Es.
        { apply (f_equal (@length V)) in Es. rewrite skipn_length in Es. cbn in Es. lia. }
        destruct (skipn_cons _ _ _ _ Es) as [Ex Es'].
        inversion Y' as [|w x0 t1 v1 r1 Hw Ht Y1]; subst x0 v1 r1 t'.
        rewrite extract_ok by auto. rewrite mset_ok by lia. apply wp_bind. eapply wp_mono.
        -- apply (progress_step m (OM a) f (fun j => pos a j < Z.of_nat k) (fun j => pos a j < Z.of_nat (S k)) mk (Z.of_nat r, Z.of_nat c) x Hg).
           ++ cbn; lia.
           ++ unfold f, pos; cbn [fst snd]. rewrite <- Kz, Nat2Z.id. exact Ex.
           ++ intros j Hj. split.
              ** intros H. destruct (Z.eq_dec (pos a j) (Z.of_nat k)) as [E|E]; [right|left; lia].
                 apply (pos_inj a); auto; [cbn; lia|]. unfold pos at 2; cbn [fst snd]. lia.
              ** intros [H| ->]; [lia|]. unfold pos; cbn [fst snd]; lia.
           ++ exact P.
        -- intros m' P'. cbn. unfold J. replace (r * Z.to_nat (mc a) + S c)%nat with (S k) by (unfold k; lia).
           split; [exact P'|]. exists t1. split; [reflexivity|]. rewrite <- Es' in Y1. exact Y1.
      * intros s' H'. replace (S r * Z.to_nat (mc a))%nat with (r * Z.to_nat (mc a) + Z.to_nat (mc a))%nat by lia. exact H'.
  - intros [mk ot] [P (t' & E & Y')]. cbn [fst snd] in *. rewrite skipn_all2 in Y' by nia.
    inversion Y'; subst. split; [reflexivity|].
    eapply progress_done in P; [exact P|]. intros i Hi. pose proof (pos_range a i Hi). nia.
Qed.

(** ** What is printed *)
Definition vec_text (vals : list V) : text := flat_map (fun x => emit show pad x ++ [Blank]) vals.
Lemma print_vec_ok cb m v vals : Z.of_nat (length vals) = vn v ->
  (forall i, (i < length vals)%nat -> rd m (vaddr v (Z.of_nat i)) = nth_error vals i) ->
  print_vec show pad cb m v = Ok (vec_text vals).
Proof.
  intros Hl Hv. assert (H : wp (print_vec show pad cb m v) (fun t => t = vec_text (firstn (length vals) vals))).
  { unfold print_vec. replace (Z.to_nat (vn v)) with (length vals) by lia.
    apply (wp_for (fun k t => t = vec_text (firstn k vals))); [lia|reflexivity|].
    intros i t Hi ->. destruct (nth_error vals i) as [x|] eqn:E; [|apply nth_error_None in E; lia].
    rewrite (vget_ok cb m v (Z.of_nat i) x) by (try lia; rewrite Hv by lia; exact E). cbn.
    clear - E. revert i E. induction vals as [|y vals IH]; intros [|i] E; cbn in *; try discriminate.
    - injection E as ->. rewrite app_nil_r. reflexivity.
    - rewrite <- app_assoc. f_equal. apply IH. exact E. }
  apply wp_ok_inv in H as (t & -> & ->). rewrite firstn_all. reflexivity.
Qed.
Lemma vec_text_yields vals rest : exists w, white w /\ yields (vec_text vals ++ rest) vals (w ++ rest).
Proof.
  induction vals as [|x vals (w & Hw & Y)]; cbn [vec_text flat_map].
  - exists []. split; [intros c []|]. constructor.
  - fold (vec_text vals). unfold emit. rewrite <- !app_assoc.
    destruct (yields_white [Blank] _ _ _ ltac:(intros c [<-|[]]; reflexivity) Y) as (w' & Hw' & _ & Y').
    exists (w' ++ w). split; [apply white_app; auto|]. rewrite <- app_assoc.
    constructor; [apply white_repeat|reflexivity|exact Y'].
Qed.
Definition row_text (l : list V) : text :=
  match l with [] => [] | x :: t => emit show pad x ++ flat_map (fun y => Blank :: emit show pad y) t end.
Definition mat_text (rows : list (list V)) : text := flat_map (fun l => row_text l ++ [Newline]) rows.
Lemma row_text_snoc l x : row_text (l ++ [x]) = row_text l ++ (match l with [] => [] | _ => [Blank] end) ++ emit show pad x.
Proof.
  destruct l as [|y l]; cbn.
  - rewrite app_nil_r. reflexivity.
  - rewrite flat_map_app. cbn. rewrite app_nil_r, <- app_assoc. reflexivity.
Qed.
Lemma firstn_snoc {A} (l : list A) i x : nth_error l i = Some x -> firstn (S i) l = firstn i l ++ [x].
Proof. revert i; induction l as [|a l IH]; intros [|i] E; cbn in *; try discriminate; [congruence|]. f_equal. apply IH. exact E. Qed.
Lemma print_mat_ok cb m a rows : Z.of_nat (length rows) = mr a -> 0 <= mc a ->
  (forall i l, nth_error rows i = Some l -> Z.of_nat (length l) = mc a /\
     forall j, (j < length l)%nat -> rd m (maddr a (Z.of_nat i) (Z.of_nat j)) = nth_error l j) ->
  print_mat show pad cb m a = Ok (mat_text rows).
Proof.
  intros Hl Hc0 Hv. assert (H : wp (print_mat show pad cb m a) (fun t => t = mat_text (firstn (length rows) rows))).
  { unfold print_mat. replace (Z.to_nat (mr a)) with (length rows) by lia.
    apply (wp_for (fun k t => t = mat_text (firstn k rows))); [lia|reflexivity|].
    intros i t Hi ->. destruct (nth_error rows i) as [l|] eqn:E; [|apply nth_error_None in E; lia].
    destruct (Hv i l E) as [Hll Hrow]. apply wp_bind. eapply wp_mono.
    - apply (wp_for (fun j t => t = mat_text (firstn i rows) ++ row_text (firstn j l))); [lia|cbn; rewrite app_nil_r; reflexivity|].
      intros j t Hj ->. destruct (nth_error l j) as [x|] eqn:Ex; [|apply nth_error_None in Ex; lia].
      rewrite (mget_ok cb m a (Z.of_nat i) (Z.of_nat j) x) by (try lia; rewrite Hrow by lia; exact Ex). cbn [bind wp].
      rewrite (firstn_snoc l j x Ex), row_text_snoc, <- app_assoc. do 2 f_equal. f_equal.
      destruct j; cbn; [destruct l; reflexivity|]. destruct l; [discriminate|reflexivity].
    - intros t ->. cbn [bind wp]. rewrite (firstn_snoc rows i l E). unfold mat_text. rewrite flat_map_app. cbn.
      rewrite app_nil_r, <- app_assoc. replace (Z.to_nat (mc a)) with (length l) by lia. rewrite firstn_all. reflexivity. }
  apply wp_ok_inv in H as (t & -> & ->). rewrite firstn_all. reflexivity.
Qed.
Lemma row_text_yields l t vals rest : at_break t -> yields t vals rest -> exists w, white w /\ (vals <> [] \/ l <> [] -> w = []) /\
   yields (row_text l ++ t) (l ++ vals) (w ++ rest).
Proof.
  intros Ht Y. destruct l as [|x l]; cbn [row_text].
  - exists []. split; [intros c []|]. split; [auto|exact Y].
  - exists []. split; [intros c []|]. split; [auto|]. cbn [app]. unfold emit at 1. rewrite <- !app_assoc.
    constructor; [apply white_repeat| |].
    + destruct l; cbn; [exact Ht|reflexivity].
    + induction l as [|y l IH]; cbn [flat_map app]; [exact Y|]. unfold emit. rewrite <- !app_assoc.
      change (Blank :: (repeat Blank (pad y) ++ show y ++ flat_map (fun y0 => Blank :: repeat Blank (pad y0) ++ show y0) l ++ t))
        with ((Blank :: repeat Blank (pad y)) ++ show y ++ (flat_map (fun y0 => Blank :: repeat Blank (pad y0) ++ show y0) l ++ t)).
      constructor.
      * intros c [<-|Hc]; [reflexivity|]. apply white_repeat in Hc. exact Hc.
      * destruct l; cbn; [exact Ht|reflexivity].
      * exact IH.
Qed.
Lemma mat_text_yields rows rest : exists w, white w /\ yields (mat_text rows ++ rest) (concat rows) (w ++ rest).
Proof.
  induction rows as [|l rows (w & Hw & Y)]; cbn [mat_text flat_map concat].
  - exists []. split; [intros c []|]. constructor.
  - fold (mat_text rows). rewrite <- !app_assoc.
    destruct (yields_white [Newline] _ _ _ ltac:(intros c [<-|[]]; reflexivity) Y) as (w' & Hw' & _ & Y').
    destruct (row_text_yields l ([Newline] ++ mat_text rows ++ rest) (concat rows) (w' ++ w ++ rest)) as (w2 & Hw2 & _ & Y2).
    + reflexivity.
    + exact Y'.
    + exists (w2 ++ w' ++ w). split; [auto using white_app|]. rewrite <- !app_assoc. exact Y2.
Qed.
Lemma opt_list (f : nat -> option V) n : (forall i, (i < n)%nat -> f i <> None) ->
  exists l, length l = n /\ forall i, (i < n)%nat -> nth_error l i = f i.
Proof.
  induction n as [|n IH]; intros H; [exists []; split; [reflexivity|lia]|].
  destruct IH as (l & Hl & Hn); [intros; apply H; lia|]. destruct (f n) as [x|] eqn:E; [|destruct (H n); auto].
  exists (l ++ [x]). rewrite app_length; cbn. split; [lia|]. intros i Hi. destruct (Nat.eq_dec i n) as [->|].
  - rewrite nth_error_app2, Hl, Nat.sub_diag by lia. auto.
  - rewrite nth_error_app1 by lia. apply Hn. lia.
Qed.
Lemma opt_rows (f : nat -> nat -> option V) n c : (forall i j, (i < n)%nat -> (j < c)%nat -> f i j <> None) ->
  exists rows, length rows = n /\ (forall i l, nth_error rows i = Some l -> length l = c /\ forall j, (j < c)%nat -> nth_error l j = f i j) /\
    length (concat rows) = (n * c)%nat /\
    (forall i j, (i < n)%nat -> (j < c)%nat -> nth_error (concat rows) (i * c + j) = f i j).
Proof.
  induction n as [|n IH]; intros H.
  - exists []. split; [reflexivity|]. split; [intros [|i] l E; discriminate|]. split; [reflexivity|]. intros; lia.
  - destruct IH as (rows & Hl & Hr & Hcl & Hc); [intros; apply H; lia|].
    destruct (opt_list (f n) c) as (l & Hll & Hln); [intros; apply H; lia|].
    exists (rows ++ [l]). rewrite app_length; cbn [length]. split; [lia|]. rewrite concat_app. cbn [concat]. rewrite app_nil_r.
    split; [|split].
    + intros i l' E. destruct (Nat.eq_dec i n) as [->|Ne].
      * rewrite nth_error_app2, Hl, Nat.sub_diag in E by lia. cbn in E. injection E as <-. auto.
      * rewrite nth_error_app1 in E.
        -- apply (Hr i l' E).
        -- assert (i < length (rows ++ [l]))%nat by (apply nth_error_Some; congruence). rewrite app_length in *; cbn in *; lia.
    + rewrite app_length. lia.
    + intros i j Hi Hj. destruct (Nat.eq_dec i n) as [->|Ne].
      * rewrite nth_error_app2 by nia. replace (n * c + j - length (concat rows))%nat with j by lia. apply Hln. exact Hj.
      * rewrite nth_error_app1 by nia. apply Hc; lia.
Qed.
End L.
