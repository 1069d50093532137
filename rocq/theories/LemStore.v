(** * Proofs about the storage model. *)
From Coq Require Import ZArith List Bool Arith Lia ZifyBool.
From Verif Require Import Base ModelSize LemSize ModelStore SpecStore.
Import ListNotations.
Open Scope nat_scope.
Open Scope outcome_scope.

Section L.
Context {V : Type}.
Implicit Types (s : state V) (l : list V) (h : @heap V).

(** ** Lists *)
Lemma list_put_len l i v : length (list_put l i v) = length l.
Proof. revert i; induction l as [|a l IH]; intros [|i]; cbn; auto. Qed.
Lemma list_put_nth l i v j :
  nth_error (list_put l i v) j = if (i =? j) && (i <? length l) then Some v else nth_error l j.
Proof.
  revert i j; induction l as [|a l IH]; intros [|i] [|j]; cbn; auto.
  - destruct (i =? j); reflexivity.
  - rewrite IH. reflexivity.
Qed.
Lemma hp_put_len h b c : length (hp_put h b c) = length h.
Proof. revert b; induction h as [|a l IH]; intros [|i]; cbn; auto. Qed.
Lemma hp_put_nth h b c j :
  nth_error (hp_put h b c) j = if (b =? j) && (b <? length h) then Some c else nth_error h j.
Proof.
  revert b j; induction h as [|a l IH]; intros [|i] [|j]; cbn; auto.
  - destruct (i =? j); reflexivity.
  - rewrite IH. reflexivity.
Qed.

(** ** Abstraction of a state *)
Definition contents h (r : rep V) : option (list V) :=
  match r with
  | OnStack l | StdVec l => Some l
  | OnHeap _ p | DynHeap _ (Some p) => match nth_error h p with Some (Some l) => Some l | _ => None end
  | DynHeap _ None => None
  end.
Definition cells s x : option (list V) :=
  match objs s x with Some r => contents (hp s) r | None => None end.
Definition owns (r : rep V) : option nat :=
  match r with OnHeap _ p => Some p | DynHeap _ p => p | _ => None end.
Definition owner s x : option nat := match objs s x with Some r => owns r | None => None end.
Definition moved (r : rep V) : option nat := match r with DynHeap n None => Some n | _ => None end.
Definition shape s x := option_map (fun r => (rkind r, moved r)) (objs s x).
Record wf s : Prop := mk_wf {
  wf_own : forall x y p, owner s x = Some p -> owner s y = Some p -> x = y;
  wf_leak : forall p l, nth_error (hp s) p = Some (Some l) -> exists x, owner s x = Some p;
  wf_obj : forall x r, objs s x = Some r ->
     (exists l, contents (hp s) r = Some l /\ length l = rsize r) \/ (exists n, r = DynHeap n None) }.

Lemma set_obj_same o x (r : option (rep V)) : set_obj o x r x = r.
Proof. unfold set_obj. rewrite Nat.eqb_refl. reflexivity. Qed.
Lemma set_obj_other o x y (r : option (rep V)) : x <> y -> set_obj o x r y = o y.
Proof. intros H. unfold set_obj. destruct (Nat.eqb_spec x y); [contradiction|reflexivity]. Qed.

Lemma cells_inv s x l : cells s x = Some l -> exists r, objs s x = Some r /\ contents (hp s) r = Some l.
Proof. unfold cells. destruct (objs s x) as [r|]; [eauto|discriminate]. Qed.
Lemma cells_len s x l : wf s -> cells s x = Some l -> exists r, objs s x = Some r /\ rsize r = length l.
Proof.
  intros W H. apply cells_inv in H as (r & Hr & Hc). exists r. split; [exact Hr|].
  destruct (wf_obj s W x r Hr) as [(l' & Hc' & Hl)|(n & ->)]; [congruence|discriminate].
Qed.
Lemma osize_ok s x l : wf s -> cells s x = Some l -> osize s x = Ok (length l).
Proof. intros W H. destruct (cells_len s x l W H) as (r & Hr & Hl). unfold osize, get_rep. rewrite Hr. cbn. congruence. Qed.
Lemma okind_ok s x k mv : shape s x = Some (k, mv) -> okind s x = Ok k.
Proof. unfold shape, okind, get_rep. destruct (objs s x); cbn; [|discriminate]. intros [= <- <-]. reflexivity. Qed.
Lemma el_get_ok s x l i v : cells s x = Some l -> nth_error l i = Some v -> el_get s x i = Ok v.
Proof.
  intros H Hi. apply cells_inv in H as (r & Hr & Hc). unfold el_get, get_rep. rewrite Hr. cbn.
  destruct r as [l'|n p|n [p|]|l']; cbn in *; unfold list_get.
  1,5: injection Hc as ->; rewrite Hi; reflexivity.
  1,2: destruct (nth_error (hp s) p) as [[l'|]|]; try discriminate; injection Hc as ->; rewrite Hi; reflexivity.
  discriminate.
Qed.

Definition same_shape s s' := forall y, shape s' y = shape s y.
(** writing one element of a live vector *)
Lemma el_set_ok s x l i v : wf s -> cells s x = Some l -> i < length l ->
  exists s', el_set s x i v = Ok s' /\ wf s' /\ cells s' x = Some (list_put l i v) /\
    (forall y, y <> x -> cells s' y = cells s y) /\ same_shape s s'.
Proof.
  intros W H Hi. apply cells_inv in H as (r & Hr & Hc). unfold el_set, get_rep. rewrite Hr. cbn [bind].
  assert (St : forall (mk : list V -> rep V),
     (forall a, contents (hp s) (mk a) = Some a) -> (forall a, rsize (mk a) = length a) ->
     (forall a, owns (mk a) = None) -> (forall a, moved (mk a) = None) ->
     (forall a, rkind (mk a) = rkind (mk l) \/ length a <> length l) -> r = mk l ->
     exists s', (l' <- list_set l i v ;; Ok (mkst (hp s) (set_obj (objs s) x (Some (mk l'))))) = Ok s' /\
       wf s' /\ cells s' x = Some (list_put l i v) /\ (forall y, y <> x -> cells s' y = cells s y) /\ same_shape s s').
  { intros mk M1 M2 M3 M4 M5 E. unfold list_set. replace (i <? length l) with true by lia. cbn [bind].
    eexists. split; [reflexivity|].
    assert (OW : forall y, owner (mkst (hp s) (set_obj (objs s) x (Some (mk (list_put l i v))))) y = owner s y).
    { intros y. unfold owner; cbn. unfold set_obj. destruct (Nat.eqb_spec x y) as [<-|]; [|reflexivity].
      rewrite Hr, E, !M3. reflexivity. }
    split; [|split; [|split]].
    - split.
      + intros a b p. rewrite !OW. apply (wf_own s W).
      + intros p a Hp. destruct (wf_leak s W p a Hp) as [z Hz]. exists z. rewrite OW. exact Hz.
      + intros y ry. cbn. unfold set_obj. destruct (Nat.eqb_spec x y) as [<-|].
        * intros [= <-]. left. eexists. split; [apply M1|]. symmetry; apply M2.
        * apply (wf_obj s W).
    - unfold cells; cbn. rewrite set_obj_same. apply M1.
    - intros y Hy. unfold cells; cbn. rewrite set_obj_other by auto. reflexivity.
    - intros y. unfold shape; cbn. unfold set_obj. destruct (Nat.eqb_spec x y) as [<-|]; [|reflexivity].
      rewrite Hr, E. cbn. rewrite !M4. destruct (M5 (list_put l i v)) as [->|N]; [reflexivity|].
      rewrite list_put_len in N. contradiction. }
  assert (Hp : forall p, owns r = Some p -> contents (hp s) r = match nth_error (hp s) p with Some (Some a) => Some a | _ => None end ->
     exists s', (h' <- hp_set (hp s) (Some p) i v ;; Ok (mkst h' (objs s))) = Ok s' /\
       wf s' /\ cells s' x = Some (list_put l i v) /\ (forall y, y <> x -> cells s' y = cells s y) /\ same_shape s s').
  { intros p Hown Hcp. rewrite Hc in Hcp. destruct (nth_error (hp s) p) as [[a|]|] eqn:Ep; try discriminate.
    injection Hcp as ->. unfold hp_set. rewrite Ep. unfold list_set. replace (i <? length a) with true by lia. cbn [bind].
    eexists. split; [reflexivity|].
    assert (Hlt : p < length (hp s)) by (apply nth_error_Some; rewrite Ep; discriminate).
    assert (CT : forall y ry, objs s y = Some ry ->
       contents (hp_put (hp s) p (Some (list_put a i v))) ry =
       if Nat.eqb y x then Some (list_put a i v) else contents (hp s) ry).
    { intros y ry Hy. destruct (Nat.eqb_spec y x) as [->|Ne].
      - assert (ry = r) by congruence. subst ry.
        destruct r as [?|n q|n [q|]|?]; cbn in Hown; try discriminate; injection Hown as ->; cbn;
          rewrite hp_put_nth, Nat.eqb_refl; replace (p <? length (hp s)) with true by lia; reflexivity.
      - assert (NE : owns ry <> Some p).
        { intros E. apply Ne. apply (wf_own s W y x p); unfold owner; [rewrite Hy|rewrite Hr]; auto. }
        destruct ry as [?|n q|n [q|]|?]; cbn in *; auto;
          rewrite hp_put_nth; destruct (Nat.eqb_spec p q) as [->|]; try reflexivity; contradiction. }
    split; [|split; [|split]].
    - split.
      + intros b c q. apply (wf_own s W).
      + cbn. intros q b. rewrite hp_put_nth. destruct ((p =? q) && (p <? length (hp s))) eqn:E.
        * intros _. exists x. unfold owner. cbn. rewrite Hr. replace q with p by lia. exact Hown.
        * apply (wf_leak s W).
      + cbn. intros y ry Hy. rewrite (CT y ry Hy). destruct (wf_obj s W y ry Hy) as [(b & Hb & Hl)|N]; [left|right; exact N].
        destruct (Nat.eqb_spec y x) as [->|]; [|eauto].
        eexists. split; [reflexivity|]. rewrite list_put_len. assert (ry = r) by congruence. subst ry. congruence.
    - unfold cells; cbn. rewrite Hr. rewrite (CT x r Hr), Nat.eqb_refl. reflexivity.
    - intros y Hy. unfold cells; cbn. destruct (objs s y) as [ry|] eqn:Ey; [|reflexivity].
      rewrite (CT y ry Ey). destruct (Nat.eqb_spec y x); [contradiction|reflexivity].
    - intros y. reflexivity. }
  destruct r as [l'|n p|n [p|]|l']; cbn in Hc.
  - injection Hc as ->. apply (St (@OnStack V)); auto. intros a; cbn.
    destruct (Nat.eq_dec (length a) (length l)) as [->|]; auto.
  - apply Hp; reflexivity.
  - apply Hp; reflexivity.
  - discriminate.
  - injection Hc as ->. apply (St (@StdVec V)); auto.
Qed.

Lemma nth_ext' (a b : list V) : (forall i, nth_error a i = nth_error b i) -> a = b.
Proof.
  revert b; induction a as [|x a IH]; intros [|y b] H; auto.
  - specialize (H 0); discriminate.
  - specialize (H 0); discriminate.
  - pose proof (H 0) as H0; cbn in H0. injection H0 as ->. f_equal. apply IH. intros i. apply (H (S i)).
Qed.
Lemma wf_len s x l r : wf s -> cells s x = Some l -> objs s x = Some r -> length l = rsize r.
Proof. intros W H Hr. destruct (cells_len s x l W H) as (r' & Hr' & E). congruence. Qed.

(** copying all elements of y to x *)
Lemma copy_loop s x y lx ly : wf s -> cells s x = Some lx -> cells s y = Some ly -> length lx = length ly ->
  exists s', for_ 0 (length lx) (fun i st => v <- el_get st y i ;; el_set st x i v) s = Ok s' /\
    wf s' /\ cells s' x = Some ly /\ (forall z, z <> x -> cells s' z = cells s z) /\ same_shape s s'.
Proof.
  intros W Hx Hy Hlen.
  set (I := fun i st => wf st /\ same_shape s st /\ (forall z, z <> x -> cells st z = cells s z) /\
      exists l', cells st x = Some l' /\ length l' = length lx /\
        forall j, nth_error l' j = if j <? i then nth_error ly j else nth_error lx j).
  assert (HI : wp (for_ 0 (length lx) (fun i st => v <- el_get st y i ;; el_set st x i v) s) (I (length lx))).
  { apply wp_for; [lia| |].
    - split; [exact W|]. split; [intros z; reflexivity|]. split; [reflexivity|]. exists lx. repeat split; auto.
    - intros i st Hi (Wst & Hsh & Ho & l' & Hl' & Hll & Hn).
      assert (exists v, nth_error ly i = Some v) as [v Hv].
      { destruct (nth_error ly i) eqn:E; [eauto|]. apply nth_error_None in E. lia. }
      assert (Hg : el_get st y i = Ok v).
      { destruct (Nat.eq_dec y x) as [->|Ne].
        - apply (el_get_ok st x l'); [exact Hl'|]. rewrite Hn. replace (i <? i) with false by lia. congruence.
        - apply (el_get_ok st y ly); [|exact Hv]. rewrite Ho; auto. }
      rewrite Hg. cbn [bind].
      destruct (el_set_ok st x l' i v Wst Hl') as (st' & Es & W' & Cx & Co & Sh); [lia|].
      rewrite Es. cbn. split; [exact W'|]. split; [intros z; rewrite Sh; apply Hsh|]. split; [intros z Hz; rewrite Co; auto|].
      eexists. split; [exact Cx|]. split; [rewrite list_put_len; exact Hll|].
      intros j. rewrite list_put_nth, Hn. destruct (Nat.eqb_spec i j) as [<-|Ne]; cbn [andb].
      + replace (i <? length l') with true by lia. replace (i <? S i) with true by lia. auto.
      + destruct (j <? i) eqn:E1, (j <? S i) eqn:E2; auto; lia. }
  apply wp_ok_inv in HI as (s' & Es & Ws & Hsh & Ho & l' & Hl' & Hll & Hn). exists s'. split; [exact Es|]. split; [exact Ws|].
  split; [|split; [exact Ho|exact Hsh]]. rewrite Hl'. f_equal. apply nth_ext'. intros i. rewrite Hn.
  destruct (i <? length lx) eqn:E; [reflexivity|].
  rewrite (proj2 (nth_error_None lx i)), (proj2 (nth_error_None ly i)); auto; lia.
Qed.

Lemma swap_loop s x y lx ly : wf s -> cells s x = Some lx -> cells s y = Some ly -> length lx = length ly ->
  exists s', for_ 0 (length lx) (fun i st => a <- el_get st x i ;; b <- el_get st y i ;;
                                     st1 <- el_set st x i b ;; el_set st1 y i a) s = Ok s' /\
    wf s' /\ cells s' x = Some ly /\ cells s' y = Some lx /\
    (forall z, z <> x -> z <> y -> cells s' z = cells s z) /\ same_shape s s'.
Proof.
  intros W Hx Hy Hlen.
  set (I := fun i st => wf st /\ same_shape s st /\ (forall z, z <> x -> z <> y -> cells st z = cells s z) /\
      exists l1 l2, cells st x = Some l1 /\ cells st y = Some l2 /\ length l1 = length lx /\ length l2 = length lx /\
        (forall j, nth_error l1 j = if j <? i then nth_error ly j else nth_error lx j) /\
        (forall j, nth_error l2 j = if j <? i then nth_error lx j else nth_error ly j)).
  match goal with |- exists s', ?e = _ /\ _ => assert (HI : wp e (I (length lx))) end.
  { apply wp_for; [lia| |].
    - split; [exact W|]. split; [intros z; reflexivity|]. split; [reflexivity|]. exists lx, ly. repeat split; auto.
    - intros i st Hi (Wst & Hsh & Ho & l1 & l2 & H1 & H2 & L1 & L2 & N1 & N2).
      destruct (nth_error lx i) as [a|] eqn:Ea; [|apply nth_error_None in Ea; lia].
      destruct (nth_error ly i) as [b|] eqn:Eb; [|apply nth_error_None in Eb; lia].
      assert (E1 : nth_error l1 i = Some a). { rewrite N1. replace (i <? i) with false by lia. exact Ea. }
      assert (E2 : nth_error l2 i = Some b). { rewrite N2. replace (i <? i) with false by lia. exact Eb. }
      rewrite (el_get_ok st x l1 i a H1 E1). cbn [bind]. rewrite (el_get_ok st y l2 i b H2 E2). cbn [bind].
      destruct (el_set_ok st x l1 i b Wst H1) as (st1 & Es & W1 & C1 & O1 & S1); [lia|]. rewrite Es. cbn [bind].
      assert (exists l2', cells st1 y = Some l2' /\ length l2' = length lx /\ (x <> y -> l2' = l2) /\ (x = y -> l2' = list_put l1 i b)) as (l2' & H2' & L2' & P & Q).
      { destruct (Nat.eq_dec x y) as [<-|Ne].
        - eexists. split; [exact C1|]. split; [rewrite list_put_len; exact L1|]. tauto.
        - exists l2. split; [rewrite O1; auto|]. tauto. }
      destruct (el_set_ok st1 y l2' i a W1 H2') as (st2 & Es2 & W2 & C2 & O2 & S2); [lia|]. rewrite Es2. cbn.
      split; [exact W2|]. split; [intros z; rewrite S2, S1; apply Hsh|].
      split; [intros z Hz1 Hz2; rewrite O2, O1; auto|].
      assert (NX : forall j (l' lo lb : list V), length l' = length lx ->
         (forall j, nth_error l' j = if j <? i then nth_error lb j else nth_error lo j) ->
         forall v, nth_error lb i = Some v ->
         nth_error (list_put l' i v) j = if j <? S i then nth_error lb j else nth_error lo j).
      { intros j l' lo lb Hl Hn v Hv. rewrite list_put_nth, Hn. destruct (Nat.eqb_spec i j) as [<-|]; cbn [andb].
        - replace (i <? length l') with true by lia. replace (i <? S i) with true by lia. auto.
        - destruct (j <? i) eqn:F1, (j <? S i) eqn:F2; auto; lia. }
      destruct (Nat.eq_dec x y) as [<-|Ne].
      + rewrite (Q eq_refl) in *. assert (lx = ly) by congruence. subst ly. assert (a = b) by congruence. subst b.
        assert (l1 = l2) by congruence. subst l2.
        eexists _, _. split; [exact C2|]. split; [exact C2|]. rewrite !list_put_len. split; [exact L1|]. split; [exact L1|].
        assert (T : forall j, nth_error (list_put (list_put l1 i a) i a) j = nth_error lx j).
        { intros j. rewrite !list_put_nth, list_put_len, N1. destruct (Nat.eqb_spec i j) as [<-|]; cbn [andb].
          - replace (i <? length l1) with true by lia. auto.
          - destruct (j <? i); reflexivity. }
        split; intros j; rewrite T; destruct (j <? S i); reflexivity.
      + rewrite (P Ne) in *. exists (list_put l1 i b), (list_put l2 i a).
        split; [rewrite O2 by auto; exact C1|]. split; [exact C2|]. rewrite !list_put_len. split; [exact L1|]. split; [exact L2|].
        split; intros j; apply NX; auto. }
  apply wp_ok_inv in HI as (s' & Es & Ws & Hsh & Ho & l1 & l2 & H1 & H2 & L1 & L2 & N1 & N2).
  exists s'. split; [exact Es|]. split; [exact Ws|]. split; [|split; [|split; [exact Ho|exact Hsh]]].
  - rewrite H1. f_equal. apply nth_ext'. intros i. rewrite N1.
    destruct (i <? length lx) eqn:E; [reflexivity|].
    rewrite (proj2 (nth_error_None lx i)), (proj2 (nth_error_None ly i)); auto; lia.
  - rewrite H2. f_equal. apply nth_ext'. intros i. rewrite N2.
    destruct (i <? length lx) eqn:E; [reflexivity|].
    rewrite (proj2 (nth_error_None lx i)), (proj2 (nth_error_None ly i)); auto; lia.
Qed.

(** A new object with its own fresh block, or no block. *)
Lemma contents_app h c r l : contents h r = Some l -> contents (h ++ [c]) r = Some l.
Proof.
  destruct r as [?|n p|n [p|]|?]; cbn; auto; destruct (nth_error h p) as [a|] eqn:E; try discriminate;
    rewrite nth_error_app1 by (apply nth_error_Some; congruence); rewrite E; auto.
Qed.
Lemma owns_live s x r p : wf s -> objs s x = Some r -> owns r = Some p -> exists l, nth_error (hp s) p = Some (Some l).
Proof.
  intros W Hr Ho. destruct (wf_obj s W x r Hr) as [(l & Hc & _)|(n & ->)]; [|discriminate].
  destruct r as [?|n q|n [q|]|?]; cbn in *; try discriminate; injection Ho as ->;
    destruct (nth_error (hp s) p) as [[a|]|]; try discriminate; eauto.
Qed.
Lemma new_block s x r l n : wf s -> objs s x = None ->
  (r = OnHeap n (length (hp s)) \/ r = DynHeap n (Some (length (hp s)))) -> length l = n ->
  exists s', new_obj s x (hp s ++ [Some l]) r = Ok s' /\ wf s' /\ objs s' x = Some r /\ cells s' x = Some l /\
    (forall y, y <> x -> cells s' y = cells s y /\ objs s' y = objs s y).
Proof.
  intros W Hx Hr Hl. unfold new_obj. rewrite Hx. eexists. split; [reflexivity|].
  assert (Ow : owns r = Some (length (hp s))) by (destruct Hr as [-> | ->]; reflexivity).
  assert (Ct : contents (hp s ++ [Some l]) r = Some l).
  { destruct Hr as [-> | ->]; cbn; rewrite nth_error_app2, Nat.sub_diag by lia; reflexivity. }
  assert (Rs : rsize r = n) by (destruct Hr as [-> | ->]; reflexivity).
  assert (OL : forall y p, owner s y = Some p -> p < length (hp s)).
  { intros y p H. unfold owner in H. destruct (objs s y) as [ry|] eqn:E; [|discriminate].
    destruct (owns_live s y ry p W E H) as [a Ha]. apply nth_error_Some. congruence. }
  split; [|split; [|split]].
  - split; cbn.
    + intros a b p. unfold owner; cbn. unfold set_obj.
      destruct (Nat.eqb_spec x a) as [<-|], (Nat.eqb_spec x b) as [<-|]; auto.
      * rewrite Ow. intros [= <-] H. apply (OL b) in H. lia.
      * rewrite Ow. intros H [= <-]. apply (OL a) in H. lia.
      * apply (wf_own s W).
    + intros p a H. destruct (Nat.eq_dec p (length (hp s))) as [->|Ne].
      * exists x. unfold owner; cbn. rewrite set_obj_same. exact Ow.
      * assert (p < length (hp s)).
        { assert (p < length (hp s ++ [Some l])) by (apply nth_error_Some; congruence). rewrite app_length in *; cbn in *; lia. }
        rewrite nth_error_app1 in H by lia. destruct (wf_leak s W p a H) as [z Hz]. exists z.
        unfold owner; cbn. rewrite set_obj_other; [exact Hz|]. intros <-. unfold owner in Hz. rewrite Hx in Hz. discriminate.
    + intros y ry. unfold set_obj. destruct (Nat.eqb_spec x y) as [<-|].
      * intros [= <-]. left. exists l. split; [exact Ct|congruence].
      * intros H. destruct (wf_obj s W y ry H) as [(b & Hb & Hlb)|N]; [left|right; exact N].
        exists b. split; [apply contents_app; exact Hb|exact Hlb].
  - cbn. apply set_obj_same.
  - unfold cells; cbn. rewrite set_obj_same. exact Ct.
  - intros y Hy. cbn. rewrite set_obj_other by auto. split; [|reflexivity]. unfold cells; cbn. rewrite set_obj_other by auto.
    destruct (objs s y) as [ry|] eqn:E; [|reflexivity].
    destruct (wf_obj s W y ry E) as [(b & Hb & _)|(m & ->)]; [rewrite Hb; apply contents_app; exact Hb|reflexivity].
Qed.
Lemma replace_local s x r r' : wf s -> (objs s x = None \/ objs s x = Some r /\ owns r = None) ->
  owns r' = None -> (exists l, contents (hp s) r' = Some l /\ length l = rsize r') ->
  let s' := mkst (hp s) (set_obj (objs s) x (Some r')) in
  wf s' /\ objs s' x = Some r' /\ cells s' x = contents (hp s) r' /\
    (forall y, y <> x -> cells s' y = cells s y /\ objs s' y = objs s y).
Proof.
  intros W Hx Ho Hc s'.
  assert (OW : forall y, owner s' y = owner s y).
  { intros y. unfold owner, s'; cbn. unfold set_obj. destruct (Nat.eqb_spec x y) as [<-|]; [|reflexivity].
    destruct Hx as [->|[-> Hx]]; congruence. }
  split; [|split; [|split]].
  - split.
    + intros a b p. rewrite !OW. apply (wf_own s W).
    + intros p a H. destruct (wf_leak s W p a H) as [z Hz]. exists z. rewrite OW. exact Hz.
    + intros y ry. unfold s'; cbn. unfold set_obj. destruct (Nat.eqb_spec x y) as [<-|]; [|apply (wf_obj s W)].
      intros [= <-]. left. exact Hc.
  - unfold s'; cbn. apply set_obj_same.
  - unfold cells, s'; cbn. rewrite set_obj_same. reflexivity.
  - intros y Hy. unfold cells, s'; cbn. rewrite !set_obj_other by auto. split; reflexivity.
Qed.

(** ** Relation with the value-semantics world *)
Definition agree (vs : list (option V)) l := Forall2 (fun a b => a = None \/ a = Some b) vs l.
Definition obj_rel s x (c : option (kind * content V)) : Prop :=
  match c with
  | None => objs s x = None
  | Some (k, Values vs) => shape s x = Some (k, None) /\ exists l, cells s x = Some l /\ agree vs l
  | Some (k, MovedFrom n) => k = KDyn /\ objs s x = Some (DynHeap n None)
  end.
Definition rel s (w : world V) : Prop := wf s /\ forall x, obj_rel s x (w x).

Lemma agree_len vs l : agree vs l -> length vs = length l.
Proof. induction 1; cbn; congruence. Qed.
Lemma agree_some l : agree (map Some l) l.
Proof. induction l; constructor; auto. Qed.
Lemma agree_none l : agree (repeat None (length l)) l.
Proof. induction l; constructor; auto. Qed.
Lemma obj_rel_ext s s' x c : objs s' x = objs s x -> cells s' x = cells s x -> obj_rel s x c -> obj_rel s' x c.
Proof. unfold obj_rel, shape. intros -> ->. auto. Qed.
Lemma rel_put s s' w x c : rel s w -> wf s' -> obj_rel s' x c ->
  (forall y, y <> x -> objs s' y = objs s y /\ cells s' y = cells s y) -> rel s' (put w x c).
Proof.
  intros [_ H] W' Hx Hy. split; [exact W'|]. intros y. unfold put. destruct (Nat.eqb_spec x y) as [<-|]; [exact Hx|].
  destruct (Hy y) as [A B]; [auto|]. apply (obj_rel_ext s); auto.
Qed.
Lemma shape_obj_rel s s' y c : shape s' y = shape s y -> cells s' y = cells s y -> obj_rel s y c -> obj_rel s' y c.
Proof.
  intros Hs Hc. destruct c as [[k [vs|n]]|]; cbn.
  - rewrite Hs, Hc. auto.
  - intros [-> H]. split; [reflexivity|]. unfold shape in Hs. rewrite H in Hs. destruct (objs s' y) as [r|]; [|discriminate].
    cbn in Hs. injection Hs as E1 E2. destruct r as [?|?|? [?|]|?]; cbn in *; try discriminate. congruence.
  - intros H. unfold shape in Hs. rewrite H in Hs. destruct (objs s' y); [discriminate|reflexivity].
Qed.
Lemma rel_put_shape s s' w x c : rel s w -> wf s' -> obj_rel s' x c -> same_shape s s' ->
  (forall y, y <> x -> cells s' y = cells s y) -> rel s' (put w x c).
Proof.
  intros [_ H] W' Hx Hs Hy. split; [exact W'|]. intros y. unfold put. destruct (Nat.eqb_spec x y) as [<-|]; [exact Hx|].
  apply (shape_obj_rel s); auto.
Qed.

Variable dbg : option V.
Variable zero : V.
Variable bytes : nat.
Notation stepm := (step dbg zero bytes).

Lemma dbg_init_len l : length (dbg_init dbg l) = length l.
Proof. unfold dbg_init. destruct dbg; [apply repeat_length|reflexivity]. Qed.
Lemma raw_len g n : length (raw dbg g n) = n.
Proof. unfold raw. rewrite dbg_init_len, map_length, seq_length. reflexivity. Qed.

(** creating an object of any kind with given contents *)
Lemma alloc_ok s w x k l : rel s w -> w x = None -> (forall n, k = KStatic n -> length l = n) ->
  exists s' r, (let (h, r) := alloc_rep bytes s k l in new_obj s x h r) = Ok s' /\ wf s' /\
    objs s' x = Some r /\ rkind r = k /\ moved r = None /\ cells s' x = Some l /\
    (forall y, y <> x -> objs s' y = objs s y /\ cells s' y = cells s y).
Proof.
  intros [W R] Hx Hk. specialize (R x). rewrite Hx in R. cbn in R.
  assert (Loc : forall r, owns r = None -> contents (hp s) r = Some l -> length l = rsize r ->
    exists s', new_obj s x (hp s) r = Ok s' /\ wf s' /\ objs s' x = Some r /\ cells s' x = Some l /\
     (forall y, y <> x -> objs s' y = objs s y /\ cells s' y = cells s y)).
  { intros r Hr Hc Hl. unfold new_obj. rewrite R. eexists. split; [reflexivity|].
    destruct (replace_local s x r r W (or_introl R) Hr) as (A & B & C & D); [eauto|].
    split; [exact A|]. split; [exact B|]. split; [rewrite C; exact Hc|]. intros y Hy. destruct (D y Hy); auto. }
  assert (Blk : forall r, (r = OnHeap (length l) (length (hp s)) \/ r = DynHeap (length l) (Some (length (hp s)))) ->
    exists s', new_obj s x (hp s ++ [Some l]) r = Ok s' /\ wf s' /\ objs s' x = Some r /\ cells s' x = Some l /\
     (forall y, y <> x -> objs s' y = objs s y /\ cells s' y = cells s y)).
  { intros r Hr. destruct (new_block s x r l (length l) W R Hr eq_refl) as (s' & E & A & B & C & D).
    exists s'. split; [exact E|]. split; [exact A|]. split; [exact B|]. split; [exact C|].
    intros y Hy. destruct (D y Hy); auto. }
  destruct k as [n| |]; cbn.
  - specialize (Hk n eq_refl). subst n. destruct (big bytes (length l)).
    + destruct (Blk _ (or_introl eq_refl)) as (s' & E & A & B & C & D). exists s'. eexists. split; [exact E|].
      split; [exact A|]. split; [exact B|]. repeat split; auto; apply D; auto.
    + destruct (Loc (OnStack l)) as (s' & E & A & B & C & D); auto. exists s'. eexists. split; [exact E|].
      split; [exact A|]. split; [exact B|]. repeat split; auto; apply D; auto.
  - destruct (Blk _ (or_intror eq_refl)) as (s' & E & A & B & C & D). exists s'. eexists. split; [exact E|].
    split; [exact A|]. split; [exact B|]. repeat split; auto; apply D; auto.
  - destruct (Loc (StdVec l)) as (s' & E & A & B & C & D); auto. exists s'. eexists. split; [exact E|].
    split; [exact A|]. split; [exact B|]. repeat split; auto; apply D; auto.
Qed.
Lemma create_ok s w x k l vs : rel s w -> w x = None -> (forall n, k = KStatic n -> length l = n) -> agree vs l ->
  exists s', (let (h, r) := alloc_rep bytes s k l in new_obj s x h r) = Ok s' /\ rel s' (put w x (Some (k, Values vs))).
Proof.
  intros R Hx Hk Ha. destruct (alloc_ok s w x k l R Hx Hk) as (s' & r & E & W' & Hr & K & M & C & D).
  exists s'. split; [exact E|]. apply (rel_put s); auto. cbn. unfold shape. rewrite Hr. cbn. rewrite K, M. eauto.
Qed.

Lemma rel_values s w x k vs : rel s w -> w x = Some (k, Values vs) ->
  shape s x = Some (k, None) /\ exists l, cells s x = Some l /\ agree vs l.
Proof. intros [_ R] H. specialize (R x). rewrite H in R. exact R. Qed.

Lemma copy_cells_ok h p n l : (p = None /\ n = 0 /\ l = [] \/ exists b, p = Some b /\ nth_error h b = Some (Some l) /\ length l = n) ->
  copy_cells h p n = Ok l.
Proof.
  intros H. assert (HI : wp (copy_cells h p n) (fun a => a = firstn n l)).
  { unfold copy_cells. apply (wp_for (fun i a => a = firstn i l)); [lia|reflexivity|].
    intros i a Hi ->. destruct H as [(_ & -> & _)|(b & -> & Hb & Hl)]; [lia|].
    cbn. rewrite Hb. unfold list_get. destruct (nth_error l i) as [v|] eqn:E; [|apply nth_error_None in E; lia].
    cbn. clear - E. revert i E. induction l as [|a l IH]; intros [|i] E; cbn in *; try discriminate; [congruence|].
    f_equal. apply IH. exact E. }
  apply wp_ok_inv in HI as (a & Ea & ->). rewrite Ea. f_equal.
  destruct H as [(_ & -> & ->)|(b & _ & _ & <-)]; [reflexivity|apply firstn_all].
Qed.

(** ** The simulation, one command *)
Definition dbg_on : bool := match dbg with None => false | Some _ => true end.

Lemma sim_new_list s w k x l :
  rel s w ->
  match spec_step dbg_on (NewList k x l) w with
  | Good w' => exists s', stepm (NewList k x l) s = Ok s' /\ rel s' w'
  | Stop => stepm (NewList k x l) s = CompileError \/ stepm (NewList k x l) s = Abort DSizeMismatch
  | Stuck => True end.
Proof.
  intros R. cbn [spec_step]. destruct (fits k (length l)) eqn:F.
  - unfold create. destruct (w x) eqn:Hx; [exact I|].
    destruct (create_ok s w x k l (map Some l) R Hx) as (s' & E & R').
    + intros n ->. cbn in F. lia.
    + apply agree_some.
    + exists s'. split; [|exact R']. cbn [step]. unfold new_list. destruct k; [|exact E|exact E]. cbn in F. rewrite F. exact E.
  - destruct (w x) eqn:Hx; [exact I|]. left. cbn. destruct k; cbn in F; try discriminate. cbn. rewrite F. reflexivity.
Qed.
Lemma new_size_ok s w k x n g : rel s w -> w x = None -> (k = KRes -> n <> 0) ->
  exists s' r l, new_size dbg zero bytes s k x n g = Ok s' /\ wf s' /\
    objs s' x = Some r /\ rkind r = k /\ moved r = None /\ cells s' x = Some l /\
    length l = match k with KStatic m => m | _ => n end /\
    (forall y, y <> x -> objs s' y = objs s y /\ cells s' y = cells s y).
Proof.
  intros R Hx Hn. destruct k as [m| |]; cbn [new_size].
  - destruct (alloc_ok s w x (KStatic m) (raw dbg g m) R Hx) as (s' & r & E & A); [intros ? [= <-]; apply raw_len|].
    exists s', r, (raw dbg g m). rewrite raw_len. tauto.
  - destruct (alloc_ok s w x KDyn (raw dbg g n) R Hx) as (s' & r & E & A); [discriminate|].
    exists s', r, (raw dbg g n). rewrite raw_len. tauto.
  - replace (n =? 0) with false by (specialize (Hn eq_refl); lia).
    destruct (alloc_ok s w x KRes (dbg_init dbg (repeat zero n)) R Hx) as (s' & r & E & A); [discriminate|].
    exists s', r, (dbg_init dbg (repeat zero n)). rewrite dbg_init_len, repeat_length. tauto.
Qed.
Lemma sim_new_size s w k x n g :
  rel s w ->
  match spec_step dbg_on (NewSize k x n g) w with
  | Good w' => exists s', stepm (NewSize k x n g) s = Ok s' /\ rel s' w'
  | Stop => stepm (NewSize k x n g) s = CompileError \/ stepm (NewSize k x n g) s = Abort DSizeMismatch
  | Stuck => True end.
Proof.
  intros R.
  assert (G : w x = None -> (k = KRes -> n <> 0) ->
     exists s', stepm (NewSize k x n g) s = Ok s' /\ rel s' (put w x (Some (k, Values (repeat None (match k with KStatic m => m | _ => n end)))))).
  { intros Hx Hn. destruct (new_size_ok s w k x n g R Hx Hn) as (s' & r & l & E & W' & Hr & K & M & C & L & D).
    exists s'. split; [exact E|]. apply (rel_put s); auto. cbn. unfold shape. rewrite Hr. cbn. rewrite K, M.
    split; [reflexivity|]. exists l. split; [exact C|]. rewrite <- L. apply agree_none. }
  cbn [spec_step]. unfold create. destruct k as [m| |].
  - destruct (w x) eqn:Hx; [exact I|]. apply G; [reflexivity|discriminate].
  - destruct (w x) eqn:Hx; [exact I|]. apply G; [reflexivity|discriminate].
  - destruct (n =? 0) eqn:En; [exact I|]. destruct (w x) eqn:Hx; [exact I|]. apply G; [reflexivity|]. intros _. lia.
Qed.
Lemma copy_ctor_ok s w x y k vs : rel s w -> w y = Some (k, Values vs) -> w x = None ->
  exists s', copy_ctor s x y = Ok s' /\ rel s' (put w x (Some (k, Values vs))).
Proof.
  intros R Hy Hx. destruct (rel_values s w y k vs R Hy) as (Sh & l & Hc & Ha).
  pose proof R as [W RR]. pose proof (RR x) as Rx. rewrite Hx in Rx. cbn in Rx.
  apply cells_inv in Hc as (r & Hr & Hc). unfold shape in Sh. rewrite Hr in Sh. cbn in Sh. injection Sh as K M.
  assert (Hl : length l = rsize r). { apply (wf_len s y l r); auto. unfold cells. rewrite Hr. exact Hc. }
  unfold copy_ctor, get_rep. rewrite Hr. cbn [bind].
  assert (Loc : owns r = None -> exists s', new_obj s x (hp s) r = Ok s' /\ rel s' (put w x (Some (k, Values vs)))).
  { intros Ho. unfold new_obj. rewrite Rx. eexists. split; [reflexivity|].
    destruct (replace_local s x r r W (or_introl Rx) Ho) as (A & B & C & D); [eauto|].
    apply (rel_put s); auto.
    - unfold obj_rel, shape. rewrite B. cbn [option_map]. rewrite K, M. split; [reflexivity|]. exists l. rewrite C. auto.
    - intros z Hz. destruct (D z Hz); auto. }
  assert (Blk : forall r', (r' = OnHeap (length l) (length (hp s)) \/ r' = DynHeap (length l) (Some (length (hp s)))) ->
     rkind r' = k -> moved r' = None ->
     exists s', new_obj s x (hp s ++ [Some l]) r' = Ok s' /\ rel s' (put w x (Some (k, Values vs)))).
  { intros r' Hr' K' M'. destruct (new_block s x r' l (length l) W Rx Hr' eq_refl) as (s' & E & A & B & C & D).
    exists s'. split; [exact E|]. apply (rel_put s); auto.
    - unfold obj_rel, shape. rewrite B. cbn [option_map]. rewrite K', M'. split; [reflexivity|]. exists l. auto.
    - intros z Hz. destruct (D z Hz); auto. }
  destruct r as [l0|n p|n [p|]|l0]; cbn in Hc, M; try discriminate.
  - apply Loc; reflexivity.
  - destruct (nth_error (hp s) p) as [[l0|]|] eqn:Ep; try discriminate. injection Hc as ->. cbn in Hl. subst n.
    rewrite (copy_cells_ok (hp s) (Some p) (length l) l) by (right; eauto). cbn [bind]. apply Blk; auto.
  - destruct (nth_error (hp s) p) as [[l0|]|] eqn:Ep; try discriminate. injection Hc as ->. cbn in Hl. subst n.
    rewrite (copy_cells_ok (hp s) (Some p) (length l) l) by (right; eauto). cbn [bind]. apply Blk; auto.
  - apply Loc; reflexivity.
Qed.
Lemma put_put_ne (w : world V) x y a b : x <> y -> forall z, put (put w x a) y b z = put (put w y b) x a z.
Proof. intros H z. unfold put. destruct (Nat.eqb_spec y z), (Nat.eqb_spec x z); congruence. Qed.

Lemma sim_move s w x y :
  rel s w ->
  match spec_step dbg_on (Move x y) w with
  | Good w' => exists s', stepm (Move x y) s = Ok s' /\ rel s' w'
  | Stop => stepm (Move x y) s = CompileError \/ stepm (Move x y) s = Abort DSizeMismatch
  | Stuck => True end.
Proof.
  intros R. cbn [spec_step]. destruct (w y) as [[k [vs|n]]|] eqn:Hy; try exact I.
  destruct (w x) eqn:Hx; [exact I|].
  destruct (rel_values s w y k vs R Hy) as (Sh & l & Hc & Ha).
  pose proof R as [W RR]. pose proof (RR x) as Rx. rewrite Hx in Rx. cbn in Rx.
  assert (Nxy : x <> y) by (intros ->; congruence).
  cbn [step]. unfold move_ctor, get_rep.
  destruct (cells_inv s y l Hc) as (r & Hr & Hct). rewrite Hr. cbn [bind].
  pose proof Sh as Sh'. unfold shape in Sh'. rewrite Hr in Sh'. cbn in Sh'. injection Sh' as K M.
  assert (Hl : length l = rsize r) by (apply (wf_len s y l r); auto).
  destruct r as [l0|n p|n [p|]|l0]; cbn in K, M, Hct, Hl; try discriminate; subst k.
  - destruct (copy_ctor_ok s w x y _ vs R Hy Hx) as (s' & E & R'). eauto.
  - destruct (copy_ctor_ok s w x y _ vs R Hy Hx) as (s' & E & R'). eauto.
  - (* Dynamic *) unfold new_obj. rewrite Rx. cbn [bind hp objs]. eexists. split; [reflexivity|].
    rewrite (agree_len vs l Ha), Hl.
    set (s2 := mkst (hp s) (set_obj (set_obj (objs s) x (Some (DynHeap n (Some p)))) y (Some (DynHeap n None)))).
    assert (O2 : forall z, objs s2 z = if y =? z then Some (DynHeap n None) else if x =? z then Some (DynHeap n (Some p)) else objs s z) by reflexivity.
    assert (OW : forall z q, owner s2 z = Some q -> (z = x /\ q = p) \/ (z <> x /\ z <> y /\ owner s z = Some q)).
    { intros z q. unfold owner. rewrite O2. destruct (Nat.eqb_spec y z) as [<-|]; [discriminate|].
      destruct (Nat.eqb_spec x z) as [<-|]; cbn; [intros [= <-]; auto|]. right. auto. }
    assert (OY : owner s y = Some p) by (unfold owner; rewrite Hr; reflexivity).
    assert (W2 : wf s2).
    { split.
      - intros a b q Ha' Hb'. apply OW in Ha' as [[-> ->]|(A1 & A2 & A3)]; apply OW in Hb' as [[-> E]|(B1 & B2 & B3)]; auto.
        + exfalso. apply B2. apply (wf_own s W b y p); auto.
        + subst q. exfalso. apply A2. apply (wf_own s W a y p); auto.
        + apply (wf_own s W a b q); auto.
      - cbn. intros q a Hq. destruct (wf_leak s W q a Hq) as [z Hz]. destruct (Nat.eq_dec z y) as [->|Ne].
        + exists x. unfold owner. rewrite O2. destruct (Nat.eqb_spec y x); [congruence|]. rewrite Nat.eqb_refl. cbn. congruence.
        + exists z. unfold owner. rewrite O2. destruct (Nat.eqb_spec y z); [congruence|].
          destruct (Nat.eqb_spec x z) as [<-|]; [unfold owner in Hz; rewrite Rx in Hz; discriminate|exact Hz].
      - intros z rz. rewrite O2. destruct (Nat.eqb_spec y z); [intros [= <-]; right; eauto|].
        destruct (Nat.eqb_spec x z); [|apply (wf_obj s W)]. intros [= <-]. left. exists l. split; [exact Hct|exact Hl]. }
    split; [exact W2|]. intros z. unfold put. pose proof (RR z) as Rz. fold s2.
    destruct (Nat.eqb_spec y z) as [<-|Ny].
    { cbn. split; [reflexivity|]. unfold set_obj. rewrite Nat.eqb_refl. reflexivity. }
    destruct (Nat.eqb_spec x z) as [<-|Nx].
    { unfold obj_rel, shape, cells. rewrite O2. destruct (Nat.eqb_spec y x); [congruence|]. rewrite Nat.eqb_refl.
      split; [reflexivity|]. exists l. split; [exact Hct|exact Ha]. }
    apply (obj_rel_ext s); auto; unfold cells; rewrite O2;
      destruct (Nat.eqb_spec y z); try congruence; destruct (Nat.eqb_spec x z); try congruence; reflexivity.
  - (* Resizable *) injection Hct as ->. unfold new_obj. rewrite Rx. cbn [bind hp objs].
    destruct (replace_local s x (StdVec l) (StdVec l) W (or_introl Rx) eq_refl) as (A & B & C & D); [cbn; eauto|].
    set (s1 := mkst (hp s) (set_obj (objs s) x (Some (StdVec l)))) in *.
    assert (Hr1 : objs s1 y = Some (StdVec l)) by (rewrite (proj2 (D y ltac:(auto))); exact Hr).
    destruct (replace_local s1 y (StdVec l) (StdVec []) A) as (A' & B' & C' & D'); [right; auto|reflexivity|cbn; eauto|].
    exists (mkst (hp s1) (set_obj (objs s1) y (Some (StdVec [])))). split; [reflexivity|].
    assert (Hxy1 : rel s1 (put w x (Some (KRes, Values vs)))).
    { apply (rel_put s); auto.
      - unfold obj_rel, shape. rewrite B. split; [reflexivity|]. exists l. rewrite C. auto.
      - intros z Hz. destruct (D z Hz); auto. }
    apply (rel_put s1); auto.
    + unfold obj_rel, shape. rewrite B'. split; [reflexivity|]. exists []. rewrite C'. split; [reflexivity|constructor].
    + intros z Hz. destruct (D' z Hz); auto.
Qed.

Lemma agree_trim vs l n : agree vs l -> agree (firstn n vs ++ repeat None (n - length vs)) (vec_resize zero l n).
Proof.
  intros H. unfold vec_resize. rewrite (agree_len _ _ H). apply Forall2_app.
  - revert n. induction H as [|a b vs l Hab H IH]; intros [|n]; cbn; constructor; auto.
  - generalize (n - length l). intros m. induction m; cbn; constructor; auto.
Qed.
Lemma vec_resize_len l n : length (vec_resize zero l n) = n.
Proof. unfold vec_resize. rewrite app_length, repeat_length, firstn_length. lia. Qed.

Lemma nat_mismatch kx ky a b :
  (forall n, kx = KStatic n -> a = n) -> (forall n, ky = KStatic n -> b = n) ->
  (a = b -> size_mismatch (size_param kx) (size_param ky) (Z.of_nat a) (Z.of_nat b) = Ok tt) /\
  (a <> b -> size_mismatch (size_param kx) (size_param ky) (Z.of_nat a) (Z.of_nat b) = CompileError \/
             size_mismatch (size_param kx) (size_param ky) (Z.of_nat a) (Z.of_nat b) = Abort DSizeMismatch).
Proof.
  intros H1 H2.
  assert (Q : forall k c, (forall n, k = KStatic n -> c = n) ->
     size_param k = Dynamic \/ size_param k = Resizable \/ size_param k = Z.of_nat c).
  { intros [n| |] c H; cbn; auto. rewrite (H n eq_refl). auto. }
  destruct (size_mismatch_exact (size_param kx) (size_param ky) (Z.of_nat a) (Z.of_nat b) (Q _ _ H1) (Q _ _ H2)) as [P1 P2]; try lia.
  split; intros H.
  - apply P1. lia.
  - destruct P2 as [(_ & _ & E)|(_ & E)]; [lia|auto|auto].
Qed.
Lemma static_len s x k l mv : wf s -> shape s x = Some (k, mv) -> cells s x = Some l -> forall n, k = KStatic n -> length l = n.
Proof.
  intros W Sh Hc n ->. destruct (cells_len s x l W Hc) as (r & Hr & Hl). unfold shape in Sh. rewrite Hr in Sh. cbn in Sh.
  injection Sh as K _. destruct r; cbn in *; try discriminate; congruence.
Qed.

(** assignment to a destination whose cells are known *)
Lemma assign_core s x y kx ky lx ly mx my : wf s -> shape s x = Some (kx, mx) -> shape s y = Some (ky, my) ->
  cells s x = Some lx -> cells s y = Some ly ->
  (kx = KRes -> length ly <> 0 /\ (dbg = None \/ x <> y)) ->
  (kx = KRes \/ length lx = length ly ->
   exists s', assign dbg zero s x y = Ok s' /\ wf s' /\ cells s' x = Some ly /\
     (forall z, z <> x -> cells s' z = cells s z) /\ same_shape s s') /\
  (kx <> KRes -> length lx <> length ly -> assign dbg zero s x y = CompileError \/ assign dbg zero s x y = Abort DSizeMismatch).
Proof.
  intros W Sx Sy Hx Hy HR. unfold assign. rewrite (osize_ok s y ly W Hy). cbn [bind].
  assert (HK : (kx = KRes /\ exists s1 lx', destructive_resize dbg zero s x (length ly) = Ok s1 /\ wf s1 /\ cells s1 x = Some lx' /\
                 length lx' = length ly /\ (forall z, z <> x -> cells s1 z = cells s z) /\ same_shape s s1 /\
                 (x = y -> lx' = ly))
             \/ (kx <> KRes /\ destructive_resize dbg zero s x (length ly) = Ok s)).
  { destruct (cells_inv s x lx Hx) as (r & Hr & Hct). unfold destructive_resize, get_rep. rewrite Hr. cbn [bind].
    pose proof Sx as Sx'. unfold shape in Sx'. rewrite Hr in Sx'. cbn in Sx'. injection Sx' as K M.
    destruct r as [l0|n p|n p|l0]; cbn in K; try (right; split; [subst kx; discriminate|reflexivity]).
    left. split; [auto|]. subst kx. destruct (HR eq_refl) as [Hn Hd]. replace (length ly =? 0) with false by lia.
    cbn in Hct. injection Hct as ->.
    set (l' := dbg_init dbg (vec_resize zero lx (length ly))).
    destruct (replace_local s x (StdVec lx) (StdVec l') W) as (A & B & C & D); [auto|reflexivity|cbn; eauto|].
    eexists _, l'. split; [reflexivity|]. split; [exact A|]. split; [exact C|].
    split; [unfold l'; rewrite dbg_init_len, vec_resize_len; reflexivity|].
    split; [intros z Hz; apply (D z Hz)|].
    split.
    - intros z. unfold shape. destruct (Nat.eq_dec z x) as [->|Ne]; [rewrite B, Hr; reflexivity|].
      rewrite (proj2 (D z Ne)). reflexivity.
    - intros <-. unfold l'. assert (lx = ly) by congruence. subst ly.
      destruct Hd as [Hd|Hd]; [|contradiction]. unfold dbg_init. rewrite Hd.
      unfold vec_resize. rewrite firstn_all, Nat.sub_diag. apply app_nil_r. }
  destruct HK as [(K & s1 & lx' & E & W1 & C1 & L1 & O1 & S1 & Q1)|(K & E)]; rewrite E; cbn [bind].
  - assert (C1y : cells s1 y = Some ly).
    { destruct (Nat.eq_dec y x) as [->|Ne]; [|rewrite O1; auto]. rewrite C1. f_equal. apply Q1. reflexivity. }
    rewrite (okind_ok s1 x kx mx) by (rewrite S1; exact Sx). cbn [bind].
    rewrite (okind_ok s1 y ky my) by (rewrite S1; exact Sy). cbn [bind].
    rewrite (osize_ok s1 x lx' W1 C1). cbn [bind]. rewrite (osize_ok s1 y ly W1 C1y). cbn [bind].
    destruct (nat_mismatch kx ky (length lx') (length ly)) as [M1 M2].
    { apply (static_len s1 x kx lx' mx); auto. rewrite S1; exact Sx. }
    { apply (static_len s y ky ly my); auto. }
    rewrite (M1 L1). cbn [bind]. split; [|intros H; contradiction]. intros _.
    destruct (copy_loop s1 x y lx' ly W1 C1 C1y L1) as (s' & Es & W' & Cx & Co & Sh).
    exists s'. split; [exact Es|]. split; [exact W'|]. split; [exact Cx|]. split.
    + intros z Hz. rewrite Co, O1; auto.
    + intros z. rewrite Sh. apply S1.
  - rewrite (okind_ok s x kx mx Sx). cbn [bind]. rewrite (okind_ok s y ky my Sy). cbn [bind].
    rewrite (osize_ok s x lx W Hx). cbn [bind]. rewrite (osize_ok s y ly W Hy). cbn [bind].
    destruct (nat_mismatch kx ky (length lx) (length ly)) as [M1 M2].
    { apply (static_len s x kx lx mx); auto. }
    { apply (static_len s y ky ly my); auto. }
    split.
    + intros [H|H]; [contradiction|]. rewrite (M1 H). cbn [bind]. apply copy_loop; auto.
    + intros _ H. destruct (M2 H) as [-> | ->]; cbn; auto.
Qed.

Lemma sim_assign s w x y :
  rel s w ->
  match spec_step dbg_on (Assign x y) w with
  | Good w' => exists s', stepm (Assign x y) s = Ok s' /\ rel s' w'
  | Stop => stepm (Assign x y) s = CompileError \/ stepm (Assign x y) s = Abort DSizeMismatch
  | Stuck => True end.
Proof.
  intros R. cbn [spec_step step]. destruct (w x) as [[kx [vx|n]]|] eqn:Hx; try exact I.
  destruct (w y) as [[ky [vy|n]]|] eqn:Hy; try exact I.
  destruct (rel_values s w x kx vx R Hx) as (Sx & lx & Cx & Ax).
  destruct (rel_values s w y ky vy R Hy) as (Sy & ly & Cy & Ay).
  pose proof R as [W RR]. rewrite (agree_len _ _ Ax), (agree_len _ _ Ay).
  assert (Fin : forall s', wf s' -> cells s' x = Some ly -> (forall z, z <> x -> cells s' z = cells s z) -> same_shape s s' ->
     rel s' (put w x (Some (kx, Values vy)))).
  { intros s' W' C' O' S'. apply (rel_put_shape s); auto. cbn. rewrite S'. split; [exact Sx|]. eauto. }
  destruct (is_res kx) eqn:K.
  - destruct kx; try discriminate. destruct ((length ly =? 0) || dbg_on && (x =? y)) eqn:Q; [exact I|].
    destruct (assign_core s x y KRes ky lx ly _ _ W Sx Sy Cx Cy) as [A _].
    + intros _. split; [lia|]. unfold dbg_on in Q. destruct dbg; [right; lia|auto].
    + destruct A as (s' & E & W' & C' & O' & S'); [auto|]. exists s'. split; [exact E|]. apply Fin; auto.
  - assert (KN : kx <> KRes) by (intros ->; discriminate).
    destruct (assign_core s x y kx ky lx ly _ _ W Sx Sy Cx Cy) as [A B]; [intros ->; contradiction|].
    destruct (length lx =? length ly) eqn:L.
    + destruct A as (s' & E & W' & C' & O' & S'); [right; lia|]. exists s'. split; [exact E|]. apply Fin; auto.
    + apply B; [exact KN|lia].
Qed.

Lemma sim_convert s w k x y g :
  rel s w ->
  match spec_step dbg_on (Convert k x y g) w with
  | Good w' => exists s', stepm (Convert k x y g) s = Ok s' /\ rel s' w'
  | Stop => stepm (Convert k x y g) s = CompileError \/ stepm (Convert k x y g) s = Abort DSizeMismatch
  | Stuck => True end.
Proof.
  intros R. cbn [spec_step step]. destruct (w y) as [[ky [vy|n]]|] eqn:Hy; try exact I.
  destruct (w x) eqn:Hx; [exact I|].
  destruct (rel_values s w y ky vy R Hy) as (Sy & ly & Cy & Ay). rewrite (agree_len _ _ Ay).
  pose proof R as [W RR].
  destruct (is_res k && (length ly =? 0)) eqn:Q; [exact I|].
  unfold conv_ctor. rewrite (osize_ok s y ly W Cy). cbn [bind].
  assert (Nxy : y <> x) by (intros ->; congruence).
  destruct (new_size_ok s w k x (length ly) g R Hx) as (s1 & r & l & E & W1 & Hr & K & M & C & L & D).
  { intros ->. cbn in Q. lia. }
  rewrite E. cbn [bind].
  assert (Sx : shape s1 x = Some (k, None)) by (unfold shape; rewrite Hr; cbn; congruence).
  assert (Sy1 : shape s1 y = Some (ky, None)) by (unfold shape; rewrite (proj1 (D y Nxy)); exact Sy).
  assert (Cy1 : cells s1 y = Some ly) by (rewrite (proj2 (D y Nxy)); exact Cy).
  assert (Fin : forall s', wf s' -> cells s' x = Some ly -> (forall z, z <> x -> cells s' z = cells s1 z) -> same_shape s1 s' ->
     rel s' (put w x (Some (k, Values vy)))).
  { intros s' W' C' O' S'. split; [exact W'|]. intros z. unfold put. destruct (Nat.eqb_spec x z) as [<-|Nz].
    - cbn. rewrite S', Sx. split; [reflexivity|]. eauto.
    - apply (shape_obj_rel s).
      + rewrite S'. unfold shape. rewrite (proj1 (D z ltac:(auto))). reflexivity.
      + rewrite O' by auto. apply D. auto.
      + apply RR. }
  destruct (assign_core s1 x y k ky l ly _ _ W1 Sx Sy1 C Cy1) as [A B].
  { intros ->. cbn in Q. split; [lia|right; auto]. }
  unfold create. rewrite Hx. destruct k as [m| |]; cbn [fits].
  - destruct (length ly =? m) eqn:F.
    + destruct A as (s' & E' & W' & C' & O' & S'); [right; lia|]. exists s'. split; [exact E'|]. apply Fin; auto.
    + apply B; [discriminate|lia].
  - destruct A as (s' & E' & W' & C' & O' & S'); [right; lia|]. exists s'. split; [exact E'|]. apply Fin; auto.
  - destruct A as (s' & E' & W' & C' & O' & S'); [auto|]. exists s'. split; [exact E'|]. apply Fin; auto.
Qed.

Lemma sim_write s w x i v :
  rel s w ->
  match spec_step dbg_on (Write x i v) w with
  | Good w' => exists s', stepm (Write x i v) s = Ok s' /\ rel s' w'
  | Stop => stepm (Write x i v) s = CompileError \/ stepm (Write x i v) s = Abort DSizeMismatch
  | Stuck => True end.
Proof.
  intros R. cbn [spec_step step]. destruct (w x) as [[kx [vx|n]]|] eqn:Hx; try exact I.
  destruct (rel_values s w x kx vx R Hx) as (Sx & lx & Cx & Ax). destruct (i <? length vx) eqn:Q; [|exact I].
  pose proof R as [W RR].
  destruct (el_set_ok s x lx i v W Cx) as (s' & E & W' & C' & O' & S').
  { rewrite <- (agree_len _ _ Ax). lia. }
  exists s'. split; [exact E|]. apply (rel_put_shape s); auto. cbn. rewrite S'. split; [exact Sx|].
  eexists. split; [exact C'|]. clear - Ax Q. unfold set_nth. revert i Q. induction Ax as [|a b vx lx Hab Ax IH]; intros i Q.
  - cbn in Q. lia.
  - destruct i as [|i]; cbn.
    + constructor; auto.
    + constructor; [exact Hab|]. apply IH. exact Q.
Qed.

Lemma sim_resize s w x n :
  rel s w ->
  match spec_step dbg_on (Resize x n) w with
  | Good w' => exists s', stepm (Resize x n) s = Ok s' /\ rel s' w'
  | Stop => stepm (Resize x n) s = CompileError \/ stepm (Resize x n) s = Abort DSizeMismatch
  | Stuck => True end.
Proof.
  intros R. cbn [spec_step step]. destruct (w x) as [[kx [vx|m]]|] eqn:Hx; try exact I; [|destruct kx; exact I].
  destruct kx; try exact I.
  destruct (rel_values s w x KRes vx R Hx) as (Sx & lx & Cx & Ax). pose proof R as [W RR].
  destruct (cells_inv s x lx Cx) as (r & Hr & Hct). unfold resize, get_rep. rewrite Hr. cbn [bind].
  unfold shape in Sx. rewrite Hr in Sx. cbn in Sx. injection Sx as K M. destruct r as [?|?|?|l0]; try discriminate.
  cbn in Hct. injection Hct as ->.
  match goal with |- context [StdVec ?e] => set (l' := e) end.
  destruct (replace_local s x (StdVec lx) (StdVec l') W) as (A & B & C & D); [auto|reflexivity|cbn; eauto|].
  eexists. split; [reflexivity|]. apply (rel_put s); auto; [|intros z Hz; destruct (D z Hz); auto].
  unfold obj_rel, shape. rewrite B. split; [reflexivity|]. exists l'. rewrite C. split; [reflexivity|].
  unfold l'. destruct (length lx <? n) eqn:Q; [|apply agree_trim; exact Ax].
  rewrite <- (agree_len _ _ Ax) in *. rewrite firstn_all2 by lia.
  apply Forall2_app.
  - unfold vec_resize. rewrite (agree_len _ _ Ax). rewrite firstn_app. rewrite (agree_len _ _ Ax) in Q.
    rewrite (firstn_all2 lx) by lia. rewrite firstn_all, Nat.sub_diag. cbn. rewrite app_nil_r. exact Ax.
  - assert (L : length (dbg_init dbg (skipn (length vx) (vec_resize zero lx n))) = n - length vx).
    { rewrite dbg_init_len, skipn_length, vec_resize_len. reflexivity. }
    rewrite <- L. apply agree_none.
Qed.

Lemma sim_destroy s w x :
  rel s w ->
  match spec_step dbg_on (Destroy x) w with
  | Good w' => exists s', stepm (Destroy x) s = Ok s' /\ rel s' w'
  | Stop => stepm (Destroy x) s = CompileError \/ stepm (Destroy x) s = Abort DSizeMismatch
  | Stuck => True end.
Proof.
  intros R. cbn [spec_step step]. destruct (w x) as [c|] eqn:Hx; [|exact I]. pose proof R as [W RR].
  assert (exists r, objs s x = Some r) as [r Hr].
  { specialize (RR x). rewrite Hx in RR. destruct c as [k [vs|n]]; cbn in RR.
    - destruct RR as [Sh _]. unfold shape in Sh. destruct (objs s x); [eauto|discriminate].
    - destruct RR as [_ ->]. eauto. }
  unfold destroy, get_rep. rewrite Hr. cbn [bind].
  assert (NoBlk : owns r = None -> forall s', s' = mkst (hp s) (set_obj (objs s) x None) -> rel s' (put w x None)).
  { intros Ho s' ->.
    assert (OW : forall y, owner (mkst (hp s) (set_obj (objs s) x None)) y = owner s y).
    { intros y. unfold owner; cbn. unfold set_obj. destruct (Nat.eqb_spec x y) as [<-|]; [rewrite Hr; auto|reflexivity]. }
    apply (rel_put s); auto.
    - split.
      + intros a b p. rewrite !OW. apply (wf_own s W).
      + intros p a H. destruct (wf_leak s W p a H) as [z Hz]. exists z. rewrite OW. exact Hz.
      + intros y ry. cbn. unfold set_obj. destruct (Nat.eqb_spec x y); [discriminate|]. apply (wf_obj s W).
    - cbn. apply set_obj_same.
    - intros y Hy. unfold cells; cbn. rewrite set_obj_other by auto. auto. }
  assert (Blk : forall p, owns r = Some p ->
     exists s', (h <- hp_free (hp s) (Some p) ;; Ok (mkst h (set_obj (objs s) x None))) = Ok s' /\ rel s' (put w x None)).
  { intros p Ho. destruct (owns_live s x r p W Hr Ho) as [l Hl]. unfold hp_free. rewrite Hl. cbn [bind].
    eexists. split; [reflexivity|].
    assert (Hlt : p < length (hp s)) by (apply nth_error_Some; congruence).
    assert (CT : forall y ry, y <> x -> objs s y = Some ry -> contents (hp_put (hp s) p None) ry = contents (hp s) ry).
    { intros y ry Ne Hy.
      assert (NE : owns ry <> Some p).
      { intros E. apply Ne. apply (wf_own s W y x p); unfold owner; [rewrite Hy|rewrite Hr]; auto. }
      destruct ry as [?|n q|n [q|]|?]; cbn in *; auto;
        rewrite hp_put_nth; destruct (Nat.eqb_spec p q) as [->|]; try reflexivity; contradiction. }
    apply (rel_put s); auto.
    - split.
      + intros a b q. unfold owner; cbn. unfold set_obj. destruct (Nat.eqb_spec x a), (Nat.eqb_spec x b); try discriminate.
        apply (wf_own s W).
      + cbn. intros q a. rewrite hp_put_nth. destruct (Nat.eqb_spec p q) as [<-|Nq]; cbn [andb].
        * replace (p <? length (hp s)) with true by lia. discriminate.
        * intros H. destruct (wf_leak s W q a H) as [z Hz]. exists z. unfold owner; cbn. rewrite set_obj_other; [exact Hz|].
          intros <-. unfold owner in Hz. rewrite Hr in Hz. congruence.
      + cbn. intros y ry. unfold set_obj. destruct (Nat.eqb_spec x y); [discriminate|]. intros Hy.
        rewrite (CT y ry) by auto. apply (wf_obj s W y); auto.
    - cbn. apply set_obj_same.
    - intros y Hy. cbn. rewrite set_obj_other by auto. split; [reflexivity|]. unfold cells; cbn. rewrite set_obj_other by auto.
      destruct (objs s y) as [ry|] eqn:Ey; [|reflexivity]. apply (CT y); auto. }
  destruct r as [l0|n p|n [p|]|l0]; cbn in *.
  - eexists. split; [reflexivity|]. apply NoBlk; auto.
  - apply Blk. reflexivity.
  - apply Blk. reflexivity.
  - eexists. split; [reflexivity|]. apply NoBlk; auto.
  - eexists. split; [reflexivity|]. apply NoBlk; auto.
Qed.

Lemma sim_copy s w x y :
  rel s w ->
  match spec_step dbg_on (Copy x y) w with
  | Good w' => exists s', stepm (Copy x y) s = Ok s' /\ rel s' w'
  | Stop => stepm (Copy x y) s = CompileError \/ stepm (Copy x y) s = Abort DSizeMismatch
  | Stuck => True end.
Proof.
  intros R. cbn [spec_step step]. destruct (w y) as [[k [vs|n]]|] eqn:Hy; try exact I.
  unfold create. destruct (w x) eqn:Hx; [exact I|]. apply (copy_ctor_ok s w x y k vs); auto.
Qed.

Lemma sim_swap s w x y :
  rel s w ->
  match spec_step dbg_on (Swap x y) w with
  | Good w' => exists s', stepm (Swap x y) s = Ok s' /\ rel s' w'
  | Stop => stepm (Swap x y) s = CompileError \/ stepm (Swap x y) s = Abort DSizeMismatch
  | Stuck => True end.
Proof.
  intros R. cbn [spec_step step]. destruct (w x) as [[kx [vx|n]]|] eqn:Hx; try exact I.
  destruct (w y) as [[ky [vy|n]]|] eqn:Hy; try exact I.
  destruct (rel_values s w x kx vx R Hx) as (Sx & lx & Cx & Ax).
  destruct (rel_values s w y ky vy R Hy) as (Sy & ly & Cy & Ay).
  pose proof R as [W RR]. rewrite (agree_len _ _ Ax), (agree_len _ _ Ay).
  destruct (cells_inv s x lx Cx) as (rx & Hrx & Hcx). destruct (cells_inv s y ly Cy) as (ry & Hry & Hcy).
  assert (Lx : length lx = rsize rx) by (apply (wf_len s x lx rx); auto).
  assert (Ly : length ly = rsize ry) by (apply (wf_len s y ly ry); auto).
  assert (Kx : rkind rx = kx /\ moved rx = None) by (unfold shape in Sx; rewrite Hrx in Sx; cbn in Sx; split; congruence).
  assert (Ky : rkind ry = ky /\ moved ry = None) by (unfold shape in Sy; rewrite Hry in Sy; cbn in Sy; split; congruence).
  assert (Same : x = y -> lx = ly /\ rx = ry /\ vx = vy /\ kx = ky).
  { intros <-. rewrite Hx in Hy. injection Hy as -> ->. repeat split; congruence. }
  unfold swap_vec, get_rep. rewrite Hrx. cbn [bind]. rewrite Hry. cbn [bind].
  (* the elementwise case *)
  assert (EW : (is_res kx && is_res ky) = false ->
     let e := (_ <- size_mismatch (size_param (rkind rx)) (size_param (rkind ry)) (Z.of_nat (rsize rx)) (Z.of_nat (rsize ry)) ;;
        for_ 0 (rsize rx) (fun i st => a <- el_get st x i ;; b <- el_get st y i ;;
                                       st1 <- el_set st x i b ;; el_set st1 y i a) s) in
     match (if is_res kx && is_res ky || (length lx =? length ly) then
              Good (put (put w x (Some (kx, Values vy))) y (Some (ky, Values vx))) else Stop) with
     | Good w' => exists s', e = Ok s' /\ rel s' w'
     | Stop => e = CompileError \/ e = Abort DSizeMismatch
     | Stuck => True end).
  { intros NR e. unfold e. rewrite NR. destruct Kx as [Kx _], Ky as [Ky _]. rewrite Kx, Ky, <- Lx, <- Ly.
    destruct (nat_mismatch kx ky (length lx) (length ly)) as [M1 M2].
    { apply (static_len s x kx lx None); auto. } { apply (static_len s y ky ly None); auto. }
    cbn [orb]. destruct (length lx =? length ly) eqn:Q.
    - rewrite M1 by lia. cbn [bind].
      destruct (swap_loop s x y lx ly W Cx Cy) as (s' & E & W' & C1 & C2 & O & Sh); [lia|].
      exists s'. split; [exact E|]. split; [exact W'|]. intros z. unfold put.
      destruct (Nat.eqb_spec y z) as [<-|Ny]; [|destruct (Nat.eqb_spec x z) as [<-|Nx]].
      + cbn. rewrite Sh. split; [exact Sy|]. eauto.
      + cbn. rewrite Sh. split; [exact Sx|]. eauto.
      + apply (shape_obj_rel s); auto.
    - destruct M2 as [-> | ->]; [lia|left; reflexivity|right; reflexivity]. }
  destruct rx as [l1|n1 p1|n1 [p1|]|l1]; destruct ry as [l2|n2 p2|n2 [p2|]|l2];
    destruct Kx as [Kx Mx], Ky as [Ky My]; cbn in Kx, Ky, Mx, My, Lx, Ly; try discriminate; subst kx ky;
    try (apply EW; reflexivity); clear EW.
  - (* Dynamic, Dynamic *) cbn [is_res andb orb].
    destruct (nat_mismatch KDyn KDyn n1 n2) as [M1 M2]; try discriminate.
    cbn [size_param] in M1, M2. rewrite <- Lx, <- Ly in *.
    destruct (length lx =? length ly) eqn:Q.
    2:{ destruct M2 as [-> | ->]; [lia|left; reflexivity|right; reflexivity]. }
    rewrite M1 by lia. cbn [bind]. eexists. split; [reflexivity|].
    set (s2 := mkst (hp s) (set_obj (set_obj (objs s) x (Some (DynHeap (length lx) (Some p2)))) y (Some (DynHeap (length ly) (Some p1))))).
    assert (O2 : forall z, objs s2 z = if y =? z then Some (DynHeap (length ly) (Some p1)) else if x =? z then Some (DynHeap (length lx) (Some p2)) else objs s z) by reflexivity.
    assert (OX : owner s x = Some p1) by (unfold owner; rewrite Hrx; reflexivity).
    assert (OY : owner s y = Some p2) by (unfold owner; rewrite Hry; reflexivity).
    (* owner of s2 = owner of s composed with the transposition *)
    set (tr := fun z => if y =? z then x else if x =? z then y else z).
    assert (OW : forall z, owner s2 z = owner s (tr z)).
    { intros z. unfold owner at 1, tr. rewrite O2. destruct (Nat.eqb_spec y z); [rewrite OX; reflexivity|].
      destruct (Nat.eqb_spec x z); [rewrite OY; reflexivity|]. reflexivity. }
    assert (TT : forall z, tr (tr z) = z).
    { intros z. unfold tr. destruct (Nat.eqb_spec y z) as [<-|].
      - destruct (Nat.eqb_spec y x); [auto|]. rewrite Nat.eqb_refl. reflexivity.
      - destruct (Nat.eqb_spec x z) as [<-|]; [rewrite Nat.eqb_refl; reflexivity|].
        destruct (Nat.eqb_spec y z); [contradiction|]. destruct (Nat.eqb_spec x z); [contradiction|reflexivity]. }
    assert (W2 : wf s2).
    { split.
      - intros a b q. rewrite !OW. intros H1 H2. rewrite <- (TT a), <- (TT b). f_equal. apply (wf_own s W _ _ q); auto.
      - cbn. intros q a Hq. destruct (wf_leak s W q a Hq) as [z Hz]. exists (tr z). rewrite OW, TT. exact Hz.
      - intros z rz. rewrite O2. destruct (Nat.eqb_spec y z).
        + intros [= <-]. left. exists lx. split; [exact Hcx|cbn; lia].
        + destruct (Nat.eqb_spec x z).
          * intros [= <-]. left. exists ly. split; [exact Hcy|cbn; lia].
          * apply (wf_obj s W). }
    split; [exact W2|]. intros z. unfold put. pose proof (RR z) as Rz. fold s2.
    destruct (Nat.eqb_spec y z) as [<-|Ny]; [|destruct (Nat.eqb_spec x z) as [<-|Nx]].
    + unfold obj_rel, shape, cells. rewrite O2, Nat.eqb_refl. split; [reflexivity|]. exists lx. split; [exact Hcx|exact Ax].
    + unfold obj_rel, shape, cells. rewrite O2, Nat.eqb_refl. destruct (Nat.eqb_spec y x); [congruence|].
      split; [reflexivity|]. exists ly. split; [exact Hcy|exact Ay].
    + apply (obj_rel_ext s); auto; unfold cells; rewrite O2;
      destruct (Nat.eqb_spec y z); try congruence; destruct (Nat.eqb_spec x z); try congruence; reflexivity.
  - (* Resizable, Resizable *) cbn [is_res andb orb]. eexists. split; [reflexivity|].
    cbn in Hcx, Hcy. injection Hcx as ->. injection Hcy as ->.
    destruct (replace_local s x (StdVec lx) (StdVec ly) W) as (A & B & C & D); [auto|reflexivity|cbn; eauto|].
    set (s1 := mkst (hp s) (set_obj (objs s) x (Some (StdVec ly)))) in *.
    assert (Hr1 : objs s1 y = Some (StdVec ly)).
    { destruct (Nat.eq_dec y x) as [->|Ne]; [exact B|]. rewrite (proj2 (D y Ne)). exact Hry. }
    destruct (replace_local s1 y (StdVec ly) (StdVec lx) A) as (A' & B' & C' & D'); [auto|reflexivity|cbn; eauto|].
    change (rel (mkst (hp s1) (set_obj (objs s1) y (Some (StdVec lx))))
              (put (put w x (Some (KRes, Values vy))) y (Some (KRes, Values vx)))).
    apply (rel_put s1); auto.
    + apply (rel_put s); auto.
      * unfold obj_rel, shape. rewrite B. split; [reflexivity|]. exists ly. rewrite C. auto.
      * intros z Hz. destruct (D z Hz); auto.
    + unfold obj_rel, shape. rewrite B'. split; [reflexivity|]. exists lx. rewrite C'. auto.
    + intros z Hz. destruct (D' z Hz); auto.
Qed.

Lemma sim_step s w c :
  rel s w ->
  match spec_step dbg_on c w with
  | Good w' => exists s', stepm c s = Ok s' /\ rel s' w'
  | Stop => stepm c s = CompileError \/ stepm c s = Abort DSizeMismatch
  | Stuck => True end.
Proof.
  intros R. destruct c.
  - apply sim_new_list; exact R.
  - apply sim_new_size; exact R.
  - apply sim_copy; exact R.
  - apply sim_convert; exact R.
  - apply sim_move; exact R.
  - apply sim_assign; exact R.
  - apply sim_swap; exact R.
  - apply sim_resize; exact R.
  - apply sim_write; exact R.
  - apply sim_destroy; exact R.
Qed.
Lemma sim_run p : forall s w, rel s w ->
  match spec_run dbg_on p w with
  | Good w' => exists s', run dbg zero bytes p s = Ok s' /\ rel s' w'
  | Stop => run dbg zero bytes p s = CompileError \/ run dbg zero bytes p s = Abort DSizeMismatch
  | Stuck => True end.
Proof.
  induction p as [|c p IH]; intros s w R; cbn [spec_run run].
  - eauto.
  - pose proof (sim_step s w c R) as H. destruct (spec_step dbg_on c w) as [w1| |].
    + destruct H as (s1 & E & R1). rewrite E. cbn [bind]. apply IH. exact R1.
    + destruct H as [-> | ->]; cbn; auto.
    + exact I.
Qed.
Lemma rel_init : rel init nothing.
Proof.
  split.
  - split; cbn.
    + intros x y p H. discriminate.
    + intros [|p] l H; discriminate.
    + intros x r H. discriminate.
  - intros x. reflexivity.
Qed.
End L.
