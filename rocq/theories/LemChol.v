(** * Lemmas about the LDL^T decomposition: the factorisation loop. *)
From Coq Require Import Arith Bool List Lia Field.
From Verif Require Import Base Alg Mat SpecMat LemMat SpecLin LemLin ModelOps LemOps ModelObjects LemObjects LemHelpers ModelChol.
Import ListNotations.

Lemma for_step {St} lo hi (body : nat -> St -> outcome St) s : lo < hi ->
  for_ lo hi body s = bind (body lo s) (for_ (S lo) hi body).
Proof. intros H. unfold for_. replace (hi - lo) with (S (hi - S lo)) by lia. reflexivity. Qed.
Lemma for_id {St} lo hi (body : nat -> St -> outcome St) s : (forall i, lo <= i < hi -> body i s = Ok s) -> for_ lo hi body s = Ok s.
Proof.
  intros H. destruct (le_lt_dec lo hi) as [Hl|Hl]; [|apply for_empty; lia].
  apply wp_eq. apply (wp_for (fun _ t => t = s)); [exact Hl|reflexivity|]. intros i t Hi ->. rewrite H by exact Hi. reflexivity.
Qed.

Section L.
Context {F : Type} {Fo : Ops F} {Fl : Laws F}.
Add Field Ff : law_field.
Open Scope F_scope.

Lemma chol_val_ok (C : mat F) n row col : mrows C = n -> mcols C = n -> (row < n)%nat -> (col < n)%nat ->
  chol_val C row col = Ok (mel C row col - sum col (fun k => mel C k col * mel C row k)).
Proof.
  intros HR HC Hr Hc. unfold chol_val. rewrite mget_ok by lia. cbn [bind]. apply wp_eq.
  apply (wp_for (fun k v => v = mel C row col - sum k (fun k => mel C k col * mel C row k))); [lia|cbn [sum]; ring|].
  intros k v Hk ->. rewrite !mget_ok by lia. cbn [bind wp sum]. ring.
Qed.

Definition chol_inv (n : nat) (a : nat -> nat -> F) (col : nat) (C : mat F) : Prop :=
  mrows C = n /\ mcols C = n /\
  (forall c, (c < col)%nat -> mel C c c <> 0) /\
  (forall r c, (c < col)%nat -> (c < r < n)%nat -> mel C c r = mel C c c * mel C r c) /\
  (forall r c, (c < col)%nat -> (c <= r < n)%nat -> a r c = (if (r =? c)%nat then mel C c c else mel C c r) + sum c (fun k => mel C k c * mel C r k)) /\
  (forall r c, (col <= r < n)%nat -> (col <= c < n)%nat -> mel C r c = a r c).
(** the state when the pivot of column [col] is zero *)
Definition chol_stop (n : nat) (a : nat -> nat -> F) (col : nat) (C : mat F) : Prop :=
  mrows C = n /\ mcols C = n /\
  (forall c, (c < col)%nat -> mel C c c <> 0) /\
  (forall r c, (c < col)%nat -> (c < r < n)%nat -> mel C c r = mel C c c * mel C r c) /\
  (forall r c, (c < col)%nat -> (c <= r < n)%nat -> a r c = (if (r =? c)%nat then mel C c c else mel C c r) + sum c (fun k => mel C k c * mel C r k)) /\
  mel C col col = 0 /\ a col col = sum col (fun k => mel C k col * mel C col k).

Lemma chol_col_ok n a col (C : mat F) : (col < n)%nat -> chol_inv n a col C ->
  exists C' f, chol_col n col (C, None) = Ok (C', f) /\
   ((f = None /\ chol_inv n a (S col) C') \/ (f = Some col /\ chol_stop n a col C')).
Proof.
  intros Hcol (HR & HC & I0 & I1 & I2 & I3). unfold chol_col. rewrite for_step by exact Hcol.
  unfold chol_row at 1. rewrite (chol_val_ok C n) by assumption. cbn [bind]. rewrite Nat.eqb_refl. rewrite mset_ok by lia. cbn [bind].
  set (w := fun r => mel C r col - sum col (fun k => mel C k col * mel C r k)). fold (w col).
  destruct (feqb (w col) f0) eqn:E.
  - apply law_eqb in E. cbn [bind]. rewrite for_id by (intros; reflexivity). cbn [bind]. eexists _, _. split; [reflexivity|]. right. split; [reflexivity|].
    unfold chol_stop. cbn [mrows mcols mel]. split; [exact HR|]. split; [exact HC|].
    assert (V : forall r c, ((r < col) \/ (c < col))%nat -> (if ((r =? col)%nat && (c =? col)%nat)%bool then w col else mel C r c) = mel C r c).
    { intros r c H. destruct (Nat.eqb_spec r col), (Nat.eqb_spec c col); cbn [andb]; try reflexivity. lia. }
    split; [|split; [|split; [|split]]].
    + intros c Hc. rewrite V by lia. apply I0. exact Hc.
    + intros r c Hc Hr. rewrite !V by lia. apply I1; assumption.
    + intros r c Hc Hr. rewrite !V by lia. rewrite (I2 r c Hc Hr). f_equal. apply sum_ext. intros k Hk. rewrite !V by lia. reflexivity.
    + rewrite !Nat.eqb_refl. cbn [andb]. exact E.
    + rewrite <- I3 by lia. apply sub_zero. rewrite <- E. unfold w. f_equal. apply sum_ext. intros k Hk. rewrite !V by lia. reflexivity.
  - assert (N : w col <> 0) by (intros Hn; rewrite Hn, eqb_refl in E; discriminate).
    rewrite div_ok by exact N. cbn [bind].
    set (g := fun (k i j : nat) => if ((i =? col) && (j =? col))%nat%bool then w col
        else if ((j =? col) && ((col <? i) && (i <? k)))%nat%bool then w i * (1 / w col)
        else if ((i =? col) && ((col <? j) && (j <? k)))%nat%bool then w j else mel C i j).
    assert (L : wp (for_ (S col) n (chol_row col) (mkmat (mrows C) (mcols C) (fun i j => if ((i =? col) && (j =? col))%nat%bool then w col else mel C i j), 1 / w col, None))
       (fun s => exists C', s = (C', 1 / w col, None) /\ mrows C' = n /\ mcols C' = n /\ forall i j, mel C' i j = g n i j)).
    { apply (wp_for (fun k s => exists C', s = (C', 1 / w col, None) /\ mrows C' = n /\ mcols C' = n /\ forall i j, mel C' i j = g k i j)).
      - lia.
      - eexists. split; [reflexivity|]. cbn [mrows mcols mel]. split; [exact HR|]. split; [exact HC|]. intros i j. unfold g.
        destruct (Nat.eqb_spec i col), (Nat.eqb_spec j col), (Nat.ltb_spec col i), (Nat.ltb_spec i (S col)), (Nat.ltb_spec col j), (Nat.ltb_spec j (S col)); cbn [andb]; try reflexivity; lia.
      - intros k s Hk (C' & -> & R' & K' & V'). unfold chol_row. rewrite (chol_val_ok C' n) by lia. cbn [bind].
        destruct (Nat.eqb_spec k col); [lia|]. rewrite mset_ok by lia. cbn [bind]. rewrite mset_ok by (cbn [mrows mcols]; lia). cbn [bind wp].
        eexists. split; [reflexivity|]. cbn [mrows mcols mel]. split; [exact R'|]. split; [exact K'|].
        assert (W : mel C' k col - sum col (fun k0 => mel C' k0 col * mel C' k k0) = w k).
        { unfold w. rewrite V'. f_equal.
          - unfold g. destruct (Nat.eqb_spec k col); [lia|]. cbn [andb]. rewrite Nat.ltb_irrefl, !andb_false_r. reflexivity.
          - apply sum_ext. intros x Hx. rewrite !V'. unfold g. destruct (Nat.eqb_spec x col); [lia|]. destruct (Nat.eqb_spec k col); [lia|].
            destruct (Nat.ltb_spec col x); [lia|]. rewrite !andb_false_r. cbn [andb]. reflexivity. }
        rewrite W. intros i j. rewrite !V'. unfold g.
        destruct (Nat.eqb_spec i k), (Nat.eqb_spec j k), (Nat.eqb_spec i col), (Nat.eqb_spec j col); cbn [andb]; try lia; subst;
          repeat match goal with |- context [(?x <? ?y)%nat] => destruct (Nat.ltb_spec x y) end; cbn [andb]; try lia; reflexivity. }
    apply wp_ok_inv in L. destruct L as (s & -> & C' & -> & R' & K' & V'). cbn [bind]. eexists _, _. split; [reflexivity|]. left. split; [reflexivity|].
    assert (Vl : forall r c, ((r < col) \/ (c < col))%nat -> mel C' r c = mel C r c).
    { intros r c H. rewrite V'. unfold g. destruct (Nat.eqb_spec r col), (Nat.eqb_spec c col), (Nat.ltb_spec col r), (Nat.ltb_spec col c); cbn [andb]; try reflexivity; lia. }
    assert (Vd : mel C' col col = w col) by (rewrite V'; unfold g; rewrite Nat.eqb_refl; reflexivity).
    assert (Vr : forall r, (col < r < n)%nat -> mel C' r col = w r * (1 / w col) /\ mel C' col r = w r).
    { intros r Hr. rewrite !V'. unfold g. rewrite Nat.eqb_refl. destruct (Nat.eqb_spec r col); [lia|]. destruct (Nat.ltb_spec col r), (Nat.ltb_spec r n); try lia. cbn [andb]. split; reflexivity. }
    unfold chol_inv. split; [exact R'|]. split; [exact K'|]. split; [|split; [|split]].
    + intros c Hc. destruct (Nat.eq_dec c col) as [->|]; [rewrite Vd; exact N|]. rewrite Vl by lia. apply I0. lia.
    + intros r c Hc Hr. destruct (Nat.eq_dec c col) as [->|].
      * rewrite Vd. destruct (Vr r Hr) as [-> ->]. field. exact N.
      * rewrite !Vl by lia. apply I1; lia.
    + intros r c Hc Hr. rewrite (sum_ext c _ (fun k => mel C k c * mel C r k)) by (intros k Hk; rewrite !Vl by lia; reflexivity).
      destruct (Nat.eq_dec c col) as [->|].
      * rewrite Vd. destruct (Nat.eqb_spec r col) as [->|]; [rewrite <- I3 by lia; unfold w; ring|].
        destruct (Vr r ltac:(lia)) as [_ ->]. unfold w. rewrite I3 by lia. ring.
      * rewrite !Vl by lia. apply I2; lia.
    + intros r c Hr Hc. rewrite V'. unfold g. destruct (Nat.eqb_spec r col), (Nat.eqb_spec c col); try lia. cbn [andb]. apply I3; lia.
Qed.

Lemma chol_compute_ok n (A : mat F) : mrows A = n -> mcols A = n ->
  exists ch, chol_compute A = Ok ch /\
   ((ch_rank ch = n /\ chol_inv n (mel A) n (ch_m ch)) \/ ((ch_rank ch < n)%nat /\ chol_stop n (mel A) (ch_rank ch) (ch_m ch))).
Proof.
  intros HR HC. unfold chol_compute. apply wp_ok_inv. apply wp_bind. rewrite HR.
  eapply wp_mono; [apply (wp_for (fun k (s : mat F * option nat) => match snd s with None => chol_inv n (mel A) k (fst s)
     | Some j => (j < n)%nat /\ chol_stop n (mel A) j (fst s) end))|].
  - lia.
  - cbn [fst snd]. unfold chol_inv. split; [exact HR|]. split; [exact HC|]. split; [lia|]. split; [lia|]. split; [lia|]. reflexivity.
  - intros k [C [j|]] Hk H; cbn [fst snd] in H.
    + cbn [chol_col wp fst snd]. exact H.
    + destruct (chol_col_ok n (mel A) k C ltac:(lia) H) as (C' & f & -> & [[-> H']|[-> H']]); cbn [wp fst snd]; [exact H'|]. split; [lia|exact H'].
  - intros [C [j|]] H; cbn [fst snd] in H; cbn [wp].
    + right. cbn [ch_rank ch_m]. exact H.
    + left. cbn [ch_rank ch_m]. destruct H as (H0 & H). split; [exact H0|]. split; [exact H0|exact H].
Qed.
End L.
