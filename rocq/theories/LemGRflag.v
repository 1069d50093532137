(** * GR_SVD: what WANT_U and WANT_V change *)
From Coq Require Import Reals Arith Bool Lia.
From Verif Require Import Base Alg Inst Mat ModelOps ModelSVD ModelGR.
Open Scope outcome_scope.
Local Open Scope R_scope.

(** two runs that both finish *)
Definition both {S T} (X : outcome S) (Y : outcome T) (P : S -> T -> Prop) : Prop := forall a b, X = Ok a -> Y = Ok b -> P a b.
Lemma both_ok {S T} (a : S) (b : T) (P : S -> T -> Prop) : P a b -> both (Ok a) (Ok b) P.
Proof. intros H a' b' E1 E2. inversion E1. inversion E2. subst. exact H. Qed.
Lemma both_bind {S T S' T'} (X : outcome S) (Y : outcome T) (k : S -> outcome S') (k' : T -> outcome T') (P : S -> T -> Prop) (Q : S' -> T' -> Prop) : both X Y P -> (forall a b, P a b -> both (k a) (k' b) Q) -> both (bind X k) (bind Y k') Q.
Proof. intros H K a b E1 E2. destruct X as [x| | | | |]; try discriminate. destruct Y as [y| | | | |]; try discriminate. exact (K x y (H x y eq_refl eq_refl) a b E1 E2). Qed.
Lemma both_same {S S' T'} (X : outcome S) (k : S -> outcome S') (k' : S -> outcome T') (Q : S' -> T' -> Prop) : (forall a, both (k a) (k' a) Q) -> both (bind X k) (bind X k') Q.
Proof. intros K. apply (both_bind X X k k' eq); [intros a b E1 E2; congruence|intros a b ->; apply K]. Qed.
Lemma both_for_up {S} (P : S -> S -> Prop) (f g : nat -> S -> outcome S) : (forall i a b, P a b -> both (f i a) (g i b) P) -> forall num lo a b, P a b -> both (for_up num lo f a) (for_up num lo g b) P.
Proof. intros H. induction num as [|num I]; intros lo a b K; cbn [for_up]; [apply both_ok; exact K|]. apply (both_bind _ _ _ _ P); [apply H; exact K|]. intros a' b' K'. apply I. exact K'. Qed.
Section F.
Variable absorbed : R -> R -> bool.
Variables wU wV : bool.
Definition keep (w : bool) (X Y : mat R) : Prop := w = true -> X = Y.
Lemma both_rotate w X Y a b c s : keep w X Y -> both (rotate_if w X a b c s) (rotate_if true Y a b c s) (keep w).
Proof. intros H X' Y' E1 E2 ->. cbn [rotate_if] in *. rewrite (H eq_refl) in E1. congruence. Qed.
Definition triple (r r' : mat R * vec R * vec R) : Prop := keep wU (fst (fst r)) (fst (fst r')) /\ snd (fst r) = snd (fst r') /\ snd r = snd r'.
Lemma both_cancel anorm l1 : forall num i U U' D E c s, keep wU U U' -> both (cancel absorbed wU num i l1 anorm U D E c s) (cancel absorbed true num i l1 anorm U' D E c s) triple.
Proof.
  induction num as [|num I]; intros i U U' D E c s K; cbn [cancel]; [apply both_ok; split; [exact K|split; reflexivity]|].
  apply both_same. intros e. apply both_same. intros E1. destruct (absorbed (s * e) anorm); [apply both_ok; split; [exact K|split; reflexivity]|].
  apply both_same. intros g. apply both_same. intros D1. apply both_same. intros c1. apply both_same. intros s1. apply (both_bind _ _ _ _ (keep wU)); [apply both_rotate; exact K|]. intros U1 U1' K1. apply I. exact K1.
Qed.
Definition swrel (w w' : sweep) : Prop := keep wU (ModelGR.wU w) (ModelGR.wU w') /\ keep wV (ModelGR.wV w) (ModelGR.wV w') /\ wD w = wD w' /\ wE w = wE w' /\ wf w = wf w' /\ wx w = wx w' /\ wc w = wc w' /\ ws w = ws w'.
Lemma both_sweep i w w' : swrel w w' -> both (sweep_step wU wV i w) (sweep_step true true i w') swrel.
Proof.
  intros (K1 & K2 & K3 & K4 & K5 & K6 & K7 & K8). unfold sweep_step. rewrite K3, K4, K5, K6, K7, K8.
  apply both_same. intros g. apply both_same. intros y. apply both_same. intros E. apply both_same. intros c. apply both_same. intros s. apply (both_bind _ _ _ _ (keep wV)); [apply both_rotate; exact K2|]. intros V V' KV.
  apply both_same. intros D. apply both_same. intros [c2 s2]. apply (both_bind _ _ _ _ (keep wU)); [apply both_rotate; exact K1|]. intros U U' KU. apply both_ok. unfold swrel. cbn. repeat (split; [first [exact KU|exact KV|reflexivity]|]). reflexivity.
Qed.
Definition prel (p p' : parts) : Prop := keep wU (pU p) (pU p') /\ keep wV (pV p) (pV p') /\ pD p = pD p' /\ pE p = pE p'.
Lemma both_subloop anorm k iter p p' : prel p p' -> both (subloop absorbed wU wV anorm k iter p) (subloop absorbed true true anorm k iter p') (fun r r' => prel (fst r) (fst r') /\ snd r = snd r').
Proof.
  intros (K1 & K2 & K3 & K4). unfold subloop. rewrite K3, K4. apply both_same. intros [l b]. apply (both_bind _ _ _ _ triple).
  - destruct b; [apply both_cancel; exact K1|]. apply both_ok. split; [exact K1|split; reflexivity].
  - intros [[U D] E] [[U' D'] E'] (T1 & T2 & T3). cbn [fst snd] in *. subst D' E'. apply both_same. intros z. destruct (l =? k)%nat; [apply both_ok; split; [repeat split; assumption|reflexivity]|]. destruct (iter =? 30)%nat; [apply both_ok; split; [repeat split; assumption|reflexivity]|].
    apply both_same. intros x. apply both_same. intros f. apply (both_bind _ _ _ _ swrel).
    + apply (both_for_up swrel); [intros i a b0 H; apply both_sweep; exact H|]. unfold swrel. cbn. repeat (split; [first [exact T1|exact K2|reflexivity]|]). reflexivity.
    + intros w w' (W1 & W2 & W3 & W4 & W5 & W6 & _). rewrite W3, W4, W5, W6. apply both_same. intros E1. apply both_same. intros E2. apply both_same. intros D1. apply both_ok. split; [repeat split; assumption|reflexivity].
Qed.
Lemma both_iterate anorm k : forall fuel iter p p', prel p p' -> both (iterate absorbed wU wV fuel anorm k iter p) (iterate absorbed true true fuel anorm k iter p') (fun r r' => prel (fst r) (fst r') /\ snd r = snd r').
Proof.
  induction fuel as [|fuel I]; intros iter p p' H; cbn [iterate]; [intros a b E; discriminate|]. eapply both_bind; [apply both_subloop; exact H|]. intros [p1 t] [p1' t'] [H1 H2]. cbn [fst snd] in *. subst t'. destruct t; [apply both_ok; split; [exact H1|reflexivity]|apply both_ok; split; [exact H1|reflexivity]|apply I; exact H1].
Qed.
Lemma both_positive k z p p' : prel p p' -> both (make_positive wV k z p) (make_positive true k z p') prel.
Proof.
  intros H. pose proof H as (K1 & K2 & K3 & K4). unfold make_positive. destruct (R_ltb z 0); [|apply both_ok; exact H]. rewrite K3. apply both_same. intros D. apply (both_bind _ _ _ _ (keep wV)).
  - intros X Y E1 E2 Hw. rewrite Hw in E1. rewrite (K2 Hw) in E1. congruence.
  - intros V V' KV. apply both_ok. repeat split; assumption.
Qed.
Lemma both_diagonalize fuel anorm : forall k p p', prel p p' -> both (diagonalize absorbed wU wV fuel anorm k p) (diagonalize absorbed true true fuel anorm k p') (fun r r' => prel (fst r) (fst r') /\ snd r = snd r').
Proof.
  induction k as [|k I]; intros p p' H; cbn [diagonalize]; [apply both_ok; split; [exact H|reflexivity]|]. eapply both_bind; [apply both_iterate; exact H|]. intros [p1 z] [p1' z'] [H1 H2]. cbn [fst snd] in *. subst z'. destruct z as [z|]; [|apply both_ok; split; [exact H1|reflexivity]].
  eapply both_bind; [apply both_positive; exact H1|]. intros p2 p2' H3. apply I. exact H3.
Qed.
Lemma both_construct fuel A : both (gr_construct absorbed wU wV fuel A) (gr_construct absorbed true true fuel A) (fun r r' => gr_diag (fst r) = gr_diag (fst r') /\ (wU = true -> gr_U (fst r) = gr_U (fst r')) /\ (wV = true -> gr_V (fst r) = gr_V (fst r')) /\ snd r = snd r').
Proof.
  unfold gr_construct. apply both_same. intros b. apply both_same. intros V. apply both_same. intros U. eapply both_bind; [apply both_diagonalize; repeat split|]. intros [p n] [p' n'] [(K1 & K2 & K3 & K4) H]. cbn [fst snd] in *. apply both_ok. cbn [fst snd gr_diag gr_U gr_V]. repeat split; assumption.
Qed.
End F.
