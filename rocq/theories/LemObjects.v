(** * Lemmas about the operator objects. *)
From Coq Require Import Arith Bool List Lia Field ZArith QArith Qcanon.
From Verif Require Import Base Alg Mat SpecMat LemMat LemOps Inst ModelObjects.
Import ListNotations.
Local Open Scope nat_scope.

Section L.
Context {F : Type} {Fo : Ops F} {Fl : Laws F}.
Add Field Ff : law_field.

Lemma vfill_ok (v : vec F) (f : nat -> F) : gives_vec (for_ 0 (vlen v) (fun i v => vset v i (f i)) v) (vlen v) f.
Proof.
  apply wp_ok_inv. eapply wp_mono; [apply (wp_for (fun k w => vlen w = vlen v /\ forall i, i < k -> vat w i = f i))|].
  - lia.
  - split; [reflexivity|lia].
  - intros i w Hi [Hl Hp]. rewrite vset_ok by lia. cbn [wp vlen vat]. split; [exact Hl|].
    intros j Hj. destruct (Nat.eqb_spec j i) as [->|Hne]; [reflexivity|apply Hp; lia].
  - intros w [Hl Hp]. split; assumption.
Qed.
Lemma mfill_ok (m : mat F) (f : nat -> nat -> F) :
  gives_mat (for_ 0 (mrows m) (fun r m => for_ 0 (mcols m) (fun c m => mset m r c (f r c)) m) m) (mrows m) (mcols m) f.
Proof.
  apply wp_ok_inv. eapply wp_mono; [apply (wp_for (fun k w => mrows w = mrows m /\ mcols w = mcols m /\ forall i j, i < k -> j < mcols m -> mel w i j = f i j))|].
  - lia.
  - split; [reflexivity|]. split; [reflexivity|]. lia.
  - intros r w Hr (Hl & Hc & Hp).
    eapply wp_mono; [apply (wp_for (fun k u => mrows u = mrows m /\ mcols u = mcols m /\ (forall i j, i < r -> j < mcols m -> mel u i j = f i j) /\ forall j, j < k -> mel u r j = f r j))|].
    + lia.
    + split; [exact Hl|]. split; [exact Hc|]. split; [exact Hp|]. lia.
    + intros c u Hcc (Hl' & Hc' & Hp' & Hq). rewrite mset_ok by lia. cbn [wp mrows mcols mel].
      split; [exact Hl'|]. split; [exact Hc'|]. split.
      * intros i j Hi Hj. destruct (Nat.eqb_spec i r); [lia|]. cbn [andb]. apply Hp'; assumption.
      * intros j Hj. rewrite Nat.eqb_refl. cbn [andb]. destruct (Nat.eqb_spec j c) as [->|]; [reflexivity|apply Hq; lia].
    + cbv beta. intros u (Hl' & Hc' & Hp' & Hq). split; [exact Hl'|]. split; [exact Hc'|].
      intros i j Hi Hj. destruct (Nat.eq_dec i r) as [->|]; [apply Hq; lia|apply Hp'; lia].
  - intros w H. exact H.
Qed.
(** a loop over the diagonal of a square matrix *)
Lemma mdiag_ok (m : mat F) (g : F -> F) : mrows m = mcols m ->
  gives_mat (for_ 0 (mrows m) (fun i m => x <- mget m i i ;; mset m i i (g x)) m) (mrows m) (mcols m)
    (fun i j => if i =? j then g (mel m i i) else mel m i j).
Proof.
  intros Hsq. apply wp_ok_inv.
  eapply wp_mono; [apply (wp_for (fun k w => mrows w = mrows m /\ mcols w = mcols m /\
     forall i j, mel w i j = if (i =? j) && (i <? k) then g (mel m i i) else mel m i j))|].
  - lia.
  - split; [reflexivity|]. split; [reflexivity|]. intros i j. rewrite andb_false_r. reflexivity.
  - intros k w Hk (Hl & Hc & Hp). rewrite mget_ok by lia. cbn [bind]. rewrite mset_ok by lia. cbn [wp mrows mcols mel].
    split; [exact Hl|]. split; [exact Hc|]. intros i j. rewrite !Hp.
    destruct (Nat.eqb_spec i k) as [->|Hi]; cbn [andb].
    + rewrite Nat.eqb_refl. replace (k <? k) with false by (symmetry; apply Nat.ltb_ge; lia). cbn [andb].
      replace (k <? S k) with true by (symmetry; apply Nat.ltb_lt; lia). rewrite andb_true_r, andb_false_r.
      rewrite (Nat.eqb_sym k j). destruct (j =? k); reflexivity.
    + replace (i <? S k) with (i <? k); [reflexivity|].
      destruct (Nat.ltb_spec i k), (Nat.ltb_spec i (S k)); try reflexivity; lia.
  - intros w (Hl & Hc & Hp). split; [exact Hl|]. split; [exact Hc|]. intros i j Hi Hj. rewrite Hp.
    replace (i <? mrows m) with true by (symmetry; apply Nat.ltb_lt; lia). rewrite andb_true_r. reflexivity.
Qed.
Lemma gives_mat_run x n m f : gives_mat x n m f -> exists w : mat F, x = Ok w /\ mrows w = n /\ mcols w = m /\ forall i j, i < n -> j < m -> mel w i j = f i j.
Proof. intros (w & E & H & H' & H2). eauto 6. Qed.

Lemma zeros_vec_ne_ok (v : vec F) : exists q, zeros_vec_ne v = Ok q /\ (q = true <-> exists i, i < vlen v /\ vat v i <> f0).
Proof.
  unfold zeros_vec_ne.
  assert (W : wp (for_ 0 (vlen v) (fun i r => match r with Some q => Ok (Some q) | None =>
         x <- vget v i ;; Ok (if negb (feqb x f0) then Some true else None) end) None)
     (fun r => (r = None /\ forall i, i < vlen v -> vat v i = f0) \/ (r = Some true /\ exists i, i < vlen v /\ vat v i <> f0))).
  { apply (wp_for (fun k r => (r = None /\ forall i, i < k -> vat v i = f0) \/ (r = Some true /\ exists i, i < vlen v /\ vat v i <> f0))).
    - lia.
    - left. split; [reflexivity|lia].
    - intros i r Hi [[-> H]|[-> H]].
      + rewrite vget_ok by lia. cbn [bind wp]. destruct (feqb (vat v i) f0) eqn:E; cbn [negb].
        * left. split; [reflexivity|]. intros j Hj. destruct (Nat.eq_dec j i) as [->|]; [apply law_eqb; exact E|apply H; lia].
        * right. split; [reflexivity|]. exists i. split; [lia|]. intros Ez. apply law_eqb in Ez. congruence.
      + cbn [wp]. right. auto. }
  apply wp_ok_inv in W. destruct W as (r & -> & [[-> H]|[-> H]]); cbn [bind]; eexists; (split; [reflexivity|]).
  - split; [discriminate|]. intros (i & Hi & Hne). destruct Hne. apply H. exact Hi.
  - tauto.
Qed.
Lemma identity_eval_ok h (m : mat F) : mrows m = mcols m ->
  gives_mat (identity_eval h m) (mrows m) (mcols m) (fun i j => if i =? j then held_val h else f0).
Proof.
  intros Hsq. unfold identity_eval. rewrite same_size_eq by exact Hsq. cbn [bind].
  destruct (gives_mat_run _ _ _ _ (mfill_ok m (fun _ _ => f0))) as (w & -> & H1 & H2 & H3). cbn [bind].
  apply wp_ok_inv. eapply wp_mono; [apply (wp_for (fun k u => mrows u = mrows m /\ mcols u = mcols m /\
     forall i j, i < mrows m -> j < mcols m -> mel u i j = if (i =? j) && (i <? k) then held_val h else f0))|].
  - lia.
  - split; [exact H1|]. split; [exact H2|]. intros i j Hi Hj. rewrite andb_false_r. apply H3; assumption.
  - intros k u Hk (Hl & Hc & Hp). rewrite mset_ok by lia. cbn [wp mrows mcols mel].
    split; [exact Hl|]. split; [exact Hc|]. intros i j Hi Hj. rewrite Hp by assumption.
    destruct (Nat.eqb_spec i k) as [->|Hne]; cbn [andb].
    + replace (k <? S k) with true by (symmetry; apply Nat.ltb_lt; lia).
      replace (k <? k) with false by (symmetry; apply Nat.ltb_ge; lia). rewrite andb_true_r, andb_false_r, (Nat.eqb_sym k j). reflexivity.
    + replace (i <? S k) with (i <? k); [reflexivity|]. destruct (Nat.ltb_spec i k), (Nat.ltb_spec i (S k)); try reflexivity; lia.
  - cbv beta. intros u (Hl & Hc & Hp). split; [exact Hl|]. split; [exact Hc|]. intros i j Hi Hj. rewrite Hp by assumption.
    replace (i <? mrows w) with true by (symmetry; apply Nat.ltb_lt; lia). rewrite andb_true_r. reflexivity.
Qed.
Lemma identity_add_assign_ok h (m : mat F) : mrows m = mcols m ->
  gives_mat (identity_add_assign h m) (mrows m) (mcols m) (fun i j => if i =? j then fadd (mel m i i) (held_val h) else mel m i j).
Proof.
  intros Hsq. unfold identity_add_assign. rewrite same_size_eq by exact Hsq. cbn [bind].
  apply (mdiag_ok m (fun x => fadd x (held_val h))). exact Hsq.
Qed.
Lemma add_identity_ok s (m : mat F) inv : mrows m = mcols m ->
  gives_mat (add_identity s m inv) (mrows m) (mcols m)
    (fun i j => let x := if inv then fopp (mel m i j) else mel m i j in if i =? j then fadd x s else x).
Proof.
  intros Hsq. unfold add_identity.
  destruct (mfor_ok (mrows m) (mcols m) (fun r c => x <- mget m r c ;; Ok (if inv then fopp x else x)) (fun i j => if inv then fopp (mel m i j) else mel m i j)) as (w & -> & H1 & H2 & H3).
  { intros i j Hi Hj. rewrite mget_ok by assumption. reflexivity. }
  cbn [bind]. rewrite <- H1, <- H2 in *.
  eapply gives_mat_ext; [apply (mdiag_ok w (fun x => fadd x s)); congruence|reflexivity|reflexivity|].
  cbv beta zeta. intros i j Hi Hj. destruct (Nat.eqb_spec i j) as [->|]; rewrite H3 by assumption; reflexivity.
Qed.
Lemma scalars_vector_ok s (v : vec F) inv : gives_vec (scalars_vector s v inv) (vlen v) (fun i => if inv then fsub s (vat v i) else fadd s (vat v i)).
Proof. unfold scalars_vector. apply vfor_ok. intros i Hi. rewrite vget_ok by exact Hi. reflexivity. Qed.
Lemma scalars_matrix_ok s (m : mat F) inv : gives_mat (scalars_matrix s m inv) (mrows m) (mcols m) (fun i j => if inv then fsub s (mel m i j) else fadd s (mel m i j)).
Proof. unfold scalars_matrix. apply mfor_ok. intros i j Hi Hj. rewrite mget_ok by assumption. reflexivity. Qed.
End L.
