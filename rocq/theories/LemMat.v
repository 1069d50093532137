(** * Lemmas about checked access and the elementwise loops. *)
From Coq Require Import Arith Bool List Lia.
From Verif Require Import Base Alg Mat SpecMat.
Import ListNotations.

Section L.
Context {F : Type} {Fo : Ops F}.

Lemma vget_ok (v : vec F) i : i < vlen v -> vget v i = Ok (vat v i).
Proof. intros H. unfold vget. apply Nat.ltb_lt in H. rewrite H. reflexivity. Qed.
Lemma vset_ok (v : vec F) i x : i < vlen v -> vset v i x = Ok (mkvec (vlen v) (fun j => if j =? i then x else vat v j)).
Proof. intros H. unfold vset. apply Nat.ltb_lt in H. rewrite H. reflexivity. Qed.
Lemma mget_ok (m : mat F) r c : r < mrows m -> c < mcols m -> mget m r c = Ok (mel m r c).
Proof. intros H H'. unfold mget. apply Nat.ltb_lt in H. apply Nat.ltb_lt in H'. rewrite H, H'. reflexivity. Qed.
Lemma mset_ok (m : mat F) r c x : r < mrows m -> c < mcols m ->
  mset m r c x = Ok (mkmat (mrows m) (mcols m) (fun i j => if (i =? r) && (j =? c) then x else mel m i j)).
Proof. intros H H'. unfold mset. apply Nat.ltb_lt in H. apply Nat.ltb_lt in H'. rewrite H, H'. reflexivity. Qed.
Lemma row_ok (m : mat F) r : r < mrows m -> row m r = Ok (mkvec (mcols m) (fun c => mel m r c)).
Proof. intros H. unfold row. apply Nat.ltb_lt in H. rewrite H. reflexivity. Qed.
Lemma same_size_ok n : same_size n n = Ok tt.
Proof. unfold same_size. rewrite Nat.eqb_refl. reflexivity. Qed.
Lemma same_size_eq n m : n = m -> same_size n m = Ok tt.
Proof. intros ->. apply same_size_ok. Qed.
Lemma same_size_bad n m : n <> m -> same_size n m = Abort DSizeMismatch.
Proof. intros H. unfold same_size. apply Nat.eqb_neq in H. rewrite H. reflexivity. Qed.

Lemma vfor_wp n body (P : nat -> F -> Prop) :
  (forall i, i < n -> wp (body i) (P i)) ->
  wp (vfor n body) (fun v => vlen v = n /\ forall i, i < n -> P i (vat v i)).
Proof.
  intros H. unfold vfor.
  eapply wp_mono; [apply (wp_for (fun k v => vlen v = n /\ forall i, i < k -> P i (vat v i)))|intros v Hv; exact Hv].
  - lia.
  - split; [reflexivity|lia].
  - intros i v Hi [Hl Hp]. apply wp_bind. eapply wp_mono; [apply H; lia|]. intros x Hx.
    rewrite vset_ok by lia. cbn. split; [exact Hl|]. intros j Hj. destruct (Nat.eqb_spec j i) as [->|]; [exact Hx|apply Hp; lia].
Qed.
Lemma vfor_ok n body f : (forall i, i < n -> body i = Ok (f i)) -> exists v, vfor n body = Ok v /\ vec_is v n f.
Proof.
  intros H. apply wp_ok_inv. eapply wp_mono; [apply (vfor_wp n body (fun i x => x = f i))|].
  - intros i Hi. rewrite H by exact Hi. reflexivity.
  - intros v Hv. exact Hv.
Qed.
Lemma mfor_wp nr nc body (P : nat -> nat -> F -> Prop) :
  (forall i j, i < nr -> j < nc -> wp (body i j) (P i j)) ->
  wp (mfor nr nc body) (fun m => mrows m = nr /\ mcols m = nc /\ forall i j, i < nr -> j < nc -> P i j (mel m i j)).
Proof.
  intros H. unfold mfor.
  eapply wp_mono; [apply (wp_for (fun k m => mrows m = nr /\ mcols m = nc /\ forall i j, i < k -> j < nc -> P i j (mel m i j)))|intros v Hv; exact Hv].
  - lia.
  - split; [reflexivity|]. split; [reflexivity|lia].
  - intros r m Hr Hm.
    eapply wp_mono; [apply (wp_for (fun k m => mrows m = nr /\ mcols m = nc /\ forall i j, (i < r \/ i = r /\ j < k) -> j < nc -> P i j (mel m i j)))|].
    + lia.
    + destruct Hm as (H1 & H2 & H3). split; [exact H1|]. split; [exact H2|]. intros i j [Hi|Hi] Hj; [apply H3; lia|lia].
    + intros c m' Hc (H1 & H2 & H3). apply wp_bind. eapply wp_mono; [apply H; lia|]. intros x Hx.
      rewrite mset_ok by lia. cbn. split; [exact H1|]. split; [exact H2|]. intros i j Hij Hj.
      destruct (Nat.eqb_spec i r) as [->|]; destruct (Nat.eqb_spec j c) as [->|]; cbn; [exact Hx| | |]; apply H3; lia.
    + intros m' (H1 & H2 & H3). split; [exact H1|]. split; [exact H2|]. intros i j Hi Hj. apply H3; lia.
Qed.
Lemma mfor_ok nr nc body f : (forall i j, i < nr -> j < nc -> body i j = Ok (f i j)) -> exists m, mfor nr nc body = Ok m /\ mat_is m nr nc f.
Proof.
  intros H. apply wp_ok_inv. eapply wp_mono; [apply (mfor_wp nr nc body (fun i j x => x = f i j))|].
  - intros i j Hi Hj. rewrite H by assumption. reflexivity.
  - intros m Hm. exact Hm.
Qed.
Lemma vmod_wp body (v : vec F) (P : nat -> F -> Prop) :
  (forall i, i < vlen v -> wp (body i (vat v i)) (P i)) ->
  wp (vmod body v) (fun w => vlen w = vlen v /\ forall i, i < vlen v -> P i (vat w i)).
Proof.
  intros H. unfold vmod.
  eapply wp_mono; [apply (wp_for (fun k w => vlen w = vlen v /\ (forall i, i < k -> P i (vat w i)) /\ forall i, k <= i -> vat w i = vat v i))|].
  - lia.
  - split; [reflexivity|]. split; [lia|reflexivity].
  - intros i w Hi (Hl & Hp & Hr). rewrite vget_ok by lia. cbn [bind]. apply wp_bind. rewrite Hr by lia.
    eapply wp_mono; [apply H; lia|]. intros x Hx. rewrite vset_ok by lia. cbn. split; [exact Hl|]. split.
    + intros j Hj. destruct (Nat.eqb_spec j i) as [->|]; [exact Hx|apply Hp; lia].
    + intros j Hj. destruct (Nat.eqb_spec j i); [lia|apply Hr; lia].
  - intros w (Hl & Hp & _). auto.
Qed.
Lemma vmod_ok body (v : vec F) f : (forall i, i < vlen v -> body i (vat v i) = Ok (f i)) ->
  exists w, vmod body v = Ok w /\ vec_is w (vlen v) f.
Proof.
  intros H. apply wp_ok_inv. eapply wp_mono; [apply (vmod_wp body v (fun i x => x = f i))|].
  - intros i Hi. rewrite H by exact Hi. reflexivity.
  - intros w Hw. exact Hw.
Qed.
Lemma mmod_wp body (m : mat F) (P : nat -> nat -> F -> Prop) :
  (forall i j, i < mrows m -> j < mcols m -> wp (body i j (mel m i j)) (P i j)) ->
  wp (mmod body m) (fun w => mrows w = mrows m /\ mcols w = mcols m /\ forall i j, i < mrows m -> j < mcols m -> P i j (mel w i j)).
Proof.
  intros H. unfold mmod. set (nr := mrows m) in *. set (nc := mcols m) in *.
  eapply wp_mono; [apply (wp_for (fun k w => mrows w = nr /\ mcols w = nc /\ (forall i j, i < k -> j < nc -> P i j (mel w i j)) /\
      forall i j, k <= i -> mel w i j = mel m i j))|].
  - lia.
  - split; [reflexivity|]. split; [reflexivity|]. split; [lia|reflexivity].
  - intros r w Hr (E1 & E2 & Hp & Hq). rewrite E2.
    eapply wp_mono; [apply (wp_for (fun k w => mrows w = nr /\ mcols w = nc /\ (forall i j, (i < r \/ i = r /\ j < k) -> j < nc -> P i j (mel w i j)) /\
      forall i j, (r < i \/ i = r /\ k <= j) -> mel w i j = mel m i j))|].
    + lia.
    + split; [exact E1|]. split; [exact E2|]. split; [intros; apply Hp; lia|intros; apply Hq; lia].
    + intros c w' Hc (E1' & E2' & Hp' & Hq'). rewrite mget_ok by lia. cbn [bind]. apply wp_bind. rewrite Hq' by lia.
      eapply wp_mono; [apply H; lia|]. intros x Hx. rewrite mset_ok by lia. cbn. split; [exact E1'|]. split; [exact E2'|]. split.
      * intros i j Hij Hj. destruct (Nat.eqb_spec i r) as [->|]; destruct (Nat.eqb_spec j c) as [->|]; cbn; [exact Hx| | |]; apply Hp'; lia.
      * intros i j Hij. destruct (Nat.eqb_spec i r) as [->|]; destruct (Nat.eqb_spec j c) as [->|]; cbn; [lia| | |]; apply Hq'; lia.
    + intros w' (E1' & E2' & Hp' & Hq'). split; [exact E1'|]. split; [exact E2'|]. split; [intros; apply Hp'; lia|intros; apply Hq'; lia].
  - intros w (E1 & E2 & Hp & _). auto.
Qed.
Lemma mmod_ok body (m : mat F) f : (forall i j, i < mrows m -> j < mcols m -> body i j (mel m i j) = Ok (f i j)) ->
  exists w, mmod body m = Ok w /\ mat_is w (mrows m) (mcols m) f.
Proof.
  intros H. apply wp_ok_inv. eapply wp_mono; [apply (mmod_wp body m (fun i j x => x = f i j))|].
  - intros i j Hi Hj. rewrite H by assumption. reflexivity.
  - intros w Hw. exact Hw.
Qed.
End L.
