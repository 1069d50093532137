(** * Lemmas about helpers.h. *)
From Coq Require Import Arith Bool List Lia Field Reals Lra.
From Verif Require Import Base Alg Mat SpecMat LemMat ModelOps LemOps Inst ModelHelpers LemObjects.
Import ListNotations.
Local Open Scope nat_scope.

Lemma wp_eq {A} (x : outcome A) (a : A) : wp x (fun b => b = a) -> x = Ok a.
Proof. intros H. apply wp_ok_inv in H. destruct H as (b & -> & ->). reflexivity. Qed.

Lemma for_ext {St} lo hi (b1 b2 : nat -> St -> outcome St) s :
  (forall i s, lo <= i < hi -> b1 i s = b2 i s) -> for_ lo hi b1 s = for_ lo hi b2 s.
Proof.
  unfold for_. intros H. assert (G : forall i s, lo <= i < lo + (hi - lo) -> b1 i s = b2 i s) by (intros; apply H; lia). clear H.
  generalize dependent (hi - lo). intros n G. revert lo s G. induction n as [|n IH]; intros lo s G; [reflexivity|]. cbn [for_up]. rewrite G by lia.
  destruct (b2 lo s); cbn [bind]; try reflexivity. apply IH. intros; apply G; lia.
Qed.

Section L.
Context {F : Type} {Fo : Ops F} {Fl : Laws F}.
Add Field Ff : law_field.
Open Scope F_scope.

Lemma sum_loop n (g : nat -> outcome F) (f : nat -> F) s : (forall i, (i < n)%nat -> g i = Ok (f i)) ->
  for_ 0 n (fun i t => x <- g i ;; Ok (t + x)) s = Ok (s + sum n f).
Proof.
  intros H. apply wp_eq. apply (wp_for (fun k t => t = s + sum k f)); [lia|cbn [sum]; ring|].
  intros i t Hi ->. rewrite H by lia. cbn [bind wp sum]. ring.
Qed.
(** the same loop with the summand computed from the element *)
Lemma sum_loop2 n (g : nat -> outcome F) (h : F -> F) (f : nat -> F) s : (forall i, (i < n)%nat -> g i = Ok (f i)) ->
  for_ 0 n (fun i t => x <- g i ;; Ok (t + h x)) s = Ok (s + sum n (fun i => h (f i))).
Proof.
  intros H. apply wp_eq. apply (wp_for (fun k t => t = s + sum k (fun i => h (f i)))); [lia|cbn [sum]; ring|].
  intros i t Hi ->. rewrite H by lia. cbn [bind wp sum]. ring.
Qed.
Lemma max_l a b : a <= fmax a b.
Proof. unfold fmax. destruct (fltb a b) eqn:E; [apply lt_le; exact E|apply le_refl]. Qed.
Lemma max_r a b : b <= fmax a b.
Proof. unfold fmax. destruct (fltb a b) eqn:E; [apply le_refl|exact E]. Qed.
Lemma max_in a b : fmax a b = a \/ fmax a b = b.
Proof. unfold fmax. destruct (fltb a b); auto. Qed.
(** a max loop returns an upper bound that is attained (or the initial value) *)
Lemma max_loop lo n (body : nat -> F -> outcome F) (f : nat -> F) s : (lo <= n)%nat -> (forall i t, (lo <= i < n)%nat -> body i t = Ok (fmax t (f i))) ->
  exists x, for_ lo n body s = Ok x /\ s <= x /\ (forall i, (lo <= i < n)%nat -> f i <= x) /\ (x = s \/ exists i, (lo <= i < n)%nat /\ x = f i).
Proof.
  intros Hle H. apply wp_ok_inv.
  apply (wp_for (fun k x => s <= x /\ (forall i, (lo <= i < k)%nat -> f i <= x) /\ (x = s \/ exists i, (lo <= i < n)%nat /\ x = f i))); [exact Hle| |].
  - split; [apply le_refl|]. split; [lia|auto].
  - intros i t Hi (H1 & H2 & H3). rewrite H by exact Hi. cbn [wp]. split; [eapply le_trans; [exact H1|apply max_l]|]. split.
    + intros j Hj. destruct (Nat.eq_dec j i) as [->|]; [apply max_r|]. eapply le_trans; [apply H2; lia|apply max_l].
    + destruct (max_in t (f i)) as [->| ->]; [exact H3|right]. exists i. split; [exact Hi|reflexivity].
Qed.

Lemma norm1_vec_ok (v : vec F) : norm1_vec v = Ok (sum (vlen v) (fun i => fabs (vat v i))).
Proof.
  unfold norm1_vec. rewrite (sum_loop2 _ (vget v) fabs (vat v)); [f_equal; ring|]. intros i Hi. apply vget_ok. exact Hi.
Qed.
Lemma norminf_vec_ok (v : vec F) : (0 < vlen v)%nat ->
  exists x, norminf_vec v = Ok x /\ (forall i, (i < vlen v)%nat -> fabs (vat v i) <= x) /\ exists i, (i < vlen v)%nat /\ x = fabs (vat v i).
Proof.
  intros Hn. unfold norminf_vec. rewrite vget_ok by exact Hn. cbn [bind].
  destruct (max_loop 1 (vlen v) (fun i n => x <- vget v i ;; Ok (fmax n (fabs x))) (fun i => fabs (vat v i)) (fabs (vat v 0))) as (x & E & H1 & H2 & H3).
  - lia.
  - intros i t Hi. rewrite vget_ok by lia. reflexivity.
  - exists x. split; [exact E|]. split.
    + intros [|i] Hi; [exact H1|apply H2; lia].
    + destruct H3 as [->|(i & Hi & ->)]; [exists O|exists i]; split; auto; lia.
Qed.
Lemma norminf_mat_ok (m : mat F) :
  exists x, norminf_mat m = Ok x /\ 0 <= x /\ (forall r, (r < mrows m)%nat -> sum (mcols m) (fun c => fabs (mel m r c)) <= x) /\
    (x = 0 \/ exists r, (r < mrows m)%nat /\ x = sum (mcols m) (fun c => fabs (mel m r c))).
Proof.
  unfold norminf_mat.
  destruct (max_loop 0 (mrows m) (fun r n =>
    s <- for_ 0 (mcols m) (fun c s => x <- mget m r c ;; Ok (fadd s (fabs x))) f0 ;; Ok (fmax n s)) (fun r => sum (mcols m) (fun c => fabs (mel m r c))) 0) as (x & E & H1 & H2 & H3).
  - lia.
  - intros r t Hr. rewrite (sum_loop2 _ (mget m r) fabs (mel m r)); [cbn [bind]; do 2 f_equal; ring|].
    intros i Hi. apply mget_ok; lia.
  - exists x. split; [exact E|]. split; [exact H1|]. split; [intros r Hr; apply H2; lia|].
    destruct H3 as [->|(i & Hi & ->)]; [auto|]. right. exists i. split; [lia|reflexivity].
Qed.
Lemma norm1_mat_ok (m : mat F) :
  exists x, norm1_mat m = Ok x /\ 0 <= x /\ (forall c, (c < mcols m)%nat -> sum (mrows m) (fun r => fabs (mel m r c)) <= x) /\
    (x = 0 \/ exists c, (c < mcols m)%nat /\ x = sum (mrows m) (fun r => fabs (mel m r c))).
Proof.
  unfold norm1_mat.
  destruct (max_loop 0 (mcols m) (fun c n =>
    s <- for_ 0 (mrows m) (fun r s => x <- mget m r c ;; Ok (fadd s (fabs x))) f0 ;; Ok (fmax n s)) (fun c => sum (mrows m) (fun r => fabs (mel m r c))) 0) as (x & E & H1 & H2 & H3).
  - lia.
  - intros c t Hc. rewrite (sum_loop2 _ (fun r => mget m r c) fabs (fun r => mel m r c)); [cbn [bind]; do 2 f_equal; ring|].
    intros i Hi. apply mget_ok; lia.
  - exists x. split; [exact E|]. split; [exact H1|]. split; [intros r Hr; apply H2; lia|].
    destruct H3 as [->|(i & Hi & ->)]; [auto|]. right. exists i. split; [lia|reflexivity].
Qed.
Lemma sumsq_mat_ok (m : mat F) : sumsq_mat m = Ok (sum (mrows m) (fun r => sum (mcols m) (fun c => mel m r c * mel m r c))).
Proof.
  unfold sumsq_mat. apply wp_eq. apply (wp_for (fun k t => t = sum k (fun r => sum (mcols m) (fun c => mel m r c * mel m r c)))); [lia|reflexivity|].
  intros r t Hr ->. rewrite (sum_loop2 _ (mget m r) (fun x => x * x) (mel m r)) by (intros; apply mget_ok; lia). reflexivity.
Qed.
Lemma trace_ok (m : mat F) : mrows m = mcols m -> trace m = Ok (sum (mrows m) (fun i => mel m i i)).
Proof.
  intros H. unfold trace. rewrite same_size_eq by exact H. cbn [bind].
  rewrite (sum_loop _ (fun i => mget m i i) (fun i => mel m i i)); [f_equal; ring|]. intros i Hi. apply mget_ok; lia.
Qed.
Lemma project_vec_ok (v : vec F) k : vlen v = S k -> vat v k <> 0 -> gives_vec (project_vec v) k (fun i => vat v i / vat v k).
Proof.
  intros H Hz. unfold project_vec. rewrite H. rewrite vget_ok by lia. cbn [bind].
  exact (vdivs_ok (mkvec k (vat v)) (vat v k) Hz).
Qed.
Lemma project_vec_zero (v : vec F) k : vlen v = S (S k) -> vat v (S k) = 0 -> project_vec v = NonFinite.
Proof.
  intros H Hz. unfold project_vec. rewrite H. rewrite vget_ok by lia. cbn [bind]. rewrite Hz. apply vdivs_zero. cbn [vlen]. lia.
Qed.
Lemma unproject_vec_ok (v : vec F) : gives_vec (unproject_vec v) (S (vlen v)) (fun i => if (i <? vlen v)%nat then vat v i else 1).
Proof.
  unfold unproject_vec.
  assert (W : wp (for_ 0 (vlen v) (fun i r => x <- vget v i ;; vset r i x) (vnew (S (vlen v)))) (fun r => vlen r = S (vlen v) /\ forall i, (i < vlen v)%nat -> vat r i = vat v i)).
  { apply (wp_for (fun k r => vlen r = S (vlen v) /\ forall i, (i < k)%nat -> vat r i = vat v i)); [lia|split; [reflexivity|lia]|].
    intros i r Hi [H1 H2]. rewrite vget_ok by lia. cbn [bind]. rewrite vset_ok by lia. cbn [wp vlen vat]. split; [exact H1|].
    intros j Hj. destruct (Nat.eqb_spec j i) as [->|]; [reflexivity|apply H2; lia]. }
  apply wp_ok_inv in W. destruct W as (r & -> & H1 & H2). cbn [bind]. rewrite vset_ok by lia. eexists. split; [reflexivity|].
  split; [exact H1|]. cbn [vat]. intros i Hi. destruct (Nat.eqb_spec i (vlen v)) as [->|Hne].
  - rewrite Nat.ltb_irrefl. reflexivity.
  - replace (i <? vlen v)%nat with true by (symmetry; apply Nat.ltb_lt; lia). apply H2. lia.
Qed.
Lemma project_mat_ok (m : mat F) k : mrows m = S k -> (forall c, (c < mcols m)%nat -> mel m k c <> 0) ->
  gives_mat (project_mat m) k (mcols m) (fun r c => mel m r c / mel m k c).
Proof.
  intros H Hz. unfold project_mat. rewrite H.
  destruct (mfor_ok k (mcols m) (fun r c => mget m r c) (mel m)) as (w & -> & W1 & W2 & W3); [intros; apply mget_ok; lia|]. cbn [bind].
  apply wp_ok_inv.
  eapply wp_mono; [apply (wp_for (fun cc u => mrows u = k /\ mcols u = mcols m /\
     forall i j, (i < k)%nat -> (j < mcols m)%nat -> mel u i j = if (j <? cc)%nat then mel m i j / mel m k j else mel m i j))|].
  - lia.
  - split; [exact W1|]. split; [exact W2|]. intros i j Hi Hj. apply W3; assumption.
  - intros c u Hc (U1 & U2 & U3). rewrite mget_ok by lia. cbn [bind].
    eapply wp_mono; [apply (wp_for (fun rr u => mrows u = k /\ mcols u = mcols m /\
     forall i j, (i < k)%nat -> (j < mcols m)%nat -> mel u i j = if (j <? c)%nat || ((j =? c)%nat && (i <? rr)%nat) then mel m i j / mel m k j else mel m i j))|].
    + lia.
    + split; [exact U1|]. split; [exact U2|]. intros i j Hi Hj. rewrite andb_false_r, orb_false_r. apply U3; assumption.
    + intros r u' Hr (V1 & V2 & V3). rewrite mget_ok by lia. cbn [bind]. rewrite div_ok by (apply Hz; lia). cbn [bind]. rewrite mset_ok by lia.
      cbn [wp mrows mcols mel]. split; [exact V1|]. split; [exact V2|]. intros i j Hi Hj.
      destruct (Nat.eqb_spec i r) as [->|Hne]; [destruct (Nat.eqb_spec j c) as [->|Hnc]|]; cbn [andb].
      * rewrite V3 by lia. rewrite !Nat.ltb_irrefl. cbn [orb andb]. rewrite andb_false_r.
        replace (r <? S r)%nat with true by (symmetry; apply Nat.ltb_lt; lia). reflexivity.
      * rewrite V3 by lia. destruct (Nat.eqb_spec j c); [contradiction|]. cbn [andb]. reflexivity.
      * rewrite V3 by lia. replace (i <? S r)%nat with (i <? r)%nat; [reflexivity|]. destruct (Nat.ltb_spec i r), (Nat.ltb_spec i (S r)); try reflexivity; lia.
    + cbv beta. intros u' (V1 & V2 & V3). split; [exact V1|]. split; [exact V2|]. intros i j Hi Hj. rewrite V3 by assumption.
      replace (i <? k)%nat with true by (symmetry; apply Nat.ltb_lt; lia). rewrite andb_true_r.
      replace (j <? S c)%nat with ((j <? c)%nat || (j =? c)%nat); [reflexivity|].
      destruct (Nat.ltb_spec j c), (Nat.eqb_spec j c), (Nat.ltb_spec j (S c)); try reflexivity; lia.
  - cbv beta. intros u (U1 & U2 & U3). split; [exact U1|]. split; [exact U2|]. intros i j Hi Hj. rewrite U3 by assumption.
    replace (j <? mcols m)%nat with true by (symmetry; apply Nat.ltb_lt; lia). reflexivity.
Qed.
Lemma unproject_mat_ok (m : mat F) : gives_mat (unproject_mat m) (S (mrows m)) (mcols m) (fun i j => if (i <? mrows m)%nat then mel m i j else 1).
Proof.
  unfold unproject_mat.
  assert (W : wp (for_ 0 (mrows m) (fun r res => for_ 0 (mcols m) (fun c res => x <- mget m r c ;; mset res r c x) res)
           (mnew (S (mrows m)) (mcols m))) (fun w => mrows w = S (mrows m) /\ mcols w = mcols m /\ forall i j, (i < mrows m)%nat -> (j < mcols m)%nat -> mel w i j = mel m i j)).
  { apply (wp_for (fun k w => mrows w = S (mrows m) /\ mcols w = mcols m /\ forall i j, (i < k)%nat -> (j < mcols m)%nat -> mel w i j = mel m i j)); [lia| |].
    - split; [reflexivity|]. split; [reflexivity|lia].
    - intros r w Hr (W1 & W2 & W3).
      eapply wp_mono; [apply (wp_for (fun k w => mrows w = S (mrows m) /\ mcols w = mcols m /\ (forall i j, (i < r)%nat -> (j < mcols m)%nat -> mel w i j = mel m i j) /\
         forall j, (j < k)%nat -> mel w r j = mel m r j))|].
      + lia.
      + split; [exact W1|]. split; [exact W2|]. split; [exact W3|lia].
      + intros c u Hc (U1 & U2 & U3 & U4). rewrite mget_ok by lia. cbn [bind]. rewrite mset_ok by lia. cbn [wp mrows mcols mel].
        split; [exact U1|]. split; [exact U2|]. split.
        * intros i j Hi Hj. destruct (Nat.eqb_spec i r); [lia|]. apply U3; assumption.
        * intros j Hj. rewrite Nat.eqb_refl. cbn [andb]. destruct (Nat.eqb_spec j c) as [->|]; [reflexivity|apply U4; lia].
      + cbv beta. intros u (U1 & U2 & U3 & U4). split; [exact U1|]. split; [exact U2|]. intros i j Hi Hj.
        destruct (Nat.eq_dec i r) as [->|]; [apply U4; exact Hj|apply U3; lia]. }
  apply wp_ok_inv in W. destruct W as (w & -> & W1 & W2 & W3). cbn [bind]. apply wp_ok_inv.
  eapply wp_mono; [apply (wp_for (fun k u => mrows u = S (mrows m) /\ mcols u = mcols m /\ (forall i j, (i < mrows m)%nat -> (j < mcols m)%nat -> mel u i j = mel m i j) /\
     forall j, (j < k)%nat -> mel u (mrows m) j = 1))|].
  - lia.
  - split; [exact W1|]. split; [exact W2|]. split; [exact W3|lia].
  - intros c u Hc (U1 & U2 & U3 & U4). rewrite mset_ok by lia. cbn [wp mrows mcols mel].
    split; [exact U1|]. split; [exact U2|]. split.
    + intros i j Hi Hj. destruct (Nat.eqb_spec i (mrows m)); [lia|]. apply U3; assumption.
    + intros j Hj. rewrite Nat.eqb_refl. cbn [andb]. destruct (Nat.eqb_spec j c) as [->|]; [reflexivity|apply U4; lia].
  - cbv beta. intros u (U1 & U2 & U3 & U4). split; [exact U1|]. split; [exact U2|]. intros i j Hi Hj.
    destruct (Nat.ltb_spec i (mrows m)); [apply U3; assumption|]. replace i with (mrows m) by lia. apply U4. exact Hj.
Qed.
Lemma two_neq : (two : F) <> 0.
Proof.
  unfold two. intros E. destruct (law_irr (0:F)). rewrite <- E at 2. apply add_pos_nonneg; [|apply lt_le].
  all: replace (1:F) with (1 * 1 : F) by ring; apply sq_pos; apply one_neq_zero.
Qed.
(** Symmetrize: entries (i,j) with min(i,j) already processed hold the mean *)
Lemma symmetrize_ok (m : mat F) : mrows m = mcols m -> gives_mat (symmetrize m) (mrows m) (mcols m) (fun i j => (mel m i j + mel m j i) / two).
Proof.
  intros Hsq. unfold symmetrize. rewrite same_size_eq by exact Hsq. cbn [bind]. pose proof two_neq as T.
  set (n := mrows m) in *. set (sym := fun i j => (mel m i j + mel m j i) / two).
  assert (Sdiag : forall i, sym i i = mel m i i) by (intros i; unfold sym, two in *; field; exact T).
  set (st := fun (done : nat -> nat -> bool) (u : mat F) => mrows u = n /\ mcols u = n /\
     forall i j, (i < n)%nat -> (j < n)%nat -> mel u i j = if done i j then sym i j else mel m i j).
  apply wp_ok_inv.
  eapply wp_mono; [apply (wp_for (fun k u => st (fun i j => (Nat.min i j <? k)%nat) u))|].
  - lia.
  - split; [reflexivity|]. split; [symmetry; exact Hsq|]. reflexivity.
  - intros r u Hr (U1 & U2 & U3).
    eapply wp_mono; [apply (wp_for (fun k u => st (fun i j => (Nat.min i j <? r)%nat || ((Nat.min i j =? r)%nat && (Nat.max i j <? k)%nat)) u))|].
    + lia.
    + split; [exact U1|]. split; [exact U2|]. intros i j Hi Hj. rewrite U3 by assumption.
      destruct (Nat.ltb_spec (Nat.min i j) r); [reflexivity|]. cbn [orb].
      destruct (Nat.eqb_spec (Nat.min i j) r); cbn [andb]; [|reflexivity].
      destruct (Nat.ltb_spec (Nat.max i j) (S r)); [|reflexivity].
      assert (i = j) as -> by lia. symmetry. apply Sdiag.
    + intros c w Hc (W1 & W2 & W3). rewrite U2 in Hc.
      rewrite (mget_ok w r c) by lia. cbn [bind]. rewrite (mget_ok w c r) by lia. cbn [bind]. rewrite div_ok by exact T. cbn [bind].
      rewrite mset_ok by lia. cbn [bind]. rewrite mset_ok by (cbn [mrows mcols]; lia). cbn [wp mrows mcols mel].
      split; [exact W1|]. split; [exact W2|]. intros i j Hi Hj. cbn [mel].
      assert (E1 : mel w r c = mel m r c).
      { rewrite W3 by lia. replace (Nat.min r c) with r by lia. replace (Nat.max r c) with c by lia. rewrite !Nat.ltb_irrefl, andb_false_r. reflexivity. }
      assert (E2 : mel w c r = mel m c r).
      { rewrite W3 by lia. replace (Nat.min c r) with r by lia. replace (Nat.max c r) with c by lia. rewrite !Nat.ltb_irrefl, andb_false_r. reflexivity. }
      rewrite E1, E2.
      destruct (Nat.eqb_spec i c) as [->|Hic]; [destruct (Nat.eqb_spec j r) as [->|Hjr]|]; cbn [andb].
      * replace (Nat.min c r) with r by lia. replace (Nat.max c r) with c by lia. rewrite Nat.eqb_refl. replace (c <? S c)%nat with true by (symmetry; apply Nat.ltb_lt; lia).
        rewrite orb_true_r. cbv iota. unfold sym, two. field. exact T.
      * destruct (Nat.eqb_spec c r); [lia|]. cbn [andb]. rewrite W3 by lia.
        replace ((Nat.min c j =? r)%nat && (Nat.max c j <? S c)%nat) with ((Nat.min c j =? r)%nat && (Nat.max c j <? c)%nat); [reflexivity|].
        destruct (Nat.eqb_spec (Nat.min c j) r); [lia|]. reflexivity.
      * destruct (Nat.eqb_spec i r) as [->|Hir]; [destruct (Nat.eqb_spec j c) as [->|Hjc]|]; cbn [andb].
        -- replace (Nat.min r c) with r by lia. replace (Nat.max r c) with c by lia. rewrite Nat.eqb_refl. replace (c <? S c)%nat with true by (symmetry; apply Nat.ltb_lt; lia).
           rewrite orb_true_r. reflexivity.
        -- rewrite W3 by lia. replace (Nat.max r j <? S c)%nat with (Nat.max r j <? c)%nat; [reflexivity|].
           destruct (Nat.ltb_spec (Nat.max r j) c), (Nat.ltb_spec (Nat.max r j) (S c)); try reflexivity; lia.
        -- rewrite W3 by lia. destruct (Nat.eqb_spec (Nat.min i j) r); cbn [andb]; [|reflexivity].
           replace (Nat.max i j <? S c)%nat with (Nat.max i j <? c)%nat; [reflexivity|].
           destruct (Nat.ltb_spec (Nat.max i j) c), (Nat.ltb_spec (Nat.max i j) (S c)); try reflexivity; lia.
    + cbv beta. intros w (W1 & W2 & W3). split; [exact W1|]. split; [exact W2|]. intros i j Hi Hj. rewrite W3 by assumption.
      replace (Nat.max i j <? mcols u)%nat with true by (symmetry; apply Nat.ltb_lt; lia). rewrite andb_true_r.
      replace (Nat.min i j <? S r)%nat with ((Nat.min i j <? r)%nat || (Nat.min i j =? r)%nat); [reflexivity|].
      destruct (Nat.ltb_spec (Nat.min i j) r), (Nat.eqb_spec (Nat.min i j) r), (Nat.ltb_spec (Nat.min i j) (S r)); try reflexivity; lia.
  - cbv beta. intros w (W1 & W2 & W3). split; [exact W1|]. split; [congruence|]. rewrite <- Hsq. intros i j Hi Hj. rewrite W3 by assumption.
    destruct (Nat.ltb_spec (Nat.min i j) (n - 1)); [reflexivity|].
    assert (i = j) as -> by lia. symmetry. apply Sdiag.
Qed.
Lemma cross_product_matrix_ok (v : vec F) : vlen v = 3%nat ->
  gives_mat (cross_product_matrix v) 3 3 (fun i j => match i, j with
    | 0%nat, 1%nat => - vat v 2 | 0%nat, 2%nat => vat v 1 | 1%nat, 0%nat => vat v 2
    | 1%nat, 2%nat => - vat v 0 | 2%nat, 0%nat => - vat v 1 | 2%nat, 1%nat => vat v 0 | _, _ => 0 end).
Proof.
  intros H. unfold cross_product_matrix. rewrite same_size_eq by exact H. cbn [bind].
  rewrite !vget_ok by lia. cbn [bind].
  repeat (rewrite mset_ok by (cbn; lia); cbn [bind]). eexists. split; [reflexivity|].
  split; [reflexivity|]. split; [reflexivity|]. cbn [mel].
  intros i j Hi Hj. destruct i as [|[|[|i]]]; [| | |lia]; (destruct j as [|[|[|j]]]; [| | |lia]); reflexivity.
Qed.
Lemma inv2_ok (m : mat F) : mrows m = 2%nat -> mcols m = 2%nat -> mel m 0 0 * mel m 1 1 - mel m 1 0 * mel m 0 1 <> 0 ->
  let k := 1 / (mel m 0 0 * mel m 1 1 - mel m 1 0 * mel m 0 1) in
  gives_mat (inv2 m) 2 2 (fun i j => match i, j with
    | 0%nat, 0%nat => mel m 1 1 * k | 0%nat, _ => - mel m 0 1 * k | _, 0%nat => - mel m 1 0 * k | _, _ => mel m 0 0 * k end).
Proof.
  intros Hr Hc Hd k. unfold inv2. rewrite !mget_ok by lia. cbn [bind]. rewrite div_ok by exact Hd. cbn [bind]. eexists. split; [reflexivity|].
  split; [reflexivity|]. split; [reflexivity|]. cbn [mel].
  intros i j Hi Hj. destruct i as [|[|i]]; [| |lia]; (destruct j as [|[|j]]; [| |lia]); reflexivity.
Qed.

(** ** Extrema *)
Section X.
Variable cmp : F -> F -> bool.
Hypothesis C0 : forall x, cmp x x = false.
Hypothesis C1 : forall x b y, cmp x b = true -> cmp y b = false -> cmp x y = true.
Hypothesis C2 : forall x y, cmp x y = true -> cmp y x = false.
(** b, found at position i, is the first best of f over lo..n-1 *)
Definition fb (f : nat -> F) (lo n : nat) (b : F) (i : nat) : Prop :=
  (lo <= i < n)%nat /\ b = f i /\ (forall j, (lo <= j < n)%nat -> cmp (f j) b = false) /\ (forall j, (lo <= j < i)%nat -> cmp b (f j) = true).
Lemma fb_one f lo : fb f lo (S lo) (f lo) lo.
Proof.
  split; [lia|]. split; [reflexivity|]. split; [|lia]. intros j Hj. replace j with lo by lia. apply C0.
Qed.
Lemma fb_step f lo n b i : fb f lo n b i -> let x := f n in if cmp x b then fb f lo (S n) x n else fb f lo (S n) b i.
Proof.
  intros (H1 & H2 & H3 & H4) x. unfold x. destruct (cmp (f n) b) eqn:E.
  - split; [lia|]. split; [reflexivity|]. split.
    + intros j Hj. destruct (Nat.eq_dec j n) as [->|]; [apply C0|]. apply C2. apply (C1 _ b); [exact E|apply H3; lia].
    + intros j Hj. apply (C1 _ b); [exact E|apply H3; lia].
  - split; [lia|]. split; [exact H2|]. split; [|exact H4].
    intros j Hj. destruct (Nat.eq_dec j n) as [->|]; [exact E|apply H3; lia].
Qed.
Lemma fb_unique f lo n b i b' i' : fb f lo n b i -> fb f lo n b' i' -> b = b'.
Proof.
  intros (H1 & H2 & H3 & H4) (G1 & G2 & G3 & G4).
  destruct (Nat.lt_trichotomy i i') as [L|[L|L]].
  - subst b b'. specialize (G4 i). specialize (H3 i'). rewrite G4 in H3 by lia. specialize (H3 ltac:(lia)). discriminate.
  - congruence.
  - subst b b'. specialize (H4 i'). specialize (G3 i). rewrite H4 in G3 by lia. specialize (G3 ltac:(lia)). discriminate.
Qed.
Lemma acc_vec_ok (v : vec F) : (0 < vlen v)%nat ->
  exists x i, acc_vec cmp v = Ok x /\ acc_elem_vec cmp v = Ok (x, i) /\ fb (vat v) 0 (vlen v) x i.
Proof.
  intros Hn. unfold acc_vec, acc_elem_vec. destruct (Nat.eqb_spec (vlen v) 0); [lia|]. rewrite vget_ok by exact Hn. cbn [bind].
  assert (W1 : wp (for_ 1 (vlen v) (fun i b => x <- vget v i ;; Ok (if cmp x b then x else b)) (vat v 0)) (fun b => exists i, fb (vat v) 0 (vlen v) b i)).
  { apply (wp_for (fun k b => exists i, fb (vat v) 0 k b i)); [lia|exists O; apply fb_one|].
    intros k b Hk (i & H). rewrite vget_ok by lia. cbn [bind wp]. pose proof (fb_step _ _ _ _ _ H) as St. cbv zeta in St.
    destruct (cmp (vat v k) b); eauto. }
  assert (W2 : wp (for_ 1 (vlen v) (fun i b => x <- vget v i ;; Ok (if cmp x (fst b) then (x, i) else b)) (vat v 0%nat, 0%nat)) (fun b => fb (vat v) 0 (vlen v) (fst b) (snd b))).
  { apply (wp_for (fun k b => fb (vat v) 0 k (fst b) (snd b))); [lia|apply fb_one|].
    intros k [b i] Hk H. rewrite vget_ok by lia. cbn [bind wp fst snd] in *. pose proof (fb_step _ _ _ _ _ H) as St. cbv zeta in St.
    destruct (cmp (vat v k) b); exact St. }
  apply wp_ok_inv in W1. apply wp_ok_inv in W2. destruct W1 as (x & -> & i & Hx). destruct W2 as ([y j] & -> & Hy). cbn [fst snd] in Hy.
  exists y, j. rewrite (fb_unique _ _ _ _ _ _ _ Hx Hy). auto.
Qed.
(** matrices: row-major positions *)
Lemma acc_mat_ok (m : mat F) : (0 < mrows m)%nat -> (0 < mcols m)%nat ->
  exists x r c, acc_mat cmp m = Ok x /\ acc_elem_mat cmp m = Ok (x, (r, c)) /\ (r < mrows m)%nat /\ (c < mcols m)%nat /\ x = mel m r c /\
    (forall i j, (i < mrows m)%nat -> (j < mcols m)%nat -> cmp (mel m i j) x = false) /\
    (forall i j, (i < mrows m)%nat -> (j < mcols m)%nat -> (i < r \/ (i = r /\ j < c))%nat -> cmp x (mel m i j) = true).
Proof.
  intros Hr Hc. unfold acc_mat, acc_elem_mat. destruct (Nat.eqb_spec (mrows m) 0); [lia|]. destruct (Nat.eqb_spec (mcols m) 0); [lia|]. cbn [orb].
  rewrite mget_ok by assumption. cbn [bind].
  set (nc := mcols m) in *.
  set (before := fun i j R C => (i < R \/ (i = R /\ j < C))%nat).
  (* best so far among the positions before (R,C), plus position (0,0) *)
  set (I := fun (R C : nat) (b : F) (r c : nat) => ((r < mrows m)%nat /\ (c < nc)%nat /\ (before r c R C \/ (r = 0 /\ c = 0)%nat) /\ b = mel m r c /\
     (forall i j, (i < mrows m)%nat -> (j < nc)%nat -> before i j R C -> cmp (mel m i j) b = false) /\
     (forall i j, (i < mrows m)%nat -> (j < nc)%nat -> before i j r c -> cmp b (mel m i j) = true))).
  assert (I0 : I 0%nat 0%nat (mel m 0 0) 0%nat 0%nat).
  { unfold I, before. repeat split; auto; intros; lia. }
  assert (Step : forall R C b r c, (R < mrows m)%nat -> (C < nc)%nat -> I R C b r c ->
     if cmp (mel m R C) b then I R (S C) (mel m R C) R C else I R (S C) b r c).
  { unfold I, before. intros R C b r c HR HC (H1 & H2 & H3 & H4 & H5 & H6). destruct (cmp (mel m R C) b) eqn:E.
    - split; [exact HR|]. split; [exact HC|]. split; [lia|]. split; [reflexivity|]. split.
      + intros i j Hi Hj Hb. destruct (Nat.eq_dec i R) as [->|Hne]; [destruct (Nat.eq_dec j C) as [->|Hne]; [apply C0|]|];
        (apply C2; apply (C1 _ b); [exact E|apply H5; lia]).
      + intros i j Hi Hj Hb. apply (C1 _ b); [exact E|apply H5; lia].
    - split; [exact H1|]. split; [exact H2|]. split; [lia|]. split; [exact H4|]. split; [|exact H6].
      intros i j Hi Hj Hb. destruct (Nat.eq_dec i R) as [->|Hne]; [destruct (Nat.eq_dec j C) as [->|Hne]; [exact E|]|]; apply H5; lia. }
  assert (Next : forall R b r c, I R nc b r c -> I (S R) 0%nat b r c).
  { unfold I, before. intros R b r c (H1 & H2 & H3 & H4 & H5 & H6). split; [exact H1|]. split; [exact H2|]. split; [lia|]. split; [exact H4|]. split; [|exact H6].
    intros i j Hi Hj Hb. apply H5; lia. }
  assert (W2 : wp (for_ 0 (mrows m) (fun r b => for_ 0 nc (fun c b => x <- mget m r c ;; Ok (if cmp x (fst b) then (x, (r, c)) else b)) b) (mel m 0%nat 0%nat, (0%nat, 0%nat)))
     (fun b => I (mrows m) 0%nat (fst b) (fst (snd b)) (snd (snd b)))).
  { apply (wp_for (fun k b => I k 0%nat (fst b) (fst (snd b)) (snd (snd b)))); [lia|exact I0|].
    intros R b HR Hb. eapply wp_mono; [apply (wp_for (fun k b => I R k (fst b) (fst (snd b)) (snd (snd b))))|].
    - lia.
    - exact Hb.
    - intros C [b' [r c]] HC H. rewrite mget_ok by lia. cbn [bind wp fst snd] in *.
      pose proof (Step R C b' r c ltac:(lia) ltac:(lia) H) as St. destruct (cmp (mel m R C) b'); exact St.
    - intros b' H. apply Next. exact H. }
  assert (W1 : wp (for_ 0 (mrows m) (fun r b => for_ 0 nc (fun c b => x <- mget m r c ;; Ok (if cmp x b then x else b)) b) (mel m 0%nat 0%nat))
     (fun b => exists r c, I (mrows m) 0%nat b r c)).
  { apply (wp_for (fun k b => exists r c, I k 0%nat b r c)); [lia|exists 0%nat, 0%nat; exact I0|].
    intros R b HR Hb. eapply wp_mono; [apply (wp_for (fun k b => exists r c, I R k b r c))|].
    - lia.
    - exact Hb.
    - intros C b' HC (r & c & H). rewrite mget_ok by lia. cbn [bind wp].
      pose proof (Step R C b' r c ltac:(lia) ltac:(lia) H) as St. destruct (cmp (mel m R C) b'); eauto.
    - intros b' (r & c & H). exists r, c. apply Next. exact H. }
  apply wp_ok_inv in W1. apply wp_ok_inv in W2. destruct W1 as (x & -> & r & c & H). destruct W2 as ([y [r' c']] & -> & G). cbn [fst snd] in G.
  unfold I, before in H, G. destruct H as (H1 & H2 & H3 & H4 & H5 & H6). destruct G as (G1 & G2 & G3 & G4 & G5 & G6).
  assert (x = y) as ->.
  { destruct (Nat.lt_trichotomy r r') as [L|[L|L]]; [|subst r'; destruct (Nat.lt_trichotomy c c') as [L|[L|L]]|].
    - specialize (G6 r c). specialize (H5 r' c'). rewrite <- H4, <- G4 in *. rewrite G6 in H5 by lia. specialize (H5 ltac:(lia) ltac:(lia) ltac:(lia)). discriminate.
    - specialize (G6 r c). specialize (H5 r c'). rewrite <- H4, <- G4 in *. rewrite G6 in H5 by lia. specialize (H5 ltac:(lia) ltac:(lia) ltac:(lia)). discriminate.
    - congruence.
    - specialize (H6 r c'). specialize (G5 r c). rewrite <- H4, <- G4 in *. rewrite H6 in G5 by lia. specialize (G5 ltac:(lia) ltac:(lia) ltac:(lia)). discriminate.
    - specialize (H6 r' c'). specialize (G5 r c). rewrite <- H4, <- G4 in *. rewrite H6 in G5 by lia. specialize (G5 ltac:(lia) ltac:(lia) ltac:(lia)). discriminate. }
  exists y, r', c'. split; [reflexivity|]. split; [reflexivity|]. split; [exact G1|]. split; [exact G2|]. split; [exact G4|].
  split; [intros i j Hi Hj; apply G5; lia|exact G6].
Qed.
Lemma acc_horizontal_ok (m : mat F) : (0 < mcols m)%nat ->
  exists b k, acc_horizontal cmp m = Ok (b, k) /\ vlen b = mrows m /\ vlen k = mrows m /\
    forall r, (r < mrows m)%nat -> fb (fun c => mel m r c) 0 (mcols m) (vat b r) (vat k r).
Proof.
  intros Hc. unfold acc_horizontal.
  match goal with |- exists b k, ?X = _ /\ _ => assert (W : wp X (fun s => vlen (fst s) = mrows m /\ vlen (snd s) = mrows m /\
    forall r, (r < mrows m)%nat -> fb (fun c => mel m r c) 0 (mcols m) (vat (fst s) r) (vat (snd s) r))) end.
  { apply (wp_for (fun K s => vlen (fst s) = mrows m /\ vlen (snd s) = mrows m /\
      forall r, (r < K)%nat -> fb (fun c => mel m r c) 0 (mcols m) (vat (fst s) r) (vat (snd s) r))); [lia| |].
    - split; [reflexivity|]. split; [reflexivity|lia].
    - intros r [b k] Hr (H1 & H2 & H3). cbn [fst snd] in *. rewrite mget_ok by lia. cbn [bind].
      rewrite vset_ok by lia. cbn [bind]. rewrite vset_ok by lia. cbn [bind].
      eapply wp_mono; [apply (wp_for (fun K s => vlen (fst s) = mrows m /\ vlen (snd s) = mrows m /\
        (forall i, (i < r)%nat -> fb (fun c => mel m i c) 0 (mcols m) (vat (fst s) i) (vat (snd s) i)) /\
        fb (fun c => mel m r c) 0 K (vat (fst s) r) (vat (snd s) r)))|].
      + lia.
      + cbn [fst snd vlen vat]. split; [exact H1|]. split; [exact H2|]. split.
        * intros i Hi. destruct (Nat.eqb_spec i r); [lia|]. apply H3. exact Hi.
        * rewrite Nat.eqb_refl. apply (fb_one (fun c => mel m r c)).
      + intros c [b' k'] Hcc (G1 & G2 & G3 & G4). cbn [fst snd] in *. rewrite mget_ok by lia. cbn [bind]. rewrite vget_ok by lia. cbn [bind].
        pose proof (fb_step _ _ _ _ _ G4) as St. cbv zeta beta in St. destruct (cmp (mel m r c) (vat b' r)).
        * rewrite vset_ok by lia. cbn [bind]. rewrite vset_ok by lia. cbn [bind wp fst snd vlen vat]. split; [exact G1|]. split; [exact G2|]. split.
          -- intros i Hi. destruct (Nat.eqb_spec i r); [lia|]. apply G3. exact Hi.
          -- rewrite Nat.eqb_refl. exact St.
        * cbn [wp fst snd]. auto.
      + intros s (G1 & G2 & G3 & G4). split; [exact G1|]. split; [exact G2|]. intros i Hi. destruct (Nat.eq_dec i r) as [->|]; [exact G4|apply G3; lia]. }
  apply wp_ok_inv in W. destruct W as ([b k] & -> & H). exists b, k. split; [reflexivity|exact H].
Qed.
Lemma acc_vertical_ok (m : mat F) : (0 < mrows m)%nat ->
  exists b k, acc_vertical cmp m = Ok (b, k) /\ vlen b = mcols m /\ vlen k = mcols m /\
    forall c, (c < mcols m)%nat -> fb (fun r => mel m r c) 0 (mrows m) (vat b c) (vat k c).
Proof.
  intros Hc. unfold acc_vertical.
  match goal with |- exists b k, ?X = _ /\ _ => assert (W : wp X (fun s => vlen (fst s) = mcols m /\ vlen (snd s) = mcols m /\
    forall r, (r < mcols m)%nat -> fb (fun c => mel m c r) 0 (mrows m) (vat (fst s) r) (vat (snd s) r))) end.
  { apply (wp_for (fun K s => vlen (fst s) = mcols m /\ vlen (snd s) = mcols m /\
      forall r, (r < K)%nat -> fb (fun c => mel m c r) 0 (mrows m) (vat (fst s) r) (vat (snd s) r))); [lia| |].
    - split; [reflexivity|]. split; [reflexivity|lia].
    - intros r [b k] Hr (H1 & H2 & H3). cbn [fst snd] in *. rewrite mget_ok by lia. cbn [bind].
      rewrite vset_ok by lia. cbn [bind]. rewrite vset_ok by lia. cbn [bind].
      eapply wp_mono; [apply (wp_for (fun K s => vlen (fst s) = mcols m /\ vlen (snd s) = mcols m /\
        (forall i, (i < r)%nat -> fb (fun c => mel m c i) 0 (mrows m) (vat (fst s) i) (vat (snd s) i)) /\
        fb (fun c => mel m c r) 0 K (vat (fst s) r) (vat (snd s) r)))|].
      + lia.
      + cbn [fst snd vlen vat]. split; [exact H1|]. split; [exact H2|]. split.
        * intros i Hi. destruct (Nat.eqb_spec i r); [lia|]. apply H3. exact Hi.
        * rewrite Nat.eqb_refl. apply (fb_one (fun c => mel m c r)).
      + intros c [b' k'] Hcc (G1 & G2 & G3 & G4). cbn [fst snd] in *. rewrite mget_ok by lia. cbn [bind]. rewrite vget_ok by lia. cbn [bind].
        pose proof (fb_step _ _ _ _ _ G4) as St. cbv zeta beta in St. destruct (cmp (mel m c r) (vat b' r)).
        * rewrite vset_ok by lia. cbn [bind]. rewrite vset_ok by lia. cbn [bind wp fst snd vlen vat]. split; [exact G1|]. split; [exact G2|]. split.
          -- intros i Hi. destruct (Nat.eqb_spec i r); [lia|]. apply G3. exact Hi.
          -- rewrite Nat.eqb_refl. exact St.
        * cbn [wp fst snd]. auto.
      + intros s (G1 & G2 & G3 & G4). split; [exact G1|]. split; [exact G2|]. intros i Hi. destruct (Nat.eq_dec i r) as [->|]; [exact G4|apply G3; lia]. }
  apply wp_ok_inv in W. destruct W as ([b k] & -> & H). exists b, k. split; [reflexivity|exact H].
Qed.
End X.
Lemma less0 (x : F) : less x x = false.
Proof. apply le_refl. Qed.
Lemma less1 (x b y : F) : less x b = true -> less y b = false -> less x y = true.
Proof. unfold less. intros H1 H2. exact (lt_le_trans _ _ _ H1 H2). Qed.
Lemma less2 (x y : F) : less x y = true -> less y x = false.
Proof. exact (lt_le x y). Qed.
Lemma greater0 (x : F) : greater x x = false.
Proof. apply le_refl. Qed.
Lemma greater1 (x b y : F) : greater x b = true -> greater y b = false -> greater x y = true.
Proof. unfold greater. intros H1 H2. exact (le_lt_trans y b x H2 H1). Qed.
Lemma greater2 (x y : F) : greater x y = true -> greater y x = false.
Proof. exact (lt_le y x). Qed.
End L.

(** ** early-return loops *)
Lemma returning_ok {A} n (body : nat -> outcome (option A)) (last : A) (g : nat -> option A) :
  (forall i, i < n -> body i = Ok (g i)) ->
  exists q, returning n body last = Ok q /\
    ((q = last /\ forall i, i < n -> g i = None) \/ exists i, i < n /\ g i = Some q /\ forall j, j < i -> g j = None).
Proof.
  intros H. unfold returning.
  assert (W : wp (for_ 0 n (fun i s => match s with Some q => Ok (Some q) | None => body i end) None)
    (fun s => match s with None => forall i, i < n -> g i = None | Some q => exists i, i < n /\ g i = Some q /\ forall j, j < i -> g j = None end)).
  { apply (wp_for (fun k s => match s with None => forall i, i < k -> g i = None | Some q => exists i, i < n /\ g i = Some q /\ forall j, j < i -> g j = None end)); [lia|lia|].
    intros i [q|] Hi G; [exact G|]. rewrite H by lia. cbn [wp]. destruct (g i) as [q|] eqn:E.
    - exists i. split; [lia|]. auto.
    - intros j Hj. destruct (Nat.eq_dec j i) as [->|]; [exact E|apply G; lia]. }
  apply wp_ok_inv in W. destruct W as ([q|] & -> & G); cbn [bind]; eexists; (split; [reflexivity|]); auto.
Qed.
