(** * What each operator computes, element by element. *)
From Coq Require Import Arith Bool List Lia Field.
From Verif Require Import Base Alg Mat SpecMat LemMat ModelOps.
Import ListNotations.

Section L.
Context {F : Type} {Fo : Ops F} {Fl : Laws F}.
Local Open Scope F_scope.
Add Field Ff : law_field.
Notation "x === y" := (vec_eq x y) (at level 70).

Ltac sz := first [rewrite same_size_ok | rewrite same_size_eq by (auto; congruence)]; cbn [bind].
Ltac acc := repeat (first [rewrite vget_ok by lia | rewrite mget_ok by lia | rewrite row_ok by (cbn [mrows tr]; lia)]; cbn [bind]).

Lemma vadd_ok (a b : vec F) : vlen a = vlen b -> gives_vec (vadd a b) (vlen a) (fun i => vat a i + vat b i).
Proof. intros H. unfold vadd. sz. apply vfor_ok. intros i Hi. acc. reflexivity. Qed.
Lemma vsub_ok (a b : vec F) : vlen a = vlen b -> gives_vec (vsub a b) (vlen a) (fun i => vat a i - vat b i).
Proof. intros H. unfold vsub. sz. apply vfor_ok. intros i Hi. acc. reflexivity. Qed.
Lemma vdiagmult_ok (a b : vec F) : vlen a = vlen b -> gives_vec (vdiagmult a b) (vlen a) (fun i => vat a i * vat b i).
Proof. intros H. unfold vdiagmult. sz. apply vfor_ok. intros i Hi. acc. reflexivity. Qed.
Lemma vscale_ok (a : vec F) s : gives_vec (vscale a s) (vlen a) (fun i => vat a i * s).
Proof. apply vfor_ok. intros i Hi. acc. reflexivity. Qed.
Lemma vscale_l_ok (a : vec F) s : gives_vec (vscale_l s a) (vlen a) (fun i => s * vat a i).
Proof. apply vfor_ok. intros i Hi. acc. reflexivity. Qed.
Lemma vdivs_ok (a : vec F) s : s <> 0 -> gives_vec (vdivs a s) (vlen a) (fun i => vat a i / s).
Proof. intros H. apply vfor_ok. intros i Hi. acc. apply div_ok. exact H. Qed.
Lemma vneg_ok (a : vec F) : gives_vec (vneg a) (vlen a) (fun i => - vat a i).
Proof.
  destruct (vscale_ok a (- (1))) as (v & E & H1 & H2). exists v. split; [exact E|]. split; [exact H1|].
  intros i Hi. rewrite H2 by exact Hi. ring.
Qed.
Lemma vadd_assign_ok (a b : vec F) : vlen a = vlen b -> gives_vec (vadd_assign a b) (vlen a) (fun i => vat a i + vat b i).
Proof. intros H. unfold vadd_assign. sz. apply vmod_ok. intros i Hi. acc. reflexivity. Qed.
Lemma vsub_assign_ok (a b : vec F) : vlen a = vlen b -> gives_vec (vsub_assign a b) (vlen a) (fun i => vat a i - vat b i).
Proof. intros H. unfold vsub_assign. sz. apply vmod_ok. intros i Hi. acc. reflexivity. Qed.
Lemma vmul_assign_ok (a : vec F) s : gives_vec (vmul_assign a s) (vlen a) (fun i => vat a i * s).
Proof. apply vmod_ok. intros i Hi. reflexivity. Qed.
Lemma vdiv_assign_ok (a : vec F) s : s <> 0 -> gives_vec (vdiv_assign a s) (vlen a) (fun i => vat a i / s).
Proof. intros H. apply vmod_ok. intros i Hi. apply div_ok. exact H. Qed.
Lemma for_nonfinite {St} n (body : nat -> St -> outcome St) s : (0 < n)%nat -> (forall i s, body i s = NonFinite) -> for_ 0 n body s = NonFinite.
Proof. intros H Hb. unfold for_. destruct (n - 0)%nat eqn:E; [lia|]. cbn. rewrite Hb. reflexivity. Qed.
Lemma vdivs_zero (a : vec F) : (0 < vlen a)%nat -> vdivs a 0 = NonFinite.
Proof.
  intros H. unfold vdivs, vfor, for_. destruct (vlen a - 0)%nat eqn:E; [lia|]. cbn [for_up]. rewrite vget_ok by lia. cbn [bind].
  rewrite div_zero. reflexivity.
Qed.
Lemma dot_ok (a b : vec F) : vlen a = vlen b -> dot a b = Ok (sum (vlen a) (fun i => vat a i * vat b i)).
Proof.
  intros H. unfold dot. sz.
  assert (W : wp (for_ 0 (vlen a) (fun i res => x <- vget a i ;; y <- vget b i ;; Ok (res + x * y)) 0)
              (fun r => r = sum (vlen a) (fun i => vat a i * vat b i))).
  { apply (wp_for (fun k r => r = sum k (fun i => vat a i * vat b i))); [lia|reflexivity|].
    intros i r Hi ->. acc. reflexivity. }
  apply wp_ok_inv in W as (r & E & ->). exact E.
Qed.
Lemma dot_bad (a b : vec F) : vlen a <> vlen b -> dot a b = Abort DSizeMismatch.
Proof. intros H. unfold dot. rewrite same_size_bad by exact H. reflexivity. Qed.
Lemma veq_loop (a b : vec F) (q : bool) : vlen a = vlen b ->
  wp (for_ 0 (vlen a) (fun i r => match r with Some q => Ok (Some q) | None =>
         x <- vget a i ;; y <- vget b i ;; Ok (if negb (feqb x y) then Some q else None) end) None)
     (fun r => (r = Some q /\ exists i, (i < vlen a)%nat /\ vat a i <> vat b i) \/ (r = None /\ forall i, (i < vlen a)%nat -> vat a i = vat b i)).
Proof.
  intros H. eapply wp_mono; [apply (wp_for (fun k r => (r = Some q /\ exists i, (i < vlen a)%nat /\ vat a i <> vat b i) \/
     (r = None /\ forall i, (i < k)%nat -> vat a i = vat b i)))|intros r Hr; exact Hr].
  - lia.
  - right. split; [reflexivity|lia].
  - intros i r Hi [[-> Hx]|[-> Hx]]; [left; auto|]. acc. cbn.
    destruct (feqb (vat a i) (vat b i)) eqn:E; cbn.
    + right. split; [reflexivity|]. intros j Hj. apply law_eqb in E. destruct (Nat.eq_dec j i) as [->|]; [exact E|apply Hx; lia].
    + left. split; [reflexivity|]. exists i. split; [lia|]. intros E'. apply law_eqb in E'. congruence.
Qed.
Lemma vequal_ok (a b : vec F) : vlen a = vlen b -> exists q, vequal a b = Ok q /\ vnotequal a b = Ok (negb q) /\
  (q = true <-> forall i, (i < vlen a)%nat -> vat a i = vat b i).
Proof.
  intros H. unfold vequal, vnotequal. rewrite !same_size_eq by exact H. cbn [bind].
  destruct (wp_ok_inv _ _ (veq_loop a b false H)) as (r1 & E1 & H1).
  destruct (wp_ok_inv _ _ (veq_loop a b true H)) as (r2 & E2 & H2).
  rewrite E1, E2. cbn [bind].
  destruct H1 as [[-> (i & Hi & Hne)]|[-> H1]], H2 as [[-> (j & Hj & Hne')]|[-> H2]].
  - exists false. split; [reflexivity|]. split; [reflexivity|]. split; [discriminate|]. intros E. rewrite E in Hne by exact Hi. congruence.
  - rewrite H2 in Hne by exact Hi. congruence.
  - rewrite H1 in Hne' by exact Hj. congruence.
  - exists true. split; [reflexivity|]. split; [reflexivity|]. tauto.
Qed.

Lemma cross_ok (a b : vec F) : vlen a = 3%nat -> vlen b = 3%nat ->
  gives_vec (cross a b) 3 (fun i => match i with
    | O => vat a 1%nat * vat b 2%nat - vat a 2%nat * vat b 1%nat
    | 1%nat => vat a 2%nat * vat b O - vat a O * vat b 2%nat
    | _ => vat a O * vat b 1%nat - vat a 1%nat * vat b O end).
Proof.
  intros Ha Hb. unfold cross. rewrite Ha, Hb. cbn [Nat.eqb andb]. acc.
  eexists. split; [reflexivity|]. split; [reflexivity|]. cbn. intros [|[|[|i]]] Hi; try reflexivity; lia.
Qed.

(** ** Matrices *)
Lemma madd_ok (a b : mat F) : mrows a = mrows b -> mcols a = mcols b -> gives_mat (madd a b) (mrows a) (mcols a) (fun i j => mel a i j + mel b i j).
Proof. intros H H'. unfold madd. do 2 sz. apply mfor_ok. intros i j Hi Hj. acc. reflexivity. Qed.
Lemma msub_ok (a b : mat F) : mrows a = mrows b -> mcols a = mcols b -> gives_mat (msub a b) (mrows a) (mcols a) (fun i j => mel a i j - mel b i j).
Proof. intros H H'. unfold msub. do 2 sz. apply mfor_ok. intros i j Hi Hj. acc. reflexivity. Qed.
Lemma mscale_ok (a : mat F) s : gives_mat (mscale a s) (mrows a) (mcols a) (fun i j => mel a i j * s).
Proof. apply mfor_ok. intros i j Hi Hj. acc. reflexivity. Qed.
Lemma mscale_l_ok (a : mat F) s : gives_mat (mscale_l s a) (mrows a) (mcols a) (fun i j => s * mel a i j).
Proof. apply mfor_ok. intros i j Hi Hj. acc. reflexivity. Qed.
Lemma mdivs_ok (a : mat F) s : s <> 0 -> gives_mat (mdivs a s) (mrows a) (mcols a) (fun i j => mel a i j / s).
Proof. intros H. apply mfor_ok. intros i j Hi Hj. acc. apply div_ok. exact H. Qed.
Lemma mneg_ok (a : mat F) : gives_mat (mneg a) (mrows a) (mcols a) (fun i j => - mel a i j).
Proof.
  destruct (mscale_ok a (- (1))) as (v & E & H1 & H2 & H3). exists v. split; [exact E|]. split; [exact H1|]. split; [exact H2|].
  intros i j Hi Hj. rewrite H3 by assumption. ring.
Qed.
Lemma madd_assign_ok (a b : mat F) : mrows a = mrows b -> mcols a = mcols b -> gives_mat (madd_assign a b) (mrows a) (mcols a) (fun i j => mel a i j + mel b i j).
Proof. intros H H'. unfold madd_assign. do 2 sz. apply mmod_ok. intros i j Hi Hj. acc. reflexivity. Qed.
Lemma msub_assign_ok (a b : mat F) : mrows a = mrows b -> mcols a = mcols b -> gives_mat (msub_assign a b) (mrows a) (mcols a) (fun i j => mel a i j - mel b i j).
Proof. intros H H'. unfold msub_assign. do 2 sz. apply mmod_ok. intros i j Hi Hj. acc. reflexivity. Qed.
Lemma mmul_assign_ok (a : mat F) s : gives_mat (mmul_assign a s) (mrows a) (mcols a) (fun i j => mel a i j * s).
Proof. apply mmod_ok. reflexivity. Qed.
Lemma mdiv_assign_ok (a : mat F) s : s <> 0 -> gives_mat (mdiv_assign a s) (mrows a) (mcols a) (fun i j => mel a i j / s).
Proof. intros H. apply mmod_ok. intros i j Hi Hj. apply div_ok. exact H. Qed.
Lemma mmul_ok (a b : mat F) : mcols a = mrows b ->
  gives_mat (mmul a b) (mrows a) (mcols b) (fun i j => sum (mcols a) (fun k => mel a i k * mel b k j)).
Proof.
  intros H. unfold mmul. sz. apply mfor_ok. intros i j Hi Hj. acc. rewrite dot_ok by exact H. reflexivity.
Qed.
Lemma mv_ok (a : mat F) (v : vec F) : mcols a = vlen v -> gives_vec (mv a v) (mrows a) (fun i => sum (mcols a) (fun k => mel a i k * vat v k)).
Proof. intros H. unfold mv. sz. apply vfor_ok. intros i Hi. acc. rewrite dot_ok by exact H. reflexivity. Qed.
Lemma vm_ok (a : mat F) (v : vec F) : mrows a = vlen v -> gives_vec (vm v a) (mcols a) (fun j => sum (mrows a) (fun k => vat v k * mel a k j)).
Proof. intros H. unfold vm. sz. apply vfor_ok. intros i Hi. acc. rewrite dot_ok by (cbn; congruence). rewrite <- H. reflexivity. Qed.
Lemma vmdiag_ok (v : vec F) (a : mat F) : mrows a = vlen v -> gives_mat (vmdiag v a) (mrows a) (mcols a) (fun i j => vat v i * mel a i j).
Proof.
  intros H. unfold vmdiag. sz. apply wp_ok_inv.
  set (f := fun i j => vat v i * mel a i j).
  eapply wp_mono; [apply (wp_for (fun k m => mrows m = mrows a /\ mcols m = mcols a /\ forall i j, (i < k)%nat -> (j < mcols a)%nat -> mel m i j = f i j))|].
  - lia.
  - split; [reflexivity|]. split; [reflexivity|lia].
  - intros r m Hr (H1 & H2 & H3). acc.
    eapply wp_mono; [apply (wp_for (fun k m => mrows m = mrows a /\ mcols m = mcols a /\ forall i j, (i < r \/ i = r /\ j < k)%nat -> (j < mcols a)%nat -> mel m i j = f i j))|].
    + lia.
    + split; [exact H1|]. split; [exact H2|]. intros i j [Hi|Hi] Hj; [apply H3; lia|lia].
    + intros c m' Hc (G1 & G2 & G3). acc. rewrite mset_ok by lia. cbn. split; [exact G1|]. split; [exact G2|]. intros i j Hij Hj.
      destruct (Nat.eqb_spec i r) as [->|]; destruct (Nat.eqb_spec j c) as [->|]; cbn; [reflexivity| | |]; apply G3; lia.
    + intros m' (G1 & G2 & G3). split; [exact G1|]. split; [exact G2|]. intros i j Hi Hj. apply G3; lia.
  - intros m Hm. exact Hm.
Qed.
Lemma mvdiag_ok (v : vec F) (a : mat F) : mcols a = vlen v -> gives_mat (mvdiag a v) (mrows a) (mcols a) (fun i j => mel a i j * vat v j).
Proof.
  intros H. unfold mvdiag. sz. apply wp_ok_inv.
  set (f := fun i j => mel a i j * vat v j).
  eapply wp_mono; [apply (wp_for (fun k m => mrows m = mrows a /\ mcols m = mcols a /\ forall i j, (i < mrows a)%nat -> (j < k)%nat -> mel m i j = f i j))|].
  - lia.
  - split; [reflexivity|]. split; [reflexivity|lia].
  - intros c m Hc (H1 & H2 & H3). acc.
    eapply wp_mono; [apply (wp_for (fun k m => mrows m = mrows a /\ mcols m = mcols a /\ forall i j, (i < mrows a)%nat -> (j < c \/ j = c /\ i < k)%nat -> mel m i j = f i j))|].
    + lia.
    + split; [exact H1|]. split; [exact H2|]. intros i j Hi [Hj|Hj]; [apply H3; lia|lia].
    + intros r m' Hr (G1 & G2 & G3). acc. rewrite mset_ok by lia. cbn. split; [exact G1|]. split; [exact G2|]. intros i j Hij Hj.
      destruct (Nat.eqb_spec i r) as [->|]; destruct (Nat.eqb_spec j c) as [->|]; cbn; [reflexivity| | |]; apply G3; lia.
    + intros m' (G1 & G2 & G3). split; [exact G1|]. split; [exact G2|]. intros i j Hi Hj. apply G3; lia.
  - intros m Hm. exact Hm.
Qed.
Lemma diag_eval_ok dyn (d : vec F) r c : Nat.min r c = vlen d -> (dyn = true -> r = c) ->
  gives_mat (diag_eval dyn d r c) r c (fun i j => if i =? j then vat d i else 0).
Proof.
  intros H Hd. unfold diag_eval. assert (E : (if dyn then same_size r c else Ok tt) = Ok tt).
  { destruct dyn; [apply same_size_eq; auto|reflexivity]. }
  rewrite E. cbn [bind]. destruct (mfor_ok r c (fun _ _ => Ok 0) (fun _ _ => 0)) as (m & -> & H1 & H2 & H3); [reflexivity|]. cbn [bind diag vlen].
  rewrite H1, H2, same_size_eq by exact H. cbn [bind]. apply wp_ok_inv.
  eapply wp_mono; [apply (wp_for (fun k m => mrows m = r /\ mcols m = c /\ forall i j, (i < r)%nat -> (j < c)%nat -> mel m i j = if (i =? j) && (i <? k) then vat d i else 0))|].
  - lia.
  - split; [exact H1|]. split; [exact H2|]. intros i j Hi Hj. rewrite H3 by assumption. destruct (i =? j); reflexivity.
  - intros i m' Hi (G1 & G2 & G3). acc. rewrite mset_ok by lia. cbn [wp mrows mcols mel]. split; [exact G1|]. split; [exact G2|].
    intros i' j Hi' Hj. rewrite G3 by assumption.
    destruct (Nat.eqb_spec i' i) as [->|]; destruct (Nat.eqb_spec j i) as [->|]; cbn [andb].
    + rewrite Nat.eqb_refl. replace (i <? S i) with true by (symmetry; apply Nat.ltb_lt; lia). reflexivity.
    + destruct (Nat.eqb_spec i j); [lia|reflexivity].
    + destruct (Nat.eqb_spec i' i); [lia|reflexivity].
    + destruct (i' =? j); cbn [andb]; [|reflexivity]. destruct (Nat.ltb_spec i' i), (Nat.ltb_spec i' (S i)); try lia; reflexivity.
  - intros m' (G1 & G2 & G3). split; [exact G1|]. split; [exact G2|]. intros i j Hi Hj. rewrite G3 by assumption.
    destruct (Nat.eqb_spec i j) as [->|]; [|reflexivity]. cbn [andb]. replace (j <? vlen d) with true by (symmetry; apply Nat.ltb_lt; lia). reflexivity.
Qed.

Lemma meq_loop (a b : mat F) (q : bool) : mrows a = mrows b -> mcols a = mcols b ->
  wp (for_ 0 (mrows a) (fun r st => for_ 0 (mcols a) (fun c st => match st with Some q => Ok (Some q) | None =>
         x <- mget a r c ;; y <- mget b r c ;; Ok (if negb (feqb x y) then Some q else None) end) st) None)
     (fun r => (r = Some q /\ exists i j, (i < mrows a)%nat /\ (j < mcols a)%nat /\ mel a i j <> mel b i j) \/
               (r = None /\ forall i j, (i < mrows a)%nat -> (j < mcols a)%nat -> mel a i j = mel b i j)).
Proof.
  intros Hr0 Hc0. set (D := exists i j, (i < mrows a)%nat /\ (j < mcols a)%nat /\ mel a i j <> mel b i j).
  eapply wp_mono; [apply (wp_for (fun k r => (r = Some q /\ D) \/
     (r = None /\ forall i j, (i < k)%nat -> (j < mcols a)%nat -> mel a i j = mel b i j)))|intros r Hr; exact Hr].
  - lia.
  - right. split; [reflexivity|lia].
  - intros i st Hi Hst. eapply wp_mono; [apply (wp_for (fun k r => (r = Some q /\ D) \/
     (r = None /\ forall i' j, (i' < i \/ i' = i /\ j < k)%nat -> (j < mcols a)%nat -> mel a i' j = mel b i' j)))|].
    + lia.
    + destruct Hst as [[-> HD]|[-> Hx]]; [left; auto|right]. split; [reflexivity|]. intros i' j [H|H] Hj; [apply Hx; lia|lia].
    + intros j r Hj [[-> Hx]|[-> Hx]]; [left; auto|]. acc. cbn.
      destruct (feqb (mel a i j) (mel b i j)) eqn:E; cbn.
      * right. split; [reflexivity|]. intros i' j' H Hj'. apply law_eqb in E.
        destruct (Nat.eq_dec i' i) as [->|]; [destruct (Nat.eq_dec j' j) as [->|]; [exact E|]|]; apply Hx; lia.
      * left. split; [reflexivity|]. exists i, j. split; [lia|]. split; [lia|]. intros E'. apply law_eqb in E'. congruence.
    + intros r [[-> Hx]|[-> Hx]]; [left; auto|right]. split; [reflexivity|]. intros i' j H Hj. apply Hx; lia.
Qed.
Lemma mequal_ok (a b : mat F) : mrows a = mrows b -> mcols a = mcols b -> exists q, mequal a b = Ok q /\ mnotequal a b = Ok (negb q) /\
  (q = true <-> forall i j, (i < mrows a)%nat -> (j < mcols a)%nat -> mel a i j = mel b i j).
Proof.
  intros H H'. unfold mequal, mnotequal. rewrite !same_size_eq by assumption. cbn [bind].
  destruct (wp_ok_inv _ _ (meq_loop a b false H H')) as (r1 & E1 & H1).
  destruct (wp_ok_inv _ _ (meq_loop a b true H H')) as (r2 & E2 & H2).
  rewrite E1, E2. cbn [bind].
  destruct H1 as [[-> (i & k & Hi & Hk & Hne)]|[-> H1]], H2 as [[-> (j & l & Hj & Hl & Hne')]|[-> H2]].
  - exists false. split; [reflexivity|]. split; [reflexivity|]. split; [discriminate|]. intros E. rewrite E in Hne by assumption. congruence.
  - rewrite H2 in Hne by assumption. congruence.
  - rewrite H1 in Hne' by assumption. congruence.
  - exists true. split; [reflexivity|]. split; [reflexivity|]. tauto.
Qed.

(** composition of results *)
Lemma gives_vec_bind x n f (k : vec F -> outcome (vec F)) n' f' : gives_vec x n f -> (forall v, vec_is v n f -> gives_vec (k v) n' f') ->
  gives_vec (bind x k) n' f'.
Proof. intros (v & -> & Hv) H. exact (H v Hv). Qed.
Lemma gives_mat_bind x n m f (k : mat F -> outcome (mat F)) n' m' f' : gives_mat x n m f -> (forall v, mat_is v n m f -> gives_mat (k v) n' m' f') ->
  gives_mat (bind x k) n' m' f'.
Proof. intros (v & -> & Hv) H. exact (H v Hv). Qed.
Lemma gives_vec_ext (x : outcome (vec F)) n f n' f' : gives_vec x n f -> n = n' -> (forall i, (i < n)%nat -> f i = f' i) -> gives_vec x n' f'.
Proof. intros (v & -> & H1 & H2) <- H. exists v. split; [reflexivity|]. split; [exact H1|]. intros i Hi. rewrite H2 by exact Hi. auto. Qed.
Lemma gives_mat_ext (x : outcome (mat F)) n m f n' m' f' : gives_mat x n m f -> n = n' -> m = m' -> (forall i j, (i < n)%nat -> (j < m)%nat -> f i j = f' i j) -> gives_mat x n' m' f'.
Proof. intros (v & -> & H1 & H2 & H3) <- <- H. exists v. split; [reflexivity|]. split; [exact H1|]. split; [exact H2|]. intros i j Hi Hj. rewrite H3 by assumption. auto. Qed.
Lemma agree_vec_intro (x y : outcome (vec F)) n f : gives_vec x n f -> gives_vec y n f -> agree_vec x y.
Proof.
  intros (v & -> & H1 & H2) (w & -> & G1 & G2). exists v, w. split; [reflexivity|]. split; [reflexivity|]. rewrite <- G1 in *.
  split; [exact H1|]. intros i Hi. rewrite H2, G2 by exact Hi. reflexivity.
Qed.
Lemma agree_mat_intro (x y : outcome (mat F)) n m f : gives_mat x n m f -> gives_mat y n m f -> agree_mat x y.
Proof.
  intros (v & -> & H1 & H2 & H3) (w & -> & G1 & G2 & G3). exists v, w. split; [reflexivity|]. split; [reflexivity|].
  rewrite <- G1, <- G2 in *. split; [exact H1|]. split; [exact H2|]. intros i j Hi Hj. rewrite H3, G3 by assumption. reflexivity.
Qed.

(** Cauchy-Schwarz *)
Lemma cauchy_schwarz n (a b : nat -> F) :
  sum n (fun i => a i * b i) * sum n (fun i => a i * b i) <= sum n (fun i => a i * a i) * sum n (fun i => b i * b i).
Proof.
  set (A := sum n (fun i => a i * a i)). set (B := sum n (fun i => b i * b i)). set (C := sum n (fun i => a i * b i)).
  assert (HB : 0 <= B) by (apply sum_nonneg; intros; apply sq_nonneg).
  apply le_lt_eq in HB as [HB|HB].
  - assert (HP : 0 <= B * (A * B - C * C)).
    { replace (B * (A * B - C * C)) with (sum n (fun i => (B * a i - C * b i) * (B * a i - C * b i))).
      - apply sum_nonneg. intros; apply sq_nonneg.
      - transitivity (sum n (fun i => (B * B) * (a i * a i) + (- (B * C + B * C) * (a i * b i) + (C * C) * (b i * b i)))).
        + apply sum_ext. intros. ring.
        + rewrite !sum_add, !sum_mul_l. fold A B C. ring. }
    apply le_sub. destruct (lt_or_le (A * B - C * C) 0) as [Hn|Hn]; [|exact Hn].
    apply neg_pos in Hn. pose proof (law_mul _ _ HB Hn) as Hm.
    exfalso. apply (law_irr (0:F)). apply (lt_le_trans _ (B * - (A * B - C * C) + B * (A * B - C * C))).
    + apply add_pos_nonneg; assumption.
    + replace (B * - (A * B - C * C) + B * (A * B - C * C)) with (0:F) by ring. apply le_refl.
  - assert (Hb : forall i, (i < n)%nat -> b i = 0).
    { intros i Hi. assert (E : b i * b i = 0) by (apply (sum_nonneg_zero n (fun i => b i * b i)); auto using sq_nonneg).
      apply mul_zero in E. tauto. }
    assert (HC : C = 0) by (apply sum_zero; intros i Hi; rewrite Hb by exact Hi; ring).
    rewrite HC, <- HB. replace (0 * 0) with (0:F) by ring. replace (A * 0) with (0:F) by ring. apply le_refl.
Qed.
End L.
