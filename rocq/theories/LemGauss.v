(** * Lemmas about Gaussian elimination and Gauss-Jordan reduction. *)
From Coq Require Import Arith Bool List Lia Field.
From Verif Require Import Base Alg Mat SpecMat LemMat SpecLin LemLin ModelGauss LemGaussStep.
Import ListNotations.

Section L.
Context {F : Type} {Fo : Ops F} {Fl : Laws F}.
Add Field Ff : law_field.
Open Scope F_scope.

Lemma find_pivot_ok (A : mat F) n i : (i < n)%nat -> (n <= mrows A)%nat -> (i < mcols A)%nat ->
  exists p, find_pivot A n i = Ok p /\ (i <= p < n)%nat /\ forall r, (i <= r < n)%nat -> fabs (mel A r i) <= fabs (mel A p i).
Proof. apply find_pivot_ord; [apply le_refl|apply le_trans|apply lt_le]. Qed.
Lemma pivot_zero (x y : F) : fabs x <= fabs y -> y = 0 -> x = 0.
Proof.
  intros H ->. apply abs_zero. apply le_antisym; [|apply abs_nonneg].
  assert (E : fabs 0 = (0:F)) by (apply abs_zero; reflexivity). rewrite E in H. exact H.
Qed.

Section B.
Context {B : Type} (bswap : B -> nat -> nat -> outcome B) (bscale : B -> nat -> F -> outcome B)
  (bsub : B -> nat -> nat -> F -> outcome B) (bval : B -> nat -> nat -> F) (bok : B -> Prop) (n q : nat).
Hypothesis Hswap : forall b i p, bok b -> (i < n)%nat -> (p < n)%nat -> i <> p ->
  exists b', bswap b i p = Ok b' /\ bok b' /\ forall r k, (r < n)%nat -> (k < q)%nat -> bval b' r k = bval b (swp i p r) k.
Hypothesis Hscale : forall b i f, bok b -> (i < n)%nat ->
  exists b', bscale b i f = Ok b' /\ bok b' /\ forall r k, (r < n)%nat -> (k < q)%nat -> bval b' r k = if (r =? i)%nat then bval b i k * f else bval b r k.
Hypothesis Hsub : forall b u i f, bok b -> (i < n)%nat -> (u < n)%nat -> u <> i ->
  exists b', bsub b u i f = Ok b' /\ bok b' /\ forall r k, (r < n)%nat -> (k < q)%nat -> bval b' r k = if (r =? u)%nat then bval b u k - f * bval b i k else bval b r k.

Lemma ge_step_ok (A : mat F) b i : (i < n)%nat -> mrows A = n -> mcols A = n -> bok b ->
  exists p, (i <= p < n)%nat /\ (forall r, (i <= r < n)%nat -> fabs (mel A r i) <= fabs (mel A p i)) /\
   (mel A p i = 0 -> ge_step bswap bscale bsub n i (A, b) = NonFinite) /\
   (mel A p i <> 0 -> exists A' b', ge_step bswap bscale bsub n i (A, b) = Ok (A', b') /\ bok b' /\ stepped bval n q i p A A' b b').
Proof. apply ge_step_ord; [apply le_refl|apply le_trans|apply lt_le|apply div_ok|apply div_zero|exact Hswap|exact Hscale|exact Hsub]. Qed.

(** the matrix the elimination has reached, with the columns it leaves behind read as reduced *)
Definition eff (i : nat) (A : mat F) (r c : nat) : F :=
  if (c <? i)%nat then (if (r =? c)%nat then 1 else if (c <? r)%nat then 0 else mel A r c) else mel A r c.
Lemma step_equiv (A A' : mat F) b b' i p x t : (i < n)%nat -> (i <= p < n)%nat -> mel A p i <> 0 -> stepped bval n q i p A A' b b' ->
  (forall r, (r < n)%nat -> rowv n q (eff (S i) A') (bval b') x t r = 0) <-> (forall r, (r < n)%nat -> rowv n q (eff i A) (bval b) x t r = 0).
Proof.
  intros Hi Hp Hnz (_ & _ & S1 & S2 & S3 & S4 & S5 & S6 & S7 & S8). set (inv := 1 / mel A p i) in *.
  assert (Hinv : inv <> 0). { intros E. apply one_neq_zero. transitivity (inv * mel A p i); [unfold inv; field; exact Hnz|]. rewrite E. ring. }
  assert (Hge : forall r, (i <= r)%nat -> (i <= swp i p r)%nat) by (intros r Hr; unfold swp; destruct (r =? i)%nat, (r =? p)%nat; lia).
  assert (Ei : rowv n q (eff (S i) A') (bval b') x t i = inv * rowv n q (eff i A) (bval b) x t p).
  { apply rowv_scale; [|exact S7]. intros c Hc. unfold eff. destruct (Nat.ltb_spec c (S i)), (Nat.ltb_spec c i); try lia.
    - destruct (Nat.eqb_spec i c), (Nat.ltb_spec c i), (Nat.eqb_spec p c), (Nat.ltb_spec c p); try lia. ring.
    - replace c with i by lia. rewrite Nat.eqb_refl. unfold inv. field. exact Hnz.
    - apply S4; lia. }
  assert (El : forall r, (r < i)%nat -> rowv n q (eff (S i) A') (bval b') x t r = rowv n q (eff i A) (bval b) x t r).
  { intros r Hr. apply rowv_same; [|intros k Hk; apply S6; assumption]. intros c Hc. unfold eff. destruct (Nat.ltb_spec c (S i)), (Nat.ltb_spec c i); try lia.
    - rewrite S1 by lia. reflexivity.
    - replace c with i by lia. destruct (Nat.eqb_spec r i), (Nat.ltb_spec i r); try lia. rewrite S2. f_equal. unfold swp. destruct (Nat.eqb_spec r i), (Nat.eqb_spec r p); lia.
    - apply S3; lia. }
  assert (Eg : forall r, (i < r)%nat -> (r < n)%nat -> rowv n q (eff (S i) A') (bval b') x t r =
     rowv n q (eff i A) (bval b) x t (swp i p r) - mel A (swp i p r) i * rowv n q (eff (S i) A') (bval b') x t i).
  { intros r Hr Hrn. rewrite <- (rowv_same n q (eff i A) (bval b) (fun u => eff i A (swp i p u)) (fun u => bval b (swp i p u)) x t (swp i p r) r) by reflexivity.
    apply rowv_sub; [|intros k Hk; apply S8; assumption]. intros c Hc. pose proof (Hge r ltac:(lia)).
    unfold eff. destruct (Nat.ltb_spec c (S i)), (Nat.ltb_spec c i); try lia.
    - destruct (Nat.eqb_spec r c), (Nat.ltb_spec c r), (Nat.eqb_spec (swp i p r) c), (Nat.ltb_spec c (swp i p r)), (Nat.eqb_spec i c), (Nat.ltb_spec c i); try lia. ring.
    - replace c with i by lia. rewrite Nat.eqb_refl. destruct (Nat.eqb_spec r i), (Nat.ltb_spec i r); try lia. ring.
    - apply S5; lia. }
  split; intros H.
  - assert (Hpz : rowv n q (eff i A) (bval b) x t p = 0).
    { pose proof (H i Hi) as E. rewrite Ei in E. apply mul_zero in E. destruct E; [contradiction|assumption]. }
    intros r Hr. destruct (lt_dec r i) as [Hl|Hl]; [rewrite <- El by exact Hl; apply H; exact Hr|].
    destruct (Nat.eq_dec (swp i p r) i) as [Es|Es].
    + assert (r = p) as ->; [|exact Hpz]. rewrite <- (swp_inv i p r), Es. unfold swp. rewrite Nat.eqb_refl. reflexivity.
    + pose proof (Hge r ltac:(lia)) as Hg. pose proof (swp_lt i p r n Hi ltac:(lia) Hr) as Hl2.
      pose proof (Eg (swp i p r) ltac:(lia) Hl2) as E. rewrite swp_inv in E. rewrite (H i Hi), (H _ Hl2) in E.
      transitivity (rowv n q (eff i A) (bval b) x t r - mel A r i * 0); [ring|symmetry; exact E].
  - assert (Hiz : rowv n q (eff (S i) A') (bval b') x t i = 0) by (rewrite Ei, H by lia; ring).
    intros r Hr. destruct (lt_dec r i) as [Hl|Hl]; [rewrite El by exact Hl; apply H; exact Hr|].
    destruct (Nat.eq_dec r i) as [->|]; [exact Hiz|]. rewrite Eg by lia. rewrite Hiz, H by (apply swp_lt; lia). ring.
Qed.

(** the whole elimination: it ends with a unit upper triangular system equivalent to the first, or
    meets a zero pivot, and then the first matrix is singular *)
Lemma ge_elim_ok (A0 : mat F) b0 : mrows A0 = n -> mcols A0 = n -> bok b0 ->
  (exists A b, ge_elim bswap bscale bsub n A0 b0 = Ok (A, b) /\ mrows A = n /\ mcols A = n /\ bok b /\
    forall x t, (forall r, (r < n)%nat -> rowv n q (eff n A) (bval b) x t r = 0) <-> (forall r, (r < n)%nat -> rowv n q (mel A0) (bval b0) x t r = 0)) \/
  (ge_elim bswap bscale bsub n A0 b0 = NonFinite /\ ~ nonsingular n (mel A0)).
Proof.
  intros HR HC HB. unfold ge_elim, for_. rewrite Nat.sub_0_r.
  set (inv := fun i (s : mat F * B) => mrows (fst s) = n /\ mcols (fst s) = n /\ bok (snd s) /\
    forall x t, (forall r, (r < n)%nat -> rowv n q (eff i (fst s)) (bval (snd s)) x t r = 0) <-> (forall r, (r < n)%nat -> rowv n q (mel A0) (bval b0) x t r = 0)).
  assert (G : forall k i s, (i + k = n)%nat -> inv i s ->
     (exists s', for_up k i (ge_step bswap bscale bsub n) s = Ok s' /\ inv n s') \/ (for_up k i (ge_step bswap bscale bsub n) s = NonFinite /\ ~ nonsingular n (mel A0))).
  { induction k as [|k IH]; intros i s Hk Hs.
    - left. exists s. split; [reflexivity|]. replace n with i by lia. exact Hs.
    - destruct s as [A b]. destruct Hs as (R & C & O & E). cbn [fst snd] in *. destruct (ge_step_ok A b i) as (p & Hp & Hm & Hz & Hn); [lia|assumption..|].
      cbn [for_up]. destruct (eq_dec (mel A p i) 0) as [Z|Z].
      + right. rewrite Hz by exact Z. split; [reflexivity|]. intros NS.
        assert (Hcol : forall r, (i <= r < n)%nat -> mel A r i = 0) by (intros r Hr; apply (pivot_zero _ (mel A p i)); [apply Hm; exact Hr|exact Z]).
        destruct (upper_solve i (eff i A) (fun r => - eff i A r i)) as [y Hy].
        { intros r c H1 H2 H3. unfold eff. destruct (Nat.ltb_spec c i); [|lia]. destruct (Nat.eqb_spec r c); [reflexivity|]. destruct (Nat.ltb_spec c r); [reflexivity|lia]. }
        set (x := fun c => if (c <? i)%nat then y c else if (c =? i)%nat then 1 else 0).
        assert (Hx : forall r, (r < n)%nat -> rowv n q (mel A0) (bval b0) x (fun _ => 0) r = 0).
        { apply E. intros r Hr. unfold rowv. rewrite (sum_zero q) by (intros; ring).
          replace n with (i + (S k))%nat by lia. rewrite sum_split, sum_first.
          rewrite (sum_zero k) by (intros c Hc; unfold x; destruct (Nat.ltb_spec (i + S c) i), (Nat.eqb_spec (i + S c) i); try lia; ring).
          rewrite Nat.add_0_r. unfold x at 2. rewrite Nat.ltb_irrefl, Nat.eqb_refl.
          rewrite (sum_ext i _ (fun c => eff i A r c * y c)) by (intros c Hc; unfold x; destruct (Nat.ltb_spec c i); [reflexivity|lia]).
          destruct (lt_dec r i) as [Hl|Hl].
          - rewrite Hy by exact Hl. ring.
          - rewrite sum_zero.
            + unfold eff. rewrite Nat.ltb_irrefl. rewrite Hcol by lia. ring.
            + intros c Hc. unfold eff. destruct (Nat.ltb_spec c i), (Nat.eqb_spec r c), (Nat.ltb_spec c r); try lia. ring. }
        assert (X : x i = 0).
        { apply NS; [|lia]. intros r Hr. pose proof (Hx r Hr) as E2. unfold rowv in E2. rewrite (sum_zero q) in E2 by (intros; ring).
          rewrite <- E2. ring. }
        unfold x in X. rewrite Nat.ltb_irrefl, Nat.eqb_refl in X. exact (one_neq_zero X).
      + destruct Hn as (A' & b' & E' & O' & S'); [exact Z|]. rewrite E'. cbn [bind]. apply IH; [lia|]. cbn [fst snd]. unfold inv. cbn [fst snd].
        split; [destruct S' as (-> & _); exact R|]. split; [destruct S' as (_ & -> & _); exact C|]. split; [exact O'|].
        intros x t. rewrite (step_equiv A A' b b' i p x t) by (try assumption; lia). apply E. }
  destruct (G n O (A0, b0)) as [(s & Es & Hs)|Hn]; [lia| | |right; exact Hn].
  - unfold inv. cbn [fst snd]. split; [exact HR|]. split; [exact HC|]. split; [exact HB|]. intros x t.
    split; intros H r Hr; rewrite <- (H r Hr); apply rowv_same; reflexivity.
  - left. destruct s as [A b]. exists A, b. split; [exact Es|]. exact Hs.
Qed.
Lemma eff_upper A : unit_upper n (eff n A).
Proof. intros r c Hr Hc Hcr. unfold eff. destruct (Nat.ltb_spec c n), (Nat.eqb_spec r c), (Nat.ltb_spec c r); try lia; reflexivity. Qed.
End B.

(** ** the two right-hand sides *)
Lemma v_swap n (b : vec F) i p : vlen b = n -> (i < n)%nat -> (p < n)%nat -> i <> p ->
  exists b', vswap b i p = Ok b' /\ vlen b' = n /\ forall r k, (r < n)%nat -> (k < 1)%nat -> vat b' r = vat b (swp i p r).
Proof.
  intros Hb Hi Hp Hip. unfold vswap. rewrite !vget_ok by lia. cbn [bind]. rewrite vset_ok by lia. cbn [bind]. rewrite vset_ok by (cbn [vlen]; lia).
  eexists. split; [reflexivity|]. cbn [vlen vat]. split; [exact Hb|]. intros r _ _ _. unfold swp.
  destruct (Nat.eqb_spec r p), (Nat.eqb_spec r i); subst; try lia; reflexivity.
Qed.
Lemma v_scale n (b : vec F) i f : vlen b = n -> (i < n)%nat ->
  exists b', vb_scale b i f = Ok b' /\ vlen b' = n /\ forall r k, (r < n)%nat -> (k < 1)%nat -> vat b' r = if (r =? i)%nat then vat b i * f else vat b r.
Proof. intros Hb Hi. unfold vb_scale. rewrite vget_ok by lia. cbn [bind]. rewrite vset_ok by lia. eexists. split; [reflexivity|]. split; [exact Hb|]. reflexivity. Qed.
Lemma v_sub n (b : vec F) u i f : vlen b = n -> (i < n)%nat -> (u < n)%nat -> u <> i ->
  exists b', vb_sub b u i f = Ok b' /\ vlen b' = n /\ forall r k, (r < n)%nat -> (k < 1)%nat -> vat b' r = if (r =? u)%nat then vat b u - f * vat b i else vat b r.
Proof. intros Hb Hi Hu Hui. unfold vb_sub. rewrite !vget_ok by lia. cbn [bind]. rewrite vset_ok by lia. eexists. split; [reflexivity|]. split; [exact Hb|]. reflexivity. Qed.
Lemma m_swap n q (b : mat F) i p : mrows b = n /\ mcols b = q -> (i < n)%nat -> (p < n)%nat -> i <> p ->
  exists b', mb_swap b i p = Ok b' /\ (mrows b' = n /\ mcols b' = q) /\ forall r k, (r < n)%nat -> (k < q)%nat -> mel b' r k = mel b (swp i p r) k.
Proof.
  intros [Hr Hc] Hi Hp Hip. unfold mb_swap. destruct (row_swap 0 (mcols b) i p (fun j b => mswap b i p j) b) as (b' & E & R & C & V); [lia..|reflexivity|].
  exists b'. split; [exact E|]. split; [lia|]. intros r k Hrn Hk. rewrite V. destruct (Nat.leb_spec 0 k), (Nat.ltb_spec k (mcols b)); try lia. reflexivity.
Qed.
Lemma m_scale n q (b : mat F) i f : mrows b = n /\ mcols b = q -> (i < n)%nat ->
  exists b', mb_scale b i f = Ok b' /\ (mrows b' = n /\ mcols b' = q) /\ forall r k, (r < n)%nat -> (k < q)%nat -> mel b' r k = if (r =? i)%nat then mel b i k * f else mel b r k.
Proof.
  intros [Hr Hc] Hi. unfold mb_scale. destruct (row_loop 0 (mcols b) i (fun j b => x <- mget b i j ;; mset b i j (x * f)) b (fun j => mel b i j * f)) as (b' & E & R & C & V); [lia..| |].
  { intros j m' Hj Rm Cm Hm'. rewrite mget_ok by lia. cbn [bind]. rewrite Hm' by lia. reflexivity. }
  exists b'. split; [exact E|]. split; [lia|]. intros r k Hrn Hk. rewrite V. destruct (Nat.leb_spec 0 k), (Nat.ltb_spec k (mcols b)); try lia. rewrite andb_true_r. reflexivity.
Qed.
Lemma m_sub n q (b : mat F) u i f : mrows b = n /\ mcols b = q -> (i < n)%nat -> (u < n)%nat -> u <> i ->
  exists b', mb_sub b u i f = Ok b' /\ (mrows b' = n /\ mcols b' = q) /\ forall r k, (r < n)%nat -> (k < q)%nat -> mel b' r k = if (r =? u)%nat then mel b u k - f * mel b i k else mel b r k.
Proof.
  intros [Hr Hc] Hi Hu Hui. unfold mb_sub.
  destruct (row_loop 0 (mcols b) u (fun j b => x <- mget b u j ;; y <- mget b i j ;; mset b u j (x - f * y)) b (fun j => mel b u j - f * mel b i j)) as (b' & E & R & C & V); [lia..| |].
  { intros j m' Hj Rm Cm Hm'. rewrite !mget_ok by lia. cbn [bind]. rewrite !Hm' by lia. reflexivity. }
  exists b'. split; [exact E|]. split; [lia|]. intros r k Hrn Hk. rewrite V. destruct (Nat.leb_spec 0 k), (Nat.ltb_spec k (mcols b)); try lia. rewrite andb_true_r. reflexivity.
Qed.

(** ** Back substitution *)
Lemma backsub_vec_ok n (A : mat F) (b : vec F) : mrows A = n -> mcols A = n -> vlen b = n ->
  exists x, backsub_vec n A b = Ok x /\ vlen x = n /\ solves n (eff n A) (vat x) (vat b).
Proof.
  intros HR HC HB. unfold backsub_vec. apply wp_ok_inv.
  eapply wp_mono; [apply (wp_for_down (fun k x => vlen x = n /\ forall r, (k <= r < n)%nat ->
     vat x r + sum (n - S r) (fun j => mel A r (S r + j)%nat * vat x (S r + j)%nat) = vat b r))|].
  - lia.
  - split; [reflexivity|]. lia.
  - intros i x Hi (Hl & Hx). rewrite vget_ok by lia. cbn [bind]. rewrite vset_ok by lia. cbn [bind].
    eapply wp_mono; [apply (wp_for (fun k y => vlen y = n /\ (forall c, c <> i -> vat y c = vat x c) /\
       vat y i + sum (k - S i) (fun j => mel A i (S i + j)%nat * vat x (S i + j)%nat) = vat b i))|].
    + lia.
    + cbn [vlen vat]. split; [exact Hl|]. split; [intros c Hc; destruct (Nat.eqb_spec c i); [lia|reflexivity]|].
      rewrite Nat.eqb_refl, Nat.sub_diag. cbn [sum]. ring.
    + intros j y Hj (H1 & H2 & H3). rewrite mget_ok by lia. cbn [bind]. rewrite !vget_ok by lia. cbn [bind]. rewrite vset_ok by lia. cbn [wp vlen vat].
      split; [exact H1|]. split; [intros c Hc; destruct (Nat.eqb_spec c i); [lia|apply H2; exact Hc]|].
      rewrite Nat.eqb_refl. replace (S j - S i)%nat with (S (j - S i)) by lia. cbn [sum]. replace (S i + (j - S i))%nat with j by lia.
      rewrite <- H3. rewrite (H2 j) by lia. ring.
    + intros y (H1 & H2 & H3). split; [exact H1|]. intros r Hr. destruct (Nat.eq_dec r i) as [->|].
      * rewrite <- H3. f_equal. apply sum_ext. intros j Hj. rewrite H2 by lia. reflexivity.
      * rewrite <- Hx by lia. rewrite H2 by lia. f_equal. apply sum_ext. intros j Hj. rewrite H2 by lia. reflexivity.
  - intros x (Hl & Hx). split; [exact Hl|]. intros r Hr. rewrite (sum_upper n) by (apply eff_upper || exact Hr).
    rewrite <- Hx by lia. f_equal. apply sum_ext. intros j Hj. unfold eff.
    destruct (Nat.ltb_spec (S r + j) n), (Nat.eqb_spec r (S r + j)), (Nat.ltb_spec (S r + j) r); try lia. reflexivity.
Qed.
Lemma backsub_mat_ok n q (A b : mat F) : mrows A = n -> mcols A = n -> mrows b = n -> mcols b = q ->
  exists x, backsub_mat n A b = Ok x /\ mrows x = n /\ mcols x = q /\ forall k, (k < q)%nat -> solves n (eff n A) (fun r => mel x r k) (fun r => mel b r k).
Proof.
  intros HR HC HB1 HB2. unfold backsub_mat. apply wp_ok_inv. rewrite HB1, HB2.
  eapply wp_mono; [apply (wp_for_down (fun k x => mrows x = n /\ mcols x = q /\ forall r c, (k <= r < n)%nat -> (c < q)%nat ->
     mel x r c + sum (n - S r) (fun j => mel A r (S r + j)%nat * mel x (S r + j)%nat c) = mel b r c))|].
  - lia.
  - split; [reflexivity|]. split; [reflexivity|]. lia.
  - intros i x Hi (Hl1 & Hl2 & Hx).
    eapply wp_mono; [apply (wp_for (fun kc y => mrows y = n /\ mcols y = q /\ (forall r c, r <> i -> mel y r c = mel x r c) /\
       forall c, (c < kc)%nat -> mel y i c + sum (n - S i) (fun j => mel A i (S i + j)%nat * mel x (S i + j)%nat c) = mel b i c))|].
    + lia.
    + split; [exact Hl1|]. split; [exact Hl2|]. split; [reflexivity|]. lia.
    + intros kc y Hkc (Y1 & Y2 & Y3 & Y4). rewrite mget_ok by lia. cbn [bind]. rewrite mset_ok by lia. cbn [bind].
      eapply wp_mono; [apply (wp_for (fun k z => mrows z = n /\ mcols z = q /\ (forall r c, r <> i -> mel z r c = mel x r c) /\
        (forall c, c <> kc -> mel z i c = mel y i c) /\
        mel z i kc + sum (k - S i) (fun j => mel A i (S i + j)%nat * mel x (S i + j)%nat kc) = mel b i kc))|].
      * lia.
      * cbn [mrows mcols mel]. split; [exact Y1|]. split; [exact Y2|]. split; [|split].
        -- intros r c Hr. destruct (Nat.eqb_spec r i); [lia|]. apply Y3. exact Hr.
        -- intros c Hc. destruct (Nat.eqb_spec c kc); [lia|]. rewrite andb_false_r. reflexivity.
        -- rewrite !Nat.eqb_refl, Nat.sub_diag. cbn [sum andb]. ring.
      * intros j z Hj (H1 & H2 & H3 & H4 & H5). rewrite !mget_ok by lia. cbn [bind]. rewrite mset_ok by lia. cbn [wp mrows mcols mel].
        split; [exact H1|]. split; [exact H2|]. split; [|split].
        -- intros r c Hr. destruct (Nat.eqb_spec r i); [lia|]. apply H3. exact Hr.
        -- intros c Hc. destruct (Nat.eqb_spec c kc); [lia|]. rewrite andb_false_r. apply H4. exact Hc.
        -- rewrite !Nat.eqb_refl. cbn [andb]. replace (S j - S i)%nat with (S (j - S i)) by lia. cbn [sum]. replace (S i + (j - S i))%nat with j by lia.
           rewrite <- H5. rewrite (H3 j) by lia. ring.
      * intros z (H1 & H2 & H3 & H4 & H5). split; [exact H1|]. split; [exact H2|]. split; [exact H3|].
        intros c Hc. destruct (Nat.eq_dec c kc) as [->|]; [exact H5|]. rewrite H4 by assumption. apply Y4. lia.
    + intros y (Y1 & Y2 & Y3 & Y4). split; [exact Y1|]. split; [exact Y2|]. intros r c Hr Hc. destruct (Nat.eq_dec r i) as [->|].
      * rewrite <- Y4 by exact Hc. f_equal. apply sum_ext. intros j Hj. rewrite Y3 by lia. reflexivity.
      * rewrite <- Hx by lia. rewrite Y3 by lia. f_equal. apply sum_ext. intros j Hj. rewrite Y3 by lia. reflexivity.
  - intros x (Hl & Hl2 & Hx). split; [exact Hl|]. split; [exact Hl2|]. intros k Hk r Hr. rewrite (sum_upper n) by (apply eff_upper || exact Hr).
    rewrite <- Hx by lia. f_equal. apply sum_ext. intros j Hj. unfold eff.
    destruct (Nat.ltb_spec (S r + j) n), (Nat.eqb_spec r (S r + j)), (Nat.ltb_spec (S r + j) r); try lia. reflexivity.
Qed.

Lemma solves_unique n a (x y b : nat -> F) : nonsingular n a -> solves n a x b -> solves n a y b -> forall c, (c < n)%nat -> x c = y c.
Proof.
  intros NS Hx Hy c Hc. apply sub_zero. apply (NS (fun c => x c - y c)); [|exact Hc]. intros r Hr.
  rewrite (sum_ext n _ (fun c => a r c * x c - a r c * y c)) by (intros; ring). rewrite sum_sub, Hx, Hy by exact Hr. ring.
Qed.
(** an equivalent unit upper triangular system: the matrix is nonsingular *)
Lemma equiv_nonsingular n q a0 b0 a b : unit_upper n a ->
  (forall x t, (forall r, (r < n)%nat -> rowv n q a b x t r = 0) <-> (forall r, (r < n)%nat -> rowv n q a0 b0 x t r = 0)) -> nonsingular n a0.
Proof.
  intros Hu HE x Hx. assert (Z : forall t r, (forall k, (k < q)%nat -> t k = 0) -> rowv n q a0 b0 x t r = sum n (fun c => a0 r c * x c)).
  { intros t r Ht. unfold rowv. rewrite (sum_zero q) by (intros k Hk; rewrite Ht by exact Hk; ring). ring. }
  assert (H0 : forall r, (r < n)%nat -> rowv n q a0 b0 x (fun _ => 0) r = 0) by (intros r Hr; rewrite Z by reflexivity; apply Hx; exact Hr).
  rewrite <- HE in H0. intros c Hc. apply (upper_unique n a x (fun _ => 0) Hu); [|exact Hc].
  intros r Hr. rewrite (sum_zero n (fun c => a r c * 0)) by (intros; ring). pose proof (H0 r Hr) as E. unfold rowv in E.
  rewrite (sum_zero q) in E by (intros; ring). rewrite <- E. ring.
Qed.

Lemma gaussian_elimination_ok n (A : mat F) (b : vec F) : mrows A = n -> mcols A = n -> vlen b = n ->
  (nonsingular n (mel A) /\ exists x, gaussian_elimination A b = Ok x /\ vlen x = n /\ solves n (mel A) (vat x) (vat b)) \/
  (~ nonsingular n (mel A) /\ gaussian_elimination A b = NonFinite).
Proof.
  intros HR HC HB. unfold gaussian_elimination. rewrite HB.
  destruct (ge_elim_ok vswap vb_scale vb_sub (fun b r k => vat b r) (fun b => vlen b = n) n 1 (fun b i p => v_swap n b i p) (fun b i f => v_scale n b i f) (fun b u i f => v_sub n b u i f) A b HR HC HB)
    as [(A' & b' & E & R & C & O & H)|[E NS]]; rewrite E; cbn [bind]; [left|right; split; [exact NS|reflexivity]].
  split; [apply (equiv_nonsingular n 1 _ _ _ _ (eff_upper n A') H)|].
  destruct (backsub_vec_ok n A' b' R C O) as (x & Ex & Lx & Sx). exists x. split; [exact Ex|]. split; [exact Lx|].
  intros r Hr. assert (G : rowv n 1 (mel A) (fun r _ => vat b r) (vat x) (fun _ => 1) r = 0).
  { apply (H (vat x) (fun _ => 1)); [|exact Hr]. intros u Hu. unfold rowv. rewrite Sx by exact Hu. cbn [sum]. ring. }
  unfold rowv in G. cbn [sum] in G. apply sub_zero. rewrite <- G. ring.
Qed.
Lemma gaussian_elimination_mat_ok n q (A b : mat F) : mrows A = n -> mcols A = n -> mrows b = n -> mcols b = q ->
  (nonsingular n (mel A) /\ exists x, gaussian_elimination_mat A b = Ok x /\ mrows x = n /\ mcols x = q /\
      forall k, (k < q)%nat -> solves n (mel A) (fun r => mel x r k) (fun r => mel b r k)) \/
  (~ nonsingular n (mel A) /\ gaussian_elimination_mat A b = NonFinite).
Proof.
  intros HR HC HB HQ. unfold gaussian_elimination_mat. rewrite HR, HC, HB. rewrite !same_size_ok. cbn [bind].
  destruct (ge_elim_ok mb_swap mb_scale mb_sub mel (fun b => mrows b = n /\ mcols b = q) n q (fun b i p => m_swap n q b i p) (fun b i f => m_scale n q b i f) (fun b u i f => m_sub n q b u i f) A b HR HC (conj HB HQ))
    as [(A' & b' & E & R & C & O & H)|[E NS]]; rewrite E; cbn [bind]; [left|right; split; [exact NS|reflexivity]].
  split; [apply (equiv_nonsingular n q _ _ _ _ (eff_upper n A') H)|].
  destruct (backsub_mat_ok n q A' b' R C (proj1 O) (proj2 O)) as (x & Ex & Lx & Cx & Sx). exists x. split; [exact Ex|]. split; [exact Lx|]. split; [exact Cx|].
  intros k Hk r Hr. assert (G : rowv n q (mel A) (mel b) (fun r => mel x r k) (fun j => if (j =? k)%nat then 1 else 0) r = 0).
  { apply (H (fun r => mel x r k)); [|exact Hr]. intros u Hu. unfold rowv. rewrite Sx by assumption.
    rewrite (sum_one q k) by (first [exact Hk|intros j Hj Hjk; destruct (Nat.eqb_spec j k); [lia|ring]]). rewrite Nat.eqb_refl. ring. }
  unfold rowv in G. rewrite (sum_one q k) in G by (first [exact Hk|intros j Hj Hjk; destruct (Nat.eqb_spec j k); [lia|ring]]). rewrite Nat.eqb_refl in G.
  apply sub_zero. rewrite <- G. ring.
Qed.
End L.
