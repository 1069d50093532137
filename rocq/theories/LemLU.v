(** * Lemmas for LU. *)
From Coq Require Import Arith Bool Lia Field.
From Verif Require Import Base Alg Mat SpecMat LemMat ModelOps LemOps LemHelpers LemChol SpecLin LemLin LemDet LemDetMore LemDetMul ModelLU SpecLU.
Open Scope outcome_scope.

Section L.
Context {F : Type} {Fo : Ops F} {Fl : Laws F}.
Open Scope F_scope.
Add Field Ff : law_field.

Lemma acc_sub lo hi (g : nat -> outcome F) (h : nat -> F) x : (lo <= hi)%nat -> (forall k, (lo <= k < hi)%nat -> g k = Ok (h k)) ->
  for_ lo hi (fun k acc => t <- g k ;; Ok (acc - t)) x = Ok (x - sum (hi - lo) (fun k => h (lo + k)%nat)).
Proof.
  intros H Hg. apply wp_eq. eapply wp_mono; [apply (wp_for (fun k a => a = x - sum (k - lo) (fun k => h (lo + k)%nat)))|].
  - exact H.
  - rewrite Nat.sub_diag. cbn [sum]. ring.
  - intros k a Hk ->. rewrite Hg by exact Hk. cbn [bind wp]. replace (S k - lo)%nat with (S (k - lo)) by lia. cbn [sum]. replace (lo + (k - lo))%nat with k by lia. ring.
  - intros a ->. reflexivity.
Qed.
Lemma trsm_inner lo hi (m : mat F) i (y : vec F) x : (lo <= hi)%nat -> (i < mrows m)%nat -> (hi <= mcols m)%nat -> (hi <= vlen y)%nat ->
  for_ lo hi (fun k acc => a <- mget m i k ;; z <- vget y k ;; Ok (acc - a * z)) x = Ok (x - sum (hi - lo) (fun k => mel m i (lo + k)%nat * vat y (lo + k)%nat)).
Proof.
  intros H Hi Hc Hy. rewrite <- (acc_sub lo hi (fun k => Ok (mel m i k * vat y k)) (fun k => mel m i k * vat y k) x H) by reflexivity.
  apply for_ext. intros k a Hk. rewrite mget_ok, vget_ok by lia. reflexivity.
Qed.
Lemma trsm_upper_ok n (m : mat F) (b : vec F) : mrows m = n -> mcols m = n -> vlen b = n -> (forall i, (i < n)%nat -> mel m i i <> 0) ->
  exists y, trsm_upper m b = Ok y /\ vlen y = n /\ forall i, (i < n)%nat -> sum n (fun k => lower (mel m) i k * vat y k) = vat b i.
Proof.
  intros H1 H2 Hb Hd. apply wp_ok_inv. unfold trsm_upper. rewrite H1.
  eapply wp_mono; [apply (wp_for (fun i y => vlen y = n /\ (forall k, (i <= k < n)%nat -> vat y k = vat b k) /\ forall k, (k < i)%nat -> sum (S k) (fun j => mel m k j * vat y j) = vat b k))|].
  - lia.
  - split; [exact Hb|]. split; [reflexivity|lia].
  - intros i y Hi (Y1 & Y2 & Y3). rewrite vget_ok by lia. cbn [bind]. rewrite trsm_inner by lia. cbn [bind]. rewrite mget_ok by lia. cbn [bind].
    rewrite div_ok by (apply Hd; lia). cbn [bind]. rewrite vset_ok by lia. cbn [wp vlen vat]. split; [exact Y1|]. split.
    + intros k Hk. destruct (Nat.eqb_spec k i); [lia|]. apply Y2. lia.
    + intros k Hk. cbn [sum]. assert (E : sum k (fun j => mel m k j * (if j =? i then (vat y i - sum (i - 0) (fun k0 => mel m i (0 + k0)%nat * vat y (0 + k0)%nat)) / mel m i i else vat y j)) = sum k (fun j => mel m k j * vat y j)).
      { apply sum_ext. intros j Hj. destruct (Nat.eqb_spec j i); [lia|]. reflexivity. }
      rewrite E. destruct (Nat.eqb_spec k i) as [->|Nk].
      * rewrite Nat.sub_0_r. cbn [Nat.add]. rewrite Y2 by lia. field. apply Hd. lia.
      * rewrite <- (Y3 k) by lia. reflexivity.
  - intros y (Y1 & _ & Y3). split; [exact Y1|]. intros i Hi. rewrite <- (Y3 i Hi).
    replace n with (S i + (n - S i))%nat by lia. rewrite sum_split. rewrite (sum_zero (n - S i)).
    + rewrite (sum_ext (S i) (fun k => lower (mel m) i k * vat y k) (fun j => mel m i j * vat y j)); [ring|]. intros k Hk. unfold lower. destruct (Nat.leb_spec k i); [reflexivity|lia].
    + intros k Hk. unfold lower. destruct (Nat.leb_spec (S i + k) i); [lia|]. ring.
Qed.
Lemma trsm_upper_bad n (m : mat F) (b : vec F) i : mrows m = n -> mcols m = n -> vlen b = n -> (i < n)%nat -> mel m i i = 0 -> (forall k, (k < i)%nat -> mel m k k <> 0) ->
  trsm_upper m b = NonFinite.
Proof.
  intros H1 H2 Hb Hi Z Nz. unfold trsm_upper. rewrite H1.
  set (body := fun i y => acc <- (x <- vget y i ;; for_ 0 i (fun k acc => a <- mget m i k ;; z <- vget y k ;; Ok (acc - a * z)) x) ;; d <- mget m i i ;; q <- div acc d ;; vset y i q).
  assert (G : forall k lo (y : vec F), (lo + k = i)%nat -> vlen y = n -> for_ lo n body y = NonFinite).
  { induction k as [|k IH]; intros lo y Hk Hy; rewrite for_step by lia; unfold body at 1; rewrite vget_ok by lia; cbn [bind]; rewrite trsm_inner by lia; cbn [bind]; rewrite mget_ok by lia; cbn [bind].
    - replace lo with i by lia. rewrite Z. unfold div. assert (E : feqb (0 : F) 0 = true) by (apply law_eqb; reflexivity). rewrite E. reflexivity.
    - rewrite div_ok by (apply Nz; lia). cbn [bind]. rewrite vset_ok by lia. cbn [bind]. apply IH; [lia|exact Hy]. }
  apply (G i 0%nat); [lia|exact Hb].
Qed.
Lemma trsm_unit_lower_ok n (m : mat F) (b : vec F) : mrows m = n -> mcols m = n -> vlen b = n ->
  exists z, trsm_unit_lower m b = Ok z /\ vlen z = n /\ forall i, (i < n)%nat -> sum n (fun k => unit_upper (mel m) i k * vat z k) = vat b i.
Proof.
  intros H1 H2 Hb. apply wp_ok_inv. unfold trsm_unit_lower. rewrite H1.
  eapply wp_mono; [apply (wp_for_down (fun i y => vlen y = n /\ (forall k, (k < i)%nat -> vat y k = vat b k) /\ forall k, (i <= k < n)%nat -> vat y k + sum (n - (k + 1)) (fun j => mel m k (k + 1 + j)%nat * vat y (k + 1 + j)%nat) = vat b k))|].
  - lia.
  - split; [exact Hb|]. split; [reflexivity|lia].
  - intros i y Hi (Y1 & Y2 & Y3). rewrite vget_ok by lia. cbn [bind]. rewrite trsm_inner by lia. cbn [bind]. rewrite vset_ok by lia. cbn [wp vlen vat]. split; [exact Y1|]. split.
    + intros k Hk. destruct (Nat.eqb_spec k i); [lia|]. apply Y2. lia.
    + intros k Hk. set (v := vat y i - _).
      assert (E : forall w, sum (n - (k + 1)) (fun j => mel m k (k + 1 + j)%nat * (if (k + 1 + j =? i)%nat then w else vat y (k + 1 + j)%nat)) = sum (n - (k + 1)) (fun j => mel m k (k + 1 + j)%nat * vat y (k + 1 + j)%nat)).
      { intros w. apply sum_ext. intros j Hj. destruct (Nat.eqb_spec (k + 1 + j) i); [lia|]. reflexivity. }
      rewrite E. destruct (Nat.eqb_spec k i) as [->|Nk].
      * unfold v. rewrite Y2 by lia. ring.
      * apply Y3. lia.
  - intros z (Y1 & _ & Y3). split; [exact Y1|]. intros i Hi. rewrite <- (Y3 i) by lia.
    replace n with ((i + 1) + (n - (i + 1)))%nat at 1 by lia. rewrite sum_split. f_equal.
    + replace (i + 1)%nat with (S i) by lia. cbn [sum]. rewrite (sum_zero i).
      * unfold unit_upper. rewrite Nat.ltb_irrefl, Nat.eqb_refl. ring.
      * intros k Hk. unfold unit_upper. destruct (Nat.ltb_spec i k), (Nat.eqb_spec i k); try lia. ring.
    + apply sum_ext. intros k Hk. unfold unit_upper. destruct (Nat.ltb_spec i (i + 1 + k)); [reflexivity|lia].
Qed.
(** ** interchanges *)
Lemma exchange_sum n i s (f z : nat -> F) : (i < n)%nat -> (s < n)%nat -> sum n (fun k => f k * exchange i s z k) = sum n (fun k => exchange i s f k * z k).
Proof.
  intros Hi Hs. destruct (Nat.eq_dec i s) as [<-|Ns].
  { apply sum_ext. intros k Hk. unfold exchange. destruct (Nat.eqb_spec k i); [subst; ring|ring]. }
  assert (G : forall a b : nat -> F, sum n (fun k => a k * exchange i s b k) = sum n (fun k => a k * b k) + (b s - b i) * (a i - a s)).
  { intros a b. rewrite (sum_ext n _ (fun k => a k * b k + ((b s - b i) * a k * delta k i - (b s - b i) * a k * delta k s))).
    2:{ intros k Hk. unfold exchange, delta. destruct (Nat.eqb_spec k i) as [E1|E1], (Nat.eqb_spec k s) as [E2|E2]; try lia; [rewrite E1|rewrite E2|]; ring. }
    rewrite sum_add, sum_sub, !sum_delta_r by auto. ring. }
  rewrite G. rewrite (sum_ext n (fun k => exchange i s f k * z k) (fun k => z k * exchange i s f k)) by (intros; ring). rewrite G.
  rewrite (sum_ext n (fun k => z k * f k) (fun k => f k * z k)) by (intros; ring). ring.
Qed.
Fixpoint undo {X} (piv : nat -> nat) (n : nat) (f : nat -> X) : nat -> X :=
  match n with O => f | S k => undo piv k (exchange k (piv k) f) end.
Lemma undo_sum n piv : forall m (f z : nat -> F), (m <= n)%nat -> (forall i, (i < m)%nat -> (piv i < n)%nat) ->
  sum n (fun k => f k * undo piv m z k) = sum n (fun k => interchanged piv m f k * z k).
Proof.
  induction m as [|m IH]; intros f z Hm Hp; [reflexivity|]. cbn [undo interchanged]. rewrite IH by (intros; try apply Hp; lia).
  apply exchange_sum; [lia|apply Hp; lia].
Qed.
Lemma exchange_ext {X} n i s (f g : nat -> X) : (i < n)%nat -> (s < n)%nat -> (forall k, (k < n)%nat -> f k = g k) -> forall k, (k < n)%nat -> exchange i s f k = exchange i s g k.
Proof. intros Hi Hs H k Hk. unfold exchange. destruct (k =? i); [apply H; auto|]. destruct (k =? s); apply H; auto. Qed.
Lemma undo_ext {X} n piv : forall m (f g : nat -> X), (m <= n)%nat -> (forall i, (i < m)%nat -> (piv i < n)%nat) -> (forall k, (k < n)%nat -> f k = g k) -> forall k, (k < n)%nat -> undo piv m f k = undo piv m g k.
Proof.
  induction m as [|m IH]; intros f g Hm Hp H k Hk; [apply H; auto|]. cbn [undo]. apply IH; [lia|intros; apply Hp; lia| |exact Hk].
  apply exchange_ext; [lia|apply Hp; lia|exact H].
Qed.
Lemma swap_rows_vec_ok n (L : lu F) (z : vec F) : mrows (lu_m L) = n -> (forall i, (i < n)%nat -> (i <= lu_piv L i < n)%nat) -> vlen z = n ->
  gives_vec (swap_rows_vec L z) n (undo (lu_piv L) n (vat z)).
Proof.
  intros H1 Hp Hz. apply wp_ok_inv. unfold swap_rows_vec. rewrite H1.
  eapply wp_mono; [apply (wp_for_down (fun i x => vlen x = n /\ forall k, (k < n)%nat -> undo (lu_piv L) i (vat x) k = undo (lu_piv L) n (vat z) k))|].
  - lia.
  - split; [exact Hz|reflexivity].
  - intros i x Hi (X1 & X2). pose proof (Hp i ltac:(lia)) as P. rewrite !vget_ok by lia. cbn [bind]. rewrite vset_ok by lia. cbn [bind]. rewrite vset_ok by (cbn [vlen]; lia). cbn [wp vlen vat].
    split; [exact X1|]. intros k Hk. rewrite <- X2 by exact Hk. cbn [undo]. apply (undo_ext n); [lia|intros; apply Hp; lia| |exact Hk].
    intros l Hl. unfold exchange. destruct (Nat.eqb_spec l (lu_piv L i)) as [E1|E1], (Nat.eqb_spec l i) as [E2|E2]; try reflexivity; try congruence.
  - intros x (X1 & X2). split; [exact X1|]. intros k Hk. exact (X2 k Hk).
Qed.
Lemma swap_rows_mat_ok n q (L : lu F) (Z : mat F) : mrows (lu_m L) = n -> (forall i, (i < n)%nat -> (i <= lu_piv L i < n)%nat) -> mrows Z = n -> mcols Z = q ->
  gives_mat (swap_rows_mat L (Some q) Z) n q (fun i j => undo (lu_piv L) n (fun r => mel Z r j) i).
Proof.
  intros H1 Hp Z1 Z2. apply wp_ok_inv. unfold swap_rows_mat. rewrite H1.
  eapply wp_mono; [apply (wp_for_down (fun i X => mrows X = n /\ mcols X = q /\ forall k j, (k < n)%nat -> (j < q)%nat -> undo (lu_piv L) i (fun r => mel X r j) k = undo (lu_piv L) n (fun r => mel Z r j) k))|].
  - lia.
  - split; [exact Z1|]. split; [exact Z2|]. reflexivity.
  - intros i X Hi (X1 & X2 & X3). pose proof (Hp i ltac:(lia)) as P.
    eapply wp_mono; [apply (wp_for (fun l Y => mrows Y = n /\ mcols Y = q /\ forall k j, (k < n)%nat -> (j < q)%nat -> mel Y k j = if j <? l then exchange i (lu_piv L i) (fun r => mel X r j) k else mel X k j))|].
    + lia.
    + split; [exact X1|]. split; [exact X2|]. intros k j Hk Hj. destruct (Nat.ltb_spec j 0); [lia|]. reflexivity.
    + intros l Y Hl (Y1 & Y2 & Y3). rewrite !mget_ok by lia. cbn [bind]. rewrite mset_ok by lia. cbn [bind]. rewrite mset_ok by (cbn [mrows mcols]; lia). cbn [wp mrows mcols mel].
      split; [exact Y1|]. split; [exact Y2|]. intros k j Hk Hj. destruct (Nat.eqb_spec j l) as [->|Nj]; rewrite ?andb_false_r, ?andb_true_r.
      * destruct (Nat.ltb_spec l (S l)); [|lia]. rewrite !Y3 by lia. destruct (Nat.ltb_spec l l); [lia|]. unfold exchange.
        destruct (Nat.eqb_spec k (lu_piv L i)) as [E|NE], (Nat.eqb_spec k i) as [E'|NE']; subst; try reflexivity. congruence.
      * rewrite Y3 by lia. destruct (Nat.ltb_spec j l), (Nat.ltb_spec j (S l)); try lia; reflexivity.
    + intros Y (Y1 & Y2 & Y3). split; [exact Y1|]. split; [exact Y2|]. intros k j Hk Hj. rewrite <- X3 by auto. cbn [undo]. apply (undo_ext n); [lia|intros; apply Hp; lia| |exact Hk].
      intros r Hr. rewrite Y3 by auto. destruct (Nat.ltb_spec j q); [|lia]. reflexivity.
  - intros X (X1 & X2 & X3). split; [exact X1|]. split; [exact X2|]. intros k j Hk Hj. exact (X3 k j Hk Hj).
Qed.
Lemma swap_rows_mat_none n (L : lu F) (Z : mat F) : mrows (lu_m L) = n -> swap_rows_mat L None Z = Ok Z.
Proof.
  intros H1. apply wp_eq. unfold swap_rows_mat. eapply wp_mono; [apply (wp_for_down (fun _ X => X = Z))|]; [lia|reflexivity| |intros a E; exact E].
  intros i X Hi ->. reflexivity.
Qed.
Lemma each_col_ok n (f : vec F -> outcome (vec F)) (M : nat -> nat -> F) (B : mat F) : mrows B = n ->
  (forall v, vlen v = n -> exists c, f v = Ok c /\ vlen c = n /\ forall i, (i < n)%nat -> sum n (fun k => M i k * vat c k) = vat v i) ->
  exists X, each_col f B = Ok X /\ mrows X = n /\ mcols X = mcols B /\ forall i j, (i < n)%nat -> (j < mcols B)%nat -> sum n (fun k => M i k * mel X k j) = mel B i j.
Proof.
  intros H1 Hf. apply wp_ok_inv. unfold each_col. set (q := mcols B).
  eapply wp_mono; [apply (wp_for (fun l X => mrows X = n /\ mcols X = q /\ (forall i j, (i < n)%nat -> (j < l)%nat -> sum n (fun k => M i k * mel X k j) = mel B i j) /\
      forall i j, (i < n)%nat -> (l <= j)%nat -> mel X i j = mel B i j))|].
  - lia.
  - split; [exact H1|]. split; [reflexivity|]. split; [lia|reflexivity].
  - intros l X Hl (X1 & X2 & X3 & X4). rewrite X1. destruct (Hf (mkvec n (fun i => mel X i l)) eq_refl) as (c & Ec & C1 & C2). rewrite Ec. cbn [bind vat] in *.
    eapply wp_mono; [apply (wp_for (fun p Y => mrows Y = n /\ mcols Y = q /\ forall i j, mel Y i j = if ((i <? p) && (j =? l))%bool then vat c i else mel X i j))|].
    + lia.
    + split; [exact X1|]. split; [exact X2|]. intros i j. destruct (Nat.ltb_spec i 0); [lia|]. reflexivity.
    + intros p Y Hpn (Y1 & Y2 & Y3). rewrite vget_ok by lia. cbn [bind]. rewrite mset_ok by lia. cbn [wp mrows mcols mel]. split; [exact Y1|]. split; [exact Y2|]. intros i j. rewrite Y3.
      destruct (Nat.eqb_spec i p) as [->|], (Nat.eqb_spec j l) as [->|]; cbn [andb]; rewrite ?andb_false_r, ?andb_true_r; try reflexivity.
      * destruct (Nat.ltb_spec p (S p)); [reflexivity|lia].
      * destruct (Nat.ltb_spec i p), (Nat.ltb_spec i (S p)); try lia; reflexivity.
    + intros Y (Y1 & Y2 & Y3). split; [exact Y1|]. split; [exact Y2|]. split.
      * intros i j Hi Hj. destruct (Nat.eq_dec j l) as [->|Nj].
        -- rewrite (sum_ext n _ (fun k => M i k * vat c k)). 2:{ intros k Hk. rewrite Y3, Nat.eqb_refl. destruct (Nat.ltb_spec k n); [reflexivity|lia]. }
           rewrite C2 by exact Hi. apply X4; [exact Hi|lia].
        -- rewrite (sum_ext n _ (fun k => M i k * mel X k j)). 2:{ intros k Hk. rewrite Y3. apply Nat.eqb_neq in Nj. rewrite Nj, andb_false_r. reflexivity. }
           apply X3; [exact Hi|lia].
      * intros i j Hi Hj. rewrite Y3. destruct (Nat.eqb_spec j l); [lia|]. rewrite andb_false_r. apply X4; [exact Hi|lia].
  - intros X (X1 & X2 & X3 & _). split; [exact X1|]. split; [exact X2|]. intros i j Hi Hj. apply X3; auto.
Qed.
(** ** the whole solution *)
Lemma solve_ok n (A : nat -> nat -> F) (L : lu F) (b y z x : nat -> F) : factorised n A L ->
  (forall i, (i < n)%nat -> sum n (fun k => lower (mel (lu_m L)) i k * y k) = b i) ->
  (forall i, (i < n)%nat -> sum n (fun k => unit_upper (mel (lu_m L)) i k * z k) = y i) ->
  (forall k, (k < n)%nat -> x k = undo (lu_piv L) n z k) -> solves n A x b.
Proof.
  intros (H1 & H2 & Hp & HF) Hy Hz Hx r Hr. rewrite (sum_ext n _ (fun c => A r c * undo (lu_piv L) n z c)) by (intros; rewrite Hx by auto; reflexivity).
  rewrite undo_sum by (intros; try apply Hp; lia). rewrite (sum_ext n _ (fun c => sum n (fun k => lower (mel (lu_m L)) r k * unit_upper (mel (lu_m L)) k c) * z c)) by (intros; rewrite HF by auto; reflexivity).
  rewrite (sum_ext n _ (fun c => sum n (fun k => lower (mel (lu_m L)) r k * (unit_upper (mel (lu_m L)) k c * z c)))). 2:{ intros c Hc. rewrite <- sum_mul_r. apply sum_ext. intros; ring. }
  rewrite sum_swap. rewrite <- (Hy r Hr). apply sum_ext. intros k Hk. rewrite sum_mul_l. rewrite Hz by exact Hk. reflexivity.
Qed.
(** ** determinants *)
Fixpoint prod_ (n : nat) (f : nat -> F) : F := match n with O => 1 | S k => prod_ k f * f k end.
Lemma prod_first n f : prod_ (S n) f = f 0%nat * prod_ n (fun k => f (S k)).
Proof. induction n as [|n IH]; [cbn [prod_]; ring|]. change (prod_ (S (S n)) f) with (prod_ (S n) f * f (S n)). rewrite IH. cbn [prod_]. ring. Qed.
Lemma det_upper n : forall a : nat -> nat -> F, (forall r c, (c < r)%nat -> (r < n)%nat -> a r c = 0) -> det n a = prod_ n (fun i => a i i).
Proof.
  induction n as [|n IH]; intros a H; [reflexivity|]. rewrite det_first_col by (intros; apply H; lia). rewrite (IH (fun r c => a (S r) (S c))) by (intros; apply H; lia). rewrite prod_first. reflexivity.
Qed.
Lemma prod_ext n f g : (forall i, (i < n)%nat -> f i = g i) -> prod_ n f = prod_ n g.
Proof. induction n as [|n IH]; intros H; [reflexivity|]. cbn [prod_]. rewrite IH by (intros; apply H; lia). rewrite H by lia. reflexivity. Qed.
Lemma prod_one n f : (forall i, (i < n)%nat -> f i = 1) -> prod_ n f = 1.
Proof. induction n as [|n IH]; intros H; [reflexivity|]. cbn [prod_]. rewrite IH by (intros; apply H; lia). rewrite H by lia. ring. Qed.
Fixpoint sign_ (piv : nat -> nat) (n : nat) : F := match n with O => 1 | S k => if k <? piv k then - sign_ piv k else sign_ piv k end.
Lemma det_interchanged n piv (A : nat -> nat -> F) : forall m, (m <= n)%nat -> (forall i, (i < m)%nat -> (i <= piv i < n)%nat) ->
  det n (fun r c => interchanged piv m (A r) c) = sign_ piv m * det n A.
Proof.
  induction m as [|m IH]; intros Hm Hp; cbn [interchanged sign_]; [change (det n (fun r c => A r c)) with (det n A); ring|]. pose proof (Hp m ltac:(lia)) as P. specialize (IH ltac:(lia) ltac:(intros; apply Hp; lia)).
  set (B := fun r c => interchanged piv m (A r) c) in *. rewrite <- (det_tr n).
  destruct (Nat.ltb_spec m (piv m)) as [Lm|Lm].
  - transitivity (det n (fun r c => (fun a b => B b a) (swp m (piv m) r) c)).
    + apply det_ext. intros r c Hr Hc. unfold exchange, swp, B. destruct (Nat.eqb_spec r m) as [->|]; [reflexivity|]. destruct (Nat.eqb_spec r (piv m)); reflexivity.
    + rewrite (det_swap n m (piv m) (fun a b => B b a)) by lia. rewrite det_tr, IH. ring.
  - rewrite <- IH. rewrite <- (det_tr n B). apply det_ext. intros r c Hr Hc. unfold exchange, B. replace (piv m) with m by lia. destruct (Nat.eqb_spec r m) as [->|]; reflexivity.
Qed.
Lemma lu_determinant_ok n (A : nat -> nat -> F) (L : lu F) : factorised n A L -> lu_determinant L = Ok (det n A).
Proof.
  intros (H1 & H2 & Hp & HF). unfold lu_determinant. rewrite H1.
  assert (ES : lu_sign L = Ok (sign_ (lu_piv L) n)).
  { unfold lu_sign. rewrite H1. apply wp_eq. eapply wp_mono; [apply (wp_for (fun i s => s = sign_ (lu_piv L) i))|]; [lia|reflexivity| |].
    - intros i s Hi ->. cbn [wp sign_]. reflexivity.
    - intros s ->. destruct n as [|n]; [reflexivity|]. replace (S n - 1)%nat with n by lia. cbn [sign_]. pose proof (Hp n ltac:(lia)). destruct (Nat.ltb_spec n (lu_piv L n)); [lia|]. reflexivity. }
  rewrite ES. cbn [bind]. apply wp_eq. eapply wp_mono; [apply (wp_for (fun i s => s = sign_ (lu_piv L) n * prod_ i (fun i => mel (lu_m L) i i)))|]; [lia|cbn [prod_]; ring| |].
  - intros i s Hi ->. rewrite mget_ok by lia. cbn [bind wp prod_]. ring.
  - intros s ->. pose proof (det_interchanged n (lu_piv L) A n (le_n n) Hp) as D.
    rewrite (det_ext n _ (fun r c => sum n (fun k => lower (mel (lu_m L)) r k * unit_upper (mel (lu_m L)) k c))) in D by (intros; apply HF; auto).
    rewrite det_mul in D. rewrite (det_upper n (unit_upper (mel (lu_m L)))) in D.
    2:{ intros r c Hc Hr. unfold unit_upper. destruct (Nat.ltb_spec r c), (Nat.eqb_spec r c); try lia. reflexivity. }
    rewrite prod_one in D. 2:{ intros i Hi. unfold unit_upper. rewrite Nat.ltb_irrefl, Nat.eqb_refl. reflexivity. }
    rewrite <- (det_tr n (lower _)) in D. rewrite det_upper in D.
    2:{ intros r c Hc Hr. unfold lower. destruct (Nat.leb_spec r c); [lia|]. reflexivity. }
    rewrite (prod_ext n _ (fun i => mel (lu_m L) i i)) in D. 2:{ intros i Hi. unfold lower. rewrite Nat.leb_refl. reflexivity. }
    assert (SS : sign_ (lu_piv L) n * sign_ (lu_piv L) n = 1).
    { generalize n. induction n0 as [|k IH]; [cbn [sign_]; ring|]. cbn [sign_]. destruct (k <? lu_piv L k); [|exact IH]. rewrite <- IH. ring. }
    transitivity (sign_ (lu_piv L) n * (prod_ n (fun i => mel (lu_m L) i i) * 1)); [ring|]. rewrite D. transitivity ((sign_ (lu_piv L) n * sign_ (lu_piv L) n) * det n A); [ring|]. rewrite SS. ring.
Qed.
Lemma prod_zero n f i : (i < n)%nat -> f i = 0 -> prod_ n f = 0.
Proof. induction n as [|n IH]; intros Hi Z; [lia|]. cbn [prod_]. destruct (Nat.eq_dec i n) as [->|N]; [rewrite Z; ring|]. rewrite IH by (auto; lia). ring. Qed.
Lemma prod_nonzero n f : (forall i, (i < n)%nat -> f i <> 0) -> prod_ n f <> 0.
Proof. induction n as [|n IH]; intros H; [exact one_neq_zero|]. cbn [prod_]. intros E. apply (H n); [lia|]. apply (mul_cancel (prod_ n f)); [apply IH; intros; apply H; lia|]. rewrite E. ring. Qed.
Lemma sign_nonzero piv n : sign_ piv n <> 0.
Proof. induction n as [|n IH]; [exact one_neq_zero|]. cbn [sign_]. destruct (n <? piv n); [|exact IH]. intros E. apply IH. transitivity (- - sign_ piv n); [ring|]. rewrite E. ring. Qed.
Lemma lu_det_eq n (A : nat -> nat -> F) (L : lu F) : factorised n A L -> det n A = sign_ (lu_piv L) n * prod_ n (fun i => mel (lu_m L) i i).
Proof.
  intros HF. pose proof (lu_determinant_ok n A L HF) as E. destruct HF as (H1 & H2 & Hp & _).
  assert (G : lu_determinant L = Ok (sign_ (lu_piv L) n * prod_ n (fun i => mel (lu_m L) i i))); [|congruence].
  unfold lu_determinant. rewrite H1.
  assert (ES : lu_sign L = Ok (sign_ (lu_piv L) n)).
  { unfold lu_sign. rewrite H1. apply wp_eq. eapply wp_mono; [apply (wp_for (fun i s => s = sign_ (lu_piv L) i))|]; [lia|reflexivity| |].
    - intros i s Hi ->. cbn [wp sign_]. reflexivity.
    - intros s ->. destruct n as [|n]; [reflexivity|]. replace (S n - 1)%nat with n by lia. cbn [sign_]. pose proof (Hp n ltac:(lia)). destruct (Nat.ltb_spec n (lu_piv L n)); [lia|]. reflexivity. }
  rewrite ES. cbn [bind]. apply wp_eq. eapply wp_mono; [apply (wp_for (fun i s => s = sign_ (lu_piv L) n * prod_ i (fun i => mel (lu_m L) i i)))|]; [lia|cbn [prod_]; ring| |].
  - intros i s Hi ->. rewrite mget_ok by lia. cbn [bind wp prod_]. ring.
  - intros s ->. reflexivity.
Qed.
Lemma pivots_nonzero n (A : nat -> nat -> F) (L : lu F) : factorised n A L -> nonsingular n A -> forall i, (i < n)%nat -> mel (lu_m L) i i <> 0.
Proof.
  intros HF NS i Hi Z. apply det_nonsingular in NS. apply NS. rewrite (lu_det_eq n A L HF). rewrite (prod_zero n (fun i => mel (lu_m L) i i) i Hi Z). ring.
Qed.
End L.
