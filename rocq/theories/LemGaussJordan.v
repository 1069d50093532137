(** * Lemmas about Gauss-Jordan reduction. *)
From Coq Require Import Arith Bool List Lia Field.
From Verif Require Import Base Alg Mat SpecMat LemMat SpecLin LemLin ModelGauss LemGauss.
Import ListNotations.

Section L.
Context {F : Type} {Fo : Ops F} {Fl : Laws F}.
Add Field Ff : law_field.
Open Scope F_scope.
Variables n N : nat.
Hypothesis HnN : (n <= N)%nat.
Definition shape (m : mat F) : Prop := mrows m = n /\ mcols m = N.
(** columns before [i] are reduced *)
Definition reduced (i : nat) (m : mat F) : Prop :=
  (forall r c, (r < n)%nat -> (c < i)%nat -> r <> c -> mel m r c = 0) /\ (forall c, (c < i)%nat -> mel m c c <> 0).
Definition lf (m : mat F) (x : nat -> F) (r : nat) : F := rowv N 0 (mel m) (fun _ _ => 0) x (fun _ => 0) r.
Lemma lf_eq m x r : lf m x r = sum N (fun c => mel m r c * x c).
Proof. unfold lf, rowv. cbn [sum]. ring. Qed.

(** the elimination of one column, after the swap *)
Lemma gj_clear (m : mat F) i : shape m -> (i < n)%nat -> mel m i i <> 0 ->
  exists m', for_ 0 n (fun r m => if (r =? i)%nat then Ok m else
    (x <- mget m r i ;; p <- mget m i i ;; multiple <- div x p ;; m <- mset m r i f0 ;;
     for_ (S i) (mcols m) (fun c m => x <- mget m r c ;; y <- mget m i c ;; mset m r c (fsub x (fmul y multiple))) m)%outcome) m = Ok m' /\
   shape m' /\ forall r c, (r < n)%nat -> (c < N)%nat -> mel m' r c = if (r =? i)%nat then mel m r c else if (c <? i)%nat then mel m r c else
       mel m r c - mel m r i / mel m i i * mel m i c.
Proof.
  intros [HR HC] Hi Hp. apply wp_ok_inv.
  eapply wp_mono; [apply (wp_for (fun k m' => shape m' /\ forall r c, (r < n)%nat -> (c < N)%nat -> mel m' r c = if negb (r <? k)%nat || (r =? i)%nat then mel m r c else if (c <? i)%nat then mel m r c else
       mel m r c - mel m r i / mel m i i * mel m i c))|].
  - lia.
  - split; [split; assumption|]. intros r c _ _. reflexivity.
  - intros r m' Hr [[R' C'] V]. destruct (Nat.eqb_spec r i) as [->|Hri].
    + cbn [wp]. split; [split; assumption|]. intros u c Hu Hc. rewrite V by assumption.
      destruct (Nat.ltb_spec u i), (Nat.ltb_spec u (S i)), (Nat.eqb_spec u i); try lia; cbn [negb orb]; reflexivity.
    + rewrite !mget_ok by lia. cbn [bind].
      assert (Vi : forall c, (c < N)%nat -> mel m' i c = mel m i c).
      { intros c Hc. rewrite V by assumption. rewrite Nat.eqb_refl, orb_true_r. reflexivity. }
      assert (Vr : forall c, (c < N)%nat -> mel m' r c = mel m r c).
      { intros c Hc. rewrite V by lia. rewrite Nat.ltb_irrefl. reflexivity. }
      rewrite Vi, Vr by lia. rewrite div_ok by exact Hp. cbn [bind]. rewrite mset_ok by lia. cbn [bind mcols].
      set (m1 := mkmat _ _ _). set (mu := mel m r i / mel m i i).
      destruct (row_loop (S i) (mcols m') r (fun c m => x <- mget m r c ;; y <- mget m i c ;; mset m r c (fsub x (fmul y mu))) m1 (fun c => mel m r c - mel m i c * mu)) as (m2 & E2 & R2 & C2 & V2).
      * cbn [m1 mrows]. lia.
      * cbn [m1 mcols]. lia.
      * intros j m3 Hj R3 C3 H3. cbn [m1 mrows mcols] in R3, C3. rewrite !mget_ok by lia. cbn [bind]. rewrite !H3 by lia.
        cbn [m1 mel]. destruct (Nat.eqb_spec j i), (Nat.eqb_spec i r), (Nat.eqb_spec r r); try lia. cbn [andb]. rewrite Vi, Vr by lia. reflexivity.
      * rewrite E2. cbn [wp]. cbn [m1 mrows mcols] in R2, C2. split; [split; lia|]. intros u c Hu Hc. rewrite V2. cbn [m1 mel]. rewrite V by lia.
        destruct (Nat.eqb_spec u r), (Nat.ltb_spec u (S r)), (Nat.ltb_spec u r), (Nat.eqb_spec u i), (Nat.leb_spec (S i) c), (Nat.ltb_spec c (mcols m')), (Nat.ltb_spec c i), (Nat.eqb_spec c i); try lia; cbn [andb negb orb]; subst; try reflexivity;
        unfold mu; field; exact Hp.
  - intros m' [S' V]. split; [exact S'|]. intros r c Hr Hc. rewrite V by assumption. destruct (Nat.ltb_spec r n); [|lia]. reflexivity.
Qed.

Lemma gj_column_ok (m : mat F) i : shape m -> (i < n)%nat -> reduced i m ->
  (exists m', gj_column i m = Ok m' /\ shape m' /\ reduced (S i) m' /\
     forall x, (forall r, (r < n)%nat -> lf m' x r = 0) <-> (forall r, (r < n)%nat -> lf m x r = 0)) \/
  ((forall r, (i <= r < n)%nat -> mel m r i = 0) /\ (gj_column i m = NonFinite \/ n = 1%nat /\ gj_column i m = Ok m)).
Proof.
  intros [HR HC] Hi [Z D]. destruct (find_pivot_ok m (mrows m) i) as (p & Ep & Hp & Hm); [lia..|]. rewrite HR in Ep, Hp, Hm.
  unfold gj_column. rewrite HR, Ep. cbn [bind].
  assert (Sw : exists m1, (if (i =? p)%nat then Ok m else for_ 0 (mcols m) (fun c m => mswap m i p c) m) = Ok m1 /\ shape m1 /\
     forall r c, (r < n)%nat -> (c < N)%nat -> mel m1 r c = mel m (swp i p r) c).
  { destruct (Nat.eqb_spec i p) as [<-|Hip].
    - exists m. split; [reflexivity|]. split; [split; assumption|]. intros. rewrite swp_id. reflexivity.
    - destruct (row_swap 0 (mcols m) i p (fun c m => mswap m i p c) m) as (m1 & E1 & R1 & C1 & V1); [lia..|reflexivity|].
      exists m1. split; [exact E1|]. split; [split; lia|]. intros r c Hr Hc. rewrite V1. destruct (Nat.leb_spec 0 c), (Nat.ltb_spec c (mcols m)); try lia. reflexivity. }
  destruct Sw as (m1 & E1 & [R1 C1] & V1).
  assert (Hpi : swp i p i = p) by (unfold swp; rewrite Nat.eqb_refl; reflexivity).
  assert (Hlow : forall r, (r < i)%nat -> swp i p r = r) by (intros r Hr'; unfold swp; destruct (Nat.eqb_spec r i), (Nat.eqb_spec r p); lia).
  assert (Hge : forall r, (i <= r)%nat -> (i <= swp i p r)%nat) by (intros r Hr; unfold swp; destruct (r =? i)%nat, (r =? p)%nat; lia).
  destruct (eq_dec (mel m p i) 0) as [Zp|Zp].
  - right. assert (Hcol : forall r, (i <= r < n)%nat -> mel m r i = 0) by (intros r Hr; apply (pivot_zero _ (mel m p i)); [apply Hm; exact Hr|exact Zp]).
    split; [exact Hcol|]. rewrite E1. cbn [bind]. rewrite R1. destruct (Nat.eq_dec n 1) as [Hn1|Hn1].
    + right. split; [exact Hn1|]. replace i with O in * by lia. replace p with O in * by lia. cbn in E1. injection E1 as <-. rewrite Hn1. cbn. reflexivity.
    + left. unfold for_. rewrite Nat.sub_0_r. destruct n as [|[|k]]; [lia..|]. cbn [for_up].
      assert (Zm : mel m1 i i = 0) by (rewrite V1 by lia; apply Hcol; pose proof (Hge i ltac:(lia)); pose proof (swp_lt i p i (S (S k)) Hi ltac:(lia) Hi); lia).
      assert (B : forall r, (r < S (S k))%nat -> r <> i -> forall K : mat F -> outcome (mat F), bind (if (r =? i)%nat then Ok m1 else
        (x <- mget m1 r i ;; p <- mget m1 i i ;; multiple <- div x p ;; m <- mset m1 r i f0 ;;
         for_ (S i) (mcols m) (fun c m => x <- mget m r c ;; y <- mget m i c ;; mset m r c (fsub x (fmul y multiple))) m)%outcome) K = NonFinite).
      { intros r Hr Hri K. destruct (Nat.eqb_spec r i); [lia|]. rewrite !mget_ok by lia. cbn [bind]. rewrite Zm, div_zero. reflexivity. }
      destruct (Nat.eq_dec i 0) as [->|Hi0].
      * change (0 =? 0)%nat with true. cbv iota. cbn [bind]. apply B; lia.
      * apply B; lia.
  - left. rewrite E1. cbn [bind]. rewrite R1. destruct (gj_clear m1 i) as (m2 & E2 & [R2 C2] & V2); [split; assumption|exact Hi|rewrite V1, Hpi by lia; exact Zp|].
    rewrite E2. exists m2. split; [reflexivity|]. split; [split; assumption|].
    assert (Dp : mel m1 i i <> 0) by (rewrite V1, Hpi by lia; exact Zp).
    assert (V2' : forall r c, (r < n)%nat -> (c < N)%nat -> r <> i -> mel m2 r c = mel m1 r c - mel m1 r i / mel m1 i i * mel m1 i c).
    { intros r c Hr Hc Hri. rewrite V2 by assumption. destruct (Nat.eqb_spec r i); [lia|]. destruct (Nat.ltb_spec c i); [|reflexivity].
      rewrite (V1 i c) by lia. rewrite Hpi, (Z p c) by lia. field. exact Dp. }
    assert (V2i : forall c, (c < N)%nat -> mel m2 i c = mel m1 i c) by (intros c Hc; rewrite V2 by lia; rewrite Nat.eqb_refl; reflexivity).
    split; [split|].
    + intros r c Hr Hc Hrc. destruct (Nat.eq_dec c i) as [->|].
      * rewrite V2' by lia. field. exact Dp.
      * assert (Z1 : forall u, (u < n)%nat -> u <> c -> mel m1 u c = 0).
        { intros u Hu Huc. rewrite V1 by lia. apply Z; [apply swp_lt; lia|lia|]. destruct (lt_dec u i); [rewrite Hlow; lia|]. pose proof (Hge u ltac:(lia)). lia. }
        destruct (Nat.eq_dec r i) as [->|]; [rewrite V2i by lia; apply Z1; lia|]. rewrite V2' by lia. rewrite !Z1 by lia. field. exact Dp.
    + intros c Hc. destruct (Nat.eq_dec c i) as [->|]; [rewrite V2i by lia; exact Dp|].
      rewrite V2' by lia. rewrite (V1 c c), Hlow by lia. rewrite (V1 i c), Hpi by lia. rewrite (Z p c) by lia.
      intros E. apply (D c); [lia|]. rewrite <- E. field. exact Dp.
    + intros x.
      assert (Ei : lf m2 x i = lf m x p).
      { apply rowv_same; [|intros; lia]. intros c Hc. rewrite V2i, V1, Hpi by lia. reflexivity. }
      assert (Er : forall r, (r < n)%nat -> r <> i -> lf m2 x r = lf m x (swp i p r) - mel m1 r i / mel m1 i i * lf m2 x i).
      { intros r Hr Hri. unfold lf at 2. rewrite <- (rowv_same N 0 (mel m) (fun _ _ => 0) (mel m1) (fun _ _ => 0) x (fun _ => 0) (swp i p r) r) by (try (intros; lia); intros c Hc; apply V1; lia).
        apply rowv_sub; [|intros; lia]. intros c Hc. rewrite V2' by lia. rewrite V2i by lia. reflexivity. }
      split; intros H.
      * assert (Hpz : lf m x p = 0) by (rewrite <- Ei; apply H; lia). intros r Hr. destruct (Nat.eq_dec (swp i p r) i) as [Es|Es].
        -- assert (r = p) as ->; [|exact Hpz]. rewrite <- (swp_inv i p r), Es. exact Hpi.
        -- pose proof (swp_lt i p r n Hi ltac:(lia) Hr) as Hl2. pose proof (Er (swp i p r) Hl2 Es) as E. rewrite swp_inv in E. rewrite (H i Hi), (H _ Hl2) in E.
           transitivity (lf m x r - mel m1 (swp i p r) i / mel m1 i i * 0); [ring|symmetry; exact E].
      * assert (Hiz : lf m2 x i = 0) by (rewrite Ei; apply H; lia). intros r Hr. destruct (Nat.eq_dec r i) as [->|]; [exact Hiz|].
        rewrite Er by assumption. rewrite Hiz, H by (apply swp_lt; lia). ring.
Qed.

Lemma gj_zero_column (m m0 : mat F) i : shape m -> (i < n)%nat -> reduced i m -> (forall r, (i <= r < n)%nat -> mel m r i = 0) ->
  (forall x, (forall r, (r < n)%nat -> lf m x r = 0) <-> (forall r, (r < n)%nat -> lf m0 x r = 0)) -> ~ nonsingular n (mel m0).
Proof.
  intros Hs Hi [Z D] Hcol E NS.
  set (x := fun c => if (c <? i)%nat then - (mel m c i / mel m c c) else if (c =? i)%nat then 1 else 0).
  assert (Hx : forall r, (r < n)%nat -> lf m0 x r = 0).
  { apply E. intros r Hr. rewrite lf_eq. replace N with (i + S (N - S i))%nat by lia. rewrite sum_split, sum_first.
    rewrite (sum_zero (N - S i)) by (intros c Hc; unfold x; destruct (Nat.ltb_spec (i + S c) i), (Nat.eqb_spec (i + S c) i); try lia; ring).
    rewrite Nat.add_0_r. unfold x at 2. rewrite Nat.ltb_irrefl, Nat.eqb_refl.
    destruct (lt_dec r i) as [Hl|Hl].
    - rewrite (sum_one i r) by (first [exact Hl|intros c Hc Hcr; rewrite Z by lia; ring]).
      unfold x. destruct (Nat.ltb_spec r i); [|lia]. field. apply D. exact Hl.
    - rewrite sum_zero by (intros c Hc; rewrite Z by lia; ring). rewrite Hcol by lia. ring. }
  assert (X : x i = 0).
  { apply NS; [|exact Hi]. intros r Hr. pose proof (Hx r Hr) as E2. rewrite lf_eq in E2. replace N with (n + (N - n))%nat in E2 by lia. rewrite sum_split in E2.
    rewrite (sum_zero (N - n)) in E2 by (intros c Hc; unfold x; destruct (Nat.ltb_spec (n + c) i), (Nat.eqb_spec (n + c) i); try lia; ring).
    rewrite <- E2. ring. }
  unfold x in X. rewrite Nat.ltb_irrefl, Nat.eqb_refl in X. exact (one_neq_zero X).
Qed.

Definition final (m : mat F) : outcome (mat F) :=
  (for_ 0 (mrows m) (fun r m =>
    x <- mget m r r ;; mul <- div f1 x ;;
    m <- mset m r r f1 ;;
    for_ (mrows m) (mcols m) (fun c m => x <- mget m r c ;; mset m r c (fmul x mul)) m) m)%outcome.
Lemma final_ok (m : mat F) : shape m -> reduced n m -> exists m', final m = Ok m' /\ shape m' /\
  (forall r c, (r < n)%nat -> (c < n)%nat -> mel m' r c = delta r c) /\
  (forall r c, (r < n)%nat -> (n <= c < N)%nat -> mel m' r c = mel m r c / mel m r r).
Proof.
  intros [HR HC] [Z D]. unfold final. rewrite HR. apply wp_ok_inv.
  eapply wp_mono; [apply (wp_for (fun k m' => shape m' /\ forall r c, (r < n)%nat -> (c < N)%nat -> mel m' r c =
     if (r <? k)%nat then (if (c <? n)%nat then delta r c else mel m r c / mel m r r) else mel m r c))|].
  - lia.
  - split; [split; assumption|]. reflexivity.
  - intros r m' Hr [[R' C'] V]. rewrite mget_ok by lia. cbn [bind]. assert (Vr : forall c, (c < N)%nat -> mel m' r c = mel m r c) by (intros c Hc; rewrite V by lia; rewrite Nat.ltb_irrefl; reflexivity).
    rewrite Vr by lia. rewrite div_ok by (apply D; lia). cbn [bind]. rewrite mset_ok by lia. cbn [bind mrows mcols].
    set (m1 := mkmat _ _ _). set (mu := 1 / mel m r r).
    destruct (row_loop (mrows m') (mcols m') r (fun c m => x <- mget m r c ;; mset m r c (fmul x mu)) m1 (fun c => mel m r c * mu)) as (m2 & E2 & R2 & C2 & V2).
    + cbn [m1 mrows]. lia.
    + cbn [m1 mcols]. lia.
    + intros j m3 Hj R3 C3 H3. cbn [m1 mrows mcols] in R3, C3. rewrite !mget_ok by lia. cbn [bind]. rewrite !H3 by lia.
      cbn [m1 mel]. destruct (Nat.eqb_spec j r); [lia|]. rewrite andb_false_r. rewrite Vr by lia. reflexivity.
    + rewrite E2. cbn [wp]. cbn [m1 mrows mcols] in R2, C2. split; [split; lia|]. intros u c Hu Hc. rewrite V2. cbn [m1 mel]. rewrite V by lia. unfold delta.
      destruct (Nat.eqb_spec u r), (Nat.ltb_spec u (S r)), (Nat.ltb_spec u r), (Nat.leb_spec (mrows m') c), (Nat.ltb_spec c (mcols m')), (Nat.ltb_spec c n), (Nat.eqb_spec c r), (Nat.eqb_spec u c); try lia; cbn [andb]; subst; try reflexivity;
      first [unfold mu; field; apply D; lia|apply Z; lia].
  - intros m' [S' V]. split; [exact S'|]. split.
    + intros r c Hr Hc. rewrite V by lia. destruct (Nat.ltb_spec r n), (Nat.ltb_spec c n); try lia. reflexivity.
    + intros r c Hr Hc. rewrite V by lia. destruct (Nat.ltb_spec r n), (Nat.ltb_spec c n); try lia. reflexivity.
Qed.

Lemma gauss_jordan_ok (m0 : mat F) : shape m0 ->
  (nonsingular n (mel m0) /\ exists m, gauss_jordan m0 = Ok m /\ shape m /\
     (forall r c, (r < n)%nat -> (c < n)%nat -> mel m r c = delta r c) /\
     (forall k, (n <= k < N)%nat -> solves n (mel m0) (fun r => mel m r k) (fun r => mel m0 r k))) \/
  (~ nonsingular n (mel m0) /\ gauss_jordan m0 = NonFinite).
Proof.
  intros Hs. unfold gauss_jordan. rewrite (proj1 Hs). replace (for_ 0 n gj_column m0) with (for_up n 0 gj_column m0) by (unfold for_; rewrite Nat.sub_0_r; reflexivity).
  set (inv := fun i (m : mat F) => shape m /\ reduced i m /\ forall x, (forall r, (r < n)%nat -> lf m x r = 0) <-> (forall r, (r < n)%nat -> lf m0 x r = 0)).
  assert (G : forall k i m, (i + k = n)%nat -> inv i m ->
     (exists m', for_up k i gj_column m = Ok m' /\ inv n m') \/
     (~ nonsingular n (mel m0) /\ (for_up k i gj_column m = NonFinite \/ exists m', for_up k i gj_column m = Ok m' /\ shape m' /\ n = 1%nat /\ mel m' 0%nat 0%nat = 0))).
  { induction k as [|k IH]; intros i m Hk (S' & Rd & E).
    - left. exists m. split; [reflexivity|]. replace n with i by lia. split; [exact S'|]. split; [exact Rd|exact E].
    - cbn [for_up]. destruct (gj_column_ok m i S' ltac:(lia) Rd) as [(m' & E' & S1 & Rd1 & Q)|[Hcol H]].
      + rewrite E'. cbn [bind]. apply IH; [lia|]. split; [exact S1|]. split; [exact Rd1|]. intros x. rewrite Q. apply E.
      + right. split; [apply (gj_zero_column m m0 i S' ltac:(lia) Rd Hcol E)|]. destruct H as [H|[Hn H]]; rewrite H; [left; reflexivity|right].
        assert (k = 0%nat) by lia. subst k. assert (i = 0%nat) by lia. subst i. cbn [bind for_up]. exists m. split; [reflexivity|]. split; [exact S'|]. split; [exact Hn|]. apply Hcol. lia. }
  destruct (G n O m0) as [(m & Em & Hi)|(NS & H)]; [lia| | |].
  - split; [exact Hs|]. split; [split; intros; lia|]. reflexivity.
  - left. rewrite Em. cbn [bind]. destruct Hi as (S1 & Rd & E). change (for_ 0 (mrows m) _ m) with (final m).
    destruct (final_ok m S1 Rd) as (m' & Ef & Sf & Vd & Vx). destruct Rd as [Z D]. split.
    + intros y Hy c Hc. set (x := fun c => if (c <? n)%nat then y c else 0).
      assert (Hx : forall r, (r < n)%nat -> lf m x r = 0).
      { apply E. intros r Hr. rewrite lf_eq. replace N with (n + (N - n))%nat by lia. rewrite sum_split.
        rewrite (sum_zero (N - n)) by (intros j Hj; unfold x; destruct (Nat.ltb_spec (n + j) n); [lia|ring]).
        rewrite (sum_ext n _ (fun c => mel m0 r c * y c)) by (intros j Hj; unfold x; destruct (Nat.ltb_spec j n); [reflexivity|lia]). rewrite Hy by exact Hr. ring. }
      pose proof (Hx c Hc) as X. rewrite lf_eq in X. rewrite (sum_one N c) in X.
      * apply mul_zero in X. destruct X as [X|X]; [destruct (D c Hc X)|]. unfold x in X. destruct (Nat.ltb_spec c n); [exact X|lia].
      * lia.
      * intros j Hj Hjc. unfold x. destruct (Nat.ltb_spec j n); [|ring]. rewrite Z by lia. ring.
    + exists m'. split; [exact Ef|]. split; [exact Sf|]. split; [exact Vd|]. intros k Hk r Hr.
      set (x := fun c => if (c <? n)%nat then mel m c k / mel m c c else if (c =? k)%nat then - (1) else 0).
      assert (Hx : forall r, (r < n)%nat -> lf m0 x r = 0).
      { apply E. intros u Hu. rewrite lf_eq. replace N with (n + (N - n))%nat by lia. rewrite sum_split.
        rewrite (sum_one n u) by (first [exact Hu|intros j Hj Hju; rewrite Z by lia; ring]).
        rewrite (sum_one (N - n) (k - n)) by (first [lia|intros j Hj Hju; unfold x; destruct (Nat.ltb_spec (n + j) n), (Nat.eqb_spec (n + j) k); try lia; ring]).
        replace (n + (k - n))%nat with k by lia. unfold x. destruct (Nat.ltb_spec u n), (Nat.ltb_spec k n); try lia. rewrite Nat.eqb_refl. field. apply D. exact Hu. }
      pose proof (Hx r Hr) as X. rewrite lf_eq in X. replace N with (n + (N - n))%nat in X by lia. rewrite sum_split in X.
      rewrite (sum_one (N - n) (k - n)) in X by (first [lia|intros j Hj Hju; unfold x; destruct (Nat.ltb_spec (n + j) n), (Nat.eqb_spec (n + j) k); try lia; ring]).
      replace (n + (k - n))%nat with k in X by lia. unfold x at 2 in X. destruct (Nat.ltb_spec k n); [lia|]. rewrite Nat.eqb_refl in X.
      apply sub_zero. rewrite <- X. rewrite (sum_ext n _ (fun c => mel m0 r c * x c)); [ring|]. intros c Hc. rewrite Vx by lia. unfold x. destruct (Nat.ltb_spec c n); [reflexivity|lia].
  - right. split; [exact NS|]. destruct H as [H|(m & Em & Sm & Hn & Zm)]; [rewrite H; reflexivity|]. rewrite Em. cbn [bind]. rewrite (proj1 Sm), Hn.
    unfold for_. cbn [Nat.sub for_up]. rewrite mget_ok by (destruct Sm; lia). cbn [bind]. rewrite Zm, div_zero. reflexivity.
Qed.
End L.
