(** * Gauss-Jordan reduction in any arithmetic: what gauss_jordan computes, with no law assumed of the scalar operations. *)
From Coq Require Import Arith Bool List Lia.
From Verif Require Import Base Alg Mat SpecMat LemMat SpecLin LemHelpers LemLin ModelGauss.

Lemma for_S {St} (body : nat -> St -> outcome St) k s : for_ 0 (S k) body s = (s' <- for_ 0 k body s ;; body k s')%outcome.
Proof.
  unfold for_. rewrite !Nat.sub_0_r. assert (G : forall lo s, for_up (S k) lo body s = (s' <- for_up k lo body s ;; body (lo + k)%nat s')%outcome).
  { induction k as [|k IH]; intros lo t; [cbn [for_up bind]; rewrite Nat.add_0_r; destruct (body lo t); reflexivity|].
    change (for_up (S (S k)) lo body t) with (s' <- body lo t ;; for_up (S k) (S lo) body s')%outcome.
    change (for_up (S k) lo body t) with (s' <- body lo t ;; for_up k (S lo) body s')%outcome.
    destruct (body lo t); cbn [bind]; try reflexivity. rewrite IH. replace (S lo + k)%nat with (lo + S k)%nat by lia. reflexivity. }
  apply (G 0%nat).
Qed.

Section G.
Context {F : Type} {Fo : Ops F}.
Open Scope F_scope.

(** the pivot search of k rows below i in the column x *)
Fixpoint pivs (x : nat -> F) (i k : nat) : nat * F :=
  match k with
  | O => (i, fabs (x i))
  | S k => let s := pivs x i k in if fltb (snd s) (fabs (x (S i + k)%nat)) then ((S i + k)%nat, fabs (x (S i + k)%nat)) else s
  end.
Definition piv (n i : nat) (x : nat -> F) : nat := fst (pivs x i (n - S i)).
Lemma pivs_rng x i k : (i <= fst (pivs x i k) <= i + k)%nat.
Proof. induction k as [|k IH]; cbn [pivs]; [cbn; lia|]. destruct (fltb _ _); cbn [fst]; lia. Qed.
Lemma piv_rng n i x : (i < n)%nat -> (i <= piv n i x < n)%nat.
Proof. intros H. pose proof (pivs_rng x i (n - S i)). unfold piv. lia. Qed.
Lemma pivs_ext x y i k : (forall r, (i <= r <= i + k)%nat -> x r = y r) -> pivs x i k = pivs y i k.
Proof. induction k as [|k IH]; intros H; cbn [pivs]; [rewrite (H i) by lia; reflexivity|]. rewrite IH by (intros; apply H; lia). rewrite (H (S i + k)%nat) by lia. reflexivity. Qed.
Lemma piv_ext n i x y : (i < n)%nat -> (forall r, (i <= r < n)%nat -> x r = y r) -> piv n i x = piv n i y.
Proof. intros Hi H. unfold piv. rewrite (pivs_ext x y); [reflexivity|]. intros r Hr. apply H. lia. Qed.
Lemma find_pivot_piv (A : mat F) n i : (i < n)%nat -> (n <= mrows A)%nat -> (i < mcols A)%nat -> find_pivot A n i = Ok (piv n i (fun r => mel A r i)).
Proof.
  intros Hi HR HC. unfold find_pivot. rewrite mget_ok by lia. cbn [bind].
  set (x := fun r => mel A r i).
  assert (E : for_ (S i) n (fun ii s => (v <- mget A ii i ;; Ok (if fltb (snd s) (fabs v) then (ii, fabs v) else s))%outcome) (i, fabs (mel A i i)) = Ok (pivs x i (n - S i))).
  { apply wp_eq. apply (wp_for (fun k s => s = pivs x i (k - S i))); [lia|rewrite Nat.sub_diag; reflexivity|].
    intros k s Hk ->. rewrite mget_ok by lia. cbn [bind wp]. replace (S k - S i)%nat with (S (k - S i)) by lia. cbn [pivs].
    replace (S i + (k - S i))%nat with k by lia. reflexivity. }
  rewrite E. reflexivity.
Qed.

Variables n N : nat.
Hypothesis HnN : (n <= N)%nat.
Definition shaped (m : mat F) : Prop := mrows m = n /\ mcols m = N.

(** the matrix after the rows are swapped, and after column i is eliminated *)
Definition gj_swapped (i : nat) (a : nat -> nat -> F) (r c : nat) : F := a (swp i (piv n i (fun r => a r i)) r) c.
Definition gj_cleared (i : nat) (a : nat -> nat -> F) (r c : nat) : F :=
  if (r =? i)%nat then a r c else if (c <? i)%nat then a r c else if (c =? i)%nat then f0 else a r c - a i c * fdiv (a r i) (a i i).

Lemma gj_clear_free (m : mat F) i : shaped m -> (i < n)%nat -> feqb (mel m i i) f0 = false ->
  exists m', for_ 0 n (fun r m => if (r =? i)%nat then Ok m else
    (x <- mget m r i ;; p <- mget m i i ;; multiple <- div x p ;; m <- mset m r i f0 ;;
     for_ (S i) (mcols m) (fun c m => x <- mget m r c ;; y <- mget m i c ;; mset m r c (fsub x (fmul y multiple))) m)%outcome) m = Ok m' /\
   shaped m' /\ forall r c, (r < n)%nat -> (c < N)%nat -> mel m' r c = gj_cleared i (mel m) r c.
Proof.
  intros [HR HC] Hi Hp. apply wp_ok_inv. unfold gj_cleared.
  eapply wp_mono; [apply (wp_for (fun k m' => shaped m' /\ forall r c, (r < n)%nat -> (c < N)%nat -> mel m' r c = if negb (r <? k)%nat || (r =? i)%nat then mel m r c else if (c <? i)%nat then mel m r c else
       if (c =? i)%nat then f0 else mel m r c - mel m i c * fdiv (mel m r i) (mel m i i)))|].
  - lia.
  - split; [split; assumption|]. intros r c _ _. reflexivity.
  - intros r m' Hr [[R' C'] V]. destruct (Nat.eqb_spec r i) as [->|Hri].
    + cbn [wp]. split; [split; assumption|]. intros u c Hu Hc. rewrite V by assumption.
      destruct (Nat.ltb_spec u i), (Nat.ltb_spec u (S i)), (Nat.eqb_spec u i); try lia; cbn [negb orb]; reflexivity.
    + rewrite !mget_ok by lia. cbn [bind].
      assert (Vi : forall c, (c < N)%nat -> mel m' i c = mel m i c).
      { intros c Hc. rewrite V by assumption. rewrite Nat.eqb_refl, orb_true_r. reflexivity. }
      assert (Vr : forall c, (c < N)%nat -> mel m' r c = mel m r c).
      { intros c Hc. rewrite V by lia. rewrite Nat.ltb_irrefl. reflexivity. }
      rewrite Vi, Vr by lia. unfold div at 1. rewrite Hp. cbn [bind]. rewrite mset_ok by lia. cbn [bind mcols].
      set (m1 := mkmat _ _ _). set (mu := fdiv (mel m r i) (mel m i i)).
      destruct (row_loop (S i) (mcols m') r (fun c m => x <- mget m r c ;; y <- mget m i c ;; mset m r c (fsub x (fmul y mu)))%outcome m1 (fun c => mel m r c - mel m i c * mu)) as (m2 & E2 & R2 & C2 & V2).
      * cbn [m1 mrows]. lia.
      * cbn [m1 mcols]. lia.
      * intros j m3 Hj R3 C3 H3. cbn [m1 mrows mcols] in R3, C3. rewrite !mget_ok by lia. cbn [bind]. rewrite !H3 by lia.
        cbn [m1 mel]. destruct (Nat.eqb_spec j i), (Nat.eqb_spec i r), (Nat.eqb_spec r r); try lia. cbn [andb]. rewrite Vi, Vr by lia. reflexivity.
      * rewrite E2. cbn [wp]. cbn [m1 mrows mcols] in R2, C2. split; [split; lia|]. intros u c Hu Hc. rewrite V2. cbn [m1 mel]. rewrite V by lia.
        destruct (Nat.eqb_spec u r), (Nat.ltb_spec u (S r)), (Nat.ltb_spec u r), (Nat.eqb_spec u i), (Nat.leb_spec (S i) c), (Nat.ltb_spec c (mcols m')), (Nat.ltb_spec c i), (Nat.eqb_spec c i); try lia; cbn [andb negb orb]; subst; reflexivity.
  - intros m' [S' V]. split; [exact S'|]. intros r c Hr Hc. rewrite V by assumption. destruct (Nat.ltb_spec r n); [|lia]. reflexivity.
Qed.

Lemma gj_swap_free (m : mat F) i : shaped m -> (i < n)%nat ->
  exists m1, (if (i =? piv n i (fun r => mel m r i))%nat then Ok m else for_ 0 (mcols m) (fun c m0 => mswap m0 i (piv n i (fun r => mel m r i)) c) m) = Ok m1 /\ shaped m1 /\
     forall r c, (r < n)%nat -> (c < N)%nat -> mel m1 r c = gj_swapped i (mel m) r c.
Proof.
  intros [HR HC] Hi. unfold gj_swapped. pose proof (piv_rng n i (fun r => mel m r i) Hi) as Hp. set (p := piv n i (fun r => mel m r i)) in *. destruct (Nat.eqb_spec i p) as [<-|Hip].
  - exists m. split; [reflexivity|]. split; [split; assumption|]. intros. rewrite swp_id. reflexivity.
  - destruct (row_swap 0 (mcols m) i p (fun c m => mswap m i p c) m) as (m1 & E1 & R1 & C1 & V1); [lia..|reflexivity|].
    exists m1. split; [exact E1|]. split; [split; lia|]. intros r c Hr Hc. rewrite V1. destruct (Nat.leb_spec 0 c), (Nat.ltb_spec c (mcols m)); try lia. reflexivity.
Qed.

(** One column: a division by zero if the pivot is zero and there is another row; otherwise every element is as stated. *)
Lemma gj_column_free (m : mat F) i : shaped m -> (i < n)%nat ->
  (feqb (gj_swapped i (mel m) i i) f0 = true /\ (1 < n)%nat /\ gj_column i m = NonFinite) \/
  ((feqb (gj_swapped i (mel m) i i) f0 = false \/ n = 1%nat) /\ exists m', gj_column i m = Ok m' /\ shaped m' /\
    forall r c, (r < n)%nat -> (c < N)%nat -> mel m' r c = gj_cleared i (gj_swapped i (mel m)) r c).
Proof.
  intros [HR HC] Hi. unfold gj_column. rewrite HR, find_pivot_piv by lia. cbn [bind].
  destruct (gj_swap_free m i (conj HR HC) Hi) as (m1 & E1 & [R1 C1] & V1). rewrite E1. cbn [bind]. rewrite R1.
  destruct (feqb (gj_swapped i (mel m) i i) f0) eqn:Z.
  - destruct (Nat.eq_dec n 1) as [Hn|Hn].
    + right. split; [right; exact Hn|]. assert (i = 0)%nat as -> by lia. rewrite Hn. cbn. exists m1. split; [reflexivity|]. split; [split; lia|].
      intros r c Hr Hc. assert (r = 0)%nat as -> by lia. unfold gj_cleared. cbn. apply V1; lia.
    + left. split; [reflexivity|]. split; [lia|].
      assert (B : forall r, (r < n)%nat -> r <> i -> forall K : mat F -> outcome (mat F), bind (if (r =? i)%nat then Ok m1 else
        (x <- mget m1 r i ;; p <- mget m1 i i ;; multiple <- div x p ;; m <- mset m1 r i f0 ;;
         for_ (S i) (mcols m) (fun c m => x <- mget m r c ;; y <- mget m i c ;; mset m r c (fsub x (fmul y multiple))) m)%outcome) K = NonFinite).
      { intros r Hr Hri K. destruct (Nat.eqb_spec r i); [lia|]. rewrite !mget_ok by lia. cbn [bind]. rewrite V1 by lia. unfold div at 1. rewrite (V1 i i) by lia. rewrite Z. reflexivity. }
      unfold for_. rewrite Nat.sub_0_r. clear - B Hi Hn. destruct n as [|[|k]]; [lia..|]. cbn [for_up].
      destruct (Nat.eq_dec i 0) as [->|Hi0]; [change (0 =? 0)%nat with true; cbv iota; cbn [bind]; apply B; lia|apply B; lia].
  - right. split; [left; reflexivity|]. destruct (gj_clear_free m1 i (conj R1 C1) Hi) as (m2 & E2 & S2 & V2); [rewrite V1 by lia; exact Z|].
    rewrite E2. exists m2. split; [reflexivity|]. split; [exact S2|]. intros r c Hr Hc. rewrite V2 by assumption. unfold gj_cleared. rewrite !V1 by lia. reflexivity.
Qed.

(** the final pass *)
Definition gj_final (a : nat -> nat -> F) (r c : nat) : F :=
  if (c =? r)%nat then f1 else if (c <? n)%nat then a r c else a r c * fdiv f1 (a r r).
Definition gj_last (m : mat F) : outcome (mat F) :=
  (for_ 0 (mrows m) (fun r m => x <- mget m r r ;; mul <- div f1 x ;; m <- mset m r r f1 ;;
    for_ (mrows m) (mcols m) (fun c m => x <- mget m r c ;; mset m r c (fmul x mul)) m) m)%outcome.
Lemma gj_last_free (m : mat F) : shaped m ->
  ((exists r, (r < n)%nat /\ feqb (mel m r r) f0 = true) /\ gj_last m = NonFinite) \/
  ((forall r, (r < n)%nat -> feqb (mel m r r) f0 = false) /\ exists m', gj_last m = Ok m' /\ shaped m' /\ forall r c, (r < n)%nat -> (c < N)%nat -> mel m' r c = gj_final (mel m) r c).
Proof.
  intros [HR HC]. unfold gj_last. rewrite HR.
  assert (W : forall k, (k <= n)%nat ->
    let o := for_ 0 k (fun r m => x <- mget m r r ;; mul <- div f1 x ;; m <- mset m r r f1 ;;
      for_ (mrows m) (mcols m) (fun c m => x <- mget m r c ;; mset m r c (fmul x mul)) m)%outcome m in
    ((exists r, (r < k)%nat /\ feqb (mel m r r) f0 = true) /\ o = NonFinite) \/
    ((forall r, (r < k)%nat -> feqb (mel m r r) f0 = false) /\ exists m', o = Ok m' /\ shaped m' /\ forall r c, (r < n)%nat -> (c < N)%nat -> mel m' r c = if (r <? k)%nat then gj_final (mel m) r c else mel m r c)).
  { intros k Hk. cbv zeta. induction k as [|k IH].
    - right. split; [lia|]. exists m. rewrite for_empty by lia. split; [reflexivity|]. split; [split; assumption|]. reflexivity.
    - rewrite for_S by lia. destruct (IH ltac:(lia)) as [[(r & Hr & Z) E]|[Z (m' & E & [R' C'] & V)]]; rewrite E; cbn [bind].
      + left. split; [exists r; split; [lia|exact Z]|reflexivity].
      + rewrite mget_ok by lia. cbn [bind]. rewrite (V k k) by lia. rewrite Nat.ltb_irrefl. unfold div at 1 2. destruct (feqb (mel m k k) f0) eqn:Zk.
        * left. split; [exists k; split; [lia|exact Zk]|reflexivity].
        * right. split; [intros r Hr; destruct (Nat.eq_dec r k) as [->|]; [exact Zk|apply Z; lia]|]. cbn [bind]. rewrite mset_ok by lia. cbn [bind mcols mrows].
          set (m1 := mkmat _ _ _). set (mu := fdiv f1 (mel m k k)).
          destruct (row_loop (mrows m') (mcols m') k (fun c m => x <- mget m k c ;; mset m k c (fmul x mu))%outcome m1 (fun c => fmul (mel m k c) mu)) as (m2 & E2 & R2 & C2 & V2).
          -- cbn [m1 mrows]. lia.
          -- cbn [m1 mcols]. lia.
          -- intros j m3 Hj R3 C3 H3. cbn [m1 mrows mcols] in R3, C3. rewrite !mget_ok by lia. cbn [bind]. rewrite !H3 by lia.
             cbn [m1 mel]. destruct (Nat.eqb_spec j k); [lia|]. rewrite andb_false_r. rewrite V by lia. rewrite Nat.ltb_irrefl. reflexivity.
          -- exists m2. split; [exact E2|]. cbn [m1 mrows mcols] in R2, C2. split; [split; lia|]. intros u c Hu Hc. rewrite V2. cbn [m1 mel]. rewrite V by lia. unfold gj_final.
             destruct (Nat.eqb_spec u k), (Nat.ltb_spec u (S k)), (Nat.ltb_spec u k), (Nat.leb_spec (mrows m') c), (Nat.ltb_spec c (mcols m')), (Nat.eqb_spec c k), (Nat.eqb_spec c u), (Nat.ltb_spec c n); try lia; cbn [andb]; subst; reflexivity. }
  destruct (W n (le_n n)) as [H|[Z (m' & E & S' & V)]]; [left; exact H|right]. split; [exact Z|]. exists m'. split; [exact E|]. split; [exact S'|].
  intros r c Hr Hc. rewrite V by assumption. destruct (Nat.ltb_spec r n); [reflexivity|lia].
Qed.

Lemma gauss_jordan_split (m : mat F) : shaped m -> forall m', gauss_jordan m = Ok m' -> exists s, for_ 0 n gj_column m = Ok s /\ gj_last s = Ok m'.
Proof. intros [HR HC] m' E. unfold gauss_jordan in E. rewrite HR in E. destruct (for_ 0 n gj_column m) as [s| | | | |] eqn:Es; cbn [bind] in E; try discriminate. exists s. split; [reflexivity|exact E]. Qed.

(** the matrix after k columns *)
Lemma gj_prefix (m s : mat F) : shaped m -> for_ 0 n gj_column m = Ok s ->
  exists t : nat -> mat F, t 0%nat = m /\ t n = s /\ (forall k, (k <= n)%nat -> for_ 0 k gj_column m = Ok (t k) /\ shaped (t k)) /\ forall k, (k < n)%nat -> gj_column k (t k) = Ok (t (S k)).
Proof.
  intros Hm E.
  assert (W : forall k, (k <= n)%nat -> exists s', for_ 0 k gj_column m = Ok s').
  { intros k Hk. remember (n - k)%nat as d eqn:Ed. revert k Hk Ed. induction d as [|d IH]; intros k Hk Ed; [replace k with n by lia; exists s; exact E|].
    destruct (IH (S k) ltac:(lia) ltac:(lia)) as (s' & E'). rewrite for_S in E' by lia. destruct (for_ 0 k gj_column m) as [s0| | | | |]; cbn [bind] in E'; try discriminate. exists s0. reflexivity. }
  exists (fun k => match for_ 0 k gj_column m with Ok s => s | _ => m end).
  assert (P : forall k, (k < n)%nat -> gj_column k (match for_ 0 k gj_column m with Ok s => s | _ => m end) = Ok (match for_ 0 (S k) gj_column m with Ok s => s | _ => m end)).
  { intros k Hk. destruct (W k ltac:(lia)) as (s0 & E0), (W (S k) ltac:(lia)) as (s1 & E1). rewrite E1. rewrite for_S in E1 by lia. rewrite E0 in E1 |- *. exact E1. }
  split; [rewrite for_empty by lia; reflexivity|]. split; [rewrite E; reflexivity|]. split; [|exact P].
  intros k Hk. split; [destruct (W k Hk) as (s0 & ->); reflexivity|].
  induction k as [|k IH]; [rewrite for_empty by lia; exact Hm|].
  pose proof (P k ltac:(lia)) as Pk. destruct (gj_column_free _ k (IH ltac:(lia)) ltac:(lia)) as [(_ & _ & E')|(_ & m' & E' & S' & _)]; rewrite E' in Pk; [discriminate|]. injection Pk as <-. exact S'.
Qed.

(** The left block is exactly the identity. *)
Lemma gj_identity (m m' : mat F) : shaped m -> gauss_jordan m = Ok m' -> shaped m' /\ forall r c, (r < n)%nat -> (c < n)%nat -> mel m' r c = delta r c.
Proof.
  intros Hm E. destruct (gauss_jordan_split m Hm m' E) as (s & Es & El). destruct (gj_prefix m s Hm Es) as (t & T0 & Tn & TS & T).
  assert (Z : forall k, (k <= n)%nat -> forall r c, (r < n)%nat -> (c < k)%nat -> r <> c -> mel (t k) r c = f0).
  { induction k as [|k IH]; [lia|]. intros Hk r c Hr Hc Hrc. destruct (TS k ltac:(lia)) as [_ Sk]. pose proof (T k ltac:(lia)) as Tk.
    destruct (gj_column_free (t k) k Sk ltac:(lia)) as [(_ & _ & E')|(_ & m1 & E' & _ & V)]; rewrite E' in Tk; [discriminate|]. injection Tk as <-.
    rewrite V by lia. pose proof (piv_rng n k (fun r => mel (t k) r k) ltac:(lia)) as Hp. unfold gj_cleared, gj_swapped. set (p := piv n k _) in *.
    assert (B : (c < k)%nat -> mel (t k) (swp k p r) c = f0).
    { intros Hck. apply IH; [lia|apply swp_lt; lia|exact Hck|]. unfold swp. destruct (Nat.eqb_spec r k), (Nat.eqb_spec r p); lia. }
    destruct (Nat.eqb_spec r k), (Nat.ltb_spec c k), (Nat.eqb_spec c k); try lia; auto. }
  destruct (TS n (le_n n)) as [_ Sn]. rewrite Tn in Sn. destruct (gj_last_free s Sn) as [[_ E']|[_ (m2 & E' & S' & V)]]; rewrite E' in El; [discriminate|]. injection El as <-.
  split; [exact S'|]. intros r c Hr Hc. rewrite V by lia. unfold gj_final, delta. rewrite (Nat.eqb_sym c r). destruct (Nat.eqb_spec r c) as [->|Hrc]; [reflexivity|].
  destruct (Nat.ltb_spec c n); [|lia]. rewrite <- Tn. apply Z; lia.
Qed.
End G.

Section C.
Context {F : Type} {Fo : Ops F}.
Variables n N1 N2 j1 j2 : nat.
Hypotheses (H1 : (n + j1 < N1)%nat) (H2 : (n + j2 < N2)%nat).
(** equal in the first n columns and in one augmented column of each *)
Definition agree (a b : nat -> nat -> F) : Prop :=
  (forall r c, (r < n)%nat -> (c < n)%nat -> a r c = b r c) /\ forall r, (r < n)%nat -> a r (n + j1)%nat = b r (n + j2)%nat.
Lemma agree_swapped i a b : (i < n)%nat -> agree a b -> agree (gj_swapped n i a) (gj_swapped n i b).
Proof.
  intros Hi [A1 A2]. unfold gj_swapped. assert (P : piv n i (fun r => a r i) = piv n i (fun r => b r i)) by (apply piv_ext; [exact Hi|]; intros r Hr; apply A1; lia).
  rewrite <- P. pose proof (piv_rng n i (fun r => a r i) Hi). split; intros; [apply A1|apply A2]; (lia || (apply swp_lt; lia)).
Qed.
Lemma agree_cleared i a b : (i < n)%nat -> agree a b -> agree (gj_cleared i a) (gj_cleared i b).
Proof.
  intros Hi [A1 A2]. unfold gj_cleared. split; intros r; [intros c Hr Hc|intros Hr].
  - rewrite !A1 by lia. reflexivity.
  - rewrite !A2, !A1 by lia. destruct (Nat.eqb_spec r i), (Nat.ltb_spec (n + j1) i), (Nat.ltb_spec (n + j2) i), (Nat.eqb_spec (n + j1) i), (Nat.eqb_spec (n + j2) i); try lia; reflexivity.
Qed.
Definition both (x y : outcome (mat F)) : Prop :=
  (x = NonFinite /\ y = NonFinite) \/ exists a b, x = Ok a /\ y = Ok b /\ shaped n N1 a /\ shaped n N2 b /\ agree (mel a) (mel b).
Lemma gj_column_agree i (m1 m2 : mat F) : (i < n)%nat -> shaped n N1 m1 -> shaped n N2 m2 -> agree (mel m1) (mel m2) -> both (gj_column i m1) (gj_column i m2).
Proof.
  intros Hi S1 S2 A. pose proof (agree_swapped i _ _ Hi A) as As. pose proof (agree_cleared i _ _ Hi As) as [Ac Ad].
  assert (Ep : gj_swapped n i (mel m1) i i = gj_swapped n i (mel m2) i i) by (apply As; lia).
  destruct (gj_column_free n N1 ltac:(lia) m1 i S1 Hi) as [(Z1 & L1 & E1)|(Z1 & x1 & E1 & X1 & V1)], (gj_column_free n N2 ltac:(lia) m2 i S2 Hi) as [(Z2 & L2 & E2)|(Z2 & x2 & E2 & X2 & V2)]; rewrite E1, E2.
  - left. split; reflexivity.
  - exfalso. rewrite Ep in Z1. destruct Z2 as [Z2|Z2]; [rewrite Z1 in Z2; discriminate|lia].
  - exfalso. rewrite Ep in Z1. destruct Z1 as [Z1|Z1]; [rewrite Z1 in Z2; discriminate|lia].
  - right. exists x1, x2. split; [reflexivity|]. split; [reflexivity|]. split; [exact X1|]. split; [exact X2|]. split; intros; rewrite V1, V2 by lia; [apply Ac|apply Ad]; lia.
Qed.
Lemma gj_agree (m1 m2 : mat F) : shaped n N1 m1 -> shaped n N2 m2 -> agree (mel m1) (mel m2) -> both (gauss_jordan m1) (gauss_jordan m2).
Proof.
  intros S1 S2 A.
  assert (W : forall k, (k <= n)%nat -> both (for_ 0 k gj_column m1) (for_ 0 k gj_column m2)).
  { induction k as [|k IH]; intros Hk.
    - rewrite !for_empty by lia. right. exists m1, m2. auto.
    - rewrite !for_S by lia. destruct (IH ltac:(lia)) as [[-> ->]|(a & b & -> & -> & Sa & Sb & Ab)]; cbn [bind]; [left; split; reflexivity|]. apply gj_column_agree; (assumption || lia). }
  unfold gauss_jordan. rewrite (proj1 S1), (proj1 S2). destruct (W n (le_n n)) as [[-> ->]|(a & b & -> & -> & Sa & Sb & Ab)]; cbn [bind]; [left; split; reflexivity|].
  fold (gj_last a) (gj_last b).
  destruct (gj_last_free n N1 ltac:(lia) a Sa) as [[(r & Hr & Z) E1]|[Z1 (x1 & E1 & X1 & V1)]], (gj_last_free n N2 ltac:(lia) b Sb) as [[(r' & Hr' & Z') E2]|[Z2 (x2 & E2 & X2 & V2)]]; rewrite E1, E2.
  - left. split; reflexivity.
  - exfalso. rewrite (proj1 Ab r r Hr Hr), (Z2 r Hr) in Z. discriminate.
  - exfalso. rewrite <- (proj1 Ab r' r' Hr' Hr'), (Z1 r' Hr') in Z'. discriminate.
  - right. exists x1, x2. split; [reflexivity|]. split; [reflexivity|]. split; [exact X1|]. split; [exact X2|]. destruct Ab as [A1 A2].
    split; intros; rewrite V1, V2 by lia; unfold gj_final.
    + rewrite !A1 by lia. destruct (Nat.ltb_spec c n); [reflexivity|lia].
    + rewrite A2, A1 by lia. destruct (Nat.eqb_spec (n + j1) r), (Nat.eqb_spec (n + j2) r), (Nat.ltb_spec (n + j1) n), (Nat.ltb_spec (n + j2) n); try lia; reflexivity.
Qed.
End C.
