(** * Lemmas about extrapolation to zero *)
From Coq Require Import Reals Arith Bool Lia Lra.
From Verif Require Import Base Alg Inst RSum ModelCG ModelDiff SpecDiff LemEig LemEig3.
Local Open Scope R_scope.

Lemma c_gt : 1 < ridder_c. Proof. unfold ridder_c; lra. Qed.
Lemma cpow_gt j : 1 < ridder_c ^ S j.
Proof. pose proof c_gt. induction j as [|j I]; [simpl; lra|]. change (ridder_c ^ S (S j)) with (ridder_c * ridder_c ^ S j). nra. Qed.
Lemma cpow_pos j : 0 < ridder_c ^ j. Proof. apply pow_lt. pose proof c_gt; lra. Qed.
Lemma step_pos m : 0 < step_at m. Proof. unfold step_at. apply Rinv_0_lt_compat. apply (cpow_pos m). Qed.
Lemma step_S m : step_at (S m) = step_at m / ridder_c.
Proof. unfold step_at, ridder_c. pose proof (cpow_pos m) as H. unfold ridder_c in H. simpl. field. lra. Qed.
Lemma step_back m : step_at m = ridder_c * step_at (S m).
Proof. rewrite step_S. unfold ridder_c. field. Qed.
Lemma step_back_n j m : step_at m = ridder_c ^ j * step_at (m + j).
Proof. induction j as [|j I]; [rewrite Nat.add_0_r; simpl; ring|]. rewrite Nat.add_succ_r. rewrite I, (step_back (m + j)). simpl. ring. Qed.

(** the table *)
Fixpoint table (y : nat -> option R) (i j : nat) : option R :=
  match j with O => y i | S k => extrapolated (ridder_c ^ S k) (table y i k) (table y (i - 1) k) end.
Fixpoint weight (j k : nat) : R := match j with O => 1 | S l => weight l k * ((ridder_c ^ S l - ridder_c ^ k) / (ridder_c ^ S l - 1)) end.
Lemma weight_0 j : weight j 0 = 1.
Proof. induction j as [|j I]; [reflexivity|]. cbn [weight]. rewrite I. pose proof (cpow_gt j). replace (ridder_c ^ 0) with 1 by reflexivity. field. lra. Qed.
Lemma weight_zero j k : (1 <= k <= j)%nat -> weight j k = 0.
Proof.
  induction j as [|j I]; intros H; [lia|]. cbn [weight]. destruct (Nat.eq_dec k (S j)) as [->|N].
  - replace (ridder_c ^ S j - ridder_c ^ S j) with 0 by ring. unfold Rdiv. ring.
  - rewrite I by lia. ring.
Qed.
Lemma table_poly y n a : forall j i, (j <= i)%nat -> (forall m, (i - j <= m <= i)%nat -> y m = Some (Sum n (fun k => a k * step_at m ^ k))) ->
  table y i j = Some (Sum n (fun k => a k * (weight j k * step_at i ^ k))).
Proof.
  induction j as [|j I]; intros i H Y.
  - cbn [table weight]. rewrite (Y i) by lia. f_equal. apply S_ext; intros; ring.
  - cbn [table]. rewrite (I i), (I (i - 1)%nat); try lia; try (intros; apply Y; lia). cbn [extrapolated]. f_equal.
    pose proof (cpow_gt j) as C.
    transitivity (Sum n (fun k => (ridder_c ^ S j * (a k * (weight j k * step_at i ^ k)) - a k * (weight j k * step_at (i - 1) ^ k)) * / (ridder_c ^ S j - 1))).
    { rewrite (S_mul_r n (/ (ridder_c ^ S j - 1)) (fun k => ridder_c ^ S j * (a k * (weight j k * step_at i ^ k)) - a k * (weight j k * step_at (i - 1) ^ k))), S_sub, S_mul_l. reflexivity. }
    apply S_ext; intros k Hk. cbn [weight].
    replace (step_at (i - 1)) with (ridder_c * step_at i) by (destruct i as [|i]; [lia|]; replace (S i - 1)%nat with i by lia; symmetry; apply step_back).
    rewrite Rpow_mult_distr. cbn [weight]. field. lra.
Qed.
Lemma S_only0 n (f : nat -> R) : (0 < n)%nat -> (forall k, (1 <= k < n)%nat -> f k = 0) -> Sum n f = f 0%nat.
Proof. destruct n as [|n]; [lia|]. intros _ H. rewrite S_first. rewrite (S_zero n (fun i => f (S i))); [ring|]. intros i Hi. apply H. lia. Qed.
Lemma table_exact y i j a : (j <= i)%nat -> (forall m, (i - j <= m <= i)%nat -> y m = Some (poly j a (step_at m))) -> table y i j = Some (a 0%nat).
Proof.
  intros H Y. rewrite (table_poly y (j + 1) a j i H Y). f_equal. rewrite S_only0.
  - rewrite weight_0. simpl. ring.
  - lia.
  - intros k Hk. cbn beta. rewrite weight_zero by lia. ring.
Qed.
(** Neville *)
Definition padded (n : nat) (a : nat -> R) : nat -> R := fun k => if (k <? n)%nat then a k else 0.
Definition shifted (a : nat -> R) : nat -> R := fun k => match k with O => 0 | S l => a l end.
Lemma poly_padded n a x : poly (S n) (padded (n + 1) a) x = poly n a x.
Proof.
  unfold poly. replace (S n + 1)%nat with ((n + 1) + 1)%nat by lia. rewrite S_split.
  rewrite (S_ext (n + 1) (fun k => padded (n + 1) a k * x ^ k) (fun k => a k * x ^ k)).
  2: { intros k Hk. unfold padded. destruct (Nat.ltb_spec k (n + 1)); [reflexivity|lia]. }
  rewrite (S_zero 1 (fun i => padded (n + 1) a (n + 1 + i) * x ^ (n + 1 + i))); [ring|].
  intros k Hk. unfold padded. destruct (Nat.ltb_spec (n + 1 + k) (n + 1)); [lia|ring].
Qed.
Lemma poly_shifted n a x : poly (S n) (shifted a) x = x * poly n a x.
Proof.
  unfold poly. replace (S n + 1)%nat with (S (n + 1)) by lia. rewrite S_first. cbn [shifted].
  rewrite <- S_mul_l. rewrite Rmult_0_l, Rplus_0_l. apply S_ext. intros k Hk. simpl. ring.
Qed.
Lemma poly_comb n a b c d e x : poly n (fun k => (c * a k + d * b k) / e) x = (c * poly n a x + d * poly n b x) / e.
Proof.
  unfold poly. unfold Rdiv at 2. rewrite <- !S_mul_l, <- S_add, <- S_mul_r. apply S_ext; intros k Hk. unfold Rdiv. ring.
Qed.
Lemma poly_diff n a b x : poly n (fun k => a k - b k) x = poly n a x - poly n b x.
Proof. unfold poly. rewrite <- S_sub. apply S_ext; intros k Hk. ring. Qed.
Lemma table_poly_exists y : forall j i p, (j <= i)%nat -> table y i j = Some p -> estimate y i j p.
Proof.
  induction j as [|j I]; intros i p H T.
  - split; [lia|]. exists (fun _ => p). split; [|reflexivity]. intros m Hm. replace m with i by lia. cbn [table] in T. rewrite T. f_equal. unfold poly. cbn. ring.
  - cbn [table] in T. destruct (table y i j) as [q|] eqn:Eq; [|discriminate]. destruct (table y (i - 1) j) as [r|] eqn:Er; [|discriminate].
    cbn [extrapolated] in T. injection T as T.
    apply I in Eq; [|lia]. apply I in Er; [|lia]. destruct Eq as (_ & a & Ya & Ha). destruct Er as (_ & b & Yb & Hb).
    set (x0 := step_at (i - S j)) in *. set (xi := step_at i) in *.
    assert (X : x0 = ridder_c ^ S j * xi).
    { unfold x0, xi. rewrite (step_back_n (S j)). replace (i - S j + S j)%nat with i by lia. reflexivity. }
    pose proof (step_pos i) as Pi. fold xi in Pi. pose proof (cpow_gt j) as C.
    assert (Ne : x0 - xi <> 0) by (rewrite X; nra).
    split; [lia|].
    exists (fun k => (1 * (x0 * padded (j + 1) a k - shifted a k) + 1 * (shifted b k - xi * padded (j + 1) b k)) / (x0 - xi)). split.
    + intros m Hm. 
      rewrite (poly_comb (S j) (fun k => x0 * padded (j + 1) a k - shifted a k) (fun k => shifted b k - xi * padded (j + 1) b k)).
      rewrite (poly_diff (S j) (fun k => x0 * padded (j + 1) a k) (shifted a)), (poly_diff (S j) (shifted b) (fun k => xi * padded (j + 1) b k)), !poly_shifted.
      assert (Sc : forall z u, poly (S j) (fun k => z * padded (j + 1) u k) (step_at m) = z * poly j u (step_at m)).
      { intros z u. rewrite <- (poly_padded j u). unfold poly. rewrite <- S_mul_l. apply S_ext; intros; ring. }
      rewrite !Sc.
      destruct (Nat.eq_dec m (i - S j)) as [E|E].
      * subst m. fold x0. specialize (Yb (i - S j)%nat). fold x0 in Yb. rewrite Yb by lia. f_equal. field. exact Ne.
      * destruct (Nat.eq_dec m i) as [E'|E'].
        -- subst m. fold xi. specialize (Ya i). fold xi in Ya. rewrite Ya by lia. f_equal. field. exact Ne.
        -- pose proof (Ya m) as Y1. pose proof (Yb m) as Y2. rewrite Y1 in Y2 by lia. rewrite Y1 by lia.
           assert (Y3 : poly j a (step_at m) = poly j b (step_at m)) by (injection (Y2 ltac:(lia)); intros; congruence). rewrite <- Y3. f_equal. field. exact Ne.
    + cbn [shifted]. unfold padded. replace (0 <? j + 1)%nat with true by (symmetry; apply Nat.ltb_lt; lia).
      rewrite <- Ha, <- Hb, <- T, X. change (ridder_c * ridder_c ^ j) with (ridder_c ^ S j). generalize dependent (ridder_c ^ S j). intros. field. split; nra.
Qed.
Lemma table_iff y i j p : (j <= i)%nat -> table y i j = Some p <-> estimate y i j p.
Proof. intros H. split; [apply table_poly_exists; exact H|]. intros (_ & a & Y & ->). apply table_exact; [exact H|exact Y]. Qed.

(** the loop *)
Definition cell (y : nat -> option R) (i j : nat) : option R :=
  omax (distance (table y i j) (table y i (j - 1))) (distance (table y i j) (table y (i - 1) (j - 1))).
Lemma omax_some a b : omax (Some a) (Some b) = Some (Rmax a b).
Proof. unfold omax, olt. destruct (R_ltb a b) eqn:E; f_equal. - apply R_ltb_spec in E. rewrite Rmax_right; lra. - apply R_ltb_false in E. rewrite Rmax_left; lra. Qed.
Lemma table_parts y i j p : (1 <= j <= i)%nat -> table y i j = Some p -> exists q r, table y i (j - 1) = Some q /\ table y (i - 1) (j - 1) = Some r.
Proof.
  intros H T. destruct j as [|j]; [lia|]. cbn [table] in T. replace (S j - 1)%nat with j by lia.
  destruct (table y i j) as [q|]; [|discriminate]. destruct (table y (i - 1) j) as [r|]; [|discriminate]. exists q, r. split; reflexivity.
Qed.
Lemma cell_none y i j : table y i j = None -> cell y i j = None.
Proof. intros H. unfold cell. rewrite H. reflexivity. Qed.
Lemma cell_iff y i j p e : (1 <= j <= i)%nat -> (table y i j = Some p /\ cell y i j = Some e) <-> estimate_error y i j p e.
Proof.
  intros H. split.
  - intros [T C]. destruct (table_parts y i j p H T) as (q & r & Tq & Tr). unfold cell in C. rewrite T, Tq, Tr in C. cbn [distance] in C. rewrite omax_some in C. injection C as C.
    split; [exact H|]. exists q, r. split; [apply table_iff; [lia|exact T]|]. split; [apply table_iff; [lia|exact Tq]|]. split; [apply table_iff; [lia|exact Tr]|]. symmetry; exact C.
  - intros (_ & q & r & E & Eq & Er & ->). apply table_iff in E; [|lia]. apply table_iff in Eq; [|lia]. apply table_iff in Er; [|lia].
    split; [exact E|]. unfold cell. rewrite E, Eq, Er. cbn [distance]. apply omax_some.
Qed.
Lemma cell_some y i j p : (1 <= j <= i)%nat -> table y i j = Some p -> exists e, cell y i j = Some e.
Proof. intros H T. destruct (table_parts y i j p H T) as (q & r & Tq & Tr). unfold cell. rewrite T, Tq, Tr. cbn [distance]. rewrite omax_some. eexists; reflexivity. Qed.

Definition visited (m k i j : nat) : Prop := (1 <= j <= i)%nat /\ ((i < m)%nat \/ i = m /\ (j <= k)%nat).
Definition best_upto (y : nat -> option R) (m k : nat) (b : best) : Prop :=
  match b with
  | Some (p, e) => exists i j, (visited m k i j /\ estimate_error y i j p e) /\ (forall i' j' p' e', visited m k i' j' -> estimate_error y i' j' p' e' -> e <= e' /\ (earlier i' j' i j -> e < e'))
  | None => forall i j p' e', visited m k i j -> ~ estimate_error y i j p' e'
  end.
Lemma columns_ok y i prev ok b : (forall j, (j < i)%nat -> prev j = table y (i - 1) j) -> best_upto y i 0 b ->
  forall k, (k <= i)%nat -> let r := ext_columns prev k (mkrow (upd (fun _ => None) 0 (y i)) 1 ok false b) in
  (forall j, (j <= k)%nat -> rw_P r j = table y i j) /\ rw_cj r = ridder_c ^ k /\
  (rw_ok r = true <-> ok = true \/ exists j p, (1 <= j <= k)%nat /\ table y i j = Some p) /\ best_upto y i k (rw_best r) /\ (rw_better r = false -> rw_best r = b).
Proof.
  intros Hp Hb. induction k as [|k I]; intros Hk; cbn zeta.
  - cbn [ext_columns rw_P rw_cj rw_ok rw_best rw_better]. split; [|split; [reflexivity|split; [|split; [exact Hb|reflexivity]]]].
    + intros j Hj. replace j with 0%nat by lia. reflexivity.
    + split; [intros ->; left; reflexivity|]. intros [H|(j & p & H & _)]; [exact H|lia].
  - specialize (I ltac:(lia)). cbn zeta in I. cbn [ext_columns]. set (s := ext_columns prev k _) in *. destruct I as (IP & Ic & Io & Ib & In).
    unfold ext_column. replace (S k - 1)%nat with k by lia. rewrite (IP k) by lia. rewrite (Hp k) by lia. rewrite Ic.
    assert (T : extrapolated (ridder_c ^ k * ridder_c) (table y i k) (table y (i - 1) k) = table y i (S k)).
    { cbn [table]. replace (ridder_c ^ k * ridder_c) with (ridder_c ^ S k) by (simpl; ring). reflexivity. }
    rewrite T. change (omax (distance (table y i (S k)) (table y i k)) (distance (table y i (S k)) (table y (i - 1) k))) with
      (omax (distance (table y i (S k)) (table y i k)) (distance (table y i (S k)) (table y (i - 1) k))).
    assert (Cc : omax (distance (table y i (S k)) (table y i k)) (distance (table y i (S k)) (table y (i - 1) k)) = cell y i (S k)).
    { unfold cell. replace (S k - 1)%nat with k by lia. reflexivity. }
    rewrite Cc.
    assert (PP : forall j, (j <= S k)%nat -> upd (rw_P s) (S k) (table y i (S k)) j = table y i j).
    { intros j Hj. unfold upd. destruct (Nat.eqb_spec j (S k)) as [->|N]; [reflexivity|]. apply IP. lia. }
    assert (CJ : ridder_c ^ k * ridder_c = ridder_c ^ S k) by (simpl; ring).
    assert (OK : rw_ok s || negb (isnan (table y i (S k))) = true <-> ok = true \/ exists j p, (1 <= j <= S k)%nat /\ table y i j = Some p).
    { rewrite orb_true_iff, Io. split.
      - intros [[H|(j & p & H & Hj)]|H]; [left; exact H|right; exists j, p; split; [lia|exact Hj]|].
        destruct (table y i (S k)) as [p|] eqn:E; [|discriminate]. right. exists (S k), p. split; [lia|exact E].
      - intros [H|(j & p & H & Hj)]; [left; left; exact H|]. destruct (Nat.eq_dec j (S k)) as [->|N].
        + right. rewrite Hj. reflexivity.
        + left. right. exists j, p. split; [lia|exact Hj]. }
    destruct (improves (cell y i (S k)) (rw_best s)) eqn:Im.
    + cbn [rw_P rw_cj rw_ok rw_best rw_better]. split; [exact PP|]. split; [exact CJ|]. split; [exact OK|]. split; [|discriminate].
      destruct (table y i (S k)) as [p|] eqn:ET. 2: { rewrite (cell_none _ _ _ ET) in Im. discriminate. }
      destruct (cell_some y i (S k) p ltac:(lia) ET) as [e Ee]. rewrite Ee in *.
      assert (EE : estimate_error y i (S k) p e) by (apply cell_iff; [lia|split; assumption]).
      cbn [best_upto]. exists i, (S k). split.
      { split; [|exact EE]. split; [lia|]. right. split; [reflexivity|lia]. }
      intros i' j' p' e' V EE'. destruct V as [V1 V2].
      destruct (Nat.eq_dec i' i) as [Ei|Ei]; [destruct (Nat.eq_dec j' (S k)) as [Ej|Ej]|].
      * subst i' j'. apply cell_iff in EE'; [|lia]. destruct EE' as [_ E2]. rewrite Ee in E2. injection E2 as E2. split; [lra|]. unfold earlier. lia.
      * assert (V : visited i k i' j') by (split; [exact V1|]; right; split; [exact Ei|]; destruct V2; lia).
        unfold improves in Im. destruct (rw_best s) as [[bp be]|]; cbn [best_upto] in Ib.
        -- apply R_ltb_spec in Im. destruct Ib as (i0 & j0 & _ & Ib). destruct (Ib i' j' p' e' V EE'). split; [lra|intros; lra].
        -- destruct (Ib i' j' p' e' V EE').
      * assert (V : visited i k i' j') by (split; [exact V1|]; left; lia).
        unfold improves in Im. destruct (rw_best s) as [[bp be]|]; cbn [best_upto] in Ib.
        -- apply R_ltb_spec in Im. destruct Ib as (i0 & j0 & _ & Ib). destruct (Ib i' j' p' e' V EE'). split; [lra|intros; lra].
        -- destruct (Ib i' j' p' e' V EE').
    + cbn [rw_P rw_cj rw_ok rw_best rw_better]. split; [exact PP|]. split; [exact CJ|]. split; [exact OK|]. split; [|exact In].
      assert (N : forall i' j', visited i (S k) i' j' -> visited i k i' j' \/ i' = i /\ j' = S k).
      { intros i' j' [V1 V2]. destruct (Nat.eq_dec i' i) as [Ei|Ei]; [destruct (Nat.eq_dec j' (S k)) as [Ej|Ej]|].
        - right; split; assumption.
        - left. split; [exact V1|]. right. destruct V2; split; lia.
        - left. split; [exact V1|]. left. destruct V2; lia. }
      unfold improves in Im. destruct (rw_best s) as [[bp be]|]; cbn [best_upto] in *.
      * destruct Ib as (i0 & j0 & (V0 & E0) & Ib). exists i0, j0. split.
        { split; [|exact E0]. destruct V0 as [V1 V2]. split; [exact V1|]. destruct V2; [left; assumption|right]. split; lia. }
        intros i' j' p' e' V EE'. destruct (N i' j' V) as [V'|[-> ->]]; [exact (Ib i' j' p' e' V' EE')|].
        apply cell_iff in EE'; [|lia]. destruct EE' as [_ E2]. rewrite E2 in Im. apply R_ltb_false in Im. split; [exact Im|]. destruct V0 as [V1 V2]. unfold earlier. lia.
      * intros i' j' p' e' V EE'. destruct (N i' j' V) as [V'|[-> ->]]; [exact (Ib i' j' p' e' V' EE')|].
        apply cell_iff in EE'; [|lia]. destruct EE' as [_ E2]. rewrite E2 in Im. discriminate.
Qed.
Lemma best_next y i b : best_upto y i i b <-> best_upto y (S i) 0 b.
Proof.
  assert (V : forall a c, visited i i a c <-> visited (S i) 0 a c).
  { intros a c. unfold visited. lia. }
  unfold best_upto. destruct b as [[p e]|].
  - split; intros (a & c & (H1 & H2) & H3); exists a, c; (split; [split; [apply V; exact H1|exact H2]|]); intros a' c' p' e' H4; apply (H3 a' c'); apply V; exact H4.
  - split; intros H a c p' e' H4; apply H; apply V; exact H4.
Qed.
(** what is proved about a whole run: y is the sequence of samples, Inv what holds of the functor's state *)
Lemma rows_ok {St} (f : St -> R -> option R * St) (y : nat -> option R) (Inv : nat -> St -> Prop) :
  (forall i s, Inv i s -> fst (f s (step_at i)) = y i /\ Inv (S i) (snd (f s (step_at i)))) ->
  forall n i prev b ok s, (forall j, (j < i)%nat -> prev j = table y (i - 1) j) -> best_upto y i 0 b ->
  (ok = true -> exists a j p e, (a < i)%nat /\ estimate_error y a j p e) -> Inv i s ->
  exists m, (i <= m < i + S n)%nat /\ (m = (i + n)%nat \/ gives_up y m) /\ best_upto y (S m) 0 (fst (ext_rows f (S n) i (step_at i) prev b ok s)) /\ Inv (S m) (snd (ext_rows f (S n) i (step_at i) prev b ok s)).
Proof.
  intros Hf. induction n as [|n I]; intros i prev b ok s Hp Hb Ho Hs.
  all: destruct (Hf i s Hs) as [F1 F2]; remember (ext_rows f (S _) i (step_at i) prev b ok s) as res eqn:Er; cbn [ext_rows] in Er; destruct (f s (step_at i)) as [v s']; cbn [fst snd] in F1, F2; subst v.
  all: pose proof (columns_ok y i prev ok b Hp Hb i (le_n i)) as C; cbn zeta in C; set (r := ext_columns prev i _) in *; destruct C as (CP & _ & Co & Cb & Cn).
  all: pose proof (proj1 (best_next y i (rw_best r)) Cb) as Cb'.
  - exists i. split; [lia|]. split; [left; lia|]. destruct (rw_ok r && _ && _ && _); subst res; cbn [fst snd]; split; assumption.
  - assert (Ok' : rw_ok r = true -> exists a j p e, (a < S i)%nat /\ estimate_error y a j p e).
    { intros H. apply Co in H. destruct H as [H|(j & p & H & Hj)].
      - destruct (Ho H) as (a & j & p & e & Ha & E). exists a, j, p, e. split; [lia|exact E].
      - destruct (cell_some y i j p ltac:(lia) Hj) as [e Ee]. exists i, j, p, e. split; [lia|]. apply cell_iff; [lia|split; assumption]. }
    destruct (rw_ok r && negb (rw_better r) && (0 <? i)%nat && went_bad i (rw_P r) prev (rw_best r)) eqn:Stop.
    + apply andb_true_iff in Stop. destruct Stop as [Stop S4]. apply andb_true_iff in Stop. destruct Stop as [Stop S3]. apply andb_true_iff in Stop. destruct Stop as [S1 S2].
      apply Nat.ltb_lt in S3. apply negb_true_iff in S2. specialize (Cn S2). subst res. cbn [fst snd].
      exists i. split; [lia|]. split; [right|split; assumption].
      destruct (Ok' S1) as (a0 & j0 & p0 & e0 & A0 & E0).
      split; [exact S3|]. split; [exists a0, j0, p0, e0; split; [lia|exact E0]|]. split.
      * intros j p e E. pose proof E as [[J1 J2] _].
        assert (V : visited i i i j) by (split; [split; assumption|right; split; [reflexivity|exact J2]]).
        rewrite Cn in Cb. destruct b as [[bp be]|]; cbn [best_upto] in Cb, Hb.
        -- destruct Hb as (a & c & ([V1 V2] & E1) & _). exists a, c, bp, be. split; [destruct V2; lia|]. split; [exact E1|]. destruct Cb as (i1 & j1 & _ & Cb). exact (proj1 (Cb i j p e V E)).
        -- destruct (Cb i j p e V E).
      * intros p q Ep Eq. apply table_iff in Ep; [|lia]. apply table_iff in Eq; [|lia].
        unfold went_bad in S4. rewrite (CP i) in S4 by lia. rewrite (Hp (i - 1)%nat) in S4 by lia. rewrite Ep, Eq in S4. cbn [distance isnan] in S4. rewrite orb_false_r in S4.
        destruct (rw_best r) as [[bp be]|]; [|discriminate]. apply R_ltb_spec in S4. cbn [best_upto] in Cb. destruct Cb as (a & c & ([V1 V2] & E1) & _).
        exists a, c, bp, be. split; [destruct V2; lia|]. split; [exact E1|exact S4].
    + rewrite <- step_S in Er.
      destruct (I (S i) (rw_P r) (rw_best r) (rw_ok r) s') as (m & M1 & M2 & M3).
      * intros j Hj. replace (S i - 1)%nat with i by lia. apply CP. lia.
      * exact Cb'.
      * exact Ok'.
      * exact F2.
      * subst res. exists m. split; [lia|]. split; [destruct M2 as [->|M2]; [left; lia|right; exact M2]|exact M3].
Qed.
Lemma step_0 : step_at 0 = 1. Proof. unfold step_at. simpl. field. Qed.
Lemma chosen_upto y m b : best_upto y (S m) 0 b <-> chosen y m b.
Proof.
  assert (V : forall i j p e, estimate_error y i j p e -> (visited (S m) 0 i j <-> (i <= m)%nat)).
  { intros i j p e [H _]. unfold visited. lia. }
  unfold best_upto, chosen. destruct b as [[p e]|].
  - split.
    + intros (i & j & [H1 H2] & H3). exists i, j. split; [apply (V _ _ _ _ H2); exact H1|]. split; [exact H2|]. intros i' j' p' e' L E. apply (H3 i' j' p' e'); [apply (V _ _ _ _ E); exact L|exact E].
    + intros (i & j & H1 & H2 & H3). exists i, j. split; [split; [apply (V _ _ _ _ H2); exact H1|exact H2]|]. intros i' j' p' e' L E. apply (H3 i' j' p' e'); [apply (V _ _ _ _ E); exact L|exact E].
  - split; intros H i j p e L E; apply (H i j p e); try exact E; apply (V _ _ _ _ E); exact L.
Qed.
Lemma extrapolate_ok {St} (f : St -> R -> option R * St) (y : nat -> option R) (Inv : nat -> St -> Prop) s :
  (forall i s, Inv i s -> fst (f s (step_at i)) = y i /\ Inv (S i) (snd (f s (step_at i)))) -> Inv 0%nat s ->
  exists m, (m < 400)%nat /\ (m = 399%nat \/ gives_up y m) /\ chosen y m (fst (extrapolate_to_zero f s)) /\ Inv (S m) (snd (extrapolate_to_zero f s)).
Proof.
  intros Hf Hs. unfold extrapolate_to_zero. assert (Ep : ridder_points = S 399) by (unfold ridder_points; reflexivity). rewrite Ep. destruct (rows_ok f y Inv Hf 399 0 (fun _ => None) None false s) as (m & M1 & M2 & M3 & M4).
  - intros j Hj. lia.
  - cbn [best_upto]. intros i j p e [V1 V2]. destruct V2; lia.
  - discriminate.
  - exact Hs.
  - exists m. split; [lia|]. split; [exact M2|]. rewrite step_0 in M3, M4. split; [apply chosen_upto; exact M3|exact M4].
Qed.
Lemma error_nonneg y i j p e : estimate_error y i j p e -> 0 <= e.
Proof. intros (_ & p1 & p2 & _ & _ & _ & ->). eapply Rle_trans; [apply Rabs_pos|apply Rmax_l]. Qed.
Lemma estimate_unique y i j p q : estimate y i j p -> estimate y i j q -> p = q.
Proof. intros E1 E2. pose proof E1 as [H _]. apply table_iff in E1; [|exact H]. apply table_iff in E2; [|exact H]. congruence. Qed.
(** a sequence that is constant where it is defined *)
Lemma constant_table y p : (forall m, y m = None \/ y m = Some p) -> forall j i, table y i j = None \/ table y i j = Some p.
Proof.
  intros Y. induction j as [|j I]; intros i; [apply Y|]. cbn [table]. destruct (I i) as [->| ->]; [left; reflexivity|]. destruct (I (i - 1)%nat) as [->| ->]; [left; reflexivity|]. right. cbn [extrapolated]. f_equal.
  pose proof (cpow_gt j) as C. try change (ridder_c * ridder_c ^ j) with (ridder_c ^ S j). revert C. generalize (ridder_c ^ S j). intros q C. field. lra.
Qed.
Lemma constant_chosen y p k m b : (forall m, y m = None \/ y m = Some p) -> (k < 399)%nat -> y k = Some p -> y (S k) = Some p -> (m = 399%nat \/ gives_up y m) -> chosen y m b -> b = Some (p, 0).
Proof.
  intros Y Hk Y1 Y2 M C.
  assert (E : forall i j p' e', estimate_error y i j p' e' -> p' = p /\ e' = 0).
  { intros i j p' e' (H & p1 & p2 & E & E1 & E2 & ->). apply table_iff in E; [|lia]. apply table_iff in E1; [|lia]. apply table_iff in E2; [|lia].
    destruct (constant_table y p Y j i) as [T|T]; [congruence|]. destruct (constant_table y p Y (j - 1) i) as [T1|T1]; [congruence|]. destruct (constant_table y p Y (j - 1) (i - 1)) as [T2|T2]; [congruence|].
    assert (p' = p) by congruence. assert (p1 = p) by congruence. assert (p2 = p) by congruence. subst. split; [reflexivity|]. replace (p - p) with 0 by ring. rewrite Rabs_R0. apply Rmax_left; lra. }
  assert (X : exists i j p' e', (i <= m)%nat /\ estimate_error y i j p' e').
  { destruct M as [->|(_ & (i & j & p' & e' & H) & _)]; [|exists i, j, p', e'; exact H]. exists (S k), 1%nat.
    assert (T : table y (S k) 1 = Some p). { cbn [table]. replace (S k - 1)%nat with k by lia. rewrite Y1, Y2. cbn [extrapolated]. f_equal. pose proof c_gt. cbn [pow]. field. lra. }
    destruct (cell_some y (S k) 1 p ltac:(lia) T) as [e Ee]. exists p, e. split; [lia|]. apply cell_iff; [lia|]. split; assumption. }
  destruct X as (i & j & p' & e' & L & X). destruct b as [[bp be]|]; cbn [chosen] in C.
  - destruct C as (i0 & j0 & _ & E0 & _). destruct (E _ _ _ _ E0) as [-> ->]. reflexivity.
  - destruct (C i j p' e' L X).
Qed.
(** a sequence p + a h^2 *)
Definition even_coef (p a : R) (k : nat) : R := match k with 0%nat => p | 2%nat => a | _ => 0 end.
Lemma even_table y p a : (forall m, y m = Some (p + a * step_at m ^ 2)) -> forall j i, (j <= i)%nat -> table y i j = Some (p + a * weight j 2 * step_at i ^ 2).
Proof.
  intros Y j i H. rewrite (table_poly y 3 (even_coef p a) j i H).
  - f_equal. cbn [sum even_coef]. cbn [fadd f0 ROps]. rewrite weight_0. simpl. ring.
  - intros m Hm. rewrite Y. f_equal. cbn [sum even_coef]. cbn [fadd f0 ROps]. simpl. ring.
Qed.
Lemma weight_1_2 : weight 1 2 = - ridder_c.
Proof. cbn [weight]. unfold ridder_c. field. Qed.
Lemma even_chosen y p a m b : (forall m, y m = Some (p + a * step_at m ^ 2)) -> (m < 400)%nat -> (m = 399%nat \/ gives_up y m) -> chosen y m b -> b = Some (p, 0).
Proof.
  intros Y Lm M C. destruct (Req_dec a 0) as [Z|Na].
  { apply (constant_chosen y p 0 m b); try assumption; try lia; intros; [right|..]; rewrite Y, Z; f_equal; ring. }
  pose proof (even_table y p a Y) as T. pose proof c_gt as Cg. pose proof (Rabs_pos_lt a Na) as Pa.
  assert (EE : forall i j p' e', estimate_error y i j p' e' -> p' = p + a * weight j 2 * step_at i ^ 2 /\
     e' = Rmax (Rabs (a * (weight j 2 - weight (j - 1) 2) * step_at i ^ 2)) (Rabs (a * (weight j 2 * step_at i ^ 2 - weight (j - 1) 2 * step_at (i - 1) ^ 2)))).
  { intros i j p' e' (H & p1 & p2 & E & E1 & E2 & ->). apply table_iff in E; [|lia]. apply table_iff in E1; [|lia]. apply table_iff in E2; [|lia].
    rewrite T in E by lia. rewrite T in E1 by lia. rewrite T in E2 by lia. injection E as <-. injection E1 as <-. injection E2 as <-. split; [reflexivity|]. f_equal; f_equal; ring. }
  assert (EX : forall i j, (1 <= j <= i)%nat -> exists p' e', estimate_error y i j p' e').
  { intros i j H. destruct (cell_some y i j _ H (T j i ltac:(lia))) as [e Ee]. exists (p + a * weight j 2 * step_at i ^ 2), e. apply cell_iff; [exact H|]. split; [apply T; lia|exact Ee]. }
  assert (W0 : weight 0 2 = 1) by reflexivity. assert (W2 : forall j, (2 <= j)%nat -> weight j 2 = 0) by (intros; apply weight_zero; lia).
  (* first-order errors *)
  assert (F1 : forall i p' e', estimate_error y i 1 p' e' -> e' = Rabs a * (ridder_c + ridder_c ^ 2) * step_at i ^ 2).
  { intros i p' e' E. pose proof E as [Hi _]. destruct (EE _ _ _ _ E) as [_ ->]. replace (1 - 1)%nat with 0%nat by lia. rewrite W0, weight_1_2.
    replace (step_at (i - 1)) with (ridder_c * step_at i) by (destruct i as [|i]; [lia|]; replace (S i - 1)%nat with i by lia; symmetry; apply step_back).
    pose proof (step_pos i) as Ps. set (h := step_at i) in *. assert (Ph : 0 < h ^ 2) by (apply pow_lt; exact Ps).
    rewrite Rmax_right.
    - replace (a * (- ridder_c * h ^ 2 - 1 * (ridder_c * h) ^ 2)) with (- (a * ((ridder_c + ridder_c ^ 2) * h ^ 2))) by ring. rewrite Rabs_Ropp, Rabs_mult, (Rabs_right ((ridder_c + ridder_c ^ 2) * h ^ 2)); [ring|]. apply Rle_ge. apply Rmult_le_pos; nra.
    - replace (a * (- ridder_c - 1) * h ^ 2) with (- (a * ((ridder_c + 1) * h ^ 2))) by ring. replace (a * (- ridder_c * h ^ 2 - 1 * (ridder_c * h) ^ 2)) with (- (a * ((ridder_c + ridder_c ^ 2) * h ^ 2))) by ring.
      rewrite !Rabs_Ropp, (Rabs_mult a ((ridder_c + 1) * h ^ 2)), (Rabs_mult a ((ridder_c + ridder_c ^ 2) * h ^ 2)). apply Rmult_le_compat_l; [apply Rabs_pos|]. assert (C2 : 1 < ridder_c ^ 2) by (simpl; nra). rewrite (Rabs_right ((ridder_c + 1) * h ^ 2)), (Rabs_right ((ridder_c + ridder_c ^ 2) * h ^ 2)); try (apply Rle_ge; apply Rmult_le_pos; lra). apply Rmult_le_compat_r; lra. }
  assert (M3 : (3 <= m)%nat).
  { destruct M as [->|(G0 & _ & G & _)]; [lia|]. destruct (Nat.le_gt_cases 3 m) as [L|L]; [exact L|exfalso].
    destruct (EX m 1%nat ltac:(lia)) as (p' & e' & E). destruct (G _ _ _ E) as (i & j & p'' & e'' & Hi & E' & Le). pose proof E' as [Hj _].
    assert (Hj1 : j = 1%nat) by lia. subst j. assert (i = 1%nat) by lia. assert (m = 2%nat) by lia. subst i m. apply F1 in E. apply F1 in E'. subst e' e''. revert Le. rewrite (step_back 1). pose proof (step_pos 2) as Ps. intros Le.
    assert (Ph : 0 < step_at 2 ^ 2) by (apply pow_lt; exact Ps). rewrite Rpow_mult_distr in Le.
    assert (Pq : 0 < Rabs a * (ridder_c + ridder_c ^ 2)) by (apply Rmult_lt_0_compat; [exact Pa|nra]).
    assert (C2 : 1 < ridder_c ^ 2) by (simpl; nra). assert (Lt : step_at 2 ^ 2 < ridder_c ^ 2 * step_at 2 ^ 2) by (rewrite <- (Rmult_1_l (step_at 2 ^ 2)) at 1; apply Rmult_lt_compat_r; assumption). pose proof (Rmult_lt_compat_l _ _ _ Pq Lt). lra. }
  destruct (EX 3%nat 3%nat ltac:(lia)) as (p3 & e3 & E3). destruct (EE _ _ _ _ E3) as [_ Z3]. replace (3 - 1)%nat with 2%nat in Z3 by lia. rewrite !W2 in Z3 by lia.
  assert (Z30 : e3 = 0). { rewrite Z3. replace (a * (0 - 0) * step_at 3 ^ 2) with 0 by ring. replace (a * (0 * step_at 3 ^ 2 - 0 * step_at 2 ^ 2)) with 0 by ring. rewrite Rabs_R0. apply Rmax_left. lra. }
  rewrite Z30 in E3. clear Z3 Z30. destruct b as [[bp be]|]; cbn [chosen] in C; [|destruct (C 3%nat 3%nat p3 0 M3 E3)].
  destruct C as (i & j & Hi & E & C). destruct (C _ _ _ _ M3 E3) as [L0 _]. pose proof (error_nonneg _ _ _ _ _ E) as P0. assert (Z : be = 0) by lra. rewrite Z in *. clear Z.
  pose proof E as [Hj _]. destruct (EE _ _ _ _ E) as [-> Ze]. pose proof (step_pos i) as Ps. assert (Ph : 0 < step_at i ^ 2) by (apply pow_lt; exact Ps).
  destruct (Nat.eq_dec j 1) as [->|N1].
  { exfalso. apply F1 in E. assert (0 < Rabs a * (ridder_c + ridder_c ^ 2) * step_at i ^ 2); [|lra]. apply Rmult_lt_0_compat; [|exact Ph]. apply Rmult_lt_0_compat; [exact Pa|nra]. }
  rewrite (W2 j) by lia. f_equal. f_equal. ring.
Qed.
