(** * Lemmas: the three runs of the WLS calls - in floating point, exactly, and exactly on the absolute values. *)
From Coq Require Import Reals Lra Lia Arith Bool List.
From Verif Require Import Base Alg Inst Mat SpecMat LemMat LemOps LemHelpers ModelOps ModelChol LemChol RSum ModelFl SpecFl LemFl ModelWLS SpecWLS LemWLS LemWLSRun LemFlWLS SpecFlWLS.
Import ListNotations.
Open Scope outcome_scope.
Local Open Scope R_scope.

(** x is e up to k roundings of terms whose absolute values sum to a *)
Definition tri (u : R) (k : nat) (x e a : R) : Prop := Rabs (x - e) <= fwd u k * a /\ Rabs e <= a.
Lemma fwd_S u k m : 1 + fwd u (k + m) = (1 + fwd u k) * (1 + fwd u m).
Proof. unfold fwd. rewrite pow_add. ring. Qed.
Lemma fwd_le u k m : 0 <= u -> (k <= m)%nat -> 0 <= fwd u k <= fwd u m.
Proof.
  intros H K. pose proof (pow_1pu u k H). unfold fwd. split; [lra|]. replace m with (k + (m - k))%nat by lia. rewrite pow_add. pose proof (pow_1pu u (m - k) H). nra.
Qed.
Lemma tri_le u k m x e a : 0 <= u -> (k <= m)%nat -> tri u k x e a -> tri u m x e a.
Proof. intros H K [T1 T2]. split; [|exact T2]. pose proof (fwd_le u k m H K). pose proof (Rabs_pos e). nra. Qed.
Lemma tri_exact u x : tri u 0 x x (Rabs x).
Proof. unfold tri. replace (x - x) with 0 by ring. rewrite Rabs_R0. unfold fwd. cbn. lra. Qed.
Lemma tri_0 u k : 0 <= u -> tri u k 0 0 0.
Proof. intros H. apply (tri_le u 0); [exact H|lia|]. pose proof (tri_exact u 0) as T. rewrite Rabs_R0 in T. exact T. Qed.
Lemma tri_add u rnd (RN : rounding u rnd) k x e a y f b : tri u k x e a -> tri u k y f b -> tri u (S k) (rnd (x + y)) (e + f) (a + b).
Proof.
  intros [T1 T2] [U1 U2]. destruct RN as (U & E & _). split; [|pose proof (Rabs_triang e f); lra].
  pose proof (E (x + y)) as Ex. pose proof (fwd_le u 0 k ltac:(lra) ltac:(lia)) as [_ Fk]. replace (fwd u 0) with 0 in Fk by (unfold fwd; cbn; ring).
  assert (D : Rabs (x + y - (e + f)) <= fwd u k * (a + b)). { replace (x + y - (e + f)) with ((x - e) + (y - f)) by ring. pose proof (Rabs_triang (x - e) (y - f)). lra. }
  assert (M : Rabs (x + y) <= (1 + fwd u k) * (a + b)). { replace (x + y) with ((x + y - (e + f)) + (e + f)) by ring. pose proof (Rabs_triang (x + y - (e + f)) (e + f)). pose proof (Rabs_triang e f). lra. }
  pose proof (fwd_S u k 1) as FS. replace (k + 1)%nat with (S k) in FS by lia. replace (fwd u 1) with u in FS by (unfold fwd; cbn; ring).
  replace (rnd (x + y) - (e + f)) with ((rnd (x + y) - (x + y)) + (x + y - (e + f))) by ring. pose proof (Rabs_triang (rnd (x + y) - (x + y)) (x + y - (e + f))).
  replace (fwd u (S k)) with ((1 + fwd u k) * (1 + u) - 1) by lra. pose proof (Rabs_pos (x + y)). nra.
Qed.
Lemma tri_mul0 u k m x e a y f b : 0 <= u -> tri u k x e a -> tri u m y f b -> tri u (k + m) (x * y) (e * f) (a * b).
Proof.
  intros U [T1 T2] [U1 U2]. pose proof (Rabs_pos e). pose proof (Rabs_pos f). pose proof (fwd_le u 0 k U ltac:(lia)) as [_ Fk]. pose proof (fwd_le u 0 m U ltac:(lia)) as [_ Fm]. replace (fwd u 0) with 0 in Fk, Fm by (unfold fwd; cbn; ring).
  split; [|rewrite Rabs_mult; apply Rmult_le_compat; lra].
  assert (My : Rabs y <= (1 + fwd u m) * b). { replace y with ((y - f) + f) by ring. pose proof (Rabs_triang (y - f) f). lra. }
  replace (x * y - e * f) with ((x - e) * y + e * (y - f)) by ring. pose proof (Rabs_triang ((x - e) * y) (e * (y - f))) as Tr. rewrite !Rabs_mult in Tr.
  pose proof (Rmult_le_compat _ _ _ _ (Rabs_pos (x - e)) (Rabs_pos y) T1 My). pose proof (Rmult_le_compat _ _ _ _ (Rabs_pos e) (Rabs_pos (y - f)) T2 U1).
  pose proof (fwd_S u k m). replace (fwd u (k + m)) with ((1 + fwd u k) * (1 + fwd u m) - 1) by lra. lra.
Qed.
Lemma tri_rnd u rnd (RN : rounding u rnd) k x e a : tri u k x e a -> tri u (S k) (rnd x) e a.
Proof.
  intros T. pose proof RN as (U & E & _). destruct T as [T1 T2]. split; [|exact T2]. pose proof (Rabs_pos e). pose proof (fwd_le u 0 k ltac:(lra) ltac:(lia)) as [_ Fk]. replace (fwd u 0) with 0 in Fk by (unfold fwd; cbn; ring).
  assert (M : Rabs x <= (1 + fwd u k) * a). { replace x with ((x - e) + e) by ring. pose proof (Rabs_triang (x - e) e). lra. }
  replace (rnd x - e) with ((rnd x - x) + (x - e)) by ring. pose proof (Rabs_triang (rnd x - x) (x - e)). pose proof (E x). pose proof (Rabs_pos x).
  pose proof (fwd_S u k 1) as FS. replace (k + 1)%nat with (S k) in FS by lia. replace (fwd u 1) with u in FS by (unfold fwd; cbn; ring). replace (fwd u (S k)) with ((1 + fwd u k) * (1 + u) - 1) by lra. nra.
Qed.
Lemma tri_mul u rnd (RN : rounding u rnd) k m x e a y f b : tri u k x e a -> tri u m y f b -> tri u (S (k + m)) (rnd (x * y)) (e * f) (a * b).
Proof. intros T T'. apply tri_rnd; [exact RN|]. apply tri_mul0; [destruct RN as ((U & _) & _); exact U|exact T|exact T']. Qed.
(** a row times a column *)
Lemma tri_dot u rnd (RN : rounding u rnd) k m n (x e a y f b : nat -> R) : (forall i, (i < n)%nat -> tri u k (x i) (e i) (a i)) -> (forall i, (i < n)%nat -> tri u m (y i) (f i) (b i)) ->
  tri u (k + m + n) (@sum R (FlOps rnd) n (fun i => @fmul R (FlOps rnd) (x i) (y i))) (@sum R ROps n (fun i => @fmul R ROps (e i) (f i))) (@sum R ROps n (fun i => @fmul R ROps (a i) (b i))).
Proof.
  intros Hx Hy. assert (U : 0 <= u) by (destruct RN as ((U & _) & _); exact U). induction n as [|n IH]; [apply tri_0; exact U|].
  cbn [sum]. specialize (IH ltac:(intros; apply Hx; lia) ltac:(intros; apply Hy; lia)). pose proof (tri_mul u rnd RN k m _ _ _ _ _ _ (Hx n ltac:(lia)) (Hy n ltac:(lia))) as T. cbn [fadd fmul FlOps ROps] in *. destruct n as [|n].
  - cbn [sum f0 FlOps ROps]. replace (k + m + 1)%nat with (S (k + m)) by lia. rewrite !Rplus_0_l. destruct RN as (_ & _ & I). rewrite I. exact T.
  - replace (k + m + S (S n))%nat with (S (k + m + S n)) by lia. apply tri_add; [exact RN|exact IH|]. apply (tri_le u (S (k + m))); [exact U|lia|exact T].
Qed.

(** ** three states *)
Definition sized (n : nat) (w : wls R) : Prop := mrows (w_C w) = n /\ mcols (w_C w) = n /\ vlen (w_v w) = n /\ mrows (ch_m (w_dec w)) = n.
Definition rel3 (u : R) (n k : nat) (w we wa : wls R) : Prop :=
  sized n w /\ sized n we /\ sized n wa /\
  (forall r c, (r <= c < n)%nat -> tri u k (mel (w_C w) r c) (mel (w_C we) r c) (mel (w_C wa) r c)) /\
  (forall r, (r < n)%nat -> tri u k (vat (w_v w) r) (vat (w_v we) r) (vat (w_v wa) r)).
Lemma self {F} n (w : wls F) : (mrows (w_C w) = n /\ mcols (w_C w) = n /\ vlen (w_v w) = n /\ mrows (ch_m (w_dec w)) = n) -> accp n w (fun r c x => x = mel (w_C w) r c) (fun r x => x = vat (w_v w) r).
Proof. intros (A & B & C & D). repeat split; assumption. Qed.
(** a step of the three programs *)
Definition step3 (u : R) (n k k' : nat) (f fe fa : wls R -> outcome (wls R)) : Prop :=
  forall w we wa, rel3 u n k w we wa -> exists w' we' wa', f w = Ok w' /\ fe we = Ok we' /\ fa wa = Ok wa' /\ rel3 u n k' w' we' wa'.
(** the new elements are given by Pf, Pe, Pa from the old ones *)
Lemma step3_moves u n k k' f fe fa (Pf Pe Pa : nat -> nat -> R -> R -> Prop) (Qf Qe Qa : nat -> R -> R -> Prop) :
  (forall P Q, moves n f P Q (fun r c y => exists x, P r c x /\ Pf r c x y) (fun r y => exists x, Q r x /\ Qf r x y)) ->
  (forall P Q, moves n fe P Q (fun r c y => exists x, P r c x /\ Pe r c x y) (fun r y => exists x, Q r x /\ Qe r x y)) ->
  (forall P Q, moves n fa P Q (fun r c y => exists x, P r c x /\ Pa r c x y) (fun r y => exists x, Q r x /\ Qa r x y)) ->
  (forall r c x e a x' e' a', (r <= c < n)%nat -> tri u k x e a -> Pf r c x x' -> Pe r c e e' -> Pa r c a a' -> tri u k' x' e' a') ->
  (forall r x e a x' e' a', (r < n)%nat -> tri u k x e a -> Qf r x x' -> Qe r e e' -> Qa r a a' -> tri u k' x' e' a') ->
  step3 u n k k' f fe fa.
Proof.
  intros Mf Me Ma TP TQ w we wa (S1 & S2 & S3 & T1 & T2).
  destruct (Mf _ _ w (self n w S1)) as (w' & Ew & B1 & B2 & B3 & B4 & B5 & B6). destruct (Me _ _ we (self n we S2)) as (we' & Ewe & C1 & C2 & C3 & C4 & C5 & C6). destruct (Ma _ _ wa (self n wa S3)) as (wa' & Ewa & D1 & D2 & D3 & D4 & D5 & D6).
  exists w', we', wa'. refine (conj Ew (conj Ewe (conj Ewa _))). refine (conj (conj B1 (conj B2 (conj B3 B4))) (conj (conj C1 (conj C2 (conj C3 C4))) (conj (conj D1 (conj D2 (conj D3 D4))) (conj _ _)))).
  - intros r c H. destruct (B5 r c H) as (x & -> & Px). destruct (C5 r c H) as (e & -> & Pe'). destruct (D5 r c H) as (a & -> & Pa'). exact (TP r c _ _ _ _ _ _ H (T1 r c H) Px Pe' Pa').
  - intros r H. destruct (B6 r H) as (x & -> & Px). destruct (C6 r H) as (e & -> & Pe'). destruct (D6 r H) as (a & -> & Pa'). exact (TQ r _ _ _ _ _ _ H (T2 r H) Px Pe' Pa').
Qed.
(** three loops in step *)
Lemma for3 {A B C} lo hi (f : nat -> A -> outcome A) (g : nat -> B -> outcome B) (h : nat -> C -> outcome C) (I : nat -> A -> B -> C -> Prop) a b c : (lo <= hi)%nat -> I lo a b c ->
  (forall i a b c, (lo <= i < hi)%nat -> I i a b c -> exists a' b' c', f i a = Ok a' /\ g i b = Ok b' /\ h i c = Ok c' /\ I (S i) a' b' c') ->
  exists a' b' c', for_ lo hi f a = Ok a' /\ for_ lo hi g b = Ok b' /\ for_ lo hi h c = Ok c' /\ I hi a' b' c'.
Proof.
  intros Hl H0 Hs. remember (hi - lo)%nat as d eqn:E. revert lo a b c Hl H0 Hs E. induction d as [|d IH]; intros lo a b c Hl H0 Hs E.
  - assert (lo = hi) by lia. subst. exists a, b, c. rewrite !for_empty by lia. repeat split; [assumption]. 
  - destruct (Hs lo a b c ltac:(lia) H0) as (a1 & b1 & c1 & Ea & Eb & Ec & I1). rewrite !for_step by lia. rewrite Ea, Eb, Ec. cbn [bind]. apply IH; [lia|exact I1|intros; apply Hs; [lia|assumption]|lia].
Qed.
Lemma mel_mabs m i j : mel (mabs m) i j = Rabs (mel m i j). Proof. reflexivity. Qed.

Section Steps.
Context (u : R) (rnd : R -> R) (RN : rounding u rnd).
Let U : 0 <= u. Proof. destruct RN as ((U & _) & _). exact U. Qed.
Notation FO := (FlOps rnd).

Lemma tmp_tri N (J W : nat -> nat -> R) r l :
  tri u N (@tmp R FO N J W r l) (@tmp R ROps N J W r l) (@tmp R ROps N (fun i j => Rabs (J i j)) (fun i j => Rabs (W i j)) r l).
Proof. exact (tri_dot u rnd RN 0 0 N _ _ _ _ _ _ (fun i _ => tri_exact u (J i r)) (fun i _ => tri_exact u (W i l))). Qed.
Lemma prd_tri N (J W K : nat -> nat -> R) r c :
  tri u (2 * N) (@prd R FO N J W K r c) (@prd R ROps N J W K r c) (@prd R ROps N (fun i j => Rabs (J i j)) (fun i j => Rabs (W i j)) (fun i j => Rabs (K i j)) r c).
Proof. replace (2 * N)%nat with (N + 0 + N)%nat by lia. exact (tri_dot u rnd RN N 0 N _ _ _ _ _ _ (fun l _ => tmp_tri N J W r l) (fun i _ => tri_exact u (K i c))). Qed.
Lemma prv_tri N (J W : nat -> nat -> R) m r :
  tri u (2 * N) (@prv R FO N J W m r) (@prv R ROps N J W m r) (@prv R ROps N (fun i j => Rabs (J i j)) (fun i j => Rabs (W i j)) (fun i => Rabs (m i)) r).
Proof. replace (2 * N)%nat with (N + 0 + N)%nat by lia. exact (tri_dot u rnd RN N 0 N _ _ _ _ _ _ (fun l _ => tmp_tri N J W r l) (fun i _ => tri_exact u (m i))). Qed.

Lemma t_add k d x e a y f b : (d <= k)%nat -> tri u k x e a -> tri u d y f b -> tri u (k + 1) (@fadd R FO x y) (@fadd R ROps e f) (@fadd R ROps a b).
Proof. intros H T T'. replace (k + 1)%nat with (S k) by lia. apply tri_add; [exact RN|exact T|]. apply (tri_le u d); assumption. Qed.
Lemma t_keep k x e a : tri u k x e a -> tri u (k + 1) x e a.
Proof. apply tri_le; [exact U|lia]. Qed.
Lemma t_if k d (q : bool) x e a y f b : (d <= k)%nat -> tri u k x e a -> tri u d y f b -> tri u (k + 1) (if q then @fadd R FO x y else x) (if q then @fadd R ROps e f else e) (if q then @fadd R ROps a b else a).
Proof. intros H T T'. destruct q; [apply (t_add k d); assumption|apply t_keep; exact T]. Qed.
Lemma t_mul2 w j j' : tri u 2 (@fmul R FO (@fmul R FO w j) j') (@fmul R ROps (@fmul R ROps w j) j') (@fmul R ROps (@fmul R ROps (Rabs w) (Rabs j)) (Rabs j')).
Proof. apply (tri_mul u rnd RN 1 0); [apply (tri_mul u rnd RN 0 0)|]; apply tri_exact. Qed.
Lemma t_mul2' m w j : tri u 2 (@fmul R FO m (@fmul R FO w j)) (@fmul R ROps m (@fmul R ROps w j)) (@fmul R ROps (Rabs m) (@fmul R ROps (Rabs w) (Rabs j))).
Proof. apply (tri_mul u rnd RN 0 1); [|apply (tri_mul u rnd RN 0 0)]; apply tri_exact. Qed.
Lemma keepQ {F} n (f : wls F -> outcome (wls F)) P Q P' : moves n f P Q P' Q -> moves n f P Q P' (fun r y => exists x, Q r x /\ y = x).
Proof. intros M. eapply moves_mono; [exact M|intros; assumption|]. intros r x _ H. exists x. split; [exact H|reflexivity]. Qed.

Lemma meas_step n k m J wt : vlen J = n -> (2 <= k)%nat -> step3 u n k (k + 1) (@wls_add R FO m J wt) (@wls_add R ROps m J wt) (@wls_add R ROps (Rabs m) (vabs J) (Rabs wt)).
Proof.
  intros HJ Hk. eapply step3_moves.
  - intros P Q. exact (@add_moves R FO n m J wt P Q HJ).
  - intros P Q. exact (@add_moves R ROps n m J wt P Q HJ).
  - intros P Q. exact (@add_moves R ROps n (Rabs m) (vabs J) (Rabs wt) P Q HJ).
  - cbn beta. intros r c x e a x' e' a' H T -> -> ->. apply (t_add k 2); [exact Hk|exact T|]. apply t_mul2.
  - cbn beta. intros r x e a x' e' a' H T -> -> ->. apply (t_add k 2); [exact Hk|exact T|]. apply t_mul2'.
Qed.
Lemma call_step n o D t : op_ok n o -> (op_depth o <= D)%nat -> step3 u n (D + t) (D + t + op_adds o) (@wls_call R FO o) (@wls_call R ROps o) (@wls_call R ROps (op_abs o)).
Proof.
  intros H HD. destruct o as [v|v|m|m J w|m J w|m J W|m J W|m J i w|m J i W|m J i K j W]; cbn [op_ok op_depth op_abs op_adds wls_call] in *.
  - eapply step3_moves; [intros; apply keepQ; apply prior_moves|intros; apply keepQ; apply prior_moves|intros; apply keepQ; apply prior_moves| |].
    + cbn beta. intros r c x e a x' e' a' Hr T -> -> ->. apply (t_if (D + t) 0); [lia|exact T|apply tri_exact].
    + cbn beta. intros r x e a x' e' a' Hr T -> -> ->. apply t_keep. exact T.
  - eapply step3_moves; [intros; apply keepQ; apply prior_vec_moves; exact H|intros; apply keepQ; apply prior_vec_moves; exact H|intros; apply keepQ; apply prior_vec_moves; exact H| |].
    + cbn beta. intros r c x e a x' e' a' Hr T -> -> ->. apply (t_if (D + t) 0); [lia|exact T|apply tri_exact].
    + cbn beta. intros r x e a x' e' a' Hr T -> -> ->. apply t_keep. exact T.
  - destruct H as (H1 & H2 & _). eapply step3_moves; [intros; apply keepQ; apply prior_mat_moves; [exact H1|exact H2]|intros; apply keepQ; apply prior_mat_moves; [exact H1|exact H2]|intros; apply keepQ; apply prior_mat_moves; [exact H1|exact H2]| |].
    + cbn beta. intros r c x e a x' e' a' Hr T -> -> ->. apply (t_add (D + t) 0); [lia|exact T|apply tri_exact].
    + cbn beta. intros r x e a x' e' a' Hr T -> -> ->. apply t_keep. exact T.
  - apply meas_step; [exact H|lia].
  - destruct H as [H1 H2]. intros wf we wa Rl. unfold wls_add_rows_w. cbn [vabs mabs vlen mrows]. rewrite !same_size_eq by lia. cbn [bind].
    apply (for3 0 (mrows J) _ _ _ (fun i => rel3 u n (D + t + i))); [lia|rewrite Nat.add_0_r; exact Rl|]. intros i a b c Hi Ri. rewrite !vget_ok, !row_ok by (cbn [vabs mabs vlen mrows]; lia). cbn [bind].
    replace (D + t + S i)%nat with (D + t + i + 1)%nat by lia. exact (meas_step n (D + t + i) (vat m i) (mkvec (mcols J) (fun c => mel J i c)) w H2 ltac:(lia) a b c Ri).
  - destruct H as (H1 & H2 & H3 & H4 & _).
    eapply step3_moves; [intros; apply cov_moves; [exact H1|exact H2|exact H3|exact H4]|intros; apply cov_moves; [exact H1|exact H2|exact H3|exact H4]|intros; apply cov_moves; [exact H1|exact H2|exact H3|exact H4]| |].
    + cbn beta. intros r c x e a x' e' a' Hr T -> -> ->. apply (t_add (D + t) (2 * mcols J)); [lia|exact T|]. apply prd_tri.
    + cbn beta. intros r x e a x' e' a' Hr T -> -> ->. apply (t_add (D + t) (2 * mcols J)); [lia|exact T|]. apply prv_tri.
  - destruct H as (H1 & H2 & H3 & H4 & _).
    eapply step3_moves; [intros; apply rows_moves; [exact H1|exact H2|exact H3|exact H4]|intros; apply rows_moves; [exact H1|exact H2|exact H3|exact H4]|intros; apply rows_moves; [exact H1|exact H2|exact H3|exact H4]| |].
    + cbn beta. intros r c x e a x' e' a' Hr T -> -> ->. apply (t_add (D + t) (2 * mrows J)); [lia|exact T|]. apply prd_tri.
    + cbn beta. intros r x e a x' e' a' Hr T -> -> ->. apply (t_add (D + t) (2 * mrows J)); [lia|exact T|]. apply prv_tri.
  - eapply step3_moves; [intros; apply sparse_moves; exact H|intros; apply sparse_moves; exact H|intros; apply sparse_moves; exact H| |].
    + cbn beta. intros r c x e a x' e' a' Hr T -> -> ->. apply (t_if (D + t) 2); [lia|exact T|]. apply t_mul2.
    + cbn beta. intros r x e a x' e' a' Hr T -> -> ->. apply (t_if (D + t) 2); [lia|exact T|]. apply t_mul2'.
  - destruct H as (H1 & H2 & H3 & H4 & _).
    eapply step3_moves; [intros; apply sparse_rows_moves; [exact H1|exact H2|exact H3|exact H4]|intros; apply sparse_rows_moves; [exact H1|exact H2|exact H3|exact H4]|intros; apply sparse_rows_moves; [exact H1|exact H2|exact H3|exact H4]| |].
    + cbn beta. intros r c x e a x' e' a' Hr T -> -> ->. apply (t_if (D + t) (2 * mrows J)); [lia|exact T|]. apply prd_tri.
    + cbn beta. intros r x e a x' e' a' Hr T -> -> ->. apply (t_if (D + t) (2 * mrows J)); [lia|exact T|]. apply prv_tri.
  - destruct H as (H1 & H1' & H1'' & H2 & H3 & H4 & _).
    assert (G : forall Fo (m : vec R) (J K W : mat R) P Q, (i + mcols J <= n)%nat -> (j + mcols K <= n)%nat -> mrows K = mrows J -> vlen m = mrows J -> mrows W = mrows J -> mcols W = mrows J ->
       moves n (@wls_add_sparse_rows2 R Fo m J i K j W) P Q
         (fun r c y => exists x, P r c x /\ y = 
            let x1 := (if (inb i (mcols J) r && inb i (mcols J) c)%bool then @fadd R Fo x (@prd R Fo (mrows J) (mel J) (mel W) (mel J) (r - i) (c - i)) else x) in
            let x2 := (if (inb j (mcols K) r && inb j (mcols K) c)%bool then @fadd R Fo x1 (@prd R Fo (mrows J) (mel K) (mel W) (mel K) (r - j) (c - j)) else x1) in
            let x3 := (if (inb i (mcols J) r && inb j (mcols K) c)%bool then @fadd R Fo x2 (@prd R Fo (mrows J) (mel J) (mel W) (mel K) (r - i) (c - j)) else x2) in
            (if (inb j (mcols K) r && inb i (mcols J) c)%bool then @fadd R Fo x3 (@prd R Fo (mrows J) (mel J) (mel W) (mel K) (c - i) (r - j)) else x3))
         (fun r y => exists x, Q r x /\ y =
            let x1 := (if inb i (mcols J) r then @fadd R Fo x (@prv R Fo (mrows J) (mel J) (mel W) (vat m) (r - i)) else x) in
            (if inb j (mcols K) r then @fadd R Fo x1 (@prv R Fo (mrows J) (mel K) (mel W) (vat m) (r - j)) else x1))).
    { intros Fo m0 J0 K0 W0 P Q E1 E2 E3 E4 E5 E6. eapply moves_mono; [apply sparse_rows2_moves; assumption| |]; cbn beta.
      - intros r c y _ (x & x1 & x2 & x3 & Px & -> & -> & -> & ->). exists x. split; [exact Px|reflexivity].
      - intros r y _ (x & x1 & Qx & -> & ->). exists x. split; [exact Qx|reflexivity]. }
    eapply step3_moves; [intros; apply G; [exact H1|exact H1'|exact H1''|exact H2|exact H3|exact H4]|intros; apply G; [exact H1|exact H1'|exact H1''|exact H2|exact H3|exact H4]|intros; apply (G ROps (vabs m) (mabs J) (mabs K) (mabs W)); [exact H1|exact H1'|exact H1''|exact H2|exact H3|exact H4]| |].
    + cbn beta zeta. intros r c x e a x' e' a' Hr T -> -> ->. replace (D + t + 4)%nat with (D + t + 1 + 1 + 1 + 1)%nat by lia. cbn [mabs mrows mcols].
      apply (t_if _ (2 * mrows J)); [lia| |apply prd_tri]. apply (t_if _ (2 * mrows J)); [lia| |apply prd_tri]. apply (t_if _ (2 * mrows J)); [lia| |apply prd_tri]. apply (t_if _ (2 * mrows J)); [lia|exact T|apply prd_tri].
    + cbn beta zeta. intros r x e a x' e' a' Hr T -> -> ->. apply (tri_le u (D + t + 1 + 1)); [exact U|lia|]. cbn [mabs mrows mcols].
      apply (t_if _ (2 * mrows J)); [lia| |apply prv_tri]. apply (t_if _ (2 * mrows J)); [lia|exact T|apply prv_tri].
Qed.
Lemma run_step n os D t : Forall (op_ok n) os -> (fold_right Nat.max 0%nat (map op_depth os) <= D)%nat ->
  step3 u n (D + t) (D + t + fold_right Nat.add 0%nat (map op_adds os)) (@wls_run R FO os) (@wls_run R ROps os) (@wls_run R ROps (map op_abs os)).
Proof.
  intros H. revert t. induction H as [|o os Ho Hos IH]; intros t HD w we wa Rl; cbn [map fold_right wls_run] in *.
  - exists w, we, wa. rewrite Nat.add_0_r. repeat (split; [reflexivity|]). exact Rl.
  - destruct (call_step n o D t Ho ltac:(lia) w we wa Rl) as (w1 & we1 & wa1 & -> & -> & -> & R1). cbn [bind]. rewrite <- Nat.add_assoc in R1.
    destruct (IH (t + op_adds o)%nat ltac:(lia) w1 we1 wa1 R1) as (w2 & we2 & wa2 & E1 & E2 & E3 & R2). exists w2, we2, wa2. 
    replace (D + t + (op_adds o + fold_right Nat.add 0%nat (map op_adds os)))%nat with (D + (t + op_adds o) + fold_right Nat.add 0%nat (map op_adds os))%nat by lia. repeat (split; [assumption|]). exact R2.
Qed.
Lemma new_step n : exists w we wa, @wls_new R FO n = Ok w /\ @wls_new R ROps n = Ok we /\ @wls_new R ROps n = Ok wa /\ forall k, rel3 u n k w we wa.
Proof.
  destruct (@new_acc R FO n) as (w & Ew & A1 & A2 & A3 & A4 & A5 & A6). destruct (@new_acc R ROps n) as (we & Ee & B1 & B2 & B3 & B4 & B5 & B6).
  exists w, we, we. repeat (split; [assumption|]). intros k. refine (conj (conj A1 (conj A2 (conj A3 A4))) (conj (conj B1 (conj B2 (conj B3 B4))) (conj (conj B1 (conj B2 (conj B3 B4))) (conj _ _)))).
  - intros r c H. rewrite A5, B5 by exact H. apply tri_0. exact U.
  - intros r H. rewrite A6, B6 by exact H. apply tri_0. exact U.
Qed.
End Steps.
