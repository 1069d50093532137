(** * Lemmas for QR_Lapack. *)
From Coq Require Import Reals Arith Bool Lia Lra Psatz Setoid Morphisms.
From Verif Require Import Base Alg Inst Mat SpecMat LemMat RSum SpecExp LemExp LemEig RRect LemGR ModelQRLapack.
Open Scope outcome_scope.
Local Open Scope R_scope.

(** ** the reflector *)
Lemma tail_zero M i A : nrm2 M (i + 1) A i = 0 -> forall r, (i < r < M)%nat -> A r i = 0.
Proof.
  intros Z r Hr. pose proof (S_pos_zero M (from (i + 1) (fun r => A r i * A r i))) as P.
  assert (N : forall k, (k < M)%nat -> 0 <= from (i + 1) (fun r => A r i * A r i) k) by (intros k _; unfold from; destruct (i + 1 <=? k)%nat; [nra|lra]).
  pose proof (P N Z r ltac:(lia)) as Q. rewrite from_in in Q by lia. nra.
Qed.
Lemma nrm2_nonneg M lo A c : 0 <= nrm2 M lo A c.
Proof. apply S_nonneg. intros k _. unfold from. destruct (lo <=? k)%nat; [nra|lra]. Qed.
Lemma S_from_first n i f : (i < n)%nat -> Sum n (from i f) = f i + Sum n (from (i + 1) f).
Proof.
  intros Hi. rewrite (S_one n i) by exact Hi. rewrite from_in by lia. f_equal.
  apply S_ext. intros k Hk. unfold from. destruct (Nat.leb_spec i k), (Nat.leb_spec (i + 1) k), (Nat.eqb_spec k i); try lia; reflexivity.
Qed.
(** the two cases of dlarfg *)
Lemma larfg_cases M i A : (i < M)%nat ->
  (nrm2 M (i + 1) A i = 0 /\ larfg_tau M i A = 0 /\ larfg_beta M i A = A i i) \/
  (exists x b, x = nrm2 M (i + 1) A i /\ 0 < x /\ b = larfg_beta M i A /\ b * b = A i i * A i i + x /\ b <> 0 /\ A i i - b <> 0 /\ larfg_tau M i A = (b - A i i) / b /\
     forall r, (i < r)%nat -> larfg_v M i A r = A r i / (A i i - b)).
Proof.
  intros Hi. unfold larfg_tau, larfg_v. pose proof (nrm2_nonneg M (i + 1) A i) as P. destruct (R_eqb (nrm2 M (i + 1) A i) 0) eqn:E.
  - apply R_eqb_true in E. left. split; [exact E|]. split; [reflexivity|]. unfold larfg_beta. rewrite E. assert (Q : R_eqb 0 0 = true) by (apply R_eqb_spec; reflexivity). rewrite Q. reflexivity.
  - pose proof (R_eqb_false _ _ E) as NZ. right. exists (nrm2 M (i + 1) A i), (larfg_beta M i A). set (x := nrm2 M (i + 1) A i) in *. set (a := A i i).
    assert (X : 0 < x) by lra. assert (B : larfg_beta M i A * larfg_beta M i A = a * a + x /\ a - larfg_beta M i A <> 0 /\ larfg_beta M i A <> 0).
    { unfold larfg_beta. fold x. fold a. rewrite E. pose proof (sqrt_sqrt (a * a + x) ltac:(nra)) as SQ. pose proof (sqrt_lt_R0 (a * a + x) ltac:(nra)) as SP.
      destruct (R_ltb a 0) eqn:L; [apply R_ltb_spec in L|apply R_ltb_false in L]; split; try split; nra. }
    destruct B as (B1 & B2 & B3). split; [reflexivity|]. split; [exact X|]. split; [reflexivity|]. split; [exact B1|]. split; [exact B3|]. split; [exact B2|]. split; [reflexivity|].
    intros r Hr. destruct (Nat.ltb_spec r i); [lia|]. destruct (Nat.eqb_spec r i); [lia|]. reflexivity.
Qed.
Lemma v_low M i A r : (r < i)%nat -> larfg_v M i A r = 0.
Proof. intros H. unfold larfg_v. destruct (Nat.ltb_spec r i); [reflexivity|lia]. Qed.
Lemma v_one M i A : larfg_v M i A i = 1.
Proof. unfold larfg_v. destruct (Nat.ltb_spec i i); [lia|]. rewrite Nat.eqb_refl. reflexivity. Qed.
Lemma v_sum M i A (f : nat -> R) : (i < M)%nat -> Sum M (fun k => larfg_v M i A k * f k) = f i + Sum M (from (i + 1) (fun k => larfg_v M i A k * f k)).
Proof.
  intros Hi. rewrite (S_ext M _ (from i (fun k => larfg_v M i A k * f k))).
  - rewrite S_from_first by exact Hi. rewrite v_one. ring.
  - intros k Hk. unfold from. destruct (Nat.leb_spec i k); [reflexivity|]. rewrite v_low by lia. ring.
Qed.
Lemma larfg_tau_v M i A : (i < M)%nat -> larfg_tau M i A = 0 \/ larfg_tau M i A * Sum M (fun k => larfg_v M i A k * larfg_v M i A k) = 2.
Proof.
  intros Hi. destruct (larfg_cases M i A Hi) as [(_ & T & _)|(x & b & Ex & X & Eb & B & B0 & AB & T & V)]; [left; exact T|right].
  rewrite v_sum by exact Hi. rewrite v_one.
  rewrite (S_ext M (from (i + 1) _) (fun k => / ((A i i - b) * (A i i - b)) * from (i + 1) (fun r => A r i * A r i) k)).
  2:{ intros k Hk. unfold from. destruct (Nat.leb_spec (i + 1) k); [|ring]. rewrite V by lia. field. exact AB. }
  rewrite S_mul_l. fold (nrm2 M (i + 1) A i). rewrite <- Ex, T. replace x with (b * b - A i i * A i i) by lra. field. split; [exact AB|exact B0].
Qed.
Lemma larfg_col M i A : (i < M)%nat ->
  A i i - larfg_tau M i A * Sum M (fun k => larfg_v M i A k * A k i) = larfg_beta M i A /\
  forall r, (i < r < M)%nat -> A r i - larfg_tau M i A * larfg_v M i A r * Sum M (fun k => larfg_v M i A k * A k i) = 0.
Proof.
  intros Hi. destruct (larfg_cases M i A Hi) as [(Z & T & B)|(x & b & Ex & X & Eb & B & B0 & AB & T & V)].
  - rewrite T, B. split; [ring|]. intros r Hr. rewrite (tail_zero M i A Z r Hr). ring.
  - assert (D : Sum M (fun k => larfg_v M i A k * A k i) = - b).
    { rewrite v_sum by exact Hi. rewrite (S_ext M (from (i + 1) _) (fun k => / (A i i - b) * from (i + 1) (fun r => A r i * A r i) k)).
      2:{ intros k Hk. unfold from. destruct (Nat.leb_spec (i + 1) k); [|ring]. rewrite V by lia. field. exact AB. }
      rewrite S_mul_l. fold (nrm2 M (i + 1) A i). rewrite <- Ex. replace x with (b * b - A i i * A i i) by lra. field. exact AB. }
    rewrite D, T, <- Eb. split; [field; exact B0|]. intros r Hr. rewrite V by lia. field. split; [exact AB|exact B0].
Qed.
Lemma larfg_beta_sq M i A : (i < M)%nat -> larfg_beta M i A * larfg_beta M i A = nrm2 M i A i.
Proof.
  intros Hi. unfold nrm2 at 1. rewrite S_from_first by exact Hi. fold (nrm2 M (i + 1) A i).
  destruct (larfg_cases M i A Hi) as [(Z & T & B)|(x & b & Ex & X & Eb & B & _)]; [rewrite B, Z; ring|rewrite <- Eb, B, Ex; reflexivity].
Qed.
(** ** the invariant *)
Definition Wm (j : nat) (A : rmat) : rmat := fun r c => if ((c <? j) && (c <? r))%bool then 0 else A r c.
Definition qinv (M N j : nat) (A0 : rmat) (s : qst) : Prop :=
  (forall i, (i < j)%nat -> involution M (refl (q_a s) (q_t s) i)) /\
  req M N (mm M (chain M (refl (q_a s) (q_t s)) 0 j) (Wm j (q_a s))) (fun r c => A0 r (q_p s c - 1)%nat) /\
  (forall c, (c < N)%nat -> (1 <= q_p s c <= N)%nat) /\ (forall c d, (c < N)%nat -> (d < N)%nat -> q_p s c = q_p s d -> c = d).
Lemma exch_l {X} i j (f : nat -> X) : exch i j f i = f j. Proof. unfold exch. rewrite Nat.eqb_refl. reflexivity. Qed.
Lemma exch_r {X} i j (f : nat -> X) : exch i j f j = f i. Proof. unfold exch. rewrite Nat.eqb_refl. destruct (Nat.eqb_spec j i); [subst; reflexivity|reflexivity]. Qed.
Lemma exch_o {X} i j (f : nat -> X) k : k <> i -> k <> j -> exch i j f k = f k.
Proof. intros H1 H2. unfold exch. destruct (Nat.eqb_spec k i); [contradiction|]. destruct (Nat.eqb_spec k j); [contradiction|reflexivity]. Qed.
Lemma exch_arg {X} i j (f : nat -> X) k : exch i j f k = f (exch i j (fun x => x) k).
Proof. unfold exch. destruct (k =? i)%nat; [reflexivity|]. destruct (k =? j)%nat; reflexivity. Qed.
Lemma exch_inj i j c d : exch i j (fun x => x) c = exch i j (fun x => x) d -> c = d.
Proof. unfold exch. destruct (Nat.eqb_spec c i), (Nat.eqb_spec d i), (Nat.eqb_spec c j), (Nat.eqb_spec d j); intros; subst; try lia; try reflexivity. Qed.
Lemma exch_lt i j c N : (i < N)%nat -> (j < N)%nat -> (c < N)%nat -> (exch i j (fun x => x) c < N)%nat.
Proof. intros. unfold exch. destruct (c =? i)%nat; [assumption|]. destruct (c =? j)%nat; assumption. Qed.
Lemma exch_ge i j c k : (k <= i)%nat -> (k <= j)%nat -> (k <= c)%nat -> (k <= exch i j (fun x => x) c)%nat.
Proof. intros. unfold exch. destruct (c =? i)%nat; [assumption|]. destruct (c =? j)%nat; assumption. Qed.
Lemma vcol_ext A B i r : (forall r, A r i = B r i) -> vcol A i r = vcol B i r.
Proof. intros H. unfold vcol. rewrite H. reflexivity. Qed.
Lemma refl_ext A B t u i r c : (forall r, A r i = B r i) -> t i = u i -> refl A t i r c = refl B u i r c.
Proof. intros H E. unfold refl, hous. rewrite E, !(vcol_ext A B) by exact H. reflexivity. Qed.
Lemma swap_inv M N j A0 s p : (j <= p < N)%nat -> qinv M N j A0 s -> qinv M N j A0 (swap_cols j p s).
Proof.
  intros Hp (I1 & I2 & I3 & I4).
  assert (C : forall i, (i < j)%nat -> forall r, q_a (swap_cols j p s) r i = q_a s r i) by (intros i Hi r; cbn [swap_cols q_a]; apply exch_o; lia).
  assert (Rf : forall i, (i < j)%nat -> req M M (refl (q_a (swap_cols j p s)) (q_t (swap_cols j p s)) i) (refl (q_a s) (q_t s) i)).
  { intros i Hi r c _ _. apply refl_ext; [apply C; exact Hi|reflexivity]. }
  split; [|split; [|split]].
  - intros i Hi. destruct (I1 i Hi) as [S1 S2]. split; rewrite (Rf i Hi); assumption.
  - rewrite (chain_ext M _ (refl (q_a s) (q_t s)) j 0) by (intros i Hi; apply Rf; lia).
    intros r c Hr Hc. cbn [swap_cols q_p]. rewrite (exch_arg j p (q_p s)).
    rewrite <- (I2 r (exch j p (fun x => x) c) Hr (exch_lt j p c N ltac:(lia) ltac:(lia) Hc)). unfold mm. apply S_ext. intros k Hk. f_equal.
    unfold Wm. cbn [swap_cols q_a]. rewrite (exch_arg j p (q_a s k)).
    destruct (Nat.ltb_spec c j) as [L|L].
    + replace (exch j p (fun x => x) c) with c by (symmetry; apply exch_o; lia). destruct (Nat.ltb_spec c j); [reflexivity|lia].
    + pose proof (exch_ge j p c j (le_n j) ltac:(lia) L). destruct (Nat.ltb_spec (exch j p (fun x => x) c) j); [lia|reflexivity].
  - intros c Hc. cbn [swap_cols q_p]. rewrite (exch_arg j p (q_p s)). apply I3. apply exch_lt; lia.
  - intros c d Hc Hd E. cbn [swap_cols q_p] in E. rewrite !(exch_arg j p (q_p s)) in E. apply I4 in E; [|apply exch_lt; lia|apply exch_lt; lia]. apply exch_inj in E. exact E.
Qed.
(** one reflection: H_j (what is left of A) *)
Lemma house_W M N j s : (j < M)%nat -> req M N (mm M (hous (larfg_v M j (q_a s)) (- larfg_tau M j (q_a s))) (Wm j (q_a s))) (Wm (S j) (q_a (house M j s))).
Proof.
  intros Hj r c Hr Hc. rewrite (hous_mm M N _ _ _ r c Hr Hc). set (A := q_a s). set (v := larfg_v M j A). set (t := larfg_tau M j A). cbn [house q_a]. fold A v t.
  destruct (lt_eq_lt_dec c j) as [[L|L]|L].
  - rewrite (S_zero M).
    + unfold Wm. destruct (Nat.ltb_spec c j), (Nat.ltb_spec c (S j)), (Nat.eqb_spec c j), (Nat.ltb_spec j c); try lia. cbn [andb]. destruct (c <? r)%nat; ring.
    + intros k Hk. destruct (Nat.ltb_spec k j); [unfold v; rewrite v_low by lia; ring|]. unfold Wm. destruct (Nat.ltb_spec c j), (Nat.ltb_spec c k); try lia. cbn [andb]. ring.
  - subst c. rewrite (S_ext M _ (fun k => v k * A k j)) by (intros k Hk; unfold Wm; destruct (Nat.ltb_spec j j); [lia|reflexivity]).
    unfold Wm. destruct (Nat.ltb_spec j j), (Nat.ltb_spec j (S j)); try lia. cbn [andb]. rewrite Nat.eqb_refl.
    destruct (larfg_col M j A Hj) as [C1 C2]. fold v t in C1, C2.
    destruct (Nat.ltb_spec j r), (Nat.ltb_spec r j), (Nat.eqb_spec r j); try lia.
    + rewrite <- (C2 r) by lia. ring.
    + unfold v at 1. rewrite v_low by lia. ring.
    + subst r. rewrite <- C1. unfold v at 1. rewrite v_one. ring.
  - rewrite (S_ext M _ (fun k => v k * A k c)) by (intros k Hk; unfold Wm; destruct (Nat.ltb_spec c j); [lia|reflexivity]).
    unfold Wm. destruct (Nat.ltb_spec c j), (Nat.ltb_spec c (S j)), (Nat.eqb_spec c j), (Nat.ltb_spec j c); try lia. cbn [andb]. ring.
Qed.
Lemma house_refl M j s : (j < M)%nat -> req M M (refl (q_a (house M j s)) (q_t (house M j s)) j) (hous (larfg_v M j (q_a s)) (- larfg_tau M j (q_a s))).
Proof.
  intros Hj r c _ _. unfold refl, hous. cbn [house q_a q_t]. unfold setn. rewrite Nat.eqb_refl.
  assert (V : forall k, vcol (q_a (house M j s)) j k = larfg_v M j (q_a s) k).
  { intros k. unfold vcol. cbn [house q_a]. rewrite Nat.eqb_refl. destruct (Nat.ltb_spec k j); [rewrite v_low by lia; reflexivity|]. destruct (Nat.eqb_spec k j); [subst; rewrite v_one; reflexivity|reflexivity]. }
  cbn [house q_a] in V. rewrite !V. reflexivity.
Qed.
Lemma house_old M N j s i : (i < j)%nat -> req M N (refl (q_a (house M j s)) (q_t (house M j s)) i) (refl (q_a s) (q_t s) i).
Proof.
  intros Hi r c _ _. apply refl_ext.
  - intros k. cbn [house q_a]. destruct (Nat.eqb_spec i j), (Nat.ltb_spec j i); try lia. reflexivity.
  - cbn [house q_t]. unfold setn. destruct (Nat.eqb_spec i j); [lia|reflexivity].
Qed.
Lemma house_inv M N j A0 s : (j < M)%nat -> qinv M N j A0 s -> qinv M N (S j) A0 (house M j s).
Proof.
  intros Hj (I1 & I2 & I3 & I4).
  assert (IH : involution M (hous (larfg_v M j (q_a s)) (- larfg_tau M j (q_a s)))).
  { apply hous_inv. destruct (larfg_tau_v M j (q_a s) Hj) as [T|T]; [left; rewrite T; ring|right; lra]. }
  split; [|split; [|split]].
  - intros i Hi. destruct (Nat.eq_dec i j) as [->|Ni].
    + destruct IH as [S1 S2]. split; rewrite (house_refl M j s Hj); assumption.
    + destruct (I1 i ltac:(lia)) as [S1 S2]. split; rewrite (house_old M M j s i) by lia; assumption.
  - rewrite chain_snoc. cbn [Nat.add]. rewrite (house_refl M j s Hj). rewrite (chain_ext M _ (refl (q_a s) (q_t s)) j 0) by (intros i Hi; apply house_old; lia).
    rewrite <- house_W by exact Hj. rewrite r_assoc. rewrite <- (r_assoc M N M M (hous _ _)). rewrite (proj2 IH). rewrite r_1l. exact I2.
  - exact I3.
  - exact I4.
Qed.
Lemma pick_range M N i A : (i < N)%nat -> (i <= pick M N i A < N)%nat /\ forall c, (i <= c < N)%nat -> nrm2 M i A c <= nrm2 M i A (pick M N i A).
Proof.
  intros Hi. unfold pick.
  assert (G : forall k lo best, (i <= best < N)%nat -> (i <= lo)%nat -> (lo + k <= N)%nat -> (forall c, (i <= c < lo)%nat -> nrm2 M i A c <= nrm2 M i A best) ->
    let b := (fix go k lo best := match k with O => best | S k' => go k' (S lo) (if R_ltb (nrm2 M i A best) (nrm2 M i A lo) then lo else best) end) k lo best in
    (i <= b < N)%nat /\ forall c, (i <= c < lo + k)%nat -> nrm2 M i A c <= nrm2 M i A b).
  { induction k as [|k IH]; intros lo best Hb Hl Hk H b.
    - subst b. split; [exact Hb|]. intros c Hc. apply H. lia.
    - subst b. cbv zeta in IH. specialize (IH (S lo) (if R_ltb (nrm2 M i A best) (nrm2 M i A lo) then lo else best)).
      replace (lo + S k)%nat with (S lo + k)%nat by lia. apply IH; [destruct (R_ltb _ _); lia|lia|lia|].
      intros c Hc. destruct (R_ltb (nrm2 M i A best) (nrm2 M i A lo)) eqn:E.
      + apply R_ltb_spec in E. destruct (Nat.eq_dec c lo) as [->|Nc]; [lra|]. pose proof (H c ltac:(lia)). lra.
      + apply R_ltb_false in E. destruct (Nat.eq_dec c lo) as [->|Nc]; [exact E|]. apply H. lia. }
  pose proof (G (N - i)%nat i i ltac:(lia) ltac:(lia) ltac:(lia) ltac:(intros c Hc; lia)) as P. cbv zeta in P. replace (i + (N - i))%nat with N in P by lia. exact P.
Qed.
Lemma step_inv M N nf j A0 s : (j < M)%nat -> (j < N)%nat -> qinv M N j A0 s -> qinv M N (S j) A0 (geqp3_step M N nf j s).
Proof.
  intros Hm Hn I. unfold geqp3_step. apply house_inv; [exact Hm|]. destruct (j <? nf)%nat; [exact I|]. apply swap_inv; [|exact I]. apply pick_range. exact Hn.
Qed.
Lemma iter_up_inv {S} (f : nat -> S -> S) (I : nat -> S -> Prop) k : forall lo s, (forall i s, (lo <= i < lo + k)%nat -> I i s -> I (Datatypes.S i) (f i s)) -> I lo s -> I (lo + k)%nat (iter_up f k lo s).
Proof.
  induction k as [|k IH]; intros lo s H I0; cbn [iter_up]; [rewrite Nat.add_0_r; exact I0|].
  replace (lo + Datatypes.S k)%nat with (Datatypes.S lo + k)%nat by lia. apply IH; [intros i t Hi; apply H; lia|apply H; [lia|exact I0]].
Qed.
