(** * GR_SVD: Accumulate_RHS and Accumulate_LHS *)
From Coq Require Import Reals Arith Bool Lia Lra Psatz Setoid Morphisms.
From Verif Require Import Base Alg Inst Mat SpecMat LemMat RSum ModelOps ModelSVD ModelGR SpecExp LemEig LemExp RRect LemGR LemGR2 LemGR3.
Open Scope outcome_scope.
Local Open Scope R_scope.

Lemma chain_id m p H : forall k lo, (forall i r c, (lo <= i < lo + k)%nat -> (r < m)%nat -> (c < m)%nat -> (r < p)%nat \/ (c < p)%nat -> H i r c = delta r c) ->
  forall r c, (r < m)%nat -> (c < m)%nat -> (r < p)%nat \/ (c < p)%nat -> chain m H lo k r c = delta r c.
Proof.
  induction k as [|k I]; intros lo E r c Hr Hc Hp; cbn [chain]; [reflexivity|]. assert (I' := I (S lo) ltac:(intros; apply E; try assumption; lia)). unfold mm. destruct Hp as [Hp|Hp].
  - rewrite (S_ext m _ (fun k' => delta r k' * chain m H (S lo) k k' c)) by (intros k' Hk'; rewrite E; [reflexivity|lia|exact Hr|exact Hk'|left; exact Hp]). rewrite (delta_l m r (fun k' => chain m H (S lo) k k' c) Hr). apply I'; auto.
  - rewrite (S_ext m _ (fun k' => H lo r k' * delta k' c)) by (intros k' Hk'; rewrite I'; [reflexivity|exact Hk'|exact Hc|right; exact Hp]). rewrite (delta_r m c (fun k' => H lo r k') Hc). apply E; auto; lia.
Qed.
Lemma hous_low w b p r c : (forall k, (k < p)%nat -> w k = 0) -> (r < p)%nat \/ (c < p)%nat -> hous w b r c = delta r c.
Proof. intros H [K|K]; unfold hous; rewrite (H _ K); ring. Qed.
Lemma HR_low u e i p r c : (p <= i + 1)%nat -> (r < p)%nat \/ (c < p)%nat -> HR u e i r c = delta r c.
Proof. intros H K. unfold HR. apply (hous_low _ _ p); [|exact K]. intros k Hk. apply from_out. lia. Qed.
Lemma HL_low u d i p r c : (p <= i)%nat -> (r < p)%nat \/ (c < p)%nat -> HL u d i r c = delta r c.
Proof. intros H K. unfold HL. apply (hous_low _ _ p); [|exact K]. intros k Hk. apply from_out. lia. Qed.
Lemma delta_eq i : delta (F:=R) i i = 1. Proof. unfold delta. rewrite Nat.eqb_refl. reflexivity. Qed.
Lemma delta_neq i j : i <> j -> delta (F:=R) i j = 0. Proof. intros H. unfold delta. apply Nat.eqb_neq in H. rewrite H. reflexivity. Qed.
(** ** right-hand transformations *)
Lemma rhs_step_ok U E V m n q u e v i : mis U m n u -> vis E q e -> mis V n n v -> (i + 1 < n)%nat -> (n <= q)%nat ->
  (e (i + 1)%nat <> 0 -> (i < m)%nat /\ u i (i + 1)%nat <> 0) ->
  (forall r c, (i + 1 <= r < n)%nat -> (i + 1 <= c < n)%nat -> v r c = chain n (HR u e) (i + 1) (n - 1 - (i + 1)) r c) ->
  wp (rhs_step U E i (V, e (i + 1)%nat)) (fun st => snd st = e i /\ exists v', mis (fst st) n n v' /\ forall r c, (i <= r < n)%nat -> (i <= c < n)%nat -> v' r c = chain n (HR u e) i (n - 1 - i) r c).
Proof.
  intros HU HE HV Hi Hq Hnz Hv. unfold rhs_step. cbn [fst snd]. destruct HU as (U1 & U2 & U3). rewrite U2. assert (HU : mis U m n u) by (split; [exact U1|split; [exact U2|exact U3]]). clear U1 U2 U3. set (l := (i + 1)%nat) in *.
  set (C := chain n (HR u e) l (n - 1 - l)) in *.
  assert (EC : forall r c, (r < n)%nat -> (c < n)%nat -> chain n (HR u e) i (n - 1 - i) r c = mm n (HR u e i) C r c) by (intros; replace (n - 1 - i)%nat with (S (n - 1 - l)) by lia; cbn [chain]; replace (S i) with l by lia; reflexivity).
  assert (Elow : forall r c, (r < n)%nat -> (c < n)%nat -> (r < l)%nat \/ (c < l)%nat -> chain n (HR u e) i (n - 1 - i) r c = delta r c) by (intros; apply (chain_id n l); try assumption; intros; apply (HR_low u e _ l); [lia|assumption]).
  apply (wp_seq _ (fun W => exists v1, mis W n n v1 /\ forall r c, (l <= r < n)%nat -> (l <= c < n)%nat -> v1 r c = mm n (HR u e i) C r c)).
  - destruct (R_eqb (e l) 0) eqn:Z; cbn [wp].
    + apply R_eqb_true in Z. exists v. split; [exact HV|]. intros r c Hr Hc. rewrite Hv by assumption. symmetry. transitivity (mm n delta C r c); [|apply mm_delta_l; lia]. apply mm_ext; [|reflexivity]. intros k Hk. unfold HR. fold l. rewrite Z, coef_0. apply (hous_0 n); lia.
    + apply R_eqb_false in Z. destruct (Hnz Z) as [Hm Nz]. set (col := fun r => u i r / u i l / e l).
      apply (wp_seq _ (fun W => mis W n n (colset v i l n col))).
      { apply (for_col V n n v i l n col); [exact HV|lia|lia|]. intros k W Hk HW. apply (wp_mget U m n u i k _ _ HU); [lia|lia|]. apply (wp_mget U m n u i l _ _ HU); [lia|lia|]. apply wp_div; [exact Nz|]. apply wp_div; [exact Z|]. apply (wp_mset_end W n n _ k i _ _ HW); [lia|lia|]. intros W' HW'. exact HW'. }
      intros W HW. set (v1 := colset v i l n col) in *. set (psi := fun r c => v r c + Sum n (from l (fun k => u i k * v k c)) * col r).
      apply (wp_mono _ (fun W => mis W n n (cols v1 l n l n psi))).
      { apply (for_cols W n n v1 l n l n psi); [exact HW|lia|]. intros j X Hj HX. set (v2 := cols v1 l j l n psi) in *.
        assert (C2i : forall k, (l <= k < n)%nat -> v2 k i = col k) by (intros k Hk; unfold v2; rewrite cols_out by lia; apply colset_in; lia).
        assert (C2j : forall k, v2 k j = v k j) by (intros k; unfold v2; rewrite cols_out by lia; apply colset_out; lia).
        rewrite (for_sum l n _ (fun k => u i k * v k j)) by (intros k t Hk; destruct HU as (U1 & U2 & U3); destruct HX as (X1 & X2 & X3); rewrite !mget_ok by lia; cbn [bind]; rewrite U3, X3, C2j; reflexivity).
        cbn [bind]. rewrite Rplus_0_l. apply (for_col X n n v2 j l n (fun r => psi r j)); [exact HX|lia|lia|]. intros k Y Hk HY. apply (wp_mget Y n n _ k j _ _ HY); [lia|lia|]. apply (wp_mget Y n n _ k i _ _ HY); [lia|lia|].
        rewrite !colset_out by lia. rewrite C2i, C2j by lia. apply (wp_mset_end Y n n _ k j _ _ HY); [lia|lia|]. intros Y' HY'. exact HY'. }
      intros X HX. eexists. split; [exact HX|]. intros r c Hr Hc. rewrite cols_in by lia. unfold psi, HR. fold l. rewrite (hous_mm n n _ _ C r c) by lia. rewrite (Hv r c Hr Hc). f_equal. rewrite (from_in l _ r) by lia. unfold col, coef. destruct (R_eqb (e l) 0) eqn:Z'; [apply R_eqb_true in Z'; contradiction|].
      rewrite (S_ext n (from l (fun k => u i k * v k c)) (fun k => from l (fun k => u i k) k * C k c)); [field; split; assumption|]. intros k Hk. unfold from. cases; [|ring]. rewrite Hv by lia. reflexivity.
  - intros W (v1 & HW & Hv1).
    apply (wp_seq _ (fun X => exists v2, mis X n n v2 /\ (forall r c, (l <= r < n)%nat -> (l <= c < n)%nat -> v2 r c = v1 r c) /\ (forall r, (l <= r < n)%nat -> v2 r i = 0 /\ v2 i r = 0))).
    { eapply wp_mono; [apply (wp_for (fun j X => exists v2, mis X n n v2 /\ (forall r c, (l <= r < n)%nat -> (l <= c < n)%nat -> v2 r c = v1 r c) /\ (forall r, (l <= r < j)%nat -> v2 r i = 0 /\ v2 i r = 0)) l n)|].
      - lia.
      - exists v1. split; [exact HW|]. split; [reflexivity|intros; lia].
      - intros j X Hj (v2 & HX & P1 & P2). apply (wp_mset X n n v2 j i _ _ _ HX); [lia|lia|]. intros Y HY. apply (wp_mset_end Y n n _ i j _ _ HY); [lia|lia|]. intros Y' HY'. eexists. split; [exact HY'|]. split.
        + intros r c Hr Hc. rewrite !upd2_out by lia. apply P1; assumption.
        + intros r Hr. destruct (Nat.eq_dec r j) as [->|N]; [rewrite upd2_in; split; [|reflexivity]; rewrite upd2_out by lia; apply upd2_in|]. rewrite !upd2_out by lia. apply P2. lia.
      - intros X H. exact H. }
    intros X (v2 & HX & P1 & P2). apply (wp_mset X n n v2 i i _ _ _ HX); [lia|lia|]. intros Y HY. apply (wp_vget E q e i _ _ HE); [lia|]. cbn [wp fst snd]. split; [reflexivity|]. eexists. split; [exact HY|].
    intros r c Hr Hc. destruct (Nat.eq_dec r i) as [->|Nr]; destruct (Nat.eq_dec c i) as [->|Nc].
    + rewrite upd2_in, Elow, delta_eq by lia. reflexivity.
    + rewrite upd2_out, Elow, delta_neq by lia. apply P2. lia.
    + rewrite upd2_out, Elow, delta_neq by lia. apply P2. lia.
    + rewrite upd2_out by lia. rewrite P1, Hv1, EC by lia. reflexivity.
Qed.
Lemma accumulate_rhs_ok U E m n q u e : mis U m n u -> vis E q e -> (0 < n <= q)%nat -> (forall r, (r < n - 1)%nat -> e (r + 1)%nat <> 0 -> (r < m)%nat /\ u r (r + 1)%nat <> 0) ->
  wp (accumulate_rhs U E) (fun V => mrows V = n /\ mcols V = n /\ req n n (mel V) (chain n (HR u e) 0 (n - 1))).
Proof.
  intros HU HE Hn Hnz. unfold accumulate_rhs. pose proof HU as (_ & U2 & _). rewrite U2. destruct (Nat.eqb_spec n 0); [lia|]. apply (wp_mset (mnew n n) n n (mel (mnew n n)) (n - 1) (n - 1) _ _ _ (mis_self _)); [lia|lia|]. intros V HV.
  apply (wp_vget E q e (n - 1) _ _ HE); [lia|].
  apply (wp_seq _ (fun st => snd st = e 0%nat /\ exists v, mis (fst st) n n v /\ forall r c, (0 <= r < n)%nat -> (0 <= c < n)%nat -> v r c = chain n (HR u e) 0 (n - 1 - 0) r c)).
  - apply (wp_for_down (fun i st => snd st = e i /\ exists v, mis (fst st) n n v /\ forall r c, (i <= r < n)%nat -> (i <= c < n)%nat -> v r c = chain n (HR u e) i (n - 1 - i) r c)); [lia| |].
    + cbn [fst snd]. split; [reflexivity|]. eexists. split; [exact HV|]. intros r c Hr Hc. replace r with (n - 1)%nat by lia. replace c with (n - 1)%nat by lia. rewrite upd2_in, Nat.sub_diag. cbn [chain]. rewrite delta_eq. reflexivity.
    + intros i [W g] Hi (Eg & v & HW & Hv). cbn [fst snd] in *. replace (S i) with (i + 1)%nat in * by lia. subst g. apply (rhs_step_ok U E W m n q u e v i HU HE HW); [lia|lia| |exact Hv]. intros N. apply Hnz; [lia|exact N].
  - intros [W g] (_ & v & HW & Hv). cbn [fst wp] in *. destruct HW as (W1 & W2 & W3). split; [exact W1|]. split; [exact W2|]. intros r c Hr Hc. rewrite W3, Hv by lia. rewrite Nat.sub_0_r. reflexivity.
Qed.
(** ** left-hand transformations *)
Definition Jmat (s : nat) : rmat := fun r c => if (c <? s)%nat then delta r c else 0.
Lemma lhs_step_ok U D m n x u d i : let s := Nat.min m n in mis U m n x -> vis D n d -> (i < s)%nat -> (d i <> 0 -> u i i <> 0) ->
  (forall r c, (c <= i)%nat -> x r c = u r c) ->
  (forall r c, (i + 1 <= r < m)%nat -> (i + 1 <= c < n)%nat -> x r c = mm m (chain m (HL u d) (i + 1) (s - (i + 1))) (Jmat s) r c) ->
  wp (lhs_step D i U) (fun U' => exists x', mis U' m n x' /\ (forall r c, (c < i)%nat -> x' r c = u r c) /\ forall r c, (i <= r < m)%nat -> (i <= c < n)%nat -> x' r c = mm m (chain m (HL u d) i (s - i)) (Jmat s) r c).
Proof.
  intros s HU HD Hi Hnz Hlow Hx. unfold lhs_step. destruct HU as (U1 & U2 & U3). rewrite U1, U2. assert (HU : mis U m n x) by (split; [exact U1|split; [exact U2|exact U3]]). clear U1 U2 U3.
  assert (Him : (i < m)%nat) by lia. assert (Hin : (i < n)%nat) by lia. set (l := (i + 1)%nat) in *.
  set (C := mm m (chain m (HL u d) l (s - l)) (Jmat s)) in *.
  assert (EC : forall r c, (r < m)%nat -> (c < n)%nat -> mm m (chain m (HL u d) i (s - i)) (Jmat s) r c = C r c + coef (d i) (u i i) * from i (fun k => u k i) r * Sum m (fun k => from i (fun k => u k i) k * C k c)).
  { intros r c Hr Hc. replace (s - i)%nat with (S (s - l)) by lia. cbn [chain]. replace (S i) with l by lia. rewrite mm_assoc2. fold C. unfold HL. apply (hous_mm m n); assumption. }
  assert (Lch : forall r c, (r < m)%nat -> (c < m)%nat -> (r < l)%nat \/ (c < l)%nat -> chain m (HL u d) l (s - l) r c = delta r c) by (intros; apply (chain_id m l); try assumption; intros; apply (HL_low u d _ l); [lia|assumption]).
  assert (Crow : forall c, (l <= c < n)%nat -> C i c = 0).
  { intros c Hc. unfold C, mm. rewrite (S_ext m _ (fun k => delta i k * Jmat s k c)) by (intros k Hk; rewrite Lch; [reflexivity|lia|exact Hk|left; lia]). rewrite (delta_l m i (fun k => Jmat s k c) Him). unfold Jmat. cases. apply delta_neq. lia. }
  assert (Ccol : forall r, (r < m)%nat -> C r i = delta r i).
  { intros r Hr. unfold C, mm. rewrite (S_ext m _ (fun k => chain m (HL u d) l (s - l) r k * delta k i)) by (intros k Hk; unfold Jmat; cases). rewrite (delta_r m i (fun k => chain m (HL u d) l (s - l) r k) Him). apply Lch; [exact Hr|lia|right; lia]. }
  apply (wp_vget D n d i _ _ HD); [lia|].
  apply (wp_seq _ (fun W => mis W m n (rowset x i l n (fun _ => 0)))).
  { destruct (Nat.eqb_spec i (n - 1)) as [En|En]; [cbn [wp]; apply (mis_ext U m n x _ HU); intros; rewrite rowset_out by lia; reflexivity|].
    apply (for_row U m n x i l n (fun _ => 0)); [exact HU|lia|lia|]. intros k W Hk HW. apply (wp_mset_end W m n _ i k _ _ HW); [lia|lia|]. intros W' HW'. exact HW'. }
  intros W HW. set (x1 := rowset x i l n (fun _ => 0)) in *.
  assert (X1c : forall r c, (c <= i)%nat -> x1 r c = u r c) by (intros r c Hc; unfold x1; rewrite rowset_out by lia; apply Hlow; exact Hc).
  assert (X1C : forall r c, (i <= r < m)%nat -> (l <= c < n)%nat -> x1 r c = C r c) by (intros r c Hr Hc; destruct (Nat.eq_dec r i) as [->|N]; [unfold x1; rewrite rowset_in by lia; symmetry; apply Crow; exact Hc|unfold x1; rewrite rowset_out by lia; apply Hx; lia]).
  apply (wp_seq _ (fun W => exists x2, mis W m n x2 /\ (forall r c, (c < i)%nat -> x2 r c = u r c) /\ (forall r, (i <= r < m)%nat -> x2 r i = coef (d i) (u i i) * u r i * u i i) /\
    (forall r c, (i <= r < m)%nat -> (l <= c < n)%nat -> x2 r c = C r c + coef (d i) (u i i) * from i (fun k => u k i) r * Sum m (fun k => from i (fun k => u k i) k * C k c)))).
  - destruct (R_eqb (d i) 0) eqn:Z.
    + apply R_eqb_true in Z. eapply wp_mono; [apply (for_col W m n x1 i i m (fun _ => 0)); [exact HW|lia|lia|]|].
      * intros k X Hk HX. apply (wp_mset_end X m n _ k i _ _ HX); [lia|lia|]. intros X' HX'. exact HX'.
      * intros X HX. eexists. split; [exact HX|]. rewrite Z, coef_0. split; [intros r c Hc; rewrite colset_out by lia; apply X1c; lia|]. split; [intros r Hr; rewrite colset_in by lia; ring|]. intros r c Hr Hc. rewrite colset_out by lia. rewrite X1C by assumption. ring.
    + apply R_eqb_false in Z. pose proof (Hnz Z) as Nu. apply wp_div; [exact Z|].
      set (psi := fun r c => C r c + coef (d i) (u i i) * from i (fun k => u k i) r * Sum m (fun k => from i (fun k => u k i) k * C k c)).
      assert (Es : forall c, (l <= c < n)%nat -> Sum m (fun k => from i (fun k => u k i) k * C k c) = Sum m (from l (fun k => u k i * x1 k c))).
      { intros c Hc. apply S_ext. intros k Hk. unfold from. destruct (Nat.eq_dec k i) as [->|N]; [rewrite Crow by exact Hc; cases; ring|]. cases; [|ring]. rewrite X1C by lia. reflexivity. }
      apply (wp_seq _ (fun X => exists x3, mis X m n x3 /\ (forall r c, (c <= i)%nat -> x3 r c = u r c) /\ forall r c, (i <= r < m)%nat -> (l <= c < n)%nat -> x3 r c = psi r c)).
      { destruct (Nat.eqb_spec i (Nat.min m n - 1)) as [El|El].
        - cbn [wp]. exists x1. split; [exact HW|]. split; [exact X1c|]. intros r c Hr Hc. rewrite X1C by assumption. unfold psi. rewrite Es by exact Hc. rewrite (S_zero m (from l _)); [ring|]. intros k Hk. apply from_out. lia.
        - eapply wp_mono; [apply (for_cols W m n x1 l n i m psi); [exact HW|lia|]|].
          + intros j X Hj HX. set (x2 := cols x1 l j i m psi) in *.
            assert (C2i : forall k, x2 k i = u k i) by (intros k; unfold x2; rewrite cols_out by lia; apply X1c; lia). assert (C2j : forall k, x2 k j = x1 k j) by (intros k; unfold x2; apply cols_out; lia).
            rewrite (for_sum l m _ (fun k => u k i * x1 k j)) by (intros k t Hk; destruct HX as (X1 & X2 & X3); rewrite !mget_ok by lia; cbn [bind]; rewrite !X3, C2i, C2j; reflexivity).
            cbn [bind]. rewrite Rplus_0_l. apply (wp_mget X m n _ i i _ _ HX); [lia|lia|]. rewrite C2i. apply wp_div; [exact Nu|].
            apply (for_col X m n x2 j i m (fun r => psi r j)); [exact HX|lia|lia|]. intros k Y Hk HY. apply (wp_mget Y m n _ k j _ _ HY); [lia|lia|]. apply (wp_mget Y m n _ k i _ _ HY); [lia|lia|].
            rewrite !colset_out by lia. rewrite C2i, C2j. replace (x1 k j + _) with (psi k j); [apply (wp_mset_end Y m n _ k j _ _ HY); [lia|lia|]; intros Y' HY'; exact HY'|].
            unfold psi. rewrite X1C by lia. f_equal. rewrite Es by lia. rewrite from_in by lia. unfold coef. destruct (R_eqb (d i) 0) eqn:Z'; [apply R_eqb_true in Z'; contradiction|]. field. split; assumption.
          + intros X HX. eexists. split; [exact HX|]. split; [intros r c Hc; rewrite cols_out by lia; apply X1c; exact Hc|]. intros r c Hr Hc. apply cols_in; lia. }
      intros X (x3 & HX & P1 & P2). eapply wp_mono; [apply (for_col X m n x3 i i m (fun r => u r i * (1 / d i))); [exact HX|lia|lia|]|].
      * intros k Y Hk HY. apply (wp_mget Y m n _ k i _ _ HY); [lia|lia|]. rewrite colset_out by lia. rewrite P1 by lia. apply (wp_mset_end Y m n _ k i _ _ HY); [lia|lia|]. intros Y' HY'. exact HY'.
      * intros Y HY. eexists. split; [exact HY|]. split; [intros r c Hc; rewrite colset_out by lia; apply P1; lia|]. split.
        -- intros r Hr. rewrite colset_in by lia. unfold coef. destruct (R_eqb (d i) 0) eqn:Z'; [apply R_eqb_true in Z'; contradiction|]. field. split; assumption.
        -- intros r c Hr Hc. rewrite colset_out by lia. apply P2; assumption.
  - intros X (x2 & HX & P1 & P2 & P3). apply (wp_mget X m n _ i i _ _ HX); [lia|lia|]. apply (wp_mset_end X m n _ i i _ _ HX); [lia|lia|]. intros Y HY. eexists. split; [exact HY|]. split; [intros r c Hc; rewrite upd2_out by lia; apply P1; exact Hc|].
    intros r c Hr Hc. rewrite EC by lia. destruct (Nat.eq_dec c i) as [->|Nc].
    + rewrite (S_ext m _ (fun k => from i (fun k => u k i) k * delta k i)) by (intros k Hk; rewrite Ccol by exact Hk; reflexivity). rewrite (delta_r m i (from i (fun k => u k i)) Him). rewrite !from_in by lia. rewrite Ccol by lia.
      destruct (Nat.eq_dec r i) as [->|Nr]; [rewrite upd2_in, delta_eq, P2 by lia; ring|]. rewrite upd2_out, delta_neq, P2 by lia. ring.
    + rewrite upd2_out by lia. apply P3; lia.
Qed.
Lemma accumulate_lhs_ok U D m n u d : mis U m n u -> vis D n d -> (forall r, (r < Nat.min m n)%nat -> d r <> 0 -> u r r <> 0) ->
  wp (accumulate_lhs U D) (fun U' => mrows U' = m /\ mcols U' = n /\ req m n (mel U') (mm m (chain m (HL u d) 0 (Nat.min m n)) (Jmat (Nat.min m n)))).
Proof.
  intros HU HD Hnz. unfold accumulate_lhs. pose proof HU as (U1 & U2 & _). rewrite U1, U2. set (s := Nat.min m n) in *.
  eapply wp_mono; [apply (wp_for_down (fun i X => exists x, mis X m n x /\ (forall r c, (c < i)%nat -> x r c = u r c) /\ forall r c, (i <= r < m)%nat -> (i <= c < n)%nat -> x r c = mm m (chain m (HL u d) i (s - i)) (Jmat s) r c) s 0)|].
  - lia.
  - exists u. split; [exact HU|]. split; [reflexivity|intros; lia].
  - intros i X Hi (x & HX & P1 & P2). replace (S i) with (i + 1)%nat in * by lia. apply (lhs_step_ok X D m n x u d i HX HD); [fold s; lia|apply Hnz; lia|intros; apply P1; lia|exact P2].
  - cbn beta. intros X (x & (X1 & X2 & X3) & _ & P2). split; [exact X1|]. split; [exact X2|]. intros r c Hr Hc. rewrite X3, P2 by lia. rewrite Nat.sub_0_r. reflexivity.
Qed.
