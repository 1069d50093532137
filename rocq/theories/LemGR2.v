(** * GR_SVD: one reflection from the left, one from the right *)
From Coq Require Import Reals Arith Bool Lia Lra Psatz.
From Verif Require Import Base Alg Inst Mat SpecMat LemMat RSum ModelOps ModelSVD ModelGR SpecExp LemEig LemExp RRect LemGR.
Open Scope outcome_scope.
Local Open Scope R_scope.

(** the vector and the coefficient of the reflection that takes a (from position i on) to d e_i *)
Definition wvec (i : nat) (a : nat -> R) (d : R) : nat -> R := from i (fun k => a k - (if (k =? i)%nat then d else 0)).
Definition coef (d wi : R) : R := if R_eqb d 0 then 0 else / (d * wi).
Definition reflecting (m i : nat) (a : nat -> R) (d : R) : Prop :=
  let w := wvec i a d in let b := coef d (w i) in
  involution m (hous w b) /\ (d <> 0 -> w i <> 0) /\
  forall k, (i <= k < m)%nat -> a k + b * w k * Sum m (fun k => w k * a k) = if (k =? i)%nat then d else 0.
Lemma away_ok f s : 0 <= s -> away f s * away f s = s /\ f * away f s <= 0.
Proof.
  intros Hs. pose proof (sqrt_sqrt s Hs) as Q. pose proof (sqrt_pos s) as P. unfold away. destruct (R_ltb f 0) eqn:E; [apply R_ltb_spec in E|apply R_ltb_false in E]; split; nra.
Qed.
Lemma S_from_sq_pos m i a : (i < m)%nat -> Sum m (from i (fun k => Rabs (a k))) <> 0 -> 0 < Sum m (from i (fun k => a k * a k)).
Proof.
  intros Hi H. assert (P : 0 <= Sum m (from i (fun k => a k * a k))) by (apply S_nonneg; intros k _; unfold from; destruct (i <=? k)%nat; nra).
  destruct P as [P|P]; [exact P|]. exfalso. apply H. apply S_zero. intros k Hk. assert (Z : from i (fun k => a k * a k) k = 0) by (apply (S_pos_zero m (from i (fun k => a k * a k))); [intros j _; unfold from; destruct (i <=? j)%nat; nra|congruence|exact Hk]).
  unfold from in *. destruct (i <=? k)%nat; [|reflexivity]. assert (a k = 0) as -> by nra. apply Rabs_R0.
Qed.
Lemma S_from_zero m i a : Sum m (from i (fun k => Rabs (a k))) = 0 -> forall k, (i <= k < m)%nat -> a k = 0.
Proof.
  intros H k [H1 H2]. assert (Z : from i (fun k => Rabs (a k)) k = 0) by (apply (S_pos_zero m (from i (fun k => Rabs (a k)))); [intros j _; unfold from; destruct (i <=? j)%nat; [apply Rabs_pos|lra]|exact H|exact H2]).
  rewrite from_in in Z by exact H1. destruct (Req_dec (a k) 0) as [|N]; [assumption|]. apply Rabs_no_R0 in N. contradiction.
Qed.
Lemma house_facts m i a scale : (i < m)%nat -> scale = Sum m (from i (fun k => Rabs (a k))) -> scale <> 0 ->
  let s := Sum m (from i (fun k => a k / scale * (a k / scale))) in let f := a i / scale in let g := away f s in let d := scale * g in let w := wvec i a d in
  0 < scale /\ d <> 0 /\ w i <> 0 /\ f * g - s <> 0 /\ / (f * g - s) = / (d * w i) * (scale * scale) /\ (f - g) * scale = w i /\ / (d * w i) * Sum m (fun k => w k * w k) = -2 /\ Sum m (fun k => w k * a k) = - (d * w i).
Proof.
  intros Hi Es Ns s f g d w. assert (Ps : 0 < scale). { assert (0 <= scale) by (rewrite Es; apply S_nonneg; intros k _; unfold from; destruct (i <=? k)%nat; [apply Rabs_pos|lra]). lra. }
  set (q := Sum m (from i (fun k => a k * a k))). assert (Pq : 0 < q) by (apply S_from_sq_pos; [exact Hi|congruence]).
  assert (Eq : s = q / (scale * scale)). { unfold s, q, Rdiv. rewrite <- S_mul_r. apply S_ext. intros k Hk. unfold from. destruct (i <=? k)%nat; field; lra. }
  assert (Ps2 : 0 < s) by (rewrite Eq; apply Rdiv_lt_0_compat; nra). destruct (away_ok f s ltac:(lra)) as [G1 G2]. fold g in G1, G2.
  assert (Ed : d * d = q) by (unfold d; rewrite <- (Rmult_1_r q); replace q with (s * (scale * scale)) by (rewrite Eq; field; lra); rewrite <- G1; ring).
  assert (Ai : a i = f * scale) by (unfold f; field; lra).
  assert (Wi : w i = a i - d) by (unfold w, wvec; rewrite from_in by lia; rewrite Nat.eqb_refl; reflexivity).
  assert (Nd : d <> 0) by nra. assert (Adle : a i * d <= 0) by (rewrite Ai; unfold d; nra).
  assert (Nw : w i <> 0). { rewrite Wi. intros C. assert (a i = d) by lra. nra. }
  assert (Eh : f * g - s = d * w i / (scale * scale)). { rewrite Wi, Ai. rewrite <- G1. unfold d. field. lra. }
  assert (Swa : Sum m (fun k => w k * a k) = - (d * w i)).
  { rewrite (S_ext m _ (fun k => from i (fun k => a k * a k) k - delta i k * (d * a k))).
    - rewrite S_sub, (delta_l m i (fun k => d * a k) Hi). fold q. rewrite <- Ed, Wi. ring.
    - intros k Hk. unfold w, wvec, from, delta. rewrite (Nat.eqb_sym i k). destruct (Nat.leb_spec i k), (Nat.eqb_spec k i); cbn [f0 f1 ROps]; try ring; lia. }
  split; [exact Ps|]. split; [exact Nd|]. split; [exact Nw|]. assert (Nss : d * w i <> 0) by (apply Rmult_integral_contrapositive_currified; assumption).
  split. { rewrite Eh. unfold Rdiv. apply Rmult_integral_contrapositive_currified; [exact Nss|]. apply Rinv_neq_0_compat. nra. }
  split. { rewrite Eh. field. repeat split; try assumption; nra. }
  split. { rewrite Wi, Ai. unfold d. ring. }
  split; [|exact Swa].
  assert (Sww : Sum m (fun k => w k * w k) = - 2 * (d * w i)).
  { rewrite (S_ext m _ (fun k => w k * a k - delta i k * (d * w k))).
    - rewrite S_sub, (delta_l m i (fun k => d * w k) Hi), Swa. ring.
    - intros k Hk. unfold w, wvec, from, delta. rewrite (Nat.eqb_sym i k). destruct (Nat.leb_spec i k), (Nat.eqb_spec k i); cbn [f0 f1 ROps]; try ring; lia. }
  rewrite Sww. field. split; assumption.
Qed.
Lemma house_reflecting m i a scale : (i < m)%nat -> scale = Sum m (from i (fun k => Rabs (a k))) -> scale <> 0 ->
  reflecting m i a (scale * away (a i / scale) (Sum m (from i (fun k => a k / scale * (a k / scale))))).
Proof.
  intros Hi Es Ns. destruct (house_facts m i a scale Hi Es Ns) as (F1 & F2 & F3 & F4 & F5 & F6 & F7 & F8). set (d := scale * away _ _) in *. unfold reflecting. unfold coef.
  destruct (R_eqb d 0) eqn:E; [apply R_eqb_true in E; contradiction|]. split; [apply hous_inv; right; exact F7|]. split; [intros _; exact F3|].
  intros k [K1 K2]. rewrite F8. unfold wvec at 2. rewrite from_in by exact K1. destruct (Nat.eqb_spec k i); field; split; assumption.
Qed.
Lemma zero_reflecting m i a : (forall k, (i <= k < m)%nat -> a k = 0) -> reflecting m i a 0.
Proof.
  intros H. unfold reflecting, coef. destruct (R_eqb 0 0) eqn:E; [|apply R_eqb_false in E; lra]. split; [apply hous_inv; left; reflexivity|]. split; [intros C; lra|]. intros k Hk. rewrite H by exact Hk. destruct (k =? i)%nat; ring.
Qed.
(** mU after the reflection of column i: the vector in column i, the reflected columns to its right *)
Definition left_result (m n i : nat) (u : rmat) (d : R) : rmat :=
  let w := wvec i (fun k => u k i) d in let b := coef d (w i) in
  fun r c => if ((i <=? r) && (r <? m) && (i <=? c) && (c <? n))%nat then (if (c =? i)%nat then w r else u r c + b * w r * Sum m (fun k => w k * u k c)) else u r c.
Lemma left_result_col m n i u d r : (i <= r < m)%nat -> (i < n)%nat -> left_result m n i u d r i = wvec i (fun k => u k i) d r.
Proof. intros H H2. unfold left_result. rewrite Nat.eqb_refl. destruct (Nat.leb_spec i r), (Nat.ltb_spec r m), (Nat.leb_spec i i), (Nat.ltb_spec i n); cbn [andb]; try reflexivity; lia. Qed.
Lemma left_result_right m n i u d r c : (i <= r < m)%nat -> (i < c < n)%nat -> left_result m n i u d r c = mm m (hous (wvec i (fun k => u k i) d) (coef d (wvec i (fun k => u k i) d i))) u r c.
Proof.
  intros H H2. rewrite (hous_mm m n _ _ u r c) by lia. unfold left_result. destruct (Nat.eqb_spec c i); [lia|]. destruct (Nat.leb_spec i r), (Nat.ltb_spec r m), (Nat.leb_spec i c), (Nat.ltb_spec c n); cbn [andb]; try reflexivity; lia.
Qed.
Lemma left_result_out m n i u d r c : (r < i)%nat \/ (m <= r)%nat \/ (c < i)%nat \/ (n <= c)%nat -> left_result m n i u d r c = u r c.
Proof. intros H. unfold left_result. destruct (Nat.leb_spec i r), (Nat.ltb_spec r m), (Nat.leb_spec i c), (Nat.ltb_spec c n); cbn [andb]; try reflexivity; lia. Qed.
Lemma left_step_ok i U m n u : mis U m n u -> (i < m)%nat -> (i < n)%nat ->
  wp (left_step i U) (fun '(U', g, scale) => reflecting m i (fun k => u k i) (scale * g) /\ mis U' m n (left_result m n i u (scale * g))).
Proof.
  intros HU Hi Hj. unfold left_step. destruct HU as (U1 & U2 & U3). rewrite U1, U2. assert (HU : mis U m n u) by (split; [exact U1|split; [exact U2|exact U3]]). clear U1 U2 U3.
  set (a := fun k => u k i). rewrite (for_sum i m _ (fun k => Rabs (a k))) by (intros k s [K1 K2]; apply (wp_ok_inv _ (fun x => x = s + Rabs (a k))) || idtac; destruct HU as (U1 & U2 & U3); rewrite mget_ok by lia; cbn [bind]; rewrite U3; reflexivity).
  cbn [bind]. rewrite Rplus_0_l. remember (Sum m (from i (fun k => Rabs (a k)))) as scale eqn:Es. destruct (R_eqb scale 0) eqn:Z.
  - apply R_eqb_true in Z. cbn [wp]. replace (scale * 0) with 0 by ring. pose proof (S_from_zero m i a ltac:(congruence)) as A0. split; [apply zero_reflecting; exact A0|].
    apply (mis_ext U m n u _ HU). intros r c. unfold left_result. destruct (Nat.leb_spec i r), (Nat.ltb_spec r m), (Nat.leb_spec i c), (Nat.ltb_spec c n); cbn [andb]; try reflexivity. unfold coef. destruct (R_eqb 0 0) eqn:E; [|apply R_eqb_false in E; lra].
    destruct (Nat.eqb_spec c i) as [->|]; [|ring]. unfold wvec. rewrite from_in by lia. destruct (r =? i)%nat; ring.
  - apply R_eqb_false in Z. pose proof (house_reflecting m i a scale Hi Es Z) as RF. destruct (house_facts m i a scale Hi Es Z) as (F1 & F2 & F3 & F4 & F5 & F6 & F7 & F8).
    set (s := Sum m (from i (fun k => a k / scale * (a k / scale)))) in *. set (f := a i / scale) in *. set (g := away f s) in *. set (d := scale * g) in *. set (w := wvec i a d) in *.
    set (u1 := colset u i i m (fun r => a r / scale)).
    apply (wp_seq _ (fun st => mis (fst st) m n u1 /\ snd st = s)).
    { apply (wp_for (fun k st => mis (fst st) m n (colset u i i k (fun r => a r / scale)) /\ snd st = Sum k (from i (fun k => a k / scale * (a k / scale))))); [lia| |].
      - cbn [fst snd]. split; [apply (mis_ext U m n u _ HU); intros; rewrite colset_empty; reflexivity|]. rewrite S_from_low. reflexivity.
      - intros k [V t] Hk [HV Ht]. cbn [fst snd] in *. apply (wp_mget V m n _ k i _ _ HV); [lia|lia|]. rewrite colset_out by lia. apply wp_div; [exact Z|]. apply (wp_mset V m n _ k i _ _ _ HV); [lia|lia|]. intros V' HV'. cbn [wp fst snd]. split.
        + apply (mis_ext V' m n _ _ HV'). intros. apply (colset_step u i i k (fun r => a r / scale)). lia.
        + cbn [sum]. cbn [fadd ROps]. rewrite <- Ht, from_in by lia. reflexivity. }
    intros [V t] [HV Ht]. cbn [fst snd] in *. subst t. apply (wp_mget V m n _ i i _ _ HV); [lia|lia|]. unfold u1 at 1. rewrite colset_in by lia. change (a i / scale) with f. cbn zeta. fold g.
    assert (E1 : u1 i i = f) by (unfold u1; rewrite colset_in by lia; reflexivity). rewrite ?E1. fold g.
    apply (wp_mset V m n _ i i _ _ _ HV); [lia|lia|]. intros V' HV'. set (u2 := upd2 u1 i i (f - g)) in *.
    assert (C2 : forall k, (i <= k < m)%nat -> u2 k i = w k / scale).
    { intros k Hk. unfold u2. destruct (Nat.eq_dec k i) as [->|N]; [rewrite upd2_in, <- F6; field; lra|]. rewrite upd2_out by lia. unfold u1. rewrite colset_in by lia. unfold w, wvec. rewrite from_in by lia. destruct (Nat.eqb_spec k i); [contradiction|]. field. lra. }
    assert (C2o : forall r c, c <> i -> u2 r c = u r c) by (intros r c N; unfold u2; rewrite upd2_out by lia; unfold u1; apply colset_out; lia).
    set (psi := fun r c => u r c + coef d (w i) * w r * Sum m (fun k => w k * u k c)).
    apply (wp_seq _ (fun W => mis W m n (cols u2 (i + 1) n i m psi))).
    { destruct (Nat.eqb_spec i (n - 1)) as [En|En].
      - cbn [wp]. apply (mis_ext V' m n _ _ HV'). intros r c. rewrite cols_out by lia. reflexivity.
      - apply (for_cols V' m n u2 (i + 1) n i m psi); [exact HV'|lia|]. intros j W Hj' HW. set (u3 := cols u2 (i + 1) j i m psi) in *.
        assert (C3i : forall k, u3 k i = u2 k i) by (intros k; apply cols_out; lia). assert (C3j : forall k, u3 k j = u k j) by (intros k; unfold u3; rewrite cols_out by lia; apply C2o; lia).
        rewrite (for_sum i m _ (fun k => w k / scale * u k j)) by (intros k t Hk; destruct HW as (W1 & W2 & W3); rewrite !mget_ok by lia; cbn [bind]; rewrite !W3, C3i, C3j, C2 by lia; reflexivity).
        cbn [bind]. rewrite Rplus_0_l. apply wp_div; [exact F4|]. set (ff := _ / (f * g - s)).
        assert (Eff : forall k, (i <= k < m)%nat -> u k j + ff * (w k / scale) = psi k j).
        { intros k Hk. unfold psi. f_equal. unfold ff, Rdiv. rewrite F5. rewrite (S_ext m _ (fun k => / scale * (w k * u k j))).
          - rewrite S_mul_l. unfold coef. destruct (R_eqb d 0) eqn:E; [apply R_eqb_true in E; contradiction|]. field. repeat split; assumption.
          - intros k' Hk'. unfold from. destruct (Nat.leb_spec i k'); [unfold Rdiv; ring|]. unfold w, wvec. rewrite from_out by lia. ring. }
        apply (for_col W m n u3 j i m (fun r => psi r j)); [exact HW|lia|lia|]. intros k X Hk HX. apply (wp_mget X m n _ k j _ _ HX); [lia|lia|]. apply (wp_mget X m n _ k i _ _ HX); [lia|lia|].
        rewrite !colset_out by lia. rewrite C3i, C3j, C2 by lia. rewrite Eff by lia. apply (wp_mset_end X m n _ k j _ _ HX); [lia|lia|]. intros X' HX'. exact HX'. }
    intros W HW. set (u4 := cols u2 (i + 1) n i m psi) in *. apply (wp_seq _ (fun X => mis X m n (colset u4 i i m w))).
    { apply (for_col W m n u4 i i m w); [exact HW|lia|lia|]. intros k X Hk HX. apply (wp_mget X m n _ k i _ _ HX); [lia|lia|]. rewrite colset_out by lia. unfold u4. rewrite cols_out by lia. fold u4. rewrite C2 by lia.
      replace (w k / scale * scale) with (w k) by (field; lra). apply (wp_mset_end X m n _ k i _ _ HX); [lia|lia|]. intros X' HX'. exact HX'. }
    intros X HX. cbn [wp]. fold d. split; [exact RF|]. apply (mis_ext X m n _ _ HX). intros r c. unfold left_result. change (fun k => u k i) with a. fold w.
    unfold colset, u4, cols. destruct (Nat.leb_spec i r), (Nat.ltb_spec r m), (Nat.eqb_spec c i), (Nat.leb_spec i c), (Nat.leb_spec (i + 1) c), (Nat.ltb_spec c n); cbn [andb]; try reflexivity; try lia; try (apply C2o; lia); try (subst c; unfold u2, u1; rewrite upd2_out by lia; apply colset_out; lia).
Qed.
(** mU after the reflection of row i (from column l on): the vector in row i, the reflected rows below it *)
Definition right_result (m n i l : nat) (u : rmat) (d : R) : rmat :=
  let w := wvec l (fun k => u i k) d in let b := coef d (w l) in
  fun r c => if ((i <=? r) && (r <? m) && (l <=? c) && (c <? n))%nat then (if (r =? i)%nat then w c else u r c + b * w c * Sum n (fun k => u r k * w k)) else u r c.
Lemma right_result_row m n i l u d c : (l <= c < n)%nat -> (i < m)%nat -> right_result m n i l u d i c = wvec l (fun k => u i k) d c.
Proof. intros H H2. unfold right_result. rewrite Nat.eqb_refl. destruct (Nat.leb_spec l c), (Nat.ltb_spec c n), (Nat.leb_spec i i), (Nat.ltb_spec i m); cbn [andb]; try reflexivity; lia. Qed.
Lemma right_result_below m n i l u d r c : (i < r < m)%nat -> (l <= c < n)%nat -> right_result m n i l u d r c = mm n u (hous (wvec l (fun k => u i k) d) (coef d (wvec l (fun k => u i k) d l))) r c.
Proof.
  intros H H2. rewrite (mm_hous m n _ _ u r c) by lia. unfold right_result. destruct (Nat.eqb_spec r i); [lia|]. destruct (Nat.leb_spec i r), (Nat.ltb_spec r m), (Nat.leb_spec l c), (Nat.ltb_spec c n); cbn [andb]; try reflexivity; lia.
Qed.
Lemma right_result_out m n i l u d r c : (r < i)%nat \/ (m <= r)%nat \/ (c < l)%nat \/ (n <= c)%nat -> right_result m n i l u d r c = u r c.
Proof. intros H. unfold right_result. destruct (Nat.leb_spec i r), (Nat.ltb_spec r m), (Nat.leb_spec l c), (Nat.ltb_spec c n); cbn [andb]; try reflexivity; lia. Qed.
Lemma right_step_ok i U E m n u e q : mis U m n u -> vis E q e -> (i < m)%nat -> (i + 1 < n <= q)%nat ->
  wp (right_step i U E) (fun '(U', E', g, scale) => reflecting n (i + 1) (fun k => u i k) (scale * g) /\ mis U' m n (right_result m n i (i + 1) u (scale * g)) /\ exists e', vis E' q e' /\ forall k, (k <= i)%nat -> e' k = e k).
Proof.
  intros HU HE Hi Hl. unfold right_step. destruct HU as (U1 & U2 & U3). rewrite U1, U2. assert (HU : mis U m n u) by (split; [exact U1|split; [exact U2|exact U3]]). clear U1 U2 U3. set (l := (i + 1)%nat) in *.
  set (a := fun k => u i k). rewrite (for_sum l n _ (fun k => Rabs (a k))) by (intros k s [K1 K2]; destruct HU as (U1 & U2 & U3); rewrite mget_ok by lia; cbn [bind]; rewrite U3; reflexivity).
  cbn [bind]. rewrite Rplus_0_l. remember (Sum n (from l (fun k => Rabs (a k)))) as scale eqn:Es. destruct (R_eqb scale 0) eqn:Z.
  - apply R_eqb_true in Z. cbn [wp]. replace (scale * 0) with 0 by ring. pose proof (S_from_zero n l a ltac:(congruence)) as A0. split; [apply zero_reflecting; exact A0|]. split; [|exists e; split; [exact HE|reflexivity]].
    apply (mis_ext U m n u _ HU). intros r c. unfold right_result. destruct (Nat.leb_spec i r), (Nat.ltb_spec r m), (Nat.leb_spec l c), (Nat.ltb_spec c n); cbn [andb]; try reflexivity. unfold coef. destruct (R_eqb 0 0) eqn:Ez; [|apply R_eqb_false in Ez; lra].
    destruct (Nat.eqb_spec r i) as [->|]; [|ring]. unfold wvec. rewrite from_in by lia. destruct (c =? l)%nat; ring.
  - apply R_eqb_false in Z. assert (Hln : (l < n)%nat) by lia. pose proof (house_reflecting n l a scale Hln Es Z) as RF. destruct (house_facts n l a scale Hln Es Z) as (F1 & F2 & F3 & F4 & F5 & F6 & F7 & F8).
    set (s := Sum n (from l (fun k => a k / scale * (a k / scale)))) in *. set (f := a l / scale) in *. set (g := away f s) in *. set (d := scale * g) in *. set (w := wvec l a d) in *.
    set (u1 := rowset u i l n (fun r => a r / scale)).
    apply (wp_seq _ (fun st => mis (fst st) m n u1 /\ snd st = s)).
    { apply (wp_for (fun k st => mis (fst st) m n (rowset u i l k (fun r => a r / scale)) /\ snd st = Sum k (from l (fun k => a k / scale * (a k / scale))))); [lia| |].
      - cbn [fst snd]. split; [apply (mis_ext U m n u _ HU); intros; rewrite rowset_empty; reflexivity|]. rewrite S_from_low. reflexivity.
      - intros k [V t] Hk [HV Ht]. cbn [fst snd] in *. apply (wp_mget V m n _ i k _ _ HV); [lia|lia|]. rewrite rowset_out by lia. apply wp_div; [exact Z|]. apply (wp_mset V m n _ i k _ _ _ HV); [lia|lia|]. intros V' HV'. cbn [wp fst snd]. split.
        + apply (mis_ext V' m n _ _ HV'). intros. apply (rowset_step u i l k (fun r => a r / scale)). lia.
        + cbn [sum]. cbn [fadd ROps]. rewrite <- Ht, from_in by lia. reflexivity. }
    intros [V t] [HV Ht]. cbn [fst snd] in *. subst t. apply (wp_mget V m n _ i l _ _ HV); [lia|lia|]. cbn zeta.
    assert (E1 : u1 i l = f) by (unfold u1; rewrite rowset_in by lia; reflexivity). rewrite ?E1. fold g.
    apply (wp_mset V m n _ i l _ _ _ HV); [lia|lia|]. intros V' HV'. set (u2 := upd2 u1 i l (f - g)) in *.
    assert (C2 : forall k, (l <= k < n)%nat -> u2 i k = w k / scale).
    { intros k Hk. unfold u2. destruct (Nat.eq_dec k l) as [->|N]; [rewrite upd2_in, <- F6; field; lra|]. rewrite upd2_out by lia. unfold u1. rewrite rowset_in by lia. unfold w, wvec. rewrite from_in by lia. destruct (Nat.eqb_spec k l); [contradiction|]. field. lra. }
    assert (C2o : forall r c, r <> i -> u2 r c = u r c) by (intros r c N; unfold u2; rewrite upd2_out by lia; unfold u1; apply rowset_out; lia).
    set (v := fun k => w k / scale / (f * g - s)).
    apply (wp_seq _ (fun E' => vis E' q (vecset e l n v))).
    { apply (for_vec E q e l n v); [exact HE|lia|]. intros k E' Hk HE'. apply (wp_mget V' m n _ i k _ _ HV'); [lia|lia|]. rewrite C2 by lia. apply wp_div; [exact F4|]. apply (wp_vset_end E' q _ k _ _ HE'); [lia|]. intros E'' HE''. exact HE''. }
    intros E' HE'.
    set (psi := fun r c => u r c + coef d (w l) * w c * Sum n (fun k => u r k * w k)).
    apply (wp_seq _ (fun W => mis W m n (cols u2 l n (i + 1) m psi))).
    { destruct (Nat.eqb_spec i (m - 1)) as [En|En].
      - cbn [wp]. apply (mis_ext V' m n _ _ HV'). intros r c. rewrite cols_out by lia. reflexivity.
      - fold l. apply (for_rows V' m n u2 l m l n psi); [exact HV'|lia|]. intros j W Hj' HW. set (u3 := cols u2 l n l j psi) in *.
        assert (C3i : forall k, u3 i k = u2 i k) by (intros k; apply cols_out; lia). assert (C3j : forall k, u3 j k = u j k) by (intros k; unfold u3; rewrite cols_out by lia; apply C2o; lia).
        rewrite (for_sum l n _ (fun k => u j k * (w k / scale))) by (intros k t Hk; destruct HW as (W1 & W2 & W3); rewrite !mget_ok by lia; cbn [bind]; rewrite !W3, C3i, C3j, C2 by lia; reflexivity).
        cbn [bind]. rewrite Rplus_0_l. set (ff := Sum n _).
        assert (Eff : forall k, (l <= k < n)%nat -> u j k + ff * v k = psi j k).
        { intros k Hk. unfold psi. f_equal. unfold ff, v, Rdiv. rewrite F5. rewrite (S_ext n _ (fun k => / scale * (u j k * w k))).
          - rewrite S_mul_l. unfold coef. destruct (R_eqb d 0) eqn:Ez; [apply R_eqb_true in Ez; contradiction|]. field. repeat split; assumption.
          - intros k' Hk'. unfold from. destruct (Nat.leb_spec l k'); [unfold Rdiv; ring|]. unfold w, wvec. rewrite from_out by lia. ring. }
        apply (for_row W m n u3 j l n (fun c => psi j c)); [exact HW|lia|lia|]. intros k X Hk HX. apply (wp_mget X m n _ j k _ _ HX); [lia|lia|]. apply (wp_vget E' q _ k _ _ HE'); [lia|].
        rewrite vecset_in by lia. rewrite rowset_out by lia. rewrite C3j. rewrite Eff by lia. apply (wp_mset_end X m n _ j k _ _ HX); [lia|lia|]. intros X' HX'. exact HX'. }
    intros W HW. fold l in HW. set (u4 := cols u2 l n l m psi) in *. apply (wp_seq _ (fun X => mis X m n (rowset u4 i l n w))).
    { apply (for_row W m n u4 i l n w); [exact HW|lia|lia|]. intros k X Hk HX. apply (wp_mget X m n _ i k _ _ HX); [lia|lia|]. rewrite rowset_out by lia. unfold u4. rewrite cols_out by lia. fold u4. rewrite C2 by lia.
      replace (w k / scale * scale) with (w k) by (field; lra). apply (wp_mset_end X m n _ i k _ _ HX); [lia|lia|]. intros X' HX'. exact HX'. }
    intros X HX. cbn [wp]. fold d. split; [exact RF|]. split; [|exists (vecset e l n v); split; [exact HE'|intros k Hk; apply vecset_out; lia]].
    apply (mis_ext X m n _ _ HX). intros r c. unfold right_result. change (fun k => u i k) with a. fold w.
    unfold rowset, u4, cols. destruct (Nat.leb_spec l c), (Nat.ltb_spec c n), (Nat.eqb_spec r i), (Nat.leb_spec i r), (Nat.leb_spec l r), (Nat.ltb_spec r m); cbn [andb]; try reflexivity; try lia; try (apply C2o; lia); try (subst r; unfold u2, u1; rewrite upd2_out by lia; apply rowset_out; lia).
Qed.
