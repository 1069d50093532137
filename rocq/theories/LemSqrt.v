(** * The Denman-Beavers iteration of the matrix square root *)
From Coq Require Import Reals ZArith Arith Bool Lia Lra Setoid Morphisms.
From Verif Require Import Base Alg Inst Mat SpecMat SpecLin LemMat LemOps LemObjects LemHelpers LemGauss LemDetMore ModelOps ModelObjects ModelHelpers ModelGauss RSum LemEig LemEig3 ModelExp SpecExp LemExp LemExp2 RMat.
Open Scope outcome_scope.
Local Open Scope R_scope.

Lemma nonsingular_ext n (a b : rmat) : meq n a b -> nonsingular n a -> nonsingular n b.
Proof. intros H NS x Hx. apply NS. intros r Hr. rewrite <- (Hx r Hr). apply S_ext. intros c Hc. cbn [fmul ROps]. rewrite H by assumption. reflexivity. Qed.
Lemma inverse_code n (M id : mat R) a : mat_is M n n a -> mat_is id n n delta ->
  (nonsingular n a /\ exists X v, gaussian_elimination_mat M id = Ok X /\ mat_is X n n v /\ meq n (mm n a v) delta /\ meq n (mm n v a) delta) \/
  (~ nonsingular n a /\ gaussian_elimination_mat M id = NonFinite).
Proof.
  intros (M1 & M2 & M3) (I1 & I2 & I3).
  destruct (@gaussian_elimination_mat_ok R ROps RLaws n n M id M1 M2 I1 I2) as [(NS & X & E & X1 & X2 & X3)|(NS & E)].
  - left. assert (NA : nonsingular n a) by (apply (nonsingular_ext n (mel M)); [exact M3|exact NS]). split; [exact NA|]. exists X, (mel X). split; [exact E|]. split; [split; [exact X1|split; [exact X2|reflexivity]]|].
    assert (G : meq n (mm n a (mel X)) delta).
    { intros i j Hi Hj. rewrite <- (I3 i j Hi Hj). rewrite <- (X3 j Hj i Hi). apply S_ext. intros c Hc. cbn [fmul ROps]. rewrite M3 by assumption. reflexivity. }
    split; [exact G|]. exact (@left_inverse R ROps RLaws n a (mel X) NA G).
  - right. split; [|exact E]. intros NA. apply NS. apply (nonsingular_ext n a); [intros i j Hi Hj; symmetry; apply M3; assumption|exact NA].
Qed.
Lemma inverse_unique n a v w : meq n (mm n w a) delta -> meq n (mm n a v) delta -> meq n v w.
Proof. intros H1 H2. rewrite <- (m_1l n v), <- H1, m_assoc, H2. apply m_1r. Qed.
Section L.
Variable minus : R -> R -> R.
Definition stops (n : nat) (x y : rmat) : Prop := forall i j, (i < n)%nat -> (j < n)%nat -> minus (x i j) (y i j) = 0.
Definition Ynew (n : nat) (y v : rmat) : rmat := mscal (1 / 2) (mm n y (mplus delta v)).
Definition Mnew (a v : rmat) : rmat := mscal (1 / 2) (mplus delta (mscal (1 / 2) (mplus a v))).
Lemma sqrt_step n fuel (id Y M : mat R) y a : mat_is id n n delta -> mat_is Y n n y -> mat_is M n n a -> nonsingular n a ->
  exists v Y' M', meq n (mm n a v) delta /\ meq n (mm n v a) delta /\ mat_is Y' n n (Ynew n y v) /\ mat_is M' n n (Mnew a v) /\
  ((stops n (Mnew a v) v /\ sqrt_loop minus (S fuel) id Y M = Ok Y') \/ (~ stops n (Mnew a v) v /\ sqrt_loop minus (S fuel) id Y M = sqrt_loop minus fuel id Y' M')).
Proof.
  intros Hi HY HM NS. cbn [sqrt_loop]. destruct (inverse_code n M id a HM Hi) as [(_ & X & v & -> & HX & G1 & G2)|(C & _)]; [|contradiction]. cbn [bind]. exists v.
  destruct (add_is n id X _ _ Hi HX) as (t1 & -> & T1). cbn [bind]. destruct (mul_is n Y t1 _ _ HY T1) as (t2 & -> & T2). cbn [bind]. destruct (scale_is n t2 _ (1 / 2) T2) as (Y' & -> & HY'). cbn [bind].
  destruct (add_is n M X _ _ HM HX) as (t3 & -> & T3). cbn [bind]. destruct (scale_is n t3 _ (1 / 2) T3) as (t4 & -> & T4). cbn [bind]. destruct (add_is n id t4 _ _ Hi T4) as (t5 & -> & T5). cbn [bind]. destruct (scale_l_is n t5 _ (1 / 2) T5) as (M' & -> & HM'). cbn [bind].
  assert (HM2 : mat_is M' n n (Mnew a v)) by (apply (is_ext n M' _ _ HM'); intros; unfold Mnew, mscal, mplus; ring).
  assert (HY2 : mat_is Y' n n (Ynew n y v)) by (apply (is_ext n Y' _ _ HY'); intros; unfold Ynew, mscal, mplus; ring).
  exists Y', M'. split; [exact G1|]. split; [exact G2|]. split; [exact HY2|]. split; [exact HM2|].
  destruct (grow_is minus n M' X _ _ HM2 HX) as (d & E & Hd). unfold grow in E. rewrite E. cbn [bind].
  destruct (norm_test n d _ Hd) as (nd & -> & T). cbn [bind]. destruct (R_ltb 0 nd) eqn:Q.
  - right. split; [intros C; apply T in C; congruence|reflexivity].
  - left. split; [exact (proj1 T eq_refl)|reflexivity].
Qed.
Lemma sqrt_singular n fuel (id Y M : mat R) a : mat_is id n n delta -> mat_is M n n a -> ~ nonsingular n a -> sqrt_loop minus (S fuel) id Y M = NonFinite.
Proof. intros Hi HM NS. cbn [sqrt_loop]. destruct (inverse_code n M id a HM Hi) as [(C & _)|(_ & ->)]; [contradiction|reflexivity]. Qed.
Lemma sqrt_start n (m : mat R) a : mat_is m n n a -> exists id, mat_is id n n delta /\ forall fuel, sqrt_mat minus fuel m = sqrt_loop minus fuel id m m.
Proof.
  intros (M1 & M2 & M3). destruct (ident_ok n) as (id & E & Hid). exists id. split; [exact Hid|]. intros fuel. unfold sqrt_mat. rewrite same_size_eq by congruence. cbn [bind]. rewrite M1, E. reflexivity.
Qed.
(** ** any matrix: the invariant Y Y = m M *)
Definition good (n : nat) (m y a : rmat) : Prop := meq n (mm n y y) (mm n m a) /\ meq n (mm n y a) (mm n a y) /\ meq n (mm n m a) (mm n a m).
Lemma comm_inv n a v y : meq n (mm n a v) delta -> meq n (mm n v a) delta -> meq n (mm n y a) (mm n a y) -> meq n (mm n y v) (mm n v y).
Proof.
  intros H1 H2 C. rewrite <- (m_1l n (mm n y v)), <- H2, m_assoc. rewrite <- (m_assoc n a y v), <- C, (m_assoc n y a v), H1, m_1r. reflexivity.
Qed.
Lemma good_step n m y a v : meq n (mm n a v) delta -> meq n (mm n v a) delta -> good n m y a -> good n m (Ynew n y v) (Mnew a v).
Proof.
  intros H1 H2 (G1 & G2 & G3). pose proof (comm_inv n a v y H1 H2 G2) as G4. pose proof (comm_inv n a v m H1 H2 G3) as G5.
  assert (C1 : meq n (mm n y (mplus delta v)) (mm n (mplus delta v) y)) by (rewrite m_dist_l, m_dist_r, m_1l, m_1r, G4; reflexivity).
  assert (Cy : meq n (mm n y (Mnew a v)) (mm n (Mnew a v) y)).
  { unfold Mnew. rewrite m_scal_r, m_scal_l, m_dist_l, m_dist_r, m_1l, m_1r, m_scal_r, m_scal_l, m_dist_l, m_dist_r, G2, G4. reflexivity. }
  assert (Cv : meq n (mm n (mplus delta v) (Mnew a v)) (mm n (Mnew a v) (mplus delta v))).
  { unfold Mnew. rewrite m_scal_r, m_scal_l, !m_dist_l, !m_dist_r, !m_1l, !m_1r, !m_scal_r, !m_scal_l, !m_dist_l, !m_dist_r, H1, H2. lin. }
  set (w := mplus delta v) in *.
  assert (Q1 : meq n (mm n (mm n y w) (mm n y w)) (mm n (mm n y y) (mm n w w))).
  { rewrite (m_assoc n y w), <- (m_assoc n w y w), <- C1, (m_assoc n y w w), <- (m_assoc n y y). reflexivity. }
  assert (Q2 : meq n (mm n a (mm n w w)) (mplus a (mplus (mscal 2 delta) v))).
  { unfold w. rewrite m_dist_l, m_1r, m_dist_r, m_1l, !m_dist_l, <- (m_assoc n a v v), H1, m_1l, m_1r. lin. }
  unfold good. split; [|split].
  - unfold Ynew. fold w. rewrite m_scal_l, m_scal_r, Q1, G1, m_assoc, Q2. unfold Mnew. rewrite !m_scal_r, !m_dist_l, !m_scal_r, !m_dist_l, m_1r. lin.
  - unfold Ynew. fold w. rewrite m_scal_l, m_scal_r, m_assoc, Cv, <- !m_assoc, Cy. reflexivity.
  - unfold Mnew. rewrite m_scal_r, m_scal_l, m_dist_l, m_dist_r, m_1l, m_1r, m_scal_r, m_scal_l, m_dist_l, m_dist_r, G3, G5. reflexivity.
Qed.
Lemma good_loop n (id : mat R) m : mat_is id n n delta -> forall fuel (Y M : mat R) y a Z, mat_is Y n n y -> mat_is M n n a -> good n m y a -> sqrt_loop minus fuel id Y M = Ok Z ->
  exists a' v' z, mat_is Z n n z /\ good n m z (Mnew a' v') /\ meq n (mm n a' v') delta /\ meq n (mm n v' a') delta /\ meq n (mm n m a') (mm n a' m) /\ stops n (Mnew a' v') v'.
Proof.
  intros Hi. induction fuel as [|fuel I]; intros Y M y a Z HY HM G E; [discriminate|].
  assert (NS : nonsingular n a). { destruct (inverse_code n M id a HM Hi) as [(NS & _)|(NS & _)]; [exact NS|]. rewrite (sqrt_singular n fuel id Y M a Hi HM NS) in E. discriminate. }
  destruct (sqrt_step n fuel id Y M y a Hi HY HM NS) as (v & Y' & M' & H1 & H2 & HY' & HM' & [(St & R')|(_ & R')]); rewrite R' in E; pose proof (good_step n m y a v H1 H2 G) as G'.
  - injection E as <-. exists a, v, (Ynew n y v). do 5 (split; [assumption||(destruct G as (_ & _ & G3); exact G3)|]). exact St.
  - exact (I Y' M' _ _ Z HY' HM' G' E).
Qed.
(** ** a matrix with positive eigenvalues *)
Definition dnew (d : nat -> R) : nat -> R := fun k => (2 + d k + / d k) / 4.
Definition ynew (y d : nat -> R) : nat -> R := fun k => y k * (1 + / d k) / 2.
Section D.
Variables (n : nat) (P Q : rmat) (d0 : nat -> R).
Hypothesis PQ : inverse_pair n P Q.
Notation ev d := (eigmat n P d Q).
Definition pos (d : nat -> R) : Prop := forall k, (k < n)%nat -> 0 < d k.
Lemma ev_inverse d : pos d -> meq n (mm n (ev (fun k => / d k)) (ev d)) delta /\ meq n (mm n (ev d) (ev (fun k => / d k))) delta.
Proof.
  intros Hd. split; rewrite (conj_mul n P Q PQ); rewrite <- (conj_one n P Q PQ); apply conj_ext; intros k Hk; field; specialize (Hd k Hk); lra.
Qed.
Lemma ev_nonsingular d : pos d -> nonsingular n (ev d).
Proof. intros Hd. apply (@inverse_nonsingular R ROps RLaws n (ev d) (ev (fun k => / d k))). exact (proj1 (ev_inverse d Hd)). Qed.
Lemma ev_step fuel (id Y M : mat R) y d : mat_is id n n delta -> mat_is Y n n (ev y) -> mat_is M n n (ev d) -> pos d ->
  exists Y' M', mat_is Y' n n (ev (ynew y d)) /\ mat_is M' n n (ev (dnew d)) /\
  ((stops n (ev (dnew d)) (ev (fun k => / d k)) /\ sqrt_loop minus (S fuel) id Y M = Ok Y') \/ (~ stops n (ev (dnew d)) (ev (fun k => / d k)) /\ sqrt_loop minus (S fuel) id Y M = sqrt_loop minus fuel id Y' M')).
Proof.
  intros Hi HY HM Hd. destruct (sqrt_step n fuel id Y M _ _ Hi HY HM (ev_nonsingular d Hd)) as (v & Y' & M' & H1 & H2 & HY' & HM' & Alt). destruct (ev_inverse d Hd) as [V1 V2].
  assert (Hv : meq n v (ev (fun k => / d k))) by (apply (inverse_unique n (ev d)); [exact V1|exact H1]).
  assert (EM : meq n (Mnew (ev d) v) (ev (dnew d))).
  { unfold Mnew. rewrite Hv, (conj_add n P Q), (conj_scal n P Q), <- (conj_one n P Q PQ), (conj_add n P Q), (conj_scal n P Q). apply conj_ext. intros k Hk. unfold dnew. field. specialize (Hd k Hk). lra. }
  assert (EY : meq n (Ynew n (ev y) v) (ev (ynew y d))).
  { unfold Ynew. rewrite Hv, <- (conj_one n P Q PQ), (conj_add n P Q), (conj_mul n P Q PQ), (conj_scal n P Q). apply conj_ext. intros k Hk. unfold ynew. field. specialize (Hd k Hk). lra. }
  exists Y', M'. split; [apply (is_ext n Y' _ _ HY'); exact EY|]. split; [apply (is_ext n M' _ _ HM'); exact EM|].
  assert (ST : stops n (Mnew (ev d) v) v <-> stops n (ev (dnew d)) (ev (fun k => / d k))).
  { unfold stops. split; intros H i j Hi' Hj'; specialize (H i j Hi' Hj'); rewrite (EM i j Hi' Hj'), (Hv i j Hi' Hj') in *; exact H. }
  rewrite <- ST. exact Alt.
Qed.
Lemma dnew_ge d k : (k < n)%nat -> pos d -> 1 <= dnew d k.
Proof. intros Hk Hd. specialize (Hd k Hk). unfold dnew. assert (E : (2 + d k + / d k) / 4 - 1 = (d k - 1) * (d k - 1) / (4 * d k)) by (field; lra). assert (0 <= (d k - 1) * (d k - 1) / (4 * d k)) by (apply Rmult_le_pos; [exact (Rle_0_sqr (d k - 1))|left; apply Rinv_0_lt_compat; lra]). lra. Qed.
Lemma dnew_pos d : pos d -> pos (dnew d).
Proof. intros Hd k Hk. pose proof (dnew_ge d k Hk Hd). lra. Qed.
(** the stopping test bounds the distance to 1 *)
Lemma dnew_close d k : (k < n)%nat -> pos d -> Rabs (dnew d k - 1) <= Rabs (dnew d k - / d k).
Proof.
  intros Hk Hd. specialize (Hd k Hk). unfold dnew.
  replace ((2 + d k + / d k) / 4 - 1) with ((d k - 1) * / (4 * d k) * (d k - 1)) by (field; lra). replace ((2 + d k + / d k) / 4 - / d k) with ((d k - 1) * / (4 * d k) * (d k + 3)) by (field; lra).
  rewrite !(Rabs_mult ((d k - 1) * / (4 * d k))). apply Rmult_le_compat_l; [apply Rabs_pos|]. rewrite (Rabs_right (d k + 3)) by lra. apply Rabs_le; split; lra.
Qed.
Definition sq_of (y d : nat -> R) : Prop := forall k, (k < n)%nat -> 0 < y k /\ y k * y k = d0 k * d k.
Lemma sq_step y d : pos d -> sq_of y d -> sq_of (ynew y d) (dnew d).
Proof.
  intros Hd H k Hk. destruct (H k Hk) as [P1 P2]. specialize (Hd k Hk). pose proof (Rinv_0_lt_compat _ Hd) as Pi. unfold ynew, dnew. split; [apply Rmult_lt_0_compat; [apply Rmult_lt_0_compat; lra|lra]|].
  replace (y k * (1 + / d k) / 2 * (y k * (1 + / d k) / 2)) with (y k * y k * ((1 + / d k) * (1 + / d k)) / 4) by (field; lra). rewrite P2. field. lra.
Qed.
Lemma ev_loop (id : mat R) : mat_is id n n delta -> forall fuel (Y M Z : mat R) y d, mat_is Y n n (ev y) -> mat_is M n n (ev d) -> pos d -> sq_of y d -> sqrt_loop minus fuel id Y M = Ok Z ->
  exists z d', mat_is Z n n (ev z) /\ pos d' /\ sq_of z (dnew d') /\ stops n (ev (dnew d')) (ev (fun k => / d' k)).
Proof.
  intros Hi. induction fuel as [|fuel I]; intros Y M Z y d HY HM Hd Hs E; [discriminate|].
  destruct (ev_step fuel id Y M y d Hi HY HM Hd) as (Y' & M' & HY' & HM' & [(St & R')|(_ & R')]); rewrite R' in E.
  - injection E as <-. exists (ynew y d), d. split; [exact HY'|]. split; [exact Hd|]. split; [apply sq_step; assumption|exact St].
  - exact (I Y' M' Z _ _ HY' HM' (dnew_pos d Hd) (sq_step y d Hd Hs) E).
Qed.
Lemma ev_ends (id : mat R) e : mat_is id n n delta -> (forall d, pos d -> (forall k, (k < n)%nat -> 1 <= d k <= 1 + e) -> stops n (ev (dnew d)) (ev (fun k => / d k))) ->
  forall fuel (Y M : mat R) y d, mat_is Y n n (ev y) -> mat_is M n n (ev d) -> (forall k, (k < n)%nat -> 1 <= d k <= 1 + e * 4 ^ fuel) -> exists Z, sqrt_loop minus (S fuel) id Y M = Ok Z.
Proof.
  intros Hi St. induction fuel as [|fuel I]; intros Y M y d HY HM Hd; assert (Pd : pos d) by (intros k Hk; specialize (Hd k Hk); lra).
  - destruct (ev_step 0 id Y M y d Hi HY HM Pd) as (Y' & M' & HY' & HM' & [(_ & R')|(C & R')]); [exists Y'; exact R'|]. exfalso. apply C. apply St; [exact Pd|]. intros k Hk. specialize (Hd k Hk). cbn [pow] in Hd. lra.
  - destruct (ev_step (S fuel) id Y M y d Hi HY HM Pd) as (Y' & M' & HY' & HM' & [(_ & R')|(C & R')]); [exists Y'; exact R'|]. rewrite R'. apply (I Y' M' (ynew y d) (dnew d) HY' HM'). intros k Hk. split; [apply dnew_ge; assumption|].
    specialize (Hd k Hk). unfold dnew. cbn [pow] in Hd. assert (Pk : 0 < d k) by lra. assert (E : (2 + d k + / d k) / 4 = 1 + (d k - 1) * ((d k - 1) / d k) / 4) by (field; lra). rewrite E.
    assert (B : (d k - 1) / d k <= 1) by (apply Rmult_le_reg_r with (d k); [exact Pk|]; replace ((d k - 1) / d k * d k) with (d k - 1) by (field; lra); lra). assert (0 <= d k - 1) by lra. nra.
Qed.
End D.
End L.
