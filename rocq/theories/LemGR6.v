(** * GR_SVD: the search for a negligible element, and the cancellation of a zero on the diagonal *)
From Coq Require Import Reals Arith Bool Lia Lra Psatz Setoid Morphisms.
From Verif Require Import Base Alg Inst Mat SpecMat LemMat RSum ModelOps ModelSVD ModelGR SpecExp SpecEig LemEig LemExp RRect LemGR LemGR3 LemGR4 LemGR5.
Open Scope outcome_scope.
Local Open Scope R_scope.

(** X is the m x n matrix U, if it is wanted *)
Definition holds (want : bool) (X : mat R) (m n : nat) (U : rmat) : Prop := mrows X = m /\ mcols X = n /\ (want = true -> req m n (mel X) U).
Lemma rotate_if_ok want X m n U a b c s : holds want X m n U -> (a < n)%nat -> (b < n)%nat -> a <> b -> wp (rotate_if want X a b c s) (fun X' => holds want X' m n (colrot U a b c s)).
Proof.
  intros (H1 & H2 & H3) Ha Hb N. unfold rotate_if. destruct want; [|cbn [wp]; split; [exact H1|split; [exact H2|discriminate]]].
  eapply wp_mono; [apply (rotate_ok X m n); assumption|]. intros X' (G1 & G2 & G3). split; [exact G1|split; [exact G2|]]. intros _. rewrite G3. intros r p Hr Hp. unfold colrot. rewrite !H3 by (first [reflexivity|assumption]). reflexivity.
Qed.
Lemma rot_unit f g h : h <> 0 -> h * h = f * f + g * g -> g / h * (g / h) + f / h * (f / h) = 1.
Proof. intros N E. replace (g / h * (g / h) + f / h * (f / h)) with ((f * f + g * g) / (h * h)) by (field; exact N). rewrite <- E. field. exact N. Qed.
Lemma hyp_ok f g : let h := sqrt (f * f + g * g) in h * h = f * f + g * g /\ 0 <= h /\ (f <> 0 \/ g <> 0 -> 0 < h).
Proof.
  intros h. assert (P : 0 <= f * f + g * g) by nra. split; [unfold h; apply sqrt_sqrt; exact P|]. split; [unfold h; apply sqrt_pos|]. intros [K|K]; unfold h; apply sqrt_lt_R0; nra.
Qed.
(** the off-diagonal elements in use: those up to k *)
Definition trunc (k : nat) (e : nat -> R) : nat -> R := fun j => if (k <? j)%nat then 0 else e j.
Section C.
Variable absorbed : R -> R -> bool.
Variables (wantU wantV : bool) (m n q : nat) (A G : rmat) (tol anorm : R).
Hypothesis rows_short : forall r, (r < m)%nat -> G r r <= 1.
Hypothesis tol_nonneg : 0 <= tol.
Hypothesis absorbed_0 : absorbed 0 anorm = true.
Hypothesis absorbed_small : forall x, absorbed x anorm = true -> Rabs x <= tol.
Hypothesis nq : (n <= q)%nat.
Local Notation fact := (fact m n A G tol).
Lemma kept_nz x : absorbed x anorm = false -> x <> 0. Proof. intros H ->. congruence. Qed.
Lemma split_ok D E d e : vis D n d -> vis E q e -> e 0%nat = 0 -> forall k, (k < n)%nat ->
  wp (split absorbed D E anorm k) (fun r => (fst r <= k)%nat /\ (forall j, (fst r < j <= k)%nat -> e j <> 0 /\ d (j - 1)%nat <> 0) /\
    if snd r then (1 <= fst r)%nat /\ absorbed (e (fst r)) anorm = false /\ Rabs (d (fst r - 1)%nat) <= tol else Rabs (e (fst r)) <= tol).
Proof.
  intros HD HE He. induction k as [|k I]; intros Hk; cbn [split].
  - eapply wp_vget; [exact HE|lia|]. rewrite He, absorbed_0. cbn [wp fst snd]. split; [lia|]. split; [intros j Hj; lia|]. rewrite He, Rabs_R0. exact tol_nonneg.
  - eapply wp_vget; [exact HE|lia|]. destruct (absorbed (e (S k)) anorm) eqn:E1.
    + cbn [wp fst snd]. split; [lia|]. split; [intros j Hj; lia|]. apply absorbed_small. exact E1.
    + eapply wp_vget; [exact HD|lia|]. destruct (absorbed (d k) anorm) eqn:E2.
      * cbn [wp fst snd]. split; [lia|]. split; [intros j Hj; lia|]. split; [lia|]. split; [exact E1|]. cbn [Nat.sub]. rewrite Nat.sub_0_r. apply absorbed_small. exact E2.
      * eapply wp_mono; [apply I; lia|]. intros [l b] (H1 & H2 & H3). cbn [fst snd] in *. split; [lia|]. split; [|exact H3]. intros j Hj. destruct (Nat.eq_dec j (S k)) as [->|]; [|apply H2; lia]. cbn [Nat.sub]. rewrite Nat.sub_0_r. split; apply kept_nz; assumption.
Qed.
(** ** cancellation *)
(** B while row l1 is chased out: column i is next *)
Definition cmat (d e : nat -> R) (l1 i : nat) (c s : R) : rmat := fun p q0 =>
  if (p =? l1)%nat then (if (q0 =? i)%nat then s * e q0 else 0) else if (p =? q0)%nat then d p else if (q0 =? S p)%nat then (if (q0 =? i)%nat then c * e q0 else e q0) else 0.
Definition chased (l1 k : nat) (d0 : nat -> R) (cnt : nat) (U : mat R) (D E : vec R) (V : rmat) : Prop := exists Ug d e, holds wantU U m n Ug /\ vis D n d /\ vis E q e /\ fact cnt Ug V (bidi d (trunc k e)) /\
    e (S l1) = 0 /\ (forall j, (l1 < j < k)%nat -> d j <> 0) /\ (forall j, (S l1 < j <= k)%nat -> e j <> 0) /\ (forall j, (k < j)%nat -> d j = d0 j) /\ (e 0%nat = 0).
Lemma cancel_ok k l1 d0 V dl : Rabs dl <= tol -> (S l1 <= k < n)%nat -> forall num i U D E Ug d e c s cnt, (num + i = k + 1)%nat -> (S l1 <= i)%nat ->
  holds wantU U m n Ug -> vis D n d -> vis E q e -> fact cnt Ug V (cmat d (trunc k e) l1 i c s) ->
  d l1 = dl -> (i = S l1 -> c = 0 /\ s = 1 /\ absorbed (e i) anorm = false) -> ((S l1 < i)%nat -> e (S l1) = 0) -> ((S l1 < i <= k)%nat -> c <> 0) ->
  (forall j, (l1 < j < k)%nat -> d j <> 0) -> (forall j, (S l1 < j <= k)%nat -> e j <> 0) -> (forall j, (k < j)%nat -> d j = d0 j) -> e 0%nat = 0 ->
  wp (cancel absorbed wantU num i l1 anorm U D E c s) (fun r => chased l1 k d0 (S (S cnt)) (fst (fst r)) (snd (fst r)) (snd r) V).
Proof.
  intros Hdl Hk. induction num as [|num I]; intros i U D E Ug d e c s cnt Hi Hl HU HD HE HF Edl Hfirst Hel Hc Hd He Hd0 He0; cbn [cancel].
  - cbn [wp fst snd]. exists Ug, d, e. split; [exact HU|]. split; [exact HD|]. split; [exact HE|]. split; [|split; [apply Hel; lia|repeat split; assumption]].
    apply fact_more with (cnt := S cnt); [exact tol_nonneg|lia|]. eapply (fact_drop m n A G tol rows_short cnt Ug V _ _ l1 l1); [lia|lia| | |exact HF].
    + unfold cmat, bidi. rewrite !Nat.eqb_refl. destruct (Nat.eqb_spec l1 i); [lia|]. rewrite Edl, Rminus_0_l, Rabs_Ropp. exact Hdl.
    + intros p q0 Hp Hq Hpq. unfold cmat, bidi. assert (Z : e (S l1) = 0) by (apply Hel; lia). unfold trunc. cases; subst; try contradiction; try lia; try (rewrite Z); try ring; exfalso; lia.
  - assert (Hik : (i <= k)%nat) by lia. eapply wp_vget; [exact HE|lia|]. eapply wp_vset; [exact HE|lia|]. intros E1 HE1.
    destruct (absorbed (s * e i) anorm) eqn:Ab.
    + cbn [wp fst snd]. destruct (Nat.eq_dec i (S l1)) as [Ei|Ni]; [destruct (Hfirst Ei) as (_ & -> & Na); rewrite Rmult_1_l in Ab; congruence|].
      exists Ug, d, (upd1 e i (e i * c)). split; [exact HU|]. split; [exact HD|]. split; [exact HE1|].
      assert (Z : e (S l1) = 0) by (apply Hel; lia). split.
      * eapply (fact_drop m n A G tol rows_short (S cnt) Ug V (cmat d (trunc k e) l1 i c 0) _ l1 l1); [lia|lia| | |].
        -- unfold cmat, bidi. rewrite !Nat.eqb_refl. destruct (Nat.eqb_spec l1 i); [lia|]. rewrite Edl, Rminus_0_l, Rabs_Ropp. exact Hdl.
        -- intros p q0 Hp Hq Hpq. unfold cmat, bidi, trunc, upd1. cases; subst; try contradiction; try lia; try (rewrite Z); try ring; exfalso; lia.
        -- eapply (fact_drop m n A G tol rows_short cnt Ug V (cmat d (trunc k e) l1 i c s) _ l1 i); [lia|lia| | |exact HF].
           ++ unfold cmat. rewrite !Nat.eqb_refl. unfold trunc. destruct (Nat.ltb_spec k i); [lia|]. rewrite Rmult_0_l, Rminus_0_r. apply absorbed_small. exact Ab.
           ++ intros p q0 Hp Hq Hpq. unfold cmat. cases; subst; try contradiction; try lia; try ring.
      * split; [rewrite upd1_out by lia; exact Z|]. split; [exact Hd|]. split; [|split; [exact Hd0|rewrite upd1_out by lia; exact He0]]. intros j Hj. destruct (Nat.eq_dec j i) as [->|]; [|rewrite upd1_out by assumption; apply He; lia]. rewrite upd1_in. apply Rmult_integral_contrapositive_currified; [apply He; lia|apply Hc; lia].
    + assert (Nf : s * e i <> 0) by (apply kept_nz; exact Ab). eapply wp_vget; [exact HD|lia|]. remember (s * e i) as f eqn:Ef. remember (d i) as g eqn:Eg. destruct (hyp_ok f g) as (Hh & Hp & Hpos). specialize (Hpos (or_introl Nf)). remember (sqrt (f * f + g * g)) as h eqn:Eh.
      assert (Nh : h <> 0) by lra. eapply wp_vset; [exact HD|lia|]. intros D1 HD1. eapply wp_div; [exact Nh|]. eapply wp_div; [exact Nh|].
      eapply wp_seq; [apply rotate_if_ok; [exact HU|lia|lia|lia]|]. intros U1 HU1. 
      assert (CS : g / h * (g / h) + - f / h * (- f / h) = 1) by (rewrite <- (rot_unit f g h Nh Hh); field; exact Nh).
      apply (I (i + 1)%nat U1 D1 E1 (colrot Ug l1 i (g / h) (- f / h)) (upd1 d i h) (upd1 e i (e i * c)) (g / h) (- f / h) cnt); try lia; try assumption.
      * pose proof (fact_rows m n A G tol cnt Ug V _ l1 i (g / h) (- f / h) ltac:(lia) ltac:(lia) ltac:(lia) CS HF) as HF2. eapply fact_B; [|exact HF2].
        intros p q0 Hp0 Hq. unfold rowrot, cmat, upd1, trunc. rewrite !Nat.eqb_refl. destruct (Nat.eqb_spec i l1); [lia|].
        assert (X1 : f * (g / h) + g * (- f / h) = 0) by (field; exact Nh). assert (X2 : - f * (- f / h) + g * (g / h) = h) by (transitivity ((f * f + g * g) / h); [field; exact Nh|rewrite <- Hh; field; exact Nh]).
        cases; subst p || idtac; subst q0 || idtac; try contradiction; try (exfalso; lia); rewrite <- ?Ef, <- ?Eg; try (rewrite <- X1; ring); try exact X2; try ring; match goal with |- c * e ?a = e ?b * c => replace a with b by lia; ring end.
      * rewrite upd1_out by lia. exact Edl.
      * intros Q. destruct (Nat.eq_dec i (S l1)) as [Ei|Ni]; [|rewrite upd1_out by lia; apply Hel; lia]. destruct (Hfirst Ei) as (-> & _). rewrite <- Ei, upd1_in. ring.
      * intros Q. unfold Rdiv. apply Rmult_integral_contrapositive_currified; [rewrite Eg; apply Hd; lia|apply Rinv_neq_0_compat; exact Nh].
      * intros j Hj. destruct (Nat.eq_dec j i) as [->|]; [rewrite upd1_in; exact Nh|rewrite upd1_out by assumption; apply Hd; exact Hj].
      * intros j Hj. destruct (Nat.eq_dec j i) as [->|]; [|rewrite upd1_out by assumption; apply He; exact Hj]. rewrite upd1_in. apply Rmult_integral_contrapositive_currified; [apply He; lia|apply Hc; lia].
      * intros j Hj. rewrite upd1_out by lia. apply Hd0. exact Hj.
      * rewrite upd1_out by lia. exact He0.
Qed.
(** from the beginning: at most three elements dropped or restored *)
Lemma cancelled_ok k l cnt U D E Ug V d e : (1 <= l)%nat -> (l <= k < n)%nat -> holds wantU U m n Ug -> vis D n d -> vis E q e -> fact cnt Ug V (bidi d (trunc k e)) -> e 0%nat = 0 ->
  Rabs (d (l - 1)%nat) <= tol -> absorbed (e l) anorm = false -> (forall j, (l < j <= k)%nat -> e j <> 0 /\ d (j - 1)%nat <> 0) ->
  wp (cancel absorbed wantU (k + 1 - l) l (l - 1) anorm U D E 0 1) (fun r => chased (l - 1) k d (3 + cnt) (fst (fst r)) (snd (fst r)) (snd r) V).
Proof.
  intros Hl Hk HU HD HE HF He0 Hs Ha Hnz. destruct l as [|l1]; [lia|]. cbn [Nat.sub] in *. rewrite Nat.sub_0_r in *.
  apply (cancel_ok k l1 d V (d l1) Hs ltac:(lia) (k + 1 - S l1)%nat (S l1) U D E Ug d e 0 1 (S cnt)); try lia; try assumption; try reflexivity.
  - eapply (fact_drop m n A G tol rows_short cnt Ug V (bidi d (trunc k e)) _ l1 l1); [lia|lia| | |exact HF].
    + unfold cmat, bidi. rewrite !Nat.eqb_refl. destruct (Nat.eqb_spec l1 (S l1)); [lia|]. rewrite Rminus_0_r. exact Hs.
    + intros p q0 Hp Hq Hpq. unfold cmat, bidi. cases; subst; try contradiction; try (exfalso; lia); try ring.
  - intros _. split; [reflexivity|split; [reflexivity|exact Ha]].
  - intros j Hj. destruct (Hnz (S j) ltac:(lia)) as [_ K]. cbn [Nat.sub] in K. rewrite Nat.sub_0_r in K. exact K.
  - intros j Hj. apply (Hnz j). lia.
Qed.
End C.
