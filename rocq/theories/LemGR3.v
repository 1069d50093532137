(** * GR_SVD: Bidiagonalize *)
From Coq Require Import Reals Arith Bool Lia Lra Psatz Setoid Morphisms.
From Verif Require Import Base Alg Inst Mat SpecMat LemMat RSum ModelOps ModelSVD ModelGR SpecExp LemEig LemExp RRect LemGR LemGR2.
Open Scope outcome_scope.
Local Open Scope R_scope.

(** the stored reflections *)
Definition HL (u : rmat) (d : nat -> R) (r : nat) : rmat := hous (from r (fun k => u k r)) (coef (d r) (u r r)).
Definition HR (u : rmat) (e : nat -> R) (r : nat) : rmat := hous (from (r + 1) (fun k => u r k)) (coef (e (r + 1)%nat) (u r (r + 1)%nat)).
(** what A has become before iteration i *)
Definition lmat (i : nat) (u : rmat) (d e : nat -> R) : rmat := fun r c =>
  if (r <? i)%nat then (if (c =? r)%nat then d r else if (c =? r + 1)%nat then e c else 0) else if (c <? i)%nat then 0 else u r c.
(** in the middle of it *)
Definition midmat (i : nat) (u : rmat) (d e : nat -> R) (di : R) : rmat := fun r c =>
  if (r <? i)%nat then (if (c =? r)%nat then d r else if (c =? r + 1)%nat then e c else 0) else if (c <? i)%nat then 0 else if (c =? i)%nat then (if (r =? i)%nat then di else 0) else u r c.
Lemma hous_ext m w v b c : (forall k, (k < m)%nat -> w k = v k) -> b = c -> req m m (hous w b) (hous v c).
Proof. intros H -> i j Hi Hj. unfold hous. rewrite !H by assumption. reflexivity. Qed.
Lemma hous_0 m w : req m m (hous w 0) delta.
Proof. intros i j _ _. unfold hous. ring. Qed.
Lemma coef_0 x : coef 0 x = 0.
Proof. unfold coef. destruct (R_eqb 0 0) eqn:E; [reflexivity|]. apply R_eqb_false in E. lra. Qed.
Lemma wvec_0 i a d k : (k < i)%nat -> wvec i a d k = 0.
Proof. intros H. unfold wvec. apply from_out. exact H. Qed.
Ltac cases := repeat match goal with
  | |- context [(?a <? ?b)%nat] => destruct (Nat.ltb_spec a b)
  | |- context [(?a <=? ?b)%nat] => destruct (Nat.leb_spec a b)
  | |- context [(?a =? ?b)%nat] => destruct (Nat.eqb_spec a b)
  end; cbn [andb]; try reflexivity; try lia.
Lemma pure_left m n i u d e di : (i < m)%nat -> (i < n)%nat -> reflecting m i (fun k => u k i) di ->
  let w := wvec i (fun k => u k i) di in
  req m n (midmat i (left_result m n i u di) d e di) (mm m (hous w (coef di (w i))) (lmat i u d e)).
Proof.
  intros Hi Hn (_ & _ & RF) w r c Hr Hc. fold w in RF. rewrite (hous_mm m n w _ _ r c Hr Hc). destruct (Nat.lt_ge_cases r i) as [L|L].
  - unfold w at 2. rewrite wvec_0 by exact L. rewrite Rmult_0_r, Rmult_0_l, Rplus_0_r. unfold midmat, lmat. cases.
  - assert (Ec : forall c, (i <= c)%nat -> Sum m (fun k => w k * lmat i u d e k c) = Sum m (fun k => w k * u k c)).
    { intros c' L'. apply S_ext. intros k Hk. destruct (Nat.lt_ge_cases k i) as [K|K]; [unfold w; rewrite wvec_0 by exact K; ring|]. unfold lmat. cases. }
    destruct (Nat.lt_ge_cases c i) as [C|C].
    + rewrite S_zero; [unfold midmat, lmat; cases; ring|]. intros k Hk. destruct (Nat.lt_ge_cases k i) as [K|K]; [unfold w; rewrite wvec_0 by exact K; ring|]. unfold lmat. cases. ring.
    + rewrite Ec by exact C. destruct (Nat.eq_dec c i) as [->|Nc].
      * unfold lmat. destruct (Nat.ltb_spec r i); [lia|]. destruct (Nat.ltb_spec i i); [lia|]. etransitivity; [|symmetry; apply (RF r); lia]. unfold midmat. cases.
      * unfold midmat, lmat. destruct (Nat.ltb_spec r i); [lia|]. destruct (Nat.ltb_spec c i); [lia|]. destruct (Nat.eqb_spec c i); [lia|]. rewrite left_result_right by lia. rewrite (hous_mm m n _ _ u r c Hr Hc). reflexivity.
Qed.
Lemma pure_right m n i l u d e di el : l = (i + 1)%nat -> (i < m)%nat -> (l < n)%nat -> reflecting n l (fun k => u i k) el ->
  let w := wvec l (fun k => u i k) el in
  forall e', (forall k, (k <= i)%nat -> e' k = e k) -> e' l = el ->
  req m n (lmat l (right_result m n i l u el) (upd1 d i di) e') (mm n (midmat i u d e di) (hous w (coef el (w l)))).
Proof.
  intros El Hi Hl (_ & _ & RF) w e' He' Hel r c Hr Hc. fold w in RF. rewrite (mm_hous m n w _ _ r c Hr Hc). destruct (Nat.lt_ge_cases c l) as [L|L].
  - unfold w at 2. rewrite wvec_0 by exact L. rewrite Rmult_0_r, Rmult_0_l, Rplus_0_r. unfold midmat, lmat, upd1. cases; apply He'; lia.
  - destruct (Nat.lt_ge_cases r i) as [A|A]; [|destruct (Nat.eq_dec r i) as [->|N]].
    + rewrite S_zero; [unfold midmat, lmat; cases; ring|]. intros k Hk. destruct (Nat.lt_ge_cases k l) as [K|K]; [unfold w; rewrite wvec_0 by exact K; ring|]. unfold midmat. cases. ring.
    + rewrite (S_ext n _ (fun k => w k * u i k)); [|intros k Hk; destruct (Nat.lt_ge_cases k l) as [K|K]; [unfold w; rewrite !wvec_0 by exact K; ring|]; unfold midmat; cases; ring].
      transitivity (if (c =? l)%nat then el else 0); [|rewrite <- (RF c) by lia; unfold midmat; cases]. unfold lmat. cases. subst c. rewrite <- El. exact Hel.
    + rewrite (S_ext n _ (fun k => u r k * w k)); [|intros k Hk; destruct (Nat.lt_ge_cases k l) as [K|K]; [unfold w; rewrite !wvec_0 by exact K; ring|]; unfold midmat; cases; ring].
      unfold lmat, midmat. destruct (Nat.ltb_spec r l); [lia|]. destruct (Nat.ltb_spec c l); [lia|]. destruct (Nat.ltb_spec r i); [lia|]. destruct (Nat.ltb_spec c i); [lia|]. destruct (Nat.eqb_spec c i); [lia|].
      rewrite right_result_below by lia. rewrite (mm_hous m n _ _ u r c Hr Hc). reflexivity.
Qed.
(** ** The invariant: A = HL 0 ... HL (i-1) (lmat i) (HR 0 ... )^T *)
Record binv (m n i : nat) (A u : rmat) (d e : nat -> R) (anorm : R) : Prop := mkbinv {
  b_prod : req m n A (mm m (chain m (HL u d) 0 i) (mm n (lmat i u d e) (tp (chain n (HR u e) 0 (Nat.min i (n - 1))))));
  b_left : forall r, (r < i)%nat -> involution m (HL u d r);
  b_right : forall r, (r < Nat.min i (n - 1))%nat -> involution n (HR u e r);
  b_dnz : forall r, (r < i)%nat -> (r < m)%nat -> d r <> 0 -> u r r <> 0;
  b_enz : forall r, (r < Nat.min i (n - 1))%nat -> (r < m)%nat -> e (r + 1)%nat <> 0 -> u r (r + 1)%nat <> 0;
  b_d0 : forall r, (m <= r < i)%nat -> d r = 0;
  b_e0 : forall r, (m < r <= i)%nat -> e r = 0;
  b_first : e 0%nat = 0;
  b_norm : forall r, (r < i)%nat -> Rabs (d r) + Rabs (e r) <= anorm;
  b_anorm : anorm = 0 \/ exists r, (r < i)%nat /\ anorm = Rabs (d r) + Rabs (e r) }.
Lemma binv_start m n A d e : e 0%nat = 0 -> binv m n 0 A A d e 0.
Proof.
  intros He. constructor; try (intros; lia); [|exact He|left; reflexivity]. cbn [chain Nat.min]. rewrite r_1l, tp_delta, r_1r. intros r c _ _. unfold lmat. cases.
Qed.
(** absorbing an involution on the left and on the right *)
Lemma absorb_left m n P H L X : involution m H -> req m n (mm m P (mm m L X)) (mm m (mm m P H) (mm m (mm m H L) X)).
Proof. intros [_ HH]. rewrite (r_assoc m n m m P H), (r_assoc m n m m H L X), <- (r_assoc m n m m H H), HH, r_1l. reflexivity. Qed.
Lemma absorb_right m n Q K L : involution n K -> req m n (mm n L (tp Q)) (mm n (mm n L K) (tp (mm n Q K))).
Proof. intros [KT KK]. rewrite r_tp, KT, (r_assoc m n n n L K), <- (r_assoc n n n n K K), KK, r_1l. reflexivity. Qed.
Lemma binv_step m n i A u d e anorm di u2 e2 el : (i < n)%nat -> binv m n i A u d e anorm ->
  let u1 := left_result m n i u di in
  ((i < m)%nat -> reflecting m i (fun k => u k i) di) -> ((m <= i)%nat -> di = 0) ->
  ((i < m)%nat -> (i + 1 < n)%nat -> reflecting n (i + 1) (fun k => u1 i k) el /\ forall r c, u2 r c = right_result m n i (i + 1) u1 el r c) ->
  ((m <= i)%nat \/ (i = n - 1)%nat -> el = 0 /\ forall r c, u2 r c = u1 r c) ->
  (forall k, (k <= i)%nat -> e2 k = e k) -> e2 (i + 1)%nat = el ->
  binv m n (i + 1) A u2 (upd1 d i di) e2 (Rmax anorm (Rabs di + Rabs (e i))).
Proof.
  intros Hn B u1 HD HD0 HR1 HR0 He Hel. destruct B as [B1 B2 B3 B4 B5 B6 B7 B8 B9 B10]. remember (i + 1)%nat as l eqn:El. set (d1 := upd1 d i di).
  (* what is stored and not touched any more *)
  assert (Last : (n <= l)%nat -> (i = n - 1)%nat) by lia.
  assert (C1 : forall r k, (k <= i)%nat -> u2 r k = u1 r k). { intros r k Hk. destruct (Nat.lt_ge_cases i m) as [Lm|Lm]; [destruct (Nat.lt_ge_cases l n) as [Ln|Ln]|]; [destruct (HR1 Lm Ln) as [_ ->]; apply right_result_out; lia|destruct (HR0 (or_intror (Last Ln))) as [_ ->]; reflexivity|destruct (HR0 (or_introl Lm)) as [_ ->]; reflexivity]. }
  assert (R1 : forall r k, (r < i)%nat -> u2 r k = u1 r k). { intros r k Hk. destruct (Nat.lt_ge_cases i m) as [Lm|Lm]; [destruct (Nat.lt_ge_cases l n) as [Ln|Ln]|]; [destruct (HR1 Lm Ln) as [_ ->]; apply right_result_out; lia|destruct (HR0 (or_intror (Last Ln))) as [_ ->]; reflexivity|destruct (HR0 (or_introl Lm)) as [_ ->]; reflexivity]. }
  assert (C0 : forall r k, (k < i)%nat -> u1 r k = u r k) by (intros; apply left_result_out; lia).
  assert (R0 : forall r k, (r < i)%nat -> u1 r k = u r k) by (intros; apply left_result_out; lia).
  assert (D1 : forall r, (r < i)%nat -> d1 r = d r) by (intros; apply upd1_out; lia).
  assert (EL : forall r, (r < i)%nat -> forall x y, HL u2 d1 r x y = HL u d r x y).
  { intros r Hr x y. unfold HL, hous, from. rewrite !D1 by exact Hr. cases; rewrite ?C1, ?C0 by lia; reflexivity. }
  assert (ER : forall r, (r < i)%nat -> forall x y, HR u2 e2 r x y = HR u e r x y).
  { intros r Hr x y. unfold HR, hous, from. rewrite !He by lia. cases; rewrite ?R1, ?R0 by lia; reflexivity. }
  set (w := wvec i (fun k => u k i) di).
  assert (NL : req m m (HL u2 d1 i) (hous w (coef di (w i)))).
  { unfold HL, d1. rewrite upd1_in. destruct (Nat.lt_ge_cases i m) as [Lm|Lm].
    - apply hous_ext; [|rewrite C1 by lia; unfold u1; rewrite left_result_col by lia; reflexivity]. intros k Hk. unfold from. cases; [rewrite C1 by lia; unfold u1; apply left_result_col; lia|]. unfold w. rewrite wvec_0; [reflexivity|lia].
    - rewrite (HD0 Lm), !coef_0, !hous_0. reflexivity. }
  assert (IL : involution m (hous w (coef di (w i)))).
  { destruct (Nat.lt_ge_cases i m) as [Lm|Lm]; [apply (HD Lm)|]. apply hous_inv. left. rewrite (HD0 Lm). apply coef_0. }
  assert (IL2 : involution m (HL u2 d1 i)) by (destruct IL as [I1 I2]; split; rewrite NL; assumption).
  set (v := wvec l (fun k => u1 i k) el).
  assert (NR : (l < n)%nat -> req n n (HR u2 e2 i) (hous v (coef el (v l)))).
  { intros Ln. unfold HR. rewrite <- El, Hel. destruct (Nat.lt_ge_cases i m) as [Lm|Lm].
    - destruct (HR1 Lm Ln) as [_ E]. apply hous_ext; [|rewrite E; rewrite right_result_row by lia; reflexivity]. intros k Hk. unfold from. cases; [rewrite E; apply right_result_row; lia|]. unfold v. rewrite wvec_0; [reflexivity|lia].
    - destruct (HR0 (or_introl Lm)) as [-> _]. rewrite !coef_0, !hous_0. reflexivity. }
  assert (IR : (l < n)%nat -> involution n (hous v (coef el (v l)))).
  { intros Ln. destruct (Nat.lt_ge_cases i m) as [Lm|Lm]; [apply (HR1 Lm Ln)|]. apply hous_inv. left. destruct (HR0 (or_introl Lm)) as [-> _]. apply coef_0. }
  assert (PM : req m n (midmat i u1 d e di) (mm m (hous w (coef di (w i))) (lmat i u d e))).
  { destruct (Nat.lt_ge_cases i m) as [Lm|Lm]; [apply (pure_left m n i u d e di Lm Hn (HD Lm))|]. rewrite (HD0 Lm), coef_0, hous_0, r_1l. intros r c Hr Hc. unfold midmat, lmat. cases. }
  assert (PR : (l < n)%nat -> req m n (lmat l u2 d1 e2) (mm n (midmat i u1 d e di) (hous v (coef el (v l))))).
  { intros Ln. destruct (Nat.lt_ge_cases i m) as [Lm|Lm].
    - destruct (HR1 Lm Ln) as [RF E]. etransitivity; [|exact (pure_right m n i l u1 d e di el El Lm Ln RF e2 He Hel)]. intros r c Hr Hc. unfold lmat. cases. apply E.
    - destruct (HR0 (or_introl Lm)) as [-> _]. rewrite coef_0, hous_0, r_1r. intros r c Hr Hc. unfold lmat, midmat. cases; [apply D1; lia|apply He; lia]. }
  assert (PN : (l = n)%nat -> req m n (lmat l u2 d1 e2) (midmat i u1 d e di)).
  { intros Ln r c Hr Hc. unfold lmat, midmat. cases; [apply D1; lia|apply He; lia|subst; apply upd1_in]. }
  constructor.
  - (* the product *)
    replace l with (S i) by lia. rewrite (chain_snoc m (HL u2 d1) i 0). rewrite Nat.add_0_l, NL. rewrite (chain_ext m (HL u2 d1) (HL u d) i 0) by (intros r Hr x y _ _; apply EL; lia).
    replace (S i) with l by lia. rewrite B1. set (P := chain m (HL u d) 0 i).
    assert (Q : req m n (mm n (lmat l u2 d1 e2) (tp (chain n (HR u2 e2) 0 (Nat.min l (n - 1))))) (mm m (hous w (coef di (w i))) (mm n (lmat i u d e) (tp (chain n (HR u e) 0 (Nat.min i (n - 1))))))).
    { rewrite <- (r_assoc m n n m (hous w (coef di (w i)))). rewrite <- PM. destruct (Nat.lt_ge_cases l n) as [Ln|Ln].
      - replace (Nat.min l (n - 1)) with (S i) by lia. replace (Nat.min i (n - 1)) with i by lia. rewrite (chain_snoc n (HR u2 e2) i 0), Nat.add_0_l, (NR Ln). rewrite (chain_ext n (HR u2 e2) (HR u e) i 0) by (intros r Hr x y _ _; apply ER; lia).
        rewrite (PR Ln). symmetry. apply absorb_right. exact (IR Ln).
      - rewrite (PN ltac:(lia)). replace (Nat.min l (n - 1)) with i by lia. replace (Nat.min i (n - 1)) with i by lia. rewrite (chain_ext n (HR u2 e2) (HR u e) i 0) by (intros r Hr x y _ _; apply ER; lia). reflexivity. }
    rewrite Q. rewrite <- (r_assoc m n m m (mm m P (hous w (coef di (w i))))), (r_assoc m m m m P), (proj2 IL), r_1r. reflexivity.
  - intros r Hr. destruct (Nat.eq_dec r i) as [->|N]; [exact IL2|]. destruct (B2 r ltac:(lia)) as [I1 I2]. assert (E : req m m (HL u2 d1 r) (HL u d r)) by (intros x y _ _; apply EL; lia). split; rewrite E; assumption.
  - intros r Hr. destruct (Nat.eq_dec r i) as [->|N]; [destruct (IR ltac:(lia)) as [I1 I2]; split; rewrite (NR ltac:(lia)); assumption|]. destruct (B3 r ltac:(lia)) as [I1 I2]. assert (E : req n n (HR u2 e2 r) (HR u e r)) by (intros x y _ _; apply ER; lia). split; rewrite E; assumption.
  - intros r Hr Hm Nz. destruct (Nat.eq_dec r i) as [->|N].
    + unfold d1 in Nz. rewrite upd1_in in Nz. rewrite C1 by lia. unfold u1. rewrite left_result_col by lia. apply (HD Hm). exact Nz.
    + rewrite C1, C0 by lia. apply B4; [lia|exact Hm|]. rewrite <- D1 by lia. exact Nz.
  - intros r Hr Hm Nz. destruct (Nat.eq_dec r i) as [->|N].
    + rewrite <- El in Nz |- *. rewrite Hel in Nz. destruct (HR1 Hm ltac:(lia)) as [RF E]. rewrite E, right_result_row by lia. apply RF. exact Nz.
    + rewrite R1, R0 by lia. apply B5; [lia|exact Hm|]. rewrite <- He by lia. exact Nz.
  - intros r Hr. destruct (Nat.eq_dec r i) as [->|N]; [unfold d1; rewrite upd1_in; apply HD0; lia|]. rewrite D1 by lia. apply B6. lia.
  - intros r Hr. destruct (Nat.eq_dec r l) as [->|N]; [rewrite Hel; apply HR0; left; lia|]. rewrite He by lia. apply B7. lia.
  - rewrite He by lia. exact B8.
  - intros r Hr. destruct (Nat.eq_dec r i) as [->|N]; [unfold d1; rewrite upd1_in, He by lia; apply Rmax_r|]. rewrite D1, He by lia. eapply Rle_trans; [apply B9; lia|apply Rmax_l].
  - unfold Rmax. destruct (Rle_dec anorm (Rabs di + Rabs (e i))) as [_|_].
    + right. exists i. split; [lia|]. unfold d1. rewrite upd1_in, He by lia. reflexivity.
    + destruct B10 as [->|(r & Hr & ->)]; [left; reflexivity|right]. exists r. split; [lia|]. rewrite D1, He by lia. reflexivity.
Qed.
Lemma binv_ext m n i A u u' d d' e e' anorm : (forall r c, u' r c = u r c) -> (forall r, d' r = d r) -> (forall r, (r <= i)%nat -> e' r = e r) -> binv m n i A u d e anorm -> binv m n i A u' d' e' anorm.
Proof.
  intros Eu Ed Ee [B1 B2 B3 B4 B5 B6 B7 B8 B9 B10].
  assert (EL : forall r x y, HL u' d' r x y = HL u d r x y) by (intros; unfold HL, hous, from; rewrite !Eu, !Ed; reflexivity).
  assert (ER : forall r, (r < i)%nat -> forall x y, HR u' e' r x y = HR u e r x y) by (intros r Hr x y; unfold HR, hous, from; rewrite !Eu, !Ee by lia; reflexivity).
  constructor; try (intros; rewrite ?Eu, ?Ed, ?Ee in * by lia; eauto; fail).
  - rewrite (chain_ext m (HL u' d') (HL u d) i 0) by (intros r Hr x y _ _; apply EL). rewrite (chain_ext n (HR u' e') (HR u e) _ 0) by (intros r Hr x y _ _; apply ER; lia). rewrite B1. assert (E : req m n (lmat i u d e) (lmat i u' d' e')) by (intros r c _ _; unfold lmat; cases; rewrite ?Eu, ?Ed, ?Ee by lia; reflexivity). rewrite E. reflexivity.
  - intros r Hr. destruct (B2 r Hr) as [I1 I2]. assert (E : req m m (HL u' d' r) (HL u d r)) by (intros x y _ _; apply EL). split; rewrite E; assumption.
  - intros r Hr. destruct (B3 r Hr) as [I1 I2]. assert (E : req n n (HR u' e' r) (HR u e r)) by (intros x y _ _; apply ER; lia). split; rewrite E; assumption.
  - destruct B10 as [->|(r & Hr & ->)]; [left; reflexivity|right]. exists r. split; [exact Hr|]. rewrite Ed, Ee by lia. reflexivity.
Qed.
Lemma bidiagonalize_ok (A : mat R) m n : mrows A = m -> mcols A = n ->
  wp (bidiagonalize A) (fun b => exists u d e, mis (bU b) m n u /\ vis (bD b) n d /\ vis (bE b) (Nat.max m n) e /\ binv m n n (mel A) u d (upd1 e n (bscale b * bg b)) (banorm b)).
Proof.
  intros Hm Hn. unfold bidiagonalize. rewrite Hm, Hn. set (q := Nat.max m n).
  apply (wp_for (fun i b => exists u d e, mis (bU b) m n u /\ vis (bD b) n d /\ vis (bE b) q e /\ binv m n i (mel A) u d (upd1 e i (bscale b * bg b)) (banorm b))); [lia| |].
  - exists (mel A), (vat (vnew n)), (vat (vnew q)). cbn [bU bD bE bg bscale banorm]. split; [split; [exact Hm|split; [exact Hn|reflexivity]]|]. split; [split; reflexivity|]. split; [split; reflexivity|]. apply binv_start. rewrite upd1_in. ring.
  - intros i b [_ Hi] (u & d & e & HU & HD & HE & B). unfold bidiag_step. pose proof HU as (U1 & U2 & _). rewrite U1, U2. set (e1 := upd1 e i (bscale b * bg b)) in *.
    apply (wp_vset (bE b) q e i _ _ _ HE); [lia|]. fold e1. intros E1 HE1.
    apply (wp_seq _ (fun '(U', g, scale) => ((i < m)%nat -> reflecting m i (fun k => u k i) (scale * g)) /\ ((m <= i)%nat -> scale * g = 0) /\ mis U' m n (left_result m n i u (scale * g)))).
    { destruct (Nat.ltb_spec i m) as [L|L].
      - eapply wp_mono; [apply (left_step_ok i (bU b) m n u HU L Hi)|]. intros [[U' g] scale] [P1 P2]. split; [intros _; exact P1|]. split; [intros; lia|exact P2].
      - cbn [wp]. split; [intros; lia|]. split; [intros _; ring|]. apply (mis_ext (bU b) m n u _ HU). intros r c. unfold left_result. cases. }
    intros [[U' g] scale] (HL1 & HL0 & HU'). remember (scale * g) as di eqn:Edi. apply (wp_vset (bD b) n d i _ _ _ HD); [lia|]. intros D1 HD1.
    set (u1 := left_result m n i u di) in *.
    apply (wp_seq _ (fun '(U2, E2, g, scale) => exists u2 e2, mis U2 m n u2 /\ vis E2 q e2 /\ (forall k, (k <= i)%nat -> e2 k = e1 k) /\
      ((i < m)%nat -> (i + 1 < n)%nat -> reflecting n (i + 1) (fun k => u1 i k) (scale * g) /\ forall r c, u2 r c = right_result m n i (i + 1) u1 (scale * g) r c) /\
      ((m <= i)%nat \/ (i = n - 1)%nat -> scale * g = 0 /\ forall r c, u2 r c = u1 r c))).
    { destruct (Nat.leb_spec m i) as [L|L]; cbn [orb negb]; [|destruct (Nat.eqb_spec i (n - 1)) as [L2|L2]; cbn [negb]].
      - cbn [wp]. exists u1, e1. split; [exact HU'|]. split; [exact HE1|]. split; [reflexivity|]. split; [intros; lia|]. intros _. split; [ring|reflexivity].
      - cbn [wp]. exists u1, e1. split; [exact HU'|]. split; [exact HE1|]. split; [reflexivity|]. split; [intros; lia|]. intros _. split; [ring|reflexivity].
      - eapply wp_mono; [apply (right_step_ok i U' E1 m n u1 e1 q HU' HE1 L); lia|]. intros [[[U3 E3] g3] s3] (P1 & P2 & e3 & P3 & P4). exists (right_result m n i (i + 1) u1 (s3 * g3)), e3. split; [exact P2|]. split; [exact P3|]. split; [exact P4|]. split; [intros _ _; split; [exact P1|reflexivity]|intros; lia]. }
    intros [[[U3 E3] g3] s3] (u2 & e2 & HU3 & HE3 & P1 & P2 & P3).
    apply (wp_vget D1 n _ i _ _ HD1); [lia|]. apply (wp_vget E3 q _ i _ _ HE3); [lia|]. cbn [wp]. exists u2, (upd1 d i di), e2. cbn [bU bD bE bg bscale banorm]. split; [exact HU3|]. split; [exact HD1|]. split; [exact HE3|].
    rewrite upd1_in, P1 by lia. replace (S i) with (i + 1)%nat by lia. apply (binv_step m n i (mel A) u d e1 (banorm b) di u2 _ (s3 * g3) Hi B HL1 HL0 P2 P3); [|apply upd1_in].
    intros k Hk. rewrite upd1_out by lia. apply P1. exact Hk.
Qed.
