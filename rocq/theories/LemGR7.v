(** * GR_SVD: the QR sweep and the sub-loop *)
From Coq Require Import Reals Arith Bool Lia Lra Psatz Setoid Morphisms.
From Verif Require Import Base Alg Inst Mat SpecMat LemMat RSum ModelOps ModelSVD ModelGR SpecExp SpecEig LemEig LemExp RRect LemGR LemGR3 LemGR4 LemGR5 LemGR6.
Open Scope outcome_scope.
Local Open Scope R_scope.

(** B before iteration i1 of the sweep that began at l *)
Definition smat (l i1 : nat) (d e : nat -> R) (f x c s : R) : rmat := fun p q0 =>
  if (p =? i1)%nat then (if (q0 =? i1)%nat then x else if (q0 =? S i1)%nat then c * e q0 else 0)
  else if ((S p =? i1) && (l <? i1))%nat then (if (q0 =? p)%nat then d p else if (q0 =? i1)%nat then f else if (q0 =? S i1)%nat then s * e q0 else 0)
  else if (p =? q0)%nat then d p else if (q0 =? S p)%nat then e q0 else 0.
(** after the rotation of the columns *)
Definition mid (l i1 : nat) (d e : nat -> R) (z f g h y : R) : rmat := fun p q0 =>
  if (p =? i1)%nat then (if (q0 =? i1)%nat then f else if (q0 =? S i1)%nat then g else 0)
  else if (p =? S i1)%nat then (if (q0 =? i1)%nat then h else if (q0 =? S i1)%nat then y else if (q0 =? S (S i1))%nat then e q0 else 0)
  else if ((S p =? i1) && (l <? i1))%nat then (if (q0 =? p)%nat then d p else if (q0 =? i1)%nat then z else 0)
  else if (p =? q0)%nat then d p else if (q0 =? S p)%nat then e q0 else 0.
(** the off-diagonal elements in use when e_l is taken to be zero *)
Definition cut (l k : nat) (e : nat -> R) : nat -> R := fun j => if (j =? l)%nat then 0 else trunc k e j.
Ltac split_eq := repeat match goal with
  | |- context [(?a <? ?b)%nat] => destruct (Nat.ltb_spec a b); try (exfalso; lia)
  | |- context [(?a =? ?b)%nat] => destruct (Nat.eqb_spec a b); try (exfalso; lia)
  end; cbn [andb].
Lemma smat_mid l i1 d e f x c s c1 s1 z p q0 : (l <= i1)%nat -> e l = 0 -> f * c1 + s * e (S i1) * s1 = z -> - f * s1 + s * e (S i1) * c1 = 0 ->
  colrot (smat l i1 d e f x c s) i1 (S i1) c1 s1 p q0 = mid l i1 d e z (x * c1 + c * e (S i1) * s1) (- x * s1 + c * e (S i1) * c1) (d (S i1) * s1) (d (S i1) * c1) p q0.
Proof.
  intros Hl He H1 H2. unfold colrot, smat, mid. destruct (Nat.eq_dec (S p) i1) as [Ep|Np].
  - destruct (Nat.eq_dec i1 l) as [->|Nl]; split_eq; subst; try ring; try (rewrite He; ring); try exact H1; try exact H2; try (rewrite <- H1; ring); try (rewrite <- H2; ring).
  - split_eq; subst; try ring; try congruence.
Qed.
Lemma mid_smat l i1 d e e' z f g h y c2 s2 z2 p q0 : (l <= i1)%nat -> f * c2 + h * s2 = z2 -> - f * s2 + h * c2 = 0 -> (i1 <> l -> e' i1 = z) -> (forall j, j <> i1 \/ j = l -> e' j = e j) ->
  rowrot (mid l i1 d e z f g h y) i1 (S i1) c2 s2 p q0 = smat l (S i1) (upd1 d i1 z2) e' (g * c2 + y * s2) (- g * s2 + y * c2) c2 s2 p q0.
Proof.
  intros Hl H1 H2 He1 He2. unfold rowrot, smat, mid, upd1. destruct (Nat.eq_dec i1 l) as [El|Nl].
  - split_eq; subst; rewrite ?He2 by lia; try ring; try (exact H1); try (exact H2); try congruence.
  - split_eq; subst; rewrite ?He1 by assumption; rewrite ?He2 by lia; try ring; try (exact H1); try (exact H2); try congruence.
Qed.
Section S.
Variable absorbed : R -> R -> bool.
Variables (wantU wantV : bool) (m n q : nat) (A G : rmat) (tol anorm : R).
Hypothesis rows_short : forall r, (r < m)%nat -> G r r <= 1.
Hypothesis tol_nonneg : 0 <= tol.
Hypothesis absorbed_0 : absorbed 0 anorm = true.
Hypothesis absorbed_small : forall x, absorbed x anorm = true -> Rabs x <= tol.
Hypothesis nq : (n <= q)%nat.
Local Notation fact := (fact m n A G tol).
Definition swinv (l k cnt : nat) (d0 : nat -> R) (i1 : nat) (w : sweep) : Prop := exists Ug Vg d e,
  holds wantU (wU w) m n Ug /\ holds wantV (wV w) n n Vg /\ vis (wD w) n d /\ vis (wE w) q e /\ fact cnt Ug Vg (smat l i1 d (cut l k e) (wf w) (wx w) (wc w) (ws w)) /\
  ((i1 < k)%nat -> ws w <> 0) /\ (forall j, (i1 < j < k)%nat -> d j <> 0) /\ (forall j, (i1 < j <= k)%nat -> e j <> 0) /\ (forall j, (k < j)%nat -> d j = d0 j) /\ ((0 < l)%nat -> e 0%nat = 0).
Lemma sweep_step_ok l k cnt d0 i1 w : (l <= i1 < k)%nat -> (k < n)%nat -> swinv l k cnt d0 i1 w -> wp (sweep_step wantU wantV i1 w) (swinv l k cnt d0 (S i1)).
Proof.
  intros Hi Hk (Ug & Vg & d & e & HU & HV & HD & HE & HF & Hs & Hd & He & Hd0 & He0). unfold sweep_step. rewrite Nat.add_1_r.
  eapply wp_vget; [exact HE|lia|]. eapply wp_vget; [exact HD|lia|]. remember (wf w) as f eqn:Ef. remember (wx w) as x eqn:Ex. remember (wc w) as c eqn:Ec. remember (ws w) as s eqn:Es.
  assert (Ce : cut l k e (S i1) = e (S i1)) by (unfold cut, trunc; split_eq; reflexivity).
  assert (Nh : s * e (S i1) <> 0) by (apply Rmult_integral_contrapositive_currified; [apply Hs; lia|apply He; lia]).
  remember (s * e (S i1)) as h eqn:Eh. destruct (hyp_ok f h) as (Z1 & Z2 & Z3). specialize (Z3 (or_intror Nh)). remember (sqrt (f * f + h * h)) as z eqn:Ez. assert (Nz : z <> 0) by lra.
  eapply wp_vset; [exact HE|lia|]. intros E1 HE1. eapply wp_div; [exact Nz|]. eapply wp_div; [exact Nz|].
  assert (CS : f / z * (f / z) + h / z * (h / z) = 1) by (rewrite Rplus_comm; replace 1 with (h / z * (h / z) + f / z * (f / z)); [reflexivity|]; apply rot_unit; [exact Nz|exact Z1]).
  eapply wp_seq; [apply rotate_if_ok; [exact HV|lia|lia|lia]|]. intros V1 HV1.
  pose proof (fact_cols m n A G tol cnt Ug Vg _ i1 (S i1) (f / z) (h / z) ltac:(lia) ltac:(lia) ltac:(lia) CS HF) as F1.
  assert (Cl : cut l k e l = 0) by (unfold cut; rewrite Nat.eqb_refl; reflexivity).
  eapply fact_B in F1; [|intros p q0 _ _; apply (smat_mid l i1 d (cut l k e) f x c s (f / z) (h / z) z); [lia|exact Cl| |]; rewrite Ce, <- Eh; [transitivity ((f * f + h * h) / z); [field; exact Nz|rewrite <- Z1; field; exact Nz]|field; exact Nz]]. rewrite Ce in F1.
  remember (f / z) as c1 eqn:Ec1. remember (h / z) as s1 eqn:Es1. assert (Ns1 : s1 <> 0) by (rewrite Es1; unfold Rdiv; apply Rmult_integral_contrapositive_currified; [exact Nh|apply Rinv_neq_0_compat; exact Nz]).
  remember (x * c1 + c * e (S i1) * s1) as f1 eqn:Ef1. remember (- x * s1 + c * e (S i1) * c1) as g1 eqn:Eg1. remember (d (S i1) * s1) as h1 eqn:Eh1. remember (d (S i1) * c1) as y1 eqn:Ey1.
  eapply wp_vset; [exact HD|lia|]. intros D1 HD1. destruct (hyp_ok f1 h1) as (Y1 & Y2 & Y3). remember (sqrt (f1 * f1 + h1 * h1)) as z2 eqn:Ez2.
  assert (Next : forall c2 s2, c2 * c2 + s2 * s2 = 1 -> f1 * c2 + h1 * s2 = z2 -> - f1 * s2 + h1 * c2 = 0 -> ((S i1 < k)%nat -> s2 <> 0) ->
    wp (U <- rotate_if wantU (wU w) i1 (S i1) c2 s2 ;; Ok (mksw U V1 D1 E1 (c2 * g1 + s2 * y1) (- s2 * g1 + c2 * y1) c2 s2)) (swinv l k cnt d0 (S i1))).
  { intros c2 s2 C2 K1 K2 Ns2. eapply wp_seq; [apply rotate_if_ok; [exact HU|lia|lia|lia]|]. intros U1 HU1. cbn [wp]. exists (colrot Ug i1 (S i1) c2 s2), (colrot Vg i1 (S i1) c1 s1), (upd1 d i1 z2), (upd1 e i1 z). cbn [wU wV wD wE wf wx wc ws].
    split; [exact HU1|]. split; [exact HV1|]. split; [exact HD1|]. split; [exact HE1|]. split.
    - pose proof (fact_rows m n A G tol cnt Ug _ _ i1 (S i1) c2 s2 ltac:(lia) ltac:(lia) ltac:(lia) C2 F1) as F2. eapply fact_B; [|exact F2]. intros p q0 _ _. change (fun p0 q1 : nat => mid l i1 d (cut l k e) z f1 g1 h1 y1 p0 q1) with (mid l i1 d (cut l k e) z f1 g1 h1 y1). rewrite (mid_smat l i1 d (cut l k e) (cut l k (upd1 e i1 z)) z f1 g1 h1 y1 c2 s2 z2 p q0); [|lia|exact K1|exact K2| |].
      + replace (g1 * c2 + y1 * s2) with (c2 * g1 + s2 * y1) by ring. replace (- g1 * s2 + y1 * c2) with (- s2 * g1 + c2 * y1) by ring. reflexivity.
      + intros Nl. unfold cut, trunc, upd1. split_eq. reflexivity.
      + intros j Hj. unfold cut, trunc, upd1. split_eq; try reflexivity; exfalso; lia.
    - split; [exact Ns2|]. split; [intros j Hj; rewrite upd1_out by lia; apply Hd; lia|]. split; [intros j Hj; rewrite upd1_out by lia; apply He; lia|]. split; [intros j Hj; rewrite upd1_out by lia; apply Hd0; lia|]. intros L. rewrite upd1_out by lia. apply He0; exact L. }
  assert (Hh1 : (S i1 < k)%nat -> h1 <> 0) by (intros L; rewrite Eh1; apply Rmult_integral_contrapositive_currified; [apply Hd; lia|exact Ns1]).
  destruct (R_eqb z2 0) eqn:Zz.
  - apply R_eqb_true in Zz. cbn [bind]. assert (f1 = 0 /\ h1 = 0) as [Q1 Q2] by (rewrite Zz in Y1; split; nra). apply Next; [exact CS|rewrite Q1, Q2, Zz; ring|rewrite Q1, Q2; ring|intros _; exact Ns1].
  - apply R_eqb_false in Zz. rewrite bind_assoc. eapply wp_div; [exact Zz|]. rewrite bind_assoc. eapply wp_div; [exact Zz|]. cbn [bind]. apply Next.
    + rewrite Rplus_comm. apply rot_unit; [exact Zz|exact Y1].
    + transitivity ((f1 * f1 + h1 * h1) / z2); [field; exact Zz|rewrite <- Y1; field; exact Zz].
    + field; exact Zz.
    + intros L. unfold Rdiv. apply Rmult_integral_contrapositive_currified; [apply Hh1; exact L|apply Rinv_neq_0_compat; exact Zz].
Qed.
Lemma shift_ok D E d e l k z : vis D n d -> vis E q e -> (l < k < n)%nat -> d l <> 0 -> d (k - 1)%nat <> 0 -> e k <> 0 -> exists f, shift D E l k z = Ok f.
Proof.
  intros HD HE Hk N1 N2 N3. assert (W : wp (shift D E l k z) (fun _ => True)); [|apply wp_ok_inv in W; destruct W as (f & -> & _); exists f; reflexivity]. unfold shift.
  eapply wp_vget; [exact HD|lia|]. eapply wp_vget; [exact HD|lia|]. eapply wp_vget; [exact HE|lia|]. eapply wp_vget; [exact HE|lia|].
  eapply wp_div; [apply Rmult_integral_contrapositive_currified; [lra|exact N2]|]. cbv zeta.
  match goal with |- context [sqrt (?f * ?f + 1)] => set (f0 := f) end. assert (P : 0 <= f0 * f0 + 1) by nra. pose proof (sqrt_sqrt _ P). pose proof (sqrt_lt_R0 (f0 * f0 + 1) ltac:(nra)).
  eapply wp_div; [destruct (R_ltb f0 0) eqn:Q; [apply R_ltb_spec in Q|apply R_ltb_false in Q]; lra|]. rewrite R_div_ok by exact N1. exact I.
Qed.
(** ** the state between sub-loops for k *)
Definition state (k cnt : nat) (d0 : nat -> R) (p : parts) (Ug Vg : rmat) (d e : nat -> R) : Prop :=
  holds wantU (pU p) m n Ug /\ holds wantV (pV p) n n Vg /\ vis (pD p) n d /\ vis (pE p) q e /\ fact cnt Ug Vg (bidi d (trunc k e)) /\ e 0%nat = 0 /\ (forall j, (k < j)%nat -> d j = d0 j).
Definition turned (k iter cnt : nat) (d0 : nat -> R) (r : parts * turn) : Prop := exists Ug Vg d e, holds wantU (pU (fst r)) m n Ug /\ holds wantV (pV (fst r)) n n Vg /\
  match snd r with
  | Converged z => z = d k /\ vis (pD (fst r)) n d /\ vis (pE (fst r)) q e /\ fact (3 + cnt) Ug Vg (bidi d (trunc (k - 1) e)) /\ e 0%nat = 0 /\ (forall j, (k < j)%nat -> d j = d0 j)
  | Failed => iter = 30%nat /\ (0 < k)%nat /\ e k <> 0 /\ state k (3 + cnt) d0 (fst r) Ug Vg d e
  | Again => iter <> 30%nat /\ state k (3 + cnt) d0 (fst r) Ug Vg d e
  end.
Lemma subloop_ok k iter cnt d0 p Ug Vg d e : (k < n)%nat -> state k cnt d0 p Ug Vg d e -> wp (subloop absorbed wantU wantV anorm k iter p) (turned k iter cnt d0).
Proof.
  intros Hk (HU & HV & HD & HE & HF & He0 & Hd0). unfold subloop.
  eapply wp_seq; [apply (split_ok absorbed n q tol anorm tol_nonneg absorbed_0 absorbed_small nq (pD p) (pE p) d e HD HE He0 k Hk)|]. intros [l b] (Hl & Hnz & Hb). cbn [fst snd] in *.
  (* after a possible cancellation: e_l is negligible; dropping it costs at most three altogether *)
  assert (Mid : wp (if b then cancel absorbed wantU (k + 1 - l) l (l - 1) anorm (pU p) (pD p) (pE p) 0 1 else Ok (pU p, pD p, pE p))
     (fun r => exists U1 d1 e1, holds wantU (fst (fst r)) m n U1 /\ vis (snd (fst r)) n d1 /\ vis (snd r) q e1 /\ fact (3 + cnt) U1 Vg (bidi d1 (trunc k e1)) /\ fact (3 + cnt) U1 Vg (bidi d1 (cut l k e1)) /\ e1 0%nat = 0 /\
       (forall j, (l <= j < k)%nat -> d1 j <> 0) /\ (forall j, (l < j <= k)%nat -> e1 j <> 0) /\ (forall j, (k < j)%nat -> d1 j = d0 j))).
  { destruct b.
    - destruct Hb as (H1 & H2 & H3). eapply wp_mono; [apply (cancelled_ok absorbed wantU m n q A G tol anorm rows_short tol_nonneg absorbed_0 absorbed_small nq k l cnt _ _ _ Ug Vg d e); try assumption; lia|].
      intros [[U1 D1] E1] (Ug1 & d1 & e1 & G1 & G2 & G3 & G4 & G5 & G6 & G7 & G8 & G9). cbn [fst snd] in *. replace (S (l - 1))%nat with l in * by lia. exists Ug1, d1, e1. split; [exact G1|]. split; [exact G2|]. split; [exact G3|]. split; [exact G4|]. split.
      + eapply fact_B; [|exact G4]. intros p0 q0 _ _. unfold bidi, cut, trunc. split_eq; subst; try reflexivity; assumption.
      + split; [exact G9|]. split; [intros j Hj; apply G6; lia|]. split; [exact G7|]. intros j Hj. rewrite G8 by exact Hj. apply Hd0. exact Hj.
    - cbn [wp fst snd]. exists Ug, d, e. split; [exact HU|]. split; [exact HD|]. split; [exact HE|]. split; [apply (fact_more m n A G tol tol_nonneg cnt); [lia|exact HF]|]. split.
      + destruct l as [|l1].
        * apply (fact_more m n A G tol tol_nonneg cnt); [lia|]. eapply fact_B; [|exact HF]. intros p0 q0 _ _. unfold bidi, cut, trunc. split_eq; subst; try reflexivity; lia.
        * apply (fact_more m n A G tol tol_nonneg (S cnt)); [lia|]. eapply (fact_drop m n A G tol rows_short cnt Ug Vg _ _ l1 (S l1)); [lia|lia| | |exact HF].
          -- unfold bidi, cut, trunc. split_eq. rewrite Rminus_0_r. exact Hb.
          -- intros p0 q0 _ _ Hpq. unfold bidi, cut, trunc. split_eq; subst; try reflexivity; exfalso; lia.
      + split; [exact He0|]. split; [|split; [|exact Hd0]].
        * intros j Hj. destruct (Hnz (S j) ltac:(lia)) as [_ K]. cbn [Nat.sub] in K. rewrite Nat.sub_0_r in K. exact K.
        * intros j Hj. apply (Hnz j Hj). }
  eapply wp_seq; [exact Mid|]. clear Mid Hnz Hb. intros [[U1 D1] E1] (Ug1 & d1 & e1 & GU & GD & GE & GF0 & GF & Ge0 & Gd & Ge & Gd0). cbn [fst snd] in *.
  eapply wp_vget; [exact GD|lia|]. destruct (Nat.eqb_spec l k) as [->|Nl].
  - cbn [wp]. exists Ug1, Vg, d1, e1. cbn [fst snd pU pV pD pE]. split; [exact GU|]. split; [exact HV|]. split; [reflexivity|]. split; [exact GD|]. split; [exact GE|]. split; [|split; assumption].
    eapply fact_B; [|exact GF]. intros p0 q0 _ _. unfold bidi, cut, trunc. split_eq; subst; try reflexivity; exfalso; lia.
  - destruct (Nat.eqb_spec iter 30) as [Ei|Ni].
    + cbn [wp]. exists Ug1, Vg, d1, e1. cbn [fst snd pU pV pD pE]. split; [exact GU|]. split; [exact HV|]. split; [exact Ei|]. split; [lia|]. split; [apply Ge; lia|]. unfold state. cbn [pU pV pD pE]. repeat (split; [assumption|]). assumption.
    + eapply wp_vget; [exact GD|lia|]. destruct (shift_ok D1 E1 d1 e1 l k (d1 k) GD GE ltac:(lia)) as (f & ->); [apply Gd; lia|apply Gd; lia|apply Ge; lia|]. cbn [bind].
      eapply wp_seq; [apply (wp_for (swinv l k (3 + cnt) d0) l k); [lia| |intros i w Hi; apply sweep_step_ok; lia]|].
      * exists Ug1, Vg, d1, e1. cbn [wU wV wD wE wf wx wc ws]. split; [exact GU|]. split; [exact HV|]. split; [exact GD|]. split; [exact GE|]. split.
        -- eapply fact_B; [|exact GF]. intros p0 q0 _ _. unfold bidi, smat. split_eq; subst; try reflexivity; ring.
        -- split; [intros _; lra|]. split; [intros j Hj; apply Gd; lia|]. split; [intros j Hj; apply Ge; lia|]. split; [exact Gd0|]. intros _. exact Ge0.
      * intros w (Ug2 & Vg2 & d2 & e2 & KU & KV & KD & KE & KF & _ & _ & _ & Kd0 & Ke0).
        eapply wp_vset; [exact KE|lia|]. intros E2 KE2. eapply wp_vset; [exact KE2|lia|]. intros E3 KE3. eapply wp_vset; [exact KD|lia|]. intros D2 KD2. cbn [wp].
        exists Ug2, Vg2, (upd1 d2 k (wx w)), (upd1 (upd1 e2 l 0) k (wf w)). cbn [fst snd pU pV]. split; [exact KU|]. split; [exact KV|]. split; [exact Ni|]. unfold state. cbn [pU pV pD pE]. split; [exact KU|]. split; [exact KV|]. split; [exact KD2|]. split; [exact KE3|]. split.
        -- eapply fact_B; [|exact KF]. intros p0 q0 _ _. unfold bidi, smat, cut, trunc, upd1. split_eq; subst; try reflexivity; try ring; exfalso; lia.
        -- split; [|intros j Hj; rewrite upd1_out by lia; apply Kd0; exact Hj]. unfold upd1. split_eq; [reflexivity|]. apply Ke0. lia.
Qed.
End S.
