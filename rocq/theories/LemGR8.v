(** * GR_SVD: the whole constructor *)
From Coq Require Import Reals Arith Bool Lia Lra Psatz Setoid Morphisms.
From Verif Require Import Base Alg Inst Mat SpecMat LemMat LemOps RSum ModelOps ModelSVD ModelGR SpecExp SpecEig LemEig LemExp RRect LemGR LemGR2 LemGR3 LemGR4 LemGR5 LemGR6 LemGR7.
Open Scope outcome_scope.
Local Open Scope R_scope.

(** ** the iteration *)
Section I.
Variable absorbed : R -> R -> bool.
Variables (wantU wantV : bool) (m n q : nat) (A G : rmat) (tol anorm : R).
Hypothesis rows_short : forall r, (r < m)%nat -> G r r <= 1.
Hypothesis tol_nonneg : 0 <= tol.
Hypothesis absorbed_0 : absorbed 0 anorm = true.
Hypothesis absorbed_small : forall x, absorbed x anorm = true -> Rabs x <= tol.
Hypothesis nq : (n <= q)%nat.
Local Notation fact := (fact m n A G tol).
Local Notation state := (state wantU wantV m n q A G tol).
Definition iterated (k cnt : nat) (d0 : nat -> R) (r : parts * option R) : Prop := exists Ug Vg d e, holds wantU (pU (fst r)) m n Ug /\ holds wantV (pV (fst r)) n n Vg /\
  vis (pD (fst r)) n d /\ vis (pE (fst r)) q e /\ e 0%nat = 0 /\ (forall j, (k < j)%nat -> d j = d0 j) /\
  match snd r with Some z => z = d k /\ fact cnt Ug Vg (bidi d (trunc (k - 1) e)) | None => (0 < k)%nat /\ e k <> 0 /\ fact cnt Ug Vg (bidi d (trunc k e)) end.
Lemma iterate_ok k d0 : (k < n)%nat -> forall fuel iter cnt cnt' p Ug Vg d e, (iter <= 30)%nat -> (31 <= fuel + iter)%nat -> (3 * (31 - iter) + cnt <= cnt')%nat -> state k cnt d0 p Ug Vg d e ->
  wp (iterate absorbed wantU wantV fuel anorm k iter p) (iterated k cnt' d0).
Proof.
  intros Hk. induction fuel as [|fuel IH]; intros iter cnt cnt' p Ug Vg d e Hi Hf Hc HS; [lia|]. cbn [iterate].
  eapply wp_seq; [apply (subloop_ok absorbed wantU wantV m n q A G tol anorm rows_short tol_nonneg absorbed_0 absorbed_small nq k iter cnt d0 p Ug Vg d e Hk HS)|].
  intros [p1 t] (U1 & V1 & d1 & e1 & HU & HV & HT). cbn [fst snd] in *. destruct t as [z| |].
  - destruct HT as (Hz & HD & HE & HF & He0 & Hd0). cbn [wp]. exists U1, V1, d1, e1. cbn [fst snd]. repeat (split; [assumption|]). apply (fact_more m n A G tol tol_nonneg (3 + cnt)); [lia|exact HF].
  - destruct HT as (_ & Hk0 & Nk & (_ & _ & HD & HE & HF & He0 & Hd0)). cbn [wp]. exists U1, V1, d1, e1. cbn [fst snd]. repeat (split; [assumption|]). apply (fact_more m n A G tol tol_nonneg (3 + cnt)); [lia|exact HF].
  - destruct HT as (Ni & HS1). rewrite Nat.add_1_r. apply (IH (S iter) (3 + cnt)%nat cnt' p1 U1 V1 d1 e1); [lia|lia|lia|exact HS1].
Qed.
(** ** two columns: one sweep is enough *)
Lemma two_algebra d0 d1 e1 f t z c1 s1 : d0 <> 0 -> e1 <> 0 -> f = ((d0 - d1) * (d0 + d1) + (0 - e1) * (0 + e1)) / (2 * e1 * d0) -> t * t = 2 * f * t + 1 -> z <> 0 -> c1 = e1 * t / z -> s1 = e1 / z ->
  (d0 * c1 + e1 * s1) * (- d0 * s1 + e1 * c1) + d1 * s1 * (d1 * c1) = 0.
Proof.
  intros N1 N2 Ef Et Nz -> ->. assert (K : d0 * e1 * (t * t) = (d0 * d0 - d1 * d1 - e1 * e1) * t + d0 * e1). { rewrite Et, Ef. field. split; assumption. }
  transitivity (e1 * e1 / (z * z) * (d0 * e1 * (t * t) - (d0 * d0 - d1 * d1 - e1 * e1) * t - d0 * e1)); [field; exact Nz|]. rewrite K. ring.
Qed.
Lemma subloop_two cnt d0 p Ug Vg d e : (1 < n)%nat -> state 1 cnt d0 p Ug Vg d e ->
  wp (subloop absorbed wantU wantV anorm 1 0 p) (fun r => match snd r with Converged _ => True | Failed => False | Again => vat (pE (fst r)) 1 = 0 \/ vat (pD (fst r)) 0 = 0 end).
Proof.
  intros Hn (HU & HV & HD & HE & HF & He0 & Hd0). unfold subloop.
  eapply wp_seq; [apply (split_ok absorbed n q tol anorm tol_nonneg absorbed_0 absorbed_small nq (pD p) (pE p) d e HD HE He0 1 Hn)|]. intros [l b] (Hl & Hnz & Hb). cbn [fst snd] in *.
  destruct (Nat.eq_dec l 1) as [->|Nl].
  - eapply (wp_seq _ (fun r => exists d1, vis (snd (fst r)) n d1)).
    + destruct b; [|cbn [wp fst snd]; exists d; exact HD]. destruct Hb as (H1 & H2 & H3). eapply wp_mono; [apply (cancelled_ok absorbed wantU m n q A G tol anorm rows_short tol_nonneg absorbed_0 absorbed_small nq 1 1 cnt _ _ _ Ug Vg d e); try assumption; lia|].
      intros r (U1 & d1 & e1 & _ & K & _). exists d1. exact K.
    + intros [[U1 D1] E1] (d1 & HD1). cbn [fst snd] in *. eapply wp_vget; [exact HD1|lia|]. cbn. exact I.
  - assert (l = 0%nat) as -> by lia. destruct b; [lia|]. destruct (Hnz 1%nat ltac:(lia)) as [Ne Nd]. cbn [Nat.sub] in Nd. cbn [bind]. eapply wp_vget; [exact HD|lia|]. cbn [Nat.eqb]. eapply wp_vget; [exact HD|lia|].
    unfold shift. rewrite bind_assoc. eapply wp_vget; [exact HD|lia|]. rewrite bind_assoc. eapply wp_vget; [exact HD|cbn; lia|]. rewrite bind_assoc. eapply wp_vget; [exact HE|cbn; lia|]. rewrite bind_assoc. eapply wp_vget; [exact HE|lia|]. rewrite bind_assoc.
    eapply wp_div; [apply Rmult_integral_contrapositive_currified; [lra|exact Nd]|]. cbv zeta. cbn [Nat.sub]. rewrite He0.
    remember (((d 0%nat - d 1%nat) * (d 0%nat + d 1%nat) + (0 - e 1%nat) * (0 + e 1%nat)) / (2 * e 1%nat * d 0%nat)) as f eqn:Ef.
    assert (P : 0 <= f * f + 1) by nra. pose proof (sqrt_sqrt _ P) as Sq. pose proof (sqrt_lt_R0 (f * f + 1) ltac:(nra)) as Sp. remember (sqrt (f * f + 1)) as g eqn:Eg.
    remember (if R_ltb f 0 then - g else g) as sg eqn:Esg. assert (Hsg : sg * sg = f * f + 1 /\ f + sg <> 0). { rewrite Esg. destruct (R_ltb f 0) eqn:Q; [apply R_ltb_spec in Q|apply R_ltb_false in Q]; split; nra. } destruct Hsg as [Hsg Nsg].
    rewrite bind_assoc. eapply wp_div; [exact Nsg|]. eapply wp_div; [exact Nd|].
    remember (f + sg) as t eqn:Et. assert (Ht : t * t = 2 * f * t + 1) by (rewrite Et; nra).
    assert (Ev : ((d 0%nat - d 1%nat) * (d 0%nat + d 1%nat) + e 1%nat * (d 0%nat / t - e 1%nat)) / d 0%nat = e 1%nat * t).
    { assert (K : d 0%nat * d 0%nat - d 1%nat * d 1%nat - e 1%nat * e 1%nat = 2 * e 1%nat * d 0%nat * f) by (rewrite Ef; field; split; assumption).
      transitivity ((d 0%nat * d 0%nat - d 1%nat * d 1%nat - e 1%nat * e 1%nat + e 1%nat * d 0%nat / t) / d 0%nat); [field; split; assumption|]. rewrite K.
      transitivity (e 1%nat * (2 * f * t + 1) / t); [field; split; assumption|]. rewrite <- Ht. field. exact Nsg. }
    rewrite Ev. eapply (wp_seq _ (fun w => exists dd ee, vis (wD w) n dd /\ vis (wE w) q ee /\ (wf w = 0 \/ dd 0%nat = 0))).
    + unfold for_. cbn [Nat.sub for_up]. rewrite (bind_ret_r _) || idtac. eapply (wp_seq _ (fun w => exists dd ee, vis (wD w) n dd /\ vis (wE w) q ee /\ (wf w = 0 \/ dd 0%nat = 0))); [|intros w K; exact K].
      unfold sweep_step. cbn [wU wV wD wE wf wx wc ws Nat.add]. eapply wp_vget; [exact HE|lia|]. eapply wp_vget; [exact HD|lia|]. rewrite !Rmult_1_l.
      destruct (hyp_ok (e 1%nat * t) (e 1%nat)) as (Z1 & Z2 & Z3). specialize (Z3 (or_intror Ne)). remember (sqrt (e 1%nat * t * (e 1%nat * t) + e 1%nat * e 1%nat)) as z eqn:Ez. assert (Nz : z <> 0) by lra.
      eapply wp_vset; [exact HE|lia|]. intros E1 HE1. eapply wp_div; [exact Nz|]. eapply wp_div; [exact Nz|]. eapply wp_seq; [apply rotate_if_ok; [exact HV|lia|lia|lia]|]. intros V1 _.
      pose proof (two_algebra (d 0%nat) (d 1%nat) (e 1%nat) f t z (e 1%nat * t / z) (e 1%nat / z) Nd Ne Ef Ht Nz eq_refl eq_refl) as TA.
      remember (e 1%nat * t / z) as c1 eqn:Ec1. remember (e 1%nat / z) as s1 eqn:Es1.
      remember (d 0%nat * c1 + e 1%nat * s1) as f1 eqn:Ef1. remember (- d 0%nat * s1 + e 1%nat * c1) as g1 eqn:Eg1. remember (d 1%nat * s1) as h1 eqn:Eh1. remember (d 1%nat * c1) as y1 eqn:Ey1.
      eapply wp_vset; [exact HD|lia|]. intros D1 HD1. remember (sqrt (f1 * f1 + h1 * h1)) as z2 eqn:Ez2. destruct (R_eqb z2 0) eqn:Zz.
      * cbn [bind]. apply R_eqb_true in Zz. eapply wp_seq; [apply rotate_if_ok; [exact HU|lia|lia|lia]|]. intros U1 _. cbn [wp wD wE wf]. eexists _, _. split; [exact HD1|]. split; [exact HE1|]. right. rewrite upd1_in. exact Zz.
      * apply R_eqb_false in Zz. rewrite bind_assoc. eapply wp_div; [exact Zz|]. rewrite bind_assoc. eapply wp_div; [exact Zz|]. cbn [bind]. eapply wp_seq; [apply rotate_if_ok; [exact HU|lia|lia|lia]|]. intros U1 _. cbn [wp wD wE wf]. eexists _, _. split; [exact HD1|]. split; [exact HE1|]. left.
        transitivity ((f1 * g1 + h1 * y1) / z2); [field; exact Zz|]. rewrite TA. unfold Rdiv. ring.
    + intros w (dd & ee & KD & KE & K). eapply wp_vset; [exact KE|lia|]. intros E2 KE2. eapply wp_vset; [exact KE2|lia|]. intros E3 (_ & KE3). eapply wp_vset; [exact KD|lia|]. intros D2 (_ & KD2). cbn [wp fst snd pE pD]. destruct K as [K|K]; [left; rewrite KE3, upd1_in; exact K|right; rewrite KD2, upd1_out by lia; exact K].
Qed.
Lemma subloop_end iter cnt d0 p Ug Vg d e : (1 < n)%nat -> state 1 cnt d0 p Ug Vg d e -> e 1%nat = 0 \/ d 0%nat = 0 ->
  wp (subloop absorbed wantU wantV anorm 1 iter p) (fun r => match snd r with Converged _ => True | _ => False end).
Proof.
  intros Hn (HU & HV & HD & HE & HF & He0 & Hd0) Hz. unfold subloop.
  assert (Hend : forall X : outcome (mat R * vec R * vec R), wp X (fun r => exists d1, vis (snd (fst r)) n d1) -> wp (bind X (fun r => match r with (U, D, E) => z <- vget D 1 ;; Ok (mkparts U (pV p) D E, Converged z) end)) (fun r => match snd r with Converged _ => True | _ => False end)).
  { intros X HX. eapply wp_seq; [exact HX|]. intros [[U1 D1] E1] (d1 & HD1). cbn [fst snd] in *. eapply wp_vget; [exact HD1|lia|]. exact I. }
  cbn [split]. rewrite bind_assoc. eapply wp_vget; [exact HE|lia|]. destruct (absorbed (e 1%nat) anorm) eqn:E1.
  - cbn [bind]. apply (Hend (Ok (pU p, pD p, pE p))). cbn [wp fst snd]. exists d. exact HD.
  - destruct Hz as [Hz|Hz]; [rewrite Hz in E1; congruence|]. rewrite bind_assoc. eapply wp_vget; [exact HD|lia|]. rewrite Hz, absorbed_0. cbn [bind]. apply Hend.
    eapply wp_mono; [apply (cancelled_ok absorbed wantU m n q A G tol anorm rows_short tol_nonneg absorbed_0 absorbed_small nq 1 1 cnt _ _ _ Ug Vg d e); try assumption; try lia|].
    + cbn [Nat.sub]. rewrite Hz, Rabs_R0. exact tol_nonneg.
    + intros r (U1 & d1 & e1 & _ & K & _). exists d1. exact K.
Qed.
Lemma wp_and {T} (x : outcome T) (P Q : T -> Prop) : wp x P -> wp x Q -> wp x (fun r => P r /\ Q r).
Proof. destruct x; cbn [wp]; auto. Qed.
Lemma iterate_two d0 fuel cnt p Ug Vg d e : (1 < n)%nat -> (31 <= fuel)%nat -> state 1 cnt d0 p Ug Vg d e -> wp (iterate absorbed wantU wantV fuel anorm 1 0 p) (fun r => snd r <> None).
Proof.
  intros Hn Hf HS. destruct fuel as [|[|fuel]]; [lia|lia|]. cbn [iterate].
  eapply wp_seq; [apply wp_and; [apply (subloop_two cnt d0 p Ug Vg d e Hn HS)|apply (subloop_ok absorbed wantU wantV m n q A G tol anorm rows_short tol_nonneg absorbed_0 absorbed_small nq 1 0 cnt d0 p Ug Vg d e Hn HS)]|].
  intros [p1 t1] [HA (U1 & V1 & d1 & e1 & HU & HV & HT)]. cbn [fst snd] in *. destruct t1 as [z| |]; [cbn [wp snd]; discriminate|contradiction|].
  destruct HT as (_ & HS1). eapply wp_seq; [apply (subloop_end _ (3 + cnt) d0 p1 U1 V1 d1 e1 Hn HS1)|].
  - destruct HS1 as (_ & _ & (_ & KD) & (_ & KE) & _). rewrite KD, KE in HA. exact HA.
  - intros [p2 t2] HB. cbn [snd] in HB. destruct t2; [cbn [wp snd]; discriminate|contradiction|contradiction].
Qed.
Lemma make_positive_ok k z p Ug Vg d e cnt : (k < n)%nat -> z = d k -> holds wantU (pU p) m n Ug -> holds wantV (pV p) n n Vg -> vis (pD p) n d -> vis (pE p) q e -> fact cnt Ug Vg (bidi d (trunc (k - 1) e)) ->
  wp (make_positive wantV k z p) (fun p' => exists Vg d', holds wantU (pU p') m n Ug /\ holds wantV (pV p') n n Vg /\ vis (pD p') n d' /\ vis (pE p') q e /\ fact cnt Ug Vg (bidi d' (trunc (k - 1) e)) /\ 0 <= d' k /\ forall j, j <> k -> d' j = d j).
Proof.
  intros Hk Hz HU HV HD HE HF. unfold make_positive. destruct (R_ltb z 0) eqn:Q; [apply R_ltb_spec in Q|apply R_ltb_false in Q].
  - eapply wp_vset; [exact HD|exact Hk|]. intros D1 HD1.
    eapply (wp_seq _ (fun V => holds wantV V n n (colneg Vg k))).
    + destruct HV as (V1 & V2 & V3). destruct wantV; [|cbn [wp]; split; [exact V1|split; [exact V2|discriminate]]]. rewrite V2.
      eapply wp_mono; [apply (for_col (pV p) n n (mel (pV p)) k 0 n (fun r => - mel (pV p) r k))|]; [split; [exact V1|split; [exact V2|reflexivity]]|lia|exact Hk| |].
      * intros j X Hj HX. eapply wp_mget; [exact HX|lia|exact Hk|]. rewrite colset_out by lia. eapply wp_mset_end; [exact HX|lia|exact Hk|]. intros X' HX'. exact HX'.
      * intros X (X1 & X2 & X3). split; [exact X1|split; [exact X2|]]. intros _ r c Hr Hc. rewrite X3. unfold colneg. destruct (Nat.eqb_spec c k) as [->|N]; [rewrite colset_in by lia; rewrite V3 by (first [reflexivity|assumption]); reflexivity|rewrite colset_out by lia; apply V3; first [reflexivity|assumption]].
    + intros V1 HV1. cbn [wp]. exists (colneg Vg k), (upd1 d k (- z)). cbn [pU pV pD pE]. split; [exact HU|]. split; [exact HV1|]. split; [exact HD1|]. split; [exact HE|]. split; [|split; [rewrite upd1_in; lra|intros j Hj; apply upd1_out; exact Hj]].
      pose proof (fact_neg m n A G tol cnt Ug Vg _ k HF) as HF2. eapply fact_B; [|exact HF2]. intros p0 q0 _ _. unfold colneg, bidi, upd1, trunc. rewrite Hz. split_eq; subst; try reflexivity; try ring; exfalso; lia.
  - cbn [wp]. exists Vg, d. repeat (split; [assumption|]). split; [lra|]. reflexivity.
Qed.
Definition good (cnt : nat) (r : parts * nat) : Prop := exists Ug Vg d e, holds wantU (pU (fst r)) m n Ug /\ holds wantV (pV (fst r)) n n Vg /\ vis (pD (fst r)) n d /\ (snd r < n)%nat /\ fact cnt Ug Vg (bidi d (trunc (snd r) e)) /\ ((n <= 2)%nat -> snd r = 0%nat) /\ (snd r <> 0%nat -> e (snd r) <> 0) /\ forall j, (j < n)%nat -> snd r = 0%nat \/ (snd r < j)%nat -> 0 <= d j.
Lemma diagonalize_ok fuel : (31 <= fuel)%nat -> (0 < n)%nat -> forall k cnt cnt' p Ug Vg d e, (k <= n)%nat -> (93 * k + cnt <= cnt')%nat ->
  holds wantU (pU p) m n Ug -> holds wantV (pV p) n n Vg -> vis (pD p) n d -> vis (pE p) q e -> fact cnt Ug Vg (bidi d (trunc (k - 1) e)) -> e 0%nat = 0 -> (forall j, (k <= j < n)%nat -> 0 <= d j) ->
  wp (diagonalize absorbed wantU wantV fuel anorm k p) (good cnt').
Proof.
  intros Hf Hn. induction k as [|k IH]; intros cnt cnt' p Ug Vg d e Hk Hc HU HV HD HE HF He0 Hpos; cbn [diagonalize].
  - cbn [wp]. exists Ug, Vg, d, e. cbn [fst snd]. split; [exact HU|]. split; [exact HV|]. split; [exact HD|]. split; [exact Hn|]. split; [apply (fact_more m n A G tol tol_nonneg cnt); [lia|exact HF]|]. split; [reflexivity|]. split; [intros C; contradiction|]. intros j Hj _. apply Hpos. lia.
  - cbn [Nat.sub] in HF. rewrite Nat.sub_0_r in HF.
    assert (HS : state k cnt d p Ug Vg d e) by (unfold LemGR7.state; repeat (split; [assumption|]); reflexivity).
    assert (W2 : wp (iterate absorbed wantU wantV fuel anorm k 0 p) (fun r => k = 1%nat -> snd r <> None)).
    { destruct (Nat.eq_dec k 1) as [->|N]; [eapply wp_mono; [apply (iterate_two d fuel cnt p Ug Vg d e ltac:(lia) Hf HS)|auto]|]. eapply wp_mono; [apply (iterate_ok k d ltac:(lia) fuel 0 cnt (93 + cnt) p Ug Vg d e); [lia|lia|lia|exact HS]|]. intros r _ C. contradiction. }
    eapply wp_seq; [apply wp_and; [exact W2|apply (iterate_ok k d ltac:(lia) fuel 0 cnt (93 + cnt) p Ug Vg d e); [lia|lia|lia|exact HS]]|]. clear W2.
    intros [p1 z] [Two (U1 & V1 & d1 & e1 & GU & GV & GD & GE & Ge0 & Gd0 & Gz)]. cbn [fst snd] in *. destruct z as [z|].
    + destruct Gz as (Ez & GF). eapply wp_seq; [apply (make_positive_ok k z p1 U1 V1 d1 e1 (93 + cnt)); [lia|exact Ez|exact GU|exact GV|exact GD|exact GE|exact GF]|].
      intros p2 (V2 & d2 & KU & KV & KD & KE & KF & Kp & Ko). apply (IH (93 + cnt)%nat cnt' p2 U1 V2 d2 e1); try assumption; try lia.
      intros j Hj. destruct (Nat.eq_dec j k) as [->|N]; [exact Kp|]. rewrite Ko by exact N. rewrite Gd0 by lia. apply Hpos. lia.
    + destruct Gz as (Hk0 & Nk & GF). cbn [wp]. exists U1, V1, d1, e1. cbn [fst snd]. split; [exact GU|]. split; [exact GV|]. split; [exact GD|]. split; [lia|]. split; [apply (fact_more m n A G tol tol_nonneg (93 + cnt)); [lia|exact GF]|]. split; [intros L; exfalso; apply Two; [lia|reflexivity]|]. split; [intros _; exact Nk|].
      intros j Hj [C|C]; [lia|]. rewrite Gd0 by exact C. apply Hpos. lia.
Qed.
End I.
(** ** the start *)
Definition Umat (m n : nat) (u : rmat) (d : nat -> R) : rmat := mm m (chain m (HL u d) 0 (Nat.min m n)) (Jmat (Nat.min m n)).
Lemma chain_split_id m H : forall j k lo, (forall i, (lo + k <= i < lo + k + j)%nat -> req m m (H i) delta) -> req m m (chain m H lo (k + j)) (chain m H lo k).
Proof.
  induction j as [|j I]; intros k lo E; [rewrite Nat.add_0_r; reflexivity|]. replace (k + S j)%nat with (S (k + j)) by lia. rewrite chain_snoc, (E (lo + (k + j))%nat) by lia. rewrite r_1r. apply I. intros i Hi. apply E. lia.
Qed.
Lemma Jmat_mm m w n s B : (s <= n)%nat -> req m w (mm n (Jmat s) B) (fun r c => if (r <? s)%nat then B r c else 0).
Proof.
  intros Hs r c Hr Hc. unfold mm, Jmat. destruct (Nat.ltb_spec r s) as [L|L].
  - rewrite <- (delta_l n r (fun k => B k c)) by lia. apply S_ext. intros k Hk. destruct (Nat.ltb_spec k s); [reflexivity|]. rewrite delta_neq by lia. cbn [fmul ROps]. ring.
  - apply S_zero. intros k Hk. destruct (Nat.ltb_spec k s); [rewrite delta_neq by lia|]; ring.
Qed.
Lemma tpJ_J m n s : (s <= m)%nat -> req n n (mm m (tp (Jmat s)) (Jmat s)) (fun r c => if (r <? s)%nat then delta r c else 0).
Proof.
  intros Hs r c Hr Hc. unfold mm, tp. destruct (Nat.ltb_spec r s) as [L|L].
  - transitivity (Sum m (fun k => delta r k * Jmat s k c)); [apply S_ext; intros; unfold Jmat at 1; destruct (Nat.ltb_spec r s); [rewrite delta_sym; reflexivity|lia]|]. pose proof (delta_l m r (fun k => Jmat s k c) ltac:(lia)) as K. cbn [fmul ROps] in K. rewrite K. unfold Jmat. destruct (Nat.ltb_spec c s); [reflexivity|]. rewrite delta_neq by lia. reflexivity.
  - apply S_zero. intros k Hk. unfold Jmat. destruct (Nat.ltb_spec r s); [lia|]. ring.
Qed.
Lemma J_tpJ m n s : (m <= s)%nat -> (s <= n)%nat -> req m m (mm n (Jmat s) (tp (Jmat s))) delta.
Proof.
  intros H1 H2. rewrite (Jmat_mm m m n s) by exact H2. intros r c Hr Hc. destruct (Nat.ltb_spec r s); [|lia]. unfold tp, Jmat. destruct (Nat.ltb_spec r s); [|lia]. apply delta_sym.
Qed.
Definition gram0 (m n : nat) (u : rmat) (d : nat -> R) : rmat := mm n (Umat m n u d) (tp (Umat m n u d)).
Section B.
Variables (m n : nat) (A u : rmat) (d e : nat -> R) (anorm en : R).
Hypothesis Hn : (0 < n)%nat.
Hypothesis HB : binv m n n A u d (upd1 e n en) anorm.
Local Notation s := (Nat.min m n).
Local Notation P := (chain m (HL u d) 0 s).
Local Notation Q := (chain n (HR u e) 0 (n - 1)).
Lemma HR_ext r : (r < n - 1)%nat -> req n n (HR u (upd1 e n en) r) (HR u e r).
Proof. intros Hr. unfold HR. rewrite upd1_out by lia. reflexivity. Qed.
Lemma P_orth : req m m (mm m P (tp P)) delta /\ req m m (mm m (tp P) P) delta.
Proof. apply chain_orth. intros i Hi. apply (b_left _ _ _ _ _ _ _ _ HB). lia. Qed.
Lemma Q_orth : req n n (mm n Q (tp Q)) delta /\ req n n (mm n (tp Q) Q) delta.
Proof.
  pose proof (chain_orth n (HR u (upd1 e n en)) (n - 1) 0) as [K1 K2]; [intros i Hi; apply (b_right _ _ _ _ _ _ _ _ HB); lia|].
  assert (E : req n n (chain n (HR u (upd1 e n en)) 0 (n - 1)) Q) by (apply chain_ext; intros; apply HR_ext; lia). rewrite E in K1, K2. split; assumption.
Qed.
Lemma UtU : req n n (mm m (tp (Umat m n u d)) (Umat m n u d)) (fun r c => if (r <? s)%nat then delta r c else 0).
Proof.
  unfold Umat. destruct P_orth as [_ P2]. rewrite (r_tp n m m). rewrite r_assoc, <- (r_assoc m n m m (tp P)), P2, r_1l. apply tpJ_J. lia.
Qed.
Lemma UUt : (m <= n)%nat -> req m m (gram0 m n u d) delta.
Proof.
  intros L. unfold gram0, Umat. destruct P_orth as [P1 _]. rewrite (r_tp n m m). rewrite r_assoc, <- (r_assoc m m m n (Jmat s)), J_tpJ by lia. rewrite r_1l. exact P1.
Qed.
Lemma start_rows r : (r < m)%nat -> gram0 m n u d r r <= 1.
Proof.
  intros Hr. destruct P_orth as [P1 _]. pose proof (P1 r r Hr Hr) as K. rewrite delta_eq in K. rewrite <- K. unfold gram0.
  assert (EU : forall p, (p < n)%nat -> Umat m n u d r p = if (p <? s)%nat then P r p else 0).
  { intros p Hp. unfold Umat. destruct (Nat.ltb_spec p s) as [L|L].
    - unfold mm at 1. pose proof (delta_r m p (fun k => P r k) ltac:(lia)) as D. cbn [fmul ROps] in D. rewrite <- D. apply S_ext. intros k Hk. unfold Jmat. destruct (Nat.ltb_spec p s); [reflexivity|lia].
    - unfold mm. apply S_zero. intros k Hk. unfold Jmat. destruct (Nat.ltb_spec p s); [lia|]. ring. }
  unfold mm, tp. set (f := fun p => P r p * P r p). apply (Rle_trans _ (Sum s f)).
  - right. rewrite (S_ext n _ (fun p => if (p <? s)%nat then f p else 0)) by (intros p Hp; rewrite EU by exact Hp; destruct (p <? s)%nat; [reflexivity|ring]).
    replace n with (s + (n - s))%nat at 1 by lia. rewrite S_split. rewrite (S_ext s _ f) by (intros p Hp; destruct (Nat.ltb_spec p s); [reflexivity|lia]). rewrite (S_zero (n - s)); [ring|]. intros p Hp. destruct (Nat.ltb_spec (s + p) s); [lia|reflexivity].
  - change (Sum s f <= Sum m f). replace m with (s + (m - s))%nat at 2 by lia. rewrite S_split. assert (0 <= Sum (m - s) (fun i => f (s + i)%nat)) by (apply S_nonneg; intros; unfold f; nra). lra.
Qed.
Lemma start_proj : req n n (mm n (mm m (tp (Umat m n u d)) (Umat m n u d)) (bidi d (trunc (n - 1) e))) (bidi d (trunc (n - 1) e)).
Proof.
  rewrite UtU. intros r c Hr Hc. unfold mm. destruct (Nat.ltb_spec r s) as [L|L].
  - pose proof (delta_l n r (fun k => bidi d (trunc (n - 1) e) k c) Hr) as D. exact D.
  - rewrite S_zero by (intros; ring). unfold bidi, trunc. split_eq; try reflexivity.
    + symmetry. apply (b_d0 _ _ _ _ _ _ _ _ HB). lia.
    + symmetry. pose proof (b_e0 _ _ _ _ _ _ _ _ HB c ltac:(lia)) as K. rewrite upd1_out in K by lia. exact K.
Qed.
Lemma usv_mm U B V : forall r c, usv n U B V r c = mm n U (mm n B (tp V)) r c.
Proof. intros r c. rewrite usv_left. reflexivity. Qed.
Lemma start_prod : forall r c, (r < m)%nat -> (c < n)%nat -> A r c = usv n (Umat m n u d) (bidi d (trunc (n - 1) e)) Q r c.
Proof.
  intros r c Hr Hc. rewrite usv_mm. revert r c Hr Hc. change (req m n A (mm n (Umat m n u d) (mm n (bidi d (trunc (n - 1) e)) (tp Q)))).
  rewrite (b_prod _ _ _ _ _ _ _ _ HB). replace (Nat.min n (n - 1)) with (n - 1)%nat by lia.
  assert (E : req n n (chain n (HR u (upd1 e n en)) 0 (n - 1)) Q) by (apply chain_ext; intros; apply HR_ext; lia). rewrite E.
  assert (EP : req m m (chain m (HL u d) 0 n) P).
  { replace n with (s + (n - s))%nat at 1 by lia. apply chain_split_id. intros i Hi. unfold HL. rewrite (b_d0 _ _ _ _ _ _ _ _ HB i) by lia. rewrite coef_0. apply hous_0. }
  rewrite EP. unfold Umat. rewrite r_assoc, <- (r_assoc m n n n (Jmat s)). rewrite (Jmat_mm m n n s) by lia.
  apply mm_req; [reflexivity|]. apply mm_req; [|reflexivity]. intros r c Hr Hc. unfold lmat, bidi, trunc, upd1. replace (r + 1)%nat with (S r) by lia. split_eq; try reflexivity.
Qed.
Lemma start_fact tol : 0 <= tol -> fact m n A (gram0 m n u d) tol 0 (Umat m n u d) Q (bidi d (trunc (n - 1) e)).
Proof.
  intros Ht. split.
  - intros r c Hr Hc. rewrite <- start_prod by assumption. rewrite Rminus_diag_eq by reflexivity. rewrite Rabs_R0. cbn [INR]. lra.
  - apply Q_orth.
  - reflexivity.
  - intros L. rewrite UtU. intros r c Hr Hc. destruct (Nat.ltb_spec r s); [reflexivity|lia].
  - intros _. apply start_proj.
Qed.
Lemma cs N (x y : nat -> R) : Sum N (fun k => x k * y k) * Sum N (fun k => x k * y k) <= Sum N (fun k => x k * x k) * Sum N (fun k => y k * y k).
Proof. pose proof (cauchy_schwarz N x y) as CS. apply R_le in CS. exact CS. Qed.
(** the largest |d| + |e| is at most twice the Frobenius norm *)
Lemma anorm_bound : 0 <= anorm <= 2 * sqrt (Sum m (fun r => Sum n (fun c => A r c * A r c))).
Proof.
  set (F := Sum m (fun r => Sum n (fun c => A r c * A r c))). assert (PF : 0 <= F) by (apply S_nonneg; intros; apply S_nonneg; intros; nra).
  assert (Ent : forall p q0, (p < n)%nat -> (q0 < n)%nat -> Rabs (bidi d (trunc (n - 1) e) p q0) <= sqrt F).
  { intros p q0 Hp Hq. set (B := bidi d (trunc (n - 1) e)) in *. set (U := Umat m n u d).
    assert (EB : B p q0 = Sum m (fun r => U r p * Sum n (fun c => A r c * Q c q0))).
    { destruct Q_orth as [_ Q2]. transitivity (mm m (tp U) (mm n A Q) p q0); [|reflexivity]. assert (EA : req m n A (mm n U (mm n B (tp Q)))) by (intros r c Hr Hc; rewrite (start_prod r c Hr Hc), usv_mm; reflexivity).
      assert (K : req n n (mm m (tp U) (mm n A Q)) B); [|symmetry; apply K; assumption]. rewrite EA. rewrite (r_assoc m n n n U), (r_assoc n n n n B), Q2, r_1r. rewrite <- (r_assoc n n n m). exact start_proj. }
    assert (SU : Sum m (fun r => U r p * U r p) <= 1). { pose proof (UtU p p Hp Hp) as K. unfold mm, tp in K. fold U in K. rewrite K. destruct (Nat.ltb_spec p s); [rewrite delta_eq|]; lra. }
    assert (SV : Sum n (fun c => Q c q0 * Q c q0) = 1). { destruct Q_orth as [_ Q2]. pose proof (Q2 q0 q0 Hq Hq) as K. rewrite delta_eq in K. exact K. }
    assert (SQ : B p q0 * B p q0 <= F).
    { rewrite EB. eapply Rle_trans; [apply cs|]. set (w := Sum m (fun r => U r p * U r p)) in *. assert (0 <= w) by (apply S_nonneg; intros; nra).
      assert (S2 : Sum m (fun k => Sum n (fun c => A k c * Q c q0) * Sum n (fun c => A k c * Q c q0)) <= F). { apply S_le. intros r Hr. eapply Rle_trans; [apply (cs n (fun c => A r c) (fun c => Q c q0))|]. cbn beta. rewrite SV. lra. }
      assert (0 <= Sum m (fun k => Sum n (fun c => A k c * Q c q0) * Sum n (fun c => A k c * Q c q0))) by (apply S_nonneg; intros; nra). nra. }
    rewrite <- sqrt_Rsqr_abs. apply sqrt_le_1_alt. exact SQ. }
  pose proof (sqrt_pos F) as P0. destruct (b_anorm _ _ _ _ _ _ _ _ HB) as [->|(r & Hr & ->)]; [lra|].
  assert (D1 : Rabs (d r) <= sqrt F) by (pose proof (Ent r r Hr Hr) as K; unfold bidi in K; rewrite Nat.eqb_refl in K; exact K).
  assert (E1 : Rabs (upd1 e n en r) <= sqrt F).
  { rewrite upd1_out by lia. destruct r as [|r]; [pose proof (b_first _ _ _ _ _ _ _ _ HB) as K; rewrite upd1_out in K by lia; rewrite K, Rabs_R0; exact P0|]. pose proof (Ent r (S r) ltac:(lia) Hr) as K. revert K. unfold bidi, trunc. split_eq. intros K; exact K. }
  pose proof (Rabs_pos (d r)). pose proof (Rabs_pos (upd1 e n en r)). lra.
Qed.
End B.
