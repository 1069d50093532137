(** * The bracketing of conjugate_gradient.h in floating point. *)
From Coq Require Import Reals ZArith Bool List Lra Lia.
From Verif Require Import Base Alg Inst RSum ModelLie ModelOpt ModelCG LemCG SpecFl LemFl ModelFl LemFlGolden ModelFlCG.
Open Scope outcome_scope.
Local Open Scope R_scope.

Section L.
Variables (u : R) (rnd : R -> R).
Hypothesis RN : rounding u rnd.
Hypothesis U : u <= 1 / 1000.
Let RR x : rnd (rnd x) = rnd x. Proof. destruct RN as (_ & _ & E). apply E. Qed.
Let up t : 0 <= t -> 999 / 1000 * t <= rnd t <= 1001 / 1000 * t. Proof. apply (rnd_up u rnd RN U). Qed.

Lemma fl_start_ok f fuel : forall lambda r bv, 0 < lambda -> rnd lambda = lambda -> fl_bk_start rnd fuel f lambda = Ok (r, bv) -> 0 < r /\ rnd r = r /\ bv = f r /\ bv <> None.
Proof.
  induction fuel as [|k IH]; intros lambda r bv Hl F E; cbn [fl_bk_start] in E; [discriminate|]. destruct (f lambda) as [v|] eqn:T; cbn [isnan] in E.
  - injection E as <- <-. split; [exact Hl|]. split; [exact F|]. split; [auto|discriminate].
  - pose proof (up (lambda * / 2) ltac:(lra)). apply (IH (rnd (lambda * / 2))); [lra|apply RR|exact E].
Qed.
(** the forward search: a < b < c = 2b rounded, values right, f b <= f a; it ends because f c is NaN or above f b *)
Lemma fl_forward_ok f fuel : forall lambda a av bv r last, 0 <= a < lambda -> rnd a = a -> rnd lambda = lambda -> av = f a \/ a = 0 -> bv = f lambda -> nge av bv ->
  fl_bk_forward rnd fuel f lambda lambda a av lambda bv = Ok (r, last) ->
  (0 <= bk_a r < bk_b r /\ rnd (bk_a r) = bk_a r /\ rnd (bk_b r) = bk_b r) /\ lambda <= bk_b r /\ bk_c r = rnd (bk_b r * 2) /\ (isnan (bk_cv r) = true -> last = bk_b r) /\
  (bk_av r = f (bk_a r) \/ (bk_a r = 0 /\ bk_av r = av)) /\ bk_bv r = f (bk_b r) /\ bk_cv r = f (bk_c r) /\ nge (bk_av r) (bk_bv r) /\ nge bv (bk_bv r) /\
  (bk_cv r = None \/ olt (bk_bv r) (bk_cv r) = true) /\ ((bk_a r = a /\ bk_b r = lambda /\ bk_av r = av) \/ bk_b r = rnd (bk_a r * 2)).
Proof.
  induction fuel as [|k IH]; intros lambda a av bv r last Ha Fa Fl Av Bv N E; cbn [fl_bk_forward] in E; [discriminate|].
  assert (Nb : nge bv bv) by (destruct av, bv; cbn [nge] in *; try contradiction; lra).
  destruct (f (rnd (lambda * 2))) as [v|] eqn:T; cbn [isnan] in E.
  - destruct (olt bv (Some v)) eqn:O.
    + injection E as <- <-. cbn [bk_a bk_b bk_c bk_av bk_bv bk_cv isnan]. repeat (split; [first [lra|auto; tauto|tauto|reflexivity|congruence|discriminate]|]); intuition.
    + assert (N' : nge bv (Some v)). { destruct av as [x|]; destruct bv as [y|]; cbn [nge olt] in *; try contradiction. apply R_ltb_false in O. exact O. }
      pose proof (up (lambda * 2) ltac:(lra)) as D.
      destruct (IH (rnd (lambda * 2)) lambda bv (Some v) r last ltac:(lra) Fl (RR _) ltac:(left; exact Bv) ltac:(symmetry; exact T) N' E) as (A & B & C & L & V1 & V2 & V3 & M1 & M2 & S & P).
      split; [exact A|]. split; [lra|]. split; [exact C|]. split; [exact L|]. split; [left; destruct V1 as [V1|[V1 V1']]; [exact V1|rewrite V1, V1'; destruct P as [(P & _)|P]; [rewrite V1 in P; lra|]]|].
      { rewrite V1, Rmult_0_l, (rnd_0 u rnd RN) in P. lra. }
      split; [exact V2|]. split; [exact V3|]. split; [exact M1|]. split; [|split; [exact S|]].
      * destruct bv, (bk_bv r); cbn [nge] in *; try contradiction; lra.
      * right. destruct P as [(-> & -> & _)|P]; [reflexivity|exact P].
  - injection E as <- <-. cbn [bk_a bk_b bk_c bk_av bk_bv bk_cv isnan]. repeat (split; [first [lra|auto; tauto|tauto|reflexivity|congruence]|]); intuition.
Qed.
Lemma fl_backoff_ok (MON : monotone rnd) f fuel : forall last bad l c cv, rnd last = last -> last <= bad -> 0 <= l -> fl_bk_backoff rnd fuel f last bad l = Ok (c, cv) -> last <= c /\ rnd c = c /\ cv = f c /\ cv <> None.
Proof.
  induction fuel as [|k IH]; intros last bad l c cv Fl Hb Hl E; cbn [fl_bk_backoff] in E; [discriminate|].
  pose proof (up (l * / 2) ltac:(lra)) as L2. pose proof (up (bad - last) ltac:(lra)) as D2. set (l' := rnd (l * / 2)) in *.
  assert (P : 0 <= rnd (bad - last) * l') by (apply Rmult_le_pos; lra). pose proof (up _ P) as P2.
  assert (Q : last <= rnd (last + rnd (rnd (bad - last) * l'))) by (rewrite <- Fl at 1; apply MON; lra).
  set (c' := rnd (last + rnd (rnd (bad - last) * l'))) in *. destruct (f c') as [v|] eqn:T; cbn [isnan negb] in E.
  - injection E as <- <-. split; [exact Q|]. split; [apply RR|]. split; [auto|discriminate].
  - apply (IH last bad l'); [exact Fl|exact Hb|lra|exact E].
Qed.
Lemma fl_backward_ok f fuel zeps : forall lambda av cv r, 0 < lambda -> rnd lambda = lambda -> cv = f lambda -> olt cv av = false -> fl_bk_backward rnd fuel f zeps lambda av lambda cv = Ok r ->
  r = bk_zeros \/
  (bk_a r = 0 /\ 0 < bk_b r /\ bk_b r < bk_c r /\ rnd (bk_b r) = bk_b r /\ rnd (bk_c r) = bk_c r /\ bk_av r = av /\ bk_bv r = f (bk_b r) /\ bk_cv r = f (bk_c r) /\ olt (bk_bv r) av = true /\ olt (bk_cv r) av = false).
Proof.
  induction fuel as [|k IH]; intros lambda av cv r Hl Fl V O E; cbn [fl_bk_backward] in E; [discriminate|]. pose proof (up (lambda * / 2) ltac:(lra)) as D.
  destruct (olt (f (rnd (lambda * / 2))) av) eqn:T.
  - right. injection E as <-. cbn [bk_a bk_b bk_c bk_av bk_bv bk_cv]. repeat (split; [first [lra|apply RR|exact Fl|reflexivity|assumption]|]). exact O.
  - destruct (R_ltb (rnd (lambda * / 2)) zeps) eqn:Z; [left; injection E as <-; reflexivity|].
    apply (IH (rnd (lambda * / 2)) av (f (rnd (lambda * / 2))) r); [lra|apply RR|reflexivity|exact T|exact E].
Qed.
(** all together *)
Lemma fl_bracket_ok (MON : monotone rnd) fuel y f lambda zeps r : 0 < lambda -> rnd lambda = lambda -> fl_bracket_minimum_forward rnd fuel (Some y) f lambda zeps = Ok r ->
  r = bk_zeros \/
  (0 <= bk_a r < bk_b r /\ bk_b r <= bk_c r /\ (bk_b r < bk_c r \/ (exists t, f t = None)) /\ rnd (bk_a r) = bk_a r /\ rnd (bk_b r) = bk_b r /\ rnd (bk_c r) = bk_c r /\
   ((bk_a r = 0 /\ bk_av r = Some y) \/ bk_av r = f (bk_a r)) /\ bk_bv r = f (bk_b r) /\ bk_cv r = f (bk_c r) /\ nge (bk_av r) (bk_bv r) /\ olt (bk_bv r) (Some y) = true /\
   ((olt (bk_bv r) (bk_cv r) = true /\ bk_b r < bk_c r) \/ exists t, f t = None) /\ (olt (bk_bv r) (bk_av r) = true \/ bk_b r = rnd (bk_a r * 2))).
Proof.
  intros Hl Fl E. unfold fl_bracket_minimum_forward in E. destruct (fl_bk_start rnd fuel f lambda) as [[l bv]| | | | |] eqn:S; try discriminate. cbn [bind] in E.
  destruct (fl_start_ok f fuel lambda l bv Hl Fl S) as (Pl & Rl & V & N).
  destruct (olt bv (Some y)) eqn:O.
  - destruct (fl_bk_forward rnd fuel f l l 0 (Some y) l bv) as [[r' last]| | | | |] eqn:Ef; try discriminate. cbn [bind] in E.
    assert (Ng : nge (Some y) bv) by (destruct bv; cbn [olt nge] in *; try discriminate; apply R_ltb_spec in O; lra).
    destruct (fl_forward_ok f fuel l 0 (Some y) bv r' last ltac:(lra) (rnd_0 u rnd RN) Rl ltac:(auto) V Ng Ef) as ((A & Fa & Fb) & Bl & C & La & V1 & V2 & V3 & M1 & M2 & Sc & P). right.
    pose proof (up (bk_b r' * 2) ltac:(lra)) as D. rewrite <- C in D.
    assert (Oy : olt (bk_bv r') (Some y) = true).
    { destruct bv as [b0|], (bk_bv r') as [b1|]; cbn [nge olt] in *; try contradiction; try discriminate. apply R_ltb_spec in O. apply R_ltb_spec. lra. }
    assert (Pl' : olt (bk_bv r') (bk_av r') = true \/ bk_b r' = rnd (bk_a r' * 2)) by (destruct P as [(_ & _ & P)|P]; [left; rewrite P; exact Oy|right; exact P]).
    assert (V1' : (bk_a r' = 0 /\ bk_av r' = Some y) \/ bk_av r' = f (bk_a r')) by tauto.
    destruct (isnan (bk_cv r')) eqn:Cn.
    + destruct (fl_bk_backoff rnd fuel f last (bk_c r') 1) as [[c cv]| | | | |] eqn:Eb; try discriminate. cbn [bind] in E. injection E as <-. rewrite (La eq_refl) in Eb.
      destruct (fl_backoff_ok MON f fuel (bk_b r') (bk_c r') 1 c cv Fb ltac:(lra) ltac:(lra) Eb) as (Q1 & Q2 & Q3 & Q4). cbn [bk_a bk_b bk_c bk_av bk_bv bk_cv].
      assert (NaN : exists t, f t = None) by (exists (bk_c r'); destruct (f (bk_c r')); [rewrite V3 in Cn; discriminate|reflexivity]).
      repeat (split; [first [assumption|lra|right; exact NaN]|]). exact Pl'.
    + injection E as <-. assert (Oc : olt (bk_bv r') (bk_cv r') = true) by (destruct Sc as [Sc|Sc]; [rewrite Sc in Cn; discriminate|exact Sc]).
      repeat (split; [first [assumption|lra|rewrite C; apply RR|left; lra|left; split; [exact Oc|lra]]|]). exact Pl'.
  - destruct (fl_backward_ok f fuel zeps l (Some y) bv r Pl Rl V O E) as [->|(A & B & B' & F1 & F2 & V1 & V2 & V3 & S1 & S2)]; [left; reflexivity|].
    assert (K : olt (bk_bv r) (bk_cv r) = true \/ bk_cv r = None).
    { destruct (bk_bv r), (bk_cv r); cbn [olt] in *; try discriminate; [|right; reflexivity]. left. apply R_ltb_spec in S1. apply R_ltb_false in S2. apply R_ltb_spec. lra. }
    right. rewrite A. split; [lra|]. split; [lra|]. split; [left; exact B'|]. split; [apply (rnd_0 u rnd RN)|]. split; [exact F1|]. split; [exact F2|]. split; [left; split; [reflexivity|exact V1]|].
    split; [exact V2|]. split; [exact V3|]. split; [rewrite V1; destruct (bk_bv r); cbn [nge olt] in *; [apply R_ltb_spec in S1; lra|discriminate]|]. split; [exact S1|].
    split; [destruct K as [K|K]; [left; split; [exact K|exact B']|right; exists (bk_c r); congruence]|]. left. rewrite V1. exact S1.
Qed.
End L.
