From Coq Require Import Reals ZArith Bool List Lra Lia Psatz FunctionalExtensionality.
From Verif Require Import Base Alg Inst RSum LemEig SpecOpt ModelLie ModelOpt LemOpt ModelCG.
Open Scope outcome_scope.
Local Open Scope R_scope.

(** ** the bracketing search, for a function that may be NaN *)
Lemma start_ok f fuel : forall lambda r bv, 0 < lambda -> bk_start fuel f lambda = Ok (r, bv) -> 0 < r /\ bv = f r /\ bv <> None.
Proof.
  induction fuel as [|k IH]; intros lambda r bv Hl E; cbn [bk_start] in E; [discriminate|]. destruct (f lambda) as [v|] eqn:T; cbn [isnan] in E.
  - injection E as <- <-. split; [exact Hl|]. split; [auto|discriminate].
  - apply (IH (lambda * / 2)); [lra|exact E].
Qed.
(** the forward search: a < b < c = 2b, values right, f b <= f a; ends because f c is NaN or above f b *)
Definition nge (x y : option R) : Prop := match x, y with Some a, Some b => b <= a | _, _ => False end.
Lemma forward_ok f fuel : forall lambda a av bv r last, 0 <= a < lambda -> av = f a \/ a = 0 -> bv = f lambda -> nge av bv ->
  bk_forward fuel f lambda lambda a av lambda bv = Ok (r, last) ->
  0 <= bk_a r < bk_b r /\ (bk_a r = a \/ lambda <= bk_a r) /\ lambda <= bk_b r /\ bk_c r = bk_b r * 2 /\ last = (if isnan (bk_cv r) then bk_b r else bk_c r) /\ (bk_av r = f (bk_a r) \/ (bk_a r = 0 /\ bk_av r = av)) /\ bk_bv r = f (bk_b r) /\ bk_cv r = f (bk_c r) /\ nge (bk_av r) (bk_bv r) /\ nge bv (bk_bv r) /\
  (bk_cv r = None \/ olt (bk_bv r) (bk_cv r) = true) /\ ((bk_a r = a /\ bk_b r = lambda) \/ bk_b r = bk_a r * 2).
Proof.
  induction fuel as [|k IH]; intros lambda a av bv r last Ha Av Bv N E; cbn [bk_forward] in E; [discriminate|].
  assert (Nb : nge bv bv) by (destruct av, bv; cbn [nge] in *; try contradiction; lra).
  destruct (f (lambda * 2)) as [v|] eqn:T; cbn [isnan] in E.
  - destruct (olt bv (Some v)) eqn:O.
    + injection E as <- <-. cbn [bk_a bk_b bk_c bk_av bk_bv bk_cv isnan]. repeat (split; [first [lra|auto; tauto|tauto|reflexivity|congruence]|]); intuition.
    + assert (N' : nge bv (Some v)). { destruct av as [x|]; destruct bv as [y|]; cbn [nge olt] in *; try contradiction. apply R_ltb_false in O. exact O. }
      destruct (IH (lambda * 2) lambda bv (Some v) r last ltac:(lra) ltac:(left; exact Bv) ltac:(symmetry; exact T) N' E) as (A & A' & B & C & L & V1 & V2 & V3 & M1 & M2 & S & P).
      split; [exact A|]. split; [right; lra|]. split; [lra|]. split; [exact C|]. split; [exact L|]. split; [left; destruct V1 as [V1|[V1 V1']]; [exact V1|lra]|]. split; [exact V2|]. split; [exact V3|]. split; [exact M1|]. split; [|split; [exact S|]].
      * destruct bv, (bk_bv r); cbn [nge] in *; try contradiction; lra.
      * right. destruct P as [[-> ->]|P]; [reflexivity|exact P].
  - injection E as <- <-. cbn [bk_a bk_b bk_c bk_av bk_bv bk_cv isnan]. repeat (split; [first [lra|auto; tauto|tauto|reflexivity|congruence]|]); intuition.
Qed.
Lemma backoff_ok f fuel : forall last bad l c cv, last < bad -> 0 < l <= 1 -> bk_backoff fuel f last bad l = Ok (c, cv) -> last < c < bad /\ cv = f c /\ cv <> None.
Proof.
  induction fuel as [|k IH]; intros last bad l c cv Hb Hl E; cbn [bk_backoff] in E; [discriminate|]. set (c' := last + (bad - last) * (l * / 2)) in *. destruct (f c') as [v|] eqn:T; cbn [isnan negb] in E.
  - injection E as <- <-. split; [unfold c'; nra|]. split; [auto|discriminate].
  - apply (IH last bad (l * / 2)); [exact Hb|lra|exact E].
Qed.
Lemma backward_ok f fuel zeps : forall lambda av cv r, 0 < lambda -> cv = f lambda -> olt cv av = false -> bk_backward fuel f zeps lambda av lambda cv = Ok r ->
  (r = bk_zeros /\ exists k, lambda / 2 ^ (S k) < zeps /\ forall j, (j <= S k)%nat -> olt (f (lambda / 2 ^ j)) av = false) \/
  (bk_a r = 0 /\ 0 < bk_b r /\ bk_b r <= lambda / 2 /\ bk_c r = 2 * bk_b r /\ bk_av r = av /\ bk_bv r = f (bk_b r) /\ bk_cv r = f (bk_c r) /\ olt (bk_bv r) av = true /\ olt (bk_cv r) av = false).
Proof.
  induction fuel as [|k IH]; intros lambda av cv r Hl V O E; cbn [bk_backward] in E; [discriminate|].
  destruct (olt (f (lambda * / 2)) av) eqn:T.
  - right. injection E as <-. cbn [bk_a bk_b bk_c bk_av bk_bv bk_cv]. replace (2 * (lambda * / 2)) with lambda by field. repeat (split; [first [lra|reflexivity|assumption]|]). exact O.
  - destruct (R_ltb (lambda * / 2) zeps) eqn:Z.
    + left. injection E as <-. split; [reflexivity|]. exists 0%nat. apply R_ltb_spec in Z. split; [cbn [pow]; lra|]. intros [|[|j]] Hj; [cbn [pow]; replace (lambda / 1) with lambda by field; congruence|replace (lambda / 2 ^ 1) with (lambda * / 2) by (cbn [pow]; field); exact T|lia].
    + destruct (IH (lambda * / 2) av _ r ltac:(lra) eq_refl T E) as [(R0 & q & Q1 & Q2)|(A & B & B' & C)].
      * left. split; [exact R0|]. exists (S q). split; [replace (lambda / 2 ^ S (S q)) with (lambda * / 2 / 2 ^ S q) by (cbn [pow]; field; apply pow_nonzero; lra); exact Q1|].
        intros [|j] Hj; [cbn [pow]; replace (lambda / 1) with lambda by field; congruence|]. replace (lambda / 2 ^ S j) with (lambda * / 2 / 2 ^ j) by (cbn [pow]; field; apply pow_nonzero; lra). apply Q2. lia.
      * right. split; [exact A|]. split; [exact B|]. split; [lra|exact C].
Qed.
