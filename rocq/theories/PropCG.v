(** * C68, C69: bracketing a minimum, and the conjugate gradient optimizer. *)
From Coq Require Import Reals ZArith Bool List Lra Lia Psatz FunctionalExtensionality.
From Verif Require Import Base Alg Inst RSum LemEig SpecOpt ModelLie ModelOpt LemOpt PropOpt ModelCG LemCG.
Open Scope outcome_scope.
Local Open Scope R_scope.

(** ** C68 *)
(** a function without NaN *)
Definition total_fun (f : R -> R) : R -> option R := fun t => Some (f t).
Lemma start_total fuel f lambda : bk_start (S fuel) (total_fun f) lambda = Ok (lambda, Some (f lambda)).
Proof. reflexivity. Qed.
(** without NaN the search returns a bracket or runs for ever: nothing else *)
Lemma forward_total f : forall k l a av b bv q, (exists r w, bk_forward k (total_fun f) l q a av b bv = Ok (r, w) /\ isnan (bk_cv r) = false) \/ bk_forward k (total_fun f) l q a av b bv = OutOfFuel.
Proof. induction k as [|k IH]; intros l a av b bv q; cbn [bk_forward]; [right; reflexivity|]. change (isnan (total_fun f (l * 2))) with false. cbn [andb]. destruct (olt bv (total_fun f (l * 2))) eqn:T; [left; do 2 eexists; split; reflexivity|apply IH]. Qed.
Lemma backward_total f zeps : forall k l av c cv, (exists r, bk_backward k (total_fun f) zeps l av c cv = Ok r) \/ bk_backward k (total_fun f) zeps l av c cv = OutOfFuel.
Proof. induction k as [|k IH]; intros l av c cv; cbn [bk_backward]; [right; reflexivity|]. destruct (olt _ av); [left; eauto|]. destruct (R_ltb _ zeps); [left; eauto|apply IH]. Qed.
Lemma bracket_total fuel f av lambda zeps : (exists r, bracket_minimum_forward fuel av (total_fun f) lambda zeps = Ok r) \/ bracket_minimum_forward fuel av (total_fun f) lambda zeps = OutOfFuel.
Proof.
  unfold bracket_minimum_forward. destruct fuel as [|fuel]; [right; reflexivity|]. rewrite start_total. cbn [bind]. destruct (olt _ av).
  - destruct (forward_total f (S fuel) lambda 0 av lambda (Some (f lambda)) lambda) as [(r & w & E & N)|E]; rewrite E; cbn [bind]; [rewrite N; left; eauto|right; reflexivity].
  - apply backward_total.
Qed.
(** when it succeeds it returns a < b < c with f b <= f a and f b < f c and the function's values; "Zeros" means no descent was found down to the minimum size *)
Theorem C68_bracket : forall fuel f lambda zeps r, 0 < lambda -> bracket_minimum_forward fuel (Some (f 0)) (total_fun f) lambda zeps = Ok r ->
  (r = bk_zeros /\ exists k, lambda / 2 ^ S k < zeps /\ forall j, (j <= S k)%nat -> f 0 <= f (lambda / 2 ^ j)) \/
  (0 <= bk_a r < bk_b r /\ bk_b r < bk_c r /\ bk_av r = Some (f (bk_a r)) /\ bk_bv r = Some (f (bk_b r)) /\ bk_cv r = Some (f (bk_c r)) /\
   f (bk_b r) <= f (bk_a r) /\ f (bk_b r) < f (bk_c r) /\ f (bk_b r) < f 0 /\ (f (bk_b r) < f (bk_a r) \/ bk_b r = 2 * bk_a r)).
Proof.
  intros fuel f lambda zeps r Hl E. unfold bracket_minimum_forward in E. destruct fuel as [|fuel]; [discriminate|]. rewrite start_total in E. cbn [bind olt] in E.
  destruct (R_ltb (f lambda) (f 0)) eqn:T; [apply R_ltb_spec in T|apply R_ltb_false in T].
  - destruct (bk_forward (S fuel) (total_fun f) lambda lambda 0 (Some (f 0)) lambda (Some (f lambda))) as [[r' last]| | | | |] eqn:Ef; try discriminate. cbn [bind] in E.
    destruct (forward_ok (total_fun f) (S fuel) lambda 0 (Some (f 0)) (Some (f lambda)) r' last ltac:(lra) ltac:(auto) eq_refl ltac:(cbn [nge]; lra) Ef) as (A & _ & Bl & C & _ & V1 & V2 & V3 & M1 & M2 & S & P). clear Ef.
    rewrite V3 in E. cbn [total_fun isnan] in E. injection E as <-. right.
    assert (V1' : bk_av r' = Some (f (bk_a r'))) by (destruct V1 as [V1|[V1 V1']]; [exact V1|rewrite V1, V1'; reflexivity]). unfold total_fun in V2, V3. rewrite V1', V2 in M1. rewrite V2 in M2. cbn [nge] in M1, M2.
    destruct S as [S|S]; [congruence|]. rewrite V2, V3 in S. cbn [olt] in S. apply R_ltb_spec in S.
    split; [lra|]. split; [lra|]. split; [exact V1'|]. split; [exact V2|]. split; [exact V3|]. split; [lra|]. split; [lra|]. split; [lra|]. destruct P as [[-> ->]|P]; [left; lra|right; lra].
  - destruct (backward_ok (total_fun f) (S fuel) zeps lambda (Some (f 0)) (Some (f lambda)) r Hl eq_refl ltac:(cbn [olt]; apply R_ltb_false; exact T) E) as [(R0 & k & Q1 & Q2)|(A & B & B' & C & V1 & V2 & V3 & S1 & S2)].
    + left. split; [exact R0|]. exists k. split; [exact Q1|]. intros j Hj. specialize (Q2 j Hj). cbn [olt total_fun] in Q2. unfold total_fun in Q2. cbn [olt] in Q2. apply R_ltb_false in Q2. exact Q2.
    + right. unfold total_fun in *. rewrite V2 in S1. rewrite V3 in S2. cbn [olt] in S1, S2. apply R_ltb_spec in S1. apply R_ltb_false in S2. rewrite A. split; [lra|]. split; [lra|]. repeat (split; [first [assumption|lra]|]). left. lra.
Qed.
(** it ends if the function rises from some point on *)
Lemma backward_ends f zeps : forall k lambda av c cv fuel, 0 < lambda -> lambda / 2 ^ S k < zeps -> (S k <= fuel)%nat -> exists r, bk_backward fuel f zeps lambda av c cv = Ok r.
Proof.
  induction k as [|k IH]; intros lambda av c cv fuel Hl Hz Hf; (destruct fuel as [|fuel]; [lia|]); cbn [bk_backward]; (destruct (olt _ _); [eauto|]); (destruct (R_ltb (lambda * / 2) zeps) eqn:T; [eauto|]); apply R_ltb_false in T.
  - cbn [pow] in Hz. lra.
  - apply IH; [lra| |lia]. replace (lambda * / 2 / 2 ^ S k) with (lambda / 2 ^ S (S k)) by (cbn [pow]; field; apply pow_nonzero; lra). exact Hz.
Qed.
Lemma forward_ends f X : (forall x y, X <= x < y -> f x < f y) -> forall k lambda a av fuel, 0 < lambda -> X <= lambda * 2 ^ k -> (S k <= fuel)%nat -> exists r last, bk_forward fuel (total_fun f) lambda lambda a av lambda (Some (f lambda)) = Ok (r, last) /\ bk_cv r <> None.
Proof.
  intros HX. induction k as [|k IH]; intros lambda a av fuel Hl Hk Hf; (destruct fuel as [|fuel]; [lia|]); cbn [bk_forward total_fun isnan olt]; unfold total_fun; cbn [isnan olt]; (destruct (R_ltb (f lambda) (f (lambda * 2))) eqn:T; [do 2 eexists; split; [reflexivity|discriminate]|]); apply R_ltb_false in T.
  - cbn [pow] in Hk. pose proof (HX lambda (lambda * 2) ltac:(lra)). lra.
  - apply (IH (lambda * 2)); [lra| |lia]. cbn [pow] in Hk. lra.
Qed.
Lemma pow2_above x : exists k, x <= 2 ^ k.
Proof. destruct (Pow_x_infinity 2 ltac:(rewrite Rabs_right; lra) x) as [k Hk]. exists k. specialize (Hk k (le_n k)). rewrite Rabs_right in Hk by (left; apply pow_lt; lra). lra. Qed.
Theorem C68_terminates : forall f lambda zeps X, 0 < lambda -> 0 < zeps -> (forall x y, X <= x < y -> f x < f y) -> exists n, forall fuel, (n <= fuel)%nat -> exists r, bracket_minimum_forward fuel (Some (f 0)) (total_fun f) lambda zeps = Ok r.
Proof.
  intros f lambda zeps X Hl Hz HX. destruct (pow2_above (X / lambda)) as [k1 K1]. destruct (pow2_above (lambda / zeps)) as [k2 K2]. exists (S (S (k1 + k2))). intros [|fuel] Hf; [lia|]. unfold bracket_minimum_forward. rewrite start_total. cbn [bind olt]. destruct (R_ltb (f lambda) (f 0)).
  - assert (K1' : X <= lambda * 2 ^ k1). { apply Rmult_le_compat_l with (r := lambda) in K1; [|lra]. replace (lambda * (X / lambda)) with X in K1 by (field; lra). exact K1. }
    destruct (forward_ends f X HX k1 lambda 0 (Some (f 0)) (S fuel) Hl K1' ltac:(lia)) as (r & last & E & N). rewrite E. cbn [bind]. destruct (bk_cv r) eqn:Ec; [|congruence]. cbn [isnan]. eauto.
  - destruct (backward_ends (total_fun f) zeps k2 lambda (Some (f 0)) lambda (Some (f lambda)) (S fuel) Hl) as [r E]; [|lia|eauto].
    assert (P : 0 < 2 ^ k2) by (apply pow_lt; lra). assert (K2' : lambda <= zeps * 2 ^ k2). { apply Rmult_le_compat_l with (r := zeps) in K2; [|lra]. replace (zeps * (lambda / zeps)) with lambda in K2 by (field; lra). exact K2. }
    cbn [pow]. apply Rmult_lt_reg_r with (r := 2 * 2 ^ k2); [lra|]. replace (lambda / (2 * 2 ^ k2) * (2 * 2 ^ k2)) with lambda by (field; lra). nra.
Qed.
(** "a < b < c and f(a) > f(b) < f(c)", what brent_line_search asks for, can fail: the first inequality need not be strict *)
Theorem C68_strict_refuted : forall zeps fuel, (2 < fuel)%nat -> let f := fun t => (t - 3 / 2) * (t - 3 / 2) in
  bracket_minimum_forward fuel (Some (f 0)) (total_fun f) 1 zeps = Ok (mkbk 1 2 4 (Some (/ 4)) (Some (/ 4)) (Some (25 / 4))).
Proof.
  intros zeps fuel Hf f. destruct fuel as [|[|[|fuel]]]; try lia. unfold bracket_minimum_forward. rewrite start_total. cbn [bind olt]. replace (R_ltb (f 1) (f 0)) with true by (symmetry; apply R_ltb_spec; unfold f; lra).
  cbn [bk_forward]. unfold total_fun. cbn [isnan olt]. replace (R_ltb (f 1) (f (1 * 2))) with false by (symmetry; apply R_ltb_false; unfold f; lra). replace (R_ltb (f (1 * 2)) (f (1 * 2 * 2))) with true by (symmetry; apply R_ltb_spec; unfold f; lra).
  cbn [bind isnan bk_cv]. replace (f 1) with (/ 4) by (unfold f; field). replace (f (1 * 2 * 2)) with (25 / 4) by (unfold f; field). replace (f (1 * 2)) with (/ 4) by (unfold f; field). replace (1 * 2 * 2) with 4 by ring. rewrite Rmult_1_l. reflexivity.
Qed.
(** functions that may be NaN: c is never below b, so find_next_point's branch "Failed to bracket due to NaN" (c < b) is never taken *)
Theorem C68_nan_never_below : forall fuel f a_val lambda zeps r, 0 < lambda -> bracket_minimum_forward fuel a_val f lambda zeps = Ok r -> r = bk_zeros \/ (0 <= bk_a r < bk_b r /\ bk_b r < bk_c r /\ bk_bv r = f (bk_b r) /\ bk_cv r = f (bk_c r) /\ bk_bv r <> None).
Proof.
  intros fuel f av lambda zeps r Hl E. unfold bracket_minimum_forward in E. destruct (bk_start fuel f lambda) as [[l bv]| | | | |] eqn:S; try discriminate. cbn [bind] in E. destruct (start_ok f fuel lambda l bv Hl S) as (Pl & V & N).
  destruct (olt bv av) eqn:O.
  - destruct (bk_forward fuel f l l 0 av l bv) as [[r' last]| | | | |] eqn:Ef; try discriminate. cbn [bind] in E.
    assert (Ng : nge av bv) by (destruct bv, av; cbn [olt nge] in *; try discriminate; apply R_ltb_spec in O; lra).
    destruct (forward_ok f fuel l 0 av bv r' last ltac:(lra) ltac:(auto) V Ng Ef) as (A & _ & Bl & C & La & V1 & V2 & V3 & M1 & M2 & _ & _). right.
    assert (Nb : bk_bv r' <> None) by (destruct (bk_av r'), (bk_bv r'); cbn [nge] in M1; try contradiction; discriminate).
    destruct (isnan (bk_cv r')).
    + destruct (bk_backoff fuel f last (bk_c r') 1) as [[c cv]| | | | |] eqn:Eb; try discriminate. cbn [bind] in E. injection E as <-. cbn [bk_a bk_b bk_c bk_bv bk_cv].
      destruct (backoff_ok f fuel last (bk_c r') 1 c cv ltac:(lra) ltac:(lra) Eb) as (Hc & Vc & _). split; [lra|]. split; [lra|]. split; [exact V2|]. split; [exact Vc|exact Nb].
    + injection E as <-. split; [lra|]. split; [lra|]. split; [exact V2|]. split; [exact V3|exact Nb].
  - destruct (backward_ok f fuel zeps l av bv r Pl V O E) as [(R0 & _)|(A & B & _ & C & _ & V2 & V3 & S1 & _)]; [left; exact R0|right]. rewrite A. split; [lra|]. split; [lra|]. split; [exact V2|]. split; [exact V3|]. destruct (bk_bv r); [discriminate|cbn [olt] in S1; discriminate].
Qed.
(** and when NaN ends the search the result need not be a bracket: here c is the lowest of the three *)
Definition clipped (t : R) : option R := if R_ltb (6 / 5) t then None else Some (- t).
Theorem C68_nan_refuted : forall zeps fuel, (3 < fuel)%nat -> bracket_minimum_forward fuel (clipped 0) clipped 1 zeps = Ok (mkbk 0 1 (1 + (2 - 1) * (1 * / 2 * / 2 * / 2)) (Some (- 0)) (Some (- (1))) (Some (- (1 + (2 - 1) * (1 * / 2 * / 2 * / 2))))) /\ - (1 + (2 - 1) * (1 * / 2 * / 2 * / 2)) < - (1).
Proof.
  intros zeps fuel Hf. split; [|lra]. destruct fuel as [|[|[|[|fuel]]]]; try lia.
  assert (C1 : forall t, t <= 6 / 5 -> clipped t = Some (- t)) by (intros t H; unfold clipped; apply R_ltb_false in H; rewrite H; reflexivity).
  assert (C2 : forall t, 6 / 5 < t -> clipped t = None) by (intros t H; unfold clipped; apply R_ltb_spec in H; rewrite H; reflexivity).
  unfold bracket_minimum_forward. cbn [bk_start]. rewrite (C1 1), (C1 0) by lra. cbn [isnan bind olt]. replace (R_ltb (- (1)) (- 0)) with true by (symmetry; apply R_ltb_spec; lra).
  cbn [bk_forward]. rewrite (C2 (1 * 2)) by lra. cbn [isnan bind bk_cv bk_c]. rewrite Rmult_1_l. cbn [bk_backoff].
  rewrite (C2 (1 + (2 - 1) * (1 * / 2))) by lra. cbn [isnan negb]. rewrite (C2 (1 + (2 - 1) * (1 * / 2 * / 2))) by lra. cbn [isnan negb]. rewrite (C1 (1 + (2 - 1) * (1 * / 2 * / 2 * / 2))) by lra. cbn [isnan negb bind bk_a bk_b bk_av bk_bv]. reflexivity.
Qed.

(** ** C69 *)
(** the function only looks at the coordinates of the space *)
Definition depends_on (n : nat) (f : point -> R) : Prop := forall p q : point, (forall i, (i < n)%nat -> p i = q i) -> f p = f q.
Definition cg_good (f : point -> R) (s : cg) : Prop := (forall i, cg_minus_h s i = - cg_h s i) /\ cg_y s = f (cg_x s) /\ 0 < cg_lambda s.
(** the members that find_next_point leaves alone *)
Definition same_search (s s' : cg) : Prop := cg_size s' = cg_size s /\ cg_g s' = cg_g s /\ cg_h s' = cg_h s /\ cg_minus_h s' = cg_minus_h s /\ cg_old_g s' = cg_old_g s /\ cg_old_h s' = cg_old_h s /\ cg_tolerance s' = cg_tolerance s /\ cg_epsilon s' = cg_epsilon s /\ cg_max_iterations s' = cg_max_iterations s /\ cg_lambda s' = cg_lambda s /\ cg_bracket_epsilon s' = cg_bracket_epsilon s.
Lemma line_zero f x d : line f x d 0 = f x.
Proof. unfold line. f_equal. apply functional_extensionality. intros i. ring. Qed.
Lemma line_fold f x d : (fun t => Some (line f x d t)) = total_fun (line f x d).
Proof. reflexivity. Qed.
(** a completed find_next_point, with or without asserts: the new point is on the search line, y is the function there and has not risen, the old ones are remembered *)
Theorem C69_find_next_point : forall debug fuel f s s', cg_good f s -> find_next_point debug fuel f s = Ok s' ->
  (exists t, 0 <= t /\ forall i, cg_x s' i = cg_x s i - t * cg_h s i) /\ cg_y s' = f (cg_x s') /\ cg_y s' <= cg_y s /\ cg_old_y s' = cg_y s /\ cg_old_x s' = cg_x s /\ cg_iterations s' = (cg_iterations s + 1)%Z /\ same_search s s'.
Proof.
  intros debug fuel f s s' (Hm & Hy & Hl) E. unfold find_next_point in E. rewrite line_fold in E. set (ln := line f (cg_x s) (cg_minus_h s)) in *.
  assert (L0 : cg_y s = ln 0) by (unfold ln; rewrite line_zero; exact Hy). rewrite L0 in E at 1. destruct (bracket_minimum_forward _ _ _ _ _) as [bk| | | | |] eqn:B; try discriminate. cbn [bind] in E.
  destruct (C68_bracket fuel ln (cg_lambda s) (cg_bracket_epsilon s) bk Hl B) as [(-> & _)|(A1 & A2 & V1 & V2 & V3 & M1 & M2 & M3 & _)].
  - cbn [bk_zeros bk_a bk_b bk_c] in E. assert (Z : R_eqb 0 0 = true) by (apply R_eqb_spec; reflexivity). rewrite Z in E. cbn [andb] in E. injection E as <-. cbn. split; [exists 0; split; [lra|intros; ring]|]. split; [exact Hy|]. split; [lra|]. repeat split.
  - destruct (R_eqb (bk_b bk) 0) eqn:Z; [apply R_eqb_spec in Z; lra|]. rewrite andb_false_r in E. cbn [andb] in E. destruct (R_ltb (bk_c bk) (bk_b bk)) eqn:T; [apply R_ltb_spec in T; lra|].
    destruct (cg_assert debug (R_ltb (bk_a bk) (bk_b bk) && R_ltb (bk_b bk) (bk_c bk))) as [[]| | | | |]; try discriminate. cbn [bind] in E. destruct (cg_assert debug (olt (bk_bv bk) (bk_av bk) && olt (bk_bv bk) (bk_cv bk))) as [[]| | | | |]; try discriminate. cbn [bind] in E. rewrite V2 in E.
    destruct (brent_line_search ln (bk_a bk) (bk_b bk) (bk_c bk) (ln (bk_b bk)) (cg_ls_max s) (cg_ls_tolerance s) (cg_ls_epsilon s)) as [[m0 m1] calls] eqn:Br.
    destruct (C66_best_probe ln (bk_a bk) (bk_b bk) (bk_c bk) _ _ _ m0 m1 calls ltac:(lra) Br) as ((Q1 & Q2 & Q3 & _) & _).
    destruct (cg_assert debug (negb (R_ltb m0 (bk_a bk)) && _)) as [[]| | | | |]; try discriminate. cbn [bind] in E. destruct (cg_assert debug (negb _)) as [[]| | | | |]; try discriminate. cbn [bind] in E. injection E as <-. cbn.
    split; [exists m0; split; [lra|reflexivity]|]. split; [rewrite Q2; unfold ln, line; f_equal; apply functional_extensionality; intros i; rewrite Hm; ring|]. split; [lra|]. repeat split.
Qed.
(** the asserts of find_next_point fail only on a plateau: two equal values at t and 2t *)
Theorem C69_assert_only_on_plateau : forall fuel f s d, cg_good f s -> find_next_point true fuel f s = Abort d -> exists t, 0 < t /\ line f (cg_x s) (cg_minus_h s) t = line f (cg_x s) (cg_minus_h s) (2 * t).
Proof.
  intros fuel f s d (Hm & Hy & Hl) E. unfold find_next_point in E. rewrite line_fold in E. set (ln := line f (cg_x s) (cg_minus_h s)) in *.
  assert (L0 : cg_y s = ln 0) by (unfold ln; rewrite line_zero; exact Hy). rewrite L0 in E at 1. destruct (bracket_minimum_forward _ _ _ _ _) as [bk|d'| | | |] eqn:B; try discriminate.
  - cbn [bind] in E. destruct (C68_bracket fuel ln (cg_lambda s) (cg_bracket_epsilon s) bk Hl B) as [(-> & _)|(A1 & A2 & V1 & V2 & V3 & M1 & M2 & M3 & P)].
    + cbn [bk_zeros bk_a bk_b bk_c] in E. assert (Z : R_eqb 0 0 = true) by (apply R_eqb_spec; reflexivity). rewrite Z in E. cbn [andb] in E. discriminate.
    + destruct (R_eqb (bk_b bk) 0) eqn:Z; [apply R_eqb_spec in Z; lra|]. rewrite andb_false_r in E. cbn [andb] in E. destruct (R_ltb (bk_c bk) (bk_b bk)) eqn:T; [apply R_ltb_spec in T; lra|].
      unfold cg_assert, assert_ in E. replace (R_ltb (bk_a bk) (bk_b bk)) with true in E by (symmetry; apply R_ltb_spec; lra). replace (R_ltb (bk_b bk) (bk_c bk)) with true in E by (symmetry; apply R_ltb_spec; lra). cbn [andb bind] in E. rewrite V1, V2, V3 in E. cbn [olt] in E.
      replace (R_ltb (ln (bk_b bk)) (ln (bk_c bk))) with true in E by (symmetry; apply R_ltb_spec; lra). rewrite andb_true_r in E.
      destruct (R_ltb (ln (bk_b bk)) (ln (bk_a bk))) eqn:C; [apply R_ltb_spec in C|apply R_ltb_false in C].
      * cbn [bind] in E. destruct (brent_line_search ln (bk_a bk) (bk_b bk) (bk_c bk) (ln (bk_b bk)) (cg_ls_max s) (cg_ls_tolerance s) (cg_ls_epsilon s)) as [[m0 m1] calls] eqn:Br.
        destruct (C66_best_probe ln (bk_a bk) (bk_b bk) (bk_c bk) _ _ _ m0 m1 calls ltac:(lra) Br) as ((Q1 & Q2 & Q3 & _) & _).
        replace (R_ltb m0 (bk_a bk)) with false in E by (symmetry; apply R_ltb_false; lra). replace (R_ltb (bk_c bk) m0) with false in E by (symmetry; apply R_ltb_false; lra). cbn [negb andb bind] in E. replace (R_ltb (ln (bk_b bk)) m1) with false in E by (symmetry; apply R_ltb_false; lra). cbn [negb bind] in E. discriminate.
      * destruct P as [P|P]; [lra|]. exists (bk_a bk). split; [lra|]. rewrite <- P. lra.
  - destruct (bracket_total fuel ln (Some (ln 0)) (cg_lambda s) (cg_bracket_epsilon s)) as [(r & Er)|Er]; congruence.
Qed.
(** and a plateau is met by the simplest objective: x*x/3 from 3, with its exact gradient, stops on a failed assert *)
Definition third (p : point) : R := p 0%nat * p 0%nat / 3.
Definition third_grad (p : point) : point := fun _ => 2 * p 0%nat / 3.
Theorem C69_assert_refuted : forall me j1 j2 j3 fuel, (2 < fuel)%nat -> let start := fun _ : nat => 3 in let s := cg_init me 1 start (third start) (third_grad start) j1 j2 j3 in cg_good third s /\ cg_iterate true fuel third third_grad s = Abort DAssert.
Proof.
  intros me j1 j2 j3 fuel Hf start s. assert (G : cg_good third s) by (unfold s, cg_init; split; [reflexivity|split; [reflexivity|cbn; lra]]). split; [exact G|]. unfold cg_iterate, find_next_point. rewrite line_fold. set (ln := line third (cg_x s) (cg_minus_h s)).
  assert (L : forall t, ln t = (3 - 2 * t) * (3 - 2 * t) / 3) by (intros t; unfold ln, line, third, s, cg_init, start; cbn [cg_x cg_minus_h]; unfold third_grad; field).
  assert (L0 : cg_y s = ln 0) by (unfold ln; rewrite line_zero; apply G). rewrite L0.
  assert (B : bracket_minimum_forward fuel (Some (ln 0)) (total_fun ln) (cg_lambda s) (cg_bracket_epsilon s) = Ok (mkbk 1 2 4 (Some (ln 1)) (Some (ln 2)) (Some (ln 4)))).
  { unfold s, cg_init. cbn [cg_lambda cg_bracket_epsilon]. destruct fuel as [|[|[|fuel]]]; try lia. unfold bracket_minimum_forward. rewrite start_total. cbn [bind olt]. replace (R_ltb (ln 1) (ln 0)) with true by (symmetry; apply R_ltb_spec; rewrite !L; lra).
    cbn [bk_forward]. unfold total_fun. cbn [isnan olt]. replace (R_ltb (ln 1) (ln (1 * 2))) with false by (symmetry; apply R_ltb_false; rewrite !L; lra). replace (R_ltb (ln (1 * 2)) (ln (1 * 2 * 2))) with true by (symmetry; apply R_ltb_spec; rewrite !L; lra).
    cbn [bind isnan bk_cv]. replace (1 * 2 * 2) with 4 by ring. rewrite Rmult_1_l. reflexivity. }
  rewrite B. cbn [bind bk_a bk_b bk_c bk_av bk_bv bk_cv]. destruct (R_eqb 1 0) eqn:Z; [apply R_eqb_spec in Z; lra|]. cbn [andb]. replace (R_ltb 4 2) with false by (symmetry; apply R_ltb_false; lra).
  unfold cg_assert, assert_. replace (R_ltb 1 2) with true by (symmetry; apply R_ltb_spec; lra). replace (R_ltb 2 4) with true by (symmetry; apply R_ltb_spec; lra). cbn [andb bind olt]. replace (R_ltb (ln 2) (ln 1)) with false by (symmetry; apply R_ltb_false; rewrite !L; lra). reflexivity.
Qed.
(** update_vectors_PR: the Polak-Ribiere direction *)
Theorem C69_update : forall grad s s', update_vectors_PR grad s = Ok s' ->
  let n := cg_size s in let gg := Sum n (fun i => cg_g s i * cg_g s i) in gg <> 0 /\ cg_g s' = grad /\ cg_old_g s' = cg_g s /\ cg_old_h s' = cg_h s /\ cg_size s' = n /\
  (forall i, cg_h s' i = grad i + Sum n (fun k => grad k * (grad k - cg_g s k)) / gg * cg_h s i) /\ (forall i, cg_minus_h s' i = - cg_h s' i) /\ cg_x s' = cg_x s /\ cg_y s' = cg_y s /\ cg_iterations s' = cg_iterations s.
Proof.
  intros grad s s' E n gg. unfold update_vectors_PR in E. fold n in E. fold gg in E. unfold div in E. cbn [feqb ROps f0] in E. destruct (R_eqb gg 0) eqn:Z; [discriminate|]. cbn [bind fdiv] in E. injection E as <-. cbn [cg_g cg_old_g cg_old_h cg_size cg_h cg_minus_h cg_x cg_y cg_iterations].
  split; [intros C; apply R_eqb_spec in C; congruence|]. do 4 (split; [reflexivity|]). split; [|repeat split]. intros i. rewrite <- S_sub. rewrite (S_ext n (fun k => grad k * grad k - cg_g s k * grad k) (fun k => grad k * (grad k - cg_g s k))) by (intros; ring). reflexivity.
Qed.
(** every state reached by calls of iterate *)
Inductive cg_reaches (debug : bool) (f : point -> R) (deriv : point -> point) (s0 : cg) : nat -> cg -> Prop :=
| reach_start : cg_reaches debug f deriv s0 0 s0
| reach_step k s fuel s' more : cg_reaches debug f deriv s0 k s -> cg_iterate debug fuel f deriv s = Ok (s', more) -> cg_reaches debug f deriv s0 (S k) s'.
Lemma init_good me n f start deriv j1 j2 j3 : cg_good f (cg_init me n start (f start) (deriv start) j1 j2 j3).
Proof. unfold cg_init, cg_good. cbn. split; [reflexivity|]. split; [reflexivity|lra]. Qed.
Lemma iterate_good debug fuel f deriv s s' more : cg_good f s -> cg_iterate debug fuel f deriv s = Ok (s', more) -> cg_good f s' /\ cg_y s' <= cg_y s /\ cg_iterations s' = (cg_iterations s + 1)%Z /\ cg_size s' = cg_size s /\ (more = true -> cg_g s' = deriv (cg_x s')) /\
  (more = false -> cg_h s' = cg_h s /\ cg_g s' = cg_g s).
Proof.
  intros G E. unfold cg_iterate in E. destruct (find_next_point debug fuel f s) as [s1| | | | |] eqn:F; try discriminate. cbn [bind] in E. destruct (C69_find_next_point debug fuel f s s1 G F) as (_ & Y & L & _ & _ & It & Ss). destruct Ss as (S1 & S2 & S3 & S4 & S5 & S6 & S7 & S8 & S9 & S10 & S11).
  destruct G as (Hm & Hy & Hl). destruct (negb (cg_finished s1)).
  - destruct (update_vectors_PR (deriv (cg_x s1)) s1) as [s2| | | | |] eqn:U; try discriminate. cbn [bind] in E. injection E as <- <-. destruct (C69_update _ _ _ U) as (_ & U1 & _ & _ & U5 & _ & U6 & U7 & U8 & U9).
    assert (Ul : cg_lambda s2 = cg_lambda s1) by (unfold update_vectors_PR in U; destruct (div _ _); try discriminate; injection U as <-; reflexivity).
    split; [split; [exact U6|split; [congruence|congruence]]|]. split; [lra|]. split; [congruence|]. split; [congruence|]. split; [congruence|discriminate].
  - injection E as <- <-. split; [split; [intros i; rewrite S4, S3; apply Hm|split; [exact Y|congruence]]|]. split; [exact L|]. split; [exact It|]. split; [exact S1|]. split; [discriminate|auto].
Qed.
(** iterate(): whether to continue *)
Theorem C69_continue : forall debug fuel f deriv s s' more, cg_good f s -> cg_iterate debug fuel f deriv s = Ok (s', more) ->
  (more = true <-> (cg_iterations s' <= cg_max_iterations s)%Z /\ cg_tolerance s * (Rabs (cg_y s') + Rabs (cg_y s) + cg_epsilon s) < 2 * Rabs (cg_y s' - cg_y s)) /\ cg_max_iterations s' = cg_max_iterations s.
Proof.
  intros debug fuel f deriv s s' more G E. unfold cg_iterate in E. destruct (find_next_point debug fuel f s) as [s1| | | | |] eqn:F; try discriminate. cbn [bind] in E.
  destruct (C69_find_next_point debug fuel f s s1 G F) as (_ & Y & _ & Oy & _ & _ & _ & _ & _ & _ & _ & _ & St & Se & Sm & _).
  assert (Fin : negb (cg_finished s1) = true <-> (cg_iterations s1 <= cg_max_iterations s)%Z /\ cg_tolerance s * (Rabs (cg_y s1) + Rabs (cg_y s) + cg_epsilon s) < 2 * Rabs (cg_y s1 - cg_y s)).
  { unfold cg_finished. rewrite negb_orb, negb_involutive, andb_true_iff, negb_true_iff, Z.ltb_ge, R_ltb_spec, St, Se, Sm, Oy. reflexivity. }
  destruct (negb (cg_finished s1)).
  - destruct (update_vectors_PR (deriv (cg_x s1)) s1) as [s2| | | | |] eqn:U; try discriminate. cbn [bind] in E. injection E as <- <-.
    assert (Uy : cg_y s2 = cg_y s1 /\ cg_iterations s2 = cg_iterations s1 /\ cg_max_iterations s2 = cg_max_iterations s1) by (unfold update_vectors_PR in U; destruct (div _ _); try discriminate; injection U as <-; repeat split).
    destruct Uy as (U1 & U2 & U3). rewrite U1, U2, U3. split; [exact Fin|exact Sm].
  - injection E as <- <-. split; [exact Fin|exact Sm].
Qed.
(** so a loop "while(iterate)" makes at most 100 n + 1 calls *)
Inductive cg_continues (debug : bool) (f : point -> R) (deriv : point -> point) (s0 : cg) : nat -> cg -> Prop :=
| cont_start : cg_continues debug f deriv s0 0 s0
| cont_step k s fuel s' : cg_continues debug f deriv s0 k s -> cg_iterate debug fuel f deriv s = Ok (s', true) -> cg_continues debug f deriv s0 (S k) s'.
Theorem C69_stops : forall debug me n f deriv start j1 j2 j3 k s, let s0 := cg_init me n start (f start) (deriv start) j1 j2 j3 in cg_continues debug f deriv s0 k s -> (k <= 100 * n)%nat.
Proof.
  intros debug me n f deriv start j1 j2 j3 k s s0 H.
  assert (cg_good f s /\ cg_iterations s = Z.of_nat k /\ cg_max_iterations s = (Z.of_nat n * 100)%Z /\ (k <= 100 * n)%nat) as (_ & _ & _ & K); [|exact K].
  induction H as [|k s fuel s' H (G & I & M & K) E].
  - split; [apply init_good|]. split; [reflexivity|]. split; [reflexivity|lia].
  - destruct (iterate_good _ _ _ _ _ _ _ G E) as (G' & _ & I' & _). destruct (C69_continue _ _ _ _ _ _ _ G E) as [C M']. split; [exact G'|]. assert (I2 : cg_iterations s' = Z.of_nat (S k)) by lia.
    split; [exact I2|]. split; [congruence|]. destruct (proj1 C eq_refl) as [C' _]. lia.
Qed.
Theorem C69_history : forall debug me n f deriv start j1 j2 j3 k s, let s0 := cg_init me n start (f start) (deriv start) j1 j2 j3 in cg_reaches debug f deriv s0 k s ->
  (forall i, cg_minus_h s i = - cg_h s i) /\ cg_y s = f (cg_x s) /\ cg_y s <= f start /\ cg_iterations s = Z.of_nat k.
Proof.
  intros debug me n f deriv start j1 j2 j3 k s s0 H. assert (cg_good f s /\ cg_y s <= f start /\ cg_iterations s = Z.of_nat k) as ((G1 & G2 & _) & L & I); [|auto].
  induction H as [|k s fuel s' more H (G & L & I) E].
  - split; [apply init_good|]. split; [apply Rle_refl|reflexivity].
  - destruct (iterate_good debug fuel f deriv s s' more G E) as (G' & L' & I' & _). split; [exact G'|]. split; [lra|]. rewrite I', I. lia.
Qed.
(** iterate never divides by zero: if the stored gradient is zero then so is the search direction, nothing moves and iterate stops *)
Definition cg_calm (s : cg) : Prop := (Sum (cg_size s) (fun i => cg_g s i * cg_g s i) = 0 -> forall i, (i < cg_size s)%nat -> cg_h s i = 0) /\ 0 <= cg_tolerance s /\ 0 <= cg_epsilon s.
Lemma calm_init me n f start deriv j1 j2 j3 : cg_calm (cg_init me n start (f start) (deriv start) j1 j2 j3).
Proof.
  unfold cg_calm, cg_init. cbn [cg_size cg_g cg_h cg_tolerance cg_epsilon]. split; [|split; [apply sqrt_pos|left; apply Rinv_0_lt_compat, pow_lt; lra]].
  intros Z i Hi. pose proof (S_pos_zero n (fun i => deriv start i * deriv start i) ltac:(intros; nra) Z i Hi) as Q. cbn beta in Q. nra.
Qed.
Lemma nonfinite_iff grad s : update_vectors_PR grad s = NonFinite -> Sum (cg_size s) (fun i => cg_g s i * cg_g s i) = 0.
Proof. intros E. unfold update_vectors_PR, div in E. cbn [feqb ROps f0] in E. destruct (R_eqb _ 0) eqn:Z; [apply R_eqb_spec; exact Z|discriminate]. Qed.
Lemma flat_bracket fuel f y lambda zeps r : (forall t, f t = y) -> 0 < lambda -> bracket_minimum_forward fuel (Some y) (total_fun f) lambda zeps = Ok r -> r = bk_zeros.
Proof.
  intros C Hl E. rewrite <- (C 0) in E. destruct (C68_bracket fuel f lambda zeps r Hl E) as [(Z & _)|(_ & _ & _ & _ & _ & _ & M & _)]; [exact Z|]. rewrite !C in M. lra.
Qed.
Lemma iterate_calm debug fuel f deriv s s' more : depends_on (cg_size s) f -> cg_good f s -> cg_calm s -> cg_iterate debug fuel f deriv s = Ok (s', more) -> cg_calm s'.
Proof.
  intros D G (K & T & Ep) E. unfold cg_iterate in E. destruct (find_next_point debug fuel f s) as [s1| | | | |] eqn:F; try discriminate. cbn [bind] in E. destruct (C69_find_next_point debug fuel f s s1 G F) as (_ & _ & _ & _ & _ & _ & S1 & S2 & S3 & S4 & _ & _ & S7 & S8 & _).
  destruct (negb (cg_finished s1)).
  - destruct (update_vectors_PR (deriv (cg_x s1)) s1) as [s2| | | | |] eqn:U; try discriminate. cbn [bind] in E. injection E as <- _. destruct (C69_update _ _ _ U) as (_ & U1 & _ & _ & U5 & U6 & _).
    assert (Ut : cg_tolerance s2 = cg_tolerance s1 /\ cg_epsilon s2 = cg_epsilon s1) by (unfold update_vectors_PR in U; destruct (div _ _); try discriminate; injection U as <-; split; reflexivity). destruct Ut as [Ut Ue].
    split; [|split; congruence]. rewrite U5, U1. intros Z i Hi. rewrite U6. assert (Gz : forall k, (k < cg_size s1)%nat -> deriv (cg_x s1) k = 0). { intros k Hk. pose proof (S_pos_zero _ _ ltac:(intros; apply Rle_0_sqr) Z k Hk) as Q. cbn beta in Q. apply Rmult_integral in Q. destruct Q; assumption. }
    rewrite Gz by exact Hi. rewrite (S_ext (cg_size s1) _ (fun _ => 0)) by (intros k Hk; rewrite Gz by exact Hk; ring). rewrite S_zero by (intros; reflexivity). unfold Rdiv. ring.
  - injection E as <- _. split; [|split; congruence]. rewrite S1, S2, S3. exact K.
Qed.
Theorem C69_never_divides_by_zero : forall debug me n f deriv start j1 j2 j3 k s fuel, let s0 := cg_init me n start (f start) (deriv start) j1 j2 j3 in depends_on n f -> cg_reaches debug f deriv s0 k s -> cg_iterate debug fuel f deriv s <> NonFinite.
Proof.
  intros debug me n f deriv start j1 j2 j3 k s fuel s0 D H. assert (cg_good f s /\ cg_calm s /\ cg_size s = n) as (G & K & Sz).
  { induction H as [|k s fuel' s' more H (G & K & Sz) E]; [split; [apply init_good|split; [apply calm_init|reflexivity]]|]. destruct (iterate_good _ _ _ _ _ _ _ G E) as (G' & _ & _ & Sz' & _). split; [exact G'|]. split; [|congruence]. eapply iterate_calm; [|exact G|exact K|exact E]. rewrite Sz. exact D. }
  intros E. unfold cg_iterate in E. destruct (find_next_point debug fuel f s) as [s1| | | | |] eqn:F; try discriminate.
  - cbn [bind] in E. destruct (C69_find_next_point debug fuel f s s1 G F) as (_ & _ & _ & Oy & _ & _ & S1 & S2 & S3 & S4 & _ & _ & S7 & S8 & _).
    destruct (negb (cg_finished s1)) eqn:Fi; [|discriminate]. destruct (update_vectors_PR (deriv (cg_x s1)) s1) as [s2| | | | |] eqn:U; try discriminate. apply nonfinite_iff in U. rewrite S1, S2 in U. destruct K as (K & T & Ep). pose proof (K U) as Hz.
    assert (Fl : forall t, line f (cg_x s) (cg_minus_h s) t = f (cg_x s)). { intros t. unfold line. apply D. intros i Hi. destruct G as (Hm & _). rewrite Hm, Hz by congruence. ring. }
    assert (Ys : cg_y s1 = cg_y s). { unfold find_next_point in F. rewrite line_fold in F. destruct (bracket_minimum_forward _ _ _ _ _) as [bk| | | | |] eqn:B; try discriminate. cbn [bind] in F. destruct G as (_ & Gy & Gl). apply flat_bracket in B; [|rewrite Gy; exact Fl|exact Gl]. subst bk. cbn [bk_zeros bk_a bk_b bk_c] in F. assert (Z : R_eqb 0 0 = true) by (apply R_eqb_spec; reflexivity). rewrite Z in F. cbn [andb] in F. injection F as <-. reflexivity. }
    unfold cg_finished in Fi. apply negb_true_iff, orb_false_iff in Fi. destruct Fi as [_ Fi]. apply negb_false_iff, R_ltb_spec in Fi. rewrite Oy, Ys, Rminus_diag_eq, Rabs_R0, Rmult_0_r in Fi by reflexivity. pose proof (Rabs_pos (cg_y s)). rewrite S7, S8 in Fi. assert (0 <= cg_tolerance s * (Rabs (cg_y s) + Rabs (cg_y s) + cg_epsilon s)) by (apply Rmult_le_pos; lra). lra.
  - clear E. unfold find_next_point in F. rewrite line_fold in F. set (ln := line f (cg_x s) (cg_minus_h s)) in *. destruct G as (Gm & Gy & Gl). assert (L0 : cg_y s = ln 0) by (unfold ln; rewrite line_zero; exact Gy). rewrite L0 in F at 1.
    destruct (bracket_minimum_forward _ _ _ _ _) as [bk| | | | |] eqn:B; try discriminate.
    + cbn [bind] in F. destruct (C68_bracket fuel ln _ _ bk Gl B) as [(-> & _)|(A1 & A2 & V1 & V2 & V3 & _)].
      * cbn [bk_zeros bk_a bk_b bk_c] in F. assert (Z : R_eqb 0 0 = true) by (apply R_eqb_spec; reflexivity). rewrite Z in F. discriminate.
      * rewrite V2, V3 in F. destruct (_ && _); [discriminate|]. destruct (R_ltb _ _); [discriminate|]. unfold cg_assert, assert_ in F. destruct (brent_line_search _ _ _ _ _ _ _ _) as [[m0 m1] cl]. repeat (match type of F with context [if ?c then _ else _] => destruct c end; cbn [bind] in F; try discriminate).
    + destruct (bracket_total fuel ln (Some (ln 0)) (cg_lambda s) (cg_bracket_epsilon s)) as [(r & Er)|Er]; congruence.
Qed.
(** non-vacuity: a completed call. From 3 along 2 with the minimum of x*x at t = 3/2, asserts off *)
Example ex_find_next : forall me j1 j2 j3, let f := fun p : point => p 0%nat * p 0%nat in let start := fun _ : nat => 3 in exists fuel s', find_next_point true fuel f (cg_init me 1 start (f start) (fun _ => 6) j1 j2 j3) = Ok s' /\ cg_y s' <= / 4 * 36.
Proof.
  intros me j1 j2 j3 f start. set (s := cg_init me 1 start (f start) (fun _ => 6) j1 j2 j3). set (ln := line f (cg_x s) (cg_minus_h s)).
  assert (L : forall t, ln t = (3 - 6 * t) * (3 - 6 * t)) by (intros t; unfold ln, line, f, s, cg_init, start; cbn [cg_x cg_minus_h]; ring).
  assert (G : cg_good f s) by (split; [reflexivity|split; [reflexivity|cbn; lra]]). assert (L0 : cg_y s = ln 0) by (unfold ln; rewrite line_zero; apply G).
  exists 1%nat. assert (B : bracket_minimum_forward 1 (Some (ln 0)) (total_fun ln) 1 (cg_bracket_epsilon s) = Ok (mkbk 0 (1 * / 2) 1 (Some (ln 0)) (Some (ln (1 * / 2))) (Some (ln 1)))).
  { unfold bracket_minimum_forward. rewrite start_total. cbn [bind olt]. replace (R_ltb (ln 1) (ln 0)) with false by (symmetry; apply R_ltb_false; rewrite !L; lra). cbn [bk_backward]. unfold total_fun. cbn [olt]. replace (R_ltb (ln (1 * / 2)) (ln 0)) with true by (symmetry; apply R_ltb_spec; rewrite !L; lra). reflexivity. }
  destruct (find_next_point true 1 f s) as [s'|d| | | |] eqn:F.
  - exists s'. split; [reflexivity|]. destruct (C69_find_next_point true 1 f s s' G F) as (_ & _ & Y & _). unfold s, cg_init in Y. cbn [cg_y] in Y. assert (f start = 9) by (unfold f, start; ring). lra.
  - exfalso. unfold find_next_point in F. rewrite line_fold in F. fold ln in F. rewrite L0 in F at 1. change (cg_lambda s) with 1 in F. rewrite B in F. cbn [bind bk_a bk_b bk_c bk_av bk_bv bk_cv] in F.
    destruct (R_eqb 1 0) eqn:Z; [apply R_eqb_spec in Z; lra|]. rewrite andb_false_r in F. replace (R_ltb 1 (1 * / 2)) with false in F by (symmetry; apply R_ltb_false; lra). unfold cg_assert, assert_ in F. replace (R_ltb 0 (1 * / 2)) with true in F by (symmetry; apply R_ltb_spec; lra). replace (R_ltb (1 * / 2) 1) with true in F by (symmetry; apply R_ltb_spec; lra). cbn [andb bind olt] in F.
    replace (R_ltb (ln (1 * / 2)) (ln 0)) with true in F by (symmetry; apply R_ltb_spec; rewrite !L; lra). replace (R_ltb (ln (1 * / 2)) (ln 1)) with true in F by (symmetry; apply R_ltb_spec; rewrite !L; lra). cbn [andb bind] in F.
    destruct (brent_line_search _ _ _ _ _ _ _ _) as [[m0 m1] cl] eqn:Br. destruct (C66_best_probe ln 0 (1 * / 2) 1 _ _ _ m0 m1 cl ltac:(lra) Br) as ((Q1 & Q2 & Q3 & _) & _).
    replace (R_ltb m0 0) with false in F by (symmetry; apply R_ltb_false; lra). replace (R_ltb 1 m0) with false in F by (symmetry; apply R_ltb_false; lra). cbn [negb andb bind] in F. replace (R_ltb (ln (1 * / 2)) m1) with false in F by (symmetry; apply R_ltb_false; lra). discriminate.
  - exfalso. unfold find_next_point in F. rewrite line_fold in F. fold ln in F. rewrite L0 in F at 1. change (cg_lambda s) with 1 in F. rewrite B in F. cbn [bind bk_a bk_b bk_c bk_av bk_bv bk_cv] in F. destruct (_ && _) in F; [discriminate|]. destruct (R_ltb 1 _); [discriminate|]. unfold cg_assert, assert_ in F. destruct (brent_line_search _ _ _ _ _ _ _ _) as [[m0 m1] cl]. repeat (match type of F with context [if ?c then _ else _] => destruct c end; cbn [bind] in F; try discriminate).
  - exfalso. unfold find_next_point in F. rewrite line_fold in F. fold ln in F. rewrite L0 in F at 1. change (cg_lambda s) with 1 in F. rewrite B in F. cbn [bind bk_a bk_b bk_c bk_av bk_bv bk_cv] in F. destruct (_ && _) in F; [discriminate|]. destruct (R_ltb 1 _); [discriminate|]. unfold cg_assert, assert_ in F. destruct (brent_line_search _ _ _ _ _ _ _ _) as [[m0 m1] cl]. repeat (match type of F with context [if ?c then _ else _] => destruct c end; cbn [bind] in F; try discriminate).
  - exfalso. unfold find_next_point in F. rewrite line_fold in F. fold ln in F. rewrite L0 in F at 1. change (cg_lambda s) with 1 in F. rewrite B in F. cbn [bind bk_a bk_b bk_c bk_av bk_bv bk_cv] in F. destruct (_ && _) in F; [discriminate|]. destruct (R_ltb 1 _); [discriminate|]. unfold cg_assert, assert_ in F. destruct (brent_line_search _ _ _ _ _ _ _ _) as [[m0 m1] cl]. repeat (match type of F with context [if ?c then _ else _] => destruct c end; cbn [bind] in F; try discriminate).
  - exfalso. unfold find_next_point in F. rewrite line_fold in F. fold ln in F. rewrite L0 in F at 1. change (cg_lambda s) with 1 in F. rewrite B in F. cbn [bind bk_a bk_b bk_c bk_av bk_bv bk_cv] in F. destruct (_ && _) in F; [discriminate|]. destruct (R_ltb 1 _); [discriminate|]. unfold cg_assert, assert_ in F. destruct (brent_line_search _ _ _ _ _ _ _ _) as [[m0 m1] cl]. repeat (match type of F with context [if ?c then _ else _] => destruct c end; cbn [bind] in F; try discriminate).
Qed.
Print Assumptions C68_bracket.
Print Assumptions C68_terminates.
Print Assumptions C68_strict_refuted.
Print Assumptions C68_nan_never_below.
Print Assumptions C68_nan_refuted.
Print Assumptions C69_find_next_point.
Print Assumptions C69_assert_only_on_plateau.
Print Assumptions C69_assert_refuted.
Print Assumptions C69_update.
Print Assumptions C69_continue.
Print Assumptions C69_stops.
Print Assumptions C69_history.
Print Assumptions C69_never_divides_by_zero.
