(** * C107: bracketing a minimum, and the conjugate gradient optimizer, in floating point. *)
From Coq Require Import Reals ZArith Bool List Lra Lia Psatz FunctionalExtensionality.
From Flocq Require Import Core.
From Verif Require Import Base Alg Inst RSum LemEig SpecOpt ModelLie ModelOpt LemOpt PropOpt ModelCG LemCG PropCG SpecFl LemFl ModelFl ExFl ExFlSO3 ModelFlGolden LemFlGolden PropFlGolden ModelFlBrent PropFlBrent ModelFlCG LemFlCG.
Open Scope outcome_scope.
From Verif Require LemExp.
Local Open Scope R_scope.

(** without rounding this is the model of C68 and C69 *)
Theorem C107_bracket_is_exact_model : forall fuel av f lambda zeps, fl_bracket_minimum_forward (fun x => x) fuel av f lambda zeps = bracket_minimum_forward fuel av f lambda zeps.
Proof.
  intros fuel av f lambda zeps. reflexivity.
Qed.
Theorem C107_model_is_exact_model : forall debug fuel f deriv s, fl_cg_iterate (fun x => x) debug fuel f deriv s = cg_iterate debug fuel f deriv s.
Proof.
  intros debug fuel f deriv s. unfold fl_cg_iterate, cg_iterate.
  assert (F : fl_find_next_point (fun x => x) debug fuel f s = find_next_point debug fuel f s).
  { unfold fl_find_next_point, find_next_point. rewrite C107_bracket_is_exact_model. change (fl_line (fun x => x) f (cg_x s) (cg_minus_h s)) with (line f (cg_x s) (cg_minus_h s)). destruct (bracket_minimum_forward _ _ _ _ _) as [bk| | | | |]; try reflexivity. cbn [bind].
    destruct (_ && _); [reflexivity|]. destruct (R_ltb _ _); [reflexivity|]. destruct (cg_assert _ _); try reflexivity. cbn [bind]. destruct (cg_assert _ _); try reflexivity. cbn [bind]. destruct (bk_bv bk); [|reflexivity]. rewrite C104_model_is_exact_model. reflexivity. }
  rewrite F. destruct (find_next_point debug fuel f s); try reflexivity.
Qed.
(** the rounding is symmetric about zero *)
Definition symmetric (rnd : R -> R) : Prop := forall x, rnd (- x) = - rnd x.

Section P.
Variables (u : R) (rnd : R -> R).
Hypothesis RN : rounding u rnd.
Hypothesis MON : monotone rnd.
Hypothesis U : u <= 1 / 1000.
Let R0 : rnd 0 = 0. Proof. apply (rnd_0 u rnd RN). Qed.
Let RR x : rnd (rnd x) = rnd x. Proof. destruct RN as (_ & _ & E). apply E. Qed.
Let up t : 0 <= t -> 999 / 1000 * t <= rnd t <= 1001 / 1000 * t. Proof. apply (rnd_up u rnd RN U). Qed.
(** without NaN: a < b < c with f b <= f a, f b < f c and f b < y whatever is rounded; the values are the function's (f a may be the y given for 0), and f b = f a only with b = 2 a rounded. "Zeros" otherwise *)
Theorem C107_bracket : forall fuel y f lambda zeps r, 0 < lambda -> rnd lambda = lambda -> fl_bracket_minimum_forward rnd fuel (Some y) (total_fun f) lambda zeps = Ok r ->
  r = bk_zeros \/
  (0 <= bk_a r < bk_b r /\ bk_b r < bk_c r /\ rnd (bk_a r) = bk_a r /\ rnd (bk_b r) = bk_b r /\ rnd (bk_c r) = bk_c r /\
   exists va, bk_av r = Some va /\ ((bk_a r = 0 /\ va = y) \/ va = f (bk_a r)) /\ bk_bv r = Some (f (bk_b r)) /\ bk_cv r = Some (f (bk_c r)) /\
   f (bk_b r) <= va /\ f (bk_b r) < f (bk_c r) /\ f (bk_b r) < y /\ (f (bk_b r) < va \/ bk_b r = rnd (bk_a r * 2))).
Proof.
  intros fuel y f lambda zeps r Hl Fl E. destruct (fl_bracket_ok u rnd RN U MON fuel y (total_fun f) lambda zeps r Hl Fl E) as [Z|(A & _ & Bc & Fa & Fb & Fc & V1 & V2 & V3 & M1 & M2 & M3 & P)]; [left; exact Z|right].
  assert (NN : ~ exists t, total_fun f t = None) by (intros [t T]; discriminate). destruct Bc as [Bc|Bc]; [|contradiction]. destruct M3 as [[M3 _]|M3]; [|contradiction].
  split; [exact A|]. split; [exact Bc|]. do 3 (split; [assumption|]). unfold total_fun in V1, V2, V3. rewrite V2 in M1, M2, M3, P |- *. rewrite V3 in M3 |- *. cbn [olt] in M2, M3. apply R_ltb_spec in M2, M3.
  destruct (bk_av r) as [va|]; [|destruct V1 as [[_ V1]|V1]; discriminate]. exists va. split; [reflexivity|]. cbn [nge olt] in M1, P.
  split; [destruct V1 as [[V0 V1]|V1]; injection V1 as V1; [left; split; assumption|right; exact V1]|]. do 2 (split; [reflexivity|]). split; [exact M1|]. split; [exact M3|]. split; [exact M2|]. destruct P as [P|P]; [apply R_ltb_spec in P; left; exact P|right; exact P].
Qed.
Lemma fl_bracket_ok_or_fuel fuel y f lambda zeps : (exists r, fl_bracket_minimum_forward rnd fuel (Some y) (total_fun f) lambda zeps = Ok r) \/ fl_bracket_minimum_forward rnd fuel (Some y) (total_fun f) lambda zeps = OutOfFuel.
Proof.
  assert (Fw : forall k l av a b bv q, (exists r w, fl_bk_forward rnd k (total_fun f) l q a av b bv = Ok (r, w) /\ isnan (bk_cv r) = false) \/ fl_bk_forward rnd k (total_fun f) l q a av b bv = OutOfFuel).
  { induction k as [|k IH]; intros l av a b bv q; cbn [fl_bk_forward]; [right; reflexivity|]. change (isnan (total_fun f (rnd (l * 2)))) with false. destruct (olt bv _); [left; do 2 eexists; split; reflexivity|apply IH]. }
  assert (Bw : forall k l av c cv, (exists r, fl_bk_backward rnd k (total_fun f) zeps l av c cv = Ok r) \/ fl_bk_backward rnd k (total_fun f) zeps l av c cv = OutOfFuel).
  { induction k as [|k IH]; intros l av c cv; cbn [fl_bk_backward]; [right; reflexivity|]. destruct (olt _ av); [left; eauto|]. destruct (R_ltb _ zeps); [left; eauto|apply IH]. }
  unfold fl_bracket_minimum_forward. destruct fuel as [|fuel]; [right; reflexivity|]. change (fl_bk_start rnd (S fuel) (total_fun f) lambda) with (Ok (lambda, Some (f lambda))). cbn [bind]. destruct (olt _ _).
  - destruct (Fw (S fuel) lambda (Some y) 0 lambda (Some (f lambda)) lambda) as [(r & w & E & N)|E]; rewrite E; cbn [bind]; [rewrite N; left; eauto|right; reflexivity].
  - apply Bw.
Qed.
(** functions that may be NaN: c is still never below b *)
Theorem C107_nan_never_below : forall fuel y f lambda zeps r, 0 < lambda -> rnd lambda = lambda -> fl_bracket_minimum_forward rnd fuel (Some y) f lambda zeps = Ok r ->
  r = bk_zeros \/ (0 <= bk_a r < bk_b r /\ bk_b r <= bk_c r /\ bk_bv r = f (bk_b r) /\ bk_cv r = f (bk_c r) /\ exists v, f (bk_b r) = Some v /\ v < y).
Proof.
  intros fuel y f lambda zeps r Hl Fl E. destruct (fl_bracket_ok u rnd RN U MON fuel y f lambda zeps r Hl Fl E) as [Z|(A & B & _ & _ & _ & _ & _ & V2 & V3 & _ & M2 & _)]; [left; exact Z|right].
  split; [exact A|]. split; [exact B|]. split; [exact V2|]. split; [exact V3|]. rewrite V2 in M2. destruct (f (bk_b r)) as [v|]; cbn [olt] in M2; [|discriminate]. exists v. split; [reflexivity|apply R_ltb_spec; exact M2].
Qed.

Hypothesis ODD : symmetric rnd.
Definition fl_cg_good (f : point -> R) (s : cg) : Prop := (forall i, cg_minus_h s i = - cg_h s i) /\ cg_y s = f (cg_x s) /\ 0 < cg_lambda s /\ rnd (cg_lambda s) = cg_lambda s.
(** the point found is the very point at which the function was last evaluated *)
Lemma fl_line_at f s t : (forall i, cg_minus_h s i = - cg_h s i) -> fl_line rnd f (cg_x s) (cg_minus_h s) t = f (fun i => rnd (cg_x s i - rnd (t * cg_h s i))).
Proof. intros Hm. unfold fl_line. f_equal. apply functional_extensionality. intros i. rewrite Hm, Ropp_mult_distr_r_reverse, ODD. reflexivity. Qed.
Lemma fl_line_fold f x d : (fun t => Some (fl_line rnd f x d t)) = total_fun (fl_line rnd f x d).
Proof. reflexivity. Qed.
(** a completed find_next_point, with or without asserts: y is exactly the function at the new point and has not risen; the new point is on the search line to two roundings per coordinate; the old ones are remembered *)
Theorem C107_find_next_point : forall debug fuel f s s', fl_cg_good f s -> fl_find_next_point rnd debug fuel f s = Ok s' ->
  ((cg_x s' = cg_x s /\ cg_y s' = cg_y s) \/ (cg_y s' < cg_y s /\ exists t, 0 <= t /\ rnd t = t /\ forall i, cg_x s' i = rnd (cg_x s i - rnd (t * cg_h s i)))) /\
  cg_y s' = f (cg_x s') /\ cg_y s' <= cg_y s /\ cg_old_y s' = cg_y s /\ cg_old_x s' = cg_x s /\ cg_iterations s' = (cg_iterations s + 1)%Z /\ same_search s s'.
Proof.
  intros debug fuel f s s' (Hm & Hy & Hl & Fl) E. unfold fl_find_next_point in E. rewrite fl_line_fold in E. set (ln := fl_line rnd f (cg_x s) (cg_minus_h s)) in *.
  destruct (fl_bracket_minimum_forward _ _ _ _ _ _) as [bk| | | | |] eqn:B; try discriminate. cbn [bind] in E.
  destruct (C107_bracket fuel (cg_y s) ln (cg_lambda s) (cg_bracket_epsilon s) bk Hl Fl B) as [->|(A1 & A2 & Fa & Fb & Fc & va & V1 & _ & V2 & V3 & M1 & M2 & M3 & _)].
  - cbn [bk_zeros bk_a bk_b bk_c] in E. assert (Z : R_eqb 0 0 = true) by (apply R_eqb_spec; reflexivity). rewrite Z in E. cbn [andb] in E. injection E as <-. cbn. split; [left; split; reflexivity|]. split; [exact Hy|]. split; [lra|]. repeat split.
  - destruct (R_eqb (bk_b bk) 0) eqn:Z; [apply R_eqb_spec in Z; lra|]. rewrite andb_false_r in E. cbn [andb] in E. destruct (R_ltb (bk_c bk) (bk_b bk)) eqn:T; [apply R_ltb_spec in T; lra|].
    destruct (cg_assert debug (R_ltb (bk_a bk) (bk_b bk) && R_ltb (bk_b bk) (bk_c bk))) as [[]| | | | |]; try discriminate. cbn [bind] in E. destruct (cg_assert debug (olt (bk_bv bk) (bk_av bk) && olt (bk_bv bk) (bk_cv bk))) as [[]| | | | |]; try discriminate. cbn [bind] in E. rewrite V2 in E.
    destruct (fl_brent_line_search rnd ln (bk_a bk) (bk_b bk) (bk_c bk) (ln (bk_b bk)) (cg_ls_max s) (cg_ls_tolerance s) (cg_ls_epsilon s)) as [[m0 m1] calls] eqn:Br.
    assert (Fm : rnd m0 = m0). { unfold fl_brent_line_search in Br. injection Br as <- _ _. apply (fl_brent_loop_inv rnd (fbr_inv rnd ln (bk_a bk) (bk_c bk) (bk_b bk)) ln _ _ (fun t => fl_step_inv u rnd RN MON U ln _ _ _ _ _ t)). apply init_fbr; try assumption. lra. }
    destruct (C104_best_probe u rnd RN MON U ln (bk_a bk) (bk_b bk) (bk_c bk) _ _ _ m0 m1 calls Fa Fb Fc ltac:(lra) Br) as ((Q1 & Q2 & Q3 & Q4 & _) & _).
    destruct (cg_assert debug (negb (R_ltb m0 (bk_a bk)) && _)) as [[]| | | | |]; try discriminate. cbn [bind] in E. destruct (cg_assert debug (negb _)) as [[]| | | | |]; try discriminate. cbn [bind] in E. injection E as <-. cbn.
    assert (X : m1 = f (fun i => rnd (cg_x s i - rnd (m0 * cg_h s i)))) by (rewrite Q2; unfold ln; apply fl_line_at; exact Hm).
    split; [right; split; [lra|exists m0; split; [lra|split; [exact Fm|reflexivity]]]|]. split; [exact X|]. split; [lra|]. repeat split.
Qed.
(** the asserts of find_next_point fail only on a plateau: two equal values at t and 2t rounded *)
Theorem C107_assert_only_on_plateau : forall fuel f s d, fl_cg_good f s -> fl_find_next_point rnd true fuel f s = Abort d -> exists t, 0 < t /\ fl_line rnd f (cg_x s) (cg_minus_h s) t = fl_line rnd f (cg_x s) (cg_minus_h s) (rnd (t * 2)).
Proof.
  intros fuel f s d (Hm & Hy & Hl & Fl) E. unfold fl_find_next_point in E. rewrite fl_line_fold in E. set (ln := fl_line rnd f (cg_x s) (cg_minus_h s)) in *.
  destruct (fl_bracket_minimum_forward _ _ _ _ _ _) as [bk|d'| | | |] eqn:B; try discriminate.
  - cbn [bind] in E. destruct (C107_bracket fuel (cg_y s) ln (cg_lambda s) (cg_bracket_epsilon s) bk Hl Fl B) as [->|(A1 & A2 & Fa & Fb & Fc & va & V1 & Va & V2 & V3 & M1 & M2 & M3 & P)].
    + cbn [bk_zeros bk_a bk_b bk_c] in E. assert (Z : R_eqb 0 0 = true) by (apply R_eqb_spec; reflexivity). rewrite Z in E. cbn [andb] in E. discriminate.
    + destruct (R_eqb (bk_b bk) 0) eqn:Z; [apply R_eqb_spec in Z; lra|]. rewrite andb_false_r in E. cbn [andb] in E. destruct (R_ltb (bk_c bk) (bk_b bk)) eqn:T; [apply R_ltb_spec in T; lra|].
      unfold cg_assert, assert_ in E. replace (R_ltb (bk_a bk) (bk_b bk)) with true in E by (symmetry; apply R_ltb_spec; lra). replace (R_ltb (bk_b bk) (bk_c bk)) with true in E by (symmetry; apply R_ltb_spec; lra). cbn [andb bind] in E. rewrite V1, V2, V3 in E. cbn [olt] in E.
      replace (R_ltb (ln (bk_b bk)) (ln (bk_c bk))) with true in E by (symmetry; apply R_ltb_spec; lra). rewrite andb_true_r in E.
      destruct (R_ltb (ln (bk_b bk)) va) eqn:C; [apply R_ltb_spec in C|apply R_ltb_false in C].
      * cbn [bind] in E. destruct (fl_brent_line_search rnd ln (bk_a bk) (bk_b bk) (bk_c bk) (ln (bk_b bk)) (cg_ls_max s) (cg_ls_tolerance s) (cg_ls_epsilon s)) as [[m0 m1] calls] eqn:Br.
        destruct (C104_best_probe u rnd RN MON U ln (bk_a bk) (bk_b bk) (bk_c bk) _ _ _ m0 m1 calls Fa Fb Fc ltac:(lra) Br) as ((Q1 & Q2 & Q3 & _) & _).
        replace (R_ltb m0 (bk_a bk)) with false in E by (symmetry; apply R_ltb_false; lra). replace (R_ltb (bk_c bk) m0) with false in E by (symmetry; apply R_ltb_false; lra). cbn [negb andb bind] in E. replace (R_ltb (ln (bk_b bk)) m1) with false in E by (symmetry; apply R_ltb_false; lra). cbn [negb bind] in E. discriminate.
      * destruct P as [P|P]; [lra|]. exists (bk_a bk). destruct Va as [[Va1 Va2]|Va]; [lra|]. split.
        -- destruct A1 as [[A1|A1] A3]; [exact A1|]. rewrite <- A1, Rmult_0_l, R0 in P. lra.
        -- rewrite <- P. lra.
  - clear E. destruct (fl_bracket_ok_or_fuel fuel (cg_y s) ln (cg_lambda s) (cg_bracket_epsilon s)) as [(r & Er)|Er]; congruence.
Qed.
(** every state reached by calls of iterate *)
Inductive fl_cg_reaches (debug : bool) (f : point -> R) (deriv : point -> point) (s0 : cg) : nat -> bool -> cg -> Prop :=
| fl_reach_start : fl_cg_reaches debug f deriv s0 0 true s0
| fl_reach_step k more s fuel s' more' : fl_cg_reaches debug f deriv s0 k more s -> fl_cg_iterate rnd debug fuel f deriv s = Ok (s', more') -> fl_cg_reaches debug f deriv s0 (S k) (more && more') s'.
Lemma fl_update_same grad s s' : fl_update_vectors_PR rnd grad s = Ok s' -> (forall i, cg_minus_h s' i = - cg_h s' i) /\ cg_g s' = grad /\ cg_size s' = cg_size s /\ cg_x s' = cg_x s /\ cg_y s' = cg_y s /\ cg_old_y s' = cg_old_y s /\ cg_iterations s' = cg_iterations s /\
  cg_lambda s' = cg_lambda s /\ cg_max_iterations s' = cg_max_iterations s /\ cg_tolerance s' = cg_tolerance s /\ cg_epsilon s' = cg_epsilon s.
Proof. intros E. unfold fl_update_vectors_PR in E. destruct (div _ _); try discriminate. cbn [bind] in E. injection E as <-. repeat split. Qed.
Lemma fl_iterate_good debug fuel f deriv s s' more : fl_cg_good f s -> fl_cg_iterate rnd debug fuel f deriv s = Ok (s', more) -> fl_cg_good f s' /\ cg_y s' <= cg_y s /\ cg_iterations s' = (cg_iterations s + 1)%Z /\ cg_size s' = cg_size s /\
  cg_max_iterations s' = cg_max_iterations s /\ (more = true -> (cg_iterations s' <= cg_max_iterations s)%Z).
Proof.
  intros G E. unfold fl_cg_iterate in E. destruct (fl_find_next_point rnd debug fuel f s) as [s1| | | | |] eqn:F; try discriminate. cbn [bind] in E. destruct (C107_find_next_point debug fuel f s s1 G F) as (_ & Y & L & _ & _ & It & Ss). destruct Ss as (S1 & S2 & S3 & S4 & S5 & S6 & S7 & S8 & S9 & S10 & S11).
  destruct G as (Hm & Hy & Hl & Fl). destruct (negb (fl_cg_finished rnd s1)) eqn:Fi.
  - destruct (fl_update_vectors_PR rnd (deriv (cg_x s1)) s1) as [s2| | | | |] eqn:Up; try discriminate. cbn [bind] in E. injection E as <- <-. destruct (fl_update_same _ _ _ Up) as (U1 & _ & U3 & U4 & U5 & _ & U7 & U8 & U9 & _).
    unfold fl_cg_finished in Fi. apply negb_true_iff, orb_false_iff in Fi. destruct Fi as [Fi _]. apply Z.ltb_ge in Fi.
    split; [split; [exact U1|]; split; [congruence|]; split; congruence|]. split; [lra|]. split; [congruence|]. split; [congruence|]. split; [congruence|]. intros _. lia.
  - injection E as <- <-. split; [split; [intros i; rewrite S4, S3; apply Hm|]; split; [exact Y|]; split; congruence|]. split; [exact L|]. split; [exact It|]. split; [exact S1|]. split; [exact S9|discriminate].
Qed.
Lemma fl_init_good me n f start deriv j1 j2 j3 : rnd 1 = 1 -> fl_cg_good f (fl_cg_init rnd me n start (f start) (deriv start) j1 j2 j3).
Proof. intros F1. unfold fl_cg_init, fl_cg_good. cbn. split; [reflexivity|]. split; [reflexivity|]. split; [lra|exact F1]. Qed.
(** after any calls of iterate y is exactly the function at x, it has never risen, and a loop "while(iterate)" makes at most 100 n + 1 calls *)
Theorem C107_history : forall debug me n f deriv start j1 j2 j3 k more s, rnd 1 = 1 -> let s0 := fl_cg_init rnd me n start (f start) (deriv start) j1 j2 j3 in fl_cg_reaches debug f deriv s0 k more s ->
  (forall i, cg_minus_h s i = - cg_h s i) /\ cg_y s = f (cg_x s) /\ cg_y s <= f start /\ cg_iterations s = Z.of_nat k /\ (more = true -> (k <= 100 * n)%nat).
Proof.
  intros debug me n f deriv start j1 j2 j3 k more s F1 s0 H. assert (fl_cg_good f s /\ cg_y s <= f start /\ cg_iterations s = Z.of_nat k /\ cg_max_iterations s = (Z.of_nat n * 100)%Z /\ (more = true -> (k <= 100 * n)%nat)) as ((G1 & G2 & _) & L & I & _ & K); [|auto].
  induction H as [|k more s fuel s' more' H (G & L & I & M & K) E].
  - split; [apply fl_init_good; exact F1|]. split; [apply Rle_refl|]. split; [reflexivity|]. split; [reflexivity|]. intros _. lia.
  - destruct (fl_iterate_good debug fuel f deriv s s' more' G E) as (G' & L' & I' & _ & M' & K'). split; [exact G'|]. split; [lra|]. split; [lia|]. split; [congruence|]. intros T. apply andb_true_iff in T. specialize (K' (proj2 T)). lia.
Qed.
(** the bracketing ends if the function rises from some point on, or never falls below its start value *)
Lemma fl_backward_ends f zeps : forall k lambda av c cv fuel, 0 < lambda -> lambda / (3 / 2) ^ S k < zeps -> (S k <= fuel)%nat -> exists r, fl_bk_backward rnd fuel f zeps lambda av c cv = Ok r.
Proof.
  induction k as [|k IH]; intros lambda av c cv fuel Hl Hz Hf; (destruct fuel as [|fuel]; [lia|]); cbn [fl_bk_backward]; (destruct (olt _ _); [eauto|]); (destruct (R_ltb (rnd (lambda * / 2)) zeps) eqn:T; [eauto|]); apply R_ltb_false in T; pose proof (up (lambda * / 2) ltac:(lra)).
  - cbn [pow] in Hz. lra.
  - apply IH; [lra| |lia]. apply Rle_lt_trans with (2 := Hz). assert (P : 0 < (3 / 2) ^ S k) by (apply pow_lt; lra). change ((3 / 2) ^ S (S k)) with (3 / 2 * (3 / 2) ^ S k). set (q := (3 / 2) ^ S k) in *.
    apply Rmult_le_reg_r with q; [exact P|]. replace (rnd (lambda * / 2) / q * q) with (rnd (lambda * / 2)) by (field; lra). replace (lambda / (3 / 2 * q) * q) with (lambda * / (3 / 2)) by (field; lra). lra.
Qed.
Lemma fl_forward_ends f X : (forall x y, X <= x < y -> f x < f y) -> forall k lambda a av fuel, 0 < lambda -> X <= lambda * (3 / 2) ^ k -> (S k <= fuel)%nat -> exists r last, fl_bk_forward rnd fuel (total_fun f) lambda lambda a av lambda (Some (f lambda)) = Ok (r, last) /\ bk_cv r <> None.
Proof.
  intros HX. induction k as [|k IH]; intros lambda a av fuel Hl Hk Hf; (destruct fuel as [|fuel]; [lia|]); cbn [fl_bk_forward]; unfold total_fun; cbn [isnan olt]; (destruct (R_ltb (f lambda) (f (rnd (lambda * 2)))) eqn:T; [do 2 eexists; split; [reflexivity|discriminate]|]); apply R_ltb_false in T; pose proof (up (lambda * 2) ltac:(lra)).
  - cbn [pow] in Hk. pose proof (HX lambda (rnd (lambda * 2)) ltac:(lra)). lra.
  - apply (IH (rnd (lambda * 2))); [lra| |lia]. cbn [pow] in Hk. assert (P : 0 < (3 / 2) ^ k) by (apply pow_lt; lra). set (q := (3 / 2) ^ k) in *. assert (lambda * (3 / 2) * q <= rnd (lambda * 2) * q) by (apply Rmult_le_compat_r; lra). lra.
Qed.
Theorem C107_bracket_terminates : forall f y lambda zeps X, 0 < lambda -> 0 < zeps -> (forall x y, X <= x < y -> f x < f y) -> exists n, forall fuel, (n <= fuel)%nat -> exists r, fl_bracket_minimum_forward rnd fuel (Some y) (total_fun f) lambda zeps = Ok r.
Proof.
  intros f y lambda zeps X Hl Hz HX. assert (above : forall x, exists k, x <= (3 / 2) ^ k).
  { intros x. destruct (Pow_x_infinity (3 / 2) ltac:(rewrite Rabs_right; lra) x) as [k Hk]. exists k. specialize (Hk k (le_n k)). rewrite Rabs_right in Hk by (left; apply pow_lt; lra). lra. }
  destruct (above (X / lambda)) as [k1 K1]. destruct (above (lambda / zeps)) as [k2 K2]. exists (S (S (k1 + k2))). intros [|fuel] Hf; [lia|]. unfold fl_bracket_minimum_forward. change (fl_bk_start rnd (S fuel) (total_fun f) lambda) with (Ok (lambda, Some (f lambda))). cbn [bind olt]. destruct (R_ltb (f lambda) y).
  - assert (K1' : X <= lambda * (3 / 2) ^ k1). { apply Rmult_le_compat_l with (r := lambda) in K1; [|lra]. replace (lambda * (X / lambda)) with X in K1 by (field; lra). exact K1. }
    destruct (fl_forward_ends f X HX k1 lambda 0 (Some y) (S fuel) Hl K1' ltac:(lia)) as (r & last & E & N). rewrite E. cbn [bind]. destruct (bk_cv r) eqn:Ec; [|congruence]. cbn [isnan]. eauto.
  - destruct (fl_backward_ends (total_fun f) zeps k2 lambda (Some y) lambda (Some (f lambda)) (S fuel) Hl) as [r E]; [|lia|eauto].
    assert (P : 0 < (3 / 2) ^ k2) by (apply pow_lt; lra). assert (K2' : lambda <= zeps * (3 / 2) ^ k2). { apply Rmult_le_compat_l with (r := zeps) in K2; [|lra]. replace (zeps * (lambda / zeps)) with lambda in K2 by (field; lra). exact K2. }
    cbn [pow]. apply Rmult_lt_reg_r with (r := 3 / 2 * (3 / 2) ^ k2); [lra|]. replace (lambda / (3 / 2 * (3 / 2) ^ k2) * (3 / 2 * (3 / 2) ^ k2)) with lambda by (field; lra). nra.
Qed.
(** iterate never divides by zero: a computed sum of squares is zero only for a zero vector, then the search direction is zero, nothing moves and iterate stops *)
Lemma fsum_sq_nonneg n (g : nat -> R) : 0 <= @sum R (FlOps rnd) n (fun i => rnd (g i * g i)) /\ (@sum R (FlOps rnd) n (fun i => rnd (g i * g i)) = 0 -> forall i, (i < n)%nat -> g i = 0).
Proof.
  induction n as [|n [P Z]].
  - split; [apply Rle_refl|]. intros _ i Hi. lia.
  - cbn [sum FlOps fadd]. change (@sum R _ n (fun i => rnd (g i * g i))) with (@sum R (FlOps rnd) n (fun i => rnd (g i * g i))). set (q := @sum R (FlOps rnd) n (fun i => rnd (g i * g i))) in *. pose proof (Rle_0_sqr (g n)) as Sq. unfold Rsqr in Sq. pose proof (up _ Sq) as S1. pose proof (up (q + rnd (g n * g n)) ltac:(lra)) as S2. split; [lra|].
    intros E i Hi. rewrite E in S2. destruct (Nat.eq_dec i n) as [->|Ne]; [|apply Z; [lra|lia]]. assert (Q : g n * g n = 0) by lra. apply Rmult_integral in Q. destruct Q; assumption.
Qed.
Definition fl_cg_calm (s : cg) : Prop := ((forall i, (i < cg_size s)%nat -> cg_g s i = 0) -> forall i, (i < cg_size s)%nat -> cg_h s i = 0) /\ 0 <= cg_tolerance s /\ 0 <= cg_epsilon s /\ (forall i, rnd (cg_x s i) = cg_x s i).
Lemma fl_dot_zero n (x y : nat -> R) : (forall i, (i < n)%nat -> y i = 0) -> @sum R (FlOps rnd) n (fun i => rnd (x i * y i)) = 0.
Proof.
  intros H. induction n as [|n IH]; [reflexivity|]. cbn [sum FlOps fadd]. change (@sum R _ n (fun i => rnd (x i * y i))) with (@sum R (FlOps rnd) n (fun i => rnd (x i * y i))). rewrite IH by (intros; apply H; lia). rewrite H by lia. rewrite Rmult_0_r, R0, Rplus_0_l. apply R0.
Qed.
Lemma fl_calm_init me n f start deriv j1 j2 j3 : 0 <= me -> (forall i, rnd (start i) = start i) -> fl_cg_calm (fl_cg_init rnd me n start (f start) (deriv start) j1 j2 j3).
Proof.
  intros Hme Fs. unfold fl_cg_calm, fl_cg_init. cbn [cg_size cg_g cg_h cg_tolerance cg_epsilon cg_x]. split; [auto|]. pose proof (up (sqrt me) (sqrt_pos me)). pose proof (sqrt_pos me). assert (P : 0 < / 10 ^ 20) by (apply Rinv_0_lt_compat, pow_lt; lra). pose proof (up (/ 10 ^ 20) ltac:(lra)). split; [lra|]. split; [lra|exact Fs].
Qed.
Lemma fl_iterate_calm debug fuel f deriv s s' more : fl_cg_good f s -> fl_cg_calm s -> fl_cg_iterate rnd debug fuel f deriv s = Ok (s', more) -> fl_cg_calm s'.
Proof.
  intros G (K & T & Ep & Fx) E. unfold fl_cg_iterate in E. destruct (fl_find_next_point rnd debug fuel f s) as [s1| | | | |] eqn:F; try discriminate. cbn [bind] in E. destruct (C107_find_next_point debug fuel f s s1 G F) as (Xs & _ & _ & _ & _ & _ & S1 & S2 & S3 & S4 & _ & _ & S7 & S8 & _).
  assert (Fx1 : forall i, rnd (cg_x s1 i) = cg_x s1 i) by (destruct Xs as [[-> _]|(_ & t & _ & _ & Xs)]; [exact Fx|intros i; rewrite Xs; apply RR]).
  destruct (negb (fl_cg_finished rnd s1)).
  - destruct (fl_update_vectors_PR rnd (deriv (cg_x s1)) s1) as [s2| | | | |] eqn:Up; try discriminate. cbn [bind] in E. injection E as <- _. destruct (fl_update_same _ _ _ Up) as (_ & U1 & U3 & U4 & _ & _ & _ & _ & _ & U10 & U11).
    split; [|split; [congruence|split; [congruence|rewrite U4; exact Fx1]]]. intros Gz i Hi. rewrite U3 in Gz, Hi. rewrite U1 in Gz. unfold fl_update_vectors_PR in Up. rewrite !fl_dot_zero in Up by exact Gz. rewrite Rminus_0_r, R0 in Up. unfold div in Up. cbn [feqb FlOps f0 fdiv] in Up. destruct (R_eqb _ 0); [discriminate|]. cbn [bind] in Up. injection Up as <-. cbn [cg_h].
    rewrite (Gz i Hi). unfold Rdiv. rewrite !Rmult_0_l, R0, Rmult_0_l, R0, Rplus_0_l. apply R0.
  - injection E as <- _. split; [rewrite S1, S2, S3; exact K|]. split; [congruence|]. split; [congruence|exact Fx1].
Qed.
Theorem C107_never_divides_by_zero : forall debug me n f deriv start j1 j2 j3 k more s fuel, rnd 1 = 1 -> 0 <= me -> (forall i, rnd (start i) = start i) -> let s0 := fl_cg_init rnd me n start (f start) (deriv start) j1 j2 j3 in
  depends_on n f -> fl_cg_reaches debug f deriv s0 k more s -> fl_cg_iterate rnd debug fuel f deriv s <> NonFinite.
Proof.
  intros debug me n f deriv start j1 j2 j3 k more s fuel F1 Hme Fs s0 D H. assert (fl_cg_good f s /\ fl_cg_calm s /\ cg_size s = n) as (G & K & Sz).
  { induction H as [|k more s fuel' s' more' H (G & K & Sz) E]; [split; [apply fl_init_good; exact F1|split; [apply fl_calm_init; assumption|reflexivity]]|]. destruct (fl_iterate_good _ _ _ _ _ _ _ G E) as (G' & _ & _ & Sz' & _). split; [exact G'|]. split; [|congruence]. eapply fl_iterate_calm; [exact G|exact K|exact E]. }
  intros E. unfold fl_cg_iterate in E. destruct (fl_find_next_point rnd debug fuel f s) as [s1| | | | |] eqn:F; try discriminate.
  - cbn [bind] in E. destruct (C107_find_next_point debug fuel f s s1 G F) as (Xs & Y & Yl & Oy & Ox & _ & S1 & S2 & S3 & S4 & _ & _ & S7 & S8 & _).
    destruct (negb (fl_cg_finished rnd s1)) eqn:Fi; [|discriminate]. destruct (fl_update_vectors_PR rnd (deriv (cg_x s1)) s1) as [s2| | | | |] eqn:Up; try discriminate.
    assert (Gz : forall i, (i < cg_size s)%nat -> cg_g s i = 0). { rewrite <- S1, <- S2. apply (proj2 (fsum_sq_nonneg (cg_size s1) (cg_g s1))). unfold fl_update_vectors_PR, div in Up. cbn [feqb FlOps f0] in Up. destruct (R_eqb _ 0) eqn:Z; [apply R_eqb_spec; exact Z|discriminate]. }
    destruct K as (K & T & Ep & Fx). pose proof (K Gz) as Hz.
    assert (Ys : cg_y s1 = cg_y s).
    { destruct Xs as [[_ Xs]|(_ & t & _ & _ & Xs)]; [exact Xs|]. rewrite Y. destruct G as (_ & -> & _). apply D. intros i Hi. rewrite Xs, Hz by congruence. rewrite Rmult_0_r, R0, Rminus_0_r. apply Fx. }
    unfold fl_cg_finished in Fi. apply negb_true_iff, orb_false_iff in Fi. destruct Fi as [_ Fi]. apply negb_false_iff, R_ltb_spec in Fi. rewrite Oy, Ys, (Rminus_diag_eq (cg_y s) (cg_y s)), R0, Rabs_R0, Rmult_0_r, R0 in Fi by reflexivity. pose proof (Rabs_pos (cg_y s)). rewrite S7, S8 in Fi.
    pose proof (up (Rabs (cg_y s) + Rabs (cg_y s)) ltac:(lra)). pose proof (up (rnd (Rabs (cg_y s) + Rabs (cg_y s)) + cg_epsilon s) ltac:(lra)). assert (P : 0 <= cg_tolerance s * rnd (rnd (Rabs (cg_y s) + Rabs (cg_y s)) + cg_epsilon s)) by (apply Rmult_le_pos; lra). pose proof (up _ P). lra.
  - clear E. unfold fl_find_next_point in F. rewrite fl_line_fold in F. set (ln := fl_line rnd f (cg_x s) (cg_minus_h s)) in *. destruct G as (Gm & Gy & Gl & Fl).
    destruct (fl_bracket_minimum_forward _ _ _ _ _ _) as [bk| | | | |] eqn:B; try discriminate.
    + cbn [bind] in F. destruct (C107_bracket fuel (cg_y s) ln _ _ bk Gl Fl B) as [->|(A1 & A2 & _ & _ & _ & va & V1 & _ & V2 & V3 & _)].
      * cbn [bk_zeros bk_a bk_b bk_c] in F. assert (Z : R_eqb 0 0 = true) by (apply R_eqb_spec; reflexivity). rewrite Z in F. discriminate.
      * rewrite V2, V3 in F. destruct (_ && _); [discriminate|]. destruct (R_ltb _ _); [discriminate|]. unfold cg_assert, assert_ in F. destruct (fl_brent_line_search _ _ _ _ _ _ _ _ _) as [[m0 m1] cl]. repeat (match type of F with context [if ?c then _ else _] => destruct c end; cbn [bind] in F; try discriminate).
    + destruct (fl_bracket_ok_or_fuel fuel (cg_y s) ln (cg_lambda s) (cg_bracket_epsilon s)) as [(r & Er)|Er]; congruence.
Qed.
Let Ur : 0 <= u < 1. Proof. apply RN. Qed.
Let nf k c : near u k c -> fac u k c.
Proof.
  intros [A B]. split; [exact A|]. pose proof (pow_1mu u k Ur). apply (Rle_trans _ ((1 + u) ^ k * (1 - u) ^ k)); [apply Rmult_le_compat_r; lra|]. rewrite <- Rpow_mult_distr. apply (Rle_trans _ (1 ^ k)); [|rewrite pow1; lra]. apply pow_incr. nra.
Qed.
Lemma sq_near n (x c : nat -> R) : (forall i, (i < n)%nat -> near u n (c i)) -> exists d, near u n d /\ Sum n (fun i => x i * x i * c i) = Sum n (fun i => x i * x i) * d.
Proof.
  intros H. set (q := Sum n (fun i => x i * x i)). set (z := Sum n (fun i => x i * x i * c i)). assert (P : 0 <= q) by (unfold q; rewrite <- (S_zero n (fun _ => 0)) by (intros; reflexivity); apply LemExp.S_le; intros; nra).
  assert (A : (1 - u) ^ n * q <= z <= (1 + u) ^ n * q). { unfold q, z. rewrite <- !S_mul_l. split; apply LemExp.S_le; intros i Hi; destruct (H i Hi); pose proof (Rle_0_sqr (x i)) as Sq; unfold Rsqr in Sq; [rewrite (Rmult_comm _ (x i * x i))|rewrite (Rmult_comm ((1 + u) ^ n))]; apply Rmult_le_compat_l; assumption. }
  destruct P as [P|P].
  - exists (z / q). split; [|field; lra]. split; apply Rmult_le_reg_r with q; try exact P; replace (z / q * q) with z by (field; lra); lra.
  - exists 1. rewrite <- P in A. rewrite !Rmult_0_r in A. split; [|lra]. split; [apply (pow_1mu u n Ur)|apply pow_1pu; lra].
Qed.
(** update_vectors_PR: the Polak-Ribiere direction up to a factor of 2n+2 roundings on each product and two on each coordinate *)
Theorem C107_update : forall grad s s', fl_update_vectors_PR rnd grad s = Ok s' ->
  let n := cg_size s in let gg := Sum n (fun i => cg_g s i * cg_g s i) in gg <> 0 /\ cg_g s' = grad /\ cg_old_g s' = cg_g s /\ cg_old_h s' = cg_h s /\ cg_size s' = n /\
  (forall i, cg_minus_h s' i = - cg_h s' i) /\ cg_x s' = cg_x s /\ cg_y s' = cg_y s /\ cg_iterations s' = cg_iterations s /\
  exists p q : nat -> R, (forall k, (k < n)%nat -> fac u (2 * n + 2) (p k) /\ fac u (2 * n + 2) (q k)) /\
    forall i, exists a b, fac u 1 a /\ fac u 1 b /\ cg_h s' i = (grad i + Sum n (fun k => grad k * grad k * p k - cg_g s k * grad k * q k) / gg * cg_h s i * a) * b.
Proof.
  intros grad s s' E n gg. pose proof (fl_update_same _ _ _ E) as (A1 & A2 & A3 & A4 & A5 & _ & A7 & _). unfold fl_update_vectors_PR in E. fold n in E.
  destruct (dot_near u rnd RN (cg_g s) (cg_g s) n) as (c1 & H1 & E1). destruct (dot_near u rnd RN grad grad n) as (c2 & H2 & E2). destruct (dot_near u rnd RN (cg_g s) grad n) as (c3 & H3 & E3). unfold fsum in E1, E2, E3. rewrite E1, E2, E3 in E.
  destruct (sq_near n (cg_g s) c1 H1) as (d & Hd & Ed). rewrite Ed in E. fold gg in E. pose proof (nf n d Hd) as Fd. pose proof (fac_pos u n d Ur Fd) as Pd. unfold div in E. cbn [feqb FlOps f0 fdiv] in E.
  destruct (R_eqb (gg * d) 0) eqn:Z; [discriminate|]. cbn [bind] in E. injection E as E. assert (Zg : gg <> 0) by (intros Q; rewrite Q, Rmult_0_l in Z; assert (T : R_eqb 0 0 = true) by (apply R_eqb_spec; reflexivity); congruence).
  split; [exact Zg|]. split; [exact A2|]. split; [rewrite <- E; reflexivity|]. split; [rewrite <- E; reflexivity|]. split; [exact A3|]. split; [exact A1|]. split; [exact A4|]. split; [exact A5|]. split; [exact A7|].
  destruct (rnd_fac u rnd RN (Sum n (fun i => grad i * grad i * c2 i) - Sum n (fun i => cg_g s i * grad i * c3 i))) as (t & Ft & Et). rewrite Et in E.
  destruct (rnd_fac u rnd RN ((Sum n (fun i => grad i * grad i * c2 i) - Sum n (fun i => cg_g s i * grad i * c3 i)) * t / (gg * d))) as (w & Fw & Ew). rewrite Ew in E.
  set (z := t * / d * w). assert (Fz : fac u (n + 2) z). { unfold z. replace (n + 2)%nat with (1 + n + 1)%nat by lia. apply fac_mul; [exact Ur| |exact Fw]. apply fac_mul; [exact Ur|exact Ft|apply fac_inv; assumption]. }
  exists (fun k => c2 k * z), (fun k => c3 k * z). split.
  - intros k Hk. replace (2 * n + 2)%nat with (n + (n + 2))%nat by lia. split; (apply fac_mul; [exact Ur|apply nf; auto|exact Fz]).
  - intros i. set (gamma := Sum n (fun k => grad k * grad k * (c2 k * z) - cg_g s k * grad k * (c3 k * z)) / gg).
    assert (G : (Sum n (fun i => grad i * grad i * c2 i) - Sum n (fun i => cg_g s i * grad i * c3 i)) * t / (gg * d) * w = gamma).
    { unfold gamma, z. rewrite (S_ext n (fun k => grad k * grad k * (c2 k * (t * / d * w)) - cg_g s k * grad k * (c3 k * (t * / d * w))) (fun k => (grad k * grad k * c2 k - cg_g s k * grad k * c3 k) * (t * / d * w))) by (intros; ring). rewrite S_mul_r, S_sub. field; repeat split; first [exact Zg|lra]. }
    rewrite G in E. rewrite <- E. cbn [cg_h]. destruct (rnd_fac u rnd RN (gamma * cg_h s i)) as (a & Fa & ->). destruct (rnd_fac u rnd RN (grad i + gamma * cg_h s i * a)) as (b & Fb & ->). exists a, b. auto.
Qed.
(** iterate(): whether to continue is decided as without rounding, up to a factor of five roundings between the two sides *)
Lemma fac_mix k a b c : 0 <= a -> 0 <= b -> fac u k c -> exists d, fac u k d /\ a * c + b = (a + b) * d.
Proof.
  intros Ha Hb F. pose proof (fac_pos u k c Ur F) as Pc. pose proof (pow_1mu u k Ur) as Pw. destruct F as [F1 F2]. destruct (Req_dec (a + b) 0) as [Z|Z].
  - exists c. split; [split; assumption|]. assert (a = 0) by lra. assert (b = 0) by lra. subst. ring.
  - exists ((a * c + b) / (a + b)). split; [|field; exact Z]. assert (P : 0 < a + b) by lra. split; (apply Rmult_le_reg_r with (a + b); [exact P|]).
    + replace ((a * c + b) / (a + b) * (a + b)) with (a * c + b) by (field; exact Z). assert (a * (1 - u) ^ k <= a * c) by (apply Rmult_le_compat_l; lra). assert (b * (1 - u) ^ k <= b * 1) by (apply Rmult_le_compat_l; lra). lra.
    + replace ((a * c + b) / (a + b) * (1 - u) ^ k * (a + b)) with (a * (c * (1 - u) ^ k) + b * (1 - u) ^ k) by (field; exact Z). assert (a * (c * (1 - u) ^ k) <= a * 1) by (apply Rmult_le_compat_l; lra). assert (b * (1 - u) ^ k <= b * 1) by (apply Rmult_le_compat_l; lra). lra.
Qed.
Theorem C107_continue : forall debug fuel f deriv s s' more, fl_cg_good f s -> 0 <= cg_epsilon s -> fl_cg_iterate rnd debug fuel f deriv s = Ok (s', more) ->
  exists d, fac u 5 d /\ (more = true <-> (cg_iterations s' <= cg_max_iterations s)%Z /\ cg_tolerance s * (Rabs (cg_y s') + Rabs (cg_y s) + cg_epsilon s) < 2 * Rabs (cg_y s' - cg_y s) * d).
Proof.
  intros debug fuel f deriv s s' more G He E. unfold fl_cg_iterate in E. destruct (fl_find_next_point rnd debug fuel f s) as [s1| | | | |] eqn:F; try discriminate. cbn [bind] in E.
  destruct (C107_find_next_point debug fuel f s s1 G F) as (_ & _ & _ & Oy & _ & _ & _ & _ & _ & _ & _ & _ & St & Se & Sm & _).
  assert (V : more = negb (fl_cg_finished rnd s1) /\ cg_y s' = cg_y s1 /\ cg_iterations s' = cg_iterations s1).
  { destruct (negb (fl_cg_finished rnd s1)); [|injection E as <- <-; auto]. destruct (fl_update_vectors_PR rnd (deriv (cg_x s1)) s1) as [s2| | | | |] eqn:Up; try discriminate. cbn [bind] in E. injection E as <- <-. destruct (fl_update_same _ _ _ Up) as (_ & _ & _ & _ & U5 & _ & U7 & _). auto. }
  destruct V as (-> & -> & ->). unfold fl_cg_finished. rewrite St, Se, Sm, Oy. set (y1 := cg_y s1). set (y0 := cg_y s). set (e := cg_epsilon s) in *. set (tol := cg_tolerance s).
  pose proof (Rabs_pos y1). pose proof (Rabs_pos y0).
  destruct (rnd_fac u rnd RN (Rabs y1 + Rabs y0)) as (c1 & F1 & E1). rewrite E1. destruct (rnd_fac u rnd RN ((Rabs y1 + Rabs y0) * c1 + e)) as (c2 & F2 & E2). rewrite E2. destruct (fac_mix 1 (Rabs y1 + Rabs y0) e c1 ltac:(lra) He F1) as (d1 & D1 & M1). rewrite M1.
  set (A := Rabs y1 + Rabs y0 + e). destruct (rnd_fac u rnd RN (tol * (A * d1 * c2))) as (c3 & F3 & E3). rewrite E3. destruct (rnd_fac u rnd RN (y1 - y0)) as (c4 & F4 & E4). rewrite E4, Rabs_mult. pose proof (fac_pos u _ c4 Ur F4) as P4. rewrite (Rabs_right c4) by lra. destruct (rnd_fac u rnd RN (2 * (Rabs (y1 - y0) * c4))) as (c5 & F5 & E5). rewrite E5.
  set (L := d1 * c2 * c3). assert (FL : fac u 3 L) by (unfold L; replace 3%nat with (1 + 1 + 1)%nat by reflexivity; apply fac_mul; [exact Ur|apply fac_mul; assumption|exact F3]). pose proof (fac_pos u _ L Ur FL) as PL. exists (c4 * c5 * / L). split.
  - change 5%nat with (1 + 1 + 3)%nat. apply fac_mul; [exact Ur|apply fac_mul; assumption|apply fac_inv; assumption].
  - rewrite negb_orb, negb_involutive, andb_true_iff, negb_true_iff, Z.ltb_ge, R_ltb_spec. replace (tol * (A * d1 * c2) * c3) with (tol * A * L) by (unfold L; ring). replace (2 * (Rabs (y1 - y0) * c4) * c5) with (2 * Rabs (y1 - y0) * (c4 * c5 * / L) * L) by (field; lra).
    split; intros [H1 H2]; (split; [exact H1|]); [apply Rmult_lt_reg_r with L; assumption|apply Rmult_lt_compat_r; assumption].
Qed.
End P.

(** ** In double precision *)
Lemma rnd64_symmetric : symmetric rnd64.
Proof. intros x. unfold rnd64. apply round_NE_opp. Qed.
Lemma rnd64_1_2 x n : 1 <= x < 2 -> Rabs (x * bpow radix2 52 - IZR n) < / 2 -> rnd64 x = IZR n * bpow radix2 (-52).
Proof.
  intros X N. assert (M : mag radix2 x = 1%Z :> Z). { apply mag_unique_pos. cbn. lra. }
  unfold rnd64, round, F2R, scaled_mantissa, cexp, FLX_exp. rewrite M. cbn [Fnum Fexp]. replace (- (1 - 53))%Z with 52%Z by lia. rewrite (Znearest_imp _ _ n N). reflexivity.
Qed.
(** when NaN ends the search, c may be equal to b: rounding makes the points tried next come down to b itself (without rounding the search would not end). So the result is not a bracket *)
Definition ends_at_1 (t : R) : option R := if R_ltb 1 t then None else Some (- t).
Lemma ends_at_1_none t : 1 < t -> ends_at_1 t = None. Proof. intros H. unfold ends_at_1. apply R_ltb_spec in H. rewrite H. reflexivity. Qed.
Lemma pw_neg k : bpow radix2 (- Z.of_nat (S k)) = bpow radix2 (- Z.of_nat k) * / 2.
Proof. replace (- Z.of_nat (S k))%Z with (- Z.of_nat k + - (1))%Z by lia. rewrite bpow_plus. reflexivity. Qed.
Lemma rnd64_pw e : rnd64 (bpow radix2 e) = bpow radix2 e.
Proof. pose proof (rnd64_exact 1 e ltac:(reflexivity)) as H. rewrite Rmult_1_l in H. exact H. Qed.
Lemma backoff_point k fuel : fl_bk_backoff rnd64 (S fuel) ends_at_1 1 2 (bpow radix2 (- Z.of_nat k)) =
  let c := rnd64 (1 + bpow radix2 (- Z.of_nat (S k))) in if negb (isnan (ends_at_1 c)) then Ok (c, ends_at_1 c) else fl_bk_backoff rnd64 fuel ends_at_1 1 2 (bpow radix2 (- Z.of_nat (S k))).
Proof. cbn [fl_bk_backoff]. rewrite <- pw_neg, rnd64_pw. replace (2 - 1) with 1 by ring. rewrite one_is, Rmult_1_l, rnd64_pw. reflexivity. Qed.
Lemma at_1 : ends_at_1 1 = Some (- (1)).
Proof. unfold ends_at_1. destruct (R_ltb 1 1) eqn:T; [apply R_ltb_spec in T; lra|reflexivity]. Qed.
Lemma backoff_small : forall fuel, (2 <= fuel)%nat -> fl_bk_backoff rnd64 fuel ends_at_1 1 2 (bpow radix2 (- Z.of_nat 52)) = Ok (1, Some (- (1))).
Proof.
  intros [|[|fuel]] H; try lia. rewrite backoff_point. cbn zeta. assert (E54 : rnd64 (1 + bpow radix2 (- Z.of_nat 54)) = 1).
  { rewrite (rnd64_1_2 _ (2 ^ 52)); [cbn; lra|cbn; lra|cbn; rewrite Rabs_right; lra]. }
  assert (Lo : 1 <= rnd64 (1 + bpow radix2 (- Z.of_nat 53))) by (rewrite <- one_is at 1; apply rnd64_mono; pose proof (bpow_gt_0 radix2 (- Z.of_nat 53)); lra).
  destruct (Rle_lt_or_eq_dec _ _ Lo) as [L|<-]; [|rewrite at_1; reflexivity]. rewrite (ends_at_1_none _ L). cbn [isnan negb]. rewrite backoff_point. cbn zeta. rewrite E54, at_1. reflexivity.
Qed.
Lemma backoff_big : forall j fuel, (j <= 52)%nat -> (j + 2 <= fuel)%nat -> fl_bk_backoff rnd64 fuel ends_at_1 1 2 (bpow radix2 (- Z.of_nat (52 - j))) = Ok (1, Some (- (1))).
Proof.
  induction j as [|j IH]; intros fuel Hj Hf; [apply backoff_small; lia|]. destruct fuel as [|fuel]; [lia|]. rewrite backoff_point. cbn zeta. replace (S (52 - S j)) with (52 - j)%nat by lia.
  assert (E : rnd64 (1 + bpow radix2 (- Z.of_nat (52 - j))) = 1 + bpow radix2 (- Z.of_nat (52 - j))).
  { assert (Q : 1 + bpow radix2 (- Z.of_nat (52 - j)) = IZR (2 ^ Z.of_nat (52 - j) + 1) * bpow radix2 (- Z.of_nat (52 - j))).
    { rewrite plus_IZR, (IZR_Zpower radix2) by lia. rewrite Rmult_plus_distr_r, <- bpow_plus, Z.add_opp_diag_r. cbn [bpow]. ring. }
    rewrite Q. apply rnd64_exact. assert (2 ^ Z.of_nat (52 - j) <= 2 ^ 52)%Z by (apply Z.pow_le_mono_r; lia). assert (0 < 2 ^ Z.of_nat (52 - j))%Z by (apply Z.pow_pos_nonneg; lia). rewrite Z.abs_eq by lia. assert (2 ^ 52 + 1 < 2 ^ 53)%Z by reflexivity. lia. }
  rewrite E, ends_at_1_none by (pose proof (bpow_gt_0 radix2 (- Z.of_nat (52 - j))); lra). cbn [isnan negb]. apply IH; lia.
Qed.
Theorem C107_nan_bracket_refuted : forall zeps fuel, (54 <= fuel)%nat -> fl_bracket_minimum_forward rnd64 fuel (Some 0) ends_at_1 1 zeps = Ok (mkbk 0 1 1 (Some 0) (Some (- (1))) (Some (- (1)))).
Proof.
  intros zeps fuel Hf. destruct fuel as [|fuel]; [lia|]. unfold fl_bracket_minimum_forward. cbn [fl_bk_start]. rewrite at_1. cbn [isnan bind olt]. replace (R_ltb (- (1)) 0) with true by (symmetry; apply R_ltb_spec; lra).
  cbn [fl_bk_forward]. rewrite Rmult_1_l, two_is, (ends_at_1_none 2) by lra. cbn [isnan bind bk_cv bk_c bk_a bk_b bk_av bk_bv].
  pose proof (backoff_big 52 (S fuel) ltac:(lia) ltac:(lia)) as B. rewrite Nat.sub_diag in B. change (bpow radix2 (- Z.of_nat 0)) with 1 in B. rewrite B. reflexivity.
Qed.
(** without rounding the same search never ends *)
Theorem C107_nan_exact_runs_for_ever : forall zeps fuel, bracket_minimum_forward fuel (Some 0) ends_at_1 1 zeps = OutOfFuel.
Proof.
  assert (B : forall fuel l, 0 < l -> bk_backoff fuel ends_at_1 1 2 l = OutOfFuel).
  { induction fuel as [|fuel IH]; intros l Hl; cbn [bk_backoff]; [reflexivity|]. rewrite ends_at_1_none by lra. cbn [isnan negb]. apply IH. lra. }
  intros zeps [|fuel]; [reflexivity|]. unfold bracket_minimum_forward. cbn [bk_start]. rewrite at_1. cbn [isnan bind olt]. replace (R_ltb (- (1)) 0) with true by (symmetry; apply R_ltb_spec; lra).
  cbn [bk_forward]. rewrite Rmult_1_l, (ends_at_1_none 2) by lra. cbn [isnan bind bk_cv bk_c]. rewrite B by lra. reflexivity.
Qed.
(** the hypotheses are met, and a completed call with the asserts on: x*x from 3 with its gradient finds the minimum *)
Example C107_case : forall me j1 j2 j3, let f := fun p : point => p 0%nat * p 0%nat in let start := fun _ : nat => 3 in let s := fl_cg_init rnd64 me 1 start (f start) (fun _ => 6) j1 j2 j3 in
  rounding (/ 2 * bpow radix2 (-52)) rnd64 /\ monotone rnd64 /\ / 2 * bpow radix2 (-52) <= 1 / 1000 /\ symmetric rnd64 /\ rnd64 1 = 1 /\ (forall i, rnd64 (start i) = start i) /\ depends_on 1 f /\ fl_cg_good rnd64 f s /\
  exists s', fl_find_next_point rnd64 true 1 f s = Ok s' /\ cg_y s' = 0.
Proof.
  intros me j1 j2 j3 f start s. split; [exact rnd64_rounding|]. split; [exact rnd64_mono|]. split; [exact u64_small|]. split; [exact rnd64_symmetric|]. split; [exact one_is|]. assert (F3 : rnd64 3 = 3) by (exact_ 3%Z 0%Z). split; [intros i; exact F3|].
  split; [intros p q H; unfold f; rewrite H by lia; reflexivity|]. split; [apply (fl_init_good rnd64 me 1 f start (fun _ _ => 6)); exact one_is|].
  set (ln := fl_line rnd64 f (cg_x s) (cg_minus_h s)).
  assert (F0 : rnd64 0 = 0) by (exact_ 0%Z 0%Z). assert (Fh : rnd64 (/ 2) = / 2) by (exact_ 1%Z (-1)%Z).
  assert (L1 : ln 1 = 9). { unfold ln, fl_line, f, s, fl_cg_init, start. cbn [cg_x cg_minus_h]. replace (1 * - (6)) with (- (6)) by ring. assert (F : rnd64 (- (6)) = - (6)) by (exact_ (-6)%Z 0%Z). rewrite F. replace (3 + - (6)) with (- (3)) by ring. rewrite rnd64_symmetric, F3. ring. }
  assert (Lh : ln (/ 2) = 0). { unfold ln, fl_line, f, s, fl_cg_init, start. cbn [cg_x cg_minus_h]. replace (/ 2 * - (6)) with (- (3)) by field. rewrite rnd64_symmetric, F3, Rplus_opp_r, F0. ring. }
  assert (Pos : forall t, 0 <= ln t) by (intros t; unfold ln, fl_line, f; apply Rle_0_sqr).
  unfold fl_find_next_point. fold ln. change (fun t => Some (ln t)) with (total_fun ln). assert (Y : cg_y s = 9) by (unfold s, fl_cg_init, f, start; cbn [cg_y]; ring). rewrite Y.
  assert (B : fl_bracket_minimum_forward rnd64 1 (Some 9) (total_fun ln) (cg_lambda s) (cg_bracket_epsilon s) = Ok (mkbk 0 (/ 2) 1 (Some 9) (Some (ln (/ 2))) (Some (ln 1)))).
  { change (cg_lambda s) with 1. unfold fl_bracket_minimum_forward. cbn [fl_bk_start]. unfold total_fun. cbn [isnan bind olt]. destruct (R_ltb (ln 1) 9) eqn:T; [apply R_ltb_spec in T; lra|]. cbn [fl_bk_backward]. rewrite Rmult_1_l, Fh. cbn [olt]. replace (R_ltb (ln (/ 2)) 9) with true by (symmetry; apply R_ltb_spec; lra). reflexivity. }
  rewrite B. cbn [bind bk_a bk_b bk_c bk_av bk_bv bk_cv]. destruct (R_eqb (/ 2) 0) eqn:Z; [apply R_eqb_spec in Z; lra|]. rewrite andb_false_r. cbn [andb]. destruct (R_ltb 1 (/ 2)) eqn:T; [apply R_ltb_spec in T; lra|].
  unfold cg_assert, assert_. replace (R_ltb 0 (/ 2)) with true by (symmetry; apply R_ltb_spec; lra). replace (R_ltb (/ 2) 1) with true by (symmetry; apply R_ltb_spec; lra). cbn [andb bind olt].
  replace (R_ltb (ln (/ 2)) 9) with true by (symmetry; apply R_ltb_spec; lra). replace (R_ltb (ln (/ 2)) (ln 1)) with true by (symmetry; apply R_ltb_spec; lra). cbn [andb bind].
  destruct (fl_brent_line_search rnd64 ln 0 (/ 2) 1 (ln (/ 2)) (cg_ls_max s) (cg_ls_tolerance s) (cg_ls_epsilon s)) as [[m0 m1] calls] eqn:Br.
  destruct (C104_best_probe _ rnd64 rnd64_rounding rnd64_mono u64_small ln 0 (/ 2) 1 _ _ _ m0 m1 calls F0 Fh one_is ltac:(lra) Br) as ((Q1 & Q2 & Q3 & _) & _).
  replace (R_ltb m0 0) with false by (symmetry; apply R_ltb_false; lra). replace (R_ltb 1 m0) with false by (symmetry; apply R_ltb_false; lra). cbn [negb andb bind]. replace (R_ltb (ln (/ 2)) m1) with false by (symmetry; apply R_ltb_false; lra). cbn [negb bind].
  eexists. split; [reflexivity|]. cbn. pose proof (Pos m0). lra.
Qed.
