(** * C65, C66: golden section and Brent line searches. *)
From Coq Require Import Reals ZArith Bool List Lra Lia Psatz.
From Verif Require Import Base Alg Inst LemEig SpecOpt ModelOpt LemOpt.
Import ListNotations.
Open Scope outcome_scope.
Local Open Scope R_scope.

(** ** C65 *)
(** whatever the function: when the search returns, the result is the best of all the points evaluated, and all lie in the bracket *)
Theorem C65_best_probe : forall fuel f a b c maxit tol x fx calls, a < b < c -> golden_section_search fuel f a b c (f b) maxit tol = Ok (x, fx, calls) -> best_probe f a c b calls x fx.
Proof.
  intros fuel f a b c maxit tol x fx calls H E. unfold golden_section_search in E. destruct (golden_loop fuel f maxit tol _) as [s| | | | |] eqn:L; try discriminate. cbn [bind] in E.
  destruct (golden_loop_inv (gs_inv f a b c) f maxit tol (step_inv f a b c) fuel _ s (init_inv f a b c H) L) as [(O & [V1 V2] & Ha & Hc & B & X1 & X2 & P) _]. unfold gs_best, gs_ordered in *.
  destruct (R_ltb (gs_f1 s) (gs_f2 s)) eqn:T; [apply R_ltb_spec in T|apply R_ltb_false in T]; injection E as <- <- <-; unfold best_probe.
  - rewrite Rmin_left in * by lra. split; [lra|]. split; [exact V1|]. split; [exact B|]. split; [exact X1|exact P].
  - rewrite Rmin_right in * by lra. split; [lra|]. split; [exact V2|]. split; [exact B|]. split; [exact X2|exact P].
Qed.
(** a unimodal function: the result is within the requested tolerance of the minimum *)
Theorem C65_finds_minimum : forall fuel f a b m c maxit tol x fx calls, a < b < c -> unimodal f a m c -> (1 < maxit)%Z -> 0 <= tol ->
  golden_section_search fuel f a b c (f b) maxit tol = Ok (x, fx, calls) -> Rabs (x - m) <= 2 * tol * Rmax (Rabs a) (Rabs c).
Proof.
  intros fuel f a b m c maxit tol x fx calls H U Hm Ht E. unfold golden_section_search in E. destruct (golden_loop fuel f maxit tol _) as [s| | | | |] eqn:L; try discriminate. cbn [bind] in E.
  assert (K0 : gs_keeps f a m c (golden_init f a b c (f b))).
  { split; [apply init_ordered; exact H|]. split; [apply init_values|]. destruct U as [U _]. unfold golden_init. destruct (R_ltb (Rabs (c - b)) (Rabs (b - a))); cbn [gs_a gs_c]; repeat split; lra. }
  destruct (golden_loop_inv (gs_keeps f a m c) f maxit tol (fun s => step_keeps f a m c s U) fuel _ s K0 L) as [(O & _ & Ka & Kc) C]. unfold gs_ordered in O.
  unfold golden_continue in C. apply andb_false_iff in C. destruct C as [C|C]; [|apply Z.ltb_ge in C; lia]. apply R_ltb_false in C. rewrite Rabs_right in C by lra.
  assert (Bd : forall y, a <= y <= c -> Rabs y <= Rmax (Rabs a) (Rabs c)).
  { intros y Hy. apply Rabs_le. pose proof (Rmax_l (Rabs a) (Rabs c)). pose proof (Rmax_r (Rabs a) (Rabs c)). pose proof (Rle_abs c). pose proof (Rle_abs (- a)). rewrite Rabs_Ropp in *. lra. }
  assert (W : gs_c s - gs_a s <= 2 * tol * Rmax (Rabs a) (Rabs c)). { pose proof (Bd (gs_x1 s) ltac:(lra)). pose proof (Bd (gs_x2 s) ltac:(lra)). nra. }
  assert (X : gs_a s <= x <= gs_c s) by (destruct (R_ltb (gs_f1 s) (gs_f2 s)); injection E as <- _ _; lra). apply Rabs_le. lra.
Qed.
(** it always stops when the bracket does not contain zero *)
Theorem C65_terminates_away_from_zero : forall f a b c maxit tol, a < b < c -> 0 < a \/ c < 0 -> 0 < tol -> exists fuel x fx calls, golden_section_search fuel f a b c (f b) maxit tol = Ok (x, fx, calls).
Proof.
  intros f a b c maxit tol H Z Ht. set (s0 := golden_init f a b c (f b)). set (m := Rmin (Rabs a) (Rabs c)).
  assert (Pm : 0 < m) by (unfold m; apply Rmin_glb_lt; apply Rabs_pos_lt; lra).
  assert (Bd : forall y, a <= y <= c -> m <= Rabs y).
  { intros y Hy. unfold m. destruct Z as [Z|Z]; [rewrite !Rabs_right by lra|rewrite !Rabs_left by lra]; [pose proof (Rmin_l a c)|pose proof (Rmin_r (- a) (- c))]; lra. }
  destruct (pow_lt_1_zero (3 / 4) ltac:(rewrite Rabs_right; lra) (tol * m / (c - a)) ltac:(apply Rdiv_lt_0_compat; nra)) as [N HN]. specialize (HN N (le_n N)). rewrite Rabs_right in HN by (left; apply pow_lt; lra).
  assert (I0 : gs_inv f a b c s0) by (apply init_inv; exact H).
  destruct (loop_ends f maxit tol (4 * N) s0) as (fuel & r & E).
  - pose proof (steps_inv (gs_inv f a b c) f (4 * N) s0 (step_inv f a b c) I0) as (O & _ & Ha & Hc & _). pose proof (steps_width f N s0 ltac:(apply I0)) as W. set (s := steps (4 * N) f s0) in *. unfold gs_ordered, gs_width in *.
    unfold golden_continue. apply andb_false_iff. left. apply R_ltb_false. rewrite Rabs_right by lra.
    assert (W0 : gs_c s0 - gs_a s0 = c - a) by (unfold s0, golden_init; destruct (R_ltb _ _); reflexivity). rewrite W0 in W.
    assert (W1 : (3 / 4) ^ N * (c - a) <= tol * m). { apply Rmult_lt_compat_r with (r := c - a) in HN; [|lra]. replace (tol * m / (c - a) * (c - a)) with (tol * m) in HN by (field; lra). lra. }
    pose proof (Bd (gs_x1 s) ltac:(lra)). pose proof (Bd (gs_x2 s) ltac:(lra)). nra.
  - unfold golden_section_search. fold s0. exists fuel. rewrite E. cbn [bind]. destruct (R_ltb (gs_f1 r) (gs_f2 r)); eauto.
Qed.
(** maxiterations does not bound the search: x*x on a bracket of 0 is searched for ever *)
Theorem C65_maxiterations_refuted : forall a b c maxit tol, a < b < c -> a < 0 < c -> (1 < maxit)%Z -> 0 <= tol <= / 2 ->
  unimodal (fun x => x * x) a 0 c /\ forall fuel, golden_section_search fuel (fun x => x * x) a b c (b * b) maxit tol = OutOfFuel.
Proof.
  intros a b c maxit tol H Z Hm Ht. split; [split; [lra|split; intros x y; intros; nra]|]. intros fuel. unfold golden_section_search. set (f := fun x => x * x).
  rewrite (loop_forever (fun s => gs_ordered s /\ gs_values f s /\ gs_a s < 0 < gs_c s)); [reflexivity| |].
  - intros s (O & V & Zs). split; [|split; [apply step_ordered; exact O|split; [apply step_values; exact V|]]].
    + unfold golden_continue. apply andb_true_iff. split; [|apply Z.ltb_lt; exact Hm]. apply R_ltb_spec. unfold gs_ordered in O. rewrite (Rabs_right (gs_c s - gs_a s)) by lra.
      assert (Rabs (gs_x1 s) < gs_c s - gs_a s) by (apply Rabs_def1; lra). assert (Rabs (gs_x2 s) < gs_c s - gs_a s) by (apply Rabs_def1; lra). pose proof (Rabs_pos (gs_x1 s)). pose proof (Rabs_pos (gs_x2 s)). nra.
    + destruct V as [V1 V2]. unfold golden_step, gs_ordered in *. destruct (R_ltb (gs_f2 s) (gs_f1 s)) eqn:T; [apply R_ltb_spec in T|apply R_ltb_false in T]; cbn [gs_a gs_c]; rewrite V1, V2 in T; unfold f in T; nra.
  - split; [apply init_ordered; exact H|]. split; [apply (init_values f)|]. unfold golden_init. destruct (R_ltb _ _); cbn [gs_a gs_c]; lra.
Qed.
(** non-vacuity: (x-2)^2 on (1, 5/2, 3) *)
Example ex_golden : exists fuel x fx calls, golden_section_search fuel (fun x => (x - 2) * (x - 2)) 1 (5 / 2) 3 (1 / 4) 100 (/ 1000) = Ok (x, fx, calls) /\ Rabs (x - 2) <= 6 / 1000.
Proof.
  set (f := fun x => (x - 2) * (x - 2)). replace (1 / 4) with (f (5 / 2)) by (unfold f; field).
  destruct (C65_terminates_away_from_zero f 1 (5 / 2) 3 100 (/ 1000) ltac:(lra) ltac:(lra) ltac:(lra)) as (fuel & x & fx & calls & E). exists fuel, x, fx, calls. split; [exact E|].
  assert (U : unimodal f 1 2 3) by (split; [lra|split; intros y z; intros; unfold f; nra]).
  pose proof (C65_finds_minimum fuel f 1 (5 / 2) 2 3 100 (/ 1000) x fx calls ltac:(lra) U ltac:(lia) ltac:(lra) E) as B. rewrite (Rabs_right 1), (Rabs_right 3), Rmax_right in B by lra. lra.
Qed.

(** ** C66 *)
Theorem C66_best_probe : forall f a x0 b maxit tol eps x fx calls, a <= x0 <= b -> brent_line_search f a x0 b (f x0) maxit tol eps = (x, fx, calls) ->
  best_probe f a b x0 calls x fx /\ (length calls <= Z.to_nat maxit)%nat.
Proof.
  intros f a x0 b maxit tol eps x fx calls H E. unfold brent_line_search in E. injection E as <- <- <-.
  assert (I0 : br_inv f a b x0 (brent_init a x0 b (f x0))). { unfold br_inv, brent_init. cbn [br_a br_b br_x br_fx br_calls]. do 5 (split; [lra || auto|]). intros p []. }
  pose proof (brent_loop_inv (br_inv f a b x0) f tol eps (fun s => step_brent_inv f a b x0 tol eps s) (Z.to_nat maxit) _ I0) as (Ha & Hb & V & L & Ix & P). split; [|apply (brent_loop_calls f tol eps (Z.to_nat maxit) (brent_init a x0 b (f x0)))].
  split; [lra|]. split; [exact V|]. split; [exact L|]. split; [exact Ix|exact P].
Qed.
(** the minimum of a unimodal function stays in the bracket as long as no point is evaluated twice *)
Definition br_keeps (f : R -> R) (a m b x0 : R) (s : br) : Prop := br_inv f a b x0 s /\ br_a s <= m <= br_b s.
Lemma update_keeps f a m b x0 d e s : unimodal f a m b -> d <> 0 -> br_a s <= br_x s + d <= br_b s -> br_keeps f a m b x0 s -> br_keeps f a m b x0 (brent_update f d e s).
Proof.
  intros (_ & L & R') Nd Hu (I & K). split; [apply update_inv; assumption|]. destruct I as (Ha & Hb & V & _). unfold brent_update. set (u := br_x s + d) in *. assert (Nu : u <> br_x s) by (unfold u; lra).
  destruct (R_ltb (f u) (br_fx s)) eqn:T; [apply R_ltb_spec in T|apply R_ltb_false in T]; rewrite V in T.
  - cbn [br_a br_b]. destruct (R_ltb (br_x s) u) eqn:C; [apply R_ltb_spec in C|apply R_ltb_false in C].
    + split; [|lra]. destruct (Rle_lt_dec (br_x s) m); [lra|]. pose proof (R' (br_x s) u ltac:(lra) ltac:(lra)). lra.
    + split; [lra|]. destruct (Rle_lt_dec m (br_x s)); [lra|]. pose proof (L u (br_x s) ltac:(lra) ltac:(lra)). lra.
  - assert (G : forall w v fw fv, let b' := (if R_ltb u (br_x s) then br_b s else u) in let a' := (if R_ltb u (br_x s) then u else br_a s) in
      br_a (mkbr a' b' (br_x s) w v (br_fx s) fw fv d e (u :: br_calls s)) <= m <= br_b (mkbr a' b' (br_x s) w v (br_fx s) fw fv d e (u :: br_calls s))).
    { intros w v fw fv. cbn zeta. cbn [br_a br_b]. destruct (R_ltb u (br_x s)) eqn:C; [apply R_ltb_spec in C|apply R_ltb_false in C].
      - split; [|lra]. destruct (Rle_lt_dec u m); [lra|]. pose proof (R' u (br_x s) ltac:(lra) ltac:(lra)). lra.
      - split; [lra|]. destruct (Rle_lt_dec m u); [lra|]. pose proof (L (br_x s) u ltac:(lra) ltac:(lra)). lra. }
    destruct (negb (R_ltb (br_fw s) (f u)) || R_eqb (br_w s) (br_x s)); [apply G|]. destruct (_ || _ || _); apply G.
Qed.
Lemma loop_calls f tol eps : forall n s, exists l, br_calls (brent_loop n f tol eps s) = l ++ br_calls s.
Proof.
  induction n as [|n IH]; intros s; cbn [brent_loop]; [exists []; reflexivity|]. destruct (brent_wide tol eps s); [|exists []; reflexivity].
  destruct (IH (brent_step f tol eps s)) as [l E]. rewrite step_calls in E. exists (l ++ [br_x s + fst (brent_move tol eps s)]). rewrite <- app_assoc. exact E.
Qed.
Lemma loop_keeps f a m b x0 tol eps : unimodal f a m b -> forall n s, br_keeps f a m b x0 s -> NoDup (br_calls (brent_loop n f tol eps s) ++ [x0]) -> br_keeps f a m b x0 (brent_loop n f tol eps s).
Proof.
  intros U. induction n as [|n IH]; intros s K N; cbn [brent_loop] in *; [exact K|]. destruct (brent_wide tol eps s); [|exact K]. apply IH; [|exact N].
  destruct (loop_calls f tol eps n (brent_step f tol eps s)) as [l E]. rewrite E, step_calls in N. rewrite <- app_assoc in N. apply NoDup_remove_2 in N.
  assert (Nd : fst (brent_move tol eps s) <> 0).
  { intros Z. apply N. rewrite Z, Rplus_0_r. apply in_or_app. right. destruct K as ((_ & _ & _ & _ & [->|Ix] & _) & _); apply in_or_app; [right; left; reflexivity|left; exact Ix]. }
  pose proof (move_inside tol eps s ltac:(destruct K as ((H & H' & _) & _); lra)) as M. unfold brent_step. destruct (brent_move tol eps s) as [d e]. cbn [fst] in *. apply update_keeps; assumption.
Qed.
(** partial: the full claim (any unimodal function, without the condition that no point is evaluated twice) is refuted below *)
Theorem C66_finds_minimum_partial : forall f a x0 m b maxit tol eps x fx calls, a <= x0 <= b -> unimodal f a m b -> 0 <= tol -> brent_line_search f a x0 b (f x0) maxit tol eps = (x, fx, calls) ->
  NoDup (calls ++ [x0]) -> (length calls < Z.to_nat maxit)%nat -> Rabs (x - m) <= 2 * tol * Rmax (Rabs a) (Rabs b) + eps.
Proof.
  intros f a x0 m b maxit tol eps x fx calls H U Ht E N Le. unfold brent_line_search in E. injection E as <- <- <-.
  assert (I0 : br_keeps f a m b x0 (brent_init a x0 b (f x0))). { split; [unfold br_inv, brent_init; cbn [br_a br_b br_x br_fx br_calls]; do 5 (split; [lra || auto|]); intros p []|]. destruct U as [U _]. exact U. }
  destruct (loop_keeps f a m b x0 tol eps U (Z.to_nat maxit) _ I0 N) as ((Ha & Hb & _) & K). destruct (brent_loop_calls f tol eps (Z.to_nat maxit) (brent_init a x0 b (f x0))) as [_ W].
  cbn [brent_init br_calls length] in W. specialize (W Le). set (s := brent_loop _ _ _ _ _) in *. unfold brent_wide in W. apply R_ltb_false in W. rewrite Rabs_right in W by lra.
  assert (Bd : forall y, a <= y <= b -> Rabs y <= Rmax (Rabs a) (Rabs b)).
  { intros y Hy. apply Rabs_le. pose proof (Rmax_l (Rabs a) (Rabs b)). pose proof (Rmax_r (Rabs a) (Rabs b)). pose proof (Rle_abs b). pose proof (Rle_abs (- a)). rewrite Rabs_Ropp in *. lra. }
  pose proof (Bd (br_a s) ltac:(lra)). pose proof (Bd (br_b s) ltac:(lra)). apply Rabs_le. nra.
Qed.
(** the remembered points: each value is the function at its point, x is the best of the three, and all are the start or probes *)
Definition br_memory (f : R -> R) (x0 : R) (s : br) : Prop :=
  br_fx s = f (br_x s) /\ br_fw s = f (br_w s) /\ br_fv s = f (br_v s) /\ br_fx s <= br_fw s /\ br_fx s <= br_fv s /\
  (forall p, p = br_x s \/ p = br_w s \/ p = br_v s -> p = x0 \/ In p (br_calls s)).
Lemma update_memory f x0 d e s : br_memory f x0 s -> br_memory f x0 (brent_update f d e s).
Proof.
  intros (X & W & V & L1 & L2 & P). unfold br_memory, brent_update. set (u := br_x s + d).
  assert (PP : forall p, p = br_x s \/ p = br_w s \/ p = br_v s \/ p = u -> p = x0 \/ In p (u :: br_calls s)).
  { intros p H. destruct H as [H|[H|[H|H]]]; [destruct (P p)|destruct (P p)|destruct (P p)|]; try (left; assumption); try (right; right; assumption); auto. right; left; symmetry; exact H. }
  destruct (R_ltb (f u) (br_fx s)) eqn:T; [apply R_ltb_spec in T|apply R_ltb_false in T].
  - cbn. do 5 (split; [assumption || reflexivity || lra|]). intros p H. apply PP. tauto.
  - destruct (_ || _); [cbn|destruct (_ || _ || _); cbn]; (do 5 (split; [assumption || reflexivity || lra|])); intros p H; apply PP; tauto.
Qed.
Theorem C66_memory : forall f a x0 b tol eps n, br_memory f x0 (brent_loop n f tol eps (brent_init a x0 b (f x0))).
Proof.
  intros f a x0 b tol eps n. apply brent_loop_inv.
  - intros s H. unfold brent_step. destruct (brent_move tol eps s) as [d e]. apply update_memory. exact H.
  - unfold br_memory, brent_init. cbn. do 5 (split; [reflexivity || lra|]). intros p H. left. destruct H as [H|[H|H]]; exact H.
Qed.
(** whenever the three remembered points of a search on a quadratic function are different, the parabolic step goes to its vertex *)
Theorem C66_parabola : forall A B C a x0 b tol eps n, A <> 0 -> let f := fun t => A * t * t + B * t + C in let s := brent_loop n f tol eps (brent_init a x0 b (f x0)) in
  br_x s <> br_w s -> br_x s <> br_v s -> br_w s <> br_v s -> brent_q s <> 0 /\ br_x s + brent_p s / brent_q s = - B / (2 * A).
Proof.
  intros A B C a x0 b tol eps n NA f s N1 N2 N3. destruct (C66_memory f a x0 b tol eps n) as (Fx & Fw & Fv & _). fold s in Fx, Fw, Fv.
  assert (Eq : brent_q s = 2 * A * (br_w s - br_x s) * (br_v s - br_x s) * (br_v s - br_w s)) by (unfold brent_q; rewrite Fx, Fw, Fv; unfold f; ring).
  assert (Nq : brent_q s <> 0) by (rewrite Eq; repeat apply Rmult_integral_contrapositive_currified; lra). split; [exact Nq|].
  assert (Ep : brent_p s = (br_v s - br_w s) * (br_w s - br_x s) * (br_v s - br_x s) * (- (2 * A * br_x s + B))) by (unfold brent_p; rewrite Fx, Fw, Fv; unfold f; ring).
  rewrite Eq, Ep. field. repeat split; lra.
Qed.
(** a strictly convex-like (unimodal) function on a documented bracket -1 < 0 < 1 that is evaluated twice at 0: the search then drops the half
    of the bracket that holds the minimum and returns 0, for every iteration limit and every tolerance *)
Definition vee (x : R) : R := Rmax (- x) (3 * x - 2 * golden).
Lemma vee_left x : 2 * x <= golden -> vee x = - x.
Proof. intros. unfold vee. apply Rmax_left. lra. Qed.
Lemma vee_right x : golden <= 2 * x -> vee x = 3 * x - 2 * golden.
Proof. intros. unfold vee. apply Rmax_right. lra. Qed.
Lemma vee_unimodal : unimodal vee (-1) (golden / 2) 1.
Proof.
  pose proof golden_bounds. split; [lra|split; intros x y Hx Hy].
  - rewrite !vee_left by lra. lra.
  - rewrite !vee_right by lra. lra.
Qed.
Lemma stuck tol eps n : forall s, br_x s = 0 -> br_b s = 0 -> br_a s <= 0 -> br_fx s = 0 -> br_x (brent_loop n vee tol eps s) = 0.
Proof.
  induction n as [|n IH]; intros s X B A F; cbn [brent_loop]; [exact X|]. destruct (brent_wide tol eps s); [|exact X].
  pose proof (move_inside tol eps s ltac:(lra)) as M. unfold brent_step. destruct (brent_move tol eps s) as [d e]. cbn [fst] in M.
  assert (Fu : vee (br_x s + d) = - (br_x s + d)) by (apply vee_left; pose proof golden_bounds; lra).
  unfold brent_update. rewrite Fu, F, X. rewrite X, B in M. replace (R_ltb (- (0 + d)) 0) with false by (symmetry; apply R_ltb_false; lra).
  destruct (R_ltb (0 + d) 0) eqn:T; [apply R_ltb_spec in T|apply R_ltb_false in T]; (destruct (_ || _); [apply IH; cbn [br_x br_b br_a br_fx]; lra|]; destruct (_ || _ || _); apply IH; cbn [br_x br_b br_a br_fx]; lra).
Qed.
Theorem C66_finds_minimum_refuted : unimodal vee (-1) (golden / 2) 1 /\ vee 0 < vee (-1) /\ vee 0 < vee 1 /\ vee (golden / 2) < vee 0 /\ golden / 2 > 19 / 100 /\
  forall maxit tol eps, eps < 1 -> fst (fst (brent_line_search vee (-1) 0 1 (vee 0) maxit tol eps)) = 0.
Proof.
  pose proof golden_bounds as G. split; [apply vee_unimodal|]. split; [rewrite !vee_left by lra; lra|]. split; [rewrite (vee_left 0), (vee_right 1) by lra; lra|]. split; [rewrite !vee_left by lra; lra|]. split; [lra|].
  intros maxit tol eps He. unfold brent_line_search. cbn [fst]. rewrite vee_left by lra. replace (- 0) with 0 by ring.
  assert (V1 : vee golden = golden) by (rewrite vee_right by lra; ring). assert (V2 : vee (- golden) = golden) by (rewrite vee_left by lra; ring). assert (V0 : vee 0 = 0) by (rewrite vee_left by lra; ring).
  assert (Tt : forall x y, x < y -> R_ltb x y = true) by (intros; apply R_ltb_spec; assumption). assert (Tf : forall x y, y <= x -> R_ltb x y = false) by (intros; apply R_ltb_false; assumption).
  assert (Et : forall x, R_eqb x x = true) by (intros; apply R_eqb_spec; reflexivity). assert (Ef : forall x y, x <> y -> R_eqb x y = false) by (intros x y N; destruct (R_eqb x y) eqn:T; [apply R_eqb_spec in T; contradiction|reflexivity]).
  destruct (Z.to_nat maxit) as [|n]; [reflexivity|]. cbn [brent_loop]. destruct (brent_wide tol eps _); [|reflexivity].
  set (s0 := brent_init (-1) 0 1 0).
  assert (S1 : brent_step vee tol eps s0 = mkbr (-1) golden 0 golden 0 0 golden 0 golden 1 [golden]).
  { unfold brent_step, brent_move, s0, brent_init. cbn [br_a br_b br_x br_w br_v br_fx br_fw br_fv br_d br_e br_calls]. rewrite Et. cbn [negb]. rewrite andb_false_r.
    unfold brent_golden. cbn [br_a br_b br_x]. rewrite (Tf ((-1 + 1) / 2) 0) by lra. replace (golden * (1 - 0)) with golden by ring. unfold brent_update. cbn [br_a br_b br_x br_w br_v br_fx br_fw br_fv br_d br_e br_calls]. rewrite Rplus_0_l, V1.
    rewrite (Tf golden 0) by lra. rewrite Et, orb_true_r. rewrite Rminus_0_r. reflexivity. }
  rewrite S1. set (s1 := mkbr (-1) golden 0 golden 0 0 golden 0 golden 1 [golden]).
  destruct n as [|n]; [reflexivity|]. cbn [brent_loop]. destruct (brent_wide tol eps s1); [|reflexivity].
  assert (S2 : brent_step vee tol eps s1 = mkbr (- golden) golden 0 (- golden) golden 0 golden golden (- golden) (-1) [- golden; golden]).
  { assert (Gd : brent_golden s1 = (- golden, -1)). { unfold brent_golden, s1. cbn [br_a br_b br_x]. rewrite (Tt ((-1 + golden) / 2) 0) by lra. f_equal; ring. }
    assert (Q : brent_q s1 = 0) by (unfold brent_q, s1; cbn [br_x br_w br_v br_fx br_fw br_fv]; ring).
    assert (Mv : brent_move tol eps s1 = (- golden, -1)). { unfold brent_move. rewrite Q, Et. cbn [orb]. rewrite Gd. destruct (_ && _); reflexivity. }
    unfold brent_step. rewrite Mv. unfold brent_update, s1. cbn [br_a br_b br_x br_w br_v br_fx br_fw br_fv br_d br_e br_calls]. rewrite Rplus_0_l, V2.
    rewrite (Tf golden 0) by lra. rewrite (Tt (- golden) 0) by lra. rewrite (Tf golden golden) by lra. reflexivity. }
  rewrite S2. set (s2 := mkbr (- golden) golden 0 (- golden) golden 0 golden golden (- golden) (-1) [- golden; golden]).
  destruct n as [|n]; [reflexivity|]. cbn [brent_loop]. destruct (brent_wide tol eps s2); [|reflexivity].
  assert (S3 : exists w v fw fv d e l, brent_step vee tol eps s2 = mkbr (- golden) 0 0 w v 0 fw fv d e l).
  { assert (P : brent_p s2 = 0) by (unfold brent_p, s2; cbn [br_x br_w br_v br_fx br_fw br_fv]; ring). assert (Q : brent_q s2 <> 0) by (unfold brent_q, s2; cbn [br_x br_w br_v br_fx br_fw br_fv]; nra).
    assert (Mv : brent_move tol eps s2 = (0, - golden)).
    { unfold brent_move. rewrite P, (Ef _ _ Q). replace (0 / brent_q s2) with 0 by (unfold Rdiv; ring). unfold s2. cbn [br_a br_b br_x br_w br_v br_fx br_fw br_fv br_d br_e br_calls]. rewrite Rabs_R0, Rmult_0_l, !Rplus_0_l.
      rewrite (Tt eps (Rabs (-1))) by (rewrite Rabs_left; lra). rewrite (Ef (- golden) golden) by lra. rewrite (Tf 0 (- golden)), (Tf golden 0) by lra. rewrite (Tf (Rabs (-1 / 2)) 0) by apply Rabs_pos. reflexivity. }
    unfold brent_step. rewrite Mv. unfold brent_update, s2. cbn [br_a br_b br_x br_w br_v br_fx br_fw br_fv br_d br_e br_calls]. rewrite Rplus_0_l, V0.
    rewrite !(Tf 0 0) by lra. rewrite (Tf golden 0) by lra. cbn [negb orb]. repeat eexists. }
  destruct S3 as (w & v & fw & fv & d & e & l & ->). apply stuck; cbn [br_x br_b br_a br_fx]; lra.
Qed.
(** non-vacuity of the partial theorem: x*x on [1, 3] with one evaluation *)
Example ex_brent : unimodal (fun x => x * x) 1 1 3 /\ exists fx, brent_line_search (fun x => x * x) 1 2 3 (2 * 2) 100 (9 / 20) 0 = (2, fx, [2 + golden]) /\ NoDup ([2 + golden] ++ [2]).
Proof.
  pose proof golden_bounds as G. split; [split; [lra|split; intros; nra]|]. exists (2 * 2). split; [|constructor; [intros [H|[]]; lra|constructor; [intros []|constructor]]].
  unfold brent_line_search. change (Z.to_nat 100) with (S (S 98)). set (k := 98%nat). clearbody k. cbn [brent_loop].
  assert (W : brent_wide (9 / 20) 0 (brent_init 1 2 3 (2 * 2)) = true) by (unfold brent_wide, brent_init; cbn [br_a br_b]; apply R_ltb_spec; rewrite !Rabs_right by lra; lra). rewrite W.
  assert (S1 : exists w v fw fv d e, brent_step (fun x => x * x) (9 / 20) 0 (brent_init 1 2 3 (2 * 2)) = mkbr 1 (2 + golden) 2 w v (2 * 2) fw fv d e [2 + golden]).
  { unfold brent_step, brent_move, brent_init. cbn [br_a br_b br_x br_w br_v br_fx br_fw br_fv br_d br_e br_calls]. assert (Et : R_eqb 2 2 = true) by (apply R_eqb_spec; reflexivity). rewrite Et. cbn [negb]. rewrite andb_false_r.
    unfold brent_golden. cbn [br_a br_b br_x]. replace (R_ltb ((1 + 3) / 2) 2) with false by (symmetry; apply R_ltb_false; lra). replace (golden * (3 - 2)) with golden by ring. unfold brent_update. cbn [br_a br_b br_x br_w br_v br_fx br_fw br_fv br_d br_e br_calls].
    replace (R_ltb ((2 + golden) * (2 + golden)) (2 * 2)) with false by (symmetry; apply R_ltb_false; nra). replace (R_ltb (2 + golden) 2) with false by (symmetry; apply R_ltb_false; lra). rewrite Et, orb_true_r. repeat eexists. }
  destruct S1 as (w & v & fw & fv & d & e & E). rewrite E. match goal with |- context [brent_wide ?t ?p ?s] => replace (brent_wide t p s) with false end; [reflexivity|].
  symmetry. unfold brent_wide. cbn [br_a br_b]. apply R_ltb_false. rewrite !Rabs_right by lra. lra.
Qed.
Print Assumptions C65_best_probe.
Print Assumptions C65_finds_minimum.
Print Assumptions C65_terminates_away_from_zero.
Print Assumptions C65_maxiterations_refuted.
Print Assumptions C66_best_probe.
Print Assumptions C66_finds_minimum_partial.
Print Assumptions C66_memory.
Print Assumptions C66_parabola.
Print Assumptions C66_finds_minimum_refuted.
