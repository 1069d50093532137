(** * Brent's line search in floating point. *)
From Coq Require Import Reals ZArith Bool List Lra Lia Psatz.
From Flocq Require Import Core.
From Verif Require Import Base Alg Inst SpecOpt SpecFl LemFl ModelOpt LemOpt ExFl ExFlSO3 ExFlEig ModelFlGolden LemFlGolden PropFlGolden ModelFlBrent.
Import ListNotations.
Local Open Scope R_scope.

(** without rounding this is the model of C66 *)
Theorem C104_model_is_exact_model : forall f a x b fx maxit tol eps, fl_brent_line_search (fun x => x) f a x b fx maxit tol eps = brent_line_search f a x b fx maxit tol eps.
Proof.
  intros. unfold fl_brent_line_search, brent_line_search.
  assert (L : forall n s, fl_brent_loop n (fun x => x) f tol eps s = brent_loop n f tol eps s).
  { induction n as [|k IH]; intros s; [reflexivity|]. cbn [fl_brent_loop brent_loop]. change (fl_brent_wide (fun x => x) tol eps s) with (brent_wide tol eps s). change (fl_brent_step (fun x => x) f tol eps s) with (brent_step f tol eps s). destruct (brent_wide tol eps s); [apply IH|reflexivity]. }
  rewrite L. reflexivity.
Qed.
Section B.
Variables (u : R) (rnd : R -> R).
Hypothesis RN : rounding u rnd.
Hypothesis MON : monotone rnd.
Hypothesis U : u <= 1 / 1000.
Let RR x : rnd (rnd x) = rnd x. Proof. destruct RN as (_ & _ & E). apply E. Qed.
Let Ropp_rnd t : 0 <= t -> 999 / 1000 * t <= rnd t <= 1001 / 1000 * t. Proof. apply (rnd_up u rnd RN U). Qed.
Let rnd_le0 t : t <= 0 -> 1001 / 1000 * t <= rnd t <= 999 / 1000 * t.
Proof. intros H. pose proof (rnd_abs u rnd RN t) as A. rewrite Rabs_left1 in A by lra. assert (u * - t <= 1 / 1000 * - t) by (apply Rmult_le_compat_r; lra). lra. Qed.
Definition frepr (s : br) : Prop := rnd (br_a s) = br_a s /\ rnd (br_x s) = br_x s /\ rnd (br_b s) = br_b s.
Lemma fl_move_inside tol eps s : frepr s -> br_a s <= br_x s <= br_b s -> br_a s <= rnd (br_x s + fst (fl_brent_move rnd tol eps s)) <= br_b s.
Proof.
  intros (Fa & Fx & Fb) H. assert (G : br_a s <= rnd (br_x s + fst (fl_brent_golden rnd s)) <= br_b s).
  { pose proof (g_bounds u rnd RN U) as GB. unfold fl_brent_golden. cbn [fst]. destruct (R_ltb _ _).
    - pose proof (rnd_le0 (br_a s - br_x s) ltac:(lra)) as A. set (t := rnd (br_a s - br_x s)) in *. assert (T1 : fl_g rnd * - t <= 40 / 100 * - t) by (apply Rmult_le_compat_r; lra). assert (T2 : 37 / 100 * - t <= fl_g rnd * - t) by (apply Rmult_le_compat_r; lra). pose proof (rnd_le0 (fl_g rnd * t) ltac:(lra)) as B. split; [rewrite <- Fa; apply MON; lra|]. apply Rle_trans with (br_x s); [rewrite <- Fx at 2; apply MON; lra|lra].
    - pose proof (Ropp_rnd (br_b s - br_x s) ltac:(lra)) as A. set (t := rnd (br_b s - br_x s)) in *. assert (T1 : fl_g rnd * t <= 40 / 100 * t) by (apply Rmult_le_compat_r; lra). assert (T2 : 37 / 100 * t <= fl_g rnd * t) by (apply Rmult_le_compat_r; lra). pose proof (Ropp_rnd (fl_g rnd * t) ltac:(lra)) as B. split; [|rewrite <- Fb; apply MON; lra]. apply Rle_trans with (br_x s); [lra|rewrite <- Fx at 1; apply MON; lra]. }
  unfold fl_brent_move. destruct (R_ltb _ _ && _); [|exact G]. set (z := rnd (fl_brent_p rnd s / fl_brent_q rnd s)). destruct (R_eqb (fl_brent_q rnd s) 0); [exact G|].
  destruct (R_ltb (rnd (br_x s + z)) (br_a s)) eqn:T1; [exact G|]. destruct (R_ltb (br_b s) (rnd (br_x s + z))) eqn:T2; [exact G|]. destruct (R_ltb (Rabs (rnd (br_e s / 2))) _); [exact G|].
  apply R_ltb_false in T1, T2. cbn [orb fst]. lra.
Qed.
Definition fbr_inv (f : R -> R) (a b x0 : R) (s : br) : Prop := frepr s /\ br_inv f a b x0 s.
Lemma fl_update_inv f a b x0 d e s : br_a s <= rnd (br_x s + d) <= br_b s -> fbr_inv f a b x0 s -> fbr_inv f a b x0 (fl_brent_update rnd f d e s).
Proof.
  intros Hu ((Fa & Fx & Fb) & Ha & Hb & V & L & Ix & P). unfold fbr_inv, frepr, br_inv, fl_brent_update. pose proof (RR (br_x s + d)) as Fu. set (y := rnd (br_x s + d)) in *.
  destruct (R_ltb (f y) (br_fx s)) eqn:T; [apply R_ltb_spec in T|apply R_ltb_false in T].
  - cbn [br_a br_b br_x br_fx br_calls]. destruct (R_ltb (br_x s) y) eqn:C; [apply R_ltb_spec in C|apply R_ltb_false in C]; (split; [repeat split; assumption|]; split; [lra|]; split; [lra|]; split; [reflexivity|]; split; [lra|]; split; [right; left; reflexivity|]; intros p [<-|Hp]; [lra|destruct (P p Hp); lra]).
  - assert (G : forall w v fw fv, let b' := (if R_ltb y (br_x s) then br_b s else y) in let a' := (if R_ltb y (br_x s) then y else br_a s) in fbr_inv f a b x0 (mkbr a' b' (br_x s) w v (br_fx s) fw fv d e (y :: br_calls s))).
    { intros w v fw fv. cbn zeta. unfold fbr_inv, frepr, br_inv. cbn [br_a br_b br_x br_fx br_calls].
      destruct (R_ltb y (br_x s)) eqn:C; [apply R_ltb_spec in C|apply R_ltb_false in C]; (split; [repeat split; assumption|]; split; [lra|]; split; [lra|]; split; [exact V|]; split; [lra|]; split; [destruct Ix; [left; assumption|right; right; assumption]|]; intros p [<-|Hp]; [lra|destruct (P p Hp); lra]). }
    destruct (negb (R_ltb (br_fw s) (f y)) || R_eqb (br_w s) (br_x s)); [apply G|]. destruct (_ || _ || _); apply G.
Qed.
Lemma fl_step_inv f a b x0 tol eps s : fbr_inv f a b x0 s -> fbr_inv f a b x0 (fl_brent_step rnd f tol eps s).
Proof.
  intros H. unfold fl_brent_step. pose proof (fl_move_inside tol eps s (proj1 H) ltac:(destruct H as [_ H]; destruct H; lra)) as M. destruct (fl_brent_move rnd tol eps s) as [d e]. cbn [fst] in M. apply fl_update_inv; assumption.
Qed.
Lemma fl_step_calls f tol eps s : br_calls (fl_brent_step rnd f tol eps s) = rnd (br_x s + fst (fl_brent_move rnd tol eps s)) :: br_calls s.
Proof. unfold fl_brent_step. destruct (fl_brent_move rnd tol eps s) as [d e]. unfold fl_brent_update. destruct (R_ltb (f _) _); [reflexivity|]. destruct (_ || _); [reflexivity|]. destruct (_ || _ || _); reflexivity. Qed.
Lemma fl_brent_loop_inv (I : br -> Prop) f tol eps : (forall s, I s -> I (fl_brent_step rnd f tol eps s)) -> forall n s, I s -> I (fl_brent_loop n rnd f tol eps s).
Proof. intros HI. induction n as [|n IH]; intros s Hs; cbn [fl_brent_loop]; [exact Hs|]. destruct (fl_brent_wide rnd tol eps s); auto. Qed.
Lemma fl_brent_loop_calls f tol eps : forall n s, (length (br_calls (fl_brent_loop n rnd f tol eps s)) <= length (br_calls s) + n)%nat /\
  ((length (br_calls (fl_brent_loop n rnd f tol eps s)) < length (br_calls s) + n)%nat -> fl_brent_wide rnd tol eps (fl_brent_loop n rnd f tol eps s) = false).
Proof.
  induction n as [|n IH]; intros s; cbn [fl_brent_loop]; [split; lia|]. destruct (fl_brent_wide rnd tol eps s) eqn:T.
  - destruct (IH (fl_brent_step rnd f tol eps s)) as [A B]. rewrite fl_step_calls in A, B. cbn [length] in A, B. split; [lia|intros; apply B; lia].
  - split; [lia|auto].
Qed.
Lemma init_fbr f a x0 b : rnd a = a -> rnd x0 = x0 -> rnd b = b -> a <= x0 <= b -> fbr_inv f a b x0 (brent_init a x0 b (f x0)).
Proof. intros Fa Fx Fb H. split; [repeat split; assumption|]. unfold br_inv, brent_init. cbn [br_a br_b br_x br_fx br_calls]. do 5 (split; [lra || auto|]). intros p []. Qed.
(** the point returned is the best of the start and of all the points where the function was evaluated, at most maxiterations of them, all between a and b *)
Theorem C104_best_probe : forall f a x0 b maxit tol eps x fx calls, rnd a = a -> rnd x0 = x0 -> rnd b = b -> a <= x0 <= b -> fl_brent_line_search rnd f a x0 b (f x0) maxit tol eps = (x, fx, calls) ->
  best_probe f a b x0 calls x fx /\ (length calls <= Z.to_nat maxit)%nat.
Proof.
  intros f a x0 b maxit tol eps x fx calls Fa Fx Fb H E. unfold fl_brent_line_search in E. injection E as <- <- <-.
  pose proof (fl_brent_loop_inv (fbr_inv f a b x0) f tol eps (fun s => fl_step_inv f a b x0 tol eps s) (Z.to_nat maxit) _ (init_fbr f a x0 b Fa Fx Fb H)) as (_ & Ha & Hb & V & L & Ix & P). split; [|apply (fl_brent_loop_calls f tol eps (Z.to_nat maxit) (brent_init a x0 b (f x0)))].
  split; [lra|]. split; [exact V|]. split; [exact L|]. split; [exact Ix|exact P].
Qed.
(** the minimum of a unimodal function stays in the bracket as long as no point is evaluated twice *)
Definition fbr_keeps (f : R -> R) (a m b x0 : R) (s : br) : Prop := fbr_inv f a b x0 s /\ br_a s <= m <= br_b s.
Lemma fl_update_keeps f a m b x0 d e s : unimodal f a m b -> rnd (br_x s + d) <> br_x s -> br_a s <= rnd (br_x s + d) <= br_b s -> fbr_keeps f a m b x0 s -> fbr_keeps f a m b x0 (fl_brent_update rnd f d e s).
Proof.
  intros (_ & L & R') Nu Hu (I & K). split; [apply fl_update_inv; assumption|]. destruct I as (_ & Ha & Hb & V & _). unfold fl_brent_update. set (y := rnd (br_x s + d)) in *.
  destruct (R_ltb (f y) (br_fx s)) eqn:T; [apply R_ltb_spec in T|apply R_ltb_false in T]; rewrite V in T.
  - cbn [br_a br_b]. destruct (R_ltb (br_x s) y) eqn:C; [apply R_ltb_spec in C|apply R_ltb_false in C].
    + split; [|lra]. destruct (Rle_lt_dec (br_x s) m); [lra|]. pose proof (R' (br_x s) y ltac:(lra) ltac:(lra)). lra.
    + split; [lra|]. destruct (Rle_lt_dec m (br_x s)); [lra|]. pose proof (L y (br_x s) ltac:(lra) ltac:(lra)). lra.
  - assert (G : forall w v fw fv, let b' := (if R_ltb y (br_x s) then br_b s else y) in let a' := (if R_ltb y (br_x s) then y else br_a s) in
      br_a (mkbr a' b' (br_x s) w v (br_fx s) fw fv d e (y :: br_calls s)) <= m <= br_b (mkbr a' b' (br_x s) w v (br_fx s) fw fv d e (y :: br_calls s))).
    { intros w v fw fv. cbn zeta. cbn [br_a br_b]. destruct (R_ltb y (br_x s)) eqn:C; [apply R_ltb_spec in C|apply R_ltb_false in C].
      - split; [|lra]. destruct (Rle_lt_dec y m); [lra|]. pose proof (R' y (br_x s) ltac:(lra) ltac:(lra)). lra.
      - split; [lra|]. destruct (Rle_lt_dec m y); [lra|]. pose proof (L (br_x s) y ltac:(lra) ltac:(lra)). lra. }
    destruct (negb (R_ltb (br_fw s) (f y)) || R_eqb (br_w s) (br_x s)); [apply G|]. destruct (_ || _ || _); apply G.
Qed.
Lemma fl_loop_calls f tol eps : forall n s, exists l, br_calls (fl_brent_loop n rnd f tol eps s) = l ++ br_calls s.
Proof.
  induction n as [|n IH]; intros s; cbn [fl_brent_loop]; [exists []; reflexivity|]. destruct (fl_brent_wide rnd tol eps s); [|exists []; reflexivity].
  destruct (IH (fl_brent_step rnd f tol eps s)) as [l E]. rewrite fl_step_calls in E. exists (l ++ [rnd (br_x s + fst (fl_brent_move rnd tol eps s))]). rewrite <- app_assoc. exact E.
Qed.
Lemma fl_loop_keeps f a m b x0 tol eps : unimodal f a m b -> forall n s, fbr_keeps f a m b x0 s -> NoDup (br_calls (fl_brent_loop n rnd f tol eps s) ++ [x0]) -> fbr_keeps f a m b x0 (fl_brent_loop n rnd f tol eps s).
Proof.
  intros UM. induction n as [|n IH]; intros s K N; cbn [fl_brent_loop] in *; [exact K|]. destruct (fl_brent_wide rnd tol eps s); [|exact K]. apply IH; [|exact N].
  destruct (fl_loop_calls f tol eps n (fl_brent_step rnd f tol eps s)) as [l E]. rewrite E, fl_step_calls in N. rewrite <- app_assoc in N. apply NoDup_remove_2 in N.
  assert (Nd : rnd (br_x s + fst (fl_brent_move rnd tol eps s)) <> br_x s).
  { intros Z. apply N. rewrite Z. apply in_or_app. right. destruct K as ((_ & _ & _ & _ & _ & [->|Ix] & _) & _); apply in_or_app; [right; left; reflexivity|left; exact Ix]. }
  pose proof (fl_move_inside tol eps s ltac:(apply K) ltac:(destruct K as ((_ & H & H' & _) & _); lra)) as M. unfold fl_brent_step. destruct (fl_brent_move rnd tol eps s) as [d e]. cbn [fst] in *. apply fl_update_keeps; assumption.
Qed.
(** if the function is unimodal, was never evaluated twice at one point (the start counts) and the search ended before maxiterations, the minimum is found to within the tolerance *)
Theorem C104_finds_minimum : forall f a x0 m b maxit tol eps x fx calls, rnd a = a -> rnd x0 = x0 -> rnd b = b -> a <= x0 <= b -> unimodal f a m b -> 0 <= tol -> 0 <= eps -> fl_brent_line_search rnd f a x0 b (f x0) maxit tol eps = (x, fx, calls) ->
  NoDup (calls ++ [x0]) -> (length calls < Z.to_nat maxit)%nat -> Rabs (x - m) <= 201 / 100 * tol * Rmax (Rabs a) (Rabs b) + 101 / 100 * eps.
Proof.
  intros f a x0 m b maxit tol eps x fx calls Fa Fx Fb H UM Ht He E N Le. unfold fl_brent_line_search in E. injection E as <- <- <-.
  assert (I0 : fbr_keeps f a m b x0 (brent_init a x0 b (f x0))). { split; [apply init_fbr; assumption|]. destruct UM as [UM _]. exact UM. }
  destruct (fl_loop_keeps f a m b x0 tol eps UM (Z.to_nat maxit) _ I0 N) as ((_ & Ha & Hb & _) & K). destruct (fl_brent_loop_calls f tol eps (Z.to_nat maxit) (brent_init a x0 b (f x0))) as [_ W].
  cbn [brent_init br_calls length] in W. specialize (W Le). set (s := fl_brent_loop _ _ _ _ _ _) in *. unfold fl_brent_wide in W. apply R_ltb_false in W. pose proof (Ropp_rnd (br_b s - br_a s) ltac:(lra)) as W1. rewrite (Rabs_right (rnd (br_b s - br_a s))) in W by lra.
  assert (Bd : forall y, a <= y <= b -> Rabs y <= Rmax (Rabs a) (Rabs b)).
  { intros y Hy. apply Rabs_le. pose proof (Rmax_l (Rabs a) (Rabs b)). pose proof (Rmax_r (Rabs a) (Rabs b)). pose proof (Rle_abs b). pose proof (Rle_abs (- a)). rewrite Rabs_Ropp in *. lra. }
  pose proof (Bd (br_a s) ltac:(lra)) as A1. pose proof (Bd (br_b s) ltac:(lra)) as A2. set (M := Rmax (Rabs a) (Rabs b)) in *.
  pose proof (Rabs_pos (br_a s)). pose proof (Rabs_pos (br_b s)). pose proof (Ropp_rnd (Rabs (br_a s) + Rabs (br_b s)) ltac:(lra)) as S1. set (q := rnd (Rabs (br_a s) + Rabs (br_b s))) in *.
  assert (T1 : q * tol <= 1001 / 1000 * (2 * M) * tol) by (apply Rmult_le_compat_r; lra). assert (T0 : 0 <= q * tol) by (apply Rmult_le_pos; lra). pose proof (Ropp_rnd (q * tol) T0) as S2. set (q2 := rnd (q * tol)) in *. pose proof (Ropp_rnd (q2 + eps) ltac:(lra)) as S3. assert (0 <= tol * M) by (apply Rmult_le_pos; lra). apply Rabs_le. lra.
Qed.
(** the remembered points: each value is the function at its point, x is the best of the three, and all are the start or probes *)
Definition fl_memory (f : R -> R) (x0 : R) (s : br) : Prop :=
  br_fx s = f (br_x s) /\ br_fw s = f (br_w s) /\ br_fv s = f (br_v s) /\ br_fx s <= br_fw s /\ br_fx s <= br_fv s /\
  (forall p, p = br_x s \/ p = br_w s \/ p = br_v s -> p = x0 \/ In p (br_calls s)).
Lemma fl_update_memory f x0 d e s : fl_memory f x0 s -> fl_memory f x0 (fl_brent_update rnd f d e s).
Proof.
  intros (X & W & V & L1 & L2 & P). unfold fl_memory, fl_brent_update. set (y := rnd (br_x s + d)).
  assert (PP : forall p, p = br_x s \/ p = br_w s \/ p = br_v s \/ p = y -> p = x0 \/ In p (y :: br_calls s)).
  { intros p H. destruct H as [H|[H|[H|H]]]; [destruct (P p)|destruct (P p)|destruct (P p)|]; try (left; assumption); try (right; right; assumption); auto. right; left; symmetry; exact H. }
  destruct (R_ltb (f y) (br_fx s)) eqn:T; [apply R_ltb_spec in T|apply R_ltb_false in T].
  - cbn. do 5 (split; [assumption || reflexivity || lra|]). intros p H. apply PP. tauto.
  - destruct (_ || _); [cbn|destruct (_ || _ || _); cbn]; (do 5 (split; [assumption || reflexivity || lra|])); intros p H; apply PP; tauto.
Qed.
Theorem C104_memory : forall f a x0 b tol eps n, fl_memory f x0 (fl_brent_loop n rnd f tol eps (brent_init a x0 b (f x0))).
Proof.
  intros f a x0 b tol eps n. apply fl_brent_loop_inv.
  - intros s H. unfold fl_brent_step. destruct (fl_brent_move rnd tol eps s) as [d e]. apply fl_update_memory. exact H.
  - unfold fl_memory, brent_init. cbn. do 5 (split; [reflexivity || lra|]). intros p H. left. destruct H as [H|[H|H]]; exact H.
Qed.
End B.
(** the hypotheses are met: |x - 2| on 1, 2, 3 in double precision *)
Example C104_case : let f := fun x => Rabs (x - 2) in rounding (/ 2 * bpow radix2 (-52)) rnd64 /\ monotone rnd64 /\ / 2 * bpow radix2 (-52) <= 1 / 1000 /\ rnd64 1 = 1 /\ rnd64 2 = 2 /\ rnd64 3 = 3 /\ unimodal f 1 2 3 /\
  exists y, fl_brent_line_search rnd64 f 1 2 3 (f 2) 50 (2 / 5) (1 / 10) = (2, 0, [y]) /\ NoDup ([y] ++ [2]) /\ (length [y] < Z.to_nat 50)%nat.
Proof.
  intros f. split; [exact rnd64_rounding|]. split; [exact rnd64_mono|]. split; [exact u64_small|]. split; [exact one_is|]. split; [exact two_is|]. split; [exact_ 3%Z 0%Z|].
  assert (FL : forall x, x <= 2 -> f x = 2 - x) by (intros x Hx; unfold f; rewrite Rabs_left1 by lra; ring).
  assert (FR : forall x, 2 <= x -> f x = x - 2) by (intros x Hx; unfold f; rewrite Rabs_right by lra; ring).
  split. { split; [lra|]. split; intros x y H1 H2; [rewrite !FL by lra|rewrite !FR by lra]; lra. }
  pose proof (rnd_up _ _ rnd64_rounding u64_small) as RU. pose proof (step_len _ _ rnd64_rounding u64_small 1 ltac:(lra)) as L. rewrite one_is in L. set (h := rnd64 (fl_g rnd64 * 1)) in *. pose proof (RU (2 + h) ltac:(lra)) as Y.
  assert (F4 : rnd64 4 = 4) by (exact_ 4%Z 0%Z). assert (F0 : f 2 = 0) by (rewrite FL by lra; ring).
  exists (rnd64 (2 + h)). set (s0 := brent_init 1 2 3 (f 2)).
  assert (W0 : fl_brent_wide rnd64 (2 / 5) (1 / 10) s0 = true).
  { unfold fl_brent_wide, s0, brent_init. cbn [br_a br_b]. apply R_ltb_spec. rewrite (Rabs_right 1), (Rabs_right 3) by lra. replace (1 + 3) with 4 by ring. replace (3 - 1) with 2 by ring. rewrite F4, two_is, Rabs_right by lra. pose proof (RU (4 * (2 / 5)) ltac:(lra)) as A. pose proof (RU (rnd64 (4 * (2 / 5)) + 1 / 10) ltac:(lra)). lra. }
  assert (MV : fl_brent_move rnd64 (2 / 5) (1 / 10) s0 = (h, 1)).
  { unfold fl_brent_move, s0, brent_init. cbn [br_w br_v br_e]. assert (T : R_eqb 2 2 = true) by (apply R_eqb_spec; reflexivity). rewrite T. cbn [negb]. rewrite Bool.andb_false_r. unfold fl_brent_golden. cbn [br_a br_b br_x]. replace (1 + 3) with 4 by ring. rewrite F4. replace (4 / 2) with 2 by field. rewrite two_is. assert (T2 : R_ltb 2 2 = false) by (apply R_ltb_false; lra). rewrite T2. replace (3 - 2) with 1 by ring. rewrite one_is. reflexivity. }
  set (y := rnd64 (2 + h)) in *.
  assert (S0 : fl_brent_step rnd64 f (2 / 5) (1 / 10) s0 = mkbr 1 y 2 y 2 (f 2) (f y) (f 2) h 1 [y]).
  { unfold fl_brent_step. rewrite MV. unfold fl_brent_update, s0, brent_init. cbn [br_a br_b br_x br_w br_v br_fx br_fw br_fv br_calls]. fold y. assert (T : R_ltb (f y) (f 2) = false) by (apply R_ltb_false; rewrite F0, FR by lra; lra). rewrite T. assert (T1 : R_ltb y 2 = false) by (apply R_ltb_false; lra). rewrite T1. assert (T2 : R_eqb 2 2 = true) by (apply R_eqb_spec; reflexivity). rewrite T2, Bool.orb_true_r. reflexivity. }
  assert (W1 : fl_brent_wide rnd64 (2 / 5) (1 / 10) (mkbr 1 y 2 y 2 (f 2) (f y) (f 2) h 1 [y]) = false).
  { unfold fl_brent_wide. cbn [br_a br_b]. apply R_ltb_false. rewrite (Rabs_right 1), (Rabs_right y) by lra. pose proof (RU (1 + y) ltac:(lra)) as A. pose proof (RU (rnd64 (1 + y) * (2 / 5)) ltac:(lra)) as B. pose proof (RU (rnd64 (rnd64 (1 + y) * (2 / 5)) + 1 / 10) ltac:(lra)). pose proof (RU (y - 1) ltac:(lra)). rewrite Rabs_right by lra. lra. }
  split; [|split].
  - unfold fl_brent_line_search. fold s0. change (Z.to_nat 50) with 50%nat. cbn [fl_brent_loop]. rewrite W0, S0, W1. cbn [br_x br_fx br_calls]. rewrite F0. reflexivity.
  - cbn [app]. constructor; [intros [I|[]]; lra|]. constructor; [intros []|constructor].
  - change (Z.to_nat 50) with 50%nat. cbn [length]. lia.
Qed.
