(** * Golden section search in floating point. *)
From Coq Require Import Reals ZArith Bool List Lra Lia Psatz.
From Verif Require Import Base Alg Inst SpecOpt SpecFl LemFl ModelOpt LemOpt ModelFlGolden.
Import ListNotations.
Open Scope outcome_scope.
Local Open Scope R_scope.

(** rounding does not change the order of numbers *)
Definition monotone (rnd : R -> R) : Prop := forall x y, x <= y -> rnd x <= rnd y.
Section G.
Variables (u : R) (rnd : R -> R).
Hypothesis RN : rounding u rnd.
Hypothesis MON : monotone rnd.
Hypothesis U : u <= 1 / 1000.
Lemma u_nn : 0 <= u. Proof. destruct RN as [? _]. lra. Qed.
Lemma rnd_up x : 0 <= x -> 999 / 1000 * x <= rnd x <= 1001 / 1000 * x.
Proof. intros H. destruct RN as (_ & E & _). specialize (E x). rewrite (Rabs_right x) in E by lra. assert (u * x <= 1 / 1000 * x) by (apply Rmult_le_compat_r; lra). pose proof (Rle_abs (rnd x - x)). pose proof (Rle_abs (- (rnd x - x))) as K. rewrite Rabs_Ropp in K. lra. Qed.
Lemma g_bounds : 37 / 100 <= fl_g rnd <= 40 / 100.
Proof.
  assert (Q : 222 / 100 <= sqrt 5 <= 224 / 100) by (pose proof golden_bounds as GB; unfold ModelOpt.golden in GB; lra). 
  unfold fl_g. set (q := sqrt 5) in *. clearbody q. pose proof (rnd_up q ltac:(lra)) as A. set (q1 := rnd q) in *. pose proof (rnd_up (3 - q1) ltac:(lra)) as B. set (q2 := rnd (3 - q1)) in *. pose proof (rnd_up (q2 / 2) ltac:(lra)). lra.
Qed.
Lemma step_len t : 0 <= t -> 36 / 100 * t <= rnd (fl_g rnd * rnd t) <= 41 / 100 * t.
Proof.
  intros Ht. pose proof g_bounds as G. pose proof (rnd_up t Ht) as A. set (t1 := rnd t) in *.
  assert (37 / 100 * (999 / 1000 * t) <= fl_g rnd * t1) by (apply Rmult_le_compat; lra). assert (fl_g rnd * t1 <= 40 / 100 * (1001 / 1000 * t)) by (apply Rmult_le_compat; lra).
  pose proof (rnd_up (fl_g rnd * t1) ltac:(lra)). lra.
Qed.
Lemma rnd_abs x : x - u * Rabs x <= rnd x <= x + u * Rabs x.
Proof. destruct RN as (_ & E & _). specialize (E x). pose proof (Rle_abs (rnd x - x)). pose proof (Rle_abs (- (rnd x - x))) as K. rewrite Rabs_Ropp in K. lra. Qed.
Lemma rnd_rnd x : rnd (rnd x) = rnd x. Proof. destruct RN as (_ & _ & E). apply E. Qed.
(** the point put between x and c, and the one between a and x *)
Lemma right_point x c : rnd x = x -> rnd c = c -> x <= c -> let y := rnd (x + rnd (fl_g rnd * rnd (c - x))) in
  x <= y <= c /\ rnd y = y /\ 36 / 100 * (c - x) - u * (Rabs x + (c - x)) <= y - x <= 41 / 100 * (c - x) + u * (Rabs x + (c - x)).
Proof.
  intros Fx Fc H y. pose proof (step_len (c - x) ltac:(lra)) as L. set (h := rnd (fl_g rnd * rnd (c - x))) in *. split.
  - unfold y. split; [rewrite <- Fx at 1|rewrite <- Fc]; apply MON; lra.
  - split; [apply rnd_rnd|]. pose proof (rnd_abs (x + h)) as E. fold y in E. pose proof u_nn. pose proof (Rabs_triang x h) as T. rewrite (Rabs_right h) in T by lra. assert (u * Rabs (x + h) <= u * (Rabs x + (c - x))) by (apply Rmult_le_compat_l; lra). lra.
Qed.
Lemma left_point x a : rnd x = x -> rnd a = a -> a <= x -> let y := rnd (x - rnd (fl_g rnd * rnd (x - a))) in
  a <= y <= x /\ rnd y = y /\ 36 / 100 * (x - a) - u * (Rabs x + (x - a)) <= x - y <= 41 / 100 * (x - a) + u * (Rabs x + (x - a)).
Proof.
  intros Fx Fa H y. pose proof (step_len (x - a) ltac:(lra)) as L. set (h := rnd (fl_g rnd * rnd (x - a))) in *. split.
  - unfold y. split; [rewrite <- Fa at 1|rewrite <- Fx]; apply MON; lra.
  - split; [apply rnd_rnd|]. pose proof (rnd_abs (x - h)) as E. fold y in E. pose proof u_nn. pose proof (Rabs_triang x (- h)) as T. rewrite Rabs_Ropp, (Rabs_right h) in T by lra. fold (x - h) in T. assert (u * Rabs (x - h) <= u * (Rabs x + (x - a))) by (apply Rmult_le_compat_l; lra). lra.
Qed.
(** ** what every state satisfies *)
Variable f : R -> R.
Definition fin (s : gs) : Prop := rnd (gs_a s) = gs_a s /\ rnd (gs_x1 s) = gs_x1 s /\ rnd (gs_x2 s) = gs_x2 s /\ rnd (gs_c s) = gs_c s.
Definition ord (s : gs) : Prop := gs_a s <= gs_x1 s /\ gs_x1 s <= gs_x2 s /\ gs_x2 s <= gs_c s.
Definition vals (s : gs) : Prop := gs_f1 s = f (gs_x1 s) /\ gs_f2 s = f (gs_x2 s).
(** lies in [a,c] and the better of x1, x2 is the best of all *)
Definition best (a b c : R) (s : gs) : Prop := a <= gs_a s /\ gs_c s <= c /\ Rmin (gs_f1 s) (gs_f2 s) <= f b /\ In (gs_x1 s) (b :: gs_calls s) /\ In (gs_x2 s) (b :: gs_calls s) /\
  forall p, In p (gs_calls s) -> a <= p <= c /\ Rmin (gs_f1 s) (gs_f2 s) <= f p.
Definition good (a b c : R) (s : gs) : Prop := fin s /\ ord s /\ vals s /\ best a b c s.
Lemma init_good a b c : rnd a = a -> rnd b = b -> rnd c = c -> a <= b <= c -> good a b c (fl_golden_init rnd f a b c (f b)).
Proof.
  intros Fa Fb Fc H. unfold fl_golden_init. destruct (R_ltb _ _).
  - destruct (left_point b a Fb Fa ltac:(lra)) as (O & Fy & _). set (y := rnd (b - rnd (fl_g rnd * rnd (b - a)))) in *. unfold good, fin, ord, vals, best. cbn [gs_a gs_x1 gs_x2 gs_c gs_f1 gs_f2 gs_calls]. split; [repeat split; assumption|]. split; [lra|]. split; [split; reflexivity|].
    split; [lra|]. split; [lra|]. split; [apply Rmin_r|]. split; [right; left; reflexivity|]. split; [left; reflexivity|]. intros p [<-|[]]. split; [lra|]. apply Rmin_l.
  - destruct (right_point b c Fb Fc ltac:(lra)) as (O & Fy & _). set (y := rnd (b + rnd (fl_g rnd * rnd (c - b)))) in *. unfold good, fin, ord, vals, best. cbn [gs_a gs_x1 gs_x2 gs_c gs_f1 gs_f2 gs_calls]. split; [repeat split; assumption|]. split; [lra|]. split; [split; reflexivity|].
    split; [lra|]. split; [lra|]. split; [apply Rmin_l|]. split; [left; reflexivity|]. split; [right; left; reflexivity|]. intros p [<-|[]]. split; [lra|]. apply Rmin_r.
Qed.
Lemma step_good a b c s : good a b c s -> good a b c (fl_golden_step rnd f s).
Proof.
  intros ((Fa & F1 & F2 & Fc) & (O1 & O2 & O3) & (V1 & V2) & B1 & B2 & B3 & B4 & B5 & B6). unfold fl_golden_step. destruct (R_ltb (gs_f2 s) (gs_f1 s)) eqn:T; [apply R_ltb_spec in T|apply R_ltb_false in T].
  - pose proof (Rmin_right (gs_f1 s) (gs_f2 s) ltac:(lra)) as MR. rewrite MR in B3. assert (B7 : forall p, In p (gs_calls s) -> a <= p <= c /\ gs_f2 s <= f p) by (intros p Hp; rewrite <- MR; apply B6; exact Hp). destruct (right_point (gs_x2 s) (gs_c s) F2 Fc O3) as (O & Fy & _). cbv zeta. set (y := rnd (gs_x2 s + rnd (fl_g rnd * rnd (gs_c s - gs_x2 s)))) in *. unfold good, fin, ord, vals, best. cbn [gs_a gs_x1 gs_x2 gs_c gs_f1 gs_f2 gs_calls].
    split; [repeat split; assumption|]. split; [lra|]. split; [split; [exact V2|reflexivity]|]. pose proof (Rmin_l (gs_f2 s) (f y)) as M1. pose proof (Rmin_r (gs_f2 s) (f y)) as M2. split; [lra|]. split; [lra|]. split; [lra|].
    split; [destruct B5 as [E|E]; [left; exact E|right; right; exact E]|]. split; [right; left; reflexivity|]. intros p [<-|Hp]; [split; [lra|exact M2]|]. destruct (B7 p Hp). split; [assumption|lra].
  - pose proof (Rmin_left (gs_f1 s) (gs_f2 s) ltac:(lra)) as MR. rewrite MR in B3. assert (B7 : forall p, In p (gs_calls s) -> a <= p <= c /\ gs_f1 s <= f p) by (intros p Hp; rewrite <- MR; apply B6; exact Hp). destruct (left_point (gs_x1 s) (gs_a s) F1 Fa O1) as (O & Fy & _). cbv zeta. set (y := rnd (gs_x1 s - rnd (fl_g rnd * rnd (gs_x1 s - gs_a s)))) in *. unfold good, fin, ord, vals, best. cbn [gs_a gs_x1 gs_x2 gs_c gs_f1 gs_f2 gs_calls].
    split; [repeat split; assumption|]. split; [lra|]. split; [split; [reflexivity|exact V1]|]. pose proof (Rmin_l (f y) (gs_f1 s)) as M1. pose proof (Rmin_r (f y) (gs_f1 s)) as M2. split; [lra|]. split; [lra|]. split; [lra|].
    split; [right; left; reflexivity|]. split; [destruct B4 as [E|E]; [left; exact E|right; right; exact E]|]. intros p [<-|Hp]; [split; [lra|exact M1]|]. destruct (B7 p Hp). split; [assumption|lra].
Qed.
Lemma loop_inv (I : gs -> Prop) maxit tol : (forall s, I s -> I (fl_golden_step rnd f s)) -> forall fuel s s', I s -> fl_golden_loop fuel rnd f maxit tol s = Ok s' -> I s' /\ fl_golden_continue rnd maxit tol s' = false.
Proof.
  intros H. induction fuel as [|k IH]; intros s s' I0 E; cbn [fl_golden_loop] in E; [discriminate|]. destruct (fl_golden_continue rnd maxit tol s) eqn:T; [apply (IH _ _ (H _ I0) E)|]. injection E as <-. split; assumption.
Qed.
(** ** widths *)
Variables (maxit : Z) (tol : R).
Hypothesis TOL : 0 < tol.
Hypothesis TU : 100 * u <= tol.
Definition wid (s : gs) : R := gs_c s - gs_a s.
Lemma cont_size s : ord s -> fl_golden_continue rnd maxit tol s = true -> u * Rabs (gs_x1 s) + u * Rabs (gs_x2 s) <= 11 / 1000 * wid s.
Proof.
  intros (O1 & O2 & O3) C. unfold fl_golden_continue in C. apply andb_true_iff in C as [C _]. apply R_ltb_spec in C. unfold wid. set (p := Rabs (gs_x2 s)) in *. set (q := Rabs (gs_x1 s)) in *. assert (P : 0 <= p) by apply Rabs_pos. assert (Q : 0 <= q) by apply Rabs_pos.
  pose proof (rnd_up (gs_c s - gs_a s) ltac:(lra)) as W. rewrite Rabs_right in C by lra. pose proof (rnd_up (p + q) ltac:(lra)) as A. assert (T1 : tol * (999 / 1000 * (p + q)) <= tol * rnd (p + q)) by (apply Rmult_le_compat_l; lra). assert (T0 : 0 <= tol * rnd (p + q)) by (apply Rmult_le_pos; lra).
  pose proof (rnd_up (tol * rnd (p + q)) T0) as B. assert (100 * u * (p + q) <= tol * (p + q)) by (apply Rmult_le_compat_r; lra). lra.
Qed.
(** one step, in terms of the three lengths x1 - a, x2 - x1, c - x2 *)
Lemma step_lens s : fin s -> ord s -> fl_golden_continue rnd maxit tol s = true -> let s' := fl_golden_step rnd f s in
  let al := gs_x1 s - gs_a s in let be := gs_x2 s - gs_x1 s in let ga := gs_c s - gs_x2 s in
  let al' := gs_x1 s' - gs_a s' in let be' := gs_x2 s' - gs_x1 s' in let ga' := gs_c s' - gs_x2 s' in
  (exists p, 0 <= p <= ga /\ 36 / 100 * ga - 13 / 1000 * (al + be + ga) <= p <= 41 / 100 * ga + 13 / 1000 * (al + be + ga) /\ al' = be /\ be' = p /\ ga' = ga - p) \/
  (exists p, 0 <= p <= al /\ 36 / 100 * al - 13 / 1000 * (al + be + ga) <= p <= 41 / 100 * al + 13 / 1000 * (al + be + ga) /\ al' = al - p /\ be' = p /\ ga' = be).
Proof.
  intros (Fa & F1 & F2 & Fc) O CT. pose proof (cont_size s O CT) as Z. destruct O as (O1 & O2 & O3). pose proof u_nn as UN. pose proof (Rabs_pos (gs_x1 s)) as P1. pose proof (Rabs_pos (gs_x2 s)) as P2. assert (Z1 : 0 <= u * Rabs (gs_x1 s)) by (apply Rmult_le_pos; lra). assert (Z2 : 0 <= u * Rabs (gs_x2 s)) by (apply Rmult_le_pos; lra). unfold wid in Z.
  unfold fl_golden_step. destruct (R_ltb (gs_f2 s) (gs_f1 s)); cbn [gs_a gs_x1 gs_x2 gs_c gs_f1 gs_f2 gs_calls]; cbv zeta.
  - left. destruct (right_point (gs_x2 s) (gs_c s) F2 Fc O3) as (O & _ & L). set (y := rnd (gs_x2 s + rnd (fl_g rnd * rnd (gs_c s - gs_x2 s)))) in *. exists (y - gs_x2 s). assert (u * (gs_c s - gs_x2 s) <= 1 / 1000 * (gs_c s - gs_x2 s)) by (apply Rmult_le_compat_r; lra). rewrite Rmult_plus_distr_l in L. repeat split; lra.
  - right. destruct (left_point (gs_x1 s) (gs_a s) F1 Fa O1) as (O & _ & L). set (y := rnd (gs_x1 s - rnd (fl_g rnd * rnd (gs_x1 s - gs_a s)))) in *. exists (gs_x1 s - y). assert (u * (gs_x1 s - gs_a s) <= 1 / 1000 * (gs_x1 s - gs_a s)) by (apply Rmult_le_compat_r; lra). rewrite Rmult_plus_distr_l in L. repeat split; lra.
Qed.
Notation nxt := (fl_golden_step rnd f).
Notation cont := (fl_golden_continue rnd maxit tol).
Lemma four a b c s : good a b c s -> cont s = true -> cont (nxt s) = true -> cont (nxt (nxt s)) = true -> cont (nxt (nxt (nxt s))) = true -> wid (nxt (nxt (nxt (nxt s)))) <= 9 / 10 * wid s.
Proof.
  intros G0 C0 C1 C2 C3. pose proof (step_good a b c _ G0) as G1. pose proof (step_good a b c _ G1) as G2. pose proof (step_good a b c _ G2) as G3.
  pose proof (step_lens _ (proj1 G0) (proj1 (proj2 G0)) C0) as L0. pose proof (step_lens _ (proj1 G1) (proj1 (proj2 G1)) C1) as L1. pose proof (step_lens _ (proj1 G2) (proj1 (proj2 G2)) C2) as L2. pose proof (step_lens _ (proj1 G3) (proj1 (proj2 G3)) C3) as L3. cbv zeta in *.
  destruct G0 as (_ & (O1 & O2 & O3) & _). clear G1 G2 G3 C0 C1 C2 C3. unfold wid.
  set (s1 := nxt s) in *. set (s2 := nxt s1) in *. set (s3 := nxt s2) in *. set (s4 := nxt s3) in *.
  destruct L0 as [(p0 & ?)|(p0 & ?)], L1 as [(p1 & ?)|(p1 & ?)], L2 as [(p2 & ?)|(p2 & ?)], L3 as [(p3 & ?)|(p3 & ?)]; lra.
Qed.
Variables (m : R).
Hypothesis MP : 0 < m.
Lemma small_stops s : ord s -> m <= Rabs (gs_x1 s) -> m <= Rabs (gs_x2 s) -> wid s <= tol * m -> cont s = false.
Proof.
  intros (O1 & O2 & O3) M1 M2 W. unfold fl_golden_continue. apply andb_false_iff. left. apply R_ltb_false. unfold wid in W. pose proof (rnd_up (gs_c s - gs_a s) ltac:(lra)) as A. rewrite (Rabs_right (rnd (gs_c s - gs_a s))) by lra.
  set (p := Rabs (gs_x2 s) + Rabs (gs_x1 s)) in *. pose proof (rnd_up p ltac:(unfold p; lra)) as B. assert (T1 : tol * (999 / 1000 * (2 * m)) <= tol * rnd p) by (apply Rmult_le_compat_l; unfold p in *; lra). assert (0 < tol * m) by (apply Rmult_lt_0_compat; lra).
  pose proof (rnd_up (tol * rnd p) ltac:(lra)). lra.
Qed.
Lemma ends a b c : (forall y, a <= y <= c -> m <= Rabs y) -> forall N s, good a b c s -> wid s <= (10 / 9) ^ N * (tol * m) -> exists fuel r, fl_golden_loop fuel rnd f maxit tol s = Ok r.
Proof.
  intros Bd. induction N as [|N IH]; intros s G W.
  - cbn [pow] in W. exists 1%nat, s. cbn [fl_golden_loop]. rewrite small_stops; [reflexivity|apply G| | |lra]; apply Bd; destruct G as (_ & (O1 & O2 & O3) & _ & B1 & B2 & _); lra.
  - destruct (cont s) eqn:C0; [|exists 1%nat, s; cbn [fl_golden_loop]; rewrite C0; reflexivity].
    destruct (cont (nxt s)) eqn:C1; [|exists 2%nat, (nxt s); cbn [fl_golden_loop]; rewrite C0, C1; reflexivity].
    destruct (cont (nxt (nxt s))) eqn:C2; [|exists 3%nat, (nxt (nxt s)); cbn [fl_golden_loop]; rewrite C0, C1, C2; reflexivity].
    destruct (cont (nxt (nxt (nxt s)))) eqn:C3; [|exists 4%nat, (nxt (nxt (nxt s))); cbn [fl_golden_loop]; rewrite C0, C1, C2, C3; reflexivity].
    pose proof (four a b c s G C0 C1 C2 C3) as F. destruct (IH (nxt (nxt (nxt (nxt s))))) as (fuel & r & E).
    + repeat apply step_good. exact G.
    + cbn [pow] in W. lra.
    + exists (S (S (S (S fuel)))), r. cbn [fl_golden_loop]. rewrite C0, C1, C2, C3. exact E.
Qed.
End G.
