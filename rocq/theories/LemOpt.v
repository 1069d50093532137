From Coq Require Import Reals ZArith Bool List Lra Lia Psatz.
From Verif Require Import Base Alg Inst LemEig SpecOpt ModelOpt.
Open Scope outcome_scope.
Local Open Scope R_scope.

Lemma golden_eq : golden * golden = 3 * golden - 1.
Proof. unfold golden. pose proof (sqrt_sqrt 5 ltac:(lra)). nra. Qed.
Lemma golden_bounds : 38 / 100 < golden < 39 / 100.
Proof.
  unfold golden. assert (222 / 100 < sqrt 5) by (rewrite <- (sqrt_square (222/100)) by lra; apply sqrt_lt_1; lra).
  assert (sqrt 5 < 224 / 100) by (rewrite <- (sqrt_square (224/100)) by lra; apply sqrt_lt_1; lra). lra.
Qed.
Lemma golden_pos x : 0 < x -> 38 / 100 * x < golden * x < 39 / 100 * x.
Proof. intros H. pose proof golden_bounds. split; apply Rmult_lt_compat_r; lra. Qed.
Lemma golden_nonneg x : 0 <= x -> 38 / 100 * x <= golden * x <= 39 / 100 * x.
Proof. intros H. pose proof golden_bounds. split; apply Rmult_le_compat_r; lra. Qed.

(** the four points stay in order *)
Definition gs_ordered (s : gs) : Prop := gs_a s < gs_x1 s < gs_x2 s /\ gs_x2 s < gs_c s.
Definition gs_values (f : R -> R) (s : gs) : Prop := gs_f1 s = f (gs_x1 s) /\ gs_f2 s = f (gs_x2 s).
Lemma init_ordered f a b c fb : a < b < c -> gs_ordered (golden_init f a b c fb).
Proof.
  intros H. unfold golden_init, gs_ordered. destruct (R_ltb _ _); cbn [gs_a gs_x1 gs_x2 gs_c].
  - pose proof (golden_pos (b - a) ltac:(lra)). lra.
  - pose proof (golden_pos (c - b) ltac:(lra)). lra.
Qed.
Lemma init_values f a b c : gs_values f (golden_init f a b c (f b)).
Proof. unfold golden_init, gs_values. destruct (R_ltb _ _); cbn [gs_f1 gs_f2 gs_x1 gs_x2]; auto. Qed.
Lemma step_ordered f s : gs_ordered s -> gs_ordered (golden_step f s).
Proof.
  intros H. unfold golden_step, gs_ordered in *. destruct (R_ltb _ _); cbn [gs_a gs_x1 gs_x2 gs_c].
  - pose proof (golden_pos (gs_c s - gs_x2 s) ltac:(lra)). lra.
  - pose proof (golden_pos (gs_x1 s - gs_a s) ltac:(lra)). lra.
Qed.
Lemma step_values f s : gs_values f s -> gs_values f (golden_step f s).
Proof. intros [V1 V2]. unfold golden_step, gs_values. destruct (R_ltb _ _); cbn [gs_f1 gs_f2 gs_x1 gs_x2]; auto. Qed.
(** an invariant of the step is an invariant of the loop *)
Lemma golden_loop_inv (I : gs -> Prop) f maxit tol : (forall s, I s -> I (golden_step f s)) ->
  forall fuel s r, I s -> golden_loop fuel f maxit tol s = Ok r -> I r /\ golden_continue maxit tol r = false.
Proof.
  intros HI. induction fuel as [|fuel IH]; intros s r Hs E; cbn [golden_loop] in E; [discriminate|]. destruct (golden_continue maxit tol s) eqn:T.
  - apply (IH _ _ (HI _ Hs) E).
  - injection E as <-. auto.
Qed.
(** the lower of the two inner values: the best value so far *)
Definition gs_best (s : gs) : R := Rmin (gs_f1 s) (gs_f2 s).
Definition gs_inv (f : R -> R) (a b c : R) (s : gs) : Prop :=
  gs_ordered s /\ gs_values f s /\ a <= gs_a s /\ gs_c s <= c /\ gs_best s <= f b /\ (gs_x1 s = b \/ In (gs_x1 s) (gs_calls s)) /\ (gs_x2 s = b \/ In (gs_x2 s) (gs_calls s)) /\
  forall p, In p (gs_calls s) -> a <= p <= c /\ gs_best s <= f p.
Lemma init_inv f a b c : a < b < c -> gs_inv f a b c (golden_init f a b c (f b)).
Proof.
  intros H. pose proof (init_ordered f a b c (f b) H) as O. pose proof (init_values f a b c) as V. split; [exact O|]. split; [exact V|].
  unfold golden_init, gs_ordered in *. destruct (R_ltb _ _); cbn [gs_a gs_x1 gs_x2 gs_c gs_f1 gs_f2 gs_calls gs_best] in *; unfold gs_best; cbn [gs_f1 gs_f2].
  - split; [lra|]. split; [lra|]. split; [apply Rmin_r|]. split; [right; left; reflexivity|]. split; [left; reflexivity|]. intros p [<-|[]]. split; [lra|apply Rmin_l].
  - split; [lra|]. split; [lra|]. split; [apply Rmin_l|]. split; [left; reflexivity|]. split; [right; left; reflexivity|]. intros p [<-|[]]. split; [lra|apply Rmin_r].
Qed.
Lemma step_inv f a b c s : gs_inv f a b c s -> gs_inv f a b c (golden_step f s).
Proof.
  intros (O & V & Ha & Hc & B & X1 & X2 & P). pose proof (step_ordered f s O) as O'. pose proof (step_values f s V) as V'. split; [exact O'|]. split; [exact V'|].
  unfold golden_step, gs_ordered, gs_best in *. destruct (R_ltb (gs_f2 s) (gs_f1 s)) eqn:T; [apply R_ltb_spec in T|apply R_ltb_false in T]; cbn [gs_a gs_x1 gs_x2 gs_c gs_f1 gs_f2 gs_calls] in *.
  - rewrite Rmin_right in * by lra. assert (L : forall y, Rmin (gs_f2 s) y <= gs_f2 s) by (intros; apply Rmin_l).
    split; [lra|]. split; [lra|]. split; [eapply Rle_trans; [apply L|exact B]|]. split; [destruct X2; auto; right; right; auto|]. split; [right; left; reflexivity|].
    intros p [<-|Hp]; [split; [lra|apply Rmin_r]|]. destruct (P p Hp). split; [auto|]. eapply Rle_trans; [apply L|auto].
  - rewrite Rmin_left in * by lra. assert (L : forall y, Rmin y (gs_f1 s) <= gs_f1 s) by (intros; apply Rmin_r).
    split; [lra|]. split; [lra|]. split; [eapply Rle_trans; [apply L|exact B]|]. split; [right; left; reflexivity|]. split; [destruct X1; auto; right; right; auto|].
    intros p [<-|Hp]; [split; [lra|apply Rmin_l]|]. destruct (P p Hp). split; [auto|]. eapply Rle_trans; [apply L|auto].
Qed.
(** a unimodal function's minimum stays between the outer points *)
Definition gs_keeps (f : R -> R) (a m c : R) (s : gs) : Prop := gs_ordered s /\ gs_values f s /\ a <= gs_a s <= m /\ m <= gs_c s <= c.
Lemma step_keeps f a m c s : unimodal f a m c -> gs_keeps f a m c s -> gs_keeps f a m c (golden_step f s).
Proof.
  intros (_ & L & R') (O & V & Ha & Hc). pose proof (step_ordered f s O) as O'. pose proof (step_values f s V) as V'. split; [exact O'|]. split; [exact V'|].
  destruct V as [V1 V2]. unfold golden_step, gs_ordered in *. destruct (R_ltb (gs_f2 s) (gs_f1 s)) eqn:T; [apply R_ltb_spec in T|apply R_ltb_false in T]; cbn [gs_a gs_x1 gs_x2 gs_c gs_f1 gs_f2] in *; rewrite V1, V2 in T.
  - split; [|lra]. split; [lra|]. destruct (Rle_lt_dec (gs_x1 s) m); [lra|]. pose proof (R' (gs_x1 s) (gs_x2 s) ltac:(lra) ltac:(lra)). lra.
  - split; [lra|]. split; [|lra]. destruct (Rle_lt_dec m (gs_x2 s)); [lra|]. pose proof (L (gs_x1 s) (gs_x2 s) ltac:(lra) ltac:(lra)). lra.
Qed.

(** ** Four steps shrink the bracket by a constant factor *)
Definition gs_width (s : gs) : R := gs_c s - gs_a s.
Definition split3 := (R * R * R)%type.
Definition lens (s : gs) : split3 := (gs_x1 s - gs_a s, gs_x2 s - gs_x1 s, gs_c s - gs_x2 s).
Definition one_way (right : bool) (t : split3) : split3 :=
  let '(al, be, ga) := t in if right then (be, golden * ga, ga - golden * ga) else (al - golden * al, golden * al, be).
Lemma triple_eq (x y z x' y' z' : R) : x = x' -> y = y' -> z = z' -> (x, y, z) = (x', y', z').
Proof. congruence. Qed.
Lemma lens_step f s : exists r, lens (golden_step f s) = one_way r (lens s).
Proof.
  unfold golden_step, lens. destruct (R_ltb _ _); cbn [gs_a gs_x1 gs_x2 gs_c]; [exists true|exists false]; cbn [one_way]; apply triple_eq; ring.
Qed.
Definition total (t : split3) : R := let '(al, be, ga) := t in al + be + ga.
Lemma four_ways t r1 r2 r3 r4 : (let '(al, be, ga) := t in 0 <= al /\ 0 <= be /\ 0 <= ga) -> total (one_way r4 (one_way r3 (one_way r2 (one_way r1 t)))) <= 3 / 4 * total t.
Proof.
  destruct t as [[al be] ga]. intros (Ha & Hb & Hc). pose proof golden_eq as E. pose proof golden_bounds as B. pose proof (golden_nonneg al Ha). pose proof (golden_nonneg be Hb). pose proof (golden_nonneg ga Hc).
  assert (Ea : golden * (golden * al) = 3 * (golden * al) - al) by (rewrite <- Rmult_assoc, E; ring). assert (Eb : golden * (golden * be) = 3 * (golden * be) - be) by (rewrite <- Rmult_assoc, E; ring). assert (Ec : golden * (golden * ga) = 3 * (golden * ga) - ga) by (rewrite <- Rmult_assoc, E; ring).
  assert (D : forall x y, golden * (x - y) = golden * x - golden * y) by (intros; ring). assert (D3 : forall x, golden * (3 * x) = 3 * (golden * x)) by (intros; ring).
  destruct r1, r2, r3, r4; cbn [one_way total]; repeat (rewrite ?D, ?D3, ?Ea, ?Eb, ?Ec); lra.
Qed.
Lemma width_total s : gs_width s = total (lens s).
Proof. unfold gs_width, lens, total. ring. Qed.
Lemma four_steps f s : gs_ordered s -> gs_width (golden_step f (golden_step f (golden_step f (golden_step f s)))) <= 3 / 4 * gs_width s.
Proof.
  intros O. rewrite !width_total. set (s1 := golden_step f s). set (s2 := golden_step f s1). set (s3 := golden_step f s2).
  destruct (lens_step f s3) as [r4 E4]. destruct (lens_step f s2) as [r3 E3]. destruct (lens_step f s1) as [r2 E2]. destruct (lens_step f s) as [r1 E1]. rewrite E4. fold s3 in E3. fold s2 in E2. fold s1 in E1. rewrite E3, E2, E1. apply four_ways. cbn [lens]. unfold gs_ordered in O. unfold lens. lra.
Qed.
Fixpoint steps (n : nat) (f : R -> R) (s : gs) : gs := match n with O => s | S k => steps k f (golden_step f s) end.
Lemma steps_inv (I : gs -> Prop) f n s : (forall s, I s -> I (golden_step f s)) -> I s -> I (steps n f s).
Proof. intros HI. revert s. induction n; cbn [steps]; auto. Qed.
Lemma steps_width f n s : gs_ordered s -> gs_width (steps (4 * n) f s) <= (3 / 4) ^ n * gs_width s.
Proof.
  revert s. induction n as [|n IH]; intros s O; [cbn; lra|]. replace (4 * S n)%nat with (S (S (S (S (4 * n)))))%nat by lia. cbn [steps].
  eapply Rle_trans; [apply IH; do 4 apply step_ordered; exact O|]. cbn [pow]. pose proof (four_steps f s O). assert (0 < (3 / 4) ^ n) by (apply pow_lt; lra). nra.
Qed.
(** the loop ends if the n-th state meets the stopping test *)
Lemma loop_ends f maxit tol n : forall s, golden_continue maxit tol (steps n f s) = false -> exists fuel r, golden_loop fuel f maxit tol s = Ok r.
Proof.
  induction n as [|n IH]; intros s H; cbn [steps] in H.
  - exists 1%nat, s. cbn [golden_loop]. rewrite H. reflexivity.
  - destruct (golden_continue maxit tol s) eqn:T; [|exists 1%nat, s; cbn [golden_loop]; rewrite T; reflexivity].
    destruct (IH _ H) as (k & r & E). exists (S k), r. cbn [golden_loop]. rewrite T. exact E.
Qed.
(** an invariant under which the loop always goes on *)
Lemma loop_forever (I : gs -> Prop) f maxit tol : (forall s, I s -> golden_continue maxit tol s = true /\ I (golden_step f s)) -> forall fuel s, I s -> golden_loop fuel f maxit tol s = OutOfFuel.
Proof. intros H. induction fuel as [|k IH]; intros s Hs; cbn [golden_loop]; [reflexivity|]. destruct (H s Hs) as [-> Hn]. apply IH. exact Hn. Qed.

(** ** Brent *)
Definition br_inv (f : R -> R) (a b x0 : R) (s : br) : Prop :=
  a <= br_a s <= br_x s /\ br_x s <= br_b s <= b /\ br_fx s = f (br_x s) /\ br_fx s <= f x0 /\ (br_x s = x0 \/ In (br_x s) (br_calls s)) /\ forall p, In p (br_calls s) -> a <= p <= b /\ br_fx s <= f p.
(** every step goes to a point between the current ends *)
Lemma move_inside tol eps s : br_a s <= br_x s <= br_b s -> br_a s <= br_x s + fst (brent_move tol eps s) <= br_b s.
Proof.
  intros H. assert (G : br_a s <= br_x s + fst (brent_golden s) <= br_b s).
  { unfold brent_golden. cbn [fst]. destruct (R_ltb _ _).
    - pose proof (golden_nonneg (br_x s - br_a s) ltac:(lra)). lra.
    - pose proof (golden_nonneg (br_b s - br_x s) ltac:(lra)). lra. }
  unfold brent_move. destruct (R_ltb _ _ && _); [|exact G]. destruct (R_eqb (brent_q s) 0); [exact G|].
  destruct (R_ltb (br_x s + brent_p s / brent_q s) (br_a s)) eqn:T1; [exact G|]. destruct (R_ltb (br_b s) (br_x s + brent_p s / brent_q s)) eqn:T2; [exact G|]. destruct (R_ltb (Rabs (br_e s / 2)) _); [exact G|].
  apply R_ltb_false in T1, T2. cbn [orb fst]. lra.
Qed.
Lemma update_inv f a b x0 d e s : br_a s <= br_x s + d <= br_b s -> br_inv f a b x0 s -> br_inv f a b x0 (brent_update f d e s).
Proof.
  intros Hu (Ha & Hb & V & L & Ix & P). unfold br_inv, brent_update. set (u := br_x s + d) in *.
  destruct (R_ltb (f u) (br_fx s)) eqn:T; [apply R_ltb_spec in T|apply R_ltb_false in T].
  - cbn [br_a br_b br_x br_fx br_calls]. destruct (R_ltb (br_x s) u) eqn:C; [apply R_ltb_spec in C|apply R_ltb_false in C]; (split; [lra|]; split; [lra|]; split; [reflexivity|]; split; [lra|]; split; [right; left; reflexivity|]; intros p [<-|Hp]; [lra|destruct (P p Hp); lra]).
  - assert (G : forall w v fw fv, let b' := (if R_ltb u (br_x s) then br_b s else u) in let a' := (if R_ltb u (br_x s) then u else br_a s) in br_inv f a b x0 (mkbr a' b' (br_x s) w v (br_fx s) fw fv d e (u :: br_calls s))).
    { intros w v fw fv. cbn zeta. unfold br_inv. cbn [br_a br_b br_x br_fx br_calls].
      destruct (R_ltb u (br_x s)) eqn:C; [apply R_ltb_spec in C|apply R_ltb_false in C]; (split; [lra|]; split; [lra|]; split; [exact V|]; split; [lra|]; split; [destruct Ix; [left; assumption|right; right; assumption]|]; intros p [<-|Hp]; [lra|destruct (P p Hp); lra]). }
    destruct (negb (R_ltb (br_fw s) (f u)) || R_eqb (br_w s) (br_x s)); [apply G|]. destruct (_ || _ || _); apply G.
Qed.
Lemma step_brent_inv f a b x0 tol eps s : br_inv f a b x0 s -> br_inv f a b x0 (brent_step f tol eps s).
Proof.
  intros H. unfold brent_step. pose proof (move_inside tol eps s ltac:(destruct H; lra)) as M. destruct (brent_move tol eps s) as [d e]. cbn [fst] in M. apply update_inv; assumption.
Qed.
Lemma update_calls f d e s : br_calls (brent_update f d e s) = (br_x s + d) :: br_calls s.
Proof. unfold brent_update. destruct (R_ltb (f _) _); [reflexivity|]. destruct (_ || _); [reflexivity|]. destruct (_ || _ || _); reflexivity. Qed.
Lemma step_calls f tol eps s : br_calls (brent_step f tol eps s) = (br_x s + fst (brent_move tol eps s)) :: br_calls s.
Proof. unfold brent_step. destruct (brent_move tol eps s) as [d e]. apply update_calls. Qed.
Lemma brent_loop_inv (I : br -> Prop) f tol eps : (forall s, I s -> I (brent_step f tol eps s)) -> forall n s, I s -> I (brent_loop n f tol eps s).
Proof. intros HI. induction n as [|n IH]; intros s Hs; cbn [brent_loop]; [exact Hs|]. destruct (brent_wide tol eps s); auto. Qed.
(** evaluations: at most n, and fewer only if the bracket is narrow *)
Lemma brent_loop_calls f tol eps : forall n s, (length (br_calls (brent_loop n f tol eps s)) <= length (br_calls s) + n)%nat /\
  ((length (br_calls (brent_loop n f tol eps s)) < length (br_calls s) + n)%nat -> brent_wide tol eps (brent_loop n f tol eps s) = false).
Proof.
  induction n as [|n IH]; intros s; cbn [brent_loop]; [split; lia|]. destruct (brent_wide tol eps s) eqn:T.
  - destruct (IH (brent_step f tol eps s)) as [A B]. rewrite step_calls in A, B. cbn [length] in A, B. split; [lia|intros; apply B; lia].
  - split; [lia|auto].
Qed.
