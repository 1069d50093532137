(** * C67: the downhill simplex optimizer. *)
From Coq Require Import Reals Arith Bool Lra Lia Psatz FunctionalExtensionality.
From Verif Require Import Base Alg SpecMat Inst RSum LemEig ModelCG ModelSimplex SpecSimplex.
Open Scope outcome_scope.
Local Open Scope R_scope.

Lemma min_ok v : forall k, first_min k v (min_element v k).
Proof.
  induction k as [|k (A & B & C)]; cbn [min_element]; [split; [lia|split; [intros j Hj; replace j with 0%nat by lia; lra|lia]]|].
  destruct (R_ltb (v (S k)) (v (min_element v k))) eqn:T; [apply R_ltb_spec in T|apply R_ltb_false in T].
  - split; [lia|]. split; [intros j Hj; destruct (Nat.eq_dec j (S k)) as [->|]; [lra|specialize (B j ltac:(lia)); lra]|intros j Hj; specialize (B j ltac:(lia)); lra].
  - split; [lia|]. split; [|exact C]. intros j Hj. destruct (Nat.eq_dec j (S k)) as [->|]; [lra|apply B; lia].
Qed.
Lemma max_ok v : forall k, first_max k v (max_element v k).
Proof.
  induction k as [|k (A & B & C)]; cbn [max_element]; [split; [lia|split; [intros j Hj; replace j with 0%nat by lia; lra|lia]]|].
  destruct (R_ltb (v (max_element v k)) (v (S k))) eqn:T; [apply R_ltb_spec in T|apply R_ltb_false in T].
  - split; [lia|]. split; [intros j Hj; destruct (Nat.eq_dec j (S k)) as [->|]; [lra|specialize (B j ltac:(lia)); lra]|intros j Hj; specialize (B j ltac:(lia)); lra].
  - split; [lia|]. split; [|exact C]. intros j Hj. destruct (Nat.eq_dec j (S k)) as [->|]; [lra|apply B; lia].
Qed.
Lemma first_min_unique n v i j : first_min n v i -> first_min n v j -> i = j.
Proof. intros (A & B & C) (A' & B' & C'). destruct (lt_eq_lt_dec i j) as [[H|H]|H]; [|exact H|]; exfalso; [specialize (C' i H); specialize (B j A')|specialize (C j H); specialize (B' i A)]; lra. Qed.
Theorem C67_get_best_worst : forall s, first_min (ds_n s) (ds_values s) (get_best s) /\ first_max (ds_n s) (ds_values s) (get_worst s).
Proof. intros s. split; [apply min_ok|apply max_ok]. Qed.

(** what the loop computes *)
Lemma scan_best s w : forall k, (0 < k)%nat -> exists i, first_min (k - 1) (ds_values s) i /\ sc_best (ds_scan s w k) = i /\ sc_bestval (ds_scan s w k) = Some (ds_values s i).
Proof.
  induction k as [|k IH]; intros H; [lia|]. replace (S k - 1)%nat with k by lia. cbn [ds_scan]. destruct (Nat.eq_dec k 0) as [->|Nk].
  - exists 0%nat. cbn [ds_scan sc_bestval sc_best]. split; [split; [lia|split; [intros j Hj; replace j with 0%nat by lia; lra|lia]]|]. destruct (negb (0 =? w)%nat); split; reflexivity.
  - destruct (IH ltac:(lia)) as (i & (A & B & C) & E1 & E2). rewrite E1, E2. destruct (R_ltb (ds_values s k) (ds_values s i)) eqn:T; [apply R_ltb_spec in T|apply R_ltb_false in T].
    + exists k. split; [|destruct (negb (k =? w)%nat); split; reflexivity]. split; [lia|]. split; [intros j Hj; destruct (Nat.eq_dec j k) as [->|]; [lra|specialize (B j ltac:(lia)); lra]|intros j Hj; specialize (B j ltac:(lia)); lra].
    + exists i. split; [|destruct (negb (k =? w)%nat); split; reflexivity]. split; [lia|]. split; [|exact C]. intros j Hj. destruct (Nat.eq_dec j k) as [->|]; [lra|apply B; lia].
Qed.
Lemma scan_second s w : forall k, match sc_second (ds_scan s w k) with
  | None => forall j, (j < k)%nat -> j = w
  | Some x => (exists j, (j < k)%nat /\ j <> w /\ ds_values s j = x) /\ forall j, (j < k)%nat -> j <> w -> ds_values s j <= x end.
Proof.
  induction k as [|k IH]; cbn [ds_scan]; [cbn [sc_second]; lia|]. destruct (Nat.eqb_spec k w) as [->|N]; cbn [negb sc_second].
  - destruct (sc_second (ds_scan s w w)) as [x|]; [destruct IH as ((j & J1 & J2 & J3) & L); split; [exists j; repeat split; (lia || assumption)|intros i Hi Ni; apply L; lia]|intros j Hj; destruct (Nat.eq_dec j w); [assumption|apply IH; lia]].
  - destruct (sc_second (ds_scan s w k)) as [x|].
    + destruct IH as ((j & J1 & J2 & J3) & L). destruct (R_ltb x (ds_values s k)) eqn:T; [apply R_ltb_spec in T|apply R_ltb_false in T].
      * split; [exists k; repeat split; (lia || assumption)|]. intros i Hi Ni. destruct (Nat.eq_dec i k) as [->|]; [lra|specialize (L i ltac:(lia) Ni); lra].
      * split; [exists j; repeat split; (lia || assumption)|]. intros i Hi Ni. destruct (Nat.eq_dec i k) as [->|]; [lra|apply L; [lia|exact Ni]].
    + split; [exists k; repeat split; (lia || assumption)|]. intros i Hi Ni. destruct (Nat.eq_dec i k) as [->|]; [lra|]. exfalso. apply Ni, IH. lia.
Qed.
Lemma scan_sum s w c : forall k, sc_x0 (ds_scan s w k) c = Sum k (fun i => if (i =? w)%nat then 0 else ds_simplex s i c).
Proof.
  induction k as [|k IH]; cbn [ds_scan sum]; [reflexivity|]. cbn [fadd ROps]. destruct (Nat.eqb_spec k w) as [->|N]; cbn [negb sc_x0]; rewrite IH; [ring|reflexivity].
Qed.
Lemma sum_but n (f : nat -> R) w : (w < n)%nat -> Sum n (fun i => if (i =? w)%nat then 0 else f i) = Sum n f - f w.
Proof.
  intros H. pose proof (delta_l n w f H) as D. rewrite <- D at 1. rewrite <- S_sub. apply S_ext. intros i Hi. unfold delta. rewrite (Nat.eqb_sym w i). destruct (i =? w)%nat; cbn [f0 f1 ROps]; ring.
Qed.
(** ** one step is the Nelder-Mead step, for every function *)
Theorem C67_step : forall f s, (0 < ds_n s)%nat -> exists s', ds_find_next_point f s = Ok s' /\ exists w b sw, let n := ds_n s in let V := ds_simplex s in let v := ds_values s in
  first_max n v w /\ first_min n v b /\ largest_but n v w sw /\
  (ds_n s' = n /\ ds_alpha s' = ds_alpha s /\ ds_rho s' = ds_rho s /\ ds_gamma s' = ds_gamma s /\ ds_sigma s' = ds_sigma s /\ ds_epsilon s' = ds_epsilon s /\ ds_zero_epsilon s' = ds_zero_epsilon s) /\
  let x0 := centroid_but n V w in let xr := away x0 (V w) (ds_alpha s) in let xe := away x0 (V w) (ds_rho s * ds_alpha s) in let xc := away x0 (V w) (ds_gamma s) in
  let replace_worst p := replaced V w p n (ds_simplex s') /\ replaced v w (f p) n (ds_values s') in
  (f xr < v b /\ f xe < f xr /\ replace_worst xe) \/
  (f xr < v b /\ f xr <= f xe /\ replace_worst xr) \/
  (v b <= f xr < sw /\ replace_worst xr) \/
  (v b <= f xr /\ sw <= f xr < v w /\ f xc <= f xr /\ replace_worst xc) \/
  (v b <= f xr /\ sw <= f xr /\ (v w <= f xr \/ f xr < f xc) /\
   (forall i, (i <= n)%nat -> i <> b -> (forall k, ds_simplex s' i k = V b k + ds_sigma s * (V i k - V b k)) /\ ds_values s' i = f (ds_simplex s' i)) /\ ds_simplex s' b = V b /\ ds_values s' b = v b).
Proof.
  intros f s Hn. set (w := get_worst s). assert (Hw : first_max (ds_n s) (ds_values s) w) by apply max_ok.
  destruct (scan_best s w (ds_n s + 1) ltac:(lia)) as (b & Hb & E1 & E2). replace (ds_n s + 1 - 1)%nat with (ds_n s) in Hb by lia.
  pose proof (scan_second s w (ds_n s + 1)) as Hs. destruct (sc_second (ds_scan s w (ds_n s + 1))) as [sw|] eqn:E3.
  2: { exfalso. destruct (Nat.eq_dec w 0) as [W|W]; [specialize (Hs 1%nat ltac:(lia))|specialize (Hs 0%nat ltac:(lia))]; lia. }
  assert (Nn : INR (ds_n s) <> 0) by (apply not_0_INR; lia).
  assert (X0 : forall k, sc_x0 (ds_scan s w (ds_n s + 1)) k * (1 / INR (ds_n s)) = centroid_but (ds_n s) (ds_simplex s) w k). { intros k. rewrite scan_sum, sum_but by (destruct Hw; lia). unfold centroid_but. field. exact Nn. }
  assert (Aw : forall a, (fun k => (1 + a) * (sc_x0 (ds_scan s w (ds_n s + 1)) k * (1 / INR (ds_n s))) - a * ds_simplex s w k) = away (centroid_but (ds_n s) (ds_simplex s) w) (ds_simplex s w) a).
  { intros a. apply functional_extensionality. intros k. rewrite X0. unfold away. ring. }
  assert (Ae : (fun k => ds_rho s * ((1 + ds_alpha s) * (sc_x0 (ds_scan s w (ds_n s + 1)) k * (1 / INR (ds_n s))) - ds_alpha s * ds_simplex s w k) + (1 - ds_rho s) * (sc_x0 (ds_scan s w (ds_n s + 1)) k * (1 / INR (ds_n s)))) = away (centroid_but (ds_n s) (ds_simplex s) w) (ds_simplex s w) (ds_rho s * ds_alpha s)).
  { apply functional_extensionality. intros k. rewrite X0. unfold away. ring. }
  unfold ds_find_next_point. fold w. rewrite (R_div_ok 1 (INR (ds_n s)) Nn). cbn [bind]. rewrite E1, E2, E3, Ae, !Aw.
  set (x0 := centroid_but (ds_n s) (ds_simplex s) w). set (xr := away x0 (ds_simplex s w) (ds_alpha s)). set (xe := away x0 (ds_simplex s w) (ds_rho s * ds_alpha s)). set (xc := away x0 (ds_simplex s w) (ds_gamma s)). cbn [below below_second].
  assert (Hsw : largest_but (ds_n s) (ds_values s) w sw). { destruct Hs as ((j & J1 & J2 & J3) & L). split; [exists j; repeat split; (lia || assumption)|]. intros i Hi; apply L; lia. }
  assert (RW : forall p, replaced (ds_simplex s) w p (ds_n s) (ds_simplex (set_vertex s w p (f p))) /\ replaced (ds_values s) w (f p) (ds_n s) (ds_values (set_vertex s w p (f p)))) by (intros p; split; intros i Hi; reflexivity).
  destruct (R_ltb (f xr) (ds_values s b)) eqn:T1; [apply R_ltb_spec in T1|apply R_ltb_false in T1].
  - destruct (R_ltb (f xe) (f xr)) eqn:T2; [apply R_ltb_spec in T2|apply R_ltb_false in T2]; eexists; (split; [reflexivity|]); exists w, b, sw; cbn zeta; (split; [exact Hw|]); (split; [exact Hb|]); (split; [exact Hsw|]); (split; [repeat split|]); fold x0; fold xr; fold xe; fold xc; [left|right; left]; (split; [exact T1|]); (split; [exact T2|]); apply RW.
  - destruct (R_ltb (f xr) sw) eqn:T2; [apply R_ltb_spec in T2|apply R_ltb_false in T2].
    + eexists. split; [reflexivity|]. exists w, b, sw. cbn zeta. split; [exact Hw|]. split; [exact Hb|]. split; [exact Hsw|]. split; [repeat split|]. fold x0. fold xr. fold xe. fold xc. right. right. left. split; [lra|apply RW].
    + set (shr := ds_with s _ _). assert (Sh : (forall i, (i <= ds_n s)%nat -> i <> b -> (forall k, ds_simplex shr i k = ds_simplex s b k + ds_sigma s * (ds_simplex s i k - ds_simplex s b k)) /\ ds_values shr i = f (ds_simplex shr i)) /\ ds_simplex shr b = ds_simplex s b /\ ds_values shr b = ds_values s b).
      { unfold shr, ds_with. cbn [ds_simplex ds_values]. rewrite Nat.eqb_refl. split; [|split; reflexivity]. intros i Hi Ni. destruct (Nat.eqb_spec i b); [contradiction|]. split; [intros k; reflexivity|reflexivity]. }
      destruct (R_ltb (f xr) (ds_values s w)) eqn:T3; [apply R_ltb_spec in T3|apply R_ltb_false in T3].
      * destruct (R_ltb (f xr) (f xc)) eqn:T4; [apply R_ltb_spec in T4|apply R_ltb_false in T4]; eexists; (split; [reflexivity|]); exists w, b, sw; cbn zeta; (split; [exact Hw|]); (split; [exact Hb|]); (split; [exact Hsw|]); (split; [repeat split|]); fold x0; fold xr; fold xe; fold xc; right; right; right; [right|left].
        -- split; [exact T1|]. split; [exact T2|]. split; [right; exact T4|exact Sh].
        -- split; [exact T1|]. split; [lra|]. split; [exact T4|apply RW].
      * eexists. split; [reflexivity|]. exists w, b, sw. cbn zeta. split; [exact Hw|]. split; [exact Hb|]. split; [exact Hsw|]. split; [repeat split|]. fold x0. fold xr. fold xe. fold xc. right. right. right. right. split; [exact T1|]. split; [exact T2|]. split; [left; exact T3|exact Sh].
Qed.
(** ** every history *)
Definition ds_consistent (f : point -> R) (s : ds) : Prop := forall i, (i <= ds_n s)%nat -> ds_values s i = f (ds_simplex s i).
(** states reached by any sequence of find_next_point / iterate, restart, and assignments to the public parameters; with the best value after each *)
Inductive ds_reaches (f : point -> R) (s0 : ds) : ds -> Prop :=
| ds_start : ds_reaches f s0 s0
| ds_step s s' : ds_reaches f s0 s -> ds_find_next_point f s = Ok s' -> ds_reaches f s0 s'
| ds_again s spread : ds_reaches f s0 s -> ds_reaches f s0 (ds_restart f spread s)
| ds_params s a r g si e z : ds_reaches f s0 s -> ds_reaches f s0 (mkds (ds_n s) a r g si e z (ds_simplex s) (ds_values s)).
Definition best_value (s : ds) : R := ds_values s (get_best s).
Lemma restart_at_consistent f c spread s : ds_consistent f (ds_restart_at f c spread s).
Proof. intros i Hi. reflexivity. Qed.
Lemma step_consistent f s s' : (0 < ds_n s)%nat -> ds_consistent f s -> ds_find_next_point f s = Ok s' -> ds_consistent f s' /\ ds_n s' = ds_n s /\ best_value s' <= best_value s.
Proof.
  intros Hn C E. destruct (C67_step f s Hn) as (s1 & E1 & w & b & sw & Hw & Hb & Hsw & (N & _) & P). rewrite E1 in E. injection E as <-. cbn zeta in P. set (xr := away _ _ (ds_alpha s)) in P. set (xe := away _ _ (ds_rho s * ds_alpha s)) in P. set (xc := away _ _ (ds_gamma s)) in P.
  pose proof (proj1 (C67_get_best_worst s)) as Gb. assert (Eb : get_best s = b) by (eapply first_min_unique; eassumption). unfold best_value. rewrite Eb. destruct (proj1 (C67_get_best_worst s1)) as (B1 & B2 & _). rewrite N in B1, B2.
  assert (RC : forall p, replaced (ds_simplex s) w p (ds_n s) (ds_simplex s1) -> replaced (ds_values s) w (f p) (ds_n s) (ds_values s1) -> f p <= ds_values s b \/ f p < ds_values s w -> ds_consistent f s1 /\ ds_n s1 = ds_n s /\ ds_values s1 (get_best s1) <= ds_values s b).
  { intros p R1 R2 L. split; [|split; [exact N|]].
    - intros i Hi. rewrite N in Hi. rewrite R1, R2 by exact Hi. destruct (i =? w)%nat; [reflexivity|apply C; exact Hi].
    - destruct Hb as (Hb1 & Hb2 & _). destruct Hw as (Hw1 & Hw2 & _). destruct (Nat.eq_dec b w) as [Ew|Ew].
      + eapply Rle_trans; [apply (B2 w Hw1)|]. rewrite R2 by exact Hw1. rewrite Nat.eqb_refl. rewrite Ew in *. lra.
      + eapply Rle_trans; [apply (B2 b Hb1)|]. rewrite R2 by exact Hb1. destruct (Nat.eqb_spec b w); [contradiction|lra]. }
  pose proof Hw as (Hw1 & Hw2 & _). destruct Hsw as ((j & J1 & J2 & J3) & Ls). pose proof (Hw2 j J1) as Jw.
  destruct P as [(T1 & T2 & R1 & R2)|[(T1 & T2 & R1 & R2)|[(T1 & R1 & R2)|[(T1 & T2 & T3 & R1 & R2)|(T1 & T2 & T3 & Sh & Sb & Sv)]]]].
  - apply (RC xe R1 R2). lra.
  - apply (RC xr R1 R2). lra.
  - apply (RC xr R1 R2). lra.
  - apply (RC xc R1 R2). lra.
  - split; [|split; [exact N|]].
    + intros i Hi. rewrite N in Hi. destruct (Nat.eq_dec i b) as [->|Ni]; [rewrite Sb, Sv; apply C; exact Hi|apply Sh; assumption].
    + destruct Hb as (Hb1 & _). rewrite <- Sv. apply B2. exact Hb1.
Qed.
Lemma restart_best f spread s : ds_consistent f s -> best_value (ds_restart f spread s) <= best_value s.
Proof.
  intros C. unfold best_value. destruct (C67_get_best_worst (ds_restart f spread s)) as ((_ & B & _) & _). eapply Rle_trans; [apply (B (ds_n s)); cbn; lia|]. unfold ds_restart, ds_restart_at, ds_with. cbn [ds_values ds_simplex ds_n].
  rewrite Nat.ltb_irrefl. rewrite C by (destruct (C67_get_best_worst s) as ((G & _) & _); exact G). apply Rle_refl.
Qed.
Theorem C67_history : forall me f n c spread s, (0 < n)%nat -> ds_reaches f (ds_new me f n c spread) s ->
  ds_n s = n /\ (forall i, (i <= n)%nat -> ds_values s i = f (ds_simplex s i)) /\ best_value s <= f c /\
  (forall s', ds_find_next_point f s = Ok s' -> best_value s' <= best_value s) /\ (forall sp, best_value (ds_restart f sp s) <= best_value s).
Proof.
  intros me f n c spread s Hn H. assert (ds_consistent f s /\ ds_n s = n /\ best_value s <= f c) as (C & N & B).
  { induction H as [|s s' H (C & N & B) E|s sp H (C & N & B)|s a r g si e z H (C & N & B)].
    - split; [apply restart_at_consistent|]. split; [reflexivity|]. unfold best_value. destruct (C67_get_best_worst (ds_new me f n c spread)) as ((_ & B & _) & _). eapply Rle_trans; [apply (B n); cbn; lia|]. unfold ds_new, ds_restart_at, ds_with. cbn [ds_values ds_n]. rewrite Nat.ltb_irrefl. apply Rle_refl.
    - destruct (step_consistent f s s' ltac:(lia) C E) as (C' & N' & B'). split; [exact C'|]. split; [congruence|lra].
    - split; [apply restart_at_consistent|]. split; [exact N|]. pose proof (restart_best f sp s C). lra.
    - split; [exact C|]. split; [exact N|exact B]. }
  split; [exact N|]. split; [rewrite <- N; exact C|]. split; [exact B|]. split; [intros s' E; apply (step_consistent f s s' ltac:(lia) C E)|intros sp; apply restart_best; exact C].
Qed.
(** ** the simplex never collapses *)
Lemma replace_independent n V w p a V' : (0 < n)%nat -> (w <= n)%nat -> a <> 0 -> affinely_independent n V -> (forall k, p k = away (centroid_but n V w) (V w) a k) -> replaced V w p n V' -> affinely_independent n V'.
Proof.
  intros Hn Hw Na I Ep Rp m M0 M1. assert (Nn : INR n <> 0) by (apply not_0_INR; lia).
  set (l := fun i => if (i =? w)%nat then - a * m w else m i + (1 + a) / INR n * m w).
  assert (Lw : forall (x : nat -> R), Sum (n + 1) (fun i => l i * x i) = (Sum (n + 1) (fun i => m i * x i) - m w * x w) + (1 + a) / INR n * m w * (Sum (n + 1) x - x w) - a * m w * x w).
  { intros x. rewrite <- (sum_but (n + 1) (fun i => m i * x i) w) by lia. rewrite <- (sum_but (n + 1) x w) by lia. rewrite <- S_mul_l. rewrite <- S_add. pose proof (delta_l (n + 1) w (fun i => a * m w * x i) ltac:(lia)) as D. cbn beta in D. rewrite <- D. rewrite <- S_sub.
    apply S_ext. intros i Hi. unfold l, delta. rewrite (Nat.eqb_sym w i). destruct (Nat.eqb_spec i w) as [->|]; cbn [f0 f1 ROps]; ring. }
  assert (Ones : forall q, Sum q (fun _ => 1) = INR q). { induction q as [|q IH]; [reflexivity|]. cbn [sum]. cbn [fadd ROps]. rewrite IH, S_INR. reflexivity. }
  assert (L0 : Sum (n + 1) l = 0).
  { transitivity (Sum (n + 1) (fun i => l i * 1)); [apply S_ext; intros; ring|]. rewrite (Lw (fun _ => 1)), Ones, plus_INR. rewrite (S_ext (n + 1) (fun i => m i * 1) m) by (intros; ring). rewrite M0. cbn [INR]. field. exact Nn. }
  assert (L1 : forall k, (k < n)%nat -> Sum (n + 1) (fun i => l i * V i k) = 0).
  { intros k Hk. rewrite (Lw (fun i => V i k)). specialize (M1 k Hk).
    assert (E : Sum (n + 1) (fun i => m i * V' i k) = (Sum (n + 1) (fun i => m i * V i k) - m w * V w k) + m w * p k).
    { rewrite <- (sum_but (n + 1) (fun i => m i * V i k) w) by lia. pose proof (delta_l (n + 1) w (fun i => m i * p k) ltac:(lia)) as D. cbn beta in D. rewrite <- D. rewrite <- S_add. apply S_ext. intros i Hi. rewrite Rp by lia. unfold delta. rewrite (Nat.eqb_sym w i). destruct (Nat.eqb_spec i w) as [->|]; cbn [f0 f1 ROps]; ring. }
    rewrite E, Ep in M1. unfold away, centroid_but in M1. cbn beta. set (A := Sum (n + 1) (fun i => m i * V i k)) in *. set (B := Sum (n + 1) (fun i => V i k)) in *. rewrite <- M1. field. exact Nn. }
  pose proof (I l L0 L1) as Z. pose proof (Z w Hw) as Zw. unfold l in Zw. rewrite Nat.eqb_refl in Zw. assert (Mw : m w = 0) by (apply Rmult_integral in Zw; destruct Zw; [lra|assumption]).
  intros i Hi. destruct (Nat.eq_dec i w) as [->|Ni]; [exact Mw|]. specialize (Z i Hi). unfold l in Z. destruct (Nat.eqb_spec i w); [contradiction|]. rewrite Mw in Z. lra.
Qed.
Theorem C67_never_collapses : forall f s s', (0 < ds_n s)%nat -> ds_alpha s <> 0 -> ds_rho s <> 0 -> ds_gamma s <> 0 -> ds_sigma s <> 0 -> affinely_independent (ds_n s) (ds_simplex s) -> ds_find_next_point f s = Ok s' -> affinely_independent (ds_n s') (ds_simplex s').
Proof.
  intros f s s' Hn Na Nr Ng Ns I E. destruct (C67_step f s Hn) as (s1 & E1 & w & b & sw & Hw & Hb & _ & (N & _) & P). rewrite E1 in E. injection E as <-. cbn zeta in P. rewrite N. destruct Hw as (Hw & _). destruct Hb as (Hb & _).
  destruct P as [(_ & _ & R1 & _)|[(_ & _ & R1 & _)|[(_ & R1 & _)|[(_ & _ & _ & R1 & _)|(_ & _ & _ & Sh & Sb & _)]]]].
  - eapply replace_independent; [exact Hn|exact Hw| |exact I|intros k; reflexivity|exact R1]. apply Rmult_integral_contrapositive_currified; assumption.
  - eapply replace_independent; [exact Hn|exact Hw|exact Na|exact I|intros k; reflexivity|exact R1].
  - eapply replace_independent; [exact Hn|exact Hw|exact Na|exact I|intros k; reflexivity|exact R1].
  - eapply replace_independent; [exact Hn|exact Hw|exact Ng|exact I|intros k; reflexivity|exact R1].
  - intros m M0 M1. apply I; [exact M0|]. intros k Hk. specialize (M1 k Hk). rewrite (S_ext (ds_n s + 1) _ (fun i => (1 - ds_sigma s) * ds_simplex s b k * m i + ds_sigma s * (m i * ds_simplex s i k))) in M1.
    + rewrite S_add, !S_mul_l, M0, Rmult_0_r, Rplus_0_l in M1. apply Rmult_integral in M1. destruct M1; [contradiction|assumption].
    + intros i Hi. destruct (Nat.eq_dec i b) as [->|Ni]; [rewrite Sb; ring|]. rewrite (proj1 (Sh i ltac:(lia) Ni) k). ring.
Qed.
(** the simplex set up by the constructor or by restart is not degenerate *)
Theorem C67_restart : forall f c spread s, spread <> 0 -> affinely_independent (ds_n s) (ds_simplex (ds_restart_at f c spread s)) /\
  (forall i k, (i < ds_n s)%nat -> (k < ds_n s)%nat -> ds_simplex (ds_restart_at f c spread s) i k = c k + (if (k =? i)%nat then spread else 0)) /\ ds_simplex (ds_restart_at f c spread s) (ds_n s) = c.
Proof.
  intros f c spread s Ns. unfold ds_restart_at, ds_with. cbn [ds_simplex ds_n]. set (n := ds_n s).
  assert (V : forall i k, (i < n)%nat -> (if (i <? n)%nat then fun k : nat => if (k =? i)%nat then c k + spread else c k else c) k = c k + (if (k =? i)%nat then spread else 0)). { intros i k Hi. apply Nat.ltb_lt in Hi. rewrite Hi. destruct (k =? i)%nat; ring. }
  split; [|split; [intros i k Hi _; apply V; exact Hi|rewrite Nat.ltb_irrefl; reflexivity]].
  intros l L0 L1. assert (Z : forall k, (k < n)%nat -> l k = 0).
  { intros k Hk. specialize (L1 k Hk). rewrite (S_ext (n + 1) _ (fun i => c k * l i + spread * (delta k i * l i))) in L1.
    - rewrite S_add, !S_mul_l, L0, Rmult_0_r, Rplus_0_l in L1. rewrite (delta_l (n + 1) k l) in L1 by lia. apply Rmult_integral in L1. destruct L1; [contradiction|assumption].
    - intros i Hi. unfold delta. destruct (Nat.eq_dec i n) as [->|Ni].
      + rewrite Nat.ltb_irrefl. destruct (Nat.eqb_spec k n); [lia|]. cbn [f0 f1 ROps]. ring.
      + rewrite V by lia. destruct (k =? i)%nat; cbn [f0 f1 ROps]; ring. }
  intros i Hi. destruct (Nat.eq_dec i n) as [->|Ni]; [|apply Z; lia]. replace (n + 1)%nat with (S n) in L0 by lia. cbn [sum] in L0. cbn [fadd ROps] in L0. rewrite (S_ext n l (fun _ => 0)) in L0 by (intros; apply Z; assumption). rewrite S_zero in L0 by (intros; reflexivity). lra.
Qed.
(** finished(): the distance between the best and the worst vertex is small, absolutely or with respect to the size of the best one *)
Theorem C67_finished : forall s, let b := ds_simplex s (get_best s) in let w := ds_simplex s (get_worst s) in let span := pnorm (ds_n s) (fun k => b k - w k) in let scale := pnorm (ds_n s) b in
  ds_finished s = true <-> span < ds_zero_epsilon s \/ (scale <> 0 /\ span < ds_epsilon s * scale).
Proof.
  intros s b w span scale. unfold ds_finished. fold b w. fold span scale. rewrite orb_true_iff, R_ltb_spec. assert (Ps : 0 <= scale) by apply sqrt_pos.
  destruct (R_eqb scale 0) eqn:Z.
  - apply R_eqb_spec in Z. split; [intros [H|H]; [discriminate|left; exact H]|intros [H|[H _]]; [right; exact H|contradiction]].
  - assert (Nz : scale <> 0) by (intros C; apply R_eqb_spec in C; congruence). rewrite R_ltb_spec. assert (Q : span / scale < ds_epsilon s <-> span < ds_epsilon s * scale).
    { split; intros H; [apply Rmult_lt_compat_r with (r := scale) in H; [|lra]; replace (span / scale * scale) with span in H by (field; exact Nz); exact H|]. apply Rmult_lt_reg_r with (r := scale); [lra|]. replace (span / scale * scale) with span by (field; exact Nz). exact H. }
    tauto.
Qed.
(** iterate(): one find_next_point, and "continue" unless the new simplex is that small *)
Theorem C67_iterate : forall f s, (0 < ds_n s)%nat -> exists s' more, ds_iterate f s = Ok (s', more) /\ ds_find_next_point f s = Ok s' /\
  let b := ds_simplex s' (get_best s') in let w := ds_simplex s' (get_worst s') in let span := pnorm (ds_n s') (fun k => b k - w k) in
  (more = true <-> ds_zero_epsilon s' <= span /\ (pnorm (ds_n s') b = 0 \/ ds_epsilon s' * pnorm (ds_n s') b <= span)).
Proof.
  intros f s Hn. destruct (C67_step f s Hn) as (s' & E & _). exists s', (negb (ds_finished s')). split; [unfold ds_iterate; rewrite E; reflexivity|]. split; [exact E|].
  intros b w span. rewrite negb_true_iff, <- not_true_iff_false, (C67_finished s'). fold b w span. destruct (Req_dec (pnorm (ds_n s') b) 0) as [Z|Z].
  - rewrite Z. split; [intros N; split; [apply Rnot_lt_le; intros L; apply N; left; exact L|left; reflexivity]|]. intros [L _] [C|[C _]]; [lra|apply C; reflexivity].
  - split.
    + intros N. split; [apply Rnot_lt_le; intros L; apply N; left; exact L|right; apply Rnot_lt_le; intros L; apply N; right; split; assumption].
    + intros [L [C|C]] [D|[_ D]]; lra.
Qed.
(** non-vacuity: a step from the constructor's simplex exists for every function, dimension and start *)
Example ex_simplex : forall me f n c, (0 < n)%nat -> exists s', ds_find_next_point f (ds_new me f n c 1) = Ok s' /\ ds_reaches f (ds_new me f n c 1) s' /\ affinely_independent n (ds_simplex s').
Proof.
  intros me f n c Hn. destruct (C67_step f (ds_new me f n c 1) Hn) as (s' & E & w & b & sw & _ & _ & _ & (N & _) & _). exists s'. split; [exact E|]. split; [eapply ds_step; [apply ds_start|exact E]|].
  change n with (ds_n (ds_new me f n c 1)). rewrite <- N. apply (C67_never_collapses f (ds_new me f n c 1) s'); [exact Hn| | | | | |exact E]; cbn [ds_new ds_restart_at ds_with ds_alpha ds_rho ds_gamma ds_sigma]; try lra. unfold ds_new. apply (C67_restart f c 1 (mkds n 1 2 (/ 2) (/ 2) (sqrt me) (/ 10 ^ 20) (fun _ _ => 0) (fun _ => 0))). lra.
Qed.
Print Assumptions C67_get_best_worst.
Print Assumptions C67_step.
Print Assumptions C67_history.
Print Assumptions C67_never_collapses.
Print Assumptions C67_restart.
Print Assumptions C67_finished.
Print Assumptions C67_iterate.
