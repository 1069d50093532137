(** * The downhill simplex step in floating point: lemmas. *)
From Coq Require Import Reals Arith Bool Lra Lia Psatz FunctionalExtensionality.
From Verif Require Import Base Alg SpecMat Inst RSum SpecFl LemFl LemFlChol ModelFl ModelCG ModelSimplex SpecSimplex PropSimplex ModelFlSimplex.
Open Scope outcome_scope.
Local Open Scope R_scope.

(** x approximates X, of size at most M, with k roundings *)
Definition app (u : R) (k : nat) (M x X : R) : Prop := Rabs X <= M /\ Rabs (x - X) <= fwd u k * M.
Section A.
Variables (u : R) (rnd : R -> R).
Hypothesis RN : rounding u rnd.
Let U : 0 <= u < 1. Proof. apply RN. Qed.
Lemma fwd_S k : fwd u (S k) = u * (1 + fwd u k) + fwd u k.
Proof. unfold fwd. cbn [pow]. ring. Qed.
Lemma fwd_nn k : 0 <= fwd u k. Proof. apply fwd_nonneg. lra. Qed.
Lemma app_0 X : app u 0 (Rabs X) X X.
Proof. split; [lra|]. unfold fwd. cbn [pow]. replace (X - X) with 0 by ring. rewrite Rabs_R0. lra. Qed.
Lemma app_M k M N x X : M <= N -> app u k M x X -> app u k N x X.
Proof. intros H (A & B). pose proof (fwd_nn k). split; [lra|]. eapply Rle_trans; [exact B|]. apply Rmult_le_compat_l; lra. Qed.
Lemma app_k k l M x X : (k <= l)%nat -> app u k M x X -> app u l M x X.
Proof. intros H (A & B). split; [exact A|]. eapply Rle_trans; [exact B|]. pose proof (Rabs_pos X). apply Rmult_le_compat_r; [lra|apply fwd_mono; [lra|exact H]]. Qed.
Lemma app_rnd k M x X : app u k M x X -> app u (S k) M (rnd x) X.
Proof.
  intros (A & B). split; [exact A|]. destruct RN as (_ & E & _). specialize (E x). rewrite fwd_S. pose proof (fwd_nn k) as F. replace (rnd x - X) with ((rnd x - x) + (x - X)) by ring. eapply Rle_trans; [apply Rabs_triang|].
  assert (Rabs x <= M + fwd u k * M). { replace x with (X + (x - X)) by ring. eapply Rle_trans; [apply Rabs_triang|]. lra. }
  assert (u * Rabs x <= u * (M + fwd u k * M)) by (apply Rmult_le_compat_l; lra). lra.
Qed.
Lemma app_add k M N x X y Y : app u k M x X -> app u k N y Y -> app u k (M + N) (x + y) (X + Y).
Proof. intros (A & B) (C & D). split; [eapply Rle_trans; [apply Rabs_triang|]; lra|]. replace (x + y - (X + Y)) with ((x - X) + (y - Y)) by ring. eapply Rle_trans; [apply Rabs_triang|]. lra. Qed.
Lemma app_sub k M N x X y Y : app u k M x X -> app u k N y Y -> app u k (M + N) (x - y) (X - Y).
Proof.
  intros H (C & D). apply (app_add k M N x X (- y) (- Y)); [exact H|]. split; [rewrite Rabs_Ropp; exact C|]. replace (- y - - Y) with (- (y - Y)) by ring. rewrite Rabs_Ropp. exact D.
Qed.
Lemma app_mul j k M N x X y Y : app u j M x X -> app u k N y Y -> app u (j + k) (M * N) (x * y) (X * Y).
Proof.
  intros (A & B) (C & D). pose proof (Rabs_pos X) as PX. pose proof (Rabs_pos Y) as PY. pose proof (fwd_nn j) as Fj. pose proof (fwd_nn k) as Fk. split; [rewrite Rabs_mult; apply Rmult_le_compat; assumption|].
  replace (x * y - X * Y) with ((x - X) * (y - Y) + (x - X) * Y + X * (y - Y)) by ring. eapply Rle_trans; [apply Rabs_triang|]. eapply Rle_trans; [apply Rplus_le_compat_r, Rabs_triang|]. rewrite !Rabs_mult.
  assert (Rabs (x - X) * Rabs (y - Y) <= (fwd u j * M) * (fwd u k * N)) by (apply Rmult_le_compat; try apply Rabs_pos; assumption). assert (Rabs (x - X) * Rabs Y <= (fwd u j * M) * N) by (apply Rmult_le_compat; try apply Rabs_pos; assumption). assert (Rabs X * Rabs (y - Y) <= M * (fwd u k * N)) by (apply Rmult_le_compat; try apply Rabs_pos; assumption).
  replace (fwd u (j + k) * (M * N)) with ((fwd u j * M) * (fwd u k * N) + (fwd u j * M) * N + M * (fwd u k * N)); [lra|]. unfold fwd. rewrite pow_add. ring.
Qed.
(** ** the loop over the vertices *)
Lemma fscan_same s w k : sc_bestval (fl_ds_scan rnd s w k) = sc_bestval (ds_scan s w k) /\ sc_best (fl_ds_scan rnd s w k) = sc_best (ds_scan s w k) /\ sc_second (fl_ds_scan rnd s w k) = sc_second (ds_scan s w k).
Proof.
  induction k as [|k (A & B & C)]; [repeat split|]. cbn [fl_ds_scan ds_scan]. rewrite A, B, C. destruct (negb (k =? w)%nat); repeat split.
Qed.
Lemma fscan_sum s w c : forall k, app u k (Sum k (fun i => if (i =? w)%nat then 0 else Rabs (ds_simplex s i c))) (sc_x0 (fl_ds_scan rnd s w k) c) (sc_x0 (ds_scan s w k) c).
Proof.
  induction k as [|k IH]; cbn [fl_ds_scan ds_scan sum]. { cbn [sc_x0 f0 ROps]. pose proof (app_0 0) as A. rewrite Rabs_R0 in A. exact A. }
  cbn [fadd ROps]. destruct (Nat.eqb_spec k w) as [->|N]; cbn [negb sc_x0].
  - rewrite Rplus_0_r. apply (app_k w); [lia|exact IH].
  - apply app_rnd, app_add; [exact IH|]. apply (app_k 0); [lia|apply app_0].
Qed.
End A.
(** ** the step, for any rounding function whatsoever *)
Lemma fl_step rnd f s : (0 < ds_n s)%nat -> exists s', fl_ds_find_next_point rnd f s = Ok s' /\ exists w b sw, let n := ds_n s in let V := ds_simplex s in let v := ds_values s in
  first_max n v w /\ first_min n v b /\ largest_but n v w sw /\
  (ds_n s' = n /\ ds_alpha s' = ds_alpha s /\ ds_rho s' = ds_rho s /\ ds_gamma s' = ds_gamma s /\ ds_sigma s' = ds_sigma s /\ ds_epsilon s' = ds_epsilon s /\ ds_zero_epsilon s' = ds_zero_epsilon s) /\
  let x0 := fun k => rnd (sc_x0 (fl_ds_scan rnd s w (n + 1)) k * rnd (1 / INR n)) in let xr := fl_away rnd x0 (V w) (ds_alpha s) in let xe := fl_mix rnd xr x0 (ds_rho s) in let xc := fl_away rnd x0 (V w) (ds_gamma s) in
  let replace_worst p := replaced V w p n (ds_simplex s') /\ replaced v w (f p) n (ds_values s') in
  (f xr < v b /\ f xe < f xr /\ replace_worst xe) \/
  (f xr < v b /\ f xr <= f xe /\ replace_worst xr) \/
  (v b <= f xr < sw /\ replace_worst xr) \/
  (v b <= f xr /\ sw <= f xr < v w /\ f xc <= f xr /\ replace_worst xc) \/
  (v b <= f xr /\ sw <= f xr /\ (v w <= f xr \/ f xr < f xc) /\
   (forall i, (i <= n)%nat -> i <> b -> (forall k, ds_simplex s' i k = fl_shrunk rnd (V b) (V i) (ds_sigma s) k) /\ ds_values s' i = f (ds_simplex s' i)) /\ ds_simplex s' b = V b /\ ds_values s' b = v b).
Proof.
  intros Hn. set (w := get_worst s). assert (Hw : first_max (ds_n s) (ds_values s) w) by apply max_ok.
  destruct (scan_best s w (ds_n s + 1) ltac:(lia)) as (b & Hb & E1 & E2). replace (ds_n s + 1 - 1)%nat with (ds_n s) in Hb by lia.
  pose proof (scan_second s w (ds_n s + 1)) as Hs. destruct (sc_second (ds_scan s w (ds_n s + 1))) as [sw|] eqn:E3.
  2: { exfalso. destruct (Nat.eq_dec w 0) as [W|W]; [specialize (Hs 1%nat ltac:(lia))|specialize (Hs 0%nat ltac:(lia))]; lia. }
  assert (Nn : INR (ds_n s) <> 0) by (apply not_0_INR; lia).
  unfold fl_ds_find_next_point. fold w. rewrite (fl_div_ok rnd 1 (INR (ds_n s)) Nn). cbn [bind]. destruct (fscan_same rnd s w (ds_n s + 1)) as (S1 & S2 & S3). rewrite S1, S2, S3, E1, E2, E3.
  set (x0 := fun k => rnd (sc_x0 (fl_ds_scan rnd s w (ds_n s + 1)) k * rnd (1 / INR (ds_n s)))). set (xr := fl_away rnd x0 (ds_simplex s w) (ds_alpha s)). set (xe := fl_mix rnd xr x0 (ds_rho s)). set (xc := fl_away rnd x0 (ds_simplex s w) (ds_gamma s)). cbn [below below_second].
  assert (Hsw : largest_but (ds_n s) (ds_values s) w sw). { destruct Hs as ((j & J1 & J2 & J3) & L). split; [exists j; repeat split; (lia || assumption)|]. intros i Hi; apply L; lia. }
  assert (RW : forall p, replaced (ds_simplex s) w p (ds_n s) (ds_simplex (set_vertex s w p (f p))) /\ replaced (ds_values s) w (f p) (ds_n s) (ds_values (set_vertex s w p (f p)))) by (intros p; split; intros i Hi; reflexivity).
  destruct (R_ltb (f xr) (ds_values s b)) eqn:T1; [apply R_ltb_spec in T1|apply R_ltb_false in T1].
  - destruct (R_ltb (f xe) (f xr)) eqn:T2; [apply R_ltb_spec in T2|apply R_ltb_false in T2]; eexists; (split; [reflexivity|]); exists w, b, sw; cbn zeta; (split; [exact Hw|]); (split; [exact Hb|]); (split; [exact Hsw|]); (split; [repeat split|]); fold x0; fold xr; fold xe; fold xc; [left|right; left]; (split; [exact T1|]); (split; [exact T2|]); apply RW.
  - destruct (R_ltb (f xr) sw) eqn:T2; [apply R_ltb_spec in T2|apply R_ltb_false in T2].
    + eexists. split; [reflexivity|]. exists w, b, sw. cbn zeta. split; [exact Hw|]. split; [exact Hb|]. split; [exact Hsw|]. split; [repeat split|]. fold x0. fold xr. fold xe. fold xc. right. right. left. split; [lra|apply RW].
    + set (shr := ds_with s _ _). assert (Sh : (forall i, (i <= ds_n s)%nat -> i <> b -> (forall k, ds_simplex shr i k = fl_shrunk rnd (ds_simplex s b) (ds_simplex s i) (ds_sigma s) k) /\ ds_values shr i = f (ds_simplex shr i)) /\ ds_simplex shr b = ds_simplex s b /\ ds_values shr b = ds_values s b).
      { unfold shr, ds_with. cbn [ds_simplex ds_values]. rewrite Nat.eqb_refl. split; [|split; reflexivity]. intros i Hi Ni. destruct (Nat.eqb_spec i b); [contradiction|]. split; [intros k; reflexivity|reflexivity]. }
      destruct (R_ltb (f xr) (ds_values s w)) eqn:T3; [apply R_ltb_spec in T3|apply R_ltb_false in T3].
      * destruct (R_ltb (f xr) (f xc)) eqn:T4; [apply R_ltb_spec in T4|apply R_ltb_false in T4]; eexists; (split; [reflexivity|]); exists w, b, sw; cbn zeta; (split; [exact Hw|]); (split; [exact Hb|]); (split; [exact Hsw|]); (split; [repeat split|]); fold x0; fold xr; fold xe; fold xc; right; right; right; [right|left].
        -- split; [exact T1|]. split; [exact T2|]. split; [right; exact T4|exact Sh].
        -- split; [exact T1|]. split; [lra|]. split; [exact T4|apply RW].
      * eexists. split; [reflexivity|]. exists w, b, sw. cbn zeta. split; [exact Hw|]. split; [exact Hb|]. split; [exact Hsw|]. split; [repeat split|]. fold x0. fold xr. fold xe. fold xc. right. right. right. right. split; [exact T1|]. split; [exact T2|]. split; [left; exact T3|exact Sh].
Qed.
