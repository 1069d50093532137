(** * C87: weighted least squares in floating point. *)
From Coq Require Import Reals Lra Lia Arith Bool List Permutation.
From Verif Require Import Base Alg Inst Mat SpecMat LemMat LemOps LemHelpers ModelOps SpecLin LemLin SpecForm LemForm ModelChol LemChol LemCholSolve PropChol RSum LemExp ModelFl SpecFl LemFl ModelWLS SpecWLS LemWLS LemWLSRun LemWLSEnergy PropWLS
  LemFlChol LemFlChol2 LemFlChol3 PropFl PropFlChol RRect LemFlWLS SpecFlWLS LemFlWLS2 ExFl.
Import ListNotations.
Open Scope outcome_scope.
Local Open Scope R_scope.

Lemma run3 u rnd n os : rounding u rnd -> Forall (op_ok n) os -> exists w0 w e0 e a0 a, @wls_new R (FlOps rnd) n = Ok w0 /\ @wls_run R (FlOps rnd) os w0 = Ok w /\ @wls_new R ROps n = Ok e0 /\ @wls_run R ROps os e0 = Ok e /\
  @wls_new R ROps n = Ok a0 /\ @wls_run R ROps (map op_abs os) a0 = Ok a /\ rel3 u n (rounds os) w e a.
Proof.
  intros RN H. destruct (new_step u rnd RN n) as (w0 & e0 & a0 & E1 & E2 & E3 & Rl). destruct (run_step u rnd RN n os _ 0 H (Nat.le_refl _) w0 e0 a0 (Rl _)) as (w & e & a & E4 & E5 & E6 & Rr).
  exists w0, w, e0, e, a0, a. repeat (split; [assumption|]). rewrite Nat.add_0_r in Rr. exact Rr.
Qed.
(** Any sequence of well-sized calls on n parameters completes, and the matrix (upper triangle) and vector it accumulates differ from those of exact arithmetic
    by at most (1+u)^k - 1 times those of exact arithmetic on the absolute values of the data; k is counted by [rounds]. *)
Theorem C87_accumulation : forall u rnd, rounding u rnd -> forall n (os : list (wop R)), Forall (op_ok n) os ->
  exists w0 w e0 e a, @wls_new R (FlOps rnd) n = Ok w0 /\ @wls_run R (FlOps rnd) os w0 = Ok w /\ @wls_new R ROps n = Ok e0 /\ @wls_run R ROps os e0 = Ok e /\ @wls_run R ROps (map op_abs os) e0 = Ok a /\
   (forall r c, (r <= c < n)%nat -> Rabs (mel (w_C w) r c - mel (w_C e) r c) <= fwd u (rounds os) * mel (w_C a) r c) /\
   (forall r, (r < n)%nat -> Rabs (vat (w_v w) r - vat (w_v e) r) <= fwd u (rounds os) * vat (w_v a) r).
Proof.
  intros u rnd RN n os H. destruct (run3 u rnd n os RN H) as (w0 & w & e0 & e & a0 & a & E1 & E2 & E3 & E4 & E5 & E6 & (_ & _ & _ & T1 & T2)). assert (a0 = e0) by congruence. subst a0.
  exists w0, w, e0, e, a. repeat (split; [assumption|]). split; [intros r c Hr; exact (proj1 (T1 r c Hr))|intros r Hr; exact (proj1 (T2 r Hr))].
Qed.

Lemma exact_acc n os e0 e : Forall (@op_ok R n) os -> @wls_new R ROps n = Ok e0 -> @wls_run R ROps os e0 = Ok e -> acc n e (@runH R ROps n os) (@rung R ROps n os).
Proof. intros H E1 E2. exact (@run_acc R ROps RLaws n os e0 e H E1 E2). Qed.
(** compute() in floating point: it does not fail; either the decomposition stops at a zero pivot and the estimate is not finite, or it goes through *)
Lemma fl_compute rnd n w : sized n w -> exists C ch, wls_mirror (w_C w) = Ok C /\ mat_is C n n (upper_sym (mel (w_C w))) /\ @cholesky R (FlOps rnd) C = Ok ch /\ (ch_rank ch <= n)%nat /\
  ((ch_rank ch = n /\ exists mu, @wls_compute R (FlOps rnd) w = Ok (mkwls C (w_v w) ch mu) /\ @chol_backsub R (FlOps rnd) ch (w_v w) = Ok mu) \/ ((ch_rank ch < n)%nat /\ @wls_compute R (FlOps rnd) w = NonFinite)).
Proof.
  intros (A1 & A2 & A3 & A4). destruct (mirror_ok n (w_C w) A1 A2) as (C & EC & RC & KC & VC). destruct (C86_total rnd C ltac:(lia)) as (ch & Ech & Hk). rewrite RC in Hk. exists C, ch.
  split; [exact EC|]. split; [split; [exact RC|split; [exact KC|exact VC]]|]. split; [exact Ech|]. split; [exact Hk|].
  assert (ER : @cholesky_recompute R (FlOps rnd) (w_dec w) C = Ok ch). { rewrite <- Ech. unfold cholesky_recompute, cholesky. rewrite !same_size_eq by lia. reflexivity. }
  unfold wls_compute. rewrite EC. cbn [bind]. rewrite ER. cbn [bind]. destruct (Nat.eq_dec (ch_rank ch) n) as [K|K]; [left|right].
  - split; [exact K|]. pose proof (fl_full rnd n C ch RC KC Ech K) as (Rr & Cc & NZ & _). destruct (fl_backsub rnd n ch (w_v w) Rr Cc A3 NZ) as (x & _ & _ & -> & _). cbn [bind]. exists x. split; reflexivity.
  - split; [lia|]. rewrite (C86_singular rnd n C ch (w_v w) RC KC A3 Ech) by lia. reflexivity.
Qed.
Lemma upper_lower n (a : nat -> nat -> R) (C : mat R) i j : mat_is C n n (upper_sym a) -> (i < n)%nat -> (j < n)%nat -> lower_sym (mel C) i j = upper_sym a i j.
Proof. intros (_ & _ & V) Hi Hj. unfold lower_sym. destruct (Nat.leb_spec j i); rewrite V by assumption; [reflexivity|]. unfold upper_sym. destruct (Nat.ltb_spec i j), (Nat.ltb_spec j i); try lia; reflexivity. Qed.
Lemma upper_tri u n k (w e a : wls R) i j : rel3 u n k w e a -> (i < n)%nat -> (j < n)%nat -> tri u k (upper_sym (mel (w_C w)) i j) (upper_sym (mel (w_C e)) i j) (upper_sym (mel (w_C a)) i j).
Proof. intros (_ & _ & _ & T & _) Hi Hj. unfold upper_sym. destruct (Nat.ltb_spec j i); apply T; lia. Qed.

(** compute() that completes: mu solves normal equations that differ from the exact ones by the errors of the accumulation and of the decomposition. *)
Theorem C87_normal_equations : forall u rnd, rounding u rnd -> forall n (os : list (wop R)) w0 w1 w e0 e a, Forall (op_ok n) os ->
  @wls_new R (FlOps rnd) n = Ok w0 -> @wls_run R (FlOps rnd) os w0 = Ok w1 -> @wls_compute R (FlOps rnd) w1 = Ok w ->
  @wls_new R ROps n = Ok e0 -> @wls_run R ROps os e0 = Ok e -> @wls_run R ROps (map op_abs os) e0 = Ok a ->
  exists L D dC dv, @chol_L R (FlOps rnd) (w_dec w) = Ok L /\ @chol_D R (FlOps rnd) (w_dec w) = Ok D /\ vlen (w_mu w) = n /\
   (forall i, (i < n)%nat -> Sum n (fun j => (upper_sym (mel (w_C e)) i j + dC i j) * vat (w_mu w) j) = vat (w_v e) i + dv i) /\
   (forall i j, (i < n)%nat -> (j < n)%nat -> Rabs (dC i j) <= fwd u (rounds os) * upper_sym (mel (w_C a)) i j + (bwd u (2 * n) + bwd u (n + 1)) * abs_ldl n (mel L) (mel D) i j) /\
   (forall i, (i < n)%nat -> Rabs (dv i) <= fwd u (rounds os) * vat (w_v a) i).
Proof.
  intros u rnd RN n os w0 w1 w e0 e a H E1 E2 E3 E4 E5 E6. destruct (run3 u rnd n os RN H) as (w0' & w1' & e0' & e' & a0' & a' & F1 & F2 & F3 & F4 & F5 & F6 & Rl).
  assert (w0' = w0) by congruence. assert (e0' = e0) by congruence. assert (a0' = e0) by congruence. subst. assert (w1' = w1) by congruence. assert (e' = e) by congruence. assert (a' = a) by congruence. subst. clear F1 F2 F3 F4 F5 F6.
  pose proof Rl as (Sw & _ & _ & _ & TV). destruct (fl_compute rnd n w1 Sw) as (C & ch & EC & MC & Ech & Hk & [(K & mu & Ew & Emu)|(_ & Ew)]); [|congruence]. rewrite E3 in Ew. injection Ew as ->. cbn [w_dec w_mu].
  pose proof MC as (RC & KC & VC). destruct Sw as (_ & _ & A3 & _).
  destruct (C86_solution u rnd RN n C ch (w_v w1) RC KC A3 Ech K) as (L & D & x & E & EL & ED & EX & Lx & Sx & Bx). rewrite Emu in EX. injection EX as <-.
  exists L, D, (fun i j => upper_sym (mel (w_C w1)) i j - upper_sym (mel (w_C e)) i j + E i j), (fun i => vat (w_v w1) i - vat (w_v e) i). split; [exact EL|]. split; [exact ED|]. split; [exact Lx|]. split; [|split].
  - intros i Hi. transitivity (vat (w_v w1) i); [|ring]. rewrite <- (Sx i Hi). apply S_ext. intros j Hj. rewrite (upper_lower n (mel (w_C w1)) C i j MC Hi Hj). ring.
  - intros i j Hi Hj. eapply Rle_trans; [apply Rabs_triang|]. apply Rplus_le_compat; [exact (proj1 (upper_tri u n _ w1 e a i j Rl Hi Hj))|apply Bx; assumption].
  - intros i Hi. exact (proj1 (TV i Hi)).
Qed.

Lemma op_abs_ok n o : op_ok n o -> op_ok n (op_abs o).
Proof.
  destruct o; cbn [op_ok op_abs vabs mabs vlen mrows mcols]; intros H; try exact H; repeat (destruct H as [? H]; split; [assumption|]); intros r c Hr Hc; cbn [mel]; exact (f_equal Rabs (H r c Hr Hc)).
Qed.
Lemma S_one_le n f i : (forall j, (j < n)%nat -> 0 <= f j) -> (i < n)%nat -> f i <= Sum n f.
Proof.
  intros H Hi. rewrite (S_one n i f Hi). assert (0 <= Sum n (fun p => if (p =? i)%nat then 0 else f p)); [|lra]. apply S_nonneg. intros j Hj. cbn beta. destruct (j =? i)%nat; [lra|apply H; exact Hj].
Qed.
Lemma ops_abs_ok n os : Forall (op_ok n) os -> Forall (op_ok n) (map op_abs os).
Proof. intros H. induction H; cbn [map]; constructor; [apply op_abs_ok; assumption|assumption]. Qed.
Lemma exact_C n os e0 e i j : Forall (@op_ok R n) os -> @wls_new R ROps n = Ok e0 -> @wls_run R ROps os e0 = Ok e -> (i < n)%nat -> (j < n)%nat -> upper_sym (mel (w_C e)) i j = @runH R ROps n os i j.
Proof.
  intros H E1 E2 Hi Hj. destruct (exact_acc n os e0 e H E1 E2) as (_ & _ & _ & _ & A5 & _). pose proof (@runH_sym R ROps RLaws n os H) as SY. unfold upper_sym. destruct (Nat.ltb_spec j i); rewrite A5 by lia; [apply SY; assumption|reflexivity].
Qed.
Lemma exact_v n os e0 e i : Forall (@op_ok R n) os -> @wls_new R ROps n = Ok e0 -> @wls_run R ROps os e0 = Ok e -> (i < n)%nat -> vat (w_v e) i = @rung R ROps n os i.
Proof. intros H E1 E2 Hi. destruct (exact_acc n os e0 e H E1 E2) as (_ & _ & _ & _ & _ & A6). apply A6. exact Hi. Qed.
Lemma energy_gap n os (x mu : nat -> R) : Forall (@op_ok R n) os ->
  @energy R ROps n os x = @energy R ROps n os mu + @curvature R ROps n os (fun i => x i - mu i) + 2 * Sum n (fun i => (x i - mu i) * (Sum n (fun j => @runH R ROps n os i j * mu j) - @rung R ROps n os i)).
Proof.
  intros H. set (a := @runH R ROps n os). set (g := @rung R ROps n os). rewrite (@energy_quad R ROps RLaws n os x H), (@energy_quad R ROps RLaws n os mu H), (@curvature_quad R ROps RLaws n os _ H). fold a g.
  pose proof (@runH_sym R ROps RLaws n os H) as SY. fold a in SY. pose proof (@quad_sub R ROps RLaws n a x mu SY) as Q. cbn [fsub fadd fmul f1 ROps] in Q |- *. rewrite Q. clear Q.
  assert (B : Sum n (fun i => (x i - mu i) * (Sum n (fun j => a i j * mu j) - g i)) = @bil R ROps n a mu x - @quad R ROps n a mu - @dotf R ROps n g x + @dotf R ROps n g mu).
  { rewrite (@bil_sym R ROps RLaws n a mu x SY). unfold bil, quad, dotf. rewrite <- !S_sub, <- S_add. apply S_ext. intros i Hi. cbn [fmul ROps].
    rewrite (S_ext n (fun c => x i * a i c * mu c) (fun c => x i * (a i c * mu c))) by (intros; ring). rewrite (S_ext n (fun c => mu i * a i c * mu c) (fun c => mu i * (a i c * mu c))) by (intros; ring). rewrite !S_mul_l. ring. }
  rewrite B. ring.
Qed.
(** With non-negative weights, the sum of squares at the computed mu exceeds its value at any other x by at most the rounding errors times the distance. *)
Theorem C87_near_minimum : forall u rnd, rounding u rnd -> forall n (os : list (wop R)) w0 w1 w e0 a, Forall (op_ok n) os -> Forall (@op_nonneg R ROps n) os ->
  @wls_new R (FlOps rnd) n = Ok w0 -> @wls_run R (FlOps rnd) os w0 = Ok w1 -> @wls_compute R (FlOps rnd) w1 = Ok w ->
  @wls_new R ROps n = Ok e0 -> @wls_run R ROps (map op_abs os) e0 = Ok a ->
  exists L D, @chol_L R (FlOps rnd) (w_dec w) = Ok L /\ @chol_D R (FlOps rnd) (w_dec w) = Ok D /\ vlen (w_mu w) = n /\
   forall x, @energy R ROps n os (vat (w_mu w)) <= @energy R ROps n os x + 2 * Sum n (fun i => Rabs (x i - vat (w_mu w) i) *
      (fwd u (rounds os) * vat (w_v a) i + Sum n (fun j => (fwd u (rounds os) * upper_sym (mel (w_C a)) i j + (bwd u (2 * n) + bwd u (n + 1)) * abs_ldl n (mel L) (mel D) i j) * Rabs (vat (w_mu w) j)))).
Proof.
  intros u rnd RN n os w0 w1 w e0 a H HN E1 E2 E3 E4 E6. destruct (run3 u rnd n os RN H) as (_ & _ & e0' & e & _ & _ & _ & _ & F3 & F4 & _). assert (e0' = e0) by congruence. subst e0'.
  destruct (C87_normal_equations u rnd RN n os w0 w1 w e0 e a H E1 E2 E3 E4 F4 E6) as (L & D & dC & dv & EL & ED & Lm & NE & BC & Bv). exists L, D. split; [exact EL|]. split; [exact ED|]. split; [exact Lm|].
  intros x. set (mu := vat (w_mu w)) in *. rewrite (energy_gap n os x mu H). pose proof (@curvature_nonneg R ROps RLaws n os (fun i => x i - mu i) HN) as CN. apply R_ltb_false in CN. cbn [f0 ROps] in CN.
  match goal with |- _ <= _ + _ + 2 * ?s + 2 * ?t => assert (Rabs s <= t) end.
  { eapply Rle_trans; [apply S_abs|]. apply S_le. intros i Hi. rewrite Rabs_mult. apply Rmult_le_compat_l; [apply Rabs_pos|].
    replace (Sum n (fun j => @runH R ROps n os i j * mu j) - @rung R ROps n os i) with (dv i - Sum n (fun j => dC i j * mu j)).
    - unfold Rminus at 1. eapply Rle_trans; [apply Rabs_triang|]. rewrite Rabs_Ropp. apply Rplus_le_compat; [apply Bv; exact Hi|]. eapply Rle_trans; [apply S_abs|]. apply S_le. intros j Hj. rewrite Rabs_mult. apply Rmult_le_compat_r; [apply Rabs_pos|]. apply BC; assumption.
    - pose proof (NE i Hi) as N. rewrite (S_ext n (fun j => (upper_sym (mel (w_C e)) i j + dC i j) * mu j) (fun j => @runH R ROps n os i j * mu j + dC i j * mu j)) in N.
      + rewrite S_add in N. rewrite (exact_v n os e0 e i H E4 F4 Hi) in N. lra.
      + intros j Hj. rewrite (exact_C n os e0 e i j H E4 F4 Hi Hj). ring. }
  match type of H0 with Rabs ?s <= _ => pose proof (Rle_abs (- s)) as Q; rewrite Rabs_Ropp in Q end. lra.
Qed.
(** compute() succeeds in floating point when the curvature of the sum of squares dominates the rounding errors *)
Theorem C87_succeeds : forall u rnd, rounding u rnd -> forall n (os : list (wop R)) w0 w1, Forall (op_ok n) os ->
  @wls_new R (FlOps rnd) n = Ok w0 -> @wls_run R (FlOps rnd) os w0 = Ok w1 ->
  let eps := (INR n + 1) * bwd u (n + 1) * (1 + bwd u (n + 1)) in let f := fwd u (rounds os) in eps < 1 ->
  (forall x, (exists i, (i < n)%nat /\ x i <> 0) -> (eps * (1 + f) + f) * @curvature R ROps n (map op_abs os) (fun i => Rabs (x i)) < @curvature R ROps n os x) ->
  exists w, @wls_compute R (FlOps rnd) w1 = Ok w.
Proof.
  intros u rnd RN n os w0 w1 H E1 E2 eps f He HP. destruct (run3 u rnd n os RN H) as (w0' & w1' & e0 & e & a0 & a & F1 & F2 & F3 & F4 & F5 & F6 & Rl).
  assert (w0' = w0) by congruence. subst. assert (w1' = w1) by congruence. subst. pose proof Rl as (Sw & _). destruct (fl_compute rnd n w1 Sw) as (C & ch & EC & MC & Ech & Hk & [(K & mu & Ew & _)|(K & _)]); [eexists; exact Ew|exfalso].
  pose proof MC as (RC & KC & VC). assert (U : 0 <= u < 1) by exact (proj1 RN). assert (Ff : 0 <= f) by (apply (fwd_le u (rounds os) (rounds os)); [lra|lia]). assert (Eps : 0 <= eps).
  { unfold eps. pose proof (bwd_nonneg u (n + 1) U). pose proof (pos_INR n). apply Rmult_le_pos; [apply Rmult_le_pos; lra|lra]. }
  destruct (C86_succeeds u rnd RN n C RC KC He) as (ch' & D & Ech' & K' & _); [|rewrite Ech in Ech'; injection Ech' as <-; lia].
  intros x Hx. fold eps. specialize (HP x Hx). rewrite (@curvature_quad R ROps RLaws n _ _ H), (@curvature_quad R ROps RLaws n _ _ (ops_abs_ok n os H)) in HP.
  set (h := @runH R ROps n os) in *. set (ha := @runH R ROps n (map op_abs os)) in *. 
  assert (T : forall i j, (i < n)%nat -> (j < n)%nat -> tri u (rounds os) (lower_sym (mel C) i j) (h i j) (ha i j)).
  { intros i j Hi Hj. rewrite (upper_lower n (mel (w_C w1)) C i j MC Hi Hj). unfold h, ha. rewrite <- (exact_C n os e0 e i j H F3 F4 Hi Hj), <- (exact_C n (map op_abs os) a0 a i j (ops_abs_ok n os H) F5 F6 Hi Hj). apply (upper_tri u n _ w1 e a); assumption. }
  assert (A0 : forall i j, (i < n)%nat -> (j < n)%nat -> 0 <= ha i j) by (intros i j Hi Hj; pose proof (proj2 (T i j Hi Hj)); pose proof (Rabs_pos (h i j)); lra).
  set (Qa := @quad R ROps n ha (fun i => Rabs (x i))) in *.
  assert (Q1 : @quad R ROps n h x - f * Qa <= @quad R ROps n (lower_sym (mel C)) x).
  { unfold Qa, quad. cbn [fmul ROps]. rewrite <- S_mul_l, <- S_sub. apply S_le. intros i Hi. rewrite <- S_mul_l, <- S_sub. apply S_le. intros j Hj. destruct (T i j Hi Hj) as [T1 _]. fold f in T1.
    assert (B : Rabs (x i * (h i j - lower_sym (mel C) i j) * x j) <= f * (Rabs (x i) * ha i j * Rabs (x j))).
    { rewrite !Rabs_mult, Rabs_minus_sym. replace (f * (Rabs (x i) * ha i j * Rabs (x j))) with (Rabs (x i) * (f * ha i j) * Rabs (x j)) by ring. apply Rmult_le_compat_r; [apply Rabs_pos|]. apply Rmult_le_compat_l; [apply Rabs_pos|exact T1]. }
    pose proof (Rle_abs (x i * (h i j - lower_sym (mel C) i j) * x j)). lra. }
  assert (Q2 : Sum n (fun i => mel C i i * (x i * x i)) <= (1 + f) * Qa).
  { unfold Qa, quad. cbn [fmul ROps]. rewrite <- S_mul_l. apply S_le. intros i Hi. destruct (T i i Hi Hi) as [T1 T2]. fold f in T1.
    replace (lower_sym (mel C) i i) with (mel C i i) in T1 by (unfold lower_sym; destruct (i <=? i)%nat; reflexivity).
    assert (M : mel C i i <= (1 + f) * ha i i). { pose proof (Rle_abs (mel C i i - h i i)). pose proof (Rle_abs (h i i)). lra. }
    apply (Rle_trans _ ((1 + f) * (Rabs (x i) * ha i i * Rabs (x i)))).
    - replace (x i * x i) with (Rabs (x i) * Rabs (x i)) by (rewrite <- Rabs_mult; apply Rabs_pos_eq; nra). replace ((1 + f) * (Rabs (x i) * ha i i * Rabs (x i))) with ((1 + f) * ha i i * (Rabs (x i) * Rabs (x i))) by ring.
      apply Rmult_le_compat_r; [|exact M]. pose proof (Rabs_pos (x i)). nra.
    - apply Rmult_le_compat_l; [lra|]. apply (S_one_le n (fun j => Rabs (x i) * ha i j * Rabs (x j)) i); [|exact Hi]. intros j Hj. pose proof (Rabs_pos (x i)). pose proof (Rabs_pos (x j)). pose proof (A0 i j Hi Hj). apply Rmult_le_pos; [apply Rmult_le_pos|]; assumption. }
  assert (eps * Sum n (fun i => mel C i i * (x i * x i)) <= eps * ((1 + f) * Qa)) by (apply Rmult_le_compat_l; assumption). change (eps * Sum n (fun i => mel C i i * (x i * x i)) < @quad R ROps n (lower_sym (mel C)) x). lra.
Qed.

(** The order of the calls matters only by the rounding errors. *)
Lemma rounds_perm os os' : Permutation os os' -> rounds os = rounds os'.
Proof.
  intros P. unfold rounds. f_equal; (induction P; cbn [map fold_right]; [reflexivity|congruence|lia|congruence]).
Qed.
Theorem C87_order : forall u rnd, rounding u rnd -> forall n (os os' : list (wop R)) w0 w w' e0 a, Forall (op_ok n) os -> Permutation os os' ->
  @wls_new R (FlOps rnd) n = Ok w0 -> @wls_run R (FlOps rnd) os w0 = Ok w -> @wls_run R (FlOps rnd) os' w0 = Ok w' -> @wls_new R ROps n = Ok e0 -> @wls_run R ROps (map op_abs os) e0 = Ok a ->
  (forall r c, (r <= c < n)%nat -> Rabs (mel (w_C w) r c - mel (w_C w') r c) <= 2 * fwd u (rounds os) * mel (w_C a) r c) /\
  (forall r, (r < n)%nat -> Rabs (vat (w_v w) r - vat (w_v w') r) <= 2 * fwd u (rounds os) * vat (w_v a) r).
Proof.
  intros u rnd RN n os os' w0 w w' e0 a H P E1 E2 E3 E4 E5. assert (H' : Forall (op_ok n) os') by (eapply Permutation_Forall; eassumption).
  destruct (run3 u rnd n os RN H) as (x0 & x & y0 & y & z0 & z & F1 & F2 & F3 & F4 & F5 & F6 & (_ & _ & _ & T1 & T2)). destruct (run3 u rnd n os' RN H') as (x0' & x' & y0' & y' & z0' & z' & G1 & G2 & G3 & G4 & G5 & G6 & (_ & _ & _ & T1' & T2')).
  assert (x0 = w0) by congruence. assert (x0' = w0) by congruence. assert (y0 = e0) by congruence. assert (y0' = e0) by congruence. assert (z0 = e0) by congruence. assert (z0' = e0) by congruence. subst.
  assert (x = w) by congruence. assert (x' = w') by congruence. assert (z = a) by congruence. subst. rewrite <- (rounds_perm os os' P) in T1', T2'.
  destruct (exact_acc n os e0 y H F3 F4) as (_ & _ & _ & _ & A5 & A6). destruct (exact_acc n os' e0 y' H' F3 G4) as (_ & _ & _ & _ & B5 & B6).
  destruct (exact_acc n _ e0 a (ops_abs_ok n os H) F3 F6) as (_ & _ & _ & _ & C5 & C6). destruct (exact_acc n _ e0 z' (ops_abs_ok n os' H') F3 G6) as (_ & _ & _ & _ & D5 & D6).
  destruct (@run_perm R ROps RLaws n os os' P) as [P1 P2]. destruct (@run_perm R ROps RLaws n (map op_abs os) (map op_abs os') (Permutation_map _ P)) as [P3 P4]. split.
  - intros r c Hr. destruct (T1 r c Hr) as [Q _]. destruct (T1' r c Hr) as [Q' _]. rewrite A5, C5 in * by exact Hr. rewrite B5, D5 in Q' by exact Hr. rewrite <- P1, <- P3 in Q'.
    replace (mel (w_C w) r c - mel (w_C w') r c) with ((mel (w_C w) r c - @runH R ROps n os r c) - (mel (w_C w') r c - @runH R ROps n os r c)) by ring. unfold Rminus at 1. eapply Rle_trans; [apply Rabs_triang|]. rewrite Rabs_Ropp. lra.
  - intros r Hr. destruct (T2 r Hr) as [Q _]. destruct (T2' r Hr) as [Q' _]. rewrite A6, C6 in * by exact Hr. rewrite B6, D6 in Q' by exact Hr. rewrite <- P2, <- P4 in Q'.
    replace (vat (w_v w) r - vat (w_v w') r) with ((vat (w_v w) r - @rung R ROps n os r) - (vat (w_v w') r - @rung R ROps n os r)) by ring. unfold Rminus at 1. eapply Rle_trans; [apply Rabs_triang|]. rewrite Rabs_Ropp. lra.
Qed.
(** operator +=: joining two systems is within rounding of all the calls on one system, in exact arithmetic *)
Theorem C87_join : forall u rnd, rounding u rnd -> forall n (os os' : list (wop R)) w0 w w' e0 e a, Forall (op_ok n) os -> Forall (op_ok n) os' ->
  @wls_new R (FlOps rnd) n = Ok w0 -> @wls_run R (FlOps rnd) os w0 = Ok w -> @wls_run R (FlOps rnd) os' w0 = Ok w' ->
  @wls_new R ROps n = Ok e0 -> @wls_run R ROps (os ++ os') e0 = Ok e -> @wls_run R ROps (map op_abs (os ++ os')) e0 = Ok a ->
  exists j, @wls_join R (FlOps rnd) w w' = Ok j /\
  (forall r c, (r <= c < n)%nat -> Rabs (mel (w_C j) r c - mel (w_C e) r c) <= fwd u (S (Nat.max (rounds os) (rounds os'))) * mel (w_C a) r c) /\
  (forall r, (r < n)%nat -> Rabs (vat (w_v j) r - vat (w_v e) r) <= fwd u (S (Nat.max (rounds os) (rounds os'))) * vat (w_v a) r).
Proof.
  intros u rnd RN n os os' w0 w w' e0 e a H H' E1 E2 E3 E4 Ee E5. assert (U : 0 <= u) by (destruct RN as ((U & _) & _); exact U).
  destruct (run3 u rnd n os RN H) as (x0 & x & y0 & y & z0 & z & F1 & F2 & F3 & F4 & F5 & F6 & (Sx & _ & _ & T1 & T2)). destruct (run3 u rnd n os' RN H') as (x0' & x' & y0' & y' & z0' & z' & G1 & G2 & G3 & G4 & G5 & G6 & (Sx' & _ & _ & T1' & T2')).
  assert (x0 = w0) by congruence. assert (x0' = w0) by congruence. assert (y0 = e0) by congruence. assert (y0' = e0) by congruence. assert (z0 = e0) by congruence. assert (z0' = e0) by congruence. subst.
  assert (x = w) by congruence. assert (x' = w') by congruence. subst.
  assert (HH : Forall (op_ok n) (os ++ os')) by (apply Forall_app; split; assumption).
  destruct (exact_acc n os e0 y H F3 F4) as (_ & _ & _ & _ & A5 & A6). destruct (exact_acc n os' e0 y' H' F3 G4) as (_ & _ & _ & _ & B5 & B6). destruct (exact_acc n _ e0 e HH F3 Ee) as (_ & _ & _ & _ & I5 & I6).
  destruct (exact_acc n _ e0 z (ops_abs_ok n os H) F3 F6) as (_ & _ & _ & _ & C5 & C6). destruct (exact_acc n _ e0 z' (ops_abs_ok n os' H') F3 G6) as (_ & _ & _ & _ & D5 & D6). destruct (exact_acc n _ e0 a (ops_abs_ok n _ HH) F3 E5) as (_ & _ & _ & _ & J5 & J6).
  destruct (@run_app R ROps RLaws n os os') as [P1 P2]. rewrite map_app in J5, J6. destruct (@run_app R ROps RLaws n (map op_abs os) (map op_abs os')) as [P3 P4].
  destruct Sx as (X1 & X2 & X3 & X4). destruct Sx' as (Y1 & Y2 & Y3 & Y4). unfold wls_join. destruct (@vadd_assign_ok R (FlOps rnd) (w_v w) (w_v w') ltac:(lia)) as (v & -> & V1 & V2). cbn [bind].
  destruct (@madd_assign_ok R (FlOps rnd) (w_C w) (w_C w') ltac:(lia) ltac:(lia)) as (M & -> & M1 & M2 & M3). cbn [bind]. eexists. split; [reflexivity|]. cbn [w_C w_v]. split.
  - intros r c Hr. rewrite M3 by lia. rewrite I5, J5 by exact Hr. rewrite P1, P3. pose proof (T1 r c Hr) as Q. pose proof (T1' r c Hr) as Q'. rewrite A5, C5 in Q by exact Hr. rewrite B5, D5 in Q' by exact Hr.
    refine (proj1 (tri_add u rnd RN _ _ _ _ _ _ _ (tri_le u _ _ _ _ _ U _ Q) (tri_le u _ _ _ _ _ U _ Q'))); lia.
  - intros r Hr. rewrite V2 by lia. rewrite I6, J6 by exact Hr. rewrite P2, P4. pose proof (T2 r Hr) as Q. pose proof (T2' r Hr) as Q'. rewrite A6, C6 in Q by exact Hr. rewrite B6, D6 in Q' by exact Hr.
    refine (proj1 (tri_add u rnd RN _ _ _ _ _ _ _ (tri_le u _ _ _ _ _ U _ Q) (tri_le u _ _ _ _ _ U _ Q'))); lia.
Qed.
(** Non-vacuity: a unit prior and a measurement m of x0 + 2 x1, in double precision. The hypotheses of the theorems hold and compute() succeeds, for every m. *)
Definition ex_ops (m : R) : list (wop R) := [PriorS 1; Meas m (mkvec 2 (fun i => match i with O => 1 | _ => 2 end)) 1].
Example C87_double : forall m, exists w0 w1 w, @wls_new R (FlOps rnd64) 2 = Ok w0 /\ @wls_run R (FlOps rnd64) (ex_ops m) w0 = Ok w1 /\ @wls_compute R (FlOps rnd64) w1 = Ok w /\
  Forall (op_ok 2) (ex_ops m) /\ Forall (@op_nonneg R ROps 2) (ex_ops m).
Proof.
  intros m. set (u := / 2 * Flocq.Core.Raux.bpow Flocq.Core.Zaux.radix2 (-52)). assert (U : 0 <= u < / 10 ^ 15 / 4) by exact u64_rng.
  assert (OK : Forall (op_ok 2) (ex_ops m)) by (repeat constructor). destruct (C87_accumulation u rnd64 rnd64_rounding 2 (ex_ops m) OK) as (w0 & w1 & _ & _ & _ & E0 & E1 & _).
  assert (NN : Forall (@op_nonneg R ROps 2) (ex_ops m)) by (repeat constructor; cbn [op_nonneg]; unfold fle; apply R_ltb_false; cbn [f0 ROps]; lra).
  destruct (C87_succeeds u rnd64 rnd64_rounding 2 (ex_ops m) w0 w1 OK E0 E1) as (w & Ew).
  - pose proof (bwd64 3 ltac:(lia)) as B1. fold u in B1. cbn [INR Nat.add] in *. pose proof (bwd_nonneg u 3 ltac:(lra)) as B0. nra.
  - intros x (i & Hi & Hx). pose proof (bwd64 3 ltac:(lia)) as B1. fold u in B1. pose proof (bwd_nonneg u 3 ltac:(lra)) as B0. 
    assert (F1 : 0 <= fwd u (rounds (ex_ops m)) <= / 1000). { change (rounds (ex_ops m)) with 4%nat. pose proof (bwd64 4 ltac:(lia)) as B2. fold u in B2. pose proof (fwd_bwd u 4 ltac:(lra)). pose proof (fwd_le u 4 4 ltac:(lra) ltac:(lia)). cbn [INR] in B2. lra. }
    set (f := fwd u (rounds (ex_ops m))) in *. set (eps := (INR 2 + 1) * bwd u (2 + 1) * (1 + bwd u (2 + 1))). assert (Ee : 0 <= eps <= / 1000).
    { unfold eps. cbn [INR Nat.add] in *. split; [apply Rmult_le_pos; [apply Rmult_le_pos; lra|lra]|]. nra. }
    cbn [curvature ex_ops map op_abs op_zero energy op_energy vabs vlen vat dotf sum]. cbn [fadd fmul fsub f0 ROps]. rewrite ?(Rabs_pos_eq 1), ?(Rabs_pos_eq 2) by lra.
    set (p := x 0%nat) in *. set (q := x 1%nat) in *. pose proof (Rabs_pos p). pose proof (Rabs_pos q). assert (PP : Rabs p * Rabs p = p * p) by (rewrite <- Rabs_mult; apply Rabs_pos_eq; nra). assert (QQ : Rabs q * Rabs q = q * q) by (rewrite <- Rabs_mult; apply Rabs_pos_eq; nra).
    assert (PQ : 2 * (Rabs p * Rabs q) <= p * p + q * q) by (pose proof (Rle_0_sqr (Rabs p - Rabs q)) as Z; unfold Rsqr in Z; nra).
    assert (P : 0 < p * p + q * q). { destruct i as [|[|i]]; [fold p in Hx; nra|fold q in Hx; nra|lia]. }
    assert (K : 0 <= eps * (1 + f) + f <= / 100) by nra. set (kk := eps * (1 + f) + f) in *.
    match goal with |- kk * ?a < ?b => assert (HA : a <= 8 * (p * p + q * q)); [|assert (HB : p * p + q * q <= b)] end.
    + ring_simplify. nra.
    + ring_simplify. pose proof (Rle_0_sqr (p + 2 * q)) as Z. unfold Rsqr in Z. nra.
    + match goal with |- kk * ?a < ?b => assert (kk * a <= kk * (8 * (p * p + q * q))) by (apply Rmult_le_compat_l; lra) end. nra.
  - exists w0, w1, w. exact (conj E0 (conj E1 (conj Ew (conj OK NN)))).
Qed.
Print Assumptions C87_accumulation. Print Assumptions C87_normal_equations. Print Assumptions C87_near_minimum. Print Assumptions C87_succeeds. Print Assumptions C87_order. Print Assumptions C87_join. Print Assumptions C87_double.
