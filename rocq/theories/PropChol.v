(** * C41 C42 C43: the Cholesky (LDL^T) decomposition. *)
From Coq Require Import Arith Bool List Lia ZArith QArith Qcanon Reals Lra.
From Verif Require Import Base Alg Mat SpecMat LemMat SpecLin LemLin ModelOps LemOps ModelObjects LemObjects LemHelpers Inst LemGauss LemDet LemDetMul LemDetMore SpecForm LemForm ModelChol LemChol LemCholSolve LemCholMore PropOps.
Import ListNotations.
Local Open Scope nat_scope.

Section P.
Context {F : Type} {Fo : Ops F} {Fl : Laws F}.
Add Field Ff : law_field.

Lemma cholesky_ok n (A : mat F) : mrows A = n -> mcols A = n ->
  exists ch, cholesky A = Ok ch /\
   ((ch_rank ch = n /\ chol_inv n (mel A) n (ch_m ch)) \/ (ch_rank ch < n /\ chol_stop n (mel A) (ch_rank ch) (ch_m ch))).
Proof. intros HR HC. unfold cholesky. rewrite same_size_eq by lia. apply chol_compute_ok; assumption. Qed.
Lemma cholesky_inv n (A : mat F) ch : mrows A = n -> mcols A = n -> cholesky A = Ok ch ->
   (ch_rank ch = n /\ chol_inv n (mel A) n (ch_m ch)) \/ (ch_rank ch < n /\ chol_stop n (mel A) (ch_rank ch) (ch_m ch)).
Proof. intros HR HC E. destruct (cholesky_ok n A HR HC) as (ch' & E' & H). rewrite E in E'. injection E' as <-. exact H. Qed.
Lemma cholesky_full n (A : mat F) ch : mrows A = n -> mcols A = n -> cholesky A = Ok ch -> ch_rank ch = n -> chol_inv n (mel A) n (ch_m ch).
Proof. intros HR HC E H. destruct (cholesky_inv n A ch HR HC E) as [[_ X]|[X _]]; [exact X|lia]. Qed.
Lemma lower_sym_symmetric n (a : nat -> nat -> F) r c : symmetric n a -> r < n -> c < n -> lower_sym a r c = a r c.
Proof. intros H Hr Hc. unfold lower_sym. destruct (Nat.leb_spec c r); [reflexivity|apply H; assumption]. Qed.

(** A square matrix is always decomposed (no division by zero, no out of range access); the reported rank is at most n. *)
Theorem C41_total : forall A : mat F, mrows A = mcols A -> exists ch, cholesky A = Ok ch /\ ch_rank ch <= mrows A.
Proof. intros A H. destruct (cholesky_ok (mrows A) A eq_refl (eq_sym H)) as (ch & E & [[R _]|[R _]]); exists ch; (split; [exact E|lia]). Qed.
Theorem C41_not_square : forall A : mat F, mrows A <> mcols A -> cholesky A = Abort DSizeMismatch.
Proof. intros A H. unfold cholesky. rewrite same_size_bad by exact H. reflexivity. Qed.
(** compute() on an existing object forgets what was there. *)
Theorem C41_recompute : forall old (A : mat F), mrows (ch_m old) = mrows A -> cholesky_recompute old A = cholesky A.
Proof. intros old A H. unfold cholesky_recompute, cholesky. destruct (same_size (mrows A) (mcols A)); try reflexivity. cbn [bind]. rewrite same_size_eq by lia. reflexivity. Qed.

(** rank() == n: get_unscaled_L() is unit lower triangular, get_D() is diagonal, and the library's product
    L * D * L.T() is the symmetric matrix with A's lower triangle; in particular A when A is symmetric. *)
Theorem C41_factorises : forall n (A : mat F) ch, mrows A = n -> mcols A = n -> cholesky A = Ok ch -> ch_rank ch = n ->
  exists L D LD, chol_L ch = Ok L /\ chol_D ch = Ok D /\ mmul L D = Ok LD /\
   mrows L = n /\ mcols L = n /\ unit_lower n (mel L) /\
   mrows D = n /\ mcols D = n /\ diagonal n (mel D) /\ (forall i, i < n -> mel D i i <> f0) /\
   gives_mat (mmul LD (tr L)) n n (lower_sym (mel A)) /\
   (symmetric n (mel A) -> gives_mat (mmul LD (tr L)) n n (mel A)).
Proof.
  intros n A ch HR HC E HK. pose proof (cholesky_full n A ch HR HC E HK) as I. pose proof (inv_ldl n (mel A) (ch_m ch) I) as LD. destruct I as (R & C & NZ & _).
  destruct (chol_L_ok n ch R C) as (L & EL & RL & CL & VL). destruct (chol_D_ok n ch R C) as (D & ED & RD & CD & VD).
  destruct (mmul_ok L D ltac:(lia)) as (M & EM & RM & CM & VM). exists L, D, M.
  split; [exact EL|]. split; [exact ED|]. split; [exact EM|]. split; [exact RL|]. split; [exact CL|]. split.
  { intros r c Hr Hc H. rewrite VL by assumption. apply (chL_unit (ch_m ch) n); assumption. }
  split; [exact RD|]. split; [exact CD|]. split.
  { intros r c Hr Hc H. rewrite VD by assumption. destruct (Nat.eqb_spec r c); [lia|reflexivity]. }
  split.
  { intros i Hi. rewrite VD by assumption. rewrite Nat.eqb_refl. apply NZ. exact Hi. }
  assert (G : gives_mat (mmul M (tr L)) n n (lower_sym (mel A))).
  { eapply gives_mat_ext; [apply mmul_ok; cbn [tr mrows]; lia|lia|cbn [tr mcols]; lia|].
    intros i j Hi Hj. cbn [tr mcols mel] in *. rewrite LD by lia. rewrite CM, CD. apply sum_ext. intros k Hk. rewrite VM by lia. rewrite (VL j k) by lia. f_equal.
    rewrite CL. rewrite (sum_one n k); [|exact Hk|].
    - rewrite VL, VD by lia. rewrite Nat.eqb_refl. reflexivity.
    - intros i' Hi' Hn. rewrite VD by lia. destruct (Nat.eqb_spec i' k); [lia|]. ring. }
  split; [exact G|]. intros Hs. eapply gives_mat_ext; [exact G|reflexivity|reflexivity|]. intros i j Hi Hj. apply (lower_sym_symmetric n); assumption.
Qed.
(** For a symmetric matrix: positive definite if and only if the decomposition completes with positive D. *)
Theorem C41_posdef : forall n (A : mat F) ch, mrows A = n -> mcols A = n -> symmetric n (mel A) -> cholesky A = Ok ch ->
  (posdef n (mel A) <-> ch_rank ch = n /\ exists D, chol_D ch = Ok D /\ forall i, i < n -> flt f0 (mel D i i)).
Proof.
  intros n A ch HR HC HS E. destruct (cholesky_inv n A ch HR HC E) as [[HK I]|[HK I]].
  - pose proof (inv_ldl n (mel A) (ch_m ch) I) as LD. destruct I as (R & C & NZ & _). destruct (chol_D_ok n ch R C) as (D & ED & RD & CD & VD).
    assert (LD' : forall r c, r < n -> c < n -> mel A r c = sum n (fun k => fmul (fmul (chL (ch_m ch) r k) (mel (ch_m ch) k k)) (chL (ch_m ch) c k))).
    { intros r c Hr Hc. rewrite <- (lower_sym_symmetric n) by assumption. apply LD; assumption. }
    pose proof (ldl_posdef n (mel A) (chL (ch_m ch)) (fun k => mel (ch_m ch) k k) (chL_unit _ n) LD') as P. rewrite P. clear P. split.
    + intros H. split; [exact HK|]. exists D. split; [exact ED|]. intros i Hi. rewrite VD by assumption. rewrite Nat.eqb_refl. apply H. exact Hi.
    + intros (_ & D' & ED' & H) k Hk. rewrite ED in ED'. injection ED' as <-. specialize (H k Hk). rewrite VD in H by assumption. rewrite Nat.eqb_refl in H. exact H.
  - split; [|intros [H _]; lia]. intros [_ HP]. exfalso. set (k := ch_rank ch) in *.
    assert (LD' : forall r c, r < S k -> c < S k -> mel A r c = sum (S k) (fun j => fmul (fmul (chL (ch_m ch) r j) (mel (ch_m ch) j j)) (chL (ch_m ch) c j))).
    { intros r c Hr Hc. rewrite <- (lower_sym_symmetric n) by (assumption || lia). apply (stop_ldl n _ k); assumption. }
    destruct (ldl_probe (S k) (mel A) (chL (ch_m ch)) (fun j => mel (ch_m ch) j j) k ltac:(lia) (chL_unit _ _) LD') as (x & Q & i & Hi & Hx).
    destruct I as (_ & _ & _ & _ & _ & Z & _). rewrite Z in Q. rewrite <- (quad_extend (S k) n) in Q by lia.
    apply (law_irr (f0 : F)). rewrite <- Q at 2. apply HP. exists i. split; [lia|]. destruct (Nat.ltb_spec i (S k)); [exact Hx|lia].
Qed.
(** Only the lower triangle is read: two matrices that agree there have the same rank(), and the same L and D
    (hence the same solutions, inverses and determinants) when the decomposition completes. *)
Theorem C41_lower_only : forall n (A B : mat F) ch ch', mrows A = n -> mcols A = n -> mrows B = n -> mcols B = n ->
  (forall r c, c <= r < n -> mel A r c = mel B r c) -> cholesky A = Ok ch -> cholesky B = Ok ch' ->
  ch_rank ch = ch_rank ch' /\
  (ch_rank ch = n -> agree_mat (chol_L ch) (chol_L ch') /\ agree_mat (chol_D ch) (chol_D ch')).
Proof.
  intros n A B ch ch' HA CA HB CB H E E'.
  assert (H' : forall r c, c <= r < n -> mel B r c = mel A r c) by (intros; symmetry; apply H; assumption).
  destruct (cholesky_inv n A ch HA CA E) as [[K I]|[K I]], (cholesky_inv n B ch' HB CB E') as [[K' I']|[K' I']].
  - split; [congruence|]. intros _.
    pose proof (ldl_eqs_unique n n n (mel A) (mel B) (ch_m ch) (ch_m ch') H (inv_eqs _ _ _ _ I) (inv_eqs _ _ _ _ I') ltac:(lia) ltac:(lia)) as U.
    destruct I as (R & C & _). destruct I' as (R' & C' & _).
    destruct (chol_L_ok n ch R C) as (L & -> & RL & CL & VL). destruct (chol_D_ok n ch R C) as (D & -> & RD & CD & VD).
    destruct (chol_L_ok n ch' R' C') as (L' & -> & RL' & CL' & VL'). destruct (chol_D_ok n ch' R' C') as (D' & -> & RD' & CD' & VD').
    split; eexists _, _; (split; [reflexivity|]); (split; [reflexivity|]); unfold mat_eq, mat_is; (split; [congruence|]); (split; [congruence|]); intros i j Hi Hj.
    + rewrite VL, VL' by lia. unfold chL. destruct (Nat.ltb_spec j i); [|reflexivity]. apply (proj2 (U j ltac:(lia))). lia.
    + rewrite VD, VD' by lia. destruct (Nat.eqb_spec i j); [|reflexivity]. apply (proj1 (U i ltac:(lia))).
  - exfalso. pose proof (stop_not_before n n (mel B) (mel A) (ch_rank ch') _ _ H' K' ltac:(lia) I' (inv_eqs _ _ _ _ I)). lia.
  - exfalso. pose proof (stop_not_before n n (mel A) (mel B) (ch_rank ch) _ _ H K ltac:(lia) I (inv_eqs _ _ _ _ I')). lia.
  - pose proof (stop_not_before n (ch_rank ch') (mel A) (mel B) (ch_rank ch) _ _ H K ltac:(lia) I (stop_eqs _ _ _ _ I')).
    pose proof (stop_not_before n (ch_rank ch) (mel B) (mel A) (ch_rank ch') _ _ H' K' ltac:(lia) I' (stop_eqs _ _ _ _ I)).
    split; [lia|]. intros; lia.
Qed.

(** rank() == n and A symmetric: backsub(b) returns x, the library's A*x is b, and x is the only solution. *)
Section Solve.
Variables (n : nat) (A : mat F) (ch : chol F).
Hypotheses (HR : mrows A = n) (HC : mcols A = n) (HS : symmetric n (mel A)) (E : cholesky A = Ok ch) (HK : ch_rank ch = n).
Lemma solve_ldl : forall r c, r < n -> c < n -> mel A r c = sum n (fun k => fmul (fmul (chL (ch_m ch) r k) (mel (ch_m ch) k k)) (chL (ch_m ch) c k)).
Proof. intros r c Hr Hc. rewrite <- (lower_sym_symmetric n) by assumption. apply inv_ldl; try assumption. apply cholesky_full; assumption. Qed.
Lemma solve_facts : mrows (ch_m ch) = n /\ mcols (ch_m ch) = n /\ forall i, i < n -> mel (ch_m ch) i i <> f0.
Proof. destruct (cholesky_full n A ch HR HC E HK) as (R & C & NZ & _). auto. Qed.
Lemma solve_ns : nonsingular n (mel A).
Proof. apply (ldl_nonsingular n (mel A) (chL (ch_m ch)) (fun k => mel (ch_m ch) k k)); [apply chL_unit|apply solve_ldl|apply solve_facts]. Qed.
Theorem C42_solves : forall b : vec F, vlen b = n ->
  exists x, chol_backsub ch b = Ok x /\ vlen x = n /\ gives_vec (mv A x) n (vat b) /\
    forall y, solves n (mel A) y (vat b) -> forall i, i < n -> y i = vat x i.
Proof.
  intros b Hb. destruct solve_facts as (R & C & NZ). destruct (chol_backsub_ok n ch b R C Hb NZ) as (x & Ex & Lx & Sx).
  apply (proj1 (ldl_solves_solves n (mel A) (ch_m ch) _ _ solve_ldl)) in Sx.
  exists x. split; [exact Ex|]. split; [exact Lx|]. split.
  - eapply gives_vec_ext; [apply mv_ok; lia|exact HR|]. intros i Hi. rewrite HC. apply Sx. lia.
  - intros y Hy i Hi. apply (solves_unique n (mel A) y (vat x) (vat b)); try assumption. apply solve_ns.
Qed.
Lemma backsub_mat_solves q (B : mat F) : mrows B = n -> mcols B = q ->
  exists X, chol_backsub_mat ch B = Ok X /\ mrows X = n /\ mcols X = q /\ forall k, k < q -> solves n (mel A) (fun r => mel X r k) (fun r => mel B r k).
Proof.
  intros HB HQ. destruct solve_facts as (R & C & NZ). destruct (chol_backsub_mat_ok n q ch B R C HB HQ NZ) as (x & Ex & Rx & Cx & Sx).
  exists x. split; [exact Ex|]. split; [exact Rx|]. split; [exact Cx|]. intros k Hk. apply (ldl_solves_solves n (mel A) (ch_m ch) _ _ solve_ldl). apply Sx. exact Hk.
Qed.
Theorem C42_matrix : forall q (B : mat F), mrows B = n -> mcols B = q ->
  exists X, chol_backsub_mat ch B = Ok X /\ mrows X = n /\ mcols X = q /\ gives_mat (mmul A X) n q (mel B).
Proof.
  intros q B HB HQ. destruct (backsub_mat_solves q B HB HQ) as (x & Ex & Rx & Cx & Sx).
  exists x. split; [exact Ex|]. split; [exact Rx|]. split; [exact Cx|].
  eapply gives_mat_ext; [apply mmul_ok; lia|exact HR|exact Cx|]. intros i j Hi Hj. rewrite HC. apply Sx; lia.
Qed.
(** get_inverse() is a two-sided inverse *)
Theorem C42_inverse : exists V, chol_inverse ch = Ok V /\ mrows V = n /\ mcols V = n /\ gives_mat (mmul A V) n n delta /\ gives_mat (mmul V A) n n delta.
Proof.
  destruct solve_facts as (R & C & NZ). unfold chol_inverse. rewrite R.
  destruct (identity_eval_ok HOne (mnew n n) eq_refl) as (I & -> & RI & CI & VI). cbn [mrows mcols mnew] in RI, CI, VI. cbn [bind].
  destruct (backsub_mat_solves n I RI CI) as (x & Ex & Rx & Cx & Sx). exists x. split; [exact Ex|]. split; [exact Rx|]. split; [exact Cx|].
  assert (G : forall r k, r < n -> k < n -> sum n (fun c => fmul (mel A r c) (mel x c k)) = delta r k).
  { intros r k Hr Hk. pose proof (Sx k Hk r Hr) as X. cbv beta in X. rewrite X. apply VI; assumption. }
  split.
  - eapply gives_mat_ext; [apply mmul_ok; lia|exact HR|exact Cx|]. intros i j Hi Hj. rewrite HC. apply G; lia.
  - eapply gives_mat_ext; [apply mmul_ok; lia|exact Rx|exact HC|]. intros i j Hi Hj. rewrite Cx. apply left_inverse; [apply solve_ns|exact G|lia|lia].
Qed.
Theorem C42_determinant : 0 < n -> chol_det ch = Ok (det n (mel A)).
Proof.
  intros Hn. destruct solve_facts as (R & C & NZ). rewrite (det_ldl n (mel A) (chL (ch_m ch)) (fun k => mel (ch_m ch) k k)); [|apply chL_unit|apply solve_ldl].
  destruct n as [|m]; [lia|]. apply (chol_det_ok m); assumption.
Qed.
(** mahalanobis(v) == v . (V v) for the inverse V, i.e. v . x for the solution x of A x = v *)
Theorem C42_mahalanobis : forall v : vec F, vlen v = n -> forall x, solves n (mel A) x (vat v) ->
  chol_mahalanobis ch v = Ok (sum n (fun i => fmul (vat v i) (x i))).
Proof.
  intros v Hv x Hx. unfold chol_mahalanobis. destruct (C42_solves v Hv) as (y & -> & Ly & _ & U). cbn [bind].
  rewrite dot_ok by lia. rewrite Hv. f_equal. apply sum_ext. intros i Hi. rewrite (U x Hx i Hi). reflexivity.
Qed.
End Solve.
(** Not symmetric: backsub solves the system with A's lower triangle mirrored. *)
Theorem C42_lower_triangle : forall n (A : mat F) ch (b : vec F), mrows A = n -> mcols A = n -> cholesky A = Ok ch -> ch_rank ch = n -> vlen b = n ->
  exists x, chol_backsub ch b = Ok x /\ vlen x = n /\ solves n (lower_sym (mel A)) (vat x) (vat b).
Proof.
  intros n A ch b HR HC E HK Hb. pose proof (cholesky_full n A ch HR HC E HK) as I. pose proof (inv_ldl n (mel A) (ch_m ch) I) as LD. destruct I as (R & C & NZ & _).
  destruct (chol_backsub_ok n ch b R C Hb NZ) as (x & Ex & Lx & Sx). exists x. split; [exact Ex|]. split; [exact Lx|].
  apply (ldl_solves_solves n (lower_sym (mel A)) (ch_m ch) _ _ LD). exact Sx.
Qed.
(** rank() < n: backsub never returns finite numbers. *)
Theorem C42_singular : forall n (A : mat F) ch (b : vec F), mrows A = n -> mcols A = n -> cholesky A = Ok ch -> ch_rank ch < n -> vlen b = n ->
  chol_backsub ch b = NonFinite.
Proof.
  intros n A ch b HR HC E HK Hb. destruct (cholesky_inv n A ch HR HC E) as [[K _]|[_ (R & C & NZ & _ & _ & Z & _)]]; [lia|].
  apply (chol_backsub_zero n ch b (ch_rank ch)); assumption.
Qed.
Theorem C42_size_checked : forall ch (b : vec F) (B : mat F), 
  (mrows (ch_m ch) <> vlen b -> chol_backsub ch b = Abort DSizeMismatch) /\
  (mrows (ch_m ch) <> mrows B -> chol_backsub_mat ch B = Abort DSizeMismatch).
Proof. intros ch b B. split; intros H; unfold chol_backsub, chol_backsub_mat; rewrite same_size_bad by exact H; reflexivity. Qed.

(** What rank() does tell. The leading rank() x rank() block is nonsingular, so rank() never exceeds the rank of A; *)
Theorem C43_never_too_large_partial : forall n (A : mat F) ch, mrows A = n -> mcols A = n -> symmetric n (mel A) -> cholesky A = Ok ch ->
  nonsingular (ch_rank ch) (mel A) /\ rank_at_least n (mel A) (ch_rank ch).
Proof.
  intros n A ch HR HC HS E. 
  assert (NS : ch_rank ch <= n /\ nonsingular (ch_rank ch) (mel A)).
  { destruct (cholesky_inv n A ch HR HC E) as [[K _]|[K I]]; [split; [lia|]; rewrite K; apply (solve_ns n A ch); assumption|]. split; [lia|].
    apply (ldl_nonsingular (ch_rank ch) (mel A) (chL (ch_m ch)) (fun k => mel (ch_m ch) k k)); [apply chL_unit| |].
    - destruct I as (_ & _ & _ & H1 & H2 & _). intros r c Hr Hc. rewrite <- (lower_sym_symmetric n) by (assumption || lia). apply ldl_of; try assumption; intros; [apply H1|apply H2]; lia.
    - destruct I as (_ & _ & NZ & _). exact NZ. }
  destruct NS as [HK NS]. split; [exact NS|]. exists (fun j c => delta c j). intros w H. apply NS. intros r Hr. rewrite <- (H r ltac:(lia)). apply sum_ext. intros j Hj.
  rewrite (sum_delta_r n j (fun c => mel A r c)) by lia. ring.
Qed.
(** and for a positive semidefinite A, rank() == n exactly when A has full rank. *)
Theorem C43_full_rank_partial : forall n (A : mat F) ch, mrows A = n -> mcols A = n -> psd n (mel A) -> cholesky A = Ok ch ->
  (ch_rank ch = n <-> nonsingular n (mel A)).
Proof.
  intros n A ch HR HC HP E. split; [intros H; apply (solve_ns n A ch); try assumption; apply HP|]. intros NS.
  destruct (cholesky_inv n A ch HR HC E) as [[K _]|[K I]]; [exact K|exfalso]. set (k := ch_rank ch) in *.
  assert (LD' : forall r c, r < S k -> c < S k -> mel A r c = sum (S k) (fun j => fmul (fmul (chL (ch_m ch) r j) (mel (ch_m ch) j j)) (chL (ch_m ch) c j))).
  { intros r c Hr Hc. rewrite <- (lower_sym_symmetric n) by (apply HP || lia). apply (stop_ldl n _ k); assumption. }
  destruct (ldl_probe (S k) (mel A) (chL (ch_m ch)) (fun j => mel (ch_m ch) j j) k ltac:(lia) (chL_unit _ _) LD') as (x & Q & i & Hi & Hx).
  destruct I as (_ & _ & _ & _ & _ & Z & _). rewrite Z in Q. rewrite <- (quad_extend (S k) n) in Q by lia.
  pose proof (psd_null n (mel A) _ HP Q) as N. apply Hx. pose proof (NS _ N i ltac:(lia)) as X. cbv beta in X. destruct (Nat.ltb_spec i (S k)); [exact X|lia].
Qed.
End P.

(** The real square root form. *)
Section RealChol.
Local Open Scope R_scope.
Lemma fsqrt_pos x : 0 <= x -> fsqrt x = Ok (sqrt x).
Proof. intros H. unfold fsqrt. destruct (Rlt_dec x 0); [lra|reflexivity]. Qed.
(** A symmetric positive definite over the reals: get_L() is lower triangular and get_L()*get_L().T() == A. *)
Theorem C41_get_L : forall n (A : mat R) ch, mrows A = n -> mcols A = n -> posdef n (mel A) -> cholesky A = Ok ch ->
  exists L, chol_sqrt_L ch = Ok L /\ mrows L = n /\ mcols L = n /\ (forall r c, (r < n)%nat -> (c < n)%nat -> (r < c)%nat -> mel L r c = 0) /\
   (forall i, (i < n)%nat -> 0 < mel L i i) /\ gives_mat (mmul L (tr L)) n n (mel A).
Proof.
  intros n A ch HR HC HP E. pose proof HP as [HS _].
  destruct (proj1 (C41_posdef n A ch HR HC HS E) HP) as (HK & D & ED & Pos).
  pose proof (cholesky_full n A ch HR HC E HK) as I. pose proof (inv_ldl n (mel A) (ch_m ch) I) as LD. destruct I as (R0 & C0 & NZ & _).
  assert (Pd : forall i, (i < n)%nat -> 0 < mel (ch_m ch) i i).
  { destruct (chol_D_ok n ch R0 C0) as (D' & ED' & RD & CD & VD). rewrite ED in ED'. injection ED' as <-. intros i Hi. specialize (Pos i Hi). apply R_lt in Pos.
    rewrite VD in Pos by assumption. rewrite Nat.eqb_refl in Pos. exact Pos. }
  set (C := ch_m ch) in *. set (G := fun r c => if (r <? c)%nat then 0 else if (r =? c)%nat then sqrt (mel C c c) else mel C r c * sqrt (mel C c c)).
  assert (W : gives_mat (chol_sqrt_L ch) n n G).
  { unfold chol_sqrt_L, zeros_mat, gives_mat. fold C. rewrite R0, C0. destruct (mfill_ok (mnew n n) (fun _ _ => (f0 : R))) as (m & -> & Rm & Cm & Vm). cbn [mrows mcols mnew] in Rm, Cm, Vm. cbn [bind]. apply wp_ok_inv.
    eapply wp_mono; [apply (wp_for (fun k (m' : mat R) => mrows m' = n /\ mcols m' = n /\ forall r c, (r < n)%nat -> (c < n)%nat -> mel m' r c = if (c <? k)%nat then G r c else 0))|].
    - lia.
    - split; [exact Rm|]. split; [exact Cm|]. intros r c Hr Hc. rewrite Vm by assumption. reflexivity.
    - intros j m' Hj (R' & C' & V'). rewrite mget_ok by lia. cbn [bind]. rewrite fsqrt_pos by (left; apply Pd; lia). cbn [bind]. rewrite mset_ok by lia. cbn [bind].
      eapply wp_mono; [apply (wp_for (fun k (m2 : mat R) => mrows m2 = n /\ mcols m2 = n /\ forall r c, (r < n)%nat -> (c < n)%nat -> mel m2 r c = if (c =? j)%nat then (if (r <? k)%nat then G r c else 0) else mel m' r c))|].
      + lia.
      + cbn [mrows mcols mel]. split; [exact R'|]. split; [exact C'|]. intros r c Hr Hc. destruct (Nat.eqb_spec c j) as [->|]; [|rewrite andb_false_r; reflexivity]. rewrite andb_true_r.
        unfold G. destruct (Nat.eqb_spec r j) as [->|]; [rewrite Nat.ltb_irrefl; destruct (Nat.ltb_spec j (S j)); [reflexivity|lia]|].
        rewrite V' by assumption. rewrite Nat.ltb_irrefl. destruct (Nat.ltb_spec r (S j)); [|reflexivity]. destruct (Nat.ltb_spec r j); [reflexivity|lia].
      + intros i m2 Hi (R2 & C2 & V2). rewrite mget_ok by lia. cbn [bind]. rewrite mset_ok by lia. cbn [wp mrows mcols mel]. split; [exact R2|]. split; [exact C2|].
        intros r c Hr Hc. rewrite V2 by assumption. destruct (Nat.eqb_spec r i) as [->|].
        * destruct (Nat.eqb_spec c j) as [->|]; [|reflexivity]. cbn [andb]. destruct (Nat.ltb_spec i (S i)); [|lia]. unfold G. destruct (Nat.ltb_spec i j); [lia|]. destruct (Nat.eqb_spec i j); [lia|]. reflexivity.
        * cbn [andb]. destruct (Nat.eqb_spec c j); [|reflexivity]. destruct (Nat.ltb_spec r i), (Nat.ltb_spec r (S i)); try lia; reflexivity.
      + intros m2 (R2 & C2 & V2). split; [exact R2|]. split; [exact C2|]. intros r c Hr Hc. rewrite V2 by assumption. destruct (Nat.eqb_spec c j) as [->|].
        * destruct (Nat.ltb_spec r n); [|lia]. destruct (Nat.ltb_spec j (S j)); [reflexivity|lia].
        * rewrite V' by assumption. destruct (Nat.ltb_spec c j), (Nat.ltb_spec c (S j)); try lia; reflexivity.
    - intros m' (R' & C' & V'). unfold mat_is. split; [exact R'|]. split; [exact C'|]. intros i j Hi Hj. rewrite V' by assumption. destruct (Nat.ltb_spec j n); [reflexivity|lia]. }
  destruct W as (L & EL & RL & CL & VL). exists L. split; [exact EL|]. split; [exact RL|]. split; [exact CL|]. split.
  { intros r c Hr Hc H. rewrite VL by assumption. unfold G. destruct (Nat.ltb_spec r c); [reflexivity|lia]. }
  split.
  { intros i Hi. rewrite VL by assumption. unfold G. rewrite Nat.ltb_irrefl, Nat.eqb_refl. apply sqrt_lt_R0. apply Pd. exact Hi. }
  eapply gives_mat_ext; [apply mmul_ok; cbn [tr mrows]; lia|exact RL|cbn [tr mcols]; exact RL|].
  intros i j Hi Hj. cbn [tr mcols mel] in *. rewrite CL. rewrite <- (lower_sym_symmetric n) by (assumption || lia). rewrite LD by lia. apply sum_ext. intros k Hk. rewrite !VL by lia.
  assert (GL : forall r, (r < n)%nat -> G r k = fmul (chL C r k) (sqrt (mel C k k))).
  { intros r Hr. unfold G, chL, delta. destruct (Nat.ltb_spec r k), (Nat.ltb_spec k r), (Nat.eqb_spec r k); try lia; cbn [fmul f0 f1 ROps]; try ring. }
  rewrite !GL by lia. cbn [fmul ROps]. rewrite <- (sqrt_sqrt (mel C k k)) at 3 by (left; apply Pd; exact Hk). ring.
Qed.
End RealChol.

(** C43 refuted: rank() is the position of the first zero pivot. diag(0,1) is positive semidefinite of rank 1; rank() is 0. *)
Section D01.
Context {F : Type} {Fo : Ops F} {Fl : Laws F}.
Add Field Ff2 : law_field.
Definition d01 : mat F := mkmat 2 2 (fun r c => if (r =? 1) && (c =? 1) then f1 else f0).
Lemma d01_psd : psd 2 (mel d01).
Proof.
  split.
  - intros r c Hr Hc. cbn [d01 mel]. rewrite andb_comm. reflexivity.
  - intros x. replace (quad 2 (mel d01) x) with (fmul (x 1) (x 1)); [apply sq_nonneg|]. unfold quad, d01. cbn [sum mel Nat.eqb andb]. ring.
Qed.
Lemma d01_mul (x : nat -> F) r : sum 2 (fun c => fmul (mel d01 r c) (x c)) = if r =? 1 then x 1 else f0.
Proof. unfold d01. cbn [sum mel]. destruct (r =? 1); cbn [Nat.eqb andb]; ring. Qed.
Lemma d01_rank : rank_is 2 (mel d01) 1.
Proof.
  split.
  - exists (fun _ c => f1). intros w H j Hj. replace j with 0 by lia. specialize (H 1 ltac:(lia)). cbn [sum] in H. etransitivity; [|exact H]. cbn [d01 mel Nat.eqb andb]. ring.
  - intros [x H].
    assert (G : forall w : nat -> F, fadd (fmul (w 0) (x 0 1)) (fmul (w 1) (x 1 1)) = f0 -> w 0 = f0 /\ w 1 = f0).
    { intros w Hw. assert (K : forall r, r < 2 -> sum 2 (fun j => fmul (w j) (sum 2 (fun c => fmul (mel d01 r c) (x j c)))) = f0).
      { intros r Hr. rewrite (sum_ext 2 _ (fun j => fmul (w j) (if r =? 1 then x j 1 else f0))) by (intros; rewrite d01_mul; reflexivity).
        cbn [sum]. destruct (r =? 1); [etransitivity; [|exact Hw]; ring|ring]. }
      split; apply (H w K); lia. }
    destruct (G (fun j => if j =? 0 then x 1 1 else fopp (x 0 1))) as [Z1 Z0]; [cbn [Nat.eqb]; ring|]. cbn [Nat.eqb] in Z1, Z0.
    assert (Z0' : x 0 1 = f0) by (transitivity (fopp (fopp (x 0 1))); [ring|rewrite Z0; ring]).
    apply one_neq_zero. destruct (G (fun _ => f1)) as [Z _]; [rewrite Z1, Z0'; ring|exact Z].
Qed.
End D01.
Theorem C43_refuted : exists (A : mat Qc) ch, mrows A = 2 /\ mcols A = 2 /\ psd 2 (mel A) /\ rank_is 2 (mel A) 1 /\ cholesky A = Ok ch /\ ch_rank ch = 0.
Proof.
  exists d01. eexists. split; [reflexivity|]. split; [reflexivity|]. split; [apply d01_psd|]. split; [apply d01_rank|]. split; vm_compute; reflexivity.
Qed.

Print Assumptions C41_total.
Print Assumptions C41_not_square.
Print Assumptions C41_recompute.
Print Assumptions C41_factorises.
Print Assumptions C41_posdef.
Print Assumptions C41_lower_only.
Print Assumptions C41_get_L.
Print Assumptions C42_solves.
Print Assumptions C42_matrix.
Print Assumptions C42_inverse.
Print Assumptions C42_determinant.
Print Assumptions C42_mahalanobis.
Print Assumptions C42_lower_triangle.
Print Assumptions C42_singular.
Print Assumptions C42_size_checked.
Print Assumptions C43_never_too_large_partial.
Print Assumptions C43_full_rank_partial.
Print Assumptions C43_refuted.

(** Non-vacuity: a positive definite 3x3 matrix, with its factors, solution, inverse and determinant. *)
Definition pd3 : mat Qc := mq 3 3 [4;2;2; 2;5;3; 2;3;6]%Z.
Example C41_nonvac : symmetric 3 (mel pd3) /\ match cholesky pd3 with Ok ch => ch_rank ch = 3 /\
    mvals (chol_L ch) = [[1;0;0];[1#2;1;0];[1#2;1#2;1]]%Q /\ mvals (chol_D ch) = [[4;0;0];[0;4;0];[0;0;4]]%Q | _ => False end.
Proof.
  split; [|vm_compute; auto]. intros r c Hr Hc.
  destruct r as [|[|[|r]]]; [..|lia]; destruct c as [|[|[|c]]]; try lia; reflexivity.
Qed.
Example C41_posdef_nonvac : posdef 3 (mel pd3).
Proof.
  assert (X : exists ch, cholesky pd3 = Ok ch /\ ch_rank ch = 3 /\ exists D, chol_D ch = Ok D /\ forall i, i < 3 -> flt f0 (mel D i i)).
  { eexists. split; [vm_compute; reflexivity|]. split; [vm_compute; reflexivity|]. eexists. split; [vm_compute; reflexivity|].
    intros i Hi. destruct i as [|[|[|i]]]; [..|lia]; vm_compute; reflexivity. }
  destruct X as (ch & E & K & D). apply (C41_posdef 3 pd3 ch eq_refl eq_refl (proj1 C41_nonvac) E). split; assumption.
Qed.
Example C42_nonvac : match cholesky pd3 with Ok ch => vals (chol_backsub ch (vq [8;10;11]%Z)) = [1;1;1]%Q /\
   (match chol_det ch with Ok d => this d | _ => 0%Q end) = 64%Q /\ mvals (chol_inverse ch) = [[21#64;(-3)#32;(-1)#16];[(-3)#32;5#16;(-1)#8];[(-1)#16;(-1)#8;1#4]]%Q | _ => False end.
Proof. vm_compute. auto. Qed.
Example C43_nonvac : psd 2 (mel (d01 : mat Qc)) /\ match cholesky (d01 : mat Qc) with Ok ch => chol_backsub ch (vq [1;1]%Z) = NonFinite | _ => False end.
Proof. split; [apply d01_psd|vm_compute; reflexivity]. Qed.
