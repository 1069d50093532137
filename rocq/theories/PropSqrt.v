(** * C79: the matrix square root *)
From Coq Require Import Reals ZArith Arith Bool Lia Lra Setoid Morphisms.
From Verif Require Import Base Alg Inst Mat SpecMat SpecLin LemMat LemOps LemObjects LemHelpers LemGauss LemDetMore ModelOps ModelObjects ModelHelpers ModelGauss RSum LemEig LemEig3 ModelExp SpecExp LemExp LemExp2 RMat LemSqrt.
Open Scope outcome_scope.
Local Open Scope R_scope.

(** ** A matrix with a full set of eigenvectors and positive eigenvalues: the result has the same
    eigenvectors and positive eigenvalues whose squares are those of m, up to the tolerance of the stopping
    test ([minus x y = 0] only if x and y differ by at most tol) times the condition number of the eigenvectors. *)
Lemma const_sum n c : Sum n (fun _ => c) = INR n * c.
Proof. induction n as [|n I]; [cbn [sum INR]; cbn [f0 ROps]; ring|]. rewrite S_S, I, S_INR. ring. Qed.
Lemma close_eigen minus tol n P Q p q d : inverse_pair n P Q -> 0 <= p -> norm_le n P p -> norm_le n Q q -> 0 <= tol -> (forall x y, minus x y = 0 -> Rabs (x - y) <= tol) ->
  (forall k, (k < n)%nat -> 0 < d k) -> stops minus n (eigmat n P (dnew d) Q) (eigmat n P (fun k => / d k) Q) -> forall k, (k < n)%nat -> 0 <= dnew d k - 1 <= q * (INR n * tol * p).
Proof.
  intros PQ Pp HP HQ Pt Hm Hd St k Hk. pose proof (dnew_ge n d k Hk Hd) as G. split; [lra|].
  pose proof (dnew_close n d k Hk Hd) as C. rewrite Rabs_right in C by lra. eapply Rle_trans; [exact C|].
  apply (conj_bound n P Q PQ (fun k => dnew d k - / d k) p q (INR n * tol) k Pp); [apply Rmult_le_pos; [apply pos_INR|exact Pt]|exact HP|exact HQ| |exact Hk].
  intros i Hi. rewrite <- const_sum. apply S_le. intros j Hj. assert (E : eigmat n P (fun k => dnew d k - / d k) Q i j = eigmat n P (dnew d) Q i j - eigmat n P (fun k => / d k) Q i j).
  { unfold eigmat. rewrite <- S_sub. apply S_ext. intros; ring. } rewrite E. apply Hm. apply St; assumption.
Qed.
Theorem C79_root : forall minus tol n P Q p q d fuel (m Y : mat R), inverse_pair n P Q -> 0 <= p -> norm_le n P p -> norm_le n Q q ->
  (forall k, (k < n)%nat -> 0 < d k) -> mat_is m n n (eigmat n P d Q) -> 0 <= tol -> (forall x y, minus x y = 0 -> Rabs (x - y) <= tol) ->
  sqrt_mat minus fuel m = Ok Y ->
  exists y, mat_is Y n n (eigmat n P y Q) /\ forall k, (k < n)%nat -> 0 < y k /\ d k <= y k * y k <= d k * (1 + q * (INR n * tol * p)).
Proof.
  intros minus tol n P Q p q d fuel m Y PQ Pp HP HQ Hd Hm Pt Hmin Run. destruct (sqrt_start minus n m _ Hm) as (id & Hid & E). rewrite E in Run.
  destruct (ev_loop minus n P Q d PQ id Hid fuel m m Y d d Hm Hm Hd) as (z & d' & HZ & Hd' & Hs & St); [intros k Hk; split; [apply Hd; exact Hk|reflexivity]|exact Run|].
  exists z. split; [exact HZ|]. intros k Hk. destruct (Hs k Hk) as [Pz Ez]. split; [exact Pz|]. rewrite Ez. pose proof (close_eigen minus tol n P Q p q d' PQ Pp HP HQ Pt Hmin Hd' St k Hk) as B. pose proof (Hd k Hk) as Pd. split; nra.
Qed.
(** with an exact stopping test the result is exactly the principal square root *)
Theorem C79_exact : forall n P Q d fuel (m Y : mat R), inverse_pair n P Q -> (forall k, (k < n)%nat -> 0 < d k) -> mat_is m n n (eigmat n P d Q) ->
  sqrt_mat Rminus fuel m = Ok Y -> mat_is Y n n (eigmat n P (fun k => sqrt (d k)) Q) /\ forall i j, (i < n)%nat -> (j < n)%nat -> mm n (mel Y) (mel Y) i j = mel m i j.
Proof.
  intros n P Q d fuel m Y PQ Hd Hm Run. destruct (some_norm n P) as (p & Pp & HP). destruct (some_norm n Q) as (q & _ & HQ).
  destruct (C79_root Rminus 0 n P Q p q d fuel m Y PQ Pp HP HQ Hd Hm (Rle_refl 0)) as (y & HY & Hy); [intros x y H; rewrite H, Rabs_R0; lra|exact Run|].
  assert (G : mat_is Y n n (eigmat n P (fun k => sqrt (d k)) Q)).
  { apply (is_ext n Y _ _ HY). apply conj_ext. intros k Hk. destruct (Hy k Hk) as (P1 & P2 & P3). apply (Rsqr_inj (y k) (sqrt (d k))); [lra|apply sqrt_pos|]. rewrite Rsqr_sqrt by (specialize (Hd k Hk); lra). unfold Rsqr. replace (d k * (1 + q * (INR n * 0 * p))) with (d k) in P3 by ring. lra. }
  split; [exact G|]. destruct G as (_ & _ & G). destruct Hm as (_ & _ & Hm). intros i j Hi Hj. rewrite Hm by assumption. transitivity (mm n (eigmat n P (fun k => sqrt (d k)) Q) (eigmat n P (fun k => sqrt (d k)) Q) i j); [apply mm_ext; intros; apply G; assumption|].
  rewrite (conj_mul n P Q PQ _ _ i j Hi Hj). apply conj_ext; [|exact Hi|exact Hj]. intros k Hk. apply sqrt_sqrt. specialize (Hd k Hk). lra.
Qed.
(** ** and the iteration ends, quadratically fast in fact, whenever the test calls equal what differs by less than some tol > 0 *)
Lemma sqrt_mono minus (id Z : mat R) : forall fuel Y M, sqrt_loop minus fuel id Y M = Ok Z -> forall fuel', (fuel <= fuel')%nat -> sqrt_loop minus fuel' id Y M = Ok Z.
Proof.
  induction fuel as [|fuel I]; intros Y M E fuel' L; [discriminate|]. destruct fuel' as [|fuel']; [lia|]. cbn [sqrt_loop] in *.
  repeat match type of E with bind ?x _ = _ => destruct x; cbn [bind] in *; try discriminate end. destruct (R_ltb 0 _); [|exact E]. apply I; [exact E|lia].
Qed.
Lemma bounded n (d : nat -> R) : exists c, 0 <= c /\ forall k, (k < n)%nat -> d k <= c.
Proof.
  induction n as [|n (c & Pc & H)]; [exists 0; split; [lra|intros; lia]|]. exists (Rmax c (d n)). split; [eapply Rle_trans; [exact Pc|apply Rmax_l]|]. intros k Hk. destruct (Nat.eq_dec k n) as [->|N]; [apply Rmax_r|]. eapply Rle_trans; [apply H; lia|apply Rmax_l].
Qed.
Lemma pow4_unbounded c e : 0 < e -> exists f, c <= e * 4 ^ f.
Proof.
  intros Pe. destruct (Pow_x_infinity 4 ltac:(rewrite Rabs_right; lra) (c / e)) as [f Hf]. exists f. specialize (Hf f (le_n _)). rewrite Rabs_right in Hf by (apply Rle_ge; apply pow_le; lra). apply Rmult_le_reg_r with (/ e); [apply Rinv_0_lt_compat; exact Pe|]. replace (e * 4 ^ f * / e) with (4 ^ f) by (field; lra). unfold Rdiv in Hf. lra.
Qed.
Theorem C79_ends : forall minus tol n P Q d (m : mat R), inverse_pair n P Q -> (forall k, (k < n)%nat -> 0 < d k) -> mat_is m n n (eigmat n P d Q) ->
  0 < tol -> (forall x y, Rabs (x - y) <= tol -> minus x y = 0) -> exists fuel Y, forall fuel', (fuel <= fuel')%nat -> sqrt_mat minus fuel' m = Ok Y.
Proof.
  intros minus tol n P Q d m PQ Hd Hm Pt Hmin. destruct (some_norm n P) as (p & Pp & HP). destruct (some_norm n Q) as (q & Pq & HQ). destruct (sqrt_start minus n m _ Hm) as (id & Hid & E).
  assert (Ppq : 0 <= p * q) by (apply Rmult_le_pos; assumption). set (e := tol / (2 * (p * q) + 1)). assert (Pe : 0 < e) by (apply Rdiv_lt_0_compat; lra).
  assert (St : forall d, pos n d -> (forall k, (k < n)%nat -> 1 <= d k <= 1 + e) -> stops minus n (eigmat n P (dnew d) Q) (eigmat n P (fun k => / d k) Q)).
  { intros d' Pd' B i j Hi Hj. apply Hmin. assert (E' : eigmat n P (dnew d') Q i j - eigmat n P (fun k => / d' k) Q i j = eigmat n P (fun k => dnew d' k - / d' k) Q i j) by (unfold eigmat; rewrite <- S_sub; apply S_ext; intros; ring).
    rewrite E'. eapply Rle_trans; [apply (norm_entry n _ (p * (2 * e) * q) i j Hi Hj); apply conj_norm; try assumption; [lra|]|].
    - intros k Hk. specialize (B k Hk). specialize (Pd' k Hk). assert (Eq : dnew d' k - / d' k = (d' k - 1) * ((d' k + 3) / (4 * d' k))) by (unfold dnew; field; lra). rewrite Eq. assert (Bq : 0 <= (d' k + 3) / (4 * d' k) <= 1).
      { split; [apply Rmult_le_pos; [lra|left; apply Rinv_0_lt_compat; lra]|]. apply Rmult_le_reg_r with (4 * d' k); [lra|]. replace ((d' k + 3) / (4 * d' k) * (4 * d' k)) with (d' k + 3) by (field; lra). lra. }
      rewrite Rabs_right by (apply Rle_ge; apply Rmult_le_pos; lra). nra.
    - assert (Ee : e * (2 * (p * q) + 1) = tol) by (unfold e; field; lra). nra. }
  destruct (bounded n (fun k => dnew d k - 1)) as (c & Pc & Hc). destruct (pow4_unbounded c e Pe) as [f Hf].
  destruct (ev_step minus n P Q PQ (S f) id m m d d Hid Hm Hm Hd) as (Y' & M' & HY' & HM' & Alt).
  assert (Z : exists Z, sqrt_loop minus (S (S f)) id m m = Ok Z).
  { destruct Alt as [(_ & ->)|(_ & ->)]; [exists Y'; reflexivity|]. apply (ev_ends minus n P Q PQ id e Hid St f Y' M' (ynew d d) (dnew d) HY' HM'). intros k Hk. split; [apply (dnew_ge n); [exact Hk|exact Hd]|]. specialize (Hc k Hk). cbn beta in Hc. lra. }
  destruct Z as [Z HZ]. exists (S (S f)), Z. intros fuel' L. rewrite E. apply (sqrt_mono minus id Z (S (S f))); assumption.
Qed.
(** ** Any matrix at all: in exact arithmetic a returned Y satisfies (Y Y - m)(3 Y Y + m) = 0 *)
Theorem C79_any : forall fuel n (m Y : mat R), mrows m = n -> mcols m = n -> sqrt_mat Rminus fuel m = Ok Y -> mrows Y = n /\ mcols Y = n /\
  forall i j, (i < n)%nat -> (j < n)%nat ->
    mm n (fun i j => mm n (mel Y) (mel Y) i j - mel m i j) (fun i j => 3 * mm n (mel Y) (mel Y) i j + mel m i j) i j = 0.
Proof.
  intros fuel n m Y M1 M2 Run. assert (Hm : mat_is m n n (mel m)) by (split; [exact M1|split; [exact M2|reflexivity]]). destruct (sqrt_start Rminus n m _ Hm) as (id & Hid & E). rewrite E in Run.
  destruct (good_loop Rminus n id (mel m) Hid fuel m m (mel m) (mel m) Y Hm Hm) as (a & v & z & (Y1 & Y2 & Y3) & (G1 & G2 & G3) & H1 & H2 & Cm & St); [split; [reflexivity|split; reflexivity]|exact Run|].
  split; [exact Y1|]. split; [exact Y2|]. set (M := mel m) in *.
  assert (EY : meq n (mel Y) z) by (exact Y3).
  assert (EM : meq n (Mnew a v) v) by (intros i j Hi Hj; specialize (St i j Hi Hj); lra).
  assert (EW : meq n (mm n (mel Y) (mel Y)) (mm n M v)) by (rewrite EY, G1, EM; reflexivity).
  assert (Ea : meq n a (mplus (mscal 3 v) (mscal (-2) delta))).
  { intros i j Hi Hj. specialize (EM i j Hi Hj). unfold Mnew, mscal, mplus in *. lra. }
  assert (Evv : meq n (mscal 3 (mm n v v)) (mplus (mscal 2 v) delta)).
  { intros i j Hi Hj. pose proof (H1 i j Hi Hj) as K. assert (K2 : meq n (mm n a v) (mplus (mscal 3 (mm n v v)) (mscal (-2) v))) by (rewrite Ea, m_dist_r, !m_scal_l, m_1l; reflexivity). rewrite (K2 i j Hi Hj) in K. unfold mplus, mscal in *. lra. }
  pose proof (comm_inv n a v M H1 H2 Cm) as Cv.
  assert (F : meq n (mm n (mplus (mm n (mel Y) (mel Y)) (mscal (-1) M)) (mplus (mscal 3 (mm n (mel Y) (mel Y))) M)) (fun _ _ => 0)).
  { rewrite EW. assert (K1 : meq n (mplus (mm n M v) (mscal (-1) M)) (mm n M (mplus v (mscal (-1) delta)))) by (rewrite m_dist_l, m_scal_r, m_1r; reflexivity).
    assert (K2 : meq n (mplus (mscal 3 (mm n M v)) M) (mm n (mplus (mscal 3 v) delta) M)) by (rewrite m_dist_r, m_scal_l, m_1l, Cv; reflexivity).
    rewrite K1, K2, m_assoc, <- (m_assoc n (mplus v (mscal (-1) delta))).
    assert (K3 : meq n (mm n (mplus v (mscal (-1) delta)) (mplus (mscal 3 v) delta)) (fun _ _ => 0)).
    { rewrite m_dist_r, !m_dist_l, !m_scal_l, !m_1l, !m_scal_r, m_1r, Evv. lin. }
    rewrite K3. intros i j Hi Hj. unfold mm. apply S_zero. intros k Hk. rewrite (S_zero n (fun _ => _)); [ring|]. intros; ring. }
  intros i j Hi Hj. rewrite <- (F i j Hi Hj). apply mm_ext; intros k Hk; unfold mplus, mscal; ring.
Qed.
(** ** Matrices that have a square root for which the code returns something else, or nothing *)
Definition minus3 : mat R := mkmat 2 2 (fun i j => -3 * delta i j).
Theorem C79_negative_refuted : exists r, (forall i j, (i < 2)%nat -> (j < 2)%nat -> mm 2 r r i j = mel minus3 i j) /\
  forall fuel, exists Y, sqrt_mat Rminus (S fuel) minus3 = Ok Y /\ mat_is Y 2 2 (fun i j => - delta i j).
Proof.
  exists (fun i j => match i, j with 0%nat, 1%nat => sqrt 3 | 1%nat, 0%nat => - sqrt 3 | _, _ => 0 end). split.
  - intros i j Hi Hj. pose proof (sqrt_sqrt 3 ltac:(lra)) as S3. destruct i as [|[|i]]; [| |lia]; (destruct j as [|[|j]]; [| |lia]); cbn; nra.
  - intros fuel. assert (Hm : mat_is minus3 2 2 (mscal (-3) delta)) by (split; [reflexivity|split; reflexivity]). destruct (sqrt_start Rminus 2 minus3 _ Hm) as (id & Hid & E). rewrite E.
    assert (V : meq 2 (mm 2 (mscal (-1 / 3) delta) (mscal (-3) delta)) delta) by (rewrite m_scal_l, m_scal_r, m_1l; lin).
    assert (NS : nonsingular 2 (mscal (-3) delta)) by (apply (@inverse_nonsingular R ROps RLaws 2 _ (mscal (-1 / 3) delta)); exact V).
    destruct (sqrt_step Rminus 2 fuel id minus3 minus3 _ _ Hid Hm Hm NS) as (v & Y' & M' & H1 & H2 & HY & HM & Alt).
    assert (Hv : meq 2 v (mscal (-1 / 3) delta)) by (apply (inverse_unique 2 (mscal (-3) delta)); assumption).
    assert (EM : meq 2 (Mnew (mscal (-3) delta) v) v) by (unfold Mnew; rewrite Hv; lin).
    destruct Alt as [(_ & ->)|(C & _)]; [|destruct C; intros i j Hi Hj; rewrite (EM i j Hi Hj); ring]. exists Y'. split; [reflexivity|]. apply (is_ext 2 Y' _ _ HY). unfold Ynew. change (meq 2 (mscal (1 / 2) (mm 2 (mscal (-3) delta) (mplus delta v))) (fun i j => - delta i j)). rewrite m_scal_l, m_1l, Hv. lin.
Qed.
Theorem C79_singular_refuted : forall minus fuel n (m : mat R), mrows m = n -> mcols m = n -> ~ nonsingular n (mel m) -> sqrt_mat minus (S fuel) m = NonFinite.
Proof.
  intros minus fuel n m M1 M2 NS. assert (Hm : mat_is m n n (mel m)) by (split; [exact M1|split; [exact M2|reflexivity]]). destruct (sqrt_start minus n m _ Hm) as (id & Hid & E). rewrite E. apply (sqrt_singular minus n fuel id m m (mel m) Hid Hm NS).
Qed.
Theorem C79_zero_refuted : forall minus fuel n, (0 < n)%nat -> (forall i j, mm n (fun _ _ => 0) (fun _ _ => 0) i j = 0) /\ sqrt_mat minus (S fuel) (mkmat n n (fun _ _ => 0)) = NonFinite.
Proof.
  intros minus fuel n Hn. split; [intros i j; unfold mm; apply S_zero; intros; ring|]. apply (C79_singular_refuted minus fuel n); [reflexivity|reflexivity|]. intros NS. specialize (NS (fun _ => 1)). cbn [mel] in NS. assert (C : (1 : R) = f0) by (apply (NS ltac:(intros r Hr; apply S_zero; intros; cbn [fmul ROps]; ring) 0%nat Hn)). cbn [f0 ROps] in C. lra.
Qed.
Theorem C79_square : forall minus fuel (m : mat R), mrows m <> mcols m -> sqrt_mat minus fuel m = Abort DSizeMismatch.
Proof. intros minus fuel m H. unfold sqrt_mat. rewrite same_size_bad by exact H. reflexivity. Qed.
(** ** The hypotheses are met: a symmetric matrix with eigenvalues 1 and 9, and a threshold test *)
Definition close (tol x y : R) : R := if R_ltb tol (Rabs (x - y)) then x - y else 0.
Lemma close_ok tol : 0 < tol -> (forall x y, Rabs (x - y) <= tol -> close tol x y = 0) /\ (forall x y, close tol x y = 0 -> Rabs (x - y) <= tol).
Proof.
  intros Pt. split; intros x y H; unfold close in *; destruct (R_ltb tol (Rabs (x - y))) eqn:E; try reflexivity.
  - apply R_ltb_spec in E. lra.
  - rewrite H, Rabs_R0. lra.
  - apply R_ltb_false in E. exact E.
Qed.
Definition mixer : rmat := fun i j => match i, j with 1%nat, 1%nat => -1 | _, _ => 1 end.
Definition ev19 (k : nat) : R := match k with 0%nat => 9 | _ => 1 end.
Example C79_nonvac : forall tol, 0 < tol -> exists fuel Y, sqrt_mat (close tol) fuel (mkmat 2 2 (fun i j => match i, j with 0%nat, 0%nat => 5 | 1%nat, 1%nat => 5 | _, _ => 4 end)) = Ok Y /\
  exists y, mat_is Y 2 2 (eigmat 2 mixer y (mscal (1 / 2) mixer)) /\ forall k, (k < 2)%nat -> 0 < y k /\ ev19 k <= y k * y k <= ev19 k * (1 + 1 * (INR 2 * tol * 2)).
Proof.
  intros tol Pt. destruct (close_ok tol Pt) as [C1 C2]. set (m := mkmat 2 2 _).
  assert (PQ : inverse_pair 2 mixer (mscal (1 / 2) mixer)). { intros i j Hi Hj. destruct i as [|[|i]]; [| |lia]; (destruct j as [|[|j]]; [| |lia]); unfold mm, mscal, mixer, delta; cbn; split; lra. }
  assert (Hm : mat_is m 2 2 (eigmat 2 mixer ev19 (mscal (1 / 2) mixer))). { split; [reflexivity|]. split; [reflexivity|]. intros i j Hi Hj. destruct i as [|[|i]]; [| |lia]; (destruct j as [|[|j]]; [| |lia]); unfold eigmat, mscal, mixer, ev19; cbn; lra. }
  assert (Hd : forall k, (k < 2)%nat -> 0 < ev19 k) by (intros [|k] _; cbn; lra).
  assert (A1 : Rabs (-1) = 1) by (rewrite Rabs_left; lra).
  destruct (C79_ends (close tol) tol 2 mixer (mscal (1 / 2) mixer) ev19 m PQ Hd Hm Pt C1) as (fuel & Y & HY). exists fuel, Y. specialize (HY fuel (le_n _)). split; [exact HY|].
  apply (C79_root (close tol) tol 2 mixer (mscal (1 / 2) mixer) 2 1 ev19 fuel m Y PQ); try assumption; try lra.
  - intros i Hi. destruct i as [|[|i]]; [| |lia]; cbn; rewrite ?A1, ?Rabs_R1; lra.
  - intros i Hi. unfold mscal. destruct i as [|[|i]]; [| |lia]; cbn; rewrite ?Rabs_mult, ?A1, ?Rabs_R1, ?(Rabs_right (1 / 2)) by lra; lra.
Qed.
Example C79_nonvac_any : exists Y, sqrt_mat Rminus 1 (mkmat 1 1 (fun _ _ => 1)) = Ok Y /\ mel Y 0%nat 0%nat = 1.
Proof.
  set (m := mkmat 1 1 _). assert (Hm : mat_is m 1 1 (eigmat 1 delta (fun _ => 1) delta)). { split; [reflexivity|]. split; [reflexivity|]. intros i j Hi Hj. destruct i; [|lia]. destruct j; [|lia]. cbn. ring. }
  assert (PQ : inverse_pair 1 delta delta) by (intros i j Hi Hj; rewrite mm_delta_l by exact Hi; split; reflexivity).
  destruct (sqrt_start Rminus 1 m _ Hm) as (id & Hid & E). rewrite E. destruct (ev_step Rminus 1 delta delta PQ 0 id m m _ _ Hid Hm Hm ltac:(intros k Hk; lra)) as (Y & M & HY & HM & [(_ & R')|(C & _)]).
  - exists Y. split; [exact R'|]. destruct HY as (_ & _ & HY). rewrite HY by lia. unfold eigmat, ynew, delta. cbn [sum Nat.eqb]. cbn [fadd f0 f1 ROps]. field.
  - destruct C. intros i j Hi Hj. rewrite (conj_ext 1 delta delta (dnew (fun _ => 1)) (fun _ => / 1)); [ring| |exact Hi|exact Hj]. intros k Hk. unfold dnew. field.
Qed.
