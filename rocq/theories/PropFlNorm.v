(** * C110: the 1-, infinity- and Frobenius norms of helpers.h in floating point. *)
From Coq Require Import Reals Lra Lia Arith Bool.
From Flocq Require Import Core.
From Verif Require Import Base Alg Inst Mat SpecMat LemMat LemOps LemHelpers ModelOps ModelHelpers RSum ModelFl ModelFlNorm SpecFl LemFl ExFl PropFl.
Open Scope outcome_scope.
Local Open Scope R_scope.

(** x is the largest of 0 and f(0), ..., f(n-1) *)
Definition largest (n : nat) (f : nat -> R) (x : R) : Prop := 0 <= x /\ (forall i, (i < n)%nat -> f i <= x) /\ (x = 0 \/ exists i, (i < n)%nat /\ x = f i).

Lemma fabs_Rabs rnd x : @fabs R (FlOps rnd) x = Rabs x.
Proof. unfold fabs. cbn [fltb f0 fopp FlOps]. unfold R_ltb. destruct (Rlt_dec x 0); [rewrite Rabs_left by lra|rewrite Rabs_pos_eq by lra]; reflexivity. Qed.
Lemma near_mix2 u k a b c d : 0 <= u < 1 -> 0 <= a -> 0 <= b -> near u k c -> near u k d -> exists e, near u k e /\ a * c + b * d = (a + b) * e.
Proof.
  intros U Ha Hb Hc Hd. destruct (near_mean u k 2 (fun i => match i with O => a | _ => b end) (fun i => match i with O => c | _ => d end) U) as (e & He & E).
  - intros [|i] _; assumption.
  - intros [|i] _; assumption.
  - exists e. split; [exact He|]. cbn [sum] in E. cbn [fadd f0 ROps] in E. lra.
Qed.
Section P.
Variables (u : R) (rnd : R -> R).
Hypothesis RN : rounding u rnd.
Let U : 0 <= u < 1. Proof. apply RN. Qed.
Lemma near_step (s t : R) k c : 0 <= s -> 0 <= t -> near u k c -> exists d, near u (S k) d /\ rnd (s * c + t) = (s + t) * d.
Proof.
  intros Hs Ht Hc. destruct (near_mix2 u k s t c 1 U Hs Ht Hc ltac:(apply (near_le u 0); [exact U|lia|apply near_1])) as (e & He & E). rewrite Rmult_1_r in E. rewrite E.
  destruct (rnd_near u rnd RN ((s + t) * e)) as (g & Hg & ->). exists (e * g). split; [|ring]. replace (S k) with (k + 1)%nat by lia. apply near_mul; assumption.
Qed.
Lemma abs_sum_near n (g : nat -> outcome R) (x : nat -> R) : (forall i, (i < n)%nat -> g i = Ok (x i)) ->
  exists c, near u n c /\ for_ 0 n (fun i s => y <- g i ;; Ok (@fadd R (FlOps rnd) s (@fabs R (FlOps rnd) y))) 0 = Ok (Sum n (fun i => Rabs (x i)) * c).
Proof.
  intros H. assert (W : wp (for_ 0 n (fun i s => y <- g i ;; Ok (@fadd R (FlOps rnd) s (@fabs R (FlOps rnd) y))) 0) (fun s => exists c, near u n c /\ s = Sum n (fun i => Rabs (x i)) * c)).
  - apply (wp_for (fun k s => exists c, near u k c /\ s = Sum k (fun i => Rabs (x i)) * c)); [lia|exists 1; split; [apply near_1|cbn; ring]|].
    intros i s Hi (c & Hc & ->). rewrite H by lia. cbn [bind wp]. rewrite fabs_Rabs. cbn [fadd FlOps].
    destruct (near_step (Sum i (fun i => Rabs (x i))) (Rabs (x i)) i c) as (d & Hd & E); [apply S_nonneg; intros; apply Rabs_pos|apply Rabs_pos|exact Hc|]. exists d. split; [exact Hd|exact E].
  - apply wp_ok_inv in W. destruct W as (s & E & c & Hc & ->). exists c. split; assumption.
Qed.
Lemma near_rel k c s : 0 <= s -> near u k c -> Rabs (s * c - s) <= fwd u k * s.
Proof. intros Hs Hc. replace (s * c - s) with ((c - 1) * s) by ring. rewrite Rabs_mult, (Rabs_pos_eq s) by exact Hs. apply Rmult_le_compat_r; [exact Hs|]. apply near_err; assumption. Qed.
(** norm_1 of a vector: relative error n roundings, and 0 exactly for the zero vector *)
Theorem C110_vector_norm_1 : forall v : vec R, let N := Sum (vlen v) (fun i => Rabs (vat v i)) in
  exists x, @norm1_vec R (FlOps rnd) v = Ok x /\ Rabs (x - N) <= fwd u (vlen v) * N /\ (x = 0 <-> forall i, (i < vlen v)%nat -> vat v i = 0).
Proof.
  intros v N. destruct (abs_sum_near (vlen v) (vget v) (vat v)) as (c & Hc & E); [intros; apply vget_ok; assumption|]. assert (HN : 0 <= N) by (apply S_nonneg; intros; apply Rabs_pos).
  exists (N * c). split; [exact E|]. split; [apply near_rel; assumption|]. pose proof (near_fac u _ c U Hc) as Fc. pose proof (fac_pos u _ c U Fc) as Pc. split.
  - intros Z i Hi. apply Rmult_integral in Z. destruct Z as [Z|Z]; [|lra]. pose proof (@sum_nonneg_zero R ROps RLaws (vlen v) (fun i => Rabs (vat v i))) as SZ.
    assert (A : Rabs (vat v i) = 0). { apply SZ; [|exact Z|exact Hi]. intros j _. apply (proj2 (R_ltb_false _ _)). apply Rabs_pos. }
    destruct (Req_dec (vat v i) 0) as [|Q]; [assumption|]. apply Rabs_no_R0 in Q. contradiction.
  - intros Z. replace N with 0; [ring|]. unfold N. symmetry. apply (@sum_zero R ROps RLaws). intros i Hi. rewrite Z by exact Hi. apply Rabs_R0.
Qed.
(** norm_inf of a vector is not rounded: it is the largest absolute value, exactly *)
Theorem C110_vector_norm_inf : forall v : vec R, (0 < vlen v)%nat -> exists x, @norminf_vec R (FlOps rnd) v = Ok x /\ largest (vlen v) (fun i => Rabs (vat v i)) x.
Proof.
  intros v Hv. change (@norminf_vec R (FlOps rnd) v) with (@norminf_vec R ROps v). destruct (@norminf_vec_ok R ROps RLaws v Hv) as (x & E & A & i & Hi & B). exists x. split; [exact E|].
  assert (FA : forall y, @fabs R ROps y = Rabs y) by (intros; exact (fabs_Rabs rnd y)). rewrite FA in B. split; [rewrite B; apply Rabs_pos|]. split; [|right; exists i; split; [exact Hi|exact B]].
  intros j Hj. specialize (A j Hj). rewrite FA in A. apply (proj1 (R_ltb_false _ _)) in A. exact A.
Qed.
(** a loop taking the maximum of sums of absolute values *)
Lemma max_near n k (body : nat -> outcome R) (f : nat -> R) : (forall i, (i < n)%nat -> 0 <= f i) -> (forall i, (i < n)%nat -> exists c, near u k c /\ body i = Ok (f i * c)) ->
  forall N, largest n f N -> exists x, for_ 0 n (fun i t => s <- body i ;; Ok (@fmax R (FlOps rnd) t s)) 0 = Ok x /\ Rabs (x - N) <= fwd u k * N.
Proof.
  intros F0 H N (N0 & N1 & N2). assert (W : wp (for_ 0 n (fun i t => s <- body i ;; Ok (@fmax R (FlOps rnd) t s)) 0) (fun x => 0 <= x /\ (forall i, (i < n)%nat -> (1 - u) ^ k * f i <= x) /\ (x = 0 \/ exists i, (i < n)%nat /\ x <= (1 + u) ^ k * f i))).
  { apply (wp_for (fun m x => 0 <= x /\ (forall i, (i < m)%nat -> (1 - u) ^ k * f i <= x) /\ (x = 0 \/ exists i, (i < n)%nat /\ x <= (1 + u) ^ k * f i))); [lia|split; [lra|]; split; [intros; lia|left; reflexivity]|].
    intros i t Hi (T0 & T1 & T2). destruct (H i ltac:(lia)) as (c & [C1 C2] & ->). cbn [bind wp]. specialize (F0 i ltac:(lia)). unfold fmax. cbn [fltb FlOps]. unfold R_ltb.
    assert (B1 : (1 - u) ^ k * f i <= f i * c) by (rewrite Rmult_comm; apply Rmult_le_compat_l; assumption). assert (B2 : f i * c <= (1 + u) ^ k * f i) by (rewrite (Rmult_comm _ (f i)); apply Rmult_le_compat_l; assumption).
    destruct (Rlt_dec t (f i * c)).
    - split; [lra|]. split; [|right; exists i; split; [lia|exact B2]]. intros j Hj. destruct (Nat.eq_dec j i) as [->|]; [exact B1|]. specialize (T1 j ltac:(lia)). lra.
    - split; [exact T0|]. split; [|exact T2]. intros j Hj. destruct (Nat.eq_dec j i) as [->|]; [lra|apply T1; lia]. }
  apply wp_ok_inv in W. destruct W as (x & E & X0 & X1 & X2). exists x. split; [exact E|]. pose proof (pow_1pu u k ltac:(lra)) as P3. pose proof (pow_1mu u k U) as P1. pose proof (pow_mirror u k U) as PM. unfold fwd.
  assert (L : (1 - u) ^ k * N <= x). { destruct N2 as [->|(i & Hi & ->)]; [lra|apply X1; exact Hi]. }
  assert (G : x <= (1 + u) ^ k * N). { destruct X2 as [->|(i & Hi & X2)]; [apply Rmult_le_pos; lra|]. eapply Rle_trans; [exact X2|]. apply Rmult_le_compat_l; [lra|apply N1; exact Hi]. }
  assert (M : (1 - (1 - u) ^ k) * N <= ((1 + u) ^ k - 1) * N) by (apply Rmult_le_compat_r; assumption). apply Rabs_le. lra.
Qed.
(** norm_inf of a matrix is the largest row sum to as many roundings as it has columns; norm_1 the largest column sum to as many as it has rows *)
Theorem C110_matrix_norms : forall (m : mat R) A B,
  largest (mrows m) (fun r => Sum (mcols m) (fun c => Rabs (mel m r c))) A -> largest (mcols m) (fun c => Sum (mrows m) (fun r => Rabs (mel m r c))) B ->
  (exists x, @norminf_mat R (FlOps rnd) m = Ok x /\ Rabs (x - A) <= fwd u (mcols m) * A) /\ (exists x, @norm1_mat R (FlOps rnd) m = Ok x /\ Rabs (x - B) <= fwd u (mrows m) * B).
Proof.
  intros m A B HA HB. split.
  - apply (max_near (mrows m) (mcols m) (fun r => for_ 0 (mcols m) (fun c s => x <- mget m r c ;; Ok (@fadd R (FlOps rnd) s (@fabs R (FlOps rnd) x))) 0) (fun r => Sum (mcols m) (fun c => Rabs (mel m r c)))); [intros; apply S_nonneg; intros; apply Rabs_pos| |exact HA].
    intros r Hr. apply (abs_sum_near (mcols m) (mget m r) (mel m r)). intros c Hc. apply mget_ok; assumption.
  - apply (max_near (mcols m) (mrows m) (fun c => for_ 0 (mrows m) (fun r s => x <- mget m r c ;; Ok (@fadd R (FlOps rnd) s (@fabs R (FlOps rnd) x))) 0) (fun c => Sum (mrows m) (fun r => Rabs (mel m r c)))); [intros; apply S_nonneg; intros; apply Rabs_pos| |exact HB].
    intros c Hc. apply (abs_sum_near (mrows m) (fun r => mget m r c) (fun r => mel m r c)). intros r Hr. apply mget_ok; assumption.
Qed.
(** norm_fro: the square root of the sum of squares to rows*columns + 2 roundings *)
Theorem C110_norm_fro : forall m : mat R, let S2 := Sum (mrows m) (fun r => Sum (mcols m) (fun c => mel m r c * mel m r c)) in
  exists x, fl_norm_fro rnd m = Ok x /\ Rabs (x - sqrt S2) <= fwd u (mrows m * mcols m + 2) * sqrt S2.
Proof.
  intros m S2. set (row := fun r => Sum (mcols m) (fun c => mel m r c * mel m r c)). assert (SQ : forall y : R, 0 <= y * y) by (intros y; apply Rle_0_sqr).
  assert (R0 : forall k r, 0 <= Sum k (fun c => mel m r c * mel m r c)) by (intros; apply S_nonneg; intros; apply SQ).
  assert (W : wp (@sumsq_mat R (FlOps rnd) m) (fun t => exists c, near u (mrows m * mcols m + 1) c /\ t = S2 * c)).
  { unfold sumsq_mat. apply (wp_for (fun r t => exists c, near u (r * mcols m + 1) c /\ t = Sum r row * c)); [lia|exists 1; split; [apply (near_le u 0); [exact U|lia|apply near_1]|cbn; ring]|].
    intros r t Hr (c & Hc & ->). replace (S r * mcols m + 1)%nat with (r * mcols m + 1 + mcols m)%nat by lia. change (Sum (S r) row) with (Sum r row + Sum (mcols m) (fun c => mel m r c * mel m r c)).
    apply (wp_for (fun j t => exists c, near u (r * mcols m + 1 + j) c /\ t = (Sum r row + Sum j (fun c => mel m r c * mel m r c)) * c)); [lia|exists c; split; [rewrite Nat.add_0_r; exact Hc|cbn; ring]|].
    clear c Hc. intros j t Hj (c & Hc & ->). rewrite (@mget_ok R m r j) by lia. cbn [bind wp fadd fmul FlOps]. destruct (rnd_near u rnd RN (mel m r j * mel m r j)) as (b & Hb & ->).
    set (s := Sum r row + Sum j (fun c => mel m r c * mel m r c)). assert (Hs : 0 <= s) by (unfold s; pose proof (R0 j r); assert (0 <= Sum r row) by (apply S_nonneg; intros; apply R0); lra).
    destruct (near_mix2 u (r * mcols m + 1 + j) s (mel m r j * mel m r j) c b U Hs (SQ _) Hc ltac:(apply (near_le u 1); [exact U|lia|exact Hb])) as (e & He & ->). destruct (rnd_near u rnd RN ((s + mel m r j * mel m r j) * e)) as (g & Hg & ->).
    exists (e * g). split; [replace (r * mcols m + 1 + S j)%nat with (r * mcols m + 1 + j + 1)%nat by lia; apply near_mul; assumption|]. change (Sum (S j) (fun c => mel m r c * mel m r c)) with (Sum j (fun c => mel m r c * mel m r c) + mel m r j * mel m r j). unfold s. ring. }
  apply wp_ok_inv in W. destruct W as (t & E & c & Hc & ->). unfold fl_norm_fro. rewrite E. cbn [bind]. assert (P : 0 <= S2) by (apply S_nonneg; intros; apply R0). rewrite sqrt_mult_alt by exact P.
  pose proof (sqrt_near u _ c U Hc) as Hq. destruct (rnd_near u rnd RN (sqrt S2 * sqrt c)) as (g & Hg & ->). eexists. split; [reflexivity|]. rewrite Rmult_assoc. apply near_rel; [apply sqrt_pos|]. replace (mrows m * mcols m + 2)%nat with (mrows m * mcols m + 1 + 1)%nat by lia. apply near_mul; assumption.
Qed.
End P.
(** norm_1 of a matrix is norm_inf of its transpose and changing every sign changes no norm, bit for bit, whatever the rounding *)
Theorem C110_bitwise : forall rnd (m : mat R) (v : vec R), let neg := mkmat (mrows m) (mcols m) (fun i j => - mel m i j) in let nv := mkvec (vlen v) (fun i => - vat v i) in
  @norm1_mat R (FlOps rnd) m = @norminf_mat R (FlOps rnd) (tr m) /\ @norm1_mat R (FlOps rnd) neg = @norm1_mat R (FlOps rnd) m /\ @norminf_mat R (FlOps rnd) neg = @norminf_mat R (FlOps rnd) m /\
  @norm1_vec R (FlOps rnd) nv = @norm1_vec R (FlOps rnd) v /\ fl_norm_fro rnd neg = fl_norm_fro rnd m.
Proof.
  intros rnd m v neg nv. assert (FN : forall x, @fabs R (FlOps rnd) (- x) = @fabs R (FlOps rnd) x) by (intros; rewrite !fabs_Rabs; apply Rabs_Ropp).
  assert (GN : forall r c, (r < mrows m)%nat -> (c < mcols m)%nat -> mget neg r c = Ok (- mel m r c)) by (intros r c Hr Hc; exact (mget_ok neg r c Hr Hc)).
  repeat split.
  - unfold norm1_mat, norminf_mat. cbn [tr mrows mcols]. apply for_ext. intros c n Hc. f_equal. apply for_ext. intros r s Hr. rewrite (mget_ok m r c) by lia. rewrite (mget_ok (tr m) c r) by (cbn [tr mrows mcols]; lia). reflexivity.
  - unfold norm1_mat. cbn [neg mrows mcols]. apply for_ext. intros c n Hc. f_equal. apply for_ext. intros r s Hr. rewrite (mget_ok m r c) by lia. rewrite GN by lia. cbn [bind]. rewrite FN. reflexivity.
  - unfold norminf_mat. cbn [neg mrows mcols]. apply for_ext. intros r n Hr. f_equal. apply for_ext. intros c s Hc. rewrite (mget_ok m r c) by lia. rewrite GN by lia. cbn [bind]. rewrite FN. reflexivity.
  - unfold norm1_vec. cbn [nv vlen]. apply for_ext. intros i s Hi. rewrite (vget_ok v i) by lia. rewrite (vget_ok nv i) by (cbn [nv vlen]; lia). cbn [bind nv vat]. rewrite FN. reflexivity.
  - unfold fl_norm_fro, sumsq_mat. f_equal. cbn [neg mrows mcols]. apply for_ext. intros r n Hr. apply for_ext. intros c s Hc. rewrite (mget_ok m r c) by lia. rewrite GN by lia. cbn [bind fmul FlOps]. replace (- mel m r c * - mel m r c) with (mel m r c * mel m r c) by ring. reflexivity.
Qed.
(** the hypotheses are met in double precision by a matrix whose norms are not 0 *)
Example C110_double : rounding (/ 2 * bpow radix2 (-52)) rnd64 /\ let m := mkmat 2 2 (fun i j => INR (i + 2 * j + 1)) in
  largest 2 (fun r => Sum 2 (fun c => Rabs (mel m r c))) 6 /\ largest 2 (fun c => Sum 2 (fun r => Rabs (mel m r c))) 7.
Proof.
  split; [exact rnd64_rounding|]. cbn zeta. split; (split; [lra|]; split).
  - intros [|[|i]] Hi; [| |lia]; cbn [sum fadd f0 ROps mel Nat.add Nat.mul INR]; rewrite !Rabs_right by lra; lra.
  - right. exists 1%nat. split; [lia|]. cbn [sum fadd f0 ROps mel Nat.add Nat.mul INR]. rewrite !Rabs_right by lra. lra.
  - intros [|[|i]] Hi; [| |lia]; cbn [sum fadd f0 ROps mel Nat.add Nat.mul INR]; rewrite !Rabs_right by lra; lra.
  - right. exists 1%nat. split; [lia|]. cbn [sum fadd f0 ROps mel Nat.add Nat.mul INR]. rewrite !Rabs_right by lra. lra.
Qed.
