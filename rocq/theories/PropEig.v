(** * C47, C48: symmetric eigen-decompositions. *)
From Coq Require Import Reals Arith Bool Lia Lra Psatz.
From Verif Require Import Base Alg Mat SpecMat LemMat Inst RSum ModelOps LemOps ModelHelpers LemHelpers LemChol SpecLin LemLin LemDet LemDetMore LemDetMul SpecForm LemForm ModelEig SpecEig LemEig.
Open Scope outcome_scope.
Local Open Scope R_scope.

(** ** C47: the 2x2 closed form *)
(** the symmetric matrix with the upper triangle of m *)
Definition upper_sym (m : nat -> nat -> R) (r c : nat) : R := if (r <=? c)%nat then m r c else m c r.
Theorem C47_eig2 : forall m : mat R, mrows m = 2%nat -> mcols m = 2%nat -> exists E, eig2 m = Ok E /\ eigensystem 2 (upper_sym (mel m)) E.
Proof.
  intros m H1 H2. unfold eig2. rewrite !mget_ok by lia. cbn [bind].
  set (m00 := mel m 0%nat 0%nat) in *. set (m01 := mel m 0%nat 1%nat) in *. set (m11 := mel m 1%nat 1%nat) in *.
  set (disc := (m00 + m11) * (m00 + m11) - 4 * (m00 * m11 - m01 * m01)).
  assert (D : disc = (m00 - m11) * (m00 - m11) + 4 * (m01 * m01)) by (unfold disc; ring).
  assert (D0 : 0 <= disc). { rewrite D. pose proof (Rle_0_sqr (m00 - m11)) as Q1. pose proof (Rle_0_sqr m01) as Q2. unfold Rsqr in Q1, Q2. lra. } destruct (R_ltb disc 0) eqn:T; [apply R_ltb_spec in T; lra|]. clear T.
  pose proof (sqrt_sqrt disc D0) as SS. pose proof (sqrt_pos disc) as SP. set (s := sqrt disc) in *.
  set (ev0 := / 2 * (m00 + m11 - s)). set (ev1 := / 2 * (m00 + m11 + s)). set (a := m00 - ev0).
  assert (A1 : ev0 = m00 - a) by (unfold a; ring). assert (A2 : ev1 = m11 + a) by (unfold a, ev0, ev1; field).
  assert (A3 : a * (a + m11 - m00) = m01 * m01). { transitivity (/ 4 * (s * s - (m00 - m11) * (m00 - m11))); [unfold a, ev0; field|]. rewrite SS, D. field. }
  assert (A4 : ev0 <= ev1) by (unfold ev0, ev1; lra).
  assert (G : forall e00 e01, e00 * e00 + e01 * e01 = 1 -> m00 = ev0 * e00 * e00 + ev1 * e01 * e01 -> m11 = ev0 * e01 * e01 + ev1 * e00 * e00 -> m01 = (ev0 - ev1) * e00 * e01 ->
    eigensystem 2 (upper_sym (mel m)) (mkeig (mkmat 2 2 (fun i j => match i, j with 0%nat, 0%nat => e00 | 0%nat, _ => e01 | _, 0%nat => - e01 | _, _ => e00 end)) (mkvec 2 (fun i => match i with 0%nat => ev0 | _ => ev1 end)))).
  { intros e00 e01 N E0 E1 E2. split; [reflexivity|]. split; [reflexivity|]. split; [reflexivity|]. cbn [e_vecs e_vals mel vat]. split; [|split].
    - intros [|[|i]] [|[|j]] Hi Hj; try lia; cbn [sum fadd f0 ROps delta Nat.eqb f1]; unfold delta; cbn [Nat.eqb f1 f0 ROps]; lra.
    - intros [|[|i]] [|[|j]] Hij; try lia; lra.
    - intros [|[|r]] [|[|c]] Hr Hc; try lia; unfold upper_sym; cbn [Nat.leb sum fadd f0 ROps]; fold m00 m01 m11; lra. }
  destruct (R_eqb (a * a + m01 * m01) 0) eqn:T.
  - apply R_eqb_spec in T. cbn [bind]. assert (Za : a = 0) by nra. assert (Zb : m01 = 0) by nra. eexists. split; [reflexivity|]. apply G; lra.
  - assert (Nz : a * a + m01 * m01 <> 0). { intros Z. apply R_eqb_spec in Z. congruence. } assert (P : 0 < a * a + m01 * m01) by nra.
    assert (SN : sqrt (a * a + m01 * m01) <> 0). { apply Rgt_not_eq. apply sqrt_lt_R0. exact P. }
    rewrite R_div_ok by exact SN. cbn [bind]. eexists. split; [reflexivity|]. set (k := 1 / sqrt (a * a + m01 * m01)).
    assert (K : k * k * (a * a + m01 * m01) = 1). { rewrite <- (sqrt_sqrt (a * a + m01 * m01)) at 1 by lra. unfold k. field. exact SN. }
    set (B := m01 * m01) in *. apply G.
    + rewrite <- K. unfold B. ring.
    + rewrite A1, A2. transitivity (m00 * (k * k * (a * a + B))); [rewrite K; ring|]. transitivity (k * k * ((m00 - a) * B + (m11 + a) * (a * a))); [|unfold B; ring].
      replace ((m00 - a) * B + (m11 + a) * (a * a)) with (m00 * B + m00 * (a * a) - a * B + a * (a * (a + m11 - m00))) by ring. rewrite A3. ring.
    + rewrite A1, A2. transitivity (m11 * (k * k * (a * a + B))); [rewrite K; ring|]. transitivity (k * k * ((m00 - a) * (a * a) + (m11 + a) * B)); [|unfold B; ring].
      replace ((m00 - a) * (a * a) + (m11 + a) * B) with (m11 * (a * a) + m11 * B + a * B - a * (a * (a + m11 - m00))) by ring. rewrite A3. ring.
    + rewrite A1, A2. transitivity (m01 * (k * k * (a * a + B))); [rewrite K; ring|]. transitivity (k * k * m01 * (a * a + a * (a + m11 - m00))); [rewrite A3; ring|]. ring.
Qed.
(** a decomposition does say A v_i = e_i v_i *)
Theorem C47_eigenvectors : forall n A E i r, eigensystem n A E -> (i < n)%nat -> (r < n)%nat ->
  Sum n (fun c => A r c * mel (e_vecs E) i c) = vat (e_vals E) i * mel (e_vecs E) i r.
Proof.
  intros n A E i r H Hi Hr. rewrite (S_ext n _ (fun c => mel (e_vecs E) i c * spec n (mel (e_vecs E)) (vat (e_vals E)) c r)).
  - apply row_spec; [apply H|exact Hi].
  - intros c Hc. rewrite (eigensystem_spec n A E H r c Hr Hc). rewrite (spec_sym _ _ _ r c). ring.
Qed.

(** ** C48: functions of a decomposition *)
Theorem C48_determinant : forall n A E, eigensystem n A E -> eig_determinant E = Ok (det (F:=R) n A).
Proof.
  intros n A E H. pose proof H as (H1 & H2 & H3 & HV & _ & HA). unfold eig_determinant. rewrite H3.
  apply wp_eq. eapply wp_mono; [apply (wp_for (fun i s => s = prod (F:=R) i (vat (e_vals E))))|]; [lia|reflexivity| |].
  - intros i s Hi ->. rewrite vget_ok by lia. reflexivity.
  - intros s ->. set (V := mel (e_vecs E)) in *. set (e := vat (e_vals E)) in *.
    assert (EA : det (F:=R) n A = det (F:=R) n (fun r c => Sum n (fun k => V k r * Sum n (fun l => (if (k =? l)%nat then e k else 0) * V l c)))).
    { apply (@det_ext R ROps). intros r c Hr Hc. rewrite HA by auto. apply S_ext. intros k Hk. rewrite (S_ext n _ (fun l => e k * (delta k l * V l c))).
      - rewrite S_mul_l, delta_l by exact Hk. ring.
      - intros l Hl. unfold delta. destruct (k =? l)%nat; cbn [f0 f1 ROps]; ring. }
    pose proof (@det_mul R ROps RLaws n (fun r k => V k r) (fun k c => Sum n (fun l => (if (k =? l)%nat then e k else 0) * V l c))) as M1.
    pose proof (@det_mul R ROps RLaws n (fun k l => if (k =? l)%nat then e k else 0) V) as M2. cbn [fmul ROps] in M1, M2. rewrite EA, M1, M2. rewrite (@det_diag R ROps RLaws n (fun k l => if (k =? l)%nat then e k else 0)).
    2:{ intros r c Hr Hc N. apply Nat.eqb_neq in N. rewrite N. reflexivity. }
    cbn beta. rewrite (@prod_ext R ROps n (fun i => if (i =? i)%nat then e i else 0) e). 2:{ intros i Hi. rewrite Nat.eqb_refl. reflexivity. }
    assert (VV : det (F:=R) n (fun r k => V k r) * det (F:=R) n V = 1).
    { pose proof (@det_mul R ROps RLaws n (fun r k => V k r) V) as M. cbn [fmul ROps] in M. rewrite <- M. transitivity (det (F:=R) n delta); [|exact (@det_delta R ROps RLaws n)]. apply (@det_ext R ROps). intros r c Hr Hc. exact (orthonormal_cols n V HV r c Hr Hc). }
    set (p := prod n e). set (D1 := det n (fun r k => V k r)) in *. set (D2 := det n V) in *. transitivity (p * (D1 * D2)); [rewrite VV; ring|ring].
Qed.
Lemma psd_sum n (e y : nat -> R) : (forall k, (k < n)%nat -> 0 < e k) -> (exists k, (k < n)%nat /\ y k <> 0) -> 0 < Sum n (fun k => e k * (y k * y k)).
Proof.
  intros He (k & Hk & Hy). assert (N : 0 <= Sum n (fun k => e k * (y k * y k))). { apply S_nonneg. intros i Hi. specialize (He i Hi). nra. }
  destruct N as [N|N]; [exact N|exfalso]. symmetry in N. assert (Z : e k * (y k * y k) = 0).
  { apply (S_pos_zero n (fun k => e k * (y k * y k))); [|exact N|exact Hk]. intros i Hi. specialize (He i Hi). nra. }
  specialize (He k Hk). assert (0 < y k * y k) by nra. nra.
Qed.
Lemma some_nonzero n V x : orthonormal n V -> (exists i, (i < n)%nat /\ x i <> 0) -> exists k, (k < n)%nat /\ Sum n (fun r => V k r * x r) <> 0.
Proof.
  intros HV (i & Hi & Hx). destruct (@first_nonzero R ROps RLaws n (fun k => Sum n (fun r => V k r * x r))) as [Z|Z]; [|exact Z].
  exfalso. apply Hx. apply (orthonormal_inj n V x HV Z i Hi).
Qed.
(** is_posdef() decides positive definiteness, is_negdef() that of -A *)
Lemma eig_symmetric n A E : eigensystem n A E -> symmetric (F:=R) n A.
Proof. intros H r c Hr Hc. rewrite !(eigensystem_spec n A E H) by auto. apply spec_sym. Qed.
Lemma probe n A E i : eigensystem n A E -> (i < n)%nat -> quad (F:=R) n A (fun r => mel (e_vecs E) i r) = vat (e_vals E) i.
Proof.
  intros H Hi. rewrite (quad_spec n A E _ H). pose proof H as (_ & _ & _ & HV & _).
  rewrite (S_ext n _ (fun k => delta i k * vat (e_vals E) k)).
  - apply delta_l. exact Hi.
  - intros k Hk. rewrite (HV k i Hk Hi). unfold delta. rewrite (Nat.eqb_sym k i). destruct (i =? k)%nat; cbn [f0 f1 ROps]; ring.
Qed.
Lemma row_nonzero n A E i : eigensystem n A E -> (i < n)%nat -> exists r, (r < n)%nat /\ mel (e_vecs E) i r <> 0.
Proof.
  intros (_ & _ & _ & HV & _) Hi. destruct (@first_nonzero R ROps RLaws n (fun r => mel (e_vecs E) i r)) as [Z|Z]; [|exact Z].
  exfalso. specialize (HV i i Hi Hi). rewrite S_zero in HV. 2:{ intros k Hk. rewrite Z by exact Hk. cbn [f0 ROps]. ring. }
  unfold delta in HV. rewrite Nat.eqb_refl in HV. cbn [f1 ROps] in HV. lra.
Qed.
Theorem C48_is_posdef : forall n A E, eigensystem n A E -> exists b, eig_is_posdef E = Ok b /\ (b = true <-> posdef (F:=R) n A).
Proof.
  intros n A E H. pose proof H as (H1 & H2 & H3 & HV & _ & HA). unfold eig_is_posdef. rewrite H3.
  destruct (returning_ok n (fun i => x <- vget (e_vals E) i ;; Ok (if R_ltb 0 x then None else Some false)) true (fun i => if R_ltb 0 (vat (e_vals E) i) then None else Some false)) as (b & Eb & C).
  { intros i Hi. rewrite vget_ok by lia. reflexivity. }
  exists b. split; [exact Eb|]. destruct C as [(-> & C)|(i & Hi & C & _)].
  - split; [intros _|reflexivity]. split; [exact (eig_symmetric n A E H)|]. intros x Hx. apply R_ltb_iff. rewrite (quad_spec n A E x H). apply psd_sum.
    + intros k Hk. specialize (C k Hk). destruct (R_ltb 0 (vat (e_vals E) k)) eqn:T; [apply R_ltb_spec in T; exact T|discriminate].
    + apply some_nonzero; [exact HV|exact Hx].
  - destruct (R_ltb 0 (vat (e_vals E) i)) eqn:T; [discriminate|]. injection C as <-. split; [discriminate|]. intros (_ & P).
    specialize (P (fun r => mel (e_vecs E) i r) (row_nonzero n A E i H Hi)). apply R_ltb_iff in P. rewrite (probe n A E i H Hi) in P. apply R_ltb_false in T. cbn [f0 ROps] in P. lra.
Qed.
Theorem C48_is_negdef : forall n A E, eigensystem n A E -> exists b, eig_is_negdef E = Ok b /\ (b = true <-> posdef (F:=R) n (fun r c => - A r c)).
Proof.
  intros n A E H. pose proof H as (H1 & H2 & H3 & HV & _ & HA). unfold eig_is_negdef. rewrite H3.
  assert (NQ : forall x, quad (F:=R) n (fun r c => - A r c) x = - quad (F:=R) n A x).
  { intros x. unfold quad. cbn [fmul ROps]. transitivity ((-1) * Sum n (fun r => Sum n (fun c => x r * A r c * x c))); [|ring]. rewrite <- S_mul_l. apply S_ext. intros r Hr. rewrite <- S_mul_l. apply S_ext. intros; ring. }
  destruct (returning_ok n (fun i => x <- vget (e_vals E) i ;; Ok (if R_ltb x 0 then None else Some false)) true (fun i => if R_ltb (vat (e_vals E) i) 0 then None else Some false)) as (b & Eb & C).
  { intros i Hi. rewrite vget_ok by lia. reflexivity. }
  exists b. split; [exact Eb|]. destruct C as [(-> & C)|(i & Hi & C & _)].
  - split; [intros _|reflexivity]. split; [intros r c Hr Hc; cbn beta; rewrite (eig_symmetric n A E H r c Hr Hc); reflexivity|]. intros x Hx. apply R_ltb_iff. rewrite NQ, (quad_spec n A E x H).
    pose proof (psd_sum n (fun k => - vat (e_vals E) k) (fun k => Sum n (fun r => mel (e_vecs E) k r * x r))) as P. cbn beta in P.
    rewrite (S_ext n _ (fun k => (-1) * (vat (e_vals E) k * (Sum n (fun r => mel (e_vecs E) k r * x r) * Sum n (fun r => mel (e_vecs E) k r * x r))))) in P by (intros; ring). rewrite S_mul_l in P.
    specialize (P ltac:(intros k Hk; specialize (C k Hk); destruct (R_ltb (vat (e_vals E) k) 0) eqn:T; [apply R_ltb_spec in T; lra|discriminate]) (some_nonzero n _ x HV Hx)). cbn [f0 ROps]. lra.
  - destruct (R_ltb (vat (e_vals E) i) 0) eqn:T; [discriminate|]. injection C as <-. split; [discriminate|]. intros (_ & P).
    specialize (P (fun r => mel (e_vecs E) i r) (row_nonzero n A E i H Hi)). apply R_ltb_iff in P. rewrite NQ, (probe n A E i H Hi) in P. apply R_ltb_false in T. cbn [f0 ROps] in P. lra.
Qed.
(** get_inv_diag(condition): the reciprocals of exactly the eigenvalues larger in absolute value than the largest divided by condition *)
Theorem C48_inv_diag : forall n A cond E, (0 < n)%nat -> eigensystem n A E -> exists m d, largest n (vat (e_vals E)) m /\ eig_inv_diag cond E = Ok d /\ vlen d = n /\
  forall i, (i < n)%nat -> (m < Rabs (vat (e_vals E) i) * cond -> vat (e_vals E) i <> 0 /\ vat d i = / vat (e_vals E) i) /\ (Rabs (vat (e_vals E) i) * cond <= m -> vat d i = 0).
Proof.
  intros n A cond E Hn H. destruct (inv_diag_ok n A cond E Hn H) as (m & L & d & Ed & D1 & D2). exists m, d. split; [exact L|]. split; [exact Ed|]. split; [exact D1|].
  intros i Hi. rewrite D2 by exact Hi. assert (M0 : 0 <= m). { destruct L as (_ & j & _ & <-). apply Rabs_pos. } split; intros Hc.
  - split; [intros Z; rewrite Z, Rabs_R0 in Hc; lra|]. apply R_ltb_iff in Hc. rewrite Hc. reflexivity.
  - destruct (R_ltb _ _) eqn:T; [apply R_ltb_spec in T; lra|reflexivity].
Qed.
Lemma pinv_ok n A cond E : (0 < n)%nat -> eigensystem n A E -> exists m, largest n (vat (e_vals E)) m /\
  gives_mat (eig_pinv cond E) n n (spec n (mel (e_vecs E)) (fun i => if R_ltb m (Rabs (vat (e_vals E) i) * cond) then / vat (e_vals E) i else 0)).
Proof.
  intros Hn H. destruct (inv_diag_ok n A cond E Hn H) as (m & L & d & Ed & D1 & D2). exists m. split; [exact L|]. unfold eig_pinv. rewrite Ed. cbn [bind].
  destruct H as (H1 & H2 & _). destruct (spec_model n (e_vecs E) d H1 H2 D1) as (p & Ep & P1 & P2 & P3). exists p. split; [exact Ep|]. split; [exact P1|]. split; [exact P2|].
  intros i j Hi Hj. rewrite P3 by auto. apply spec_ext. exact D2.
Qed.
(** get_pinv(): the inverse when every eigenvalue passes the condition; the pseudo-inverse when every nonzero one does *)
Theorem C48_pinv : forall n A cond E, (0 < n)%nat -> eigensystem n A E -> exists P m, eig_pinv cond E = Ok P /\ mrows P = n /\ mcols P = n /\ largest n (vat (e_vals E)) m /\
  ((forall i, (i < n)%nat -> vat (e_vals E) i <> 0 -> m < Rabs (vat (e_vals E) i) * cond) -> pseudo_inverse n A (mel P)) /\
  ((forall i, (i < n)%nat -> m < Rabs (vat (e_vals E) i) * cond) -> same_mat n (times n A (mel P)) delta /\ same_mat n (times n (mel P) A) delta).
Proof.
  intros n A cond E Hn H. destruct (pinv_ok n A cond E Hn H) as (m & L & P & EP & P1 & P2 & P3). exists P, m. split; [exact EP|]. split; [exact P1|]. split; [exact P2|]. split; [exact L|].
  pose proof H as (_ & _ & _ & HV & _). set (V := mel (e_vecs E)) in *. set (e := vat (e_vals E)) in *.
  set (d := fun i => if R_ltb m (Rabs (e i) * cond) then / e i else 0) in *.
  assert (M0 : 0 <= m). { destruct L as (_ & j & _ & <-). apply Rabs_pos. }
  assert (AP : forall r c, (r < n)%nat -> (c < n)%nat -> times n A (mel P) r c = spec n V (fun k => e k * d k) r c).
  { intros r c Hr Hc. unfold times. rewrite <- spec_mul by auto. apply S_ext. intros k Hk. rewrite P3 by auto. rewrite (eigensystem_spec n A E H) by auto. reflexivity. }
  assert (PA : forall r c, (r < n)%nat -> (c < n)%nat -> times n (mel P) A r c = spec n V (fun k => d k * e k) r c).
  { intros r c Hr Hc. unfold times. rewrite <- spec_mul by auto. apply S_ext. intros k Hk. rewrite P3 by auto. rewrite (eigensystem_spec n A E H) by auto. reflexivity. }
  split.
  - intros C. assert (K1 : forall k, (k < n)%nat -> e k * d k * e k = e k).
    { intros k Hk. unfold d. destruct (Req_dec (e k) 0) as [Z|Z]; [rewrite Z; ring|]. specialize (C k Hk Z). apply R_ltb_iff in C. rewrite C. field. exact Z. }
    assert (K2 : forall k, (k < n)%nat -> d k * e k * d k = d k).
    { intros k Hk. unfold d. destruct (R_ltb m (Rabs (e k) * cond)) eqn:T; [|ring]. apply R_ltb_spec in T. field. intros Z. rewrite Z, Rabs_R0 in T. lra. }
    split; [|split; [|split]].
    + intros r c Hr Hc. unfold times at 1. rewrite (S_ext n _ (fun k => spec n V (fun k => e k * d k) r k * spec n V e k c)).
      2:{ intros k Hk. rewrite AP by auto. rewrite (eigensystem_spec n A E H k c) by auto. reflexivity. }
      rewrite spec_mul by auto. rewrite (eigensystem_spec n A E H r c) by auto. apply spec_ext. exact K1.
    + intros r c Hr Hc. unfold times at 1. rewrite (S_ext n _ (fun k => spec n V (fun k => d k * e k) r k * spec n V d k c)).
      2:{ intros k Hk. rewrite PA by auto. rewrite P3 by auto. reflexivity. }
      rewrite spec_mul by auto. rewrite P3 by auto. apply spec_ext. exact K2.
    + intros r c Hr Hc. rewrite !AP by auto. apply spec_sym.
    + intros r c Hr Hc. rewrite !PA by auto. apply spec_sym.
  - intros C. assert (K : forall k, (k < n)%nat -> e k * d k = 1).
    { intros k Hk. specialize (C k Hk). unfold d. assert (Z : e k <> 0) by (intros Z; rewrite Z, Rabs_R0 in C; lra). apply R_ltb_iff in C. rewrite C. field. exact Z. }
    split; intros r c Hr Hc.
    + rewrite AP by auto. rewrite <- (spec_one n V r c HV Hr Hc). apply spec_ext. exact K.
    + rewrite PA by auto. rewrite <- (spec_one n V r c HV Hr Hc). apply spec_ext. intros k Hk. rewrite Rmult_comm. apply K. exact Hk.
Qed.
(** backsub(b) is get_pinv() * b; so it solves A x = b when A passes the condition test *)
Theorem C48_backsub : forall n A E (b : vec R), (0 < n)%nat -> eigensystem n A E -> vlen b = n ->
  exists P x, eig_pinv symeigen_condition_no E = Ok P /\ eig_backsub_vec E b = Ok x /\ vlen x = n /\ (forall r, (r < n)%nat -> vat x r = Sum n (fun c => mel P r c * vat b c)) /\
  forall m, largest n (vat (e_vals E)) m -> (forall i, (i < n)%nat -> m < Rabs (vat (e_vals E) i) * symeigen_condition_no) -> solves (F:=R) n A (vat x) (vat b).
Proof.
  intros n A E b Hn H Hb. destruct (C48_pinv n A symeigen_condition_no E Hn H) as (P & m & EP & P1 & P2 & L & _ & INV). exists P.
  assert (EP' := EP). unfold eig_pinv in EP'. destruct (inv_diag_ok n A symeigen_condition_no E Hn H) as (m' & L' & d & Ed & D1 & D2). rewrite Ed in EP'. cbn [bind] in EP'.
  pose proof H as (H1 & H2 & _ & HV & _). destruct (spec_model n (e_vecs E) d H1 H2 D1) as (P' & Ep & _ & _ & P3). rewrite Ep in EP'. injection EP' as ->.
  unfold eig_backsub_vec. rewrite Ed. cbn [bind]. destruct (@mv_ok R ROps (e_vecs E) b ltac:(congruence)) as (t & Et & T1 & T2). rewrite Et. cbn [bind].
  destruct (@vdiagmult_ok R ROps d t ltac:(congruence)) as (u & Eu & U1 & U2). rewrite Eu. cbn [bind].
  destruct (@mv_ok R ROps (tr (e_vecs E)) u ltac:(cbn [tr mcols]; congruence)) as (x & Ex & X1 & X2). cbn [tr mrows mcols mel] in *. exists x. split; [exact EP|]. split; [exact Ex|]. split; [congruence|].
  assert (PB : forall r, (r < n)%nat -> vat x r = Sum n (fun c => mel P r c * vat b c)).
  { intros r Hr. rewrite X2 by congruence. rewrite H1. rewrite (S_ext n (fun c => mel P r c * vat b c) (fun c => spec n (mel (e_vecs E)) (vat d) r c * vat b c)) by (intros; rewrite P3 by auto; reflexivity).
    rewrite spec_vec by exact Hr. apply S_ext. intros k Hk. cbn [tr mel]. rewrite U2 by congruence. rewrite T2 by congruence. rewrite H2. reflexivity. }
  split; [exact PB|]. intros m'' L'' C. assert (EQ : m'' = m).
  { destruct L as (La & i & Hi & Lb), L'' as (La' & j & Hj & Lb'). apply Rle_antisym; [rewrite <- Lb'; apply La; exact Hj|rewrite <- Lb; apply La'; exact Hi]. }
  subst m''. destruct (INV C) as (I1 & _). intros r Hr. cbn [fmul ROps]. rewrite (S_ext n _ (fun c => Sum n (fun k => (A r c * mel P c k) * vat b k))).
  2:{ intros c Hc. rewrite PB by exact Hc. rewrite <- S_mul_l. apply S_ext. intros; ring. }
  rewrite S_swap. rewrite (S_ext n _ (fun k => delta r k * vat b k)). 2:{ intros k Hk. rewrite S_mul_r. f_equal. apply (I1 r k Hr Hk). }
  apply delta_l. exact Hr.
Qed.
Theorem C48_backsub_mat : forall n A E (B : mat R), (0 < n)%nat -> eigensystem n A E -> mrows B = n ->
  exists P X, eig_pinv symeigen_condition_no E = Ok P /\ eig_backsub_mat E B = Ok X /\ mrows X = n /\ mcols X = mcols B /\
  forall r c, (r < n)%nat -> (c < mcols B)%nat -> mel X r c = Sum n (fun k => mel P r k * mel B k c).
Proof.
  intros n A E B Hn H HB. destruct (C48_pinv n A symeigen_condition_no E Hn H) as (P & m & EP & P1 & P2 & _). exists P.
  assert (EP' := EP). unfold eig_pinv in EP'. destruct (inv_diag_ok n A symeigen_condition_no E Hn H) as (m' & L' & d & Ed & D1 & D2). rewrite Ed in EP'. cbn [bind] in EP'.
  pose proof H as (H1 & H2 & _ & HV & _). destruct (spec_model n (e_vecs E) d H1 H2 D1) as (P' & Ep & _ & _ & P3). rewrite Ep in EP'. injection EP' as ->.
  unfold eig_backsub_mat. rewrite Ed. cbn [bind]. destruct (@mmul_ok R ROps (e_vecs E) B ltac:(congruence)) as (t & Et & T1 & T2 & T3). rewrite Et. cbn [bind].
  destruct (@vmdiag_ok R ROps d t ltac:(congruence)) as (u & Eu & U1 & U2 & U3). rewrite Eu. cbn [bind].
  destruct (@mmul_ok R ROps (tr (e_vecs E)) u ltac:(cbn [tr mcols]; congruence)) as (X & Ex & X1 & X2 & X3). cbn [tr mrows mcols mel] in *. exists X. split; [exact EP|]. split; [exact Ex|].
  split; [congruence|]. split; [congruence|]. intros r c Hr Hc. rewrite X3 by congruence. rewrite H1.
  rewrite (S_ext n (fun k => mel P r k * mel B k c) (fun k => spec n (mel (e_vecs E)) (vat d) r k * mel B k c)) by (intros; rewrite P3 by auto; reflexivity).
  rewrite (spec_vec n _ _ (fun k => mel B k c)) by exact Hr. apply S_ext. intros k Hk. cbn [tr mel]. rewrite U3 by congruence. rewrite T3 by congruence. rewrite H2. reflexivity.
Qed.
(** get_sqrtm(): for nonnegative eigenvalues a symmetric S with S^T S = A; NaN when an eigenvalue is negative *)
Theorem C48_sqrtm : forall n A E, (0 < n)%nat -> eigensystem n A E -> (forall i, (i < n)%nat -> 0 <= vat (e_vals E) i) ->
  exists S, eig_sqrtm E = Ok S /\ mrows S = n /\ mcols S = n /\ symm n (mel S) /\ same_mat n (times n (fun r c => mel S c r) (mel S)) A.
Proof.
  intros n A E Hn H Pos. pose proof H as (H1 & H2 & H3 & HV & _). unfold eig_sqrtm. rewrite H3.
  destruct (@vfor_ok R ROps n (fun i => x <- vget (e_vals E) i ;; match osqrt x with Some y => Ok y | None => NonFinite end) (fun i => sqrt (vat (e_vals E) i))) as (d & Ed & D1 & D2).
  { intros i Hi. rewrite vget_ok by lia. cbn [bind]. unfold osqrt. specialize (Pos i Hi). destruct (R_ltb _ 0) eqn:T; [apply R_ltb_spec in T; lra|reflexivity]. }
  rewrite Ed. cbn [bind]. destruct (spec_model n (e_vecs E) d H1 H2 D1) as (S & ES & S1 & S2 & S3). exists S. split; [exact ES|]. split; [exact S1|]. split; [exact S2|]. split.
  - intros r c Hr Hc. rewrite !S3 by auto. apply spec_sym.
  - intros r c Hr Hc. rewrite (eigensystem_spec n A E H r c Hr Hc). unfold times. rewrite (S_ext n _ (fun k => spec n (mel (e_vecs E)) (vat d) r k * spec n (mel (e_vecs E)) (vat d) k c)).
    2:{ intros k Hk. rewrite !S3 by auto. rewrite (spec_sym _ _ _ k r). reflexivity. }
    rewrite spec_mul by auto. apply spec_ext. intros k Hk. rewrite D2 by exact Hk. apply sqrt_sqrt. apply Pos. exact Hk.
Qed.
(** get_isqrtm(condition): for positive eigenvalues whose roots pass the condition test, a symmetric S with S^T S A = I *)
Theorem C48_isqrtm : forall n A cond E, (0 < n)%nat -> eigensystem n A E -> (forall i, (i < n)%nat -> 0 < vat (e_vals E) i) ->
  (forall i j, (i < n)%nat -> (j < n)%nat -> sqrt (vat (e_vals E) j) < sqrt (vat (e_vals E) i) * cond) ->
  exists S, eig_isqrtm cond E = Ok S /\ mrows S = n /\ mcols S = n /\ symm n (mel S) /\
    same_mat n (times n (times n (fun r c => mel S c r) (mel S)) A) delta /\ same_mat n (times n A (times n (fun r c => mel S c r) (mel S))) delta.
Proof.
  intros n A cond E Hn H Pos C. pose proof H as (H1 & H2 & H3 & HV & HA & _). unfold eig_isqrtm. rewrite H3. rewrite !vget_ok by lia. cbn [bind].
  set (e := vat (e_vals E)) in *. destruct (R_ltb (e (n - 1)%nat) (- e 0%nat)) eqn:T. { apply R_ltb_spec in T. pose proof (Pos 0%nat Hn). pose proof (Pos (n - 1)%nat ltac:(lia)). lra. }
  assert (O : forall i, (i < n)%nat -> osqrt (e i) = Some (sqrt (e i))). { intros i Hi. unfold osqrt. destruct (R_ltb (e i) 0) eqn:T'; [apply R_ltb_spec in T'; specialize (Pos i Hi); lra|reflexivity]. }
  rewrite (O (n - 1)%nat) by lia.
  assert (W : gives_vec (for_ 0 n (fun i d => x <- vget (e_vals E) i ;; match osqrt x, Some (sqrt (e (n - 1)%nat)) with
    | Some y, Some m => if R_ltb m (Rabs y * cond) then (z <- div (F:=R) 1 y ;; vset d i z) else vset d i 0 | _, _ => vset d i 0 end) (vnew n)) n (fun i => / sqrt (e i))).
  { apply wp_ok_inv. eapply wp_mono; [apply (wp_for (fun k v => vlen v = n /\ forall i, (i < k)%nat -> vat v i = / sqrt (e i)))|].
    - lia.
    - split; [reflexivity|lia].
    - intros i v Hi (V1 & V2). rewrite vget_ok by lia. cbn [bind]. fold e. rewrite O by lia. pose proof (sqrt_lt_R0 (e i) (Pos i ltac:(lia))) as SP. rewrite Rabs_pos_eq by lra.
      pose proof (C i (n - 1)%nat ltac:(lia) ltac:(lia)) as Ci. apply R_ltb_iff in Ci. rewrite Ci. rewrite R_div_ok by lra. cbn [bind]. rewrite vset_ok by lia. cbn [wp vlen vat]. split; [exact V1|].
      intros k Hk. destruct (Nat.eqb_spec k i) as [->|]; [unfold Rdiv; ring|apply V2; lia].
    - intros v V. exact V. }
  destruct W as (d & Ed & D1 & D2). rewrite Ed. cbn [bind]. destruct (spec_model n (e_vecs E) d H1 H2 D1) as (S & ES & S1 & S2 & S3). exists S. split; [exact ES|]. split; [exact S1|]. split; [exact S2|].
  assert (SS : forall r c, (r < n)%nat -> (c < n)%nat -> times n (fun r c => mel S c r) (mel S) r c = spec n (mel (e_vecs E)) (fun k => / e k) r c).
  { intros r c Hr Hc. unfold times. rewrite (S_ext n _ (fun k => spec n (mel (e_vecs E)) (vat d) r k * spec n (mel (e_vecs E)) (vat d) k c)).
    2:{ intros k Hk. rewrite !S3 by auto. rewrite (spec_sym _ _ _ k r). reflexivity. }
    rewrite spec_mul by auto. apply spec_ext. intros k Hk. rewrite D2 by exact Hk. pose proof (Pos k Hk). rewrite <- Rinv_mult. rewrite sqrt_sqrt by lra. reflexivity. }
  split; [intros r c Hr Hc; rewrite !S3 by auto; apply spec_sym|]. split; intros r c Hr Hc; unfold times at 1.
  - rewrite (S_ext n _ (fun k => spec n (mel (e_vecs E)) (fun k => / e k) r k * spec n (mel (e_vecs E)) e k c)).
    2:{ intros k Hk. rewrite SS by auto. rewrite (eigensystem_spec n A E H k c Hk Hc). reflexivity. }
    rewrite spec_mul by auto. rewrite <- (spec_one n (mel (e_vecs E)) r c HV Hr Hc). apply spec_ext. intros k Hk. specialize (Pos k Hk). field. lra.
  - rewrite (S_ext n _ (fun k => spec n (mel (e_vecs E)) e r k * spec n (mel (e_vecs E)) (fun k => / e k) k c)).
    2:{ intros k Hk. rewrite SS by auto. rewrite (eigensystem_spec n A E H r k Hr Hk). reflexivity. }
    rewrite spec_mul by auto. rewrite <- (spec_one n (mel (e_vecs E)) r c HV Hr Hc). apply spec_ext. intros k Hk. specialize (Pos k Hk). field. lra.
Qed.
(** ... and a negative eigenvalue makes get_sqrtm NaN, while get_isqrtm silently returns the zero matrix when it is also the largest in absolute value *)
Theorem C48_negative : forall n A cond E, (0 < n)%nat -> eigensystem n A E -> vat (e_vals E) 0%nat < 0 -> eig_sqrtm E = NonFinite /\
  (vat (e_vals E) (n - 1)%nat < - vat (e_vals E) 0%nat -> exists S, eig_isqrtm cond E = Ok S /\ mrows S = n /\ mcols S = n /\ forall r c, (r < n)%nat -> (c < n)%nat -> mel S r c = 0).
Proof.
  intros n A cond E Hn H Neg. pose proof H as (H1 & H2 & H3 & HV & HA & _). assert (O : osqrt (vat (e_vals E) 0%nat) = None). { unfold osqrt. apply R_ltb_iff in Neg. rewrite Neg. reflexivity. }
  split.
  - unfold eig_sqrtm, vfor. rewrite H3. rewrite for_step by lia. rewrite vget_ok by lia. cbn [bind]. rewrite O. reflexivity.
  - intros Lt. unfold eig_isqrtm. rewrite H3. rewrite !vget_ok by lia. cbn [bind]. apply R_ltb_iff in Lt. rewrite Lt, O. cbn [option_map].
    assert (W : gives_vec (for_ 0 n (fun i d => x <- vget (e_vals E) i ;; match osqrt x, @None R with
      | Some y, Some m => if R_ltb m (Rabs y * cond) then (z <- div (F:=R) 1 y ;; vset d i z) else vset d i 0 | _, _ => vset d i 0 end) (vnew n)) n (fun i => 0)).
    { apply wp_ok_inv. eapply wp_mono; [apply (wp_for (fun k v => vlen v = n /\ forall i, (i < k)%nat -> vat v i = 0))|].
      - lia.
      - split; [reflexivity|lia].
      - intros i v Hi (V1 & V2). rewrite vget_ok by lia. cbn [bind]. assert (Q : match osqrt (vat (e_vals E) i), @None R with Some y, Some m => if R_ltb m (Rabs y * cond) then (z <- div (F:=R) 1 y ;; vset v i z) else vset v i 0 | _, _ => vset v i 0 end = vset v i 0) by (destruct (osqrt (vat (e_vals E) i)); reflexivity). rewrite Q. rewrite vset_ok by lia; cbn [wp vlen vat]; (split; [exact V1|]); intros k Hk; (destruct (Nat.eqb_spec k i); [reflexivity|apply V2; lia]).
      - intros v V. exact V. }
    destruct W as (d & Ed & D1 & D2). rewrite Ed. cbn [bind]. destruct (spec_model n (e_vecs E) d H1 H2 D1) as (S & ES & S1 & S2 & S3). exists S. split; [exact ES|]. split; [exact S1|]. split; [exact S2|].
    intros r c Hr Hc. rewrite S3 by auto. apply S_zero. intros k Hk. rewrite D2 by exact Hk. ring.
Qed.
Print Assumptions C47_eig2.
Print Assumptions C47_eigenvectors.
Print Assumptions C48_determinant.
Print Assumptions C48_is_posdef.
Print Assumptions C48_is_negdef.
Print Assumptions C48_inv_diag.
Print Assumptions C48_pinv.
Print Assumptions C48_backsub.
Print Assumptions C48_backsub_mat.
Print Assumptions C48_sqrtm.
Print Assumptions C48_isqrtm.
Print Assumptions C48_negative.
(** diag(1,4) and diag(-4,1) meet the hypotheses *)
Definition ex_eig (a b : R) : eig := mkeig (mkmat 2 2 delta) (mkvec 2 (fun i => match i with 0%nat => a | _ => b end)).
Lemma ex_eigensystem a b : a <= b -> eigensystem 2 (fun r c => match r, c with 0%nat, 0%nat => a | 1%nat, 1%nat => b | _, _ => 0 end) (ex_eig a b).
Proof.
  intros H. split; [reflexivity|]. split; [reflexivity|]. split; [reflexivity|]. split; [|split].
  - intros i j Hi Hj. cbn [ex_eig e_vecs mel]. rewrite (S_ext 2 _ (fun k => delta i k * delta k j)) by (intros; rewrite (delta_sym j); reflexivity). apply (delta_l 2 i (fun k => delta k j) Hi).
  - intros [|[|i]] [|[|j]] Hij; try lia; cbn [ex_eig e_vals vat]; lra.
  - intros [|[|r]] [|[|c]] Hr Hc; try lia; cbn [ex_eig e_vals e_vecs vat mel sum fadd f0 ROps]; unfold delta; cbn [Nat.eqb f0 f1 ROps]; ring.
Qed.
Example C48_nonvacuous : (forall i, (i < 2)%nat -> 0 < vat (e_vals (ex_eig 1 4)) i) /\ largest 2 (vat (e_vals (ex_eig 1 4))) 4 /\
  (forall i, (i < 2)%nat -> 4 < Rabs (vat (e_vals (ex_eig 1 4)) i) * symeigen_condition_no) /\
  (forall i j, (i < 2)%nat -> (j < 2)%nat -> sqrt (vat (e_vals (ex_eig 1 4)) j) < sqrt (vat (e_vals (ex_eig 1 4)) i) * symeigen_condition_no) /\
  vat (e_vals (ex_eig (-4) 1)) 0%nat < 0 /\ vat (e_vals (ex_eig (-4) 1)) 1%nat < - vat (e_vals (ex_eig (-4) 1)) 0%nat.
Proof.
  assert (S4 : sqrt 4 = 2) by (replace 4 with (2 * 2) by ring; apply sqrt_square; lra).
  split; [|split; [|split; [|split; [|split]]]].
  - intros [|[|i]] Hi; try lia; cbn; lra.
  - split; [intros [|[|i]] Hi; try lia; cbn; rewrite Rabs_pos_eq; lra|]. exists 1%nat. split; [lia|]. cbn. rewrite Rabs_pos_eq; lra.
  - intros [|[|i]] Hi; try lia; cbn [ex_eig e_vals vat]; rewrite Rabs_pos_eq by lra; unfold symeigen_condition_no; lra.
  - intros [|[|i]] [|[|j]] Hi Hj; try lia; cbn [ex_eig e_vals vat]; rewrite ?S4, ?sqrt_1; unfold symeigen_condition_no; lra.
  - cbn. lra.
  - cbn. lra.
Qed.
