(** * C106: gauss_jordan in floating point. *)
From Coq Require Import Reals Lra Lia Arith Bool.
From Verif Require Import Base Alg Inst Mat SpecMat LemMat SpecLin LemLin ModelGauss LemGaussJordanFree RSum RRect ModelFl SpecFl LemFl LemFlChol LemFlChol3 LemFlDet SpecFlGaussJordan LemFlGaussJordan LemSO3 ExFl ExFlSO3.
From Flocq Require Import Core.
Local Open Scope R_scope.

(** Whatever the arithmetic does, the left block of a result is the identity, exactly. *)
Theorem C106_left_block_is_identity : forall (F : Type) (Fo : Ops F) n q (m m' : mat F), mrows m = n -> mcols m = (n + q)%nat -> gauss_jordan m = Ok m' ->
  mrows m' = n /\ mcols m' = (n + q)%nat /\ forall r c, (r < n)%nat -> (c < n)%nat -> mel m' r c = if (r =? c)%nat then f1 else f0.
Proof.
  intros F Fo n q m m' HR HC E. destruct (gj_identity n (n + q) ltac:(lia) m m' (conj HR HC) E) as [[R1 C1] D].
  split; [exact R1|]. split; [exact C1|]. intros r c Hr Hc. rewrite D by assumption. reflexivity.
Qed.

(** Whatever the arithmetic does, a column of the result depends only on the left block and on that column: it is bit for bit what reducing that column alone, or among any others, gives. *)
Theorem C106_columns_are_independent : forall (F : Type) (Fo : Ops F) n q1 q2 j1 j2 (m1 m2 : mat F), (j1 < q1)%nat -> (j2 < q2)%nat ->
  mrows m1 = n -> mcols m1 = (n + q1)%nat -> mrows m2 = n -> mcols m2 = (n + q2)%nat ->
  (forall r c, (r < n)%nat -> (c < n)%nat -> mel m1 r c = mel m2 r c) -> (forall r, (r < n)%nat -> mel m1 r (n + j1)%nat = mel m2 r (n + j2)%nat) ->
  (gauss_jordan m1 = NonFinite /\ gauss_jordan m2 = NonFinite) \/
  exists x1 x2, gauss_jordan m1 = Ok x1 /\ gauss_jordan m2 = Ok x2 /\ forall r, (r < n)%nat -> mel x1 r (n + j1)%nat = mel x2 r (n + j2)%nat.
Proof.
  intros F Fo n q1 q2 j1 j2 m1 m2 H1 H2 R1 C1 R2 C2 A B.
  destruct (gj_agree n (n + q1) (n + q2) j1 j2 ltac:(lia) ltac:(lia) m1 m2 (conj R1 C1) (conj R2 C2) (conj A B)) as [H|(x1 & x2 & E1 & E2 & _ & _ & _ & Q)]; [left; exact H|right].
  exists x1, x2. split; [exact E1|]. split; [exact E2|exact Q].
Qed.

(** Whatever the rounding, the reduction ends, and it fails exactly when, at some column, the computed elements on and below the diagonal are all 0. *)
Theorem C106_total : forall (rnd : R -> R) n q (m : mat R), mrows m = n -> mcols m = (n + q)%nat ->
  let stuck := exists k s, (k < n)%nat /\ for_ 0 k (@gj_column R (FlOps rnd)) m = Ok s /\ forall r, (k <= r < n)%nat -> mel s r k = 0 in
  ((exists X, @gauss_jordan R (FlOps rnd) m = Ok X) /\ ~ stuck) \/ (@gauss_jordan R (FlOps rnd) m = NonFinite /\ stuck).
Proof.
  intros rnd n q m HR HC stuck. assert (HnN : (n <= n + q)%nat) by lia. assert (Hm : shaped n (n + q) m) by (split; assumption).
  assert (FZ : forall x : R, @feqb R (FlOps rnd) x (@f0 R (FlOps rnd)) = true <-> x = 0).
  { intros x. cbn [feqb f0 FlOps]. unfold R_eqb. destruct (Req_EM_T x 0); split; congruence. }
  assert (Max : forall k (x : nat -> R), (k < n)%nat -> x (@piv R (FlOps rnd) n k x) = 0 -> forall r, (k <= r < n)%nat -> x r = 0).
  { intros k x Hk Z r Hr. pose proof (fl_piv_max rnd n (n + q) HnN k x Hk r Hr) as M. rewrite Z, Rabs_R0 in M. pose proof (Rabs_pos (x r)). destruct (Req_dec (x r) 0) as [|N]; [assumption|]. apply Rabs_pos_lt in N. lra. }
  assert (Sk : forall k (a : nat -> nat -> R), @gj_swapped R (FlOps rnd) n k a k k = a (@piv R (FlOps rnd) n k (fun r => a r k)) k) by (intros k a; unfold gj_swapped, swp; rewrite Nat.eqb_refl; reflexivity).
  assert (W : forall k, (k <= n)%nat -> (for_ 0 k (@gj_column R (FlOps rnd)) m = NonFinite /\ stuck) \/
     exists s, for_ 0 k (@gj_column R (FlOps rnd)) m = Ok s /\ shaped n (n + q) s /\ forall j, (j < k)%nat -> mel s j j = 0 -> stuck).
  { induction k as [|k IH]; intros Hk; [right; exists m; split; [reflexivity|]; split; [exact Hm|lia]|].
    rewrite for_S. destruct (IH ltac:(lia)) as [[-> P]|(s & Es & Ss & D)]; [left; split; [reflexivity|exact P]|]. rewrite Es. cbn [bind].
    destruct (@gj_column_free R (FlOps rnd) n (n + q) HnN s k Ss ltac:(lia)) as [(Z & _ & E)|(_ & m1 & E & S1 & V)]; rewrite E.
    - left. split; [reflexivity|]. apply FZ in Z. rewrite Sk in Z. exists k, s. split; [lia|]. split; [exact Es|]. apply (Max k (fun r => mel s r k)); [lia|exact Z].
    - right. exists m1. split; [reflexivity|]. split; [exact S1|]. intros j Hj Z. rewrite V in Z by lia. unfold gj_cleared in Z.
      destruct (Nat.eqb_spec j k) as [->|Hjk].
      + rewrite Sk in Z. exists k, s. split; [lia|]. split; [exact Es|]. apply (Max k (fun r => mel s r k)); [lia|exact Z].
      + destruct (Nat.ltb_spec j k); [|lia]. apply (D j); [lia|]. unfold gj_swapped in Z. pose proof (@piv_rng R (FlOps rnd) n k (fun r => mel s r k) ltac:(lia)) as Hp.
        unfold swp in Z. destruct (Nat.eqb_spec j k), (Nat.eqb_spec j (@piv R (FlOps rnd) n k (fun r => mel s r k))); try lia. exact Z. }
  assert (T : (exists X, @gauss_jordan R (FlOps rnd) m = Ok X) \/ (@gauss_jordan R (FlOps rnd) m = NonFinite /\ stuck)).
  { unfold gauss_jordan. rewrite HR. destruct (W n (le_n n)) as [[-> P]|(s & -> & Ss & D)]; cbn [bind]; [right; split; [reflexivity|exact P]|]. fold (@gj_last R (FlOps rnd) s).
    destruct (@gj_last_free R (FlOps rnd) n (n + q) HnN s Ss) as [[(r & Hr & Z) E]|[_ (X & E & _)]]; [right|left; exists X; exact E]. split; [exact E|]. apply FZ in Z. apply (D r Hr Z). }
  destruct T as [[X E]|T]; [left|right; exact T]. split; [exists X; exact E|]. intros (k & s & Hk & Es & Z).
  destruct (@gauss_jordan_split R (FlOps rnd) n (n + q) m Hm X E) as (sn & En & El). destruct (@gj_prefix R (FlOps rnd) n (n + q) HnN m sn Hm En) as (t & _ & Tn & TS & T).
  assert (t k = s) as Tk by (destruct (TS k ltac:(lia)) as [E1 _]; congruence). pose proof (T k Hk) as E2. rewrite Tk in E2.
  pose proof (@piv_rng R (FlOps rnd) n k (fun r => mel s r k) Hk) as Hp.
  assert (Zk : @gj_swapped R (FlOps rnd) n k (mel s) k k = 0) by (rewrite Sk; apply Z; exact Hp).
  assert (Ss : shaped n (n + q) s) by (rewrite <- Tk; apply TS; lia).
  destruct (@gj_column_free R (FlOps rnd) n (n + q) HnN s k Ss Hk) as [(_ & _ & E3)|([F|F] & m1 & E3 & S1 & V)]; rewrite E3 in E2; [discriminate| |].
  - apply FZ in Zk. congruence.
  - assert (k = 0)%nat as -> by lia. injection E2 as E2. destruct (@gj_last_free R (FlOps rnd) n (n + q) HnN sn) as [[_ E4]|[N _]]; [rewrite <- Tn; apply TS; lia|congruence|].
    assert (D0 : mel sn 0 0 = 0). { rewrite <- Tn, F, <- E2, V by lia. unfold gj_cleared. rewrite Nat.eqb_refl. exact Zk. }
    apply FZ in D0. rewrite N in D0 by lia. discriminate.
Qed.

Section P.
Variables (u : R) (rnd : R -> R).
Hypothesis RN : rounding u rnd.
Local Notation gj := (@gauss_jordan R (FlOps rnd)).

(** Every column of the computed reduction is the exact row operations, with the largest element as the pivot, on a matrix T that differs from the computed one S by the rounding errors of one column; the last pass divides by the diagonal. *)
Theorem C106_each_column_is_exact_nearby : forall n q (m X : mat R), mrows m = n -> mcols m = (n + q)%nat -> gj m = Ok X ->
  exists (S0 T : nat -> nat -> nat -> R) (p : nat -> nat),
    (forall r c, S0 0%nat r c = mel m r c) /\
    (forall k, (k < n)%nat -> eliminates n (n + q) k (p k) (T k) (S0 (S k)) /\
       (forall r, (k <= r < n)%nat -> Rabs (T k r k) <= Rabs (T k (p k) k)) /\
       forall r c, (r < n)%nat -> (c < n + q)%nat -> Rabs (T k r c - S0 k r c) <= u * Rabs (S0 k r c) + fwd u 3 * Rabs (S0 k r k / S0 k (p k) k * S0 k (p k) c)) /\
    (forall r c, (r < n)%nat -> (c < n)%nat -> (S0 n r c = 0 <-> r <> c)) /\
    forall r c, (r < n)%nat -> (n <= c < n + q)%nat -> Rabs (mel X r c - S0 n r c / S0 n r r) <= fwd u 2 * Rabs (S0 n r c / S0 n r r).
Proof.
  intros n q m X HR HC E. destruct (fl_gj_run u rnd RN n (n + q) ltac:(lia) m X (conj HR HC) E) as (t & T & p & (H0 & H1 & H2 & H3 & H4) & _).
  exists (fun k => mel (t k)), T, p. split; [exact H0|]. split; [|split; [|exact H4]].
  - intros k Hk. destruct (H1 k Hk) as (A & (B1 & B2) & C1 & _). split; [exact A|]. split; [|exact B2]. destruct A as [Hp _]. intros r Hr. rewrite !B1 by lia. apply C1. exact Hr.
  - intros r c Hr Hc. split; [intros Z ->; exact (H3 c Hc Z)|apply H2; assumption].
Qed.

(** The residual of a returned column x: if no number met in the reduction exceeds M and no multiplier exceeds G, then |b - A x| is at most this many rounding errors of M. *)
Theorem C106_residual : forall n q (m X : mat R) M G, mrows m = n -> mcols m = (n + q)%nat -> gj m = Ok X -> 0 <= G ->
  (forall k s r j, (k <= n)%nat -> for_ 0 k (@gj_column R (FlOps rnd)) m = Ok s -> (r < n)%nat -> (j < n + q)%nat -> Rabs (mel s r j) <= M) ->
  (forall k s s' r, (k < n)%nat -> for_ 0 k (@gj_column R (FlOps rnd)) m = Ok s -> for_ 0 (S k) (@gj_column R (FlOps rnd)) m = Ok s' -> (r < n)%nat -> Rabs (mel s r k) <= G * Rabs (mel s' k k)) ->
  forall r c, (r < n)%nat -> (n <= c < n + q)%nat ->
  Rabs (mel m r c - Sum n (fun j => mel m r j * mel X j c)) <= (1 + G) ^ n * ((fwd u 2 + INR n * (u + G * fwd u 3)) * M) * (1 + Sum n (fun j => Rabs (mel X j c))).
Proof.
  intros n q m X M G HR HC E HG HM HX r c Hr Hc. destruct (fl_gj_run u rnd RN n (n + q) ltac:(lia) m X (conj HR HC) E) as (t & T & p & Q & TS).
  apply (residual u rnd RN n (n + q) ltac:(lia) m X (fun k => mel (t k)) T p M G c Q Hc HG); [| |exact Hr].
  - intros k r' j Hk Hr' Hj. apply (HM k (t k)); [exact Hk|apply TS; exact Hk|exact Hr'|exact Hj].
  - intros k r' Hk Hr'. apply (HX k (t k) (t (S k))); [exact Hk|apply TS; lia|apply TS; lia|exact Hr'].
Qed.
End P.

(** Doubles: [2 1 | 1; 1 1 | 0] is reduced, without an error, to [1 0 | 1; 0 1 | -1]; the pivots are 2 and 1/2, the multipliers 1/2 and 2 and the elements at most 2, so the conditions of C106_residual hold for M = 2, G = 2. *)
Definition exJ : mat R := mkmat 2 3 (fun r c => match r, c with 0%nat, 0%nat => 2 | 0%nat, _ => 1 | _, 2%nat => 0 | _, _ => 1 end).
Definition exJ1 (r c : nat) : R := match r, c with 0%nat, 0%nat => 2 | 0%nat, _ => 1 | _, 0%nat => 0 | _, 1%nat => / 2 | _, _ => - / 2 end.
Definition exJ2 (r c : nat) : R := match r, c with 0%nat, 0%nat => 2 | 0%nat, 1%nat => 0 | 0%nat, _ => 2 | _, 0%nat => 0 | _, 1%nat => / 2 | _, _ => - / 2 end.
Lemma rs (m : Z) (e : Z) x : (Z.abs m < 2 ^ 53)%Z -> x = IZR m * bpow radix2 e -> rnd64 x = x.
Proof. intros H ->. apply rnd64_exact. exact H. Qed.
Lemma r64_half x m : x = IZR m / 2 -> (Z.abs m < 2 ^ 53)%Z -> rnd64 x = x.
Proof. intros -> H. apply (rs m (-1)); [exact H|cbn; lra]. Qed.
Lemma stepJ1 : exists s, @gj_column R (FlOps rnd64) 0 exJ = Ok s /\ shaped 2 3 s /\ forall r c, (r < 2)%nat -> (c < 3)%nat -> mel s r c = exJ1 r c.
Proof.
  assert (P : @piv R (FlOps rnd64) 2 0 (fun r => mel exJ r 0) = 0%nat).
  { unfold piv. cbn [Nat.sub pivs fst snd Nat.add]. unfold fabs. cbn [fltb f0 FlOps fopp mel exJ]. rewrite (R_ltb_f 2 0), (R_ltb_f 1 0) by lra. cbv iota. rewrite R_ltb_f by lra. reflexivity. }
  destruct (@gj_column_free R (FlOps rnd64) 2 3 ltac:(lia) exJ 0) as [(Z & _)|(_ & s & E & Ss & V)]; [split; reflexivity|lia| |].
  - exfalso. unfold gj_swapped in Z. rewrite P in Z. cbn [swp mel exJ feqb f0 FlOps] in Z. unfold R_eqb in Z. cbn in Z. destruct (Req_EM_T 2 0); [lra|discriminate].
  - exists s. split; [exact E|]. split; [exact Ss|]. intros r c Hr Hc. rewrite V by assumption. unfold gj_cleared, gj_swapped. rewrite P, !swp_id. cbn [feqb f0 f1 fmul fsub fdiv FlOps].
    assert (H12 : rnd64 (1 / 2) = 1 / 2) by (apply (r64_half _ 1); [lra|reflexivity]).
    destruct r as [|[|r]], c as [|[|[|c]]]; try lia; cbn [Nat.eqb Nat.ltb Nat.leb exJ1 mel exJ]; try reflexivity;
      rewrite ?H12; rewrite ?(r64_half (1 * (1 / 2)) 1) by (lra || reflexivity).
    + rewrite (r64_half _ 1) by (lra || reflexivity). lra.
    + rewrite (r64_half _ (-1)) by (lra || reflexivity). lra.
Qed.

Lemma stepJ2 (s : mat R) : shaped 2 3 s -> (forall r c, (r < 2)%nat -> (c < 3)%nat -> mel s r c = exJ1 r c) ->
  exists s', @gj_column R (FlOps rnd64) 1 s = Ok s' /\ shaped 2 3 s' /\ forall r c, (r < 2)%nat -> (c < 3)%nat -> mel s' r c = exJ2 r c.
Proof.
  intros Ss V1. assert (P : @piv R (FlOps rnd64) 2 1 (fun r => mel s r 1) = 1%nat) by reflexivity.
  destruct (@gj_column_free R (FlOps rnd64) 2 3 ltac:(lia) s 1 Ss) as [(Z & _)|(_ & s' & E & Ss' & V)]; [lia| |].
  - exfalso. unfold gj_swapped in Z. rewrite P, swp_id, V1 in Z by lia. cbn [feqb f0 FlOps exJ1] in Z. unfold R_eqb in Z. destruct (Req_EM_T (/ 2) 0); [lra|discriminate].
  - exists s'. split; [exact E|]. split; [exact Ss'|]. intros r c Hr Hc. rewrite V by assumption. unfold gj_cleared, gj_swapped. rewrite P, !swp_id. rewrite !V1 by lia. cbn [feqb f0 f1 fmul fsub fdiv FlOps].
    assert (H2 : rnd64 (1 / / 2) = 2) by (replace (1 / / 2) with 2 by field; apply (r64_half _ 4); [lra|reflexivity]).
    destruct r as [|[|r]], c as [|[|[|c]]]; try lia; cbn [Nat.eqb Nat.ltb Nat.leb exJ1 exJ2]; try reflexivity.
    rewrite H2. rewrite (r64_half (- / 2 * 2) (-2)) by (lra || reflexivity). rewrite (r64_half _ 4) by (lra || reflexivity). lra.
Qed.
Example C106_double : exists X, @gauss_jordan R (FlOps rnd64) exJ = Ok X /\ mel X 0 2 = 1 /\ mel X 1 2 = -1 /\
  (forall k s r j, (k <= 2)%nat -> for_ 0 k (@gj_column R (FlOps rnd64)) exJ = Ok s -> (r < 2)%nat -> (j < 2 + 1)%nat -> Rabs (mel s r j) <= 2) /\
  (forall k s s' r, (k < 2)%nat -> for_ 0 k (@gj_column R (FlOps rnd64)) exJ = Ok s -> for_ 0 (S k) (@gj_column R (FlOps rnd64)) exJ = Ok s' -> (r < 2)%nat -> Rabs (mel s r k) <= 2 * Rabs (mel s' k k)).
Proof.
  destruct stepJ1 as (s1 & E1 & S1 & V1). destruct (stepJ2 s1 S1 V1) as (s2 & E2 & S2 & V2).
  assert (F1 : for_ 0 1 (@gj_column R (FlOps rnd64)) exJ = Ok s1) by (rewrite for_S, for_empty by lia; exact E1).
  assert (F2 : for_ 0 2 (@gj_column R (FlOps rnd64)) exJ = Ok s2) by (rewrite for_S, F1; exact E2).
  destruct (@gj_last_free R (FlOps rnd64) 2 3 ltac:(lia) s2 S2) as [[(r & Hr & Z) _]|[_ (X & EX & _ & VX)]].
  - exfalso. rewrite V2 in Z by lia. cbn [feqb f0 FlOps] in Z. unfold R_eqb in Z. destruct r as [|[|r]]; [| |lia]; cbn [exJ2] in Z; destruct (Req_EM_T _ 0); (lra || discriminate).
  - exists X. split; [unfold gauss_jordan; change (mrows exJ) with 2%nat; rewrite F2; exact EX|].
    split; [|split; [|split]].
    + rewrite VX by lia. unfold gj_final. cbn [Nat.eqb Nat.ltb Nat.leb]. rewrite !V2 by lia. cbn [exJ2 fmul fdiv f1 FlOps].
      rewrite (r64_half (1 / 2) 1) by (lra || reflexivity). rewrite (r64_half _ 2) by (lra || reflexivity). lra.
    + rewrite VX by lia. unfold gj_final. cbn [Nat.eqb Nat.ltb Nat.leb]. rewrite !V2 by lia. cbn [exJ2 fmul fdiv f1 FlOps].
      assert (H2 : rnd64 (1 / / 2) = 2) by (replace (1 / / 2) with 2 by field; apply (r64_half _ 4); [lra|reflexivity]). rewrite H2.
      rewrite (r64_half _ (-2)) by (lra || reflexivity). lra.
    + intros k s r j Hk E Hr Hj. assert (B : mel s r j = (match k with 0%nat => mel exJ | 1%nat => exJ1 | _ => exJ2 end) r j).
      { destruct k as [|[|[|k]]]; [| | |lia]; [rewrite for_empty in E by lia; injection E as <-; reflexivity|rewrite F1 in E; injection E as <-; apply V1; lia|rewrite F2 in E; injection E as <-; apply V2; lia]. }
      rewrite B. destruct k as [|[|[|k]]], r as [|[|r]], j as [|[|[|j]]]; try lia; cbn; apply Rabs_le; lra.
    + intros k s s' r Hk E E' Hr. destruct k as [|[|k]]; [| |lia].
      * rewrite for_empty in E by lia. injection E as <-. rewrite F1 in E'. injection E' as <-. rewrite V1 by lia. destruct r as [|[|r]]; [| |lia]; cbn; rewrite !Rabs_right by lra; lra.
      * rewrite F1 in E. injection E as <-. rewrite F2 in E'. injection E' as <-. rewrite V1, V2 by lia. destruct r as [|[|r]]; [| |lia]; cbn; rewrite !Rabs_right by lra; lra.
Qed.
Print Assumptions C106_left_block_is_identity. Print Assumptions C106_columns_are_independent. Print Assumptions C106_total. Print Assumptions C106_each_column_is_exact_nearby. Print Assumptions C106_residual. Print Assumptions C106_double.
