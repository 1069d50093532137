(** * Lemmas: what the WLS calls store, for any scalar operations (no algebraic law is used, so the scalars can be floats). *)
From Coq Require Import Arith Bool List Lia.
From Verif Require Import Base Alg Mat SpecMat LemMat ModelOps LemOps ModelObjects LemObjects LemHelpers ModelChol ModelWLS SpecWLS LemWLS.
Import ListNotations.

Section L.
Context {F : Type} {Fo : Ops F}.
Open Scope F_scope.

Definition inb (i0 l r : nat) : bool := ((i0 <=? r) && (r <? i0 + l))%nat%bool.
Lemma mslice_add_raw (C b : mat F) r0 c0 : (r0 + mrows b <= mrows C)%nat -> (c0 + mcols b <= mcols C)%nat ->
  gives_mat (mslice_add C r0 c0 b) (mrows C) (mcols C) (fun r c => if (inb r0 (mrows b) r && inb c0 (mcols b) c)%bool then mel C r c + mel b (r - r0) (c - c0) else mel C r c).
Proof.
  intros HR HC. unfold mslice_add, gives_mat. apply wp_ok_inv.
  eapply wp_mono; [apply (wp_for (fun k (C' : mat F) => mrows C' = mrows C /\ mcols C' = mcols C /\ forall r c, mel C' r c = if (inb r0 k r && inb c0 (mcols b) c)%bool then mel C r c + mel b (r - r0) (c - c0) else mel C r c))|].
  - lia.
  - split; [reflexivity|]. split; [reflexivity|]. intros r c. unfold inb. destruct (Nat.leb_spec r0 r), (Nat.ltb_spec r (r0 + 0)); try lia; reflexivity.
  - intros k C' Hk (R' & K' & V').
    destruct (row_add_loop (mel b k) (fun c => mget b k c) (r0 + k)%nat 0 (mcols b) c0 C') as (C2 & E & R2 & K2 & V2); [lia|lia|lia|intros; apply mget_ok; lia|].
    rewrite E. cbn [wp]. split; [congruence|]. split; [congruence|]. intros r c. rewrite V2, V'. unfold inb.
    destruct (Nat.eqb_spec r (r0 + k)) as [->|].
    + destruct (Nat.leb_spec r0 (r0 + k)), (Nat.ltb_spec (r0 + k) (r0 + k)), (Nat.ltb_spec (r0 + k) (r0 + S k)); try lia. cbn [andb]. replace (r0 + k - r0)%nat with k by lia. rewrite Nat.add_0_r. reflexivity.
    + cbn [andb]. destruct (Nat.leb_spec r0 r), (Nat.ltb_spec r (r0 + k)), (Nat.ltb_spec r (r0 + S k)); try lia; reflexivity.
  - intros C' (R' & K' & V'). unfold mat_is. split; [exact R'|]. split; [exact K'|]. intros; apply V'.
Qed.
Lemma vslice_add_raw (v b : vec F) i0 : (i0 + vlen b <= vlen v)%nat -> gives_vec (vslice_add v i0 b) (vlen v) (fun r => if inb i0 (vlen b) r then vat v r + vat b (r - i0) else vat v r).
Proof.
  intros H. unfold vslice_add, gives_vec. apply wp_ok_inv.
  eapply wp_mono; [apply (wp_for (fun k (v' : vec F) => vlen v' = vlen v /\ forall r, vat v' r = if inb i0 k r then vat v r + vat b (r - i0) else vat v r))|].
  - lia.
  - split; [reflexivity|]. intros r. unfold inb. destruct (Nat.leb_spec i0 r), (Nat.ltb_spec r (i0 + 0)); try lia; reflexivity.
  - intros k v' Hk (L' & V'). rewrite vget_ok by lia. cbn [bind]. rewrite vadd_at_ok by lia. cbn [wp vlen vat]. split; [exact L'|]. intros r. rewrite !V'. unfold inb.
    destruct (Nat.eqb_spec r (i0 + k)) as [->|].
    + destruct (Nat.leb_spec i0 (i0 + k)), (Nat.ltb_spec (i0 + k) (i0 + k)), (Nat.ltb_spec (i0 + k) (i0 + S k)); try lia. cbn [andb]. replace (i0 + k - i0)%nat with k by lia. reflexivity.
    + destruct (Nat.leb_spec i0 r), (Nat.ltb_spec r (i0 + k)), (Nat.ltb_spec r (i0 + S k)); try lia; reflexivity.
  - intros v' (L' & V'). unfold vec_is. split; [exact L'|]. intros; apply V'.
Qed.
Lemma diag_add_raw n (x : nat -> F) (g : nat -> outcome F) (C : mat F) : mrows C = n -> mcols C = n -> (forall i, (i < n)%nat -> g i = Ok (x i)) ->
  exists C', for_ 0 n (fun i C => y <- g i ;; madd_at C i i y)%outcome C = Ok C' /\ mrows C' = n /\ mcols C' = n /\
    forall r c, (r < n)%nat -> mel C' r c = if (r =? c)%nat then mel C r c + x r else mel C r c.
Proof.
  intros HR HC Hg. apply wp_ok_inv.
  eapply wp_mono; [apply (wp_for (fun k (C' : mat F) => mrows C' = n /\ mcols C' = n /\ forall r c, mel C' r c = if ((r =? c) && (r <? k))%nat%bool then mel C r c + x r else mel C r c))|].
  - lia.
  - split; [exact HR|]. split; [exact HC|]. intros r c. destruct (Nat.ltb_spec r 0); [lia|]. rewrite andb_false_r. reflexivity.
  - intros k C' Hk (R' & K' & V'). rewrite Hg by lia. cbn [bind]. rewrite madd_at_ok by lia. cbn [wp mrows mcols mel]. split; [exact R'|]. split; [exact K'|].
    intros r c. rewrite !V'. destruct (Nat.eqb_spec r k), (Nat.eqb_spec c k), (Nat.eqb_spec r c), (Nat.ltb_spec r k), (Nat.ltb_spec r (S k)); subst; try lia; rewrite ?Nat.eqb_refl, ?Nat.ltb_irrefl; cbn [andb]; reflexivity.
  - intros C' (R' & K' & V'). split; [exact R'|]. split; [exact K'|]. intros r c Hr. rewrite V'. destruct (Nat.ltb_spec r n); [|lia]. rewrite andb_true_r. reflexivity.
Qed.
Lemma meas_raw n l i0 m wt (J : vec F) (C : mat F) (v : vec F) : mrows C = n -> mcols C = n -> vlen v = n -> (l <= vlen J)%nat -> (i0 + l <= n)%nat ->
  exists C' v', for_ 0 l (fun r '(C, v) =>
      x <- vget J r ;; let Jw := wt * x in
      v <- vadd_at v (i0 + r) (m * Jw) ;;
      C <- for_ r l (fun c C => y <- (y <- vget J c ;; Ok (Jw * y)) ;; madd_at C (i0 + r) (i0 + c) y) C ;;
      Ok (C, v))%outcome (C, v) = Ok (C', v') /\ mrows C' = n /\ mcols C' = n /\ vlen v' = n /\
   (forall r c, (r <= c < n)%nat -> mel C' r c = if (inb i0 l r && inb i0 l c)%bool then mel C r c + wt * vat J (r - i0) * vat J (c - i0) else mel C r c) /\
   (forall r, (r < n)%nat -> vat v' r = if inb i0 l r then vat v r + m * (wt * vat J (r - i0)) else vat v r).
Proof.
  intros HR HC HV HJ Hi.
  assert (W : wp (for_ 0 l (fun r '(C, v) =>
      x <- vget J r ;; let Jw := wt * x in
      v <- vadd_at v (i0 + r) (m * Jw) ;;
      C <- for_ r l (fun c C => y <- (y <- vget J c ;; Ok (Jw * y)) ;; madd_at C (i0 + r) (i0 + c) y) C ;;
      Ok (C, v))%outcome (C, v)) (fun s => mrows (fst s) = n /\ mcols (fst s) = n /\ vlen (snd s) = n /\
       (forall r c, (r <= c < n)%nat -> mel (fst s) r c = if (inb i0 l r && inb i0 l c)%bool then mel C r c + wt * vat J (r - i0) * vat J (c - i0) else mel C r c) /\
       (forall r, (r < n)%nat -> vat (snd s) r = if inb i0 l r then vat v r + m * (wt * vat J (r - i0)) else vat v r))).
  { eapply wp_mono; [apply (wp_for (fun k (s : mat F * vec F) => mrows (fst s) = n /\ mcols (fst s) = n /\ vlen (snd s) = n /\
       (forall r c, (r <= c < n)%nat -> mel (fst s) r c = if (inb i0 k r && inb i0 l c)%bool then mel C r c + wt * vat J (r - i0) * vat J (c - i0) else mel C r c) /\
       (forall r, (r < n)%nat -> vat (snd s) r = if inb i0 k r then vat v r + m * (wt * vat J (r - i0)) else vat v r)))|].
    - lia.
    - cbn [fst snd]. assert (Z : forall r, inb i0 0 r = false) by (intros r; unfold inb; destruct (Nat.leb_spec i0 r), (Nat.ltb_spec r (i0 + 0)); try lia; reflexivity).
      split; [exact HR|]. split; [exact HC|]. split; [exact HV|]. split; intros; rewrite Z; reflexivity.
    - intros k [C1 v1] Hk (R1 & K1 & L1 & V1 & U1). cbn [fst snd] in *. rewrite vget_ok by lia. cbn [bind]. rewrite vadd_at_ok by lia. cbn [bind].
      destruct (row_add_loop (fun c => wt * vat J k * vat J c) (fun c => y <- vget J c ;; Ok (wt * vat J k * y))%outcome (i0 + k)%nat k l i0 C1) as (C2 & E & R2 & K2 & V2); [lia|lia|lia|intros c Hc; rewrite vget_ok by lia; reflexivity|].
      rewrite E. cbn [bind wp fst snd vlen vat]. split; [congruence|]. split; [congruence|]. split; [exact L1|]. split.
      + intros r c Hr. rewrite V2. rewrite V1 by exact Hr. unfold inb.
        destruct (Nat.eqb_spec r (i0 + k)) as [->|].
        * destruct (Nat.leb_spec i0 (i0 + k)), (Nat.ltb_spec (i0 + k) (i0 + k)), (Nat.ltb_spec (i0 + k) (i0 + S k)); try lia. replace (i0 + k - i0)%nat with k by lia. cbn [andb].
          destruct (Nat.leb_spec (i0 + k) c), (Nat.leb_spec i0 c), (Nat.ltb_spec c (i0 + l)); try lia; cbn [andb]; reflexivity.
        * cbn [andb]. destruct (Nat.leb_spec i0 r), (Nat.ltb_spec r (i0 + k)), (Nat.ltb_spec r (i0 + S k)); try lia; cbn [andb]; reflexivity.
      + intros r Hr. destruct (Nat.eqb_spec r (i0 + k)) as [->|].
        * rewrite U1 by lia. unfold inb. destruct (Nat.leb_spec i0 (i0 + k)), (Nat.ltb_spec (i0 + k) (i0 + k)), (Nat.ltb_spec (i0 + k) (i0 + S k)); try lia. replace (i0 + k - i0)%nat with k by lia. cbn [andb]. reflexivity.
        * rewrite U1 by lia. unfold inb. destruct (Nat.leb_spec i0 r), (Nat.ltb_spec r (i0 + k)), (Nat.ltb_spec r (i0 + S k)); try lia; cbn [andb]; reflexivity.
    - intros s Hs. exact Hs. }
  apply wp_ok_inv in W. destruct W as ((C' & v') & E & W). exists C', v'. split; [exact E|exact W].
Qed.
Lemma inb_all n r : (r < n)%nat -> inb 0 n r = true.
Proof. intros H. unfold inb. cbn [Nat.leb andb Nat.add]. apply Nat.ltb_lt. exact H. Qed.

(** the accumulators have the right sizes, and their elements satisfy P and Q *)
Definition accp (n : nat) (w : wls F) (P : nat -> nat -> F -> Prop) (Q : nat -> F -> Prop) : Prop :=
  mrows (w_C w) = n /\ mcols (w_C w) = n /\ vlen (w_v w) = n /\ mrows (ch_m (w_dec w)) = n /\
  (forall r c, (r <= c < n)%nat -> P r c (mel (w_C w) r c)) /\ (forall r, (r < n)%nat -> Q r (vat (w_v w) r)).
(** a call that turns elements satisfying P, Q into elements satisfying P', Q' *)
Definition moves (n : nat) (f : wls F -> outcome (wls F)) (P : nat -> nat -> F -> Prop) (Q : nat -> F -> Prop) (P' : nat -> nat -> F -> Prop) (Q' : nat -> F -> Prop) : Prop :=
  forall w, accp n w P Q -> exists w', f w = Ok w' /\ accp n w' P' Q'.

Lemma prior_moves n v P Q : moves n (wls_prior v) P Q (fun r c y => exists x, P r c x /\ y = if (r =? c)%nat then x + v else x) Q.
Proof.
  intros w (A1 & A2 & A3 & A4 & A5 & A6). unfold wls_prior. rewrite A1.
  destruct (diag_add_raw n (fun _ => v) (fun _ => Ok v) (w_C w) A1 A2 (fun _ _ => eq_refl)) as (C' & E & R' & K' & V').
  cbn [bind] in E. rewrite E. cbn [bind]. eexists. split; [reflexivity|].
  unfold accp. cbn [w_C w_v w_dec]. refine (conj R' (conj K' (conj A3 (conj A4 (conj _ A6))))). intros r c Hr. exists (mel (w_C w) r c). split; [apply A5; exact Hr|]. rewrite V' by lia. reflexivity.
Qed.
Lemma prior_vec_moves n v P Q : vlen v = n -> moves n (wls_prior_vec v) P Q (fun r c y => exists x, P r c x /\ y = if (r =? c)%nat then x + vat v r else x) Q.
Proof.
  intros Hv w (A1 & A2 & A3 & A4 & A5 & A6). unfold wls_prior_vec. rewrite A1, same_size_eq by lia. cbn [bind].
  destruct (diag_add_raw n (vat v) (vget v) (w_C w) A1 A2) as (C' & E & R' & K' & V'); [intros; apply vget_ok; lia|].
  rewrite E. cbn [bind]. eexists. split; [reflexivity|].
  unfold accp. cbn [w_C w_v w_dec]. refine (conj R' (conj K' (conj A3 (conj A4 (conj _ A6))))). intros r c Hr. exists (mel (w_C w) r c). split; [apply A5; exact Hr|]. rewrite V' by lia. reflexivity.
Qed.
Lemma prior_mat_moves n m P Q : mrows m = n -> mcols m = n -> moves n (wls_prior_mat m) P Q (fun r c y => exists x, P r c x /\ y = x + mel m r c) Q.
Proof.
  intros HR HC w (A1 & A2 & A3 & A4 & A5 & A6). unfold wls_prior_mat. destruct (madd_assign_ok (w_C w) m) as (C' & -> & R' & K' & V'); [lia|lia|]. cbn [bind].
  eexists. split; [reflexivity|]. unfold accp. cbn [w_C w_v w_dec]. refine (conj _ (conj _ (conj A3 (conj A4 (conj _ A6))))); [lia|lia|]. intros r c Hr. exists (mel (w_C w) r c). split; [apply A5; exact Hr|]. rewrite V' by lia. reflexivity.
Qed.
Lemma add_moves n m J wt P Q : vlen J = n -> moves n (wls_add m J wt) P Q (fun r c y => exists x, P r c x /\ y = x + wt * vat J r * vat J c) (fun r y => exists x, Q r x /\ y = x + m * (wt * vat J r)).
Proof.
  intros HJ w (A1 & A2 & A3 & A4 & A5 & A6). unfold wls_add. rewrite A1.
  destruct (meas_raw n n 0 m wt J (w_C w) (w_v w) A1 A2 A3 ltac:(lia) ltac:(lia)) as (C' & v' & E & R' & K' & L' & V' & U').
  match goal with |- exists _, bind ?e _ = _ /\ _ => replace e with (@Ok (mat F * vec F) (C', v')) end.
  2:{ rewrite <- E. apply for_ext. intros i [C1 v1] Hi. destruct (vget J i); try reflexivity. cbn [bind Nat.add]. destruct (vadd_at v1 i (m * (wt * a))); try reflexivity. cbn [bind].
      f_equal. apply for_ext. intros c C2 Hc. destruct (vget J c); reflexivity. }
  cbn [bind]. eexists. split; [reflexivity|]. unfold accp. cbn [w_C w_v w_dec]. refine (conj R' (conj K' (conj L' (conj A4 (conj _ _))))).
  - intros r c Hr. exists (mel (w_C w) r c). split; [apply A5; exact Hr|]. rewrite V' by exact Hr. rewrite !inb_all by lia. cbn [andb]. rewrite !Nat.sub_0_r. reflexivity.
  - intros r Hr. exists (vat (w_v w) r). split; [apply A6; exact Hr|]. rewrite U' by exact Hr. rewrite inb_all by lia. rewrite !Nat.sub_0_r. reflexivity.
Qed.
Lemma sparse_moves n m J i wt P Q : (i + vlen J <= n)%nat -> moves n (wls_add_sparse m J i wt) P Q
  (fun r c y => exists x, P r c x /\ y = if (inb i (vlen J) r && inb i (vlen J) c)%bool then x + wt * vat J (r - i) * vat J (c - i) else x)
  (fun r y => exists x, Q r x /\ y = if inb i (vlen J) r then x + m * (wt * vat J (r - i)) else x).
Proof.
  intros HJ w (A1 & A2 & A3 & A4 & A5 & A6). unfold wls_add_sparse.
  destruct (meas_raw n (vlen J) i m wt J (w_C w) (w_v w) A1 A2 A3 ltac:(lia) ltac:(lia)) as (C' & v' & E & R' & K' & L' & V' & U').
  match goal with |- exists _, bind ?e _ = _ /\ _ => replace e with (@Ok (mat F * vec F) (C', v')) end.
  2:{ rewrite <- E. apply for_ext. intros k [C1 v1] Hk. destruct (vget J k); try reflexivity. cbn [bind]. rewrite (Nat.add_comm k i). destruct (vadd_at v1 (i + k) (m * (wt * a))); try reflexivity. cbn [bind].
      f_equal. apply for_ext. intros c C2 Hc. rewrite (Nat.add_comm c i). destruct (vget J c); reflexivity. }
  cbn [bind]. eexists. split; [reflexivity|]. unfold accp. cbn [w_C w_v w_dec]. refine (conj R' (conj K' (conj L' (conj A4 (conj _ _))))).
  - intros r c Hr. exists (mel (w_C w) r c). split; [apply A5; exact Hr|]. apply V'. exact Hr.
  - intros r Hr. exists (vat (w_v w) r). split; [apply A6; exact Hr|]. apply U'. exact Hr.
Qed.
(** the products J^T W and (J^T W) J, with every sum started from zero, added up in order *)
Definition tmp (N : nat) (J W : nat -> nat -> F) (r l : nat) : F := sum N (fun k => J k r * W k l).
Definition prd (N : nat) (J W K : nat -> nat -> F) (r c : nat) : F := sum N (fun l => tmp N J W r l * K l c).
Definition prv (N : nat) (J W : nat -> nat -> F) (m : nat -> F) (r : nat) : F := sum N (fun l => tmp N J W r l * m l).

Lemma cov_moves n m J W P Q : mrows J = n -> vlen m = mcols J -> mrows W = mcols J -> mcols W = mcols J -> moves n (wls_add_cov m J W) P Q
  (fun r c y => exists x, P r c x /\ y = x + prd (mcols J) (fun k r => mel J r k) (mel W) (fun k r => mel J r k) r c)
  (fun r y => exists x, Q r x /\ y = x + prv (mcols J) (fun k r => mel J r k) (mel W) (vat m) r).
Proof.
  intros HJ Hm HW HW2 w (A1 & A2 & A3 & A4 & A5 & A6). unfold wls_add_cov.
  destruct (mmul_ok J W) as (t & -> & T1 & T2 & T3); [lia|]. cbn [bind]. destruct (mmul_ok t (tr J)) as (p & -> & P1 & P2 & P3); [cbn [tr mrows]; lia|]. cbn [bind tr mrows mcols mel] in *.
  destruct (madd_assign_ok (w_C w) p) as (C' & -> & C1 & C2 & C3); [lia|lia|]. cbn [bind]. destruct (mv_ok t m) as (q & -> & Q1 & Q2); [lia|]. cbn [bind].
  destruct (vadd_assign_ok (w_v w) q) as (v' & -> & V1 & V2); [lia|]. cbn [bind]. eexists. split; [reflexivity|]. unfold accp. cbn [w_C w_v w_dec]. refine (conj _ (conj _ (conj _ (conj A4 (conj _ _))))); try lia.
  - intros r c Hr. exists (mel (w_C w) r c). split; [apply A5; exact Hr|]. rewrite C3 by lia. f_equal. rewrite P3 by lia. rewrite T2, HW2. apply sum_ext. intros l Hl. rewrite T3 by lia. reflexivity.
  - intros r Hr. exists (vat (w_v w) r). split; [apply A6; exact Hr|]. rewrite V2 by lia. f_equal. rewrite Q2 by lia. rewrite T2, HW2. apply sum_ext. intros l Hl. rewrite T3 by lia. reflexivity.
Qed.
Lemma rows_moves n m J W P Q : mcols J = n -> vlen m = mrows J -> mrows W = mrows J -> mcols W = mrows J -> moves n (wls_add_rows m J W) P Q
  (fun r c y => exists x, P r c x /\ y = x + prd (mrows J) (mel J) (mel W) (mel J) r c) (fun r y => exists x, Q r x /\ y = x + prv (mrows J) (mel J) (mel W) (vat m) r).
Proof.
  intros HJ Hm HW HW2 w (A1 & A2 & A3 & A4 & A5 & A6). unfold wls_add_rows.
  destruct (mmul_ok (tr J) W) as (t & -> & T1 & T2 & T3); [cbn [tr mcols]; lia|]. cbn [bind tr mrows mcols mel] in *. destruct (mmul_ok t J) as (p & -> & P1 & P2 & P3); [lia|]. cbn [bind].
  destruct (madd_assign_ok (w_C w) p) as (C' & -> & C1 & C2 & C3); [lia|lia|]. cbn [bind]. destruct (mv_ok t m) as (q & -> & Q1 & Q2); [lia|]. cbn [bind].
  destruct (vadd_assign_ok (w_v w) q) as (v' & -> & V1 & V2); [lia|]. cbn [bind]. eexists. split; [reflexivity|]. unfold accp. cbn [w_C w_v w_dec]. refine (conj _ (conj _ (conj _ (conj A4 (conj _ _))))); try lia.
  - intros r c Hr. exists (mel (w_C w) r c). split; [apply A5; exact Hr|]. rewrite C3 by lia. f_equal. rewrite P3 by lia. rewrite T2, HW2. apply sum_ext. intros l Hl. rewrite T3 by lia. reflexivity.
  - intros r Hr. exists (vat (w_v w) r). split; [apply A6; exact Hr|]. rewrite V2 by lia. f_equal. rewrite Q2 by lia. rewrite T2, HW2. apply sum_ext. intros l Hl. rewrite T3 by lia. reflexivity.
Qed.
Lemma inb_in i l r : inb i l r = true -> (i <= r < i + l)%nat.
Proof. unfold inb. intros H. apply andb_true_iff in H. destruct H as [H1 H2]. apply Nat.leb_le in H1. apply Nat.ltb_lt in H2. lia. Qed.
Lemma sparse_rows_moves n m J i W P Q : (i + mcols J <= n)%nat -> vlen m = mrows J -> mrows W = mrows J -> mcols W = mrows J -> moves n (wls_add_sparse_rows m J i W) P Q
  (fun r c y => exists x, P r c x /\ y = if (inb i (mcols J) r && inb i (mcols J) c)%bool then x + prd (mrows J) (mel J) (mel W) (mel J) (r - i) (c - i) else x)
  (fun r y => exists x, Q r x /\ y = if inb i (mcols J) r then x + prv (mrows J) (mel J) (mel W) (vat m) (r - i) else x).
Proof.
  intros HJ Hm HW HW2 w (A1 & A2 & A3 & A4 & A5 & A6). unfold wls_add_sparse_rows.
  destruct (mmul_ok (tr J) W) as (t & -> & T1 & T2 & T3); [cbn [tr mcols]; lia|]. cbn [bind tr mrows mcols mel] in *. destruct (mmul_ok t J) as (p & -> & P1 & P2 & P3); [lia|]. cbn [bind].
  destruct (mslice_add_raw (w_C w) p i i) as (C' & -> & C1 & C2 & C3); [lia|lia|]. cbn [bind]. destruct (mv_ok t m) as (q & -> & Q1 & Q2); [lia|]. cbn [bind].
  destruct (vslice_add_raw (w_v w) q i) as (v' & -> & V1 & V2); [lia|]. cbn [bind]. eexists. split; [reflexivity|]. unfold accp. cbn [w_C w_v w_dec]. refine (conj _ (conj _ (conj _ (conj A4 (conj _ _))))); try lia.
  - intros r c Hr. exists (mel (w_C w) r c). split; [apply A5; exact Hr|]. rewrite C3 by lia. rewrite P1, T1, P2. destruct (inb i (mcols J) r) eqn:I1; [|reflexivity]. destruct (inb i (mcols J) c) eqn:I2; [|reflexivity]. apply inb_in in I1, I2.
    cbn [andb]. f_equal. rewrite P3 by lia. rewrite T2, HW2. apply sum_ext. intros l Hl. rewrite T3 by lia. reflexivity.
  - intros r Hr. exists (vat (w_v w) r). split; [apply A6; exact Hr|]. rewrite V2 by lia. rewrite Q1, T1. destruct (inb i (mcols J) r) eqn:I1; [|reflexivity]. apply inb_in in I1. f_equal. rewrite Q2 by lia. rewrite T2, HW2. apply sum_ext. intros l Hl. rewrite T3 by lia. reflexivity.
Qed.
Lemma sparse_rows2_moves n m J i K j W P Q : (i + mcols J <= n)%nat -> (j + mcols K <= n)%nat -> mrows K = mrows J -> vlen m = mrows J -> mrows W = mrows J -> mcols W = mrows J -> moves n (wls_add_sparse_rows2 m J i K j W) P Q
  (fun r c y => exists x x1 x2 x3, P r c x /\
     x1 = (if (inb i (mcols J) r && inb i (mcols J) c)%bool then x + prd (mrows J) (mel J) (mel W) (mel J) (r - i) (c - i) else x) /\
     x2 = (if (inb j (mcols K) r && inb j (mcols K) c)%bool then x1 + prd (mrows J) (mel K) (mel W) (mel K) (r - j) (c - j) else x1) /\
     x3 = (if (inb i (mcols J) r && inb j (mcols K) c)%bool then x2 + prd (mrows J) (mel J) (mel W) (mel K) (r - i) (c - j) else x2) /\
     y = (if (inb j (mcols K) r && inb i (mcols J) c)%bool then x3 + prd (mrows J) (mel J) (mel W) (mel K) (c - i) (r - j) else x3))
  (fun r y => exists x x1, Q r x /\ x1 = (if inb i (mcols J) r then x + prv (mrows J) (mel J) (mel W) (vat m) (r - i) else x) /\
     y = (if inb j (mcols K) r then x1 + prv (mrows J) (mel K) (mel W) (vat m) (r - j) else x1)).
Proof.
  intros HJ HK HKJ Hm HW HW2 w (A1 & A2 & A3 & A4 & A5 & A6). unfold wls_add_sparse_rows2.
  destruct (mmul_ok (tr J) W) as (t & -> & T1 & T2 & T3); [cbn [tr mcols]; lia|]. cbn [bind tr mrows mcols mel] in *.
  destruct (mmul_ok (tr K) W) as (s & -> & S1 & S2 & S3); [cbn [tr mcols]; lia|]. cbn [bind tr mrows mcols mel] in *.
  destruct (mmul_ok t K) as (x & -> & X1 & X2 & X3); [lia|]. cbn [bind]. destruct (mmul_ok t J) as (p & -> & P1 & P2 & P3); [lia|]. cbn [bind].
  destruct (mslice_add_raw (w_C w) p i i) as (C1 & -> & C11 & C12 & C13); [lia|lia|]. cbn [bind]. destruct (mmul_ok s K) as (p2 & -> & P21 & P22 & P23); [lia|]. cbn [bind].
  destruct (mslice_add_raw C1 p2 j j) as (C2 & -> & C21 & C22 & C23); [lia|lia|]. cbn [bind]. destruct (mslice_add_raw C2 x i j) as (C3 & -> & C31 & C32 & C33); [lia|lia|]. cbn [bind].
  destruct (mslice_add_raw C3 (tr x) j i) as (C4 & -> & C41 & C42 & C43); [cbn [tr mrows]; lia|cbn [tr mcols]; lia|]. cbn [bind tr mrows mcols mel] in *.
  destruct (mv_ok t m) as (q & -> & Q1 & Q2); [lia|]. cbn [bind]. destruct (vslice_add_raw (w_v w) q i) as (v' & -> & V1 & V2); [lia|]. cbn [bind].
  destruct (mv_ok s m) as (q2 & -> & Q21 & Q22); [lia|]. cbn [bind]. destruct (vslice_add_raw v' q2 j) as (v2 & -> & V21 & V22); [lia|]. cbn [bind].
  eexists. split; [reflexivity|]. unfold accp. cbn [w_C w_v w_dec]. refine (conj _ (conj _ (conj _ (conj A4 (conj _ _))))); try lia.
  - intros r c Hr. exists (mel (w_C w) r c), (mel C1 r c), (mel C2 r c), (mel C3 r c). split; [apply A5; exact Hr|]. rewrite C43, C33, C23, C13 by lia. rewrite X1, X2, P1, P2, P21, P22, T1, S1. split; [|split; [|split]].
    + destruct (inb i (mcols J) r) eqn:I1; [|reflexivity]. destruct (inb i (mcols J) c) eqn:I2; [|reflexivity]. apply inb_in in I1, I2.
      cbn [andb]. f_equal. rewrite P3 by lia. rewrite T2, HW2. apply sum_ext. intros l Hl. rewrite T3 by lia. reflexivity.
    + destruct (inb j (mcols K) r) eqn:I1; [|reflexivity]. destruct (inb j (mcols K) c) eqn:I2; [|reflexivity]. apply inb_in in I1, I2.
      cbn [andb]. f_equal. rewrite P23 by lia. rewrite S2, HW2. apply sum_ext. intros l Hl. rewrite S3 by lia. rewrite HKJ. reflexivity.
    + destruct (inb i (mcols J) r) eqn:I1; [|reflexivity]. destruct (inb j (mcols K) c) eqn:I2; [|reflexivity]. apply inb_in in I1, I2.
      cbn [andb]. f_equal. rewrite X3 by lia. rewrite T2, HW2. apply sum_ext. intros l Hl. rewrite T3 by lia. reflexivity.
    + destruct (inb j (mcols K) r) eqn:I1; [|reflexivity]. destruct (inb i (mcols J) c) eqn:I2; [|reflexivity]. apply inb_in in I1, I2.
      cbn [andb]. f_equal. rewrite X3 by lia. rewrite T2, HW2. apply sum_ext. intros l Hl. rewrite T3 by lia. reflexivity.
  - intros r Hr. exists (vat (w_v w) r), (vat v' r). split; [apply A6; exact Hr|]. rewrite V22, V2 by lia. rewrite Q1, Q21, T1, S1. split.
    + destruct (inb i (mcols J) r) eqn:I1; [|reflexivity]. apply inb_in in I1. f_equal. rewrite Q2 by lia. rewrite T2, HW2. apply sum_ext. intros l Hl. rewrite T3 by lia. reflexivity.
    + destruct (inb j (mcols K) r) eqn:I1; [|reflexivity]. apply inb_in in I1. f_equal. rewrite Q22 by lia. rewrite S2, HW2. apply sum_ext. intros l Hl. rewrite S3 by lia. rewrite HKJ. reflexivity.
Qed.
Lemma accp_mono n w P Q (P' : nat -> nat -> F -> Prop) (Q' : nat -> F -> Prop) : accp n w P Q -> (forall r c x, (r <= c < n)%nat -> P r c x -> P' r c x) -> (forall r x, (r < n)%nat -> Q r x -> Q' r x) -> accp n w P' Q'.
Proof.
  intros (A1 & A2 & A3 & A4 & A5 & A6) E E'. refine (conj A1 (conj A2 (conj A3 (conj A4 (conj _ _))))); intros; [apply E; auto|apply E'; auto].
Qed.
Lemma moves_mono n f P Q P' Q' (P2 : nat -> nat -> F -> Prop) (Q2 : nat -> F -> Prop) : moves n f P Q P' Q' -> (forall r c x, (r <= c < n)%nat -> P' r c x -> P2 r c x) -> (forall r x, (r < n)%nat -> Q' r x -> Q2 r x) -> moves n f P Q P2 Q2.
Proof. intros M E E' w A. destruct (M w A) as (w' & Ew & A'). exists w'. split; [exact Ew|]. eapply accp_mono; eassumption. Qed.
Lemma acc_accp n w H g : acc n w H g -> accp n w (fun r c x => x = H r c) (fun r x => x = g r).
Proof. intros A. exact A. Qed.
End L.
