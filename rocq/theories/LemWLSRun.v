(** * Lemmas: block measurements, histories, and the energy they describe. *)
From Coq Require Import Arith Bool List Lia Permutation.
From Verif Require Import Base Alg Mat SpecMat LemMat SpecLin LemLin ModelOps LemOps ModelObjects LemObjects LemHelpers LemDetMore SpecForm LemForm ModelChol ModelWLS SpecWLS LemWLS.
Import ListNotations.

Section L.
Context {F : Type} {Fo : Ops F} {Fl : Laws F}.
Add Field Ff : law_field.
Open Scope F_scope.

Lemma rows_w_adds n m J wt : vlen m = mrows J -> mcols J = n ->
  adds n (wls_add_rows_w m J wt) (fun r c => sum (mrows J) (fun k => wt * mel J k r * mel J k c)) (fun r => sum (mrows J) (fun k => vat m k * (wt * mel J k r))).
Proof.
  intros HM HC w H0 g0 A. unfold wls_add_rows_w. rewrite same_size_eq by exact HM. cbn [bind]. apply wp_ok_inv.
  apply (wp_for (fun k w' => acc n w' (fun r c => H0 r c + sum k (fun k => wt * mel J k r * mel J k c)) (fun r => g0 r + sum k (fun k => vat m k * (wt * mel J k r))) /\ w_mu w' = w_mu w)); [lia| |].
  - split; [|reflexivity]. eapply acc_ext; [exact A| |]; intros; cbn [sum]; ring.
  - intros k w' Hk [A' M']. rewrite vget_ok by lia. cbn [bind]. rewrite row_ok by lia. cbn [bind].
    destruct (add_adds n (vat m k) (mkvec (mcols J) (fun c => mel J k c)) wt HC w' _ _ A') as (w2 & -> & A2 & M2). cbn [wp vat] in *. split; [|congruence].
    eapply acc_ext; [exact A2| |]; intros; cbn [sum]; ring.
Qed.
Lemma cov_adds n m J W : mrows J = n -> vlen m = mcols J -> mrows W = mcols J -> mcols W = mcols J ->
  adds n (wls_add_cov m J W) (fun r c => sum (mcols J) (fun l => sum (mcols J) (fun k => mel J r k * mel W k l) * mel J c l))
    (fun r => sum (mcols J) (fun l => sum (mcols J) (fun k => mel J r k * mel W k l) * vat m l)).
Proof.
  intros HR HM HW HW' w H0 g0 (A1 & A2 & A3 & A4 & A5 & A6). unfold wls_add_cov.
  destruct (mmul_ok J W ltac:(lia)) as (T & -> & RT & KT & VT). cbn [bind].
  destruct (mmul_ok T (tr J) ltac:(cbn [tr mrows]; lia)) as (p & -> & Rp & Kp & Vp). cbn [tr mrows mcols mel] in Rp, Kp, Vp. cbn [bind].
  destruct (madd_assign_ok (w_C w) p) as (C' & -> & R' & K' & V'); [lia|lia|]. cbn [bind].
  destruct (mv_ok T m ltac:(lia)) as (q & -> & Lq & Vq). cbn [bind]. destruct (vadd_assign_ok (w_v w) q) as (v' & -> & L' & U'); [lia|]. cbn [bind].
  eexists. split; [reflexivity|]. split; [|reflexivity]. unfold acc. cbn [w_C w_v w_dec]. split; [lia|]. split; [lia|]. split; [lia|]. split; [exact A4|]. split.
  - intros r c Hr. rewrite V' by lia. rewrite A5 by exact Hr. f_equal. rewrite Vp by lia. rewrite KT, HW'. apply sum_ext. intros l Hl. rewrite VT by lia. reflexivity.
  - intros r Hr. rewrite U' by lia. rewrite A6 by exact Hr. f_equal. rewrite Vq by lia. rewrite KT, HW'. apply sum_ext. intros l Hl. rewrite VT by lia. reflexivity.
Qed.
Lemma rows_adds n m J W : mcols J = n -> vlen m = mrows J -> mrows W = mrows J -> mcols W = mrows J ->
  adds n (wls_add_rows m J W) (fun r c => sum (mrows J) (fun l => sum (mrows J) (fun k => mel J k r * mel W k l) * mel J l c))
    (fun r => sum (mrows J) (fun l => sum (mrows J) (fun k => mel J k r * mel W k l) * vat m l)).
Proof.
  intros HR HM HW HW' w H0 g0 (A1 & A2 & A3 & A4 & A5 & A6). unfold wls_add_rows.
  destruct (mmul_ok (tr J) W ltac:(cbn [tr mcols]; lia)) as (T & -> & RT & KT & VT). cbn [tr mrows mcols mel] in RT, KT, VT. cbn [bind].
  destruct (mmul_ok T J ltac:(lia)) as (p & -> & Rp & Kp & Vp). cbn [bind].
  destruct (madd_assign_ok (w_C w) p) as (C' & -> & R' & K' & V'); [lia|lia|]. cbn [bind].
  destruct (mv_ok T m ltac:(lia)) as (q & -> & Lq & Vq). cbn [bind]. destruct (vadd_assign_ok (w_v w) q) as (v' & -> & L' & U'); [lia|]. cbn [bind].
  eexists. split; [reflexivity|]. split; [|reflexivity]. unfold acc. cbn [w_C w_v w_dec]. split; [lia|]. split; [lia|]. split; [lia|]. split; [exact A4|]. split.
  - intros r c Hr. rewrite V' by lia. rewrite A5 by exact Hr. f_equal. rewrite Vp by lia. rewrite KT, HW'. apply sum_ext. intros l Hl. rewrite VT by lia. reflexivity.
  - intros r Hr. rewrite U' by lia. rewrite A6 by exact Hr. f_equal. rewrite Vq by lia. rewrite KT, HW'. apply sum_ext. intros l Hl. rewrite VT by lia. reflexivity.
Qed.

(** placing the product of the blocks = product of the placed blocks *)
Lemma placed2_prod N i la j lb (f : nat -> nat -> F) (g : nat -> nat -> F) (W : nat -> nat -> F) r c :
  placed2 i la j lb (fun a b => sum N (fun l => sum N (fun k => f k a * W k l) * g l b)) r c =
  sum N (fun l => sum N (fun k => placed i la (f k) r * W k l) * placed j lb (g l) c).
Proof.
  unfold placed2, placed. destruct ((i <=? r) && (r <? i + la))%nat%bool; cbn [andb].
  - destruct ((j <=? c) && (c <? j + lb))%nat%bool; [reflexivity|]. symmetry. apply sum_zero. intros; ring.
  - symmetry. apply sum_zero. intros l Hl. rewrite sum_zero by (intros; ring). ring.
Qed.
Lemma placed_prod N i la (f : nat -> nat -> F) (W : nat -> nat -> F) (m : nat -> F) r :
  placed i la (fun a => sum N (fun l => sum N (fun k => f k a * W k l) * m l)) r = sum N (fun l => sum N (fun k => placed i la (f k) r * W k l) * m l).
Proof.
  unfold placed. destruct ((i <=? r) && (r <? i + la))%nat%bool; [reflexivity|]. symmetry. apply sum_zero. intros l Hl. rewrite sum_zero by (intros; ring). ring.
Qed.
Lemma placed2_ext i la j lb (b b' : nat -> nat -> F) r c : (forall x y, (x < la)%nat -> (y < lb)%nat -> b x y = b' x y) -> placed2 i la j lb b r c = placed2 i la j lb b' r c.
Proof.
  intros H. unfold placed2. destruct (Nat.leb_spec i r), (Nat.ltb_spec r (i + la)), (Nat.leb_spec j c), (Nat.ltb_spec c (j + lb)); cbn [andb]; try reflexivity. apply H; lia.
Qed.
Lemma placed_ext i la (b b' : nat -> F) r : (forall x, (x < la)%nat -> b x = b' x) -> placed i la b r = placed i la b' r.
Proof. intros H. unfold placed. destruct (Nat.leb_spec i r), (Nat.ltb_spec r (i + la)); cbn [andb]; try reflexivity. apply H; lia. Qed.

Lemma sparse_rows_adds n m J i W : (i + mcols J <= n)%nat -> vlen m = mrows J -> mrows W = mrows J -> mcols W = mrows J ->
  adds n (wls_add_sparse_rows m J i W)
    (fun r c => sum (mrows J) (fun l => sum (mrows J) (fun k => placed i (mcols J) (mel J k) r * mel W k l) * placed i (mcols J) (mel J l) c))
    (fun r => sum (mrows J) (fun l => sum (mrows J) (fun k => placed i (mcols J) (mel J k) r * mel W k l) * vat m l)).
Proof.
  intros HR HM HW HW' w H0 g0 (A1 & A2 & A3 & A4 & A5 & A6). unfold wls_add_sparse_rows.
  destruct (mmul_ok (tr J) W ltac:(cbn [tr mcols]; lia)) as (T & -> & RT & KT & VT). cbn [tr mrows mcols mel] in RT, KT, VT. cbn [bind].
  destruct (mmul_ok T J ltac:(lia)) as (p & -> & Rp & Kp & Vp). cbn [bind].
  destruct (mslice_add_ok (w_C w) p i i) as (C' & -> & R' & K' & V'); [lia|lia|]. cbn [bind].
  destruct (mv_ok T m ltac:(lia)) as (q & -> & Lq & Vq). cbn [bind]. destruct (vslice_add_ok (w_v w) q i) as (v' & -> & L' & U'); [lia|]. cbn [bind].
  eexists. split; [reflexivity|]. split; [|reflexivity]. unfold acc. cbn [w_C w_v w_dec]. split; [lia|]. split; [lia|]. split; [lia|]. split; [exact A4|]. split.
  - intros r c Hr. rewrite V' by lia. rewrite A5 by exact Hr. f_equal. rewrite <- placed2_prod. rewrite Rp, RT, Kp. apply placed2_ext. intros x y Hx Hy.
    rewrite Vp by lia. rewrite KT, HW'. apply sum_ext. intros l Hl. rewrite VT by lia. reflexivity.
  - intros r Hr. rewrite U' by lia. rewrite A6 by exact Hr. f_equal. rewrite <- placed_prod. rewrite Lq, RT. apply placed_ext. intros x Hx.
    rewrite Vq by lia. rewrite KT, HW'. apply sum_ext. intros l Hl. rewrite VT by lia. reflexivity.
Qed.
Lemma sparse_rows2_adds n m J i K j W : (i + mcols J <= n)%nat -> (j + mcols K <= n)%nat -> mrows K = mrows J -> vlen m = mrows J -> mrows W = mrows J -> mcols W = mrows J -> symmetric (mrows J) (mel W) ->
  let P := fun k r => placed i (mcols J) (mel J k) r + placed j (mcols K) (mel K k) r in
  adds n (wls_add_sparse_rows2 m J i K j W)
    (fun r c => sum (mrows J) (fun l => sum (mrows J) (fun k => P k r * mel W k l) * P l c))
    (fun r => sum (mrows J) (fun l => sum (mrows J) (fun k => P k r * mel W k l) * vat m l)).
Proof.
  intros HI HJ HK HM HW HW' HS P w H0 g0 (A1 & A2 & A3 & A4 & A5 & A6). unfold wls_add_sparse_rows2. set (N := mrows J) in *.
  destruct (mmul_ok (tr J) W ltac:(cbn [tr mcols]; lia)) as (T & -> & RT & KT & VT). cbn [tr mrows mcols mel] in RT, KT, VT. cbn [bind].
  destruct (mmul_ok (tr K) W ltac:(cbn [tr mcols]; lia)) as (U & -> & RU & KU & VU). cbn [tr mrows mcols mel] in RU, KU, VU. cbn [bind].
  destruct (mmul_ok T K ltac:(lia)) as (X & -> & RX & KX & VX). cbn [bind].
  destruct (mmul_ok T J ltac:(lia)) as (p1 & -> & Rp & Kp & Vp). cbn [bind].
  destruct (mslice_add_ok (w_C w) p1 i i) as (C1 & -> & R1 & K1 & V1); [lia|lia|]. cbn [bind].
  destruct (mmul_ok U K ltac:(lia)) as (p2 & -> & Rp2 & Kp2 & Vp2). cbn [bind].
  destruct (mslice_add_ok C1 p2 j j) as (C2 & -> & R2 & K2 & V2); [lia|lia|]. cbn [bind].
  destruct (mslice_add_ok C2 X i j) as (C3 & -> & R3 & K3 & V3); [lia|lia|]. cbn [bind].
  destruct (mslice_add_ok C3 (tr X) j i) as (C4 & -> & R4 & K4 & V4); [cbn [tr mrows]; lia|cbn [tr mcols]; lia|]. cbn [bind tr mrows mcols mel] in *.
  destruct (mv_ok T m ltac:(lia)) as (q1 & -> & Lq & Vq). cbn [bind]. destruct (vslice_add_ok (w_v w) q1 i) as (v1 & -> & L1 & U1); [lia|]. cbn [bind].
  destruct (mv_ok U m ltac:(lia)) as (q2 & -> & Lq2 & Vq2). cbn [bind]. destruct (vslice_add_ok v1 q2 j) as (v2 & -> & L2 & U2); [lia|]. cbn [bind].
  eexists. split; [reflexivity|]. split; [|reflexivity]. unfold acc. cbn [w_C w_v w_dec]. split; [lia|]. split; [lia|]. split; [lia|]. split; [exact A4|]. split.
  - intros r c Hr. rewrite V4, V3, V2, V1 by lia. rewrite A5 by exact Hr.
    assert (E1 : placed2 i (mrows p1) i (mcols p1) (mel p1) r c = sum N (fun l => sum N (fun k => placed i (mcols J) (mel J k) r * mel W k l) * placed i (mcols J) (mel J l) c)).
    { rewrite <- placed2_prod. rewrite Rp, RT, Kp. apply placed2_ext. intros x y Hx Hy. rewrite Vp by lia. rewrite KT, HW'. apply sum_ext. intros l Hl. rewrite VT by lia. reflexivity. }
    assert (E2 : placed2 j (mrows p2) j (mcols p2) (mel p2) r c = sum N (fun l => sum N (fun k => placed j (mcols K) (mel K k) r * mel W k l) * placed j (mcols K) (mel K l) c)).
    { rewrite <- placed2_prod. rewrite Rp2, RU, Kp2. apply placed2_ext. intros x y Hx Hy. rewrite Vp2 by lia. rewrite KU, HW'. apply sum_ext. intros l Hl. rewrite VU by lia. rewrite HK. reflexivity. }
    assert (E3 : placed2 i (mrows X) j (mcols X) (mel X) r c = sum N (fun l => sum N (fun k => placed i (mcols J) (mel J k) r * mel W k l) * placed j (mcols K) (mel K l) c)).
    { rewrite <- placed2_prod. rewrite RX, RT, KX. apply placed2_ext. intros x y Hx Hy. rewrite VX by lia. rewrite KT, HW'. apply sum_ext. intros l Hl. rewrite VT by lia. reflexivity. }
    assert (E4 : placed2 j (mcols X) i (mrows X) (fun r c => mel X c r) r c = sum N (fun l => sum N (fun k => placed j (mcols K) (mel K k) r * mel W k l) * placed i (mcols J) (mel J l) c)).
    { rewrite <- placed2_prod. rewrite RX, RT, KX. apply placed2_ext. intros x y Hx Hy. rewrite VX by lia. rewrite KT, HW'.
      transitivity (sum N (fun l => sum N (fun k => mel J k y * mel W k l * mel K l x))).
      - apply sum_ext. intros l Hl. rewrite VT by lia. rewrite <- sum_mul_r. reflexivity.
      - rewrite sum_swap. apply sum_ext. intros k Hk. rewrite <- sum_mul_r. apply sum_ext. intros l Hl. rewrite (HS k l) by lia. ring. }
    rewrite E1, E2, E3, E4. unfold P.
    match goal with |- ?a + ?s1 + ?s2 + ?s3 + ?s4 = ?a + ?t => replace t with (s1 + s2 + s3 + s4); [ring|] end.
    rewrite <- !sum_add. apply sum_ext. intros l Hl.
    rewrite (sum_ext N (fun k => (placed i (mcols J) (mel J k) r + placed j (mcols K) (mel K k) r) * mel W k l) (fun k => placed i (mcols J) (mel J k) r * mel W k l + placed j (mcols K) (mel K k) r * mel W k l)) by (intros; ring).
    rewrite sum_add. ring.
  - intros r Hr. rewrite U2, U1 by lia. rewrite A6 by exact Hr.
    assert (E1 : placed i (vlen q1) (vat q1) r = sum N (fun l => sum N (fun k => placed i (mcols J) (mel J k) r * mel W k l) * vat m l)).
    { rewrite <- placed_prod. rewrite Lq, RT. apply placed_ext. intros x Hx. rewrite Vq by lia. rewrite KT, HW'. apply sum_ext. intros l Hl. rewrite VT by lia. reflexivity. }
    assert (E2 : placed j (vlen q2) (vat q2) r = sum N (fun l => sum N (fun k => placed j (mcols K) (mel K k) r * mel W k l) * vat m l)).
    { rewrite <- placed_prod. rewrite Lq2, RU. apply placed_ext. intros x Hx. rewrite Vq2 by lia. rewrite KU, HW'. apply sum_ext. intros l Hl. rewrite VU by lia. rewrite HK. reflexivity. }
    rewrite E1, E2. unfold P. match goal with |- ?a + ?s1 + ?s2 = ?a + ?t => replace t with (s1 + s2); [ring|] end.
    rewrite <- sum_add. apply sum_ext. intros l Hl.
    rewrite (sum_ext N (fun k => (placed i (mcols J) (mel J k) r + placed j (mcols K) (mel K k) r) * mel W k l) (fun k => placed i (mcols J) (mel J k) r * mel W k l + placed j (mcols K) (mel K k) r * mel W k l)) by (intros; ring).
    rewrite sum_add. ring.
Qed.

Lemma call_adds n o : op_ok n o -> adds n (wls_call o) (dH (den_of n o)) (dg (den_of n o)).
Proof.
  destruct o as [v|v|m|m J w|m J w|m J W|m J W|m J i w|m J i W|m J i K j W]; cbn [op_ok wls_call]; intros H.
  - eapply adds_ext; [apply prior_adds| |]; intros; unfold dH, dg; cbn [den_of dN dm dJ dW dP sum]; ring.
  - eapply adds_ext; [apply prior_vec_adds; exact H| |]; intros; unfold dH, dg; cbn [den_of dN dm dJ dW dP sum]; ring.
  - destruct H as (H1 & H2 & _). eapply adds_ext; [apply prior_mat_adds; assumption| |]; intros; unfold dH, dg; cbn [den_of dN dm dJ dW dP sum]; ring.
  - eapply adds_ext; [apply add_adds; exact H| |]; intros; unfold dH, dg; cbn [den_of dN dm dJ dW dP sum]; ring.
  - destruct H as (H1 & H2). eapply adds_ext; [apply rows_w_adds; assumption| |]; intros; unfold dH, dg; cbn [den_of dN dm dJ dW dP].
    + match goal with |- ?s = ?t + 0 => transitivity t; [|ring] end. apply sum_ext. intros k Hk.
      rewrite (sum_ext (mrows J) (fun k0 => mel J k0 r * (w * delta k0 k)) (fun k0 => (mel J k0 r * w) * delta k0 k)) by (intros; ring). rewrite (sum_delta_r (mrows J) k (fun k0 => mel J k0 r * w)) by exact Hk. ring.
    + apply sum_ext. intros k Hk.
      rewrite (sum_ext (mrows J) (fun k0 => mel J k0 r * (w * delta k0 k)) (fun k0 => (mel J k0 r * w) * delta k0 k)) by (intros; ring). rewrite (sum_delta_r (mrows J) k (fun k0 => mel J k0 r * w)) by exact Hk. ring.
  - destruct H as (H1 & H2 & H3 & H4 & _). eapply adds_ext; [apply cov_adds; assumption| |]; intros; unfold dH, dg; cbn [den_of dN dm dJ dW dP]; ring.
  - destruct H as (H1 & H2 & H3 & H4 & _). eapply adds_ext; [apply rows_adds; assumption| |]; intros; unfold dH, dg; cbn [den_of dN dm dJ dW dP]; ring.
  - eapply adds_ext; [apply sparse_adds; exact H| |]; intros; unfold dH, dg; cbn [den_of dN dm dJ dW dP sum]; ring.
  - destruct H as (H1 & H2 & H3 & H4 & _). eapply adds_ext; [apply sparse_rows_adds; assumption| |]; intros; unfold dH, dg; cbn [den_of dN dm dJ dW dP]; ring.
  - destruct H as (H1 & H2 & H3 & H4 & H5 & H6 & H7). eapply adds_ext; [apply sparse_rows2_adds; assumption| |]; intros; unfold dH, dg; cbn [den_of dN dm dJ dW dP]; ring.
Qed.

(** histories *)
Fixpoint runH (n : nat) (os : list (wop F)) (r c : nat) : F := match os with [] => 0 | o :: os => dH (den_of n o) r c + runH n os r c end.
Fixpoint rung (n : nat) (os : list (wop F)) (r : nat) : F := match os with [] => 0 | o :: os => dg (den_of n o) r + rung n os r end.
Lemma run_adds n os : Forall (op_ok n) os -> adds n (wls_run os) (runH n os) (rung n os).
Proof.
  induction os as [|o os IH]; intros H w H0 g0 A; cbn [wls_run runH rung].
  - exists w. split; [reflexivity|]. split; [|reflexivity]. eapply acc_ext; [exact A| |]; intros; cbv beta; ring.
  - inversion H as [|? ? Ho Hos]; subst. destruct (call_adds n o Ho w H0 g0 A) as (w1 & -> & A1 & M1). cbn [bind]. destruct (IH Hos w1 _ _ A1) as (w2 & -> & A2 & M2).
    exists w2. split; [reflexivity|]. split; [|congruence]. eapply acc_ext; [exact A2| |]; intros; cbv beta; ring.
Qed.
Lemma run_perm n os os' : Permutation os os' -> (forall r c, runH n os r c = runH n os' r c) /\ (forall r, rung n os r = rung n os' r).
Proof.
  induction 1 as [|o os os' _ [IH1 IH2]|o p os|os os' os'' _ [IH1 IH2] _ [IH3 IH4]]; cbn [runH rung].
  - split; reflexivity.
  - split; intros; [rewrite IH1|rewrite IH2]; reflexivity.
  - split; intros; ring.
  - split; intros; [rewrite IH1; apply IH3|rewrite IH2; apply IH4].
Qed.
Lemma run_app n os os' : (forall r c, runH n (os ++ os') r c = runH n os r c + runH n os' r c) /\ (forall r, rung n (os ++ os') r = rung n os r + rung n os' r).
Proof.
  induction os as [|o os [IH1 IH2]]; cbn [app runH rung]; split; intros; try ring; [rewrite IH1|rewrite IH2]; ring.
Qed.
Lemma clear_acc n w H0 g0 : acc n w H0 g0 -> exists w', wls_clear w = Ok w' /\ acc n w' (fun _ _ => 0) (fun _ => 0) /\ w_dec w' = w_dec w /\ w_mu w' = w_mu w.
Proof.
  intros (A1 & A2 & A3 & A4 & _). unfold wls_clear, zeros_mat, zeros_vec.
  destruct (mfill_ok (w_C w) (fun _ _ => 0)) as (C & -> & RC & KC & VC). cbn [bind].
  destruct (vfill_ok (w_v w) (fun _ => 0)) as (v & -> & Lv & Vv). cbn [bind]. eexists. split; [reflexivity|]. split; [|split; reflexivity].
  unfold acc. cbn [w_C w_v w_dec]. split; [congruence|]. split; [congruence|]. split; [congruence|]. split; [exact A4|]. split; intros; [apply VC; lia|apply Vv; lia].
Qed.
Lemma new_acc n : exists w, wls_new n = Ok w /\ acc n w (fun _ _ => 0) (fun _ => 0).
Proof.
  destruct (clear_acc n (mkwls (mnew n n) (vnew n) (mkchol (mnew n n) 0) (vnew n)) (fun _ _ => junk) (fun _ => junk)) as (w & E & A & _).
  { unfold acc, mnew, vnew. cbn [w_C w_v w_dec mrows mcols vlen vat mel ch_m]. split; [reflexivity|]. split; [reflexivity|]. split; [reflexivity|]. split; [reflexivity|]. split; reflexivity. }
  exists w. split; [exact E|exact A].
Qed.
Lemma join_acc n a b H1 g1 H2 g2 : acc n a H1 g1 -> acc n b H2 g2 -> exists w, wls_join a b = Ok w /\ acc n w (fun r c => H1 r c + H2 r c) (fun r => g1 r + g2 r).
Proof.
  intros (A1 & A2 & A3 & A4 & A5 & A6) (B1 & B2 & B3 & B4 & B5 & B6). unfold wls_join.
  destruct (vadd_assign_ok (w_v a) (w_v b)) as (v & -> & Lv & Vv); [lia|]. cbn [bind].
  destruct (madd_assign_ok (w_C a) (w_C b)) as (C & -> & RC & KC & VC); [lia|lia|]. cbn [bind]. eexists. split; [reflexivity|].
  unfold acc. cbn [w_C w_v w_dec]. split; [lia|]. split; [lia|]. split; [lia|]. split; [exact A4|]. split; intros; [rewrite VC by lia; rewrite A5, B5 by lia; reflexivity|rewrite Vv by lia; rewrite A6, B6 by lia; reflexivity].
Qed.
End L.
