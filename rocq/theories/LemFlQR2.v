(** * QR.h in floating point: what one iteration computes, element by element. *)
From Coq Require Import Reals Arith Bool Lia Lra Psatz.
From Verif Require Import Base Alg Mat SpecMat LemMat Inst RSum ModelOps LemOps LemHelpers LemChol ModelFl LemFl LemFlChol ModelQR LemQR ModelFlQR.
Open Scope outcome_scope.
Local Open Scope R_scope.

Section H.
Variable (rnd : R -> R).
Notation fsum := (fsum rnd).
Lemma fl_house_col (M : mat R) r0 c0 nr (v : vec R) va col : vlen v = nr -> (r0 + nr <= mrows M)%nat -> (c0 + col < mcols M)%nat ->
  wp (for_ 0 nr (fun r M => x <- mget M (r0 + r) (c0 + col) ;; y <- vget v r ;; mset M (r0 + r) (c0 + col) (rnd (x - rnd (y * va)))) M)
    (fun M' => mrows M' = mrows M /\ mcols M' = mcols M /\
      forall i j, mel M' i j = if ((r0 <=? i) && (i <? r0 + nr) && (j =? c0 + col))%bool then rnd (mel M i j - rnd (vat v (i - r0) * va)) else mel M i j).
Proof.
  intros Hv Hr Hc.
  eapply wp_mono; [apply (wp_for (fun k M' => mrows M' = mrows M /\ mcols M' = mcols M /\
      forall i j, mel M' i j = if ((r0 <=? i) && (i <? r0 + k) && (j =? c0 + col))%bool then rnd (mel M i j - rnd (vat v (i - r0) * va)) else mel M i j))|].
  - lia.
  - split; [reflexivity|]. split; [reflexivity|]. intros i j. destruct (Nat.leb_spec r0 i), (Nat.ltb_spec i (r0 + 0)); cbn [andb]; try reflexivity. lia.
  - intros k M' Hk (E1 & E2 & E3). rewrite mget_ok by lia. cbn [bind]. rewrite vget_ok by lia. cbn [bind]. rewrite mset_ok by lia. cbn [wp mrows mcols mel].
    split; [exact E1|]. split; [exact E2|]. intros i j.
    destruct (Nat.eqb_spec i (r0 + k)) as [->|Ni], (Nat.eqb_spec j (c0 + col)) as [->|Nj]; cbn [andb].
    + rewrite E3. rewrite Nat.eqb_refl. destruct (Nat.leb_spec r0 (r0 + k)), (Nat.ltb_spec (r0 + k) (r0 + k)), (Nat.ltb_spec (r0 + k) (r0 + S k)); try lia. cbn [andb].
      replace (r0 + k - r0)%nat with k by lia. reflexivity.
    + rewrite E3. apply Nat.eqb_neq in Nj. rewrite Nj, !andb_false_r. reflexivity.
    + rewrite E3. rewrite Nat.eqb_refl. destruct (Nat.leb_spec r0 i), (Nat.ltb_spec i (r0 + k)), (Nat.ltb_spec i (r0 + S k)); try lia; reflexivity.
    + rewrite E3. apply Nat.eqb_neq in Nj. rewrite Nj, !andb_false_r. reflexivity.
  - intros M' H. exact H.
Qed.
(** an element of a column y (its part from row r0 on) after the reflection *)
Definition upd (r0 nr : nat) (v : nat -> R) (s : R) (y : nat -> R) (i : nat) : R :=
  rnd (y i - rnd (v (i - r0)%nat * rnd (fsum nr (fun r => rnd (v r * y (r0 + r)%nat)) / s))).
Lemma fsum_ext n f g : (forall i, (i < n)%nat -> f i = g i) -> fsum n f = fsum n g.
Proof. induction n as [|n IH]; intros H; [reflexivity|]. rewrite !fsum_S. rewrite IH by (intros; apply H; lia). rewrite H by lia. reflexivity. Qed.
Lemma fl_householder_ok (M : mat R) r0 c0 nr nc (v : vec R) s : vlen v = nr -> (r0 + nr <= mrows M)%nat -> (c0 + nc <= mcols M)%nat -> s <> 0 ->
  exists M', fl_householder rnd M r0 c0 nr nc v s = Ok M' /\ mrows M' = mrows M /\ mcols M' = mcols M /\
    forall i j, mel M' i j = if ((r0 <=? i) && (i <? r0 + nr) && (c0 <=? j) && (j <? c0 + nc))%bool then upd r0 nr (vat v) s (fun r => mel M r j) i else mel M i j.
Proof.
  intros Hv Hr Hc Hs. apply wp_ok_inv. unfold fl_householder.
  eapply wp_mono; [apply (wp_for (fun k M' => mrows M' = mrows M /\ mcols M' = mcols M /\
    forall i j, mel M' i j = if ((r0 <=? i) && (i <? r0 + nr) && (c0 <=? j) && (j <? c0 + k))%bool then upd r0 nr (vat v) s (fun r => mel M r j) i else mel M i j))|].
  - lia.
  - split; [reflexivity|]. split; [reflexivity|]. intros i j. destruct (Nat.leb_spec c0 j), (Nat.ltb_spec j (c0 + 0)); try lia; rewrite ?andb_false_r; reflexivity.
  - intros k M' Hk (E1 & E2 & E3). rewrite (@dot_ok R (FlOps rnd)) by (cbn [vlen]; exact Hv). cbn [bind]. rewrite Hv.
    rewrite fl_div_ok by exact Hs. cbn [bind]. eapply wp_mono; [apply fl_house_col; [exact Hv|lia|lia]|].
    intros M2 (F1 & F2 & F3). split; [congruence|]. split; [congruence|]. intros i j. rewrite F3.
    change (@sum R (FlOps rnd) nr (fun i0 => @fmul R (FlOps rnd) (vat v i0) (vat {| vlen := nr; vat := fun r => mel M' (r0 + r) (c0 + k) |} i0))) with (fsum nr (fun r => rnd (vat v r * mel M' (r0 + r)%nat (c0 + k)%nat))).
    assert (SE : fsum nr (fun r => rnd (vat v r * mel M' (r0 + r)%nat (c0 + k)%nat)) = fsum nr (fun r => rnd (vat v r * mel M (r0 + r)%nat (c0 + k)%nat))).
    { apply fsum_ext. intros r Hr'. rewrite E3. destruct (Nat.ltb_spec (c0 + k) (c0 + k)); [lia|]. rewrite !andb_false_r. reflexivity. }
    rewrite SE. destruct (Nat.eqb_spec j (c0 + k)) as [->|Nj].
    + rewrite E3. destruct (Nat.ltb_spec (c0 + k) (c0 + k)); [lia|]. destruct (Nat.leb_spec c0 (c0 + k)); [|lia]. destruct (Nat.ltb_spec (c0 + k) (c0 + S k)); [|lia].
      rewrite !andb_true_r, !andb_false_r. reflexivity.
    + rewrite andb_false_r. rewrite E3. assert (B : (j <? c0 + S k)%nat = (j <? c0 + k)%nat) by (destruct (Nat.ltb_spec j (c0 + S k)), (Nat.ltb_spec j (c0 + k)); try lia; reflexivity). rewrite B. reflexivity.
  - intros M' H. exact H.
Qed.
Lemma fl_householder_bad (M : mat R) r0 c0 nr nc (v : vec R) : vlen v = nr -> (0 < nc)%nat -> fl_householder rnd M r0 c0 nr nc v 0 = NonFinite.
Proof.
  intros Hv Hn. unfold fl_householder. rewrite for_step by exact Hn. rewrite (@dot_ok R (FlOps rnd)) by (cbn [vlen]; exact Hv). cbn [bind].
  rewrite fl_div_bad. reflexivity.
Qed.
(** the scalars of one iteration on the column x_0 ... x_(k-1) *)
Definition q_a (k : nat) (x : nat -> R) : R := rnd (rnd (sqrt (fsum k (fun r => rnd (x r * x r)))) * (if R_ltb (x 0%nat) 0 then -1 else 1)).
Definition q_u0 (k : nat) (x : nat -> R) : R := rnd (x 0%nat - q_a k x).
Definition q_H (k : nat) (x : nat -> R) : R := rnd (- q_a k x * q_u0 k x).
Definition q_u (k : nat) (x : nat -> R) (r : nat) : R := if (r =? 0)%nat then q_u0 k x else x r.
Definition colx (m : mat R) (n : nat) (r : nat) : R := mel m (n + r) n.
Definition step_m (N n : nat) (m : mat R) (i j : nat) : R :=
  let k := (N - n)%nat in let x := colx m n in
  if (i <? n)%nat then mel m i j else if (j <? n)%nat then mel m i j else if (j =? n)%nat then (if (i =? n)%nat then q_a k x else 0)
  else upd n k (q_u k x) (q_H k x) (fun r => mel m r j) i.
Definition step_q (N n : nat) (m Q : mat R) (i j : nat) : R :=
  let k := (N - n)%nat in let x := colx m n in
  if (i <? n)%nat then mel Q i j else upd n k (q_u k x) (q_H k x) (fun r => mel Q r j) i.
Lemma upd_ext r0 nr v v' s y y' i : (r0 <= i < r0 + nr)%nat -> (forall r, (r < nr)%nat -> v r = v' r) -> (forall r, (r0 <= r < r0 + nr)%nat -> y r = y' r) -> upd r0 nr v s y i = upd r0 nr v' s y' i.
Proof.
  intros Hi Hv Hy. unfold upd. rewrite Hy by lia. rewrite (Hv (i - r0)%nat) by lia. rewrite (fsum_ext nr (fun r => rnd (v r * y (r0 + r)%nat)) (fun r => rnd (v' r * y' (r0 + r)%nat))); [reflexivity|].
  intros r Hr. rewrite Hv by lia. rewrite Hy by lia. reflexivity.
Qed.
Lemma fl_step_ok N C n m Q : (N <= C)%nat -> (n < N - 1)%nat -> mrows m = N -> mcols m = C -> mrows Q = N -> mcols Q = N ->
  (q_H (N - n) (colx m n) = 0 -> fl_qr_step rnd n (m, Q) = NonFinite) /\
  (q_H (N - n) (colx m n) <> 0 -> exists m' Q', fl_qr_step rnd n (m, Q) = Ok (m', Q') /\ mrows m' = N /\ mcols m' = C /\ mrows Q' = N /\ mcols Q' = N /\
    (forall i j, (i < N)%nat -> (j < C)%nat -> mel m' i j = step_m N n m i j) /\ (forall i j, (i < N)%nat -> (j < N)%nat -> mel Q' i j = step_q N n m Q i j)).
Proof.
  intros HN Hn M1 M2 Q1 Q2. unfold fl_qr_step. rewrite M1, M2. replace (Nat.min N C) with N by lia. set (sz := (N - n)%nat).
  rewrite (@dot_ok R (FlOps rnd)) by reflexivity. cbn [bind vlen vat]. rewrite mget_ok by lia. cbn [bind].
  change (@sum R (FlOps rnd) sz (fun i => @fmul R (FlOps rnd) (mel m (n + i) n) (mel m (n + i) n))) with (fsum sz (fun r => rnd (colx m n r * colx m n r))).
  replace (mel m n n) with (colx m n 0) by (unfold colx; rewrite Nat.add_0_r; reflexivity).
  fold (q_a sz (colx m n)). rewrite mset_ok by lia. cbn [bind]. rewrite mget_ok by (cbn [mrows mcols]; lia). cbn [bind mel]. rewrite !Nat.eqb_refl. cbn [andb]. fold (q_u0 sz (colx m n)). fold (q_H sz (colx m n)).
  set (x := colx m n). set (H := q_H sz x). set (uu := fun r => if ((n + r =? n) && true)%bool then q_u0 sz x else mel m (n + r) n).
  assert (Uu : forall r, uu r = q_u sz x r). { intros r. unfold uu, q_u. destruct (Nat.eqb_spec (n + r) n), (Nat.eqb_spec r 0); try lia; reflexivity. }
  split.
  - intros H0. rewrite H0. rewrite fl_householder_bad; [reflexivity|reflexivity|lia].
  - intros HH.
    set (m1 := mkmat (mrows m) (mcols m) (fun i j => if ((i =? n) && (j =? n))%bool then q_u0 sz x else mel m i j)).
    assert (Em1 : forall i j, mel m1 i j = if ((i =? n) && (j =? n))%bool then q_u0 sz x else mel m i j) by reflexivity.
    destruct (fl_householder_ok m1 n (n + 1) sz (C - n - 1) (mkvec sz uu) H eq_refl ltac:(cbn [m1 mrows]; unfold sz; lia) ltac:(cbn [m1 mcols]; lia) HH) as (m2 & E2 & R2 & C2 & G2).
    rewrite E2. cbn [bind]. cbn [m1 mrows mcols] in R2, C2.
    destruct (fl_householder_ok Q n 0 sz N (mkvec sz uu) H eq_refl ltac:(unfold sz; lia) ltac:(lia) HH) as (Q' & EQ & RQ & CQ & GQ).
    rewrite EQ. cbn [bind]. rewrite mset_ok by lia. cbn [bind].
    set (m3 := mkmat (mrows m2) (mcols m2) (fun i j => if ((i =? n) && (j =? n))%bool then q_a sz x else mel m2 i j)).
    assert (L : wp (for_ 1 sz (fun r m => mset m (n + r) n 0) m3) (fun m4 => mrows m4 = N /\ mcols m4 = C /\ forall i j, mel m4 i j = if ((n <? i) && (i <? n + sz) && (j =? n))%bool then 0 else mel m3 i j)).
    { eapply wp_mono; [apply (wp_for (fun k m4 => mrows m4 = N /\ mcols m4 = C /\ forall i j, mel m4 i j = if ((n <? i) && (i <? n + k) && (j =? n))%bool then 0 else mel m3 i j))|].
      - unfold sz; lia.
      - split; [cbn [m3 mrows]; lia|]. split; [cbn [m3 mcols]; lia|]. intros i j. destruct (Nat.ltb_spec n i), (Nat.ltb_spec i (n + 1)); try lia; reflexivity.
      - intros k m4 Hk (E4 & F4 & G4). rewrite mset_ok by (unfold sz in Hk; lia). cbn [wp mrows mcols mel]. split; [exact E4|]. split; [exact F4|]. intros i j.
        rewrite G4. destruct (Nat.eqb_spec i (n + k)) as [->|Ni], (Nat.eqb_spec j n) as [->|Nj]; cbn [andb]; rewrite ?andb_false_r, ?andb_true_r.
        + destruct (Nat.ltb_spec n (n + k)), (Nat.ltb_spec (n + k) (n + S k)); try lia. reflexivity.
        + reflexivity.
        + destruct (Nat.ltb_spec n i), (Nat.ltb_spec i (n + k)), (Nat.ltb_spec i (n + S k)); try lia; reflexivity.
        + reflexivity.
      - intros m4 X. exact X. }
    apply wp_ok_inv in L. destruct L as (m4 & E4 & R4 & C4 & G4). rewrite E4. cbn [bind]. exists m4, Q'. split; [reflexivity|].
    split; [exact R4|]. split; [exact C4|]. split; [congruence|]. split; [congruence|]. split.
    + intros i j Hi Hj. rewrite G4. cbn [m3 mel]. rewrite G2, Em1. unfold step_m. fold sz x H.
      destruct (Nat.ltb_spec i n).
      * destruct (Nat.ltb_spec n i); [lia|]. destruct (Nat.leb_spec n i); [lia|]. destruct (Nat.eqb_spec i n); [lia|]. reflexivity.
      * destruct (Nat.leb_spec n i); [|lia]. destruct (Nat.ltb_spec i (n + sz)); [|unfold sz in *; lia]. destruct (Nat.ltb_spec j n).
        -- destruct (Nat.eqb_spec j n); [lia|]. destruct (Nat.leb_spec (n + 1) j); [lia|]. rewrite !andb_false_r. reflexivity.
        -- destruct (Nat.eqb_spec j n) as [->|Nj].
           ++ destruct (Nat.eqb_spec i n) as [->|Ni]; [destruct (Nat.ltb_spec n n); [lia|]; reflexivity|]. destruct (Nat.ltb_spec n i); [|lia]. reflexivity.
           ++ destruct (Nat.leb_spec (n + 1) j); [|lia]. destruct (Nat.ltb_spec j (n + 1 + (C - n - 1))); [|lia]. rewrite !andb_false_r. cbn [andb].
              apply upd_ext; [unfold sz; lia|intros r Hr; cbn [vat]; apply Uu|]. intros r Hr. rewrite Em1. destruct (Nat.eqb_spec j n); [lia|]. rewrite andb_false_r. reflexivity.
    + intros i j Hi Hj. rewrite GQ. unfold step_q. fold sz x H. destruct (Nat.ltb_spec i n).
      * destruct (Nat.leb_spec n i); [lia|]. reflexivity.
      * destruct (Nat.leb_spec n i); [|lia]. destruct (Nat.ltb_spec i (n + sz)); [|unfold sz in *; lia]. destruct (Nat.ltb_spec j (0 + N)); [|lia]. cbn [andb Nat.leb].
        apply upd_ext; [unfold sz; lia|intros r Hr; cbn [vat]; apply Uu|reflexivity].
Qed.
End H.
