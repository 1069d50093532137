(** * Lemmas for QR. *)
From Coq Require Import Reals Arith Bool Lia Lra Psatz.
From Verif Require Import Base Alg Mat SpecMat LemMat Inst RSum ModelOps LemOps LemHelpers LemChol SpecLin LemLin LemDetMore LemDetMul ModelQR.
Open Scope outcome_scope.
Local Open Scope R_scope.

(** ** one reflection *)
Lemma house_col (M : mat R) r0 c0 nr (v : vec R) va col : vlen v = nr -> (r0 + nr <= mrows M)%nat -> (c0 + col < mcols M)%nat ->
  wp (for_ 0 nr (fun r M => x <- mget M (r0 + r) (c0 + col) ;; y <- vget v r ;; mset M (r0 + r) (c0 + col) (fsub x (fmul y va))) M)
    (fun M' => mrows M' = mrows M /\ mcols M' = mcols M /\
      forall i j, mel M' i j = if ((r0 <=? i) && (i <? r0 + nr) && (j =? c0 + col))%bool then mel M i j - vat v (i - r0) * va else mel M i j).
Proof.
  intros Hv Hr Hc.
  eapply wp_mono; [apply (wp_for (fun k M' => mrows M' = mrows M /\ mcols M' = mcols M /\
      forall i j, mel M' i j = if ((r0 <=? i) && (i <? r0 + k) && (j =? c0 + col))%bool then mel M i j - vat v (i - r0) * va else mel M i j))|].
  - lia.
  - split; [reflexivity|]. split; [reflexivity|]. intros i j. destruct (Nat.leb_spec r0 i), (Nat.ltb_spec i (r0 + 0)); cbn [andb]; try reflexivity. lia.
  - intros k M' Hk (E1 & E2 & E3). rewrite mget_ok by lia. cbn [bind]. rewrite vget_ok by lia. cbn [bind]. rewrite mset_ok by lia. cbn [wp mrows mcols mel].
    split; [exact E1|]. split; [exact E2|]. intros i j. cbn [fsub fmul ROps].
    destruct (Nat.eqb_spec i (r0 + k)) as [->|Ni], (Nat.eqb_spec j (c0 + col)) as [->|Nj]; cbn [andb].
    + rewrite E3. rewrite Nat.eqb_refl. destruct (Nat.leb_spec r0 (r0 + k)), (Nat.ltb_spec (r0 + k) (r0 + k)), (Nat.ltb_spec (r0 + k) (r0 + S k)); try lia. cbn [andb].
      replace (r0 + k - r0)%nat with k by lia. reflexivity.
    + rewrite E3. apply Nat.eqb_neq in Nj. rewrite Nj, !andb_false_r. reflexivity.
    + rewrite E3. rewrite Nat.eqb_refl. destruct (Nat.leb_spec r0 i), (Nat.ltb_spec i (r0 + k)), (Nat.ltb_spec i (r0 + S k)); try lia; reflexivity.
    + rewrite E3. apply Nat.eqb_neq in Nj. rewrite Nj, !andb_false_r. reflexivity.
  - intros M' H. exact H.
Qed.
Lemma householder_ok (M : mat R) r0 c0 nr nc (v : vec R) s : vlen v = nr -> (r0 + nr <= mrows M)%nat -> (c0 + nc <= mcols M)%nat -> s <> 0 ->
  exists M', householder M r0 c0 nr nc v s = Ok M' /\ mrows M' = mrows M /\ mcols M' = mcols M /\
    forall i j, mel M' i j = if ((r0 <=? i) && (i <? r0 + nr) && (c0 <=? j) && (j <? c0 + nc))%bool
      then mel M i j - vat v (i - r0) * (Sum nr (fun r => vat v r * mel M (r0 + r) j) / s) else mel M i j.
Proof.
  intros Hv Hr Hc Hs. apply wp_ok_inv. unfold householder.
  eapply wp_mono; [apply (wp_for (fun k M' => mrows M' = mrows M /\ mcols M' = mcols M /\
    forall i j, mel M' i j = if ((r0 <=? i) && (i <? r0 + nr) && (c0 <=? j) && (j <? c0 + k))%bool
      then mel M i j - vat v (i - r0) * (Sum nr (fun r => vat v r * mel M (r0 + r) j) / s) else mel M i j))|].
  - lia.
  - split; [reflexivity|]. split; [reflexivity|]. intros i j. destruct (Nat.leb_spec c0 j), (Nat.ltb_spec j (c0 + 0)); try lia; rewrite ?andb_false_r; reflexivity.
  - intros k M' Hk (E1 & E2 & E3). rewrite (@dot_ok R ROps) by (cbn [vlen]; exact Hv). cbn [bind]. rewrite Hv.
    rewrite R_div_ok by exact Hs. cbn [bind]. eapply wp_mono; [apply house_col; [exact Hv|lia|lia]|].
    intros M2 (F1 & F2 & F3). split; [congruence|]. split; [congruence|]. intros i j. rewrite F3.
    assert (SE : Sum nr (fun i0 => fmul (vat v i0) (vat {| vlen := nr; vat := fun r => mel M' (r0 + r) (c0 + k) |} i0)) = Sum nr (fun r => vat v r * mel M (r0 + r) (c0 + k))).
    { apply S_ext. intros r Hr'. cbn [vat fmul ROps]. rewrite E3. destruct (Nat.ltb_spec (c0 + k) (c0 + k)); [lia|]. rewrite !andb_false_r. reflexivity. }
    rewrite SE. destruct (Nat.eqb_spec j (c0 + k)) as [->|Nj].
    + rewrite E3. destruct (Nat.ltb_spec (c0 + k) (c0 + k)); [lia|]. destruct (Nat.leb_spec c0 (c0 + k)); [|lia]. destruct (Nat.ltb_spec (c0 + k) (c0 + S k)); [|lia].
      rewrite !andb_true_r, !andb_false_r. reflexivity.
    + rewrite andb_false_r. rewrite E3. assert (B : (j <? c0 + S k) = (j <? c0 + k)) by (destruct (Nat.ltb_spec j (c0 + S k)), (Nat.ltb_spec j (c0 + k)); try lia; reflexivity). rewrite B. reflexivity.
  - intros M' H. exact H.
Qed.
Lemma householder_bad (M : mat R) r0 c0 nr nc (v : vec R) : vlen v = nr -> (0 < nc)%nat -> householder M r0 c0 nr nc v 0 = NonFinite.
Proof.
  intros Hv Hn. unfold householder. rewrite for_step by exact Hn. rewrite (@dot_ok R ROps) by (cbn [vlen]; exact Hv). cbn [bind].
  unfold div. assert (E : feqb (0 : R) f0 = true) by (apply R_eqb_spec; reflexivity). rewrite E. reflexivity.
Qed.

Section Q.
Variable N C : nat.
Variable A : nat -> nat -> R.
Hypothesis HN : (N <= C)%nat.
Definition refl (U : nat -> R) (H : R) (M : nat -> nat -> R) (i j : nat) : R := M i j - U i * (Sum N (fun k => U k * M k j) / H).
Lemma refl_mul U H (Q M : nat -> nat -> R) : H <> 0 -> (forall i j, (i < N)%nat -> (j < C)%nat -> M i j = Sum N (fun k => Q i k * A k j)) ->
  forall i j, (i < N)%nat -> (j < C)%nat -> refl U H M i j = Sum N (fun k => refl U H Q i k * A k j).
Proof.
  intros HH E i j Hi Hj. unfold refl. rewrite (S_ext N (fun k => (Q i k - U i * (Sum N (fun k0 => U k0 * Q k0 k) / H)) * A k j)
    (fun k => Q i k * A k j - (U i / H) * Sum N (fun k0 => U k0 * (Q k0 k * A k j)))).
  2:{ intros k Hk. rewrite (S_ext N (fun k0 => U k0 * (Q k0 k * A k j)) (fun k0 => U k0 * Q k0 k * A k j)) by (intros; ring). rewrite S_mul_r. field. exact HH. }
  rewrite S_sub, S_mul_l. rewrite <- E by auto. rewrite S_swap.
  rewrite (S_ext N (fun k => U k * M k j) (fun k => Sum N (fun c => U k * (Q k c * A c j)))).
  2:{ intros k Hk. rewrite S_mul_l. rewrite <- E by auto. reflexivity. }
  field. exact HH.
Qed.
Lemma refl_orth U H (Q : nat -> nat -> R) : H <> 0 -> Sum N (fun k => U k * U k) = 2 * H ->
  (forall i j, (i < N)%nat -> (j < N)%nat -> Sum N (fun k => Q i k * Q j k) = delta i j) ->
  forall i j, (i < N)%nat -> (j < N)%nat -> Sum N (fun k => refl U H Q i k * refl U H Q j k) = delta i j.
Proof.
  intros HH E O i j Hi Hj. unfold refl. set (w := fun c => Sum N (fun k => U k * Q k c)).
  assert (W1 : forall i, (i < N)%nat -> Sum N (fun c => Q i c * w c) = U i).
  { intros p Hp. unfold w. rewrite (S_ext N _ (fun c => Sum N (fun k => U k * (Q p c * Q k c)))).
    2:{ intros c Hc. rewrite <- S_mul_l. apply S_ext. intros; ring. }
    rewrite S_swap. rewrite (S_ext N _ (fun k => U k * delta k p)).
    2:{ intros k Hk. rewrite S_mul_l, O by auto. unfold delta. rewrite Nat.eqb_sym. reflexivity. }
    apply (@sum_delta_r R ROps RLaws N p U Hp). }
  assert (W2 : Sum N (fun c => w c * w c) = 2 * H).
  { rewrite (S_ext N _ (fun c => Sum N (fun k => U k * (Q k c * w c)))).
    2:{ intros c Hc. unfold w at 1. rewrite <- S_mul_r. apply S_ext. intros; ring. }
    rewrite S_swap. rewrite <- E. apply S_ext. intros k Hk. rewrite S_mul_l, W1 by auto. reflexivity. }
  rewrite (S_ext N _ (fun k => Q i k * Q j k - (U j / H) * (Q i k * w k) - (U i / H) * (Q j k * w k) + (U i * U j / (H * H)) * (w k * w k))).
  2:{ intros k Hk. fold (w k). field. exact HH. }
  rewrite S_add, !S_sub, !S_mul_l, O, !W1, W2 by auto. field. exact HH.
Qed.
Definition ext_ (n : nat) (u : nat -> R) (k : nat) : R := if k <? n then 0 else u (k - n)%nat.
Lemma ext_sum n u f : (n <= N)%nat -> Sum N (fun k => ext_ n u k * f k) = Sum (N - n) (fun r => u r * f (n + r)%nat).
Proof.
  intros Hn. replace N with (n + (N - n))%nat at 1 by lia. rewrite S_split. rewrite (S_zero n).
  - rewrite Rplus_0_l. apply S_ext. intros r Hr. unfold ext_. destruct (Nat.ltb_spec (n + r) n); [lia|]. replace (n + r - n)%nat with r by lia. reflexivity.
  - intros k Hk. unfold ext_. destruct (Nat.ltb_spec k n); [ring|lia].
Qed.
Definition inv (n : nat) (st : mat R * mat R) : Prop :=
  let '(m, Q) := st in mrows m = N /\ mcols m = C /\ mrows Q = N /\ mcols Q = N /\
  (forall i j, (i < N)%nat -> (j < C)%nat -> mel m i j = Sum N (fun k => mel Q i k * A k j)) /\
  (forall i j, (i < N)%nat -> (j < N)%nat -> Sum N (fun k => mel Q i k * mel Q j k) = delta i j) /\
  (forall c r, (c < n)%nat -> (c < r < N)%nat -> mel m r c = 0).
Lemma sqrt_sgn y x0 : 0 <= y -> let a := sqrt y * (if R_ltb x0 0 then -1 else 1) in a * a = y /\ 0 <= a * x0.
Proof.
  intros Hy a. pose proof (sqrt_def y Hy) as E. pose proof (sqrt_pos y) as P. unfold a. destruct (R_ltb x0 0) eqn:L.
  - apply R_ltb_spec in L. split; nra.
  - apply R_ltb_false in L. split; nra.
Qed.
Lemma qr_step_ok n m Q : (n < N - 1)%nat -> inv n (m, Q) ->
  ((forall r, (n < r < N)%nat -> mel m r n = 0) -> qr_step n (m, Q) = NonFinite) /\
  ((exists r, (n < r < N)%nat /\ mel m r n <> 0) -> exists st, qr_step n (m, Q) = Ok st /\ inv (S n) st).
Proof.
  intros Hn (M1 & M2 & Q1 & Q2 & I1 & I2 & I3).
  unfold qr_step. rewrite M1, M2. replace (Nat.min N C) with N by lia. set (sz := (N - n)%nat).
  rewrite (@dot_ok R ROps) by reflexivity. cbn [bind vlen vat]. rewrite mget_ok by lia. cbn [bind].
  set (y := Sum sz (fun i => fmul (mel m (n + i) n) (mel m (n + i) n))). set (x0 := mel m n n).
  assert (Hy : 0 <= y) by (apply S_nonneg; intros; cbn [fmul ROps]; nra).
  destruct (sqrt_sgn y x0 Hy) as [Sa Sp]. set (a := sqrt y * (if R_ltb x0 0 then -1 else 1)) in *.
  replace (fmul (sqrt y) (if R_ltb x0 0 then fopp f1 else f1)) with a by (unfold a; destruct (R_ltb x0 0); cbn [fmul fopp f1 ROps]; ring).
  rewrite mset_ok by lia. cbn [bind]. rewrite mget_ok by (cbn [mrows mcols]; lia). cbn [bind mel]. rewrite !Nat.eqb_refl. cbn [andb].
  set (u := fun r => if ((n + r =? n) && true)%bool then fsub x0 a else mel m (n + r) n).
  set (H := fmul (fopp a) (fsub x0 a)). assert (EH : H = a * a - a * x0) by (unfold H; cbn [fmul fopp fsub ROps]; ring).
  assert (Y : y = x0 * x0 + Sum (sz - 1) (fun r => mel m (n + S r) n * mel m (n + S r) n)).
  { unfold y. replace sz with (S (sz - 1)) at 1 by (unfold sz; lia). rewrite S_first. rewrite Nat.add_0_r. reflexivity. }
  assert (U0 : u 0%nat = x0 - a) by (unfold u; rewrite Nat.add_0_r, Nat.eqb_refl; reflexivity).
  assert (US : forall r, (0 < r)%nat -> u r = mel m (n + r) n).
  { intros r Hr. unfold u. destruct (Nat.eqb_spec (n + r) n); [lia|]. reflexivity. }
  split.
  - intros Z. assert (y0 : y = x0 * x0). { rewrite Y. rewrite (S_zero (sz - 1)); [ring|]. intros r Hr. rewrite Z by (unfold sz in Hr; lia). ring. }
    assert (H0 : H = 0). { rewrite EH. rewrite Sa, y0. assert (K : (a - x0) * (a + x0) = 0) by nra. nra. }
    rewrite H0. rewrite householder_bad; [reflexivity|reflexivity|lia].
  - intros (r & Hr & Nz).
    assert (HH : H <> 0).
    { rewrite EH. assert (P : x0 * x0 < y).
      { rewrite Y. assert (0 < Sum (sz - 1) (fun r => mel m (n + S r) n * mel m (n + S r) n)); [|lra].
        assert (NN : 0 <= Sum (sz - 1) (fun r => mel m (n + S r) n * mel m (n + S r) n)) by (apply S_nonneg; intros; nra).
        destruct (Req_dec (Sum (sz - 1) (fun r => mel m (n + S r) n * mel m (n + S r) n)) 0) as [Z|]; [|lra].
        exfalso. apply Nz. assert (Z' := S_pos_zero _ _ (fun i _ => ltac:(cbn beta; nra) : 0 <= (fun r => mel m (n + S r) n * mel m (n + S r) n) i) Z (r - n - 1)%nat ltac:(unfold sz; lia)).
        cbn beta in Z'. replace (n + S (r - n - 1))%nat with r in Z' by lia. nra. }
      rewrite Sa. intros Z. assert (a * x0 * (a * x0) = y * y) by nra. assert (y * (x0 * x0) = y * y) by nra. assert (0 <= x0 * x0) by nra. assert (0 < y) by lra. nra. }
    set (m1 := mkmat (mrows m) (mcols m) (fun i j => if ((i =? n) && (j =? n))%bool then fsub x0 a else mel m i j)).
    assert (Em1 : forall i j, mel m1 i j = if ((i =? n) && (j =? n))%bool then x0 - a else mel m i j) by reflexivity.
    destruct (householder_ok m1 n (n + 1) sz (C - n - 1) (mkvec sz u) H eq_refl ltac:(cbn [m1 mrows]; unfold sz; lia) ltac:(cbn [m1 mcols]; lia) HH) as (m2 & E2 & R2 & C2 & G2).
    rewrite E2. cbn [bind]. cbn [m1 mrows mcols] in R2, C2.
    destruct (householder_ok Q n 0 sz N (mkvec sz u) H eq_refl ltac:(unfold sz; lia) ltac:(lia) HH) as (Q' & EQ & RQ & CQ & GQ).
    rewrite EQ. cbn [bind]. rewrite mset_ok by lia. cbn [bind].
    set (m3 := mkmat (mrows m2) (mcols m2) (fun i j => if ((i =? n) && (j =? n))%bool then a else mel m2 i j)).
    assert (L : wp (for_ 1 sz (fun r m => mset m (n + r) n f0) m3) (fun m4 => mrows m4 = N /\ mcols m4 = C /\ forall i j, mel m4 i j = if ((n <? i) && (i <? n + sz) && (j =? n))%bool then 0 else mel m3 i j)).
    { eapply wp_mono; [apply (wp_for (fun k m4 => mrows m4 = N /\ mcols m4 = C /\ forall i j, mel m4 i j = if ((n <? i) && (i <? n + k) && (j =? n))%bool then 0 else mel m3 i j))|].
      - unfold sz; lia.
      - split; [cbn [m3 mrows]; lia|]. split; [cbn [m3 mcols]; lia|]. intros i j. destruct (Nat.ltb_spec n i), (Nat.ltb_spec i (n + 1)); try lia; reflexivity.
      - intros k m4 Hk (E4 & F4 & G4). rewrite mset_ok by (unfold sz in Hk; lia). cbn [wp mrows mcols mel]. split; [exact E4|]. split; [exact F4|]. intros i j.
        rewrite G4. destruct (Nat.eqb_spec i (n + k)) as [->|Ni], (Nat.eqb_spec j n) as [->|Nj]; cbn [andb]; rewrite ?andb_false_r, ?andb_true_r.
        + destruct (Nat.ltb_spec n (n + k)), (Nat.ltb_spec (n + k) (n + S k)); try lia. reflexivity.
        + reflexivity.
        + destruct (Nat.ltb_spec n i), (Nat.ltb_spec i (n + k)), (Nat.ltb_spec i (n + S k)); try lia; reflexivity.
        + reflexivity.
      - intros m4 X. exact X. }
    apply wp_ok_inv in L. destruct L as (m4 & E4 & R4 & C4 & G4). rewrite E4. cbn [bind]. exists (m4, Q'). split; [reflexivity|].
    set (U := ext_ n u).
    assert (US2 : Sum N (fun k => U k * U k) = 2 * H).
    { unfold U. rewrite (ext_sum n u (ext_ n u)) by lia. fold sz.
      rewrite (S_ext sz _ (fun r => u r * u r)). 2:{ intros k Hk. unfold ext_. destruct (Nat.ltb_spec (n + k) n); [lia|]. replace (n + k - n)%nat with k by lia. reflexivity. }
      replace sz with (S (sz - 1)) by (unfold sz; lia). rewrite S_first, U0.
      rewrite (S_ext (sz - 1) _ (fun r => mel m (n + S r) n * mel m (n + S r) n)) by (intros; rewrite US by lia; reflexivity).
      assert (Sum (sz - 1) (fun r0 => mel m (n + S r0) n * mel m (n + S r0) n) = y - x0 * x0) by lra. rewrite EH. nra. }
    (* the whole step is a reflection *)
    assert (GQ' : forall i j, (i < N)%nat -> (j < N)%nat -> mel Q' i j = refl U H (mel Q) i j).
    { intros i j Hi Hj. rewrite GQ. unfold refl, U. rewrite (ext_sum n u (fun k => mel Q k j)) by lia. fold sz. cbn [vat].
      destruct (Nat.leb_spec n i), (Nat.ltb_spec i (n + sz)), (Nat.ltb_spec j (0 + N)); try (unfold sz in *; lia); cbn [andb].
      - unfold ext_. destruct (Nat.ltb_spec i n); [lia|]. reflexivity.
      - unfold ext_. destruct (Nat.ltb_spec i n); [|lia]. ring. }
    assert (Gm : forall i j, (i < N)%nat -> (j < C)%nat -> mel m4 i j = refl U H (mel m) i j).
    { intros i j Hi Hj. rewrite G4. cbn [m3 mel]. rewrite G2. unfold refl, U. rewrite (ext_sum n u (fun k => mel m k j)) by lia. fold sz. cbn [vat].
      destruct (lt_eq_lt_dec j n) as [[Lj|Ej]|Lj].
      - (* columns already reduced *)
        assert (B1 : (j =? n) = false) by (apply Nat.eqb_neq; lia). assert (B2 : (n + 1 <=? j) = false) by (apply Nat.leb_gt; lia).
        rewrite B1, B2, !andb_false_r. rewrite Em1, B1, andb_false_r. cbn [andb]. rewrite (S_zero sz). 2:{ intros r' Hr'. rewrite I3 by (unfold sz in Hr'; lia). ring. } unfold Rdiv. ring.
      - subst j. assert (B2 : (n + 1 <=? n) = false) by (apply Nat.leb_gt; lia). rewrite Nat.eqb_refl, B2, !andb_true_r, !andb_false_r. cbn [andb].
        assert (XX : Sum sz (fun r => u r * mel m (n + r) n) = H).
        { replace sz with (S (sz - 1)) by (unfold sz; lia). rewrite S_first, U0. rewrite (S_ext (sz - 1) _ (fun r => mel m (n + S r) n * mel m (n + S r) n)) by (intros; rewrite US by lia; reflexivity).
          rewrite Nat.add_0_r. fold x0. rewrite EH, Sa. lra. }
        rewrite XX. replace (H / H) with 1 by (field; exact HH). unfold ext_.
        destruct (lt_eq_lt_dec i n) as [[Li|Ei]|Li].
        + destruct (Nat.ltb_spec n i), (Nat.eqb_spec i n), (Nat.ltb_spec i n); try lia. cbn [andb]. rewrite Em1. destruct (Nat.eqb_spec i n); [lia|]. cbn [andb]. ring.
        + subst i. destruct (Nat.ltb_spec n n); [lia|]. rewrite Nat.eqb_refl. cbn [andb]. replace (n - n)%nat with 0%nat by lia. rewrite U0. fold x0. ring.
        + destruct (Nat.ltb_spec n i), (Nat.ltb_spec i (n + sz)), (Nat.ltb_spec i n); try (unfold sz in *; lia). cbn [andb]. rewrite US by lia. replace (n + (i - n))%nat with i by lia. ring.
      - assert (B1 : (j =? n) = false) by (apply Nat.eqb_neq; lia). assert (B2 : (n + 1 <=? j) = true) by (apply Nat.leb_le; lia).
        assert (B3 : (j <? n + 1 + (C - n - 1)) = true) by (apply Nat.ltb_lt; lia).
        rewrite B1, B2, B3, !andb_false_r, !andb_true_r. rewrite Em1, B1, andb_false_r.
        rewrite (S_ext sz (fun r0 => u r0 * mel m1 (n + r0) j) (fun r0 => u r0 * mel m (n + r0) j)). 2:{ intros k Hk. rewrite Em1, B1, andb_false_r. reflexivity. }
        unfold ext_. destruct (Nat.leb_spec n i), (Nat.ltb_spec i (n + sz)), (Nat.ltb_spec i n); try (unfold sz in *; lia); cbn [andb]; ring. }
    unfold inv. split; [exact R4|]. split; [exact C4|]. split; [congruence|]. split; [congruence|]. split; [|split].
    + intros i j Hi Hj. rewrite Gm by auto. rewrite (refl_mul U H (mel Q) (mel m) HH I1) by auto. apply S_ext. intros k Hk. rewrite GQ' by auto. reflexivity.
    + intros i j Hi Hj. rewrite <- (refl_orth U H (mel Q) HH US2 I2 i j Hi Hj). apply S_ext. intros k Hk. rewrite !GQ' by auto. reflexivity.
    + intros c r' Hc Hr'. rewrite G4. cbn [m3 mel]. destruct (Nat.eq_dec c n) as [->|Nc].
      * rewrite Nat.eqb_refl. destruct (Nat.ltb_spec n r'), (Nat.ltb_spec r' (n + sz)); try (unfold sz in *; lia). reflexivity.
      * assert (B1 : (c =? n) = false) by (apply Nat.eqb_neq; lia). rewrite B1, !andb_false_r. rewrite G2.
        assert (B2 : (n + 1 <=? c) = false) by (apply Nat.leb_gt; lia). rewrite B2, !andb_false_r. cbn [andb]. rewrite Em1, B1, andb_false_r. apply I3; lia.
Qed.
End Q.
Lemma transpose_ok (Q : mat R) n : mrows Q = n -> mcols Q = n -> exists Q', transpose_in_place Q = Ok Q' /\ mat_is Q' n n (fun i j => mel Q j i).
Proof.
  intros H1 H2. apply wp_ok_inv. unfold transpose_in_place. rewrite H1.
  eapply wp_mono; [apply (wp_for (fun k Q' => mrows Q' = n /\ mcols Q' = n /\ forall i j, mel Q' i j = if ((i <? n) && (j <? n) && ((i <? k) || (j <? k)))%bool then mel Q j i else mel Q i j))|].
  - lia.
  - split; [exact H1|]. split; [exact H2|]. intros i j. destruct (Nat.ltb_spec i 0), (Nat.ltb_spec j 0); try lia. cbn [orb]. rewrite andb_false_r. reflexivity.
  - intros k Q' Hk (E1 & E2 & E3). rewrite E2.
    eapply wp_mono; [apply (wp_for (fun l Q'' => mrows Q'' = n /\ mcols Q'' = n /\ forall i j, mel Q'' i j =
      if ((i <? n) && (j <? n) && ((i <? k) || (j <? k) || ((i =? k) && (j <? l)) || ((j =? k) && (i <? l))))%bool then mel Q j i else mel Q i j))|].
    + lia.
    + split; [exact E1|]. split; [exact E2|]. intros i j. rewrite E3.
      destruct (Nat.ltb_spec i n), (Nat.ltb_spec j n), (Nat.ltb_spec i k), (Nat.ltb_spec j k), (Nat.eqb_spec i k), (Nat.eqb_spec j k), (Nat.ltb_spec i (k + 1)), (Nat.ltb_spec j (k + 1)); cbn [andb orb]; try lia; try reflexivity. subst. reflexivity.
    + intros l Q2 Hl (F1 & F2 & F3). rewrite !mget_ok by lia. cbn [bind]. rewrite mset_ok by lia. cbn [bind]. rewrite mset_ok by (cbn [mrows mcols]; lia). cbn [wp mrows mcols mel].
      split; [exact F1|]. split; [exact F2|]. intros i j. rewrite !F3.
      destruct (Nat.eqb_spec i l) as [->|Ni], (Nat.eqb_spec j k) as [->|Nj]; cbn [andb].
      * destruct (Nat.ltb_spec k n), (Nat.ltb_spec l n), (Nat.ltb_spec k k), (Nat.ltb_spec l k), (Nat.eqb_spec k k), (Nat.eqb_spec l k), (Nat.ltb_spec l l), (Nat.ltb_spec k l), (Nat.ltb_spec l (S l)), (Nat.ltb_spec k (S l)); cbn [andb orb]; try lia; try reflexivity.
      * destruct (Nat.eqb_spec l k); [lia|]. cbn [andb]. destruct (Nat.ltb_spec j l), (Nat.ltb_spec j (S l)), (Nat.ltb_spec l l), (Nat.ltb_spec l (S l)); try lia; rewrite ?andb_false_r, ?andb_true_r, ?orb_false_r; cbn [andb]; rewrite ?orb_false_r; reflexivity.
      * destruct (Nat.eqb_spec i k) as [->|Nk]; cbn [andb].
        -- destruct (Nat.eqb_spec k l); [lia|]. cbn [andb]. destruct (Nat.ltb_spec k l), (Nat.ltb_spec k (S l)); try lia. reflexivity.
        -- destruct (Nat.ltb_spec i l), (Nat.ltb_spec i (S l)); try lia; reflexivity.
      * destruct (Nat.eqb_spec i k) as [->|Nk], (Nat.eqb_spec j l) as [->|Nl]; cbn [andb].
        -- destruct (Nat.eqb_spec l k); [lia|]. destruct (Nat.ltb_spec k n), (Nat.ltb_spec l n), (Nat.ltb_spec l k), (Nat.ltb_spec k k), (Nat.ltb_spec l l), (Nat.ltb_spec l (S l)); cbn [andb orb]; try lia; try reflexivity. all: rewrite ?Nat.eqb_refl; try reflexivity.
        -- destruct (Nat.ltb_spec j l), (Nat.ltb_spec j (S l)); try lia; destruct (Nat.eqb_spec j k); try lia; reflexivity.
        -- reflexivity.
        -- reflexivity.
    + intros Q2 (F1 & F2 & F3). split; [exact F1|]. split; [exact F2|]. intros i j. rewrite F3.
      destruct (Nat.ltb_spec i n), (Nat.ltb_spec j n), (Nat.ltb_spec i k), (Nat.ltb_spec j k), (Nat.eqb_spec i k), (Nat.eqb_spec j k), (Nat.ltb_spec i (S k)), (Nat.ltb_spec j (S k)); cbn [andb orb]; try lia; reflexivity.
  - intros Q' (E1 & E2 & E3). split; [exact E1|]. split; [exact E2|]. intros i j Hi Hj. rewrite E3.
    destruct (Nat.ltb_spec i n), (Nat.ltb_spec j n); try lia. reflexivity.
Qed.
