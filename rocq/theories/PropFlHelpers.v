(** * C108: projective coordinates and the 2x2 inverse in floating point. *)
From Coq Require Import Reals Lra Lia Arith Bool List ZArith.
From Flocq Require Import Core.
From Verif Require Import Base Alg Inst Mat SpecMat LemMat LemOps LemHelpers ModelOps ModelHelpers RSum ModelFl SpecFl LemFl ExFl ExFlSO3 PropFlGolden PropFlCG.
Import ListNotations.
Open Scope outcome_scope.
Local Open Scope R_scope.

(** project: every coordinate is correctly rounded; it fails exactly for a zero last coordinate *)
Theorem C108_project : forall u rnd, rounding u rnd -> forall (v : vec R) k, vlen v = S k ->
  (vat v k <> 0 -> exists w, @project_vec R (FlOps rnd) v = Ok w /\ vlen w = k /\ forall i, (i < k)%nat -> vat w i = rnd (vat v i / vat v k) /\ Rabs (vat w i - vat v i / vat v k) <= u * Rabs (vat v i / vat v k)) /\
  ((0 < k)%nat -> vat v k = 0 -> @project_vec R (FlOps rnd) v = NonFinite).
Proof.
  intros u rnd RN v k H. unfold project_vec. rewrite H. rewrite vget_ok by lia. cbn [bind]. split.
  - intros Z. assert (D : @gives_vec R (@vdivs R (FlOps rnd) (mkvec k (vat v)) (vat v k)) k (fun i => rnd (vat v i / vat v k))).
    { apply vfor_ok. intros i Hi. rewrite vget_ok by exact Hi. cbn [bind vat]. unfold div. cbn [feqb f0 FlOps]. unfold R_eqb. destruct (Req_EM_T (vat v k) 0); [contradiction|reflexivity]. }
    destruct D as (w & E & W1 & W2). exists w. split; [exact E|]. split; [exact W1|]. intros i Hi. rewrite (W2 i Hi). split; [reflexivity|]. destruct RN as (_ & E' & _). apply E'.
  - intros Hk Z. rewrite Z. unfold vdivs, vfor. cbn [vlen]. destruct k as [|k]; [lia|]. unfold for_. rewrite Nat.sub_0_r. cbn [for_up]. rewrite vget_ok by (cbn [vlen]; lia). cbn [bind]. unfold div. cbn [feqb f0 FlOps]. unfold R_eqb. destruct (Req_EM_T 0 0); [reflexivity|contradiction].
Qed.
(** project undoes unproject without any error *)
Theorem C108_project_unproject : forall u rnd, rounding u rnd -> forall v : vec R, (forall i, (i < vlen v)%nat -> rnd (vat v i) = vat v i) ->
  exists w, (x <- @unproject_vec R (FlOps rnd) v ;; @project_vec R (FlOps rnd) x) = Ok w /\ vlen w = vlen v /\ forall i, (i < vlen v)%nat -> vat w i = vat v i.
Proof.
  intros u rnd RN v F. destruct (@unproject_vec_ok R (FlOps rnd) v) as (x & E & X1 & X2). rewrite E. cbn [bind]. assert (L : vat x (vlen v) = 1) by (rewrite X2 by lia; rewrite Nat.ltb_irrefl; reflexivity).
  destruct (C108_project u rnd RN x (vlen v) X1) as [P _]. destruct (P ltac:(rewrite L; lra)) as (w & Ew & W1 & W2). exists w. split; [exact Ew|]. split; [exact W1|]. intros i Hi. destruct (W2 i Hi) as [-> _]. rewrite L, X2 by lia. apply Nat.ltb_lt in Hi as Hi'. rewrite Hi'. unfold Rdiv. rewrite Rinv_1, Rmult_1_r. apply F. exact Hi.
Qed.

(** the adjugate of a 2x2 matrix *)
Definition adj2 (m : mat R) (i j : nat) : R := match i, j with 0%nat, 0%nat => mel m 1 1 | 0%nat, _ => - mel m 0 1 | _, 0%nat => - mel m 1 0 | _, _ => mel m 0 0 end.
Definition det2 (m : mat R) : R := mel m 0 0 * mel m 1 1 - mel m 0 1 * mel m 1 0.
Section I.
Variables (u : R) (rnd : R -> R).
Hypothesis RN : rounding u rnd.
Let U : 0 <= u < 1. Proof. apply RN. Qed.
Lemma fl_inv2_ok m : mrows m = 2%nat -> mcols m = 2%nat -> let d := rnd (rnd (mel m 0 0 * mel m 1 1) - rnd (mel m 1 0 * mel m 0 1)) in
  (d = 0 -> @inv2 R (FlOps rnd) m = NonFinite) /\ (d <> 0 -> exists w, @inv2 R (FlOps rnd) m = Ok w /\ mrows w = 2%nat /\ mcols w = 2%nat /\ forall i j, (i < 2)%nat -> (j < 2)%nat -> mel w i j = rnd (adj2 m i j * rnd (1 / d))).
Proof.
  intros Hr Hc d. unfold inv2. rewrite !mget_ok by lia. cbn [bind]. unfold div. cbn [feqb f0 f1 fdiv fsub fmul fopp FlOps]. fold d. unfold R_eqb. destruct (Req_EM_T d 0) as [Z|Z]; (split; [intros H|intros H]); try contradiction; [reflexivity|].
  cbn [bind]. eexists. split; [reflexivity|]. split; [reflexivity|]. split; [reflexivity|]. cbn [mel]. intros i j Hi Hj. destruct i as [|[|i]]; [| |lia]; (destruct j as [|[|j]]; [| |lia]); reflexivity.
Qed.
(** inv either fails, exactly when the two products of the determinant round to the same number, or gives the adjugate over the determinant of a matrix with one relative error of u in each entry of the first column, each entry to three more roundings *)
Theorem C108_inverse_2x2 : forall m : mat R, mrows m = 2%nat -> mcols m = 2%nat ->
  (rnd (mel m 0 0 * mel m 1 1) = rnd (mel m 1 0 * mel m 0 1) /\ @inv2 R (FlOps rnd) m = NonFinite) \/
  exists w p q g, @inv2 R (FlOps rnd) m = Ok w /\ mrows w = 2%nat /\ mcols w = 2%nat /\ near u 1 p /\ near u 1 q /\ (forall i j, fac u 3 (g i j)) /\
    let d := mel m 0 0 * p * mel m 1 1 - mel m 0 1 * (mel m 1 0 * q) in d <> 0 /\ forall i j, (i < 2)%nat -> (j < 2)%nat -> mel w i j = adj2 m i j / d * g i j.
Proof.
  intros m Hr Hc. destruct (fl_inv2_ok m Hr Hc) as [A B]. set (d0 := rnd (rnd (mel m 0 0 * mel m 1 1) - rnd (mel m 1 0 * mel m 0 1))) in *.
  destruct (Req_dec d0 0) as [Z|Z].
  - left. split; [|auto]. destruct (Req_dec (rnd (mel m 0 0 * mel m 1 1) - rnd (mel m 1 0 * mel m 0 1)) 0) as [Z'|Z']; [lra|]. exfalso. exact (rnd_nz u rnd RN _ Z' Z).
  - right. destruct (B Z) as (w & E & W1 & W2 & W3). destruct (rnd_near u rnd RN (mel m 0 0 * mel m 1 1)) as (p & Hp & Ep). destruct (rnd_near u rnd RN (mel m 1 0 * mel m 0 1)) as (q & Hq & Eq).
    destruct (rnd_fac u rnd RN (mel m 0 0 * mel m 1 1 * p - mel m 1 0 * mel m 0 1 * q)) as (t & Ft & Et). set (d := mel m 0 0 * p * mel m 1 1 - mel m 0 1 * (mel m 1 0 * q)).
    assert (D : d0 = d * t) by (unfold d0; rewrite Ep, Eq, Et; unfold d; ring). pose proof (fac_pos u 1 t U Ft) as Pt. assert (Zd : d <> 0) by (intros H; apply Z; rewrite D, H; ring).
    destruct (rnd_fac u rnd RN (1 / d0)) as (s & Fs & Es). rewrite Es in W3.
    assert (C : forall i j : nat, exists g, fac u 3 g /\ ((i < 2)%nat -> (j < 2)%nat -> mel w i j = adj2 m i j / d * g)).
    { intros i j. destruct (rnd_fac u rnd RN (adj2 m i j * (1 / d0 * s))) as (r & Fr & Er). exists (/ t * s * r). split; [change 3%nat with (1 + 1 + 1)%nat; apply fac_mul; [exact U| |exact Fr]; apply fac_mul; [exact U|apply fac_inv; assumption|exact Fs]|].
      intros Hi Hj. rewrite W3 by assumption. rewrite Er, D. field. split; [lra|exact Zd]. }
    destruct (C 0%nat 0%nat) as (g00 & G00 & V00). destruct (C 0%nat 1%nat) as (g01 & G01 & V01). destruct (C 1%nat 0%nat) as (g10 & G10 & V10). destruct (C 1%nat 1%nat) as (g11 & G11 & V11).
    exists w, p, q, (fun i j => match i, j with 0%nat, 0%nat => g00 | 0%nat, _ => g01 | _, 0%nat => g10 | _, _ => g11 end).
    split; [exact E|]. split; [exact W1|]. split; [exact W2|]. split; [exact Hp|]. split; [exact Hq|]. split; [intros [|i] [|j]; assumption|]. split; [exact Zd|].
    intros i j Hi Hj. destruct i as [|[|i]]; [| |lia]; (destruct j as [|[|j]]; [| |lia]); auto.
Qed.
(** it succeeds, with a relative error of each entry close to the condition of the determinant, when the determinant is not lost in the rounding of its two products *)
Theorem C108_inverse_2x2_accurate : forall m : mat R, mrows m = 2%nat -> mcols m = 2%nat ->
  let s := u * (Rabs (mel m 0 0 * mel m 1 1) + Rabs (mel m 0 1 * mel m 1 0)) in s < Rabs (det2 m) -> let k := s / (Rabs (det2 m) - s) in
  exists w, @inv2 R (FlOps rnd) m = Ok w /\ mrows w = 2%nat /\ mcols w = 2%nat /\ forall i j, (i < 2)%nat -> (j < 2)%nat -> Rabs (mel w i j - adj2 m i j / det2 m) <= ((1 + k) * (1 + bwd u 3) - 1) * Rabs (adj2 m i j / det2 m).
Proof.
  intros m Hr Hc s Hs k. assert (S0 : 0 <= s) by (unfold s; apply Rmult_le_pos; [lra|pose proof (Rabs_pos (mel m 0 0 * mel m 1 1)); pose proof (Rabs_pos (mel m 0 1 * mel m 1 0)); lra]).
  assert (DD : forall p q, Rabs (p - 1) <= u -> Rabs (q - 1) <= u -> Rabs (mel m 0 0 * p * mel m 1 1 - mel m 0 1 * (mel m 1 0 * q) - det2 m) <= s).
  { intros p q Hp Hq. unfold det2, s. set (x := mel m 0 0 * mel m 1 1). set (y := mel m 0 1 * mel m 1 0). replace (mel m 0 0 * p * mel m 1 1 - mel m 0 1 * (mel m 1 0 * q) - (x - y)) with (x * (p - 1) + - (y * (q - 1))) by (unfold x, y; ring).
    eapply Rle_trans; [apply Rabs_triang|]. rewrite Rabs_Ropp, !Rabs_mult. pose proof (Rmult_le_compat_l (Rabs x) _ _ (Rabs_pos x) Hp). pose proof (Rmult_le_compat_l (Rabs y) _ _ (Rabs_pos y) Hq). lra. }
  assert (N1 : forall c, near u 1 c -> Rabs (c - 1) <= u) by (intros c H; pose proof (near_err u 1 c U H) as Q; unfold fwd in Q; rewrite pow_1 in Q; lra).
  assert (D0 : det2 m <> 0) by (intros H; rewrite H, Rabs_R0 in Hs; lra).
  destruct (C108_inverse_2x2 m Hr Hc) as [[Z _]|(w & p & q & g & E & W1 & W2 & Hp & Hq & Hg & Zd & W)].
  - exfalso. destruct (rnd_near u rnd RN (mel m 0 0 * mel m 1 1)) as (p & Hp & Ep). destruct (rnd_near u rnd RN (mel m 1 0 * mel m 0 1)) as (q & Hq & Eq). rewrite Ep, Eq in Z. pose proof (DD p q (N1 p Hp) (N1 q Hq)) as Q.
    replace (mel m 0 0 * p * mel m 1 1 - mel m 0 1 * (mel m 1 0 * q) - det2 m) with (- det2 m) in Q by (replace (mel m 0 0 * p * mel m 1 1 - mel m 0 1 * (mel m 1 0 * q)) with (mel m 0 0 * mel m 1 1 * p - mel m 1 0 * mel m 0 1 * q) by ring; rewrite Z; ring). rewrite Rabs_Ropp in Q. lra.
  - exists w. split; [exact E|]. split; [exact W1|]. split; [exact W2|]. intros i j Hi Hj. rewrite W by assumption. pose proof (DD p q (N1 p Hp) (N1 q Hq)) as Q. set (d := mel m 0 0 * p * mel m 1 1 - mel m 0 1 * (mel m 1 0 * q)) in *. set (D := det2 m) in *.
    replace (adj2 m i j / d * g i j - adj2 m i j / D) with ((D / d * g i j - 1) * (adj2 m i j / D)) by (field; split; assumption). rewrite Rabs_mult. apply Rmult_le_compat_r; [apply Rabs_pos|].
    pose proof (fac_err u 3 (g i j) U (Hg i j)) as G. set (e := g i j - 1) in *. assert (K : Rabs (D / d - 1) <= k).
    { replace (D / d - 1) with (- ((d - D) / d)) by (field; exact Zd). rewrite Rabs_Ropp. unfold Rdiv. rewrite Rabs_mult, Rabs_inv. unfold k, Rdiv. pose proof (Rabs_triang_inv D (D - d)) as T. replace (D - (D - d)) with d in T by ring. rewrite (Rabs_minus_sym D d) in T. apply Rmult_le_compat; [apply Rabs_pos|left; apply Rinv_0_lt_compat, Rabs_pos_lt; exact Zd|exact Q|]. apply Rinv_le_contravar; lra. }
    replace (D / d * g i j - 1) with (D / d - 1 + (1 + (D / d - 1)) * e) by (unfold e; ring). eapply Rle_trans; [apply Rabs_triang|]. rewrite Rabs_mult. pose proof (Rabs_triang 1 (D / d - 1)) as T. rewrite Rabs_R1 in T. set (z := Rabs (1 + (D / d - 1))) in *. pose proof (Rabs_pos (1 + (D / d - 1))). fold z in H. pose proof (Rabs_pos e).
    assert (z * Rabs e <= (1 + k) * bwd u 3) by (apply Rmult_le_compat; lra). lra.
Qed.
(** the result times the matrix is the identity up to the rounding of the entries and of the determinant *)
Theorem C108_inverse_2x2_residual : forall m w : mat R, mrows m = 2%nat -> mcols m = 2%nat -> @inv2 R (FlOps rnd) m = Ok w -> exists d, d <> 0 /\ Rabs (d - det2 m) <= u * (Rabs (mel m 0 0 * mel m 1 1) + Rabs (mel m 0 1 * mel m 1 0)) /\
  forall i j, (i < 2)%nat -> (j < 2)%nat -> Rabs (mel w i 0 * mel m 0 j + mel w i 1 * mel m 1 j - (if (i =? j)%nat then 1 else 0)) <= 2 * bwd u 3 * ((Rabs (adj2 m i 0 * mel m 0 j) + Rabs (adj2 m i 1 * mel m 1 j)) / Rabs d).
Proof.
  intros m w Hr Hc E. assert (N1 : forall c, near u 1 c -> Rabs (c - 1) <= u) by (intros c H; pose proof (near_err u 1 c U H) as Q; unfold fwd in Q; rewrite pow_1 in Q; lra).
  destruct (C108_inverse_2x2 m Hr Hc) as [[_ Z]|(w' & p & q & g & E' & W1 & W2 & Hp & Hq & Hg & Zd & W)]; [congruence|]. rewrite E in E'. injection E' as <-. set (d := mel m 0 0 * p * mel m 1 1 - mel m 0 1 * (mel m 1 0 * q)) in *. exists d. split; [exact Zd|].
  pose proof (N1 p Hp) as Np. pose proof (N1 q Hq) as Nq. split.
  - unfold det2, d. set (x := mel m 0 0 * mel m 1 1). set (y := mel m 0 1 * mel m 1 0). replace (mel m 0 0 * p * mel m 1 1 - mel m 0 1 * (mel m 1 0 * q) - (x - y)) with (x * (p - 1) + - (y * (q - 1))) by (unfold x, y; ring).
    eapply Rle_trans; [apply Rabs_triang|]. rewrite Rabs_Ropp, !Rabs_mult. pose proof (Rmult_le_compat_l (Rabs x) _ _ (Rabs_pos x) Np). pose proof (Rmult_le_compat_l (Rabs y) _ _ (Rabs_pos y) Nq). lra.
  - assert (Ub : u <= bwd u 3). { pose proof (fwd_bwd u 3 U). unfold fwd in H. cbn [pow] in H. assert (Q2 : 0 <= u * u) by (apply Rmult_le_pos; lra). assert (Q3 : 0 <= u * u * u) by (apply Rmult_le_pos; lra). replace ((1 + u) * ((1 + u) * ((1 + u) * 1)) - 1) with (3 * u + 3 * (u * u) + u * u * u) in H by ring. lra. }
    assert (Ge : forall i j, Rabs (g i j - 1) <= bwd u 3) by (intros i j; apply fac_err; auto).
    assert (T : forall x y e f, Rabs e <= 2 * bwd u 3 -> Rabs f <= 2 * bwd u 3 -> Rabs ((x * e + y * f) / d) <= 2 * bwd u 3 * ((Rabs x + Rabs y) / Rabs d)).
    { intros x y e f He Hf. unfold Rdiv. rewrite Rabs_mult, Rabs_inv, <- Rmult_assoc. apply Rmult_le_compat_r; [left; apply Rinv_0_lt_compat, Rabs_pos_lt; exact Zd|]. eapply Rle_trans; [apply Rabs_triang|]. rewrite !Rabs_mult. pose proof (Rmult_le_compat_l (Rabs x) _ _ (Rabs_pos x) He). pose proof (Rmult_le_compat_l (Rabs y) _ _ (Rabs_pos y) Hf). lra. }
    assert (Dif : forall x y, Rabs (x - 1) <= bwd u 3 -> Rabs (y - 1) <= bwd u 3 -> Rabs (x - y) <= 2 * bwd u 3). { intros x y Hx Hy. replace (x - y) with (x - 1 + - (y - 1)) by ring. eapply Rle_trans; [apply Rabs_triang|]. rewrite Rabs_Ropp. lra. }
    intros i j Hi Hj. rewrite !W by lia. destruct i as [|[|i]]; [| |lia]; (destruct j as [|[|j]]; [| |lia]); cbn [Nat.eqb adj2].
    + replace (mel m 1 1 / d * g 0%nat 0%nat * mel m 0 0 + - mel m 0 1 / d * g 0%nat 1%nat * mel m 1 0 - 1) with ((mel m 1 1 * mel m 0 0 * (g 0%nat 0%nat - p) + - mel m 0 1 * mel m 1 0 * (g 0%nat 1%nat - q)) / d) by (unfold d; field; exact Zd). apply T; apply Dif; auto; lra.
    + replace (mel m 1 1 / d * g 0%nat 0%nat * mel m 0 1 + - mel m 0 1 / d * g 0%nat 1%nat * mel m 1 1 - 0) with ((mel m 1 1 * mel m 0 1 * (g 0%nat 0%nat - 1) + - mel m 0 1 * mel m 1 1 * (g 0%nat 1%nat - 1)) / d) by (unfold d; field; exact Zd). pose proof (Ge 0%nat 0%nat). pose proof (Ge 0%nat 1%nat). pose proof (Rabs_pos (g 0%nat 0%nat - 1)). apply T; lra.
    + replace (- mel m 1 0 / d * g 1%nat 0%nat * mel m 0 0 + mel m 0 0 / d * g 1%nat 1%nat * mel m 1 0 - 0) with ((- mel m 1 0 * mel m 0 0 * (g 1%nat 0%nat - 1) + mel m 0 0 * mel m 1 0 * (g 1%nat 1%nat - 1)) / d) by (unfold d; field; exact Zd). pose proof (Ge 1%nat 0%nat). pose proof (Ge 1%nat 1%nat). pose proof (Rabs_pos (g 1%nat 0%nat - 1)). apply T; lra.
    + replace (- mel m 1 0 / d * g 1%nat 0%nat * mel m 0 1 + mel m 0 0 / d * g 1%nat 1%nat * mel m 1 1 - 1) with ((- mel m 1 0 * mel m 0 1 * (g 1%nat 0%nat - q) + mel m 0 0 * mel m 1 1 * (g 1%nat 1%nat - p)) / d) by (unfold d; field; exact Zd). apply T; apply Dif; auto; lra.
Qed.
End I.
(** in double precision an invertible matrix can be refused: its determinant is 2^-104 but both products round to 1 + 2^-51 *)
Definition near_singular : mat R := mkmat 2 2 (fun i j => match i, j with 0%nat, 0%nat => 1 + / 2 ^ 52 | 0%nat, _ => 1 | _, 0%nat => 1 + / 2 ^ 51 | _, _ => 1 + / 2 ^ 52 end).
Theorem C108_invertible_refuted : (forall i j, rnd64 (mel near_singular i j) = mel near_singular i j) /\ det2 near_singular = / 2 ^ 104 /\ @inv2 R (FlOps rnd64) near_singular = NonFinite.
Proof.
  assert (A : rnd64 (1 + / 2 ^ 52) = 1 + / 2 ^ 52) by (exact_ (2 ^ 52 + 1)%Z (-52)%Z). assert (B : rnd64 (1 + / 2 ^ 51) = 1 + / 2 ^ 51) by (exact_ (2 ^ 51 + 1)%Z (-51)%Z).
  split; [intros [|i] [|j]; cbn [near_singular mel]; [exact A|exact one_is|exact B|exact A]|]. split; [unfold det2, near_singular; cbn [mel]; field|].
  assert (E : 0 < / 2 ^ 52 < 1 / 1000 /\ / 2 ^ 52 * bpow radix2 52 = 1) by (cbn; lra). destruct E as [E1 E2].
  assert (R1 : 1 <= (1 + / 2 ^ 52) * (1 + / 2 ^ 52) < 2) by (set (e := / 2 ^ 52) in *; nra).
  assert (R2 : Rabs ((1 + / 2 ^ 52) * (1 + / 2 ^ 52) * bpow radix2 52 - IZR (2 ^ 52 + 2)) < / 2).
  { assert (B52 : bpow radix2 52 = IZR (2 ^ 52)) by reflexivity. rewrite plus_IZR, <- B52. set (e := / 2 ^ 52) in *. set (b := bpow radix2 52) in *. replace ((1 + e) * (1 + e) * b - (b + 2)) with (e * b * (2 + e) - 2) by ring. rewrite E2. apply Rabs_def1; lra. }
  destruct (fl_inv2_ok rnd64 near_singular eq_refl eq_refl) as [Z _]. apply Z. cbn [near_singular mel]. rewrite Rmult_1_r, B. rewrite (rnd64_1_2 ((1 + / 2 ^ 52) * (1 + / 2 ^ 52)) (2 ^ 52 + 2) R1 R2).
  replace (IZR (2 ^ 52 + 2) * bpow radix2 (-52) - (1 + / 2 ^ 51)) with 0 by (cbn; lra). exact_ 0%Z 0%Z.
Qed.
(** the hypotheses are met in double precision *)
Example C108_double : rounding (/ 2 * bpow radix2 (-52)) rnd64 /\ let m := mkmat 2 2 (fun i j => INR (i + 2 * j + 1)) in / 2 * bpow radix2 (-52) * (Rabs (mel m 0 0 * mel m 1 1) + Rabs (mel m 0 1 * mel m 1 0)) < Rabs (det2 m).
Proof.
  split; [exact rnd64_rounding|]. cbn zeta. unfold det2. cbn [mel Nat.add Nat.mul INR]. rewrite (Rabs_left (1 * _ - _)) by lra. rewrite !Rabs_right by lra. pose proof u64_small. lra.
Qed.
