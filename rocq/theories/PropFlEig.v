(** * C101: the 2x2 symmetric eigen-decomposition in floating point. *)
From Coq Require Import Reals Lra Lia Psatz Arith Bool ZArith.
From Flocq Require Import Core.
From Verif Require Import Base Alg Mat SpecMat LemMat Inst RSum ModelOps ModelFl SpecFl LemFl LemFlChol LemFlSO3 ExFl ExFlSO3 ModelEig SpecEig LemEig PropEig ModelFlEig SpecFlEig LemFlEig ExFlEig.
Open Scope outcome_scope.
Local Open Scope R_scope.

Notation p_ m := (mel m 0%nat 0%nat).
Notation b_ m := (mel m 0%nat 1%nat).
Notation q_ m := (mel m 1%nat 1%nat).
Definition mk_eig (e0 e1 x y : R) : eig :=
  mkeig (mkmat 2 2 (fun i j => match i, j with 0%nat, 0%nat => x | 0%nat, _ => y | _, 0%nat => - y | _, _ => x end)) (mkvec 2 (fun i => match i with 0%nat => e0 | _ => e1 end)).
(** Without rounding this is the function of C47. *)
Theorem C101_model_is_exact_model : forall m, fl_eig2 (fun x => x) m = eig2 m.
Proof. intros m. unfold fl_eig2, eig2. reflexivity. Qed.
Lemma fl_eig2_is rnd m : mrows m = 2%nat -> mcols m = 2%nat ->
  fl_eig2 rnd m = (' (x, y) <- row rnd (p_ m) (b_ m) (q_ m) ;; Ok (mk_eig (l0 rnd (p_ m) (b_ m) (q_ m)) (l1 rnd (p_ m) (b_ m) (q_ m)) x y)).
Proof. intros H1 H2. unfold fl_eig2. rewrite !mget_ok by lia. cbn [bind]. reflexivity. Qed.
Lemma size2_is A : size2 (upper_sym A) = N (A 0%nat 0%nat) (A 0%nat 1%nat) (A 1%nat 1%nat).
Proof. unfold size2, N, sq, upper_sym. cbn [sum fadd f0 ROps Nat.leb]. f_equal. ring. Qed.
(** the eigenvalues of any exact decomposition *)
Lemma exact_vals A X : eigensystem 2 (upper_sym A) X -> vat (e_vals X) 0%nat = e0 (A 0%nat 0%nat) (A 0%nat 1%nat) (A 1%nat 1%nat) /\ vat (e_vals X) 1%nat = e1 (A 0%nat 0%nat) (A 0%nat 1%nat) (A 1%nat 1%nat).
Proof.
  intros (_ & _ & _ & O & S & E). pose proof (S 0%nat 1%nat ltac:(lia)) as L. pose proof (E 0%nat 0%nat ltac:(lia) ltac:(lia)) as E00. pose proof (E 0%nat 1%nat ltac:(lia) ltac:(lia)) as E01. pose proof (E 1%nat 1%nat ltac:(lia) ltac:(lia)) as E11.
  pose proof (O 0%nat 0%nat ltac:(lia) ltac:(lia)) as O00. pose proof (O 0%nat 1%nat ltac:(lia) ltac:(lia)) as O01. pose proof (O 1%nat 1%nat ltac:(lia) ltac:(lia)) as O11.
  unfold upper_sym, delta in *. cbn [sum fadd f0 f1 ROps Nat.leb Nat.eqb] in *. set (p := A 0%nat 0%nat) in *. set (b := A 0%nat 1%nat) in *. set (q := A 1%nat 1%nat) in *.
  set (x := vat (e_vals X) 0%nat) in *. set (y := vat (e_vals X) 1%nat) in *. set (v00 := mel (e_vecs X) 0%nat 0%nat) in *. set (v01 := mel (e_vecs X) 0%nat 1%nat) in *. set (v10 := mel (e_vecs X) 1%nat 0%nat) in *. set (v11 := mel (e_vecs X) 1%nat 1%nat) in *.
  assert (T : p + q = x + y). { rewrite E00, E11. transitivity (x * (v00 * v00 + v01 * v01) + y * (v10 * v10 + v11 * v11)); [ring|]. replace (v00 * v00 + v01 * v01) with 1 by lra. replace (v10 * v10 + v11 * v11) with 1 by lra. ring. }
  assert (V : (v00 * v11 - v01 * v10) * (v00 * v11 - v01 * v10) = 1).
  { transitivity ((v00 * v00 + v01 * v01) * (v10 * v10 + v11 * v11) - (v00 * v10 + v01 * v11) * (v00 * v10 + v01 * v11)); [ring|]. replace (v00 * v00 + v01 * v01) with 1 by lra. replace (v10 * v10 + v11 * v11) with 1 by lra. replace (v00 * v10 + v01 * v11) with 0 by lra. ring. }
  assert (Dt : p * q - b * b = x * y). { rewrite E00, E11, E01. transitivity (x * y * ((v00 * v11 - v01 * v10) * (v00 * v11 - v01 * v10))); [ring|]. rewrite V. ring. }
  assert (G : g p b q = y - x). { unfold g. replace (D p b q) with ((y - x) * (y - x)); [apply sqrt_square; lra|]. unfold D. transitivity ((x + y) * (x + y) - 4 * (x * y)); [ring|]. rewrite <- T, <- Dt. ring. }
  unfold e0, e1. rewrite G, T. split; field.
Qed.

Section S.
Variables (u : R) (rnd : R -> R).
Hypothesis RN : rounding u rnd.
Hypothesis U : u <= 1 / 6800.
Notation ur := (u_rng u rnd RN).
(** The call never fails, reads only the upper triangle, and its rows are orthogonal (exactly) and of length one. *)
Theorem C101_orthonormal m : mrows m = 2%nat -> mcols m = 2%nat -> exists E, fl_eig2 rnd m = Ok E /\ mrows (e_vecs E) = 2%nat /\ mcols (e_vecs E) = 2%nat /\ vlen (e_vals E) = 2%nat /\
  Sum 2 (fun c => mel (e_vecs E) 0%nat c * mel (e_vecs E) 1%nat c) = 0 /\ forall i, (i < 2)%nat -> Rabs (sqrt (Sum 2 (fun c => mel (e_vecs E) i c * mel (e_vecs E) i c)) - 1) <= 52 / 10 * u.
Proof.
  intros H1 H2. pose proof ur as Hu. rewrite (fl_eig2_is rnd m H1 H2). destruct (row_ok u rnd RN U (p_ m) (b_ m) (q_ m)) as (x & y & -> & C). cbn [bind]. eexists. split; [reflexivity|]. do 3 (split; [reflexivity|]). cbn [mk_eig e_vecs mel]. split; [cbn [sum fadd f0 ROps]; ring|].
  assert (K : Rabs (sqrt (x * x + y * y) - 1) <= 52 / 10 * u).
  { destruct C as [(_ & _ & -> & ->)|(P & f1 & f2 & F1 & F2 & X & Y)].
    - replace (1 * 1 + 0 * 0) with 1 by ring. rewrite sqrt_1, Rminus_diag_eq, Rabs_R0 by reflexivity. lra.
    - set (a := a' rnd (p_ m) (b_ m) (q_ m)) in *. set (b := b_ m) in *. set (z := rho rnd (p_ m) b (q_ m)) in *. assert (ZZ : z * z = a * a + b * b) by (apply sqrt_sqrt; pose proof (sq_nonneg a); pose proof (sq_nonneg b); lra).
      apply abs_b in F1, F2. set (e := 51 / 10 * u) in *. assert (He : 0 <= e <= 1 / 1000) by (unfold e; lra).
      assert (E : x * x + y * y = (b * b * (f1 * f1) + a * a * (f2 * f2)) / (z * z)) by (rewrite X, Y; field; lra).
      assert (Q : forall f, - e <= f - 1 <= e -> (1 - e) * (1 - e) <= f * f <= (1 + e) * (1 + e)) by (intros f Hf; split; apply Rmult_le_compat; lra).
      pose proof (Q f1 F1) as Q1. pose proof (Q f2 F2) as Q2. pose proof (sq_nonneg a) as A2. pose proof (sq_nonneg b) as B2. assert (z2 : 0 < z * z) by (apply Rmult_lt_0_compat; exact P).
      assert (B : (1 - e) * (1 - e) <= x * x + y * y <= (1 + e) * (1 + e)).
      { rewrite E. assert (b * b * (f1 * f1) <= b * b * ((1 + e) * (1 + e))) by (apply Rmult_le_compat_l; lra). assert (a * a * (f2 * f2) <= a * a * ((1 + e) * (1 + e))) by (apply Rmult_le_compat_l; lra).
        assert (b * b * ((1 - e) * (1 - e)) <= b * b * (f1 * f1)) by (apply Rmult_le_compat_l; lra). assert (a * a * ((1 - e) * (1 - e)) <= a * a * (f2 * f2)) by (apply Rmult_le_compat_l; lra).
        assert (can : forall k, k / (z * z) * (z * z) = k) by (intros k; field; lra). split; apply (Rmult_le_reg_r (z * z)); try exact z2; rewrite can, ZZ; lra. }
      pose proof (sqrt_square (1 + e) ltac:(lra)) as S1. pose proof (sqrt_square (1 - e) ltac:(lra)) as S2. pose proof (sqrt_le_1_alt _ _ (proj1 B)) as L1. pose proof (sqrt_le_1_alt _ _ (proj2 B)) as L2. apply b_abs. unfold e in *. lra. }
  intros [|[|i]] Hi; try lia; cbn [sum fadd f0 ROps].
  - replace (0 + x * x + y * y) with (x * x + y * y) by ring. exact K.
  - replace (0 + - y * - y + x * x) with (x * x + y * y) by ring. exact K.
Qed.
(** the eigenvalues: within 2 sqrt u of the matrix's size, and within 12 u of it if they are separated; their sum is as good as a sum of two numbers *)
Theorem C101_eigenvalues m X : mrows m = 2%nat -> mcols m = 2%nat -> eigensystem 2 (upper_sym (mel m)) X -> exists E, fl_eig2 rnd m = Ok E /\
  (forall i, (i < 2)%nat -> let d := Rabs (vat (e_vals E) i - vat (e_vals X) i) in let S := size2 (upper_sym (mel m)) in
     d <= 2 * (sqrt u * S) /\ d * (vat (e_vals X) 1%nat - vat (e_vals X) 0%nat) <= 12 * u * (S * S)) /\
  Rabs (vat (e_vals E) 0%nat + vat (e_vals E) 1%nat - (p_ m + q_ m)) <= 5 * u * size2 (upper_sym (mel m)).
Proof.
  intros H1 H2 EX. destruct (exact_vals _ _ EX) as [V0 V1]. pose proof ur as Hu. rewrite (fl_eig2_is rnd m H1 H2). destruct (row_ok u rnd RN U (p_ m) (b_ m) (q_ m)) as (x & y & -> & _). cbn [bind]. eexists. split; [reflexivity|]. rewrite size2_is, V0, V1. cbn [mk_eig e_vals vat].
  set (p := p_ m). set (b := b_ m). set (q := q_ m). destruct (l_err u rnd RN U p b q) as (_ & _ & T). split; [|exact T].
  destruct (l_root u rnd RN U p b q) as [R0 R1]. destruct (l_gap u rnd RN U p b q) as [G0 G1]. unfold su in R0, R1. assert (E : e1 p b q - e0 p b q = g p b q) by (unfold e0, e1; field). rewrite E.
  assert (0 <= u * (N p b q * N p b q)) by (apply Rmult_le_pos; [lra|apply sq_nonneg]).
  intros [|[|i]] Hi; try lia; cbv zeta; cbn [e_vals vat]; rewrite ?V0, ?V1; fold p b q; rewrite ?E; (split; [assumption|lra]).
Qed.
(** the smaller one comes first, if the rounding is monotonic *)
Theorem C101_order m : (forall x y, x <= y -> rnd x <= rnd y) -> mrows m = 2%nat -> mcols m = 2%nat -> exists E, fl_eig2 rnd m = Ok E /\ vat (e_vals E) 0%nat <= vat (e_vals E) 1%nat.
Proof.
  intros M H1 H2. rewrite (fl_eig2_is rnd m H1 H2). destruct (row_ok u rnd RN U (p_ m) (b_ m) (q_ m)) as (x & y & -> & _). cbn [bind]. eexists. split; [reflexivity|]. cbn [mk_eig e_vals vat]. destruct (r_err u rnd RN (p_ m) (b_ m) (q_ m)) as [R0 _].
  unfold l0, l1. apply M. apply Rmult_le_compat_l; [lra|]. apply M. lra.
Qed.
Lemma sum2_sqrt x y e f : Rabs x <= e -> Rabs y <= f -> sqrt (0 + x ^ 2 + y ^ 2) <= e + f.
Proof.
  intros X Y. pose proof (Rabs_pos x). pose proof (Rabs_pos y). rewrite <- (sqrt_square (e + f)) by lra. apply sqrt_le_1_alt. rewrite <- (pow2_abs x), <- (pow2_abs y). assert (Rabs x ^ 2 <= e ^ 2) by (apply pow_incr; lra). assert (Rabs y ^ 2 <= f ^ 2) by (apply pow_incr; lra). assert (0 <= e * f) by (apply Rmult_le_pos; lra). lra.
Qed.
Lemma res_mk A e0 e1 x y X Y X1 Y1 : let p := A 0%nat 0%nat in let b := A 0%nat 1%nat in let q := A 1%nat 1%nat in
  Rabs (p * x + b * y - e0 * x) <= X -> Rabs (b * x + q * y - e0 * y) <= Y -> Rabs (p * - y + b * x - e1 * - y) <= X1 -> Rabs (b * - y + q * x - e1 * x) <= Y1 ->
  residual (upper_sym A) (mk_eig e0 e1 x y) 0%nat <= X + Y /\ residual (upper_sym A) (mk_eig e0 e1 x y) 1%nat <= X1 + Y1.
Proof.
  cbv zeta. intros A1 A2 A3 A4. unfold residual, mk_eig, upper_sym. cbn [e_vecs e_vals mel vat sum fadd f0 ROps Nat.leb]. split; (eapply Rle_trans; [|apply sum2_sqrt; eassumption]); right; f_equal; ring.
Qed.
(** the eigenvectors: accurate if the off-diagonal element is not tiny *)
Theorem C101_residual m : mrows m = 2%nat -> mcols m = 2%nat -> b_ m <> 0 -> exists E, fl_eig2 rnd m = Ok E /\ forall i, (i < 2)%nat ->
  let S := size2 (upper_sym (mel m)) in residual (upper_sym (mel m)) E i <= 16 * u * (S * S) / Rabs (b_ m) + 31 * u * S.
Proof.
  intros H1 H2 B. pose proof ur as Hu. rewrite (fl_eig2_is rnd m H1 H2). destruct (row_ok u rnd RN U (p_ m) (b_ m) (q_ m)) as (x & y & -> & C). cbn [bind]. eexists. split; [reflexivity|]. rewrite size2_is. cbv zeta.
  destruct C as [(_ & Z & _)|(P & f1 & f2 & F1 & F2 & X & Y)]; [contradiction|]. destruct (res0 u rnd RN U _ _ _ x y f1 f2 P F1 F2 X Y) as (A1 & A2 & Kx & Ky). destruct (res1 u rnd RN U _ _ _ x y _ _ A1 A2 Kx Ky) as [A3 A4].
  destruct (res_mk (mel m) _ _ x y _ _ _ _ A1 A2 A3 A4) as [K0 K1]. set (n := N (p_ m) (b_ m) (q_ m)) in *. pose proof (N0 (p_ m) (b_ m) (q_ m)) as Np. fold n in Np. assert (un : 0 <= u * n) by (apply Rmult_le_pos; lra). assert (unn : 0 <= u * (n * n)) by (apply Rmult_le_pos; [lra|apply sq_nonneg]).
  assert (RB : Rabs (b_ m) <= rho rnd (p_ m) (b_ m) (q_ m)). { apply abs_sq; [lra|]. unfold rho. rewrite sqrt_sqrt by (pose proof (sq_nonneg (a' rnd (p_ m) (b_ m) (q_ m))); pose proof (sq_nonneg (b_ m)); lra). pose proof (sq_nonneg (a' rnd (p_ m) (b_ m) (q_ m))). lra. }
  assert (Q : 154 / 10 * u * (n * n) / rho rnd (p_ m) (b_ m) (q_ m) <= 16 * u * (n * n) / Rabs (b_ m)).
  { pose proof (Rabs_pos_lt _ B) as Bp. apply (Rle_trans _ (154 / 10 * u * (n * n) / Rabs (b_ m))); [apply Rmult_le_compat_l; [lra|apply Rinv_le_contravar; assumption]|]. apply Rmult_le_compat_r; [left; apply Rinv_0_lt_compat, Bp|lra]. }
  intros [|[|i]] Hi; try lia; lra.
Qed.
(** and, to half the digits, whenever m[1][1] <= m[0][0] *)
Theorem C101_residual_descending m : mrows m = 2%nat -> mcols m = 2%nat -> q_ m <= p_ m -> exists E, fl_eig2 rnd m = Ok E /\ forall i, (i < 2)%nat ->
  residual (upper_sym (mel m)) E i <= 30 * (sqrt u * size2 (upper_sym (mel m))).
Proof.
  intros H1 H2 B. pose proof ur as Hu. rewrite (fl_eig2_is rnd m H1 H2). destruct (row_ok u rnd RN U (p_ m) (b_ m) (q_ m)) as (x & y & -> & C). cbn [bind]. eexists. split; [reflexivity|]. rewrite size2_is.
  set (n := N (p_ m) (b_ m) (q_ m)) in *. pose proof (N0 (p_ m) (b_ m) (q_ m)) as Np. fold n in Np. assert (un : 0 <= u * n) by (apply Rmult_le_pos; lra). pose proof (su0 u) as S0. pose proof (u_su u rnd RN U) as US. unfold su in *. assert (sn : 0 <= sqrt u * n) by (apply Rmult_le_pos; lra).
  assert (usn : u * n <= 122 / 10000 * sqrt u * n) by (apply Rmult_le_compat_r; lra).
  assert (G : exists X Y, Rabs (p_ m * x + b_ m * y - l0 rnd (p_ m) (b_ m) (q_ m) * x) <= X /\ Rabs (b_ m * x + q_ m * y - l0 rnd (p_ m) (b_ m) (q_ m) * y) <= Y /\ X + Y <= 29 * (sqrt u * n) /\ Rabs x <= 1001 / 1000 /\ Rabs y <= 1001 / 1000).
  { do 2 eexists. split; [apply Rle_refl|]. split; [apply Rle_refl|]. destruct C as [(Za & Zb & -> & ->)|(P & f1 & f2 & F1 & F2 & X & Y)].
    - assert (E : l0 rnd (p_ m) (b_ m) (q_ m) = p_ m). { unfold a' in Za. destruct (Req_dec (p_ m - l0 rnd (p_ m) (b_ m) (q_ m)) 0) as [Q|Q]; [lra|]. exfalso. apply (rnd_nz u rnd RN _ Q). exact Za. }
      rewrite E, Zb. rewrite Rabs_R1, Rabs_R0. replace (p_ m * 1 + 0 * 0 - p_ m * 1) with 0 by ring. replace (0 * 1 + q_ m * 0 - p_ m * 0) with 0 by ring. rewrite Rabs_R0. lra.
    - split; [apply (res_desc u rnd RN U _ _ _ x y f1 f2 B P F1 F2 X Y)|]. destruct (res0 u rnd RN U _ _ _ x y f1 f2 P F1 F2 X Y) as (_ & _ & Kx & Ky). split; assumption. }
  destruct G as (X & Y & A1 & A2 & XY & Kx & Ky). destruct (res1 u rnd RN U _ _ _ x y _ _ A1 A2 Kx Ky) as [A3 A4]. destruct (res_mk (mel m) _ _ x y _ _ _ _ A1 A2 A3 A4) as [K0 K1]. fold n in K0, K1.
  intros [|[|i]] Hi; try lia; lra.
Qed.
End S.
(** IEEE double: the numbers *)
Theorem C101_double m X : let u := / 2 * bpow radix2 (-52) in mrows m = 2%nat -> mcols m = 2%nat -> eigensystem 2 (upper_sym (mel m)) X -> exists E, fl_eig2 rnd64 m = Ok E /\ let S := size2 (upper_sym (mel m)) in
  vat (e_vals E) 0%nat <= vat (e_vals E) 1%nat /\ (forall i, (i < 2)%nat -> Rabs (vat (e_vals E) i - vat (e_vals X) i) <= 22 / 10 ^ 9 * S) /\
  (1 / 10 * S <= vat (e_vals X) 1%nat - vat (e_vals X) 0%nat -> forall i, (i < 2)%nat -> Rabs (vat (e_vals E) i - vat (e_vals X) i) <= 14 / 10 ^ 15 * S) /\
  (1 / 10 * S <= Rabs (b_ m) -> forall i, (i < 2)%nat -> residual (upper_sym (mel m)) E i <= 22 / 10 ^ 15 * S) /\
  (q_ m <= p_ m -> forall i, (i < 2)%nat -> residual (upper_sym (mel m)) E i <= 33 / 10 ^ 8 * S).
Proof.
  intros u H1 H2 EX. pose proof rnd64_rounding as RN. fold u in RN. assert (Us : 0 <= u <= 11103 / 10 ^ 20) by (unfold u; cbn; lra). assert (U : u <= 1 / 6800) by lra.
  destruct (C101_eigenvalues u rnd64 RN U m X H1 H2 EX) as (E & EE & V & _). exists E. split; [exact EE|]. cbv zeta in *. set (S := size2 (upper_sym (mel m))) in *. assert (S0 : 0 <= S) by apply sqrt_pos.
  assert (su : 0 <= sqrt u <= 1054 / 10 ^ 11). { split; [apply sqrt_pos|]. rewrite <- (sqrt_square (1054 / 10 ^ 11)) by lra. apply sqrt_le_1_alt. lra. } assert (sS : sqrt u * S <= 1054 / 10 ^ 11 * S) by (apply Rmult_le_compat_r; lra).
  assert (nz : forall k, 0 < k * S -> 0 < S) by (intros k K; destruct S0 as [P|P]; [exact P|rewrite <- P, Rmult_0_r in K; lra]). assert (S2 : 0 <= u * (S * S)) by (apply Rmult_le_pos; [lra|apply sq_nonneg]). assert (uS : u * S <= 11103 / 10 ^ 20 * S) by (apply Rmult_le_compat_r; lra).
  split; [|split; [|split; [|split]]].
  - assert (M : forall x y, x <= y -> rnd64 x <= rnd64 y) by (intros; unfold rnd64; apply round_le; [apply FLX_exp_valid; reflexivity|apply valid_rnd_N|assumption]). destruct (C101_order u rnd64 RN U m M H1 H2) as (E' & E2 & L). rewrite EE in E2. injection E2 as <-. exact L.
  - intros i Hi. destruct (V i Hi) as [A _]. lra.
  - intros G i Hi. destruct (V i Hi) as [_ A]. set (d := Rabs (vat (e_vals E) i - vat (e_vals X) i)) in *. assert (d0 : 0 <= d) by apply Rabs_pos. destruct S0 as [P|P].
    + apply (Rmult_le_reg_r (1 / 10 * S)); [lra|]. assert (d * (1 / 10 * S) <= d * (vat (e_vals X) 1%nat - vat (e_vals X) 0%nat)) by (apply Rmult_le_compat_l; lra). assert (u * (S * S) <= 11103 / 10 ^ 20 * (S * S)) by (apply Rmult_le_compat_r; [apply sq_nonneg|lra]). pose proof (sq_nonneg S). lra.
    + destruct (V i Hi) as [B _]. fold d in B. rewrite <- P in *. rewrite Rmult_0_r in *. lra.
  - intros B i Hi. destruct S0 as [P|P].
    + assert (Bn : b_ m <> 0). { intros Z. rewrite Z, Rabs_R0 in B. lra. } destruct (C101_residual u rnd64 RN U m H1 H2 Bn) as (E' & E2 & L). rewrite EE in E2. injection E2 as <-. specialize (L i Hi). cbv zeta in L. fold S in L. eapply Rle_trans; [exact L|].
      assert (Q : 16 * u * (S * S) / Rabs (b_ m) <= 160 * u * S). { assert (Bp : 0 < Rabs (b_ m)) by lra. apply (Rmult_le_reg_r (Rabs (b_ m))); [exact Bp|]. unfold Rdiv. rewrite Rmult_assoc, Rinv_l, Rmult_1_r by lra. assert (160 * u * S * (1 / 10 * S) <= 160 * u * S * Rabs (b_ m)) by (apply Rmult_le_compat_l; [assert (0 <= u * S) by (apply Rmult_le_pos; lra); lra|exact B]). lra. }
      lra.
    + assert (Z : size2 (upper_sym (mel m)) = 0) by (symmetry; exact P). rewrite size2_is in Z. assert (A0 : Rabs (b_ m) <= 0) by (pose proof (b_N (p_ m) (b_ m) (q_ m)) as K; rewrite Z in K; lra).
      assert (Zq : q_ m <= p_ m). { pose proof (NN (p_ m) (b_ m) (q_ m)) as K. rewrite Z in K. unfold sq in K. pose proof (sq_nonneg (p_ m)). pose proof (sq_nonneg (q_ m)). pose proof (sq_nonneg (b_ m)). assert (Pz : p_ m = 0) by (apply Rsqr_0_uniq; unfold Rsqr; lra). assert (Qz : q_ m = 0) by (apply Rsqr_0_uniq; unfold Rsqr; lra). lra. }
      destruct (C101_residual_descending u rnd64 RN U m H1 H2 Zq) as (E' & E2 & L). rewrite EE in E2. injection E2 as <-. specialize (L i Hi). fold S in L. rewrite <- P in *. lra.
  - intros B i Hi. destruct (C101_residual_descending u rnd64 RN U m H1 H2 B) as (E' & E2 & L). rewrite EE in E2. injection E2 as <-. specialize (L i Hi). fold S in L. lra.
Qed.
(** diag(1, 2 + 2^-25), all elements doubles *)
Definition ex_diag : mat R := mkmat 2 2 (fun i j => match i, j with 0%nat, 0%nat => 1 | 1%nat, 1%nat => 2 + / 2 ^ 25 | _, _ => 0 end).
(** Nothing holds of the eigenvectors otherwise: one rounding error in the smaller eigenvalue of a diagonal matrix exchanges them.
    For diag(1, 2 + 2^-25) the row that goes with the eigenvalue near 1 is (0,-1), and what is returned is the exact decomposition of a matrix near diag(2, 1). *)
Theorem C101_swapped_refuted : exists E, fl_eig2 rnd64 ex_diag = Ok E /\ (forall i j, rnd64 (mel ex_diag i j) = mel ex_diag i j) /\
  vat (e_vals E) 0%nat = 1 + / 2 ^ 52 /\ Rabs (vat (e_vals E) 1%nat - 2) <= 1 / 10 ^ 6 /\ mel (e_vecs E) 0%nat 0%nat = 0 /\ mel (e_vecs E) 0%nat 1%nat = - (1) /\
  99 / 100 <= residual (upper_sym (mel ex_diag)) E 0%nat /\
  eigensystem 2 (fun r c => match r, c with 0%nat, 0%nat => vat (e_vals E) 1%nat | 1%nat, 1%nat => vat (e_vals E) 0%nat | _, _ => 0 end) E.
Proof.
  rewrite fl_eig2_is by reflexivity. cbn [ex_diag mel]. rewrite row_computed. cbn [bind]. eexists. split; [reflexivity|]. set (u := / 2 * bpow radix2 (-52)). pose proof rnd64_rounding as RN. fold u in RN. assert (Us : 0 <= u <= 11103 / 10 ^ 20) by (unfold u; cbn; lra).
  assert (L1 : Rabs (l1 rnd64 1 0 (2 + / 2 ^ 25) - 2) <= 1 / 10 ^ 7).
  { unfold l1. rewrite t_computed, r_computed. set (x := 3 + / 2 ^ 25 + (1 + / 2 ^ 25 - / 2 ^ 51)). assert (X : 4 <= x <= 4 + 1 / 10 ^ 7) by (unfold x; cbn; lra). pose proof (rnd_err u rnd64 RN x) as R1. rewrite (Rabs_right x) in R1 by lra. assert (u * x <= 11103 / 10 ^ 20 * 5) by (apply Rmult_le_compat; lra).
    apply abs_b in R1. set (y := rnd64 x) in *. pose proof (rnd_err u rnd64 RN (/ 2 * y)) as R2. rewrite (Rabs_right (/ 2 * y)) in R2 by lra. assert (u * (/ 2 * y) <= 11103 / 10 ^ 20 * 5) by (apply Rmult_le_compat; lra). apply abs_b in R2. apply b_abs. lra. }
  split.
  { intros [|[|i]] [|[|j]]; cbn [mel ex_diag]; try apply r0_computed; [exact_ 1%Z 0%Z|exact_ (2 * 2 ^ 25 + 1)%Z (-25)%Z]. }
  cbn [mk_eig e_vals e_vecs vat mel]. split; [apply l0_computed|]. split; [lra|]. split; [reflexivity|]. split; [reflexivity|]. apply abs_b in L1. split.
  - unfold residual, upper_sym, mk_eig. cbn [e_vecs e_vals mel vat ex_diag sum fadd f0 ROps Nat.leb]. rewrite l0_computed. set (k := (0 + 0 * 0 + (2 + / 2 ^ 25) * - (1) - (1 + / 2 ^ 52) * - (1)) ^ 2). apply (Rle_trans _ (sqrt k)); [|apply sqrt_le_1_alt; pose proof (pow2_ge_0 (0 + 1 * 0 + 0 * - (1) - (1 + / 2 ^ 52) * 0)); lra].
    rewrite <- (sqrt_square (99 / 100)) by lra. apply sqrt_le_1_alt. unfold k. cbn. lra.
  - split; [reflexivity|]. split; [reflexivity|]. split; [reflexivity|]. rewrite l0_computed. set (w := l1 rnd64 1 0 (2 + / 2 ^ 25)) in *. cbn [mk_eig e_vals e_vecs]. split; [|split].
    + intros [|[|i]] [|[|j]] Hi Hj; try lia; unfold delta; cbn [mel sum fadd f0 f1 ROps Nat.eqb]; ring.
    + intros [|[|i]] [|[|j]] Hi; try lia; cbn [vat]; try lra; cbn; lra.
    + intros [|[|r]] [|[|c]] Hr Hc; try lia; cbn [vat mel sum fadd f0 ROps]; ring.
Qed.
(** the hypotheses are met: the matrix 2 1; 1 1 *)
Example C101_case : let m := mkmat 2 2 (fun i j => match i, j with 0%nat, 0%nat => 2 | _, _ => 1 end) in
  (exists X, eigensystem 2 (upper_sym (mel m)) X) /\ q_ m <= p_ m /\ 1 / 10 * size2 (upper_sym (mel m)) <= Rabs (b_ m).
Proof.
  cbv zeta. split; [|split].
  - destruct (C47_eig2 (mkmat 2 2 (fun i j => match i, j with 0%nat, 0%nat => 2 | _, _ => 1 end)) eq_refl eq_refl) as (X & _ & H). exists X. exact H.
  - cbn. lra.
  - rewrite size2_is. cbn [mel]. unfold N. rewrite Rabs_R1. assert (sqrt (sq 2 1 1) <= 10); [|lra]. rewrite <- (sqrt_square 10) by lra. apply sqrt_le_1_alt. unfold sq. lra.
Qed.
Print Assumptions C101_model_is_exact_model. Print Assumptions C101_orthonormal. Print Assumptions C101_eigenvalues. Print Assumptions C101_order.
Print Assumptions C101_residual. Print Assumptions C101_residual_descending. Print Assumptions C101_double. Print Assumptions C101_swapped_refuted.
