(** * Gauss-Jordan reduction in floating point: each column is exact on a matrix close to the computed one. *)
From Coq Require Import Reals Lra Lia Arith Bool.
From Verif Require Import Base Alg Inst Mat SpecMat LemMat SpecLin LemLin ModelGauss LemGaussJordanFree RSum RRect ModelFl SpecFl LemFl LemFlChol LemFlChol3 LemFlDet SpecFlGaussJordan.
Local Open Scope R_scope.

Section P.
Variables (u : R) (rnd : R -> R).
Hypothesis RN : rounding u rnd.
Let U := u_rng u rnd RN.
Let O := FlOps rnd.
Variables n N : nat.
Hypothesis HnN : (n <= N)%nat.
Notation fpiv := (@piv R O).

Lemma fl_piv_max i (x : nat -> R) : (i < n)%nat -> forall r, (i <= r < n)%nat -> Rabs (x r) <= Rabs (x (fpiv n i x)).
Proof.
  intros Hi r Hr. set (A := mkmat n (S i) (fun r _ => x r)).
  destruct (fl_find_pivot rnd A n i Hi) as (p & E & Hp & Hm); [cbn; lia|cbn; lia|].
  pose proof (@find_pivot_piv R O A n i Hi ltac:(cbn; lia) ltac:(cbn; lia)) as E2. unfold O in *. rewrite E in E2. injection E2 as ->. apply (Hm r Hr).
Qed.
(** a computed element of an eliminated row *)
Lemma fl_elim x y q : Rabs (rnd (x - rnd (y * rnd q)) + y * q - x) <= u * Rabs x + fwd u 3 * Rabs (q * y).
Proof.
  destruct (rnd_near u rnd RN q) as (c1 & N1 & ->). destruct (rnd_near u rnd RN (y * (q * c1))) as (c2 & N2 & ->).
  destruct (rnd_d u rnd RN (x - y * (q * c1) * c2)) as (d & Hd & ->).
  pose proof (near_mul u 2 1 _ _ U (near_mul u 1 1 _ _ U N1 N2) (near_d u d U Hd)) as N3. pose proof (near_err u 3 _ U N3) as E.
  replace ((x - y * (q * c1) * c2) * (1 + d) + y * q - x) with (d * x + - ((c1 * c2 * (1 + d) - 1) * (q * y))) by ring.
  eapply Rle_trans; [apply Rabs_triang|]. rewrite Rabs_Ropp, (Rabs_mult d x), (Rabs_mult (c1 * c2 * (1 + d) - 1) (q * y)).
  apply Rplus_le_compat; apply Rmult_le_compat_r; try apply Rabs_pos; [exact Hd|exact E].
Qed.
Lemma fl_scaled x d : Rabs (rnd (x * rnd (1 / d)) - x / d) <= fwd u 2 * Rabs (x / d).
Proof.
  destruct (rnd_near u rnd RN (1 / d)) as (c1 & N1 & ->). destruct (rnd_near u rnd RN (x * (1 / d * c1))) as (c2 & N2 & ->).
  pose proof (near_err u 2 _ U (near_mul u 1 1 _ _ U N1 N2)) as E. replace (x * (1 / d * c1) * c2 - x / d) with ((c1 * c2 - 1) * (x / d)) by (unfold Rdiv; ring).
  rewrite Rabs_mult. apply Rmult_le_compat_r; [apply Rabs_pos|exact E].
Qed.

(** one column *)
Definition nearby (i p : nat) (S T : nat -> nat -> R) : Prop :=
  (forall r c, (r < n)%nat -> (c <= i)%nat -> T r c = S r c) /\
  forall r c, (r < n)%nat -> (c < N)%nat -> Rabs (T r c - S r c) <= u * Rabs (S r c) + fwd u 3 * Rabs (S r i / S p i * S p c).
Lemma swp_exchange i p r : swp i p r = exchange i p r.
Proof. reflexivity. Qed.
Lemma fl_gj_step (m m' : mat R) i : shaped n N m -> (i < n)%nat -> @gj_column R O i m = Ok m' -> mel m' i i <> 0 ->
  (forall r c, (r < n)%nat -> (c < i)%nat -> r <> c -> mel m r c = 0) ->
  exists p T, eliminates n N i p T (mel m') /\ nearby i p (mel m) T /\ (forall r, (i <= r < n)%nat -> Rabs (mel m r i) <= Rabs (mel m p i)) /\ mel m' i i = mel m p i /\
    (forall r c, (r < n)%nat -> (c < S i)%nat -> r <> c -> mel m' r c = 0).
Proof.
  intros Hm Hi E Hd HZ. destruct (@gj_column_free R O n N HnN m i Hm Hi) as [(_ & _ & E')|(_ & m1 & E' & _ & V)]; rewrite E' in E; [discriminate|]. injection E as ->.
  pose proof (@piv_rng R O n i (fun r => mel m r i) Hi) as Hp. pose proof (fl_piv_max i (fun r => mel m r i) Hi) as Hx.
  unfold gj_swapped, gj_cleared in V. change (forall r, (i <= r < n)%nat -> Rabs (mel m r i) <= Rabs (mel m (fpiv n i (fun r => mel m r i)) i)) in Hx. set (p := fpiv n i (fun r => mel m r i)) in *. cbn [f0 fsub fmul fdiv O FlOps] in V.
  assert (Xi : swp i p i = p) by (unfold swp; rewrite Nat.eqb_refl; reflexivity).
  assert (Di : mel m' i i = mel m p i) by (rewrite V by lia; rewrite Nat.eqb_refl, Xi; reflexivity).
  assert (Dp : mel m p i <> 0) by (rewrite <- Di; exact Hd).
  assert (Xp : forall r, r <> i -> swp i p r <> p).
  { intros r Hr H. unfold swp in H. destruct (Nat.eqb_spec r i), (Nat.eqb_spec r p); congruence. }
  assert (Zp : forall c, (c < i)%nat -> mel m p c = 0) by (intros c Hc; apply HZ; lia).
  exists p, (fun r c => if (c <=? i)%nat || (r =? p)%nat then mel m r c else rnd (mel m r c - rnd (mel m p c * rnd (mel m r i / mel m p i))) + mel m p c * (mel m r i / mel m p i)).
  split; [split; [exact Hp|]; split|]; [| |split; [split|]; [| |split; [exact Hx|split; [exact Di|]]]].
  - cbv beta. rewrite (Nat.leb_refl i). cbn [orb]. exact Dp.
  - intros r c Hr Hc. cbv beta. rewrite <- !swp_exchange. rewrite V by assumption. rewrite Nat.eqb_refl, !orb_true_r, !(Nat.leb_refl i). cbn [orb].
    destruct (Nat.eqb_spec r i) as [->|Hri]; [rewrite Xi; reflexivity|]. pose proof (Xp r Hri) as Xr. rewrite Xi.
    destruct (Nat.eqb_spec (swp i p r) p); [contradiction|]. rewrite orb_false_r.
    destruct (Nat.ltb_spec c i) as [Hci|Hci]; [|destruct (Nat.eqb_spec c i) as [->|Hci']].
    + destruct (Nat.leb_spec c i); [|lia]. rewrite (Zp c Hci). ring.
    + rewrite Nat.leb_refl. field. exact Dp.
    + destruct (Nat.leb_spec c i); [lia|]. ring.
  - intros r c Hr Hc. cbv beta. destruct (Nat.leb_spec c i); [reflexivity|lia].
  - intros r c Hr Hc. cbv beta. assert (P0 : 0 <= u * Rabs (mel m r c) + fwd u 3 * Rabs (mel m r i / mel m p i * mel m p c)).
    { pose proof (fwd_nonneg u 3 (proj1 U)). apply Rplus_le_le_0_compat; apply Rmult_le_pos; try apply Rabs_pos; [apply U|assumption]. }
    destruct ((c <=? i)%nat || (r =? p)%nat); [unfold Rminus at 1; rewrite Rplus_opp_r, Rabs_R0; exact P0|]. apply fl_elim.
  - intros r c Hr Hc Hrc. rewrite V by lia.
    destruct (Nat.eqb_spec r i) as [->|Hri]; [rewrite Xi; apply Zp; lia|].
    destruct (Nat.ltb_spec c i) as [Hci|Hci]; [|destruct (Nat.eqb_spec c i); [reflexivity|lia]].
    apply HZ; [apply swp_lt; lia|exact Hci|]. unfold swp. destruct (Nat.eqb_spec r i), (Nat.eqb_spec r p); lia.
Qed.

(** the whole run *)
Definition run (m X : mat R) (s T : nat -> nat -> nat -> R) (p : nat -> nat) : Prop :=
  (forall r c, s 0%nat r c = mel m r c) /\
  (forall k, (k < n)%nat -> eliminates n N k (p k) (T k) (s (S k)) /\ nearby k (p k) (s k) (T k) /\ (forall r, (k <= r < n)%nat -> Rabs (s k r k) <= Rabs (s k (p k) k)) /\ s (S k) k k = s k (p k) k) /\
  (forall r c, (r < n)%nat -> (c < n)%nat -> r <> c -> s n r c = 0) /\ (forall r, (r < n)%nat -> s n r r <> 0) /\
  forall r c, (r < n)%nat -> (n <= c < N)%nat -> Rabs (mel X r c - s n r c / s n r r) <= fwd u 2 * Rabs (s n r c / s n r r).
Lemma fl_gj_run (m X : mat R) : shaped n N m -> @gauss_jordan R O m = Ok X ->
  exists t T p, run m X (fun k => mel (t k)) T p /\ (forall k, (k <= n)%nat -> for_ 0 k (@gj_column R O) m = Ok (t k)).
Proof.
  intros Hm E. destruct (@gauss_jordan_split R O n N m Hm X E) as (s & Es & El). destruct (@gj_prefix R O n N HnN m s Hm Es) as (t & T0 & Tn & TS & T).
  destruct (TS n (le_n n)) as [_ Sn]. rewrite Tn in Sn. destruct (@gj_last_free R O n N HnN s Sn) as [[_ E']|[Zs (X1 & E' & SX & V)]]; rewrite E' in El; [discriminate|]. injection El as ->.
  assert (Ds : forall r, (r < n)%nat -> mel (t n) r r <> 0).
  { intros r Hr. rewrite Tn. specialize (Zs r Hr). cbn [feqb f0 O FlOps] in Zs. unfold R_eqb in Zs. destruct (Req_EM_T (mel s r r) 0); [discriminate|assumption]. }
  (** every pivot is not 0 *)
  assert (DP : forall k, (k < n)%nat -> mel (t (S k)) k k <> 0).
  { intros k Hk. destruct (Nat.eq_dec n 1) as [Hn|Hn]; [assert (k = 0)%nat as -> by lia; pose proof (Ds 0%nat ltac:(lia)) as D0; rewrite Hn in D0; exact D0|].
    pose proof (T k Hk) as Tk. destruct (@gj_column_free R O n N HnN (t k) k (proj2 (TS k ltac:(lia))) Hk) as [(_ & _ & E1)|([Z|Z] & m1 & E1 & _ & V1)]; rewrite E1 in Tk; [discriminate| |lia].
    injection Tk as <-. rewrite V1 by lia. unfold gj_cleared. rewrite Nat.eqb_refl. cbn [feqb f0 O FlOps] in Z. unfold R_eqb in Z.
    destruct (Req_EM_T (@gj_swapped R O n k (mel (t k)) k k) 0); [discriminate|assumption]. }
  assert (W : forall k, (k <= n)%nat -> forall r c, (r < n)%nat -> (c < k)%nat -> r <> c -> mel (t k) r c = 0).
  { induction k as [|k IH]; [lia|]. intros Hk. destruct (fl_gj_step (t k) (t (S k)) k (proj2 (TS k ltac:(lia))) ltac:(lia) (T k ltac:(lia)) (DP k ltac:(lia)) (IH ltac:(lia))) as (p & T' & _ & _ & _ & _ & H). exact H. }
  assert (Q : forall k, (k < n)%nat -> exists pT : nat * (nat -> nat -> R), eliminates n N k (fst pT) (snd pT) (mel (t (S k))) /\ nearby k (fst pT) (mel (t k)) (snd pT) /\
     (forall r, (k <= r < n)%nat -> Rabs (mel (t k) r k) <= Rabs (mel (t k) (fst pT) k)) /\ mel (t (S k)) k k = mel (t k) (fst pT) k).
  { intros k Hk. destruct (fl_gj_step (t k) (t (S k)) k (proj2 (TS k ltac:(lia))) Hk (T k Hk) (DP k Hk) (W k ltac:(lia))) as (p & T' & H1 & H2 & H3 & H4 & _). exists (p, T'). auto. }
  destruct (fin_choice _ (0%nat, fun _ _ => 0) n Q) as (f & F).
  exists t, (fun k => snd (f k)), (fun k => fst (f k)). split; [|intros k Hk; apply TS; exact Hk].
  split; [intros r c; rewrite T0; reflexivity|]. split; [exact F|]. split; [apply (W n (le_n n))|]. split; [exact Ds|].
  intros r c Hr Hc. rewrite V by lia. unfold gj_final. destruct (Nat.eqb_spec c r), (Nat.ltb_spec c n); try lia. rewrite Tn. cbn [fmul fdiv f1 O FlOps]. apply fl_scaled.
Qed.

(** the residual of a returned column *)
Lemma residual (m X : mat R) s T p M G c : run m X s T p -> (n <= c < N)%nat -> 0 <= G ->
  (forall k r j, (k <= n)%nat -> (r < n)%nat -> (j < N)%nat -> Rabs (s k r j) <= M) ->
  (forall k r, (k < n)%nat -> (r < n)%nat -> Rabs (s k r k) <= G * Rabs (s (S k) k k)) ->
  forall r, (r < n)%nat -> Rabs (mel m r c - Sum n (fun j => mel m r j * mel X j c)) <= (1 + G) ^ n * ((fwd u 2 + INR n * (u + G * fwd u 3)) * M) * (1 + Sum n (fun j => Rabs (mel X j c))).
Proof.
  intros (Z & Q & D0 & D1 & F) Hc HG HM HX.
  set (x := fun j => mel X j c) in *. change (forall r, (r < n)%nat -> Rabs (mel m r c - Sum n (fun j => mel m r j * x j)) <= (1 + G) ^ n * ((fwd u 2 + INR n * (u + G * fwd u 3)) * M) * (1 + Sum n (fun j => Rabs (x j)))).
  set (w := 1 + Sum n (fun j => Rabs (x j))).
  assert (W0 : 0 <= Sum n (fun j => Rabs (x j))) by (apply S_nonneg; intros; apply Rabs_pos).
  assert (W1 : 1 <= w) by (unfold w; lra).
  destruct (Nat.eq_dec n 0) as [N0|N0]; [intros r Hr; lia|].
  assert (M0 : 0 <= M) by (eapply Rle_trans; [apply Rabs_pos|apply (HM 0%nat 0%nat 0%nat); lia]).
  set (e := (u + G * fwd u 3) * M).
  pose proof (fwd_nonneg u 2 (proj1 U)) as F2. pose proof (fwd_nonneg u 3 (proj1 U)) as F3.
  assert (E0 : 0 <= e). { unfold e. apply Rmult_le_pos; [|exact M0]. apply Rplus_le_le_0_compat; [apply U|apply Rmult_le_pos; assumption]. }
  set (res := fun (a : nat -> nat -> R) r => a r c - Sum n (fun j => a r j * x j)).
  assert (K : forall d, (d <= n)%nat -> forall r, (r < n)%nat -> Rabs (res (s (n - d)%nat) r) <= (1 + G) ^ d * (fwd u 2 * M + INR d * e) * w).
  { induction d as [|d IH]; intros Hd r Hr.
    - replace (n - 0)%nat with n by lia. unfold res. rewrite (S_ext n _ (fun j => if (j =? r)%nat then s n r r * x r else 0)).
      2:{ intros j Hj. destruct (Nat.eqb_spec j r) as [->|]; [reflexivity|]. rewrite D0 by lia. ring. }
      rewrite (S_one n r) by exact Hr. rewrite Nat.eqb_refl, (S_zero n), Rplus_0_r by (intros j Hj; destruct (j =? r)%nat; reflexivity). specialize (F r c Hr Hc). specialize (D1 r Hr). fold (x r) in F.
      replace (s n r c - s n r r * x r) with (- (s n r r * (x r - s n r c / s n r r))) by (field; exact D1). rewrite Rabs_Ropp, Rabs_mult.
      assert (B : Rabs (s n r r) * Rabs (x r - s n r c / s n r r) <= fwd u 2 * Rabs (s n r c)).
      { replace (Rabs (s n r c)) with (Rabs (s n r r) * Rabs (s n r c / s n r r)) by (rewrite <- Rabs_mult; f_equal; field; exact D1).
        replace (fwd u 2 * (Rabs (s n r r) * Rabs (s n r c / s n r r))) with (Rabs (s n r r) * (fwd u 2 * Rabs (s n r c / s n r r))) by ring.
        apply Rmult_le_compat_l; [apply Rabs_pos|exact F]. }
      eapply Rle_trans; [exact B|]. cbn [pow INR]. pose proof (Rmult_le_compat_l _ _ _ F2 (HM n r c ltac:(lia) Hr ltac:(lia))) as B2.
      assert (0 <= fwd u 2 * M) by (apply Rmult_le_pos; assumption). assert (fwd u 2 * M * 1 <= fwd u 2 * M * w) by (apply Rmult_le_compat_l; assumption). lra.
    - set (k := (n - S d)%nat). assert (Hk : (k < n)%nat) by lia. replace (n - d)%nat with (S k) in IH by lia. specialize (IH ltac:(lia)).
      destruct (Q k Hk) as ((Hp & Dp & El) & (Nq & Nr) & _ & Pk). set (B := (1 + G) ^ d * (fwd u 2 * M + INR d * e) * w) in *.
      assert (B0 : 0 <= B) by (eapply Rle_trans; [apply Rabs_pos|apply (IH r Hr)]).
      assert (Rp : res (T k) (p k) = res (s (S k)) k).
      { unfold res. rewrite (El k c Hk) by lia. rewrite Nat.eqb_refl. f_equal. apply S_ext. intros j Hj. rewrite (El k j Hk) by lia. rewrite Nat.eqb_refl. reflexivity. }
      assert (Pd : s k (p k) k <> 0) by (rewrite <- Nq by lia; exact Dp).
      assert (Mu : forall q, (q < n)%nat -> Rabs (s k q k / s k (p k) k) <= G).
      { intros q Hq. unfold Rdiv. rewrite Rabs_mult, Rabs_inv. pose proof (HX k q Hk Hq) as H. rewrite Pk in H. pose proof (Rabs_pos_lt _ Pd) as L.
        apply (Rmult_le_reg_r (Rabs (s k (p k) k))); [exact L|]. rewrite Rmult_assoc, Rinv_l by lra. lra. }
      assert (RT : Rabs (res (T k) r) <= (1 + G) * B).
      { destruct (Nat.eq_dec r (p k)) as [->|Hrp].
        - rewrite Rp. pose proof (IH k Hk). assert (0 <= G * B) by (apply Rmult_le_pos; assumption). lra.
        - set (q := exchange k (p k) r). assert (Hq : (q < n)%nat) by (unfold q, exchange; destruct (r =? k)%nat, (r =? p k)%nat; lia).
          assert (Xq : exchange k (p k) q = r) by (apply (swp_inv k (p k) r)).
          assert (Qk : q <> k) by (unfold q, exchange; destruct (Nat.eqb_spec r k), (Nat.eqb_spec r (p k)); congruence).
          set (mu := T k r k / T k (p k) k).
          assert (Eq : forall j, (j < N)%nat -> T k r j = s (S k) q j + mu * s (S k) k j).
          { intros j Hj. rewrite (El q j Hq Hj), (El k j Hk Hj). rewrite Nat.eqb_refl. destruct (Nat.eqb_spec q k); [contradiction|]. rewrite Xq. unfold mu. ring. }
          assert (Er : res (T k) r = res (s (S k)) q + mu * res (s (S k)) k).
          { unfold res. rewrite Eq by lia. rewrite (S_ext n _ (fun j => s (S k) q j * x j + mu * (s (S k) k j * x j))) by (intros j Hj; rewrite Eq by lia; ring).
            rewrite S_add, S_mul_l. ring. }
          rewrite Er. eapply Rle_trans; [apply Rabs_triang|]. rewrite Rabs_mult.
          assert (Rabs mu <= G) by (unfold mu; rewrite !Nq by lia; apply Mu; exact Hr).
          pose proof (IH q Hq). pose proof (Rmult_le_compat _ _ _ _ (Rabs_pos mu) (Rabs_pos (res (s (S k)) k)) H (IH k Hk)). lra. }
      assert (Dk : forall j, (j < N)%nat -> Rabs (s k r j - T k r j) <= e).
      { intros j Hj. rewrite Rabs_minus_sym. eapply Rle_trans; [apply Nr; assumption|]. unfold e. rewrite Rmult_plus_distr_r. apply Rplus_le_compat.
        - apply Rmult_le_compat_l; [apply U|apply HM; lia].
        - rewrite Rabs_mult. replace (G * fwd u 3 * M) with (fwd u 3 * (G * M)) by ring. apply Rmult_le_compat_l; [exact F3|].
          apply Rmult_le_compat; try apply Rabs_pos; [apply Mu; exact Hr|apply HM; lia]. }
      assert (Rs : Rabs (res (s k) r - res (T k) r) <= e * w).
      { unfold res. replace (s k r c - Sum n (fun j => s k r j * x j) - (T k r c - Sum n (fun j => T k r j * x j))) with ((s k r c - T k r c) - (Sum n (fun j => s k r j * x j) - Sum n (fun j => T k r j * x j))) by ring.
        rewrite <- S_sub. unfold w. rewrite Rmult_plus_distr_l, Rmult_1_r. unfold Rminus at 1. eapply Rle_trans; [apply Rabs_triang|]. rewrite Rabs_Ropp. apply Rplus_le_compat; [apply Dk; lia|].
        eapply Rle_trans; [apply S_abs_le|]. rewrite <- S_mul_l. apply S_mono. intros j Hj. rewrite <- Rmult_minus_distr_r, Rabs_mult. apply Rmult_le_compat_r; [apply Rabs_pos|apply Dk; lia]. }
      replace (res (s k) r) with (res (T k) r + (res (s k) r - res (T k) r)) by ring. eapply Rle_trans; [apply Rabs_triang|].
      eapply Rle_trans; [apply Rplus_le_compat; [exact RT|exact Rs]|]. unfold B. rewrite S_INR.
      replace ((1 + G) ^ S d * (fwd u 2 * M + (INR d + 1) * e) * w) with ((1 + G) * ((1 + G) ^ d * (fwd u 2 * M + INR d * e) * w) + (1 + G) ^ S d * (e * w)) by (cbn [pow]; ring).
      apply Rplus_le_compat_l. assert (1 <= (1 + G) ^ S d) by (apply pow_R1_Rle; lra). assert (0 <= e * w) by (apply Rmult_le_pos; [exact E0|lra]).
      rewrite <- (Rmult_1_l (e * w)) at 1. apply Rmult_le_compat_r; assumption. }
  intros r Hr. specialize (K n (le_n n) r Hr). rewrite Nat.sub_diag in K. unfold res, e in K. rewrite Z in K. rewrite (S_ext n _ (fun j => mel m r j * x j)) in K by (intros j Hj; rewrite Z; reflexivity).
  eapply Rle_trans; [exact K|]. apply Req_le. ring.
Qed.
End P.
