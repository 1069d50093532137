(** * Lemmas on similarity transforms. *)
From Coq Require Import Reals ZArith Lra Bool Psatz Arith Lia.
From Verif Require Import Base Alg Mat SpecMat LemMat ModelOps LemOps Inst SpecLin LemLin ModelGauss LemGauss ModelLie SpecLie LemLie LemSO3 LemSO3b LemSO3c LemSO3d LemHelpers ModelSE SpecSE LemSE LemSE2 LemSE3 ModelSim SpecSim.
Local Open Scope R_scope.

Lemma SIM3_eq A B : mrot A = mrot B -> mtrans A = mtrans B -> mscl A = mscl B -> A = B.
Proof. destruct A, B; cbn; intros -> -> ->; reflexivity. Qed.

(** derivatives *)
Lemma d_eq f x l l' : derivable_pt_lim f x l -> l = l' -> derivable_pt_lim f x l'.
Proof. intros H <-; exact H. Qed.
Lemma d_ext f g x l : derivable_pt_lim f x l -> (forall y, f y = g y) -> derivable_pt_lim g x l.
Proof. intros H E. apply (derivable_pt_lim_locally_ext f g x (x - 1) (x + 1)); [lra|auto|exact H]. Qed.
Lemma d_scal k f x l : derivable_pt_lim f x l -> derivable_pt_lim (fun y => k * f y) x (k * l).
Proof. intros H. exact (derivable_pt_lim_scal f k x l H). Qed.
Lemma d_lin s x : derivable_pt_lim (fun y => s * y) x s.
Proof. apply (d_eq _ _ (s * 1)); [|ring]. apply (d_scal s (fun y => y)). apply derivable_pt_lim_id. Qed.
Lemma d_exp s x : derivable_pt_lim (fun y => exp (s * y)) x (s * exp (s * x)).
Proof. rewrite Rmult_comm. apply (derivable_pt_lim_comp (fun y => s * y) exp x s); [apply d_lin|apply derivable_pt_lim_exp]. Qed.
Lemma d_cos s x : derivable_pt_lim (fun y => cos (s * y)) x (- s * sin (s * x)).
Proof. replace (- s * sin (s * x)) with (- sin (s * x) * s) by ring. apply (derivable_pt_lim_comp (fun y => s * y) cos x s); [apply d_lin|apply derivable_pt_lim_cos]. Qed.
Lemma d_sin s x : derivable_pt_lim (fun y => sin (s * y)) x (s * cos (s * x)).
Proof. rewrite Rmult_comm. apply (derivable_pt_lim_comp (fun y => s * y) sin x s); [apply d_lin|apply derivable_pt_lim_sin]. Qed.
Lemma comb_derivative a f g h u x f' g' h' i : derivable_pt_lim f x f' -> derivable_pt_lim g x g' -> derivable_pt_lim h x h' ->
  derivable_pt_lim (fun y => comp3 (comb a (f y) (g y) (h y) u) i) x (comp3 (comb a f' g' h' u) i).
Proof.
  intros Hf Hg Hh.
  assert (G : forall p q r, derivable_pt_lim (fun y => p * f y + q * g y + r * h y) x (p * f' + q * g' + r * h')).
  { intros p q r. apply (derivable_pt_lim_plus (fun y => p * f y + q * g y) (fun y => r * h y)); [|apply d_scal; exact Hh].
    apply (derivable_pt_lim_plus (fun y => p * f y) (fun y => q * g y)); apply d_scal; auto. }
  assert (E : forall i, exists p q r, forall z1 z2 l, comp3 (comb a z1 z2 l u) i = p * z1 + q * z2 + r * l).
  { intros j. exists (comp3 (sub3 u (scale3 (dot3 a u) a)) j), (comp3 (cross3 a u) j), (comp3 (scale3 (dot3 a u) a) j).
    intros z1 z2 l. unfold comb. set (k := dot3 a u). clearbody k. destruct a as [a1 a2 a3], u as [u1 u2 u3].
    destruct j as [|[|j]]; cbn [comp3 vx vy vz add3 sub3 scale3 cross3]; ring. }
  destruct (E i) as (p & q & r & E'). rewrite E'. eapply d_ext; [apply G|]. intros y. symmetry. apply E'.
Qed.

(** the integrals of exp(s x), exp(s x) cos(t x) and exp(s x) sin(t x) *)
Definition Zc (s x : R) : R := if R_eqb s 0 then x else (exp (s * x) - 1) / s.
Definition Xc (s t x : R) : R := if R_eqb (s * s + t * t) 0 then x
  else ((exp (s * x) * cos (t * x) - 1) * s + exp (s * x) * sin (t * x) * t) / (s * s + t * t).
Definition Yc (s t x : R) : R := if R_eqb (s * s + t * t) 0 then 0
  else (exp (s * x) * sin (t * x) * s - (exp (s * x) * cos (t * x) - 1) * t) / (s * s + t * t).
Lemma R_eqb_t x : x = 0 -> R_eqb x 0 = true. Proof. intros; apply R_eqb_spec; auto. Qed.
Lemma R_eqb_f x : x <> 0 -> R_eqb x 0 = false.
Proof. intros H. destruct (R_eqb x 0) eqn:E; auto. apply R_eqb_spec in E. contradiction. Qed.
Lemma sq0 s t : s * s + t * t = 0 -> s = 0 /\ t = 0.
Proof. intros H. split; nra. Qed.
Lemma Zc_0 s : Zc s 0 = 0.
Proof. unfold Zc. destruct (R_eqb s 0) eqn:E; auto. rewrite Rmult_0_r, exp_0. unfold Rdiv. ring. Qed.
Lemma Xc_0 s t : Xc s t 0 = 0.
Proof. unfold Xc. destruct (R_eqb (s * s + t * t) 0) eqn:E; auto. rewrite !Rmult_0_r, exp_0, cos_0, sin_0. unfold Rdiv. ring. Qed.
Lemma Yc_0 s t : Yc s t 0 = 0.
Proof. unfold Yc. destruct (R_eqb (s * s + t * t) 0) eqn:E; auto. rewrite !Rmult_0_r, exp_0, cos_0, sin_0. unfold Rdiv. ring. Qed.
Lemma d_ec s t x : derivable_pt_lim (fun y => exp (s * y) * cos (t * y)) x (exp (s * x) * (s * cos (t * x) - t * sin (t * x))).
Proof. eapply d_eq; [apply (derivable_pt_lim_mult (fun y => exp (s * y)) (fun y => cos (t * y))); [apply d_exp|apply d_cos]|ring]. Qed.
Lemma d_es s t x : derivable_pt_lim (fun y => exp (s * y) * sin (t * y)) x (exp (s * x) * (s * sin (t * x) + t * cos (t * x))).
Proof. eapply d_eq; [apply (derivable_pt_lim_mult (fun y => exp (s * y)) (fun y => sin (t * y))); [apply d_exp|apply d_sin]|ring]. Qed.
Lemma d_Zc s x : derivable_pt_lim (Zc s) x (exp (s * x)).
Proof.
  unfold Zc. destruct (R_eqb s 0) eqn:E.
  - apply R_eqb_spec in E. subst s. rewrite Rmult_0_l, exp_0. apply derivable_pt_lim_id.
  - assert (s <> 0) by (intros Z; rewrite Z, R_eqb_t in E; [discriminate|reflexivity]).
    eapply d_ext; [eapply d_eq; [apply (d_scal (/ s)); apply (derivable_pt_lim_minus (fun y => exp (s * y)) (fun _ => 1)); [apply d_exp|apply derivable_pt_lim_const]|field; auto]|].
    intros y. unfold plus_fct, minus_fct. field. auto.
Qed.
Lemma d_Xc s t x : derivable_pt_lim (Xc s t) x (exp (s * x) * cos (t * x)).
Proof.
  unfold Xc. destruct (R_eqb (s * s + t * t) 0) eqn:E.
  - apply R_eqb_spec, sq0 in E. destruct E as [-> ->]. rewrite !Rmult_0_l, exp_0, cos_0, Rmult_1_l. apply derivable_pt_lim_id.
  - assert (N : s * s + t * t <> 0) by (intros Z; rewrite Z, R_eqb_t in E; [discriminate|reflexivity]).
    eapply d_ext; [eapply d_eq; [apply (d_scal (/ (s * s + t * t))); apply (derivable_pt_lim_plus (fun y => s * (exp (s * y) * cos (t * y) - 1)) (fun y => t * (exp (s * y) * sin (t * y))));
      [apply d_scal; apply (derivable_pt_lim_minus (fun y => exp (s * y) * cos (t * y)) (fun _ => 1)); [apply d_ec|apply derivable_pt_lim_const]|apply d_scal, d_es]|field; auto]|].
    intros y. unfold plus_fct, minus_fct. field. auto.
Qed.
Lemma d_Yc s t x : derivable_pt_lim (Yc s t) x (exp (s * x) * sin (t * x)).
Proof.
  unfold Yc. destruct (R_eqb (s * s + t * t) 0) eqn:E.
  - apply R_eqb_spec, sq0 in E. destruct E as [-> ->]. rewrite !Rmult_0_l, sin_0, Rmult_0_r. apply derivable_pt_lim_const.
  - assert (N : s * s + t * t <> 0) by (intros Z; rewrite Z, R_eqb_t in E; [discriminate|reflexivity]).
    eapply d_ext; [eapply d_eq; [apply (d_scal (/ (s * s + t * t))); apply (derivable_pt_lim_minus (fun y => s * (exp (s * y) * sin (t * y))) (fun y => t * (exp (s * y) * cos (t * y) - 1)));
      [apply d_scal, d_es|apply d_scal; apply (derivable_pt_lim_minus (fun y => exp (s * y) * cos (t * y)) (fun _ => 1)); [apply d_ec|apply derivable_pt_lim_const]]|field; auto]|].
    intros y. unfold plus_fct, minus_fct. field. auto.
Qed.
Lemma path_comb a t s u : sim_path a t s u (fun x => comb a (Xc s t x) (Yc s t x) (Zc s x) u).
Proof.
  split.
  - rewrite Xc_0, Yc_0, Zc_0. unfold comb. set (k := dot3 a u). clearbody k. dv. lie_unfold. f_equal; ring.
  - intros x i Hi. rewrite rotate_comb, comb_scale. rewrite Rmult_1_r. apply comb_derivative; [apply d_Xc|apply d_Yc|apply d_Zc].
Qed.

(** in the exact ranges the coefficients are those integrals *)
Lemma rod_exact s t c0 c1 c2 : (s = 0 \/ 1 / 10 ^ 6 <= Rabs s) -> (t = 0 \/ 1 / 10 ^ 6 <= Rabs t) -> rod_coeffs s t = (c0, c1, c2) ->
  c0 = Zc s 1 /\ c0 - c2 * (t * t) = Xc s t 1 /\ c1 * t = Yc s t 1.
Proof.
  intros Hs Ht. unfold rod_coeffs, Zc, Xc, Yc. rewrite !Rmult_1_r.
  assert (N0 : forall x, 1 / 10 ^ 6 <= Rabs x -> x <> 0) by (intros x Hx ->; rewrite Rabs_R0 in Hx; lra).
  destruct Hs as [->|Hs], Ht as [->|Ht].
  - rewrite Rabs_R0. rewrite R_ltb_t by lra. cbn [andb]. intros E; injection E as <- <- <-.
    rewrite (R_eqb_t 0) by reflexivity. rewrite R_eqb_t by ring. repeat split; try field; ring.
  - pose proof (N0 t Ht) as Nt. rewrite Rabs_R0. rewrite (R_ltb_t 0) by lra. rewrite R_ltb_f by exact Ht. cbn [andb].
    intros E; injection E as <- <- <-. rewrite (R_eqb_t 0) by reflexivity. rewrite R_eqb_f by nra. rewrite exp_0. repeat split; field; try nra; repeat split; nra.
  - pose proof (N0 s Hs) as Ns. rewrite Rabs_R0. rewrite (R_ltb_f (Rabs s)) by exact Hs. rewrite R_ltb_t by lra. cbn [andb].
    intros E; injection E as <- <- <-. rewrite !R_eqb_f by nra. rewrite cos_0, sin_0. repeat split; field; try nra; repeat split; nra.
  - pose proof (N0 s Hs) as Ns. pose proof (N0 t Ht) as Nt. rewrite (R_ltb_f (Rabs s)) by exact Hs. rewrite R_ltb_f by exact Ht. cbn [andb].
    intros E; injection E as <- <- <-. rewrite !R_eqb_f by nra. repeat split; field; try nra; repeat split; nra.
Qed.
Lemma XY_pos s t : - PI <= t <= PI -> 0 < Xc s t 1 * Xc s t 1 + Yc s t 1 * Yc s t 1.
Proof.
  intros B. unfold Xc, Yc. rewrite !Rmult_1_r. destruct (R_eqb (s * s + t * t) 0) eqn:E; [lra|].
  assert (N : s * s + t * t <> 0) by (intros Z; rewrite Z, R_eqb_t in E; [discriminate|reflexivity]).
  assert (P : 0 < s * s + t * t) by nra. pose proof (exp_pos s) as Ep. pose proof (trig1 t) as T1.
  set (e := exp s) in *. set (c := cos t) in *. set (d := sin t) in *.
  assert (G : ((e * c - 1) * s + e * d * t) / (s * s + t * t) * (((e * c - 1) * s + e * d * t) / (s * s + t * t)) +
     (e * d * s - (e * c - 1) * t) / (s * s + t * t) * ((e * d * s - (e * c - 1) * t) / (s * s + t * t)) = ((e * c - 1) * (e * c - 1) + e * d * (e * d)) / (s * s + t * t)).
  { field. exact N. }
  rewrite G. apply Rdiv_lt_0_compat; [|exact P].
  assert (Q : (e * c - 1) * (e * c - 1) + e * d * (e * d) = (e - 1) * (e - 1) + 2 * e * (1 - c)).
  { transitivity (e * e * (d * d + c * c) - 2 * e * c + 1); [ring|]. rewrite T1. ring. }
  rewrite Q. assert (Cl : c <= 1) by apply COS_bound.
  destruct (Req_dec s 0) as [S0|S0].
  - assert (t <> 0) by (intros Z; apply N; rewrite S0, Z; ring). assert (Cn : c <> 1). { intros Z. apply H. apply cos_one; [exact Z|]. pose proof PI_RGT_0. lra. }
    assert (0 < 1 - c) by lra. assert (0 < e * (1 - c)) by (apply Rmult_lt_0_compat; auto). assert (0 <= (e - 1) * (e - 1)) by apply Rle_0_sqr. lra.
  - assert (e <> 1). { unfold e. intros Z. apply S0. apply exp_inv. rewrite Z, exp_0. reflexivity. }
    assert (0 < (e - 1) * (e - 1)) by nra. assert (0 <= e * (1 - c)) by (apply Rmult_le_pos; lra). lra.
Qed.
Lemma Zc_nz s : Zc s 1 <> 0.
Proof.
  unfold Zc. destruct (R_eqb s 0) eqn:E; [lra|]. rewrite Rmult_1_r.
  assert (S0 : s <> 0) by (intros Z; rewrite Z, R_eqb_t in E; [discriminate|reflexivity]).
  intros Z. apply S0. apply exp_inv. rewrite exp_0. apply (f_equal (fun x => x * s + 1)) in Z.
  replace ((exp s - 1) / s * s + 1) with (exp s) in Z by (field; auto). lra.
Qed.
(** the 3x3 system *)
Lemma W_apply a t c0 c1 c2 p i : dot3 a a = 1 -> (i < 3)%nat ->
  sum (F:=R) 3 (fun j => mel (sim3_W c0 c1 c2 (scale3 t a)) i j * comp3 p j) = comp3 (comb a (c0 - c2 * (t * t)) (c1 * t) c0 p) i.
Proof.
  intros Ha Hi.
  assert (E : comb a (c0 - c2 * (t * t)) (c1 * t) c0 p =
     add3 (add3 (scale3 c0 p) (scale3 (c1 * t) (cross3 a p))) (scale3 (c2 * (t * t)) (sub3 (scale3 (dot3 a p) a) (scale3 (dot3 a a) p)))).
  { rewrite Ha. unfold comb. set (k := dot3 a p). clearbody k. clear. dv. lie_unfold. f_equal; ring. }
  rewrite E. clear - Hi. destruct a as [a1 a2 a3], p as [p1 p2 p3].
  destruct i as [|[|[|i]]]; [| | |lia]; clear Hi; unfold sim3_W, cross_matrix, row3; cbn [mel sum Nat.eqb fadd f0 ROps v3_at comp3 r0 r1 r2]; lie_unfold; cbn [v3_at comp3 vx vy vz r0 r1 r2]; ring.
Qed.
Lemma comp3_ext p q : (forall i, (i < 3)%nat -> comp3 p i = comp3 q i) -> p = q.
Proof.
  intros H. pose proof (H 0%nat ltac:(lia)) as H0. pose proof (H 1%nat ltac:(lia)) as H1. pose proof (H 2%nat ltac:(lia)) as H2.
  destruct p, q. cbn in *. congruence.
Qed.
Lemma comb_inv a X Y Z p : dot3 a a = 1 -> X * X + Y * Y <> 0 -> Z <> 0 ->
  comb a (X / (X * X + Y * Y)) (- Y / (X * X + Y * Y)) (1 / Z) (comb a X Y Z p) = p.
Proof.
  intros Ha HN HZ. rewrite comb_comb by exact Ha. transitivity (comb a 1 0 1 p); [|apply comb_id]. f_equal; field; auto.
Qed.
Lemma comb_zero a X Y Z : comb a X Y Z zero3 = zero3.
Proof. unfold comb. dv. lie_unfold. f_equal; ring. Qed.
Lemma W_nonsingular a t c0 c1 c2 : dot3 a a = 1 -> c0 <> 0 ->
  (c0 - c2 * (t * t)) * (c0 - c2 * (t * t)) + c1 * t * (c1 * t) <> 0 -> nonsingular 3 (mel (sim3_W c0 c1 c2 (scale3 t a))).
Proof.
  intros Ha H0 HN x Hx.
  assert (P : v3_of x = zero3).
  { rewrite <- (comb_inv a _ _ _ (v3_of x) Ha HN H0). rewrite <- (comb_zero a ((c0 - c2 * (t * t)) / ((c0 - c2 * (t * t)) * (c0 - c2 * (t * t)) + c1 * t * (c1 * t))) (- (c1 * t) / ((c0 - c2 * (t * t)) * (c0 - c2 * (t * t)) + c1 * t * (c1 * t))) (1 / c0)) at 1.
    f_equal. apply comp3_ext. intros i Hi. rewrite <- W_apply by auto.
    transitivity (sum (F:=R) 3 (fun j => mel (sim3_W c0 c1 c2 (scale3 t a)) i j * x j)); [reflexivity|].
    etransitivity; [apply (Hx i Hi)|]. destruct i as [|[|i]]; reflexivity. }
  unfold v3_of, zero3 in P. injection P as P0 P1 P2. intros c Hc. destruct c as [|[|[|c]]]; [exact P0|exact P1|exact P2|lia].
Qed.
Lemma exists_axis w : exists a, dot3 a a = 1 /\ w = scale3 (len3 w) a.
Proof.
  destruct (V3_dec w zero3) as [->|H].
  - exists (mk3 1 0 0). split; [lie_unfold; ring|]. unfold len3. replace (dot3 zero3 zero3) with 0 by (lie_unfold; ring). rewrite sqrt_0. lie_unfold. f_equal; ring.
  - exists (scale3 (1 / len3 w) w). split; [apply unit3_len; auto|]. symmetry. apply scale_unit; auto.
Qed.
Lemma len_axis a t : dot3 a a = 1 -> 0 <= t -> sqrt (dot3 (scale3 t a) (scale3 t a)) = t.
Proof. intros Ha Ht. fold (len3 (scale3 t a)). rewrite len3_scale by exact Ht. unfold len3. rewrite Ha, sqrt_1. ring. Qed.
Lemma sim3_exp_form a t s u c0 c1 c2 : dot3 a a = 1 -> 0 <= t -> rod_coeffs s t = (c0, c1, c2) ->
  sim3_exp (mk7 u (scale3 t a) s) = bind (so3_exp (scale3 t a)) (fun r => Ok (mkSIM3 r (comb a (c0 - c2 * (t * t)) (c1 * t) c0 u) (exp s))).
Proof.
  intros Ha Ht E. unfold sim3_exp. cbn [lin7 ang7 sc7]. rewrite len_axis by auto. rewrite E.
  destruct (so3_exp (scale3 t a)); cbn [bind]; auto. do 2 f_equal.
  transitivity (add3 (add3 (scale3 c0 u) (scale3 (c1 * t) (cross3 a u))) (scale3 (c2 * (t * t)) (sub3 (scale3 (dot3 a u) a) (scale3 (dot3 a a) u)))).
  - clear. dv. lie_unfold. f_equal; ring.
  - rewrite Ha. unfold comb. set (k := dot3 a u). clearbody k. clear. dv. lie_unfold. f_equal; ring.
Qed.
Lemma so3_exp_axis a t : dot3 a a = 1 -> (t = 0 \/ 1 / 1000 <= t) -> so3_exp (scale3 t a) = Ok (rot_matrix a t).
Proof.
  intros Ha [->|Ht].
  - replace (scale3 0 a) with zero3 by (clear; dv; lie_unfold; f_equal; ring). rewrite so3_exp_zero, rot_matrix_0. reflexivity.
  - rewrite so3_exp_large; [|rewrite dot3_scale_l, dot3_scale_r, Ha; nra]. rewrite exp3_unit by exact Ha. reflexivity.
Qed.
Lemma sim3_ln_result thr T v : sim3_ln thr T = Ok v -> so3_ln thr (mrot T) = Ok (ang7 v) /\ 0 < mscl T /\ sc7 v = ln (mscl T) /\
  exists a c0 c1 c2, dot3 a a = 1 /\ ang7 v = scale3 (len3 (ang7 v)) a /\ rod_coeffs (sc7 v) (len3 (ang7 v)) = (c0, c1, c2) /\
    comb a (c0 - c2 * (len3 (ang7 v) * len3 (ang7 v))) (c1 * len3 (ang7 v)) c0 (lin7 v) = mtrans T.
Proof.
  unfold sim3_ln. destruct (so3_ln thr (mrot T)) as [w| | | | |]; cbn [bind]; try discriminate.
  unfold log_. destruct (R_ltb 0 (mscl T)) eqn:Es; cbn [bind]; try discriminate. apply R_ltb_spec in Es.
  fold (len3 w). destruct (rod_coeffs (ln (mscl T)) (len3 w)) as [[c0 c1] c2] eqn:Ec.
  destruct (gaussian_elimination_ok 3 (sim3_W c0 c1 c2 w) (mkvec 3 (v3_at (mtrans T))) eq_refl eq_refl eq_refl) as [[_ (x & -> & Lx & Sx)]|[_ ->]]; cbn [bind]; try discriminate.
  intros E; injection E as <-. cbn [ang7 sc7 lin7]. split; [reflexivity|]. split; [exact Es|]. split; [reflexivity|].
  destruct (exists_axis w) as (a & Ha & Hw). exists a, c0, c1, c2. split; [exact Ha|]. split; [exact Hw|]. split; [exact Ec|].
  apply comp3_ext. intros i Hi. rewrite <- W_apply by auto. rewrite <- Hw.
  transitivity (v3_at (mtrans T) i); [|destruct i as [|[|i]]; reflexivity].
  exact (Sx i Hi).
Qed.
Lemma sim3_exp_ln thr T v : 0 < thr < 1 -> rotation (mrot T) -> sim3_ln thr T = Ok v -> (ang7 v = zero3 \/ 1 / 1000 <= len3 (ang7 v)) -> sim3_exp v = Ok T.
Proof.
  intros Hthr Hr E Hw. destruct (sim3_ln_result thr T v E) as (El & Sp & Es & a & c0 & c1 & c2 & Ha & Ew & Ec & Et).
  destruct v as [u w s]. cbn [lin7 ang7 sc7] in *. set (t := len3 w) in *.
  assert (T0 : 0 <= t) by apply len3_nonneg.
  assert (Hx : so3_exp w = Ok (mrot T)).
  { destruct (so3_ln_ok thr (mrot T) Hthr Hr) as (b & r & Ub & Br & E' & M). rewrite El in E'. injection E' as E'.
    assert (L : t = r). { unfold t. rewrite E', len3_scale by lra. unfold len3. rewrite Ub, sqrt_1. ring. }
    rewrite E', so3_exp_axis; [rewrite M; reflexivity|exact Ub|]. destruct Hw as [Z|Z]; [left|right; lra].
    rewrite <- L. unfold t. rewrite Z. unfold len3. replace (dot3 zero3 zero3) with 0 by (lie_unfold; ring). apply sqrt_0. }
  rewrite Ew, (sim3_exp_form a t s u c0 c1 c2 Ha T0 Ec), <- Ew, Hx. cbn [bind]. rewrite Et, Es, exp_ln by exact Sp.
  destruct T; reflexivity.
Qed.
Definition in_range (x e : R) : Prop := x = 0 \/ e <= Rabs x.
Lemma sim3_ln_total thr T w : so3_ln thr (mrot T) = Ok w -> len3 w <= PI -> 0 < mscl T -> in_range (ln (mscl T)) (1 / 10 ^ 6) -> in_range (len3 w) (1 / 10 ^ 6) ->
  exists v, sim3_ln thr T = Ok v.
Proof.
  intros El Lw Sp Hs Ht. unfold sim3_ln. rewrite El. cbn [bind]. fold (len3 w). unfold log_. rewrite R_ltb_t by exact Sp. cbn [bind].
  destruct (rod_coeffs (ln (mscl T)) (len3 w)) as [[c0 c1] c2] eqn:Ec.
  destruct (rod_exact _ _ _ _ _ Hs Ht Ec) as (E0 & E1 & E2). pose proof (len3_nonneg w) as L0.
  destruct (exists_axis w) as (a & Ha & Hw).
  assert (NS : nonsingular 3 (mel (sim3_W c0 c1 c2 w))).
  { rewrite Hw. apply W_nonsingular; [exact Ha|rewrite E0; apply Zc_nz|]. rewrite E1, E2.
    pose proof (XY_pos (ln (mscl T)) (len3 w) ltac:(pose proof PI_RGT_0; lra)). lra. }
  destruct (gaussian_elimination_ok 3 (sim3_W c0 c1 c2 w) (mkvec 3 (v3_at (mtrans T))) eq_refl eq_refl eq_refl) as [[_ (x & -> & Lx & Sx)]|[N _]]; [|contradiction].
  cbn [bind]. eauto.
Qed.
Lemma sim3_ln_exp thr v T : 0 < thr < 1 -> (ang7 v = zero3 \/ 1 / 1000 <= len3 (ang7 v)) -> len3 (ang7 v) < PI -> in_range (sc7 v) (1 / 10 ^ 6) ->
  sim3_exp v = Ok T -> sim3_ln thr T = Ok v.
Proof.
  intros Hthr Hw Lw Hs E. destruct v as [u w s]. cbn [ang7 sc7] in *.
  destruct (exists_axis w) as (a & Ha & Ew). set (t := len3 w) in *. assert (T0 : 0 <= t) by apply len3_nonneg.
  assert (Ht : t = 0 \/ 1 / 1000 <= t).
  { destruct Hw as [Z|Z]; [left|right; auto]. unfold t. rewrite Z. unfold len3. replace (dot3 zero3 zero3) with 0 by (lie_unfold; ring). apply sqrt_0. }
  destruct (rod_coeffs s t) as [[c0 c1] c2] eqn:Ec.
  assert (Ht' : in_range t (1 / 10 ^ 6)) by (destruct Ht; [left; auto|right; rewrite Rabs_right; lra]).
  destruct (rod_exact _ _ _ _ _ Hs Ht' Ec) as (E0 & E1 & E2).
  rewrite Ew, (sim3_exp_form a t s u c0 c1 c2 Ha T0 Ec), so3_exp_axis in E by auto. cbn [bind] in E. injection E as <-.
  pose proof (rot_matrix_rotation a t Ha) as Hr.
  assert (El : so3_ln thr (rot_matrix a t) = Ok w).
  { destruct (so3_ln_ok thr (rot_matrix a t) Hthr Hr) as (b & r & Ub & Br & El & Mb). rewrite El, Ew. f_equal. symmetry. apply rot_matrix_inj; auto; lra. }
  unfold sim3_ln. cbn [mrot mscl mtrans]. rewrite El. cbn [bind]. fold (len3 w). fold t. unfold log_. rewrite R_ltb_t by apply exp_pos. cbn [bind].
  rewrite ln_exp, Ec.
  assert (HX : (c0 - c2 * (t * t)) * (c0 - c2 * (t * t)) + c1 * t * (c1 * t) <> 0).
  { rewrite E1, E2. pose proof (XY_pos s t ltac:(pose proof PI_RGT_0; lra)). lra. }
  assert (H0 : c0 <> 0) by (rewrite E0; apply Zc_nz).
  assert (NS : nonsingular 3 (mel (sim3_W c0 c1 c2 w))) by (rewrite Ew; apply W_nonsingular; auto).
  destruct (gaussian_elimination_ok 3 (sim3_W c0 c1 c2 w) (mkvec 3 (v3_at (comb a (c0 - c2 * (t * t)) (c1 * t) c0 u))) eq_refl eq_refl eq_refl) as [[_ (x & -> & Lx & Sx)]|[N _]]; [|contradiction].
  cbn [bind]. do 2 f_equal.
  assert (Eq : comb a (c0 - c2 * (t * t)) (c1 * t) c0 (v3_of (vat x)) = comb a (c0 - c2 * (t * t)) (c1 * t) c0 u).
  { apply comp3_ext. intros i Hi. rewrite <- W_apply by auto. rewrite <- Ew.
    transitivity (v3_at (comb a (c0 - c2 * (t * t)) (c1 * t) c0 u) i); [|destruct i as [|[|i]]; reflexivity]. exact (Sx i Hi). }
  rewrite <- (comb_inv a (c0 - c2 * (t * t)) (c1 * t) c0 u Ha HX H0), <- Eq. symmetry. apply comb_inv; auto.
Qed.
