(** * SO3: the logarithm inverts the exponential. *)
From Coq Require Import Reals Lra Bool Psatz.
From Verif Require Import Base Alg Inst ModelLie SpecLie LemLie LemSO3.
Local Open Scope R_scope.

(** cosine of the angle, antisymmetric part, and symmetric part minus cosine *)
Definition cosm (m : M3) : R := (trace3 m - 1) / 2.
Definition anti (m : M3) : V3 :=
  mk3 ((vy (r2 m) - vz (r1 m)) / 2) ((vz (r0 m) - vx (r2 m)) / 2) ((vx (r1 m) - vy (r0 m)) / 2).
Definition symc (m : M3) : M3 :=
  mkM (mk3 (vx (r0 m) - cosm m) ((vx (r1 m) + vy (r0 m)) / 2) ((vz (r0 m) + vx (r2 m)) / 2))
      (mk3 ((vx (r1 m) + vy (r0 m)) / 2) (vy (r1 m) - cosm m) ((vy (r2 m) + vz (r1 m)) / 2))
      (mk3 ((vz (r0 m) + vx (r2 m)) / 2) ((vy (r2 m) + vz (r1 m)) / 2) (vz (r2 m) - cosm m)).
Definition outer3 (u v : V3) : M3 := mkM (scale3 (vx u) v) (scale3 (vy u) v) (scale3 (vz u) v).
Definition scaleM (k : R) (m : M3) : M3 := mkM (scale3 k (r0 m)) (scale3 k (r1 m)) (scale3 k (r2 m)).

Lemma anti_outer m : rotation m -> outer3 (anti m) (anti m) = scaleM (1 + cosm m) (symc m).
Proof.
  intros H. pose proof (rotation_cof m H) as C. pose proof (rotation_tr_l m H) as T. pose proof (rotation_tr_r m H) as T'.
  destruct m as [[a b c] [d e f] [g h i]]. unfold cof3, outer3, scaleM, anti, symc, cosm in *. lie_unfold.
  injection C; injection T; injection T'; intros. clear C T T' H.
  f_equal; f_equal; lra.
Qed.
Lemma symc_rank1 m : rotation m ->
  let s := symc m in
  vx (r0 s) * vy (r1 s) = vy (r0 s) * vy (r0 s) /\ vx (r0 s) * vz (r2 s) = vz (r0 s) * vz (r0 s) /\
  vy (r1 s) * vz (r2 s) = vz (r1 s) * vz (r1 s) /\
  vx (r0 s) * vz (r1 s) = vy (r0 s) * vz (r0 s) /\ vy (r1 s) * vz (r0 s) = vy (r0 s) * vz (r1 s) /\
  vz (r2 s) * vy (r0 s) = vz (r0 s) * vz (r1 s).
Proof.
  intros H s. subst s. pose proof (anti_outer m H) as A. pose proof (rotation_cof m H) as C.
  destruct m as [[a b c] [d e f] [g h i]]. unfold cof3, outer3, scaleM, anti, symc, cosm in *. lie_unfold.
  injection C; injection A; intros. clear C A H.
  repeat split; lra.
Qed.
Lemma symc_trace m : trace3 (symc m) = 1 - cosm m.
Proof. unfold symc, cosm. destruct m as [[a b c] [d e f] [g h i]]. lie_unfold. field. Qed.
Lemma anti_len m : rotation m -> dot3 (anti m) (anti m) = 1 - cosm m * cosm m.
Proof.
  intros H. pose proof (anti_outer m H) as A. pose proof (symc_trace m) as T.
  transitivity (trace3 (outer3 (anti m) (anti m))); [reflexivity|].
  rewrite A. transitivity ((1 + cosm m) * trace3 (symc m)); [|rewrite T; ring].
  generalize (1 + cosm m) (symc m). intros k s. unfold scaleM. dv. lie_unfold. ring.
Qed.
Lemma cosm_range m : rotation m -> -1 <= cosm m <= 1.
Proof. intros H. pose proof (anti_len m H). pose proof (dot3_nonneg (anti m)). nra. Qed.

(** If a is a unit vector with (1-c) a a^T = S - c and sin(t) a = v, cos t = c, then m is the rotation. *)
Lemma rot_matrix_of m a t :
  cos t = cosm m -> scaleM (1 - cosm m) (outer3 a a) = symc m -> scale3 (sin t) a = anti m -> rot_matrix a t = m.
Proof.
  intros Hc Hs Ha. unfold rot_matrix. rewrite Hc.
  unfold scaleM, outer3, symc, anti in *. generalize dependent (cosm m). intros c Hc Hs.
  destruct m as [[m00 m01 m02] [m10 m11 m12] [m20 m21 m22]]. destruct a as [a0 a1 a2]. lie_unfold.
  injection Hs; injection Ha; intros. f_equal; f_equal; lra.
Qed.

Lemma acos_props c : -1 <= c <= 1 -> 0 <= acos c <= PI /\ cos (acos c) = c /\ sin (acos c) = sqrt (1 - c * c).
Proof.
  intros H. pose proof (acos_bound c). split; [auto|]. split; [apply cos_acos; auto|].
  rewrite sin_acos by auto. unfold Rsqr. reflexivity.
Qed.
Lemma asin_sqrt c : 0 <= c <= 1 -> asin (sqrt (1 - c * c)) = acos c.
Proof.
  intros H. destruct (acos_props c) as (A & B & C); [lra|]. rewrite <- C. apply asin_sin.
  assert (acos c <= PI / 2); [|lra].
  destruct (Rle_dec (acos c) (PI / 2)) as [G|G]; [exact G|exfalso].
  assert (cos (acos c) < 0); [apply cos_lt_0; pose proof PI_RGT_0; lra|lra].
Qed.
Lemma acos_neg c : -1 <= c <= 1 -> acos (- c) = PI - acos c.
Proof. intros. apply acos_opp. Qed.

Lemma scale3_comm k l v : scale3 k (scale3 l v) = scale3 (k * l) v.
Proof. dv. lie_unfold. f_equal; ring. Qed.

Lemma so3_ln_ok thr m : 0 < thr < 1 -> rotation m ->
  exists a t, dot3 a a = 1 /\ 0 <= t <= PI /\ so3_ln thr m = Ok (scale3 t a) /\ rot_matrix a t = m.
Proof.
  intros Hthr H.
  pose proof (anti_outer m H) as IO. pose proof (anti_len m H) as IL. pose proof (cosm_range m H) as IC.
  destruct (acos_props (cosm m) IC) as (At & Ac & As).
  assert (Ew : so3_ln thr m =
    let c := cosm m in let v := anti m in let s := sqrt (dot3 v v) in let S := symc m in
    if R_ltb thr c then
      if R_ltb 0 s then k <- div (F:=R) (asin s) s ;; Ok (scale3 k v) else Ok v
    else if R_ltb (- thr) c then k <- div (F:=R) (acos c) s ;; Ok (scale3 k v)
    else
      let angle := PI - asin s in
      let d0 := vx (r0 S) in let d1 := vy (r1 S) in let d2 := vz (r2 S) in
      let q := if (R_ltb (d1 * d1) (d0 * d0) && R_ltb (d2 * d2) (d0 * d0))%bool then r0 S
               else if R_ltb (d2 * d2) (d1 * d1) then r1 S else r2 S in
      let q := if R_ltb (dot3 q v) 0 then scale3 (-1) q else q in
      q <- unit3 q ;; Ok (scale3 angle q)).
  { cbv zeta. unfold so3_ln, symc, anti.
    replace ((vx (r0 m) + vy (r1 m) + vz (r2 m) - 1) * (1 / 2)) with (cosm m) by (unfold cosm, trace3; field).
    cbn [r0 r1 r2 vx vy vz]. reflexivity. }
  rewrite Ew. clear Ew. cbv zeta. rewrite IL.
  (* the case of a non-zero antisymmetric part and 1 + c > 0 *)
  assert (Gen : 0 < 1 - cosm m * cosm m ->
     exists a t, dot3 a a = 1 /\ 0 <= t <= PI /\ Ok (scale3 (acos (cosm m) / sqrt (1 - cosm m * cosm m)) (anti m)) = Ok (scale3 t a) /\ rot_matrix a t = m).
  { intros Hp. set (s := sqrt (1 - cosm m * cosm m)) in *.
    assert (Sp : 0 < s) by (apply sqrt_lt_R0; exact Hp).
    assert (Ss : s * s = 1 - cosm m * cosm m) by (apply sqrt_sqrt; lra).
    exists (scale3 (1 / s) (anti m)), (acos (cosm m)).
    split; [rewrite dot3_scale_l, dot3_scale_r, IL, <- Ss; field; lra|].
    split; [exact At|]. split; [f_equal; rewrite scale3_comm; f_equal; field; lra|].
    apply rot_matrix_of.
    - exact Ac.
    - transitivity (scaleM ((1 - cosm m) / (s * s)) (outer3 (anti m) (anti m))).
      { generalize (1 - cosm m) (anti m). intros k v. clear - Sp. unfold scaleM, outer3. dv. lie_unfold. f_equal; f_equal; field; lra. }
      rewrite IO, Ss. generalize (symc m). intros S. clear - Hp. unfold scaleM. dv. lie_unfold. f_equal; f_equal; field; nra.
    - rewrite As, scale3_comm. fold s. replace (s * (1 / s)) with 1 by (field; lra). apply scale3_1. }
  destruct (R_ltb thr (cosm m)) eqn:E1.
  { apply R_ltb_spec in E1. rewrite asin_sqrt by lra.
    destruct (R_ltb 0 (sqrt (1 - cosm m * cosm m))) eqn:E2.
    - apply R_ltb_spec in E2. rewrite Rdiv_ok by lra. cbn [bind]. apply Gen.
      destruct (Rlt_dec 0 (1 - cosm m * cosm m)) as [G|G]; [exact G|].
      rewrite sqrt_neg_0 in E2 by lra. lra.
    - apply R_ltb_false in E2.
      assert (Z : 1 - cosm m * cosm m = 0).
      { destruct (Rlt_dec 0 (1 - cosm m * cosm m)) as [G|G]; [apply sqrt_lt_R0 in G; lra|]. nra. }
      assert (C1 : cosm m = 1) by nra.
      assert (V0 : anti m = zero3) by (apply dot3_zero; rewrite IL; exact Z).
      exists (mk3 1 0 0), 0. split; [lie_unfold; ring|]. split; [pose proof PI_RGT_0; lra|].
      split; [rewrite V0; f_equal; lie_unfold; f_equal; ring|].
      rewrite rot_matrix_0. rewrite V0, C1 in IO. unfold symc in IO. rewrite C1 in IO.
      assert (V1 := V0). unfold anti in V1. clear - IO V1.
      destruct m as [[m00 m01 m02] [m10 m11 m12] [m20 m21 m22]]. unfold scaleM, outer3 in *. lie_unfold.
      injection IO; injection V1; intros. f_equal; f_equal; lra. }
  apply R_ltb_false in E1.
  destruct (R_ltb (- thr) (cosm m)) eqn:E2.
  { apply R_ltb_spec in E2. assert (P : 0 < 1 - cosm m * cosm m) by nra.
    rewrite Rdiv_ok; [cbn [bind]; apply Gen; exact P|]. pose proof (sqrt_lt_R0 _ P). lra. }
  apply R_ltb_false in E2. clear Gen.
  assert (EA : PI - asin (sqrt (1 - cosm m * cosm m)) = acos (cosm m)).
  { replace (1 - cosm m * cosm m) with (1 - (- cosm m) * (- cosm m)) by ring.
    rewrite asin_sqrt by lra. rewrite acos_neg by lra. ring. }
  rewrite EA.
  pose proof (symc_rank1 m H) as Rk. cbv zeta in Rk. pose proof (symc_trace m) as Tr. unfold trace3 in Tr.
  set (c := cosm m) in *. set (v := anti m) in *.
  remember (symc m) as S eqn:ES.
  assert (Sy : exists d0 d1 d2 s01 s02 s12, S = mkM (mk3 d0 s01 s02) (mk3 s01 d1 s12) (mk3 s02 s12 d2)).
  { rewrite ES. unfold symc. do 6 eexists. reflexivity. }
  destruct Sy as (d0 & d1 & d2 & s01 & s02 & s12 & Sy). rewrite Sy in *. cbn [vx vy vz r0 r1 r2] in *.
  destruct Rk as (k1 & k2 & k3 & k4 & k5 & k6).
  assert (D0 : 0 <= d0) by nra. assert (D1 : 0 <= d1) by nra. assert (D2 : 0 <= d2) by nra.
  set (q := if (R_ltb (d1 * d1) (d0 * d0) && R_ltb (d2 * d2) (d0 * d0))%bool then mk3 d0 s01 s02
            else if R_ltb (d2 * d2) (d1 * d1) then mk3 s01 d1 s12 else mk3 s02 s12 d2).
  assert (Hq : exists dk, 0 < dk /\ outer3 q q = scaleM dk S /\ dot3 q q = dk * (1 - c)).
  { unfold q. destruct (R_ltb (d1 * d1) (d0 * d0)) eqn:F1; [destruct (R_ltb (d2 * d2) (d0 * d0)) eqn:F2|]; cbn [andb].
    - apply R_ltb_spec in F1. exists d0. split; [nra|]. rewrite <- Tr, Sy. unfold outer3, scaleM. lie_unfold. split; [f_equal; f_equal; lra|lra].
    - apply R_ltb_false in F2. apply R_ltb_spec in F1. destruct (R_ltb (d2 * d2) (d1 * d1)) eqn:F3.
      + apply R_ltb_spec in F3. exfalso. nra.
      + exists d2. split; [nra|]. rewrite <- Tr, Sy. unfold outer3, scaleM. lie_unfold. split; [f_equal; f_equal; lra|lra].
    - apply R_ltb_false in F1. destruct (R_ltb (d2 * d2) (d1 * d1)) eqn:F3.
      + apply R_ltb_spec in F3. exists d1. split; [nra|]. rewrite <- Tr, Sy. unfold outer3, scaleM. lie_unfold. split; [f_equal; f_equal; lra|lra].
      + apply R_ltb_false in F3. exists d2. split; [nra|]. rewrite <- Tr, Sy. unfold outer3, scaleM. lie_unfold. split; [f_equal; f_equal; lra|lra]. }
  rewrite <- Sy in *. clear Sy q k1 k2 k3 k4 k5 k6 D0 D1 D2 Tr s01 s02 s12 d0 d1 d2 || idtac.
  clearbody q. destruct Hq as (dk & Dk & Oq & Nq).
  set (q' := if R_ltb (dot3 q v) 0 then scale3 (-1) q else q).
  assert (Hq' : outer3 q' q' = scaleM dk S /\ dot3 q' q' = dk * (1 - c) /\ 0 <= dot3 q' v).
  { unfold q'. destruct (R_ltb (dot3 q v) 0) eqn:F.
    - apply R_ltb_spec in F. rewrite <- Oq, <- Nq. split; [|split].
      + clear. unfold outer3. dv. lie_unfold. f_equal; f_equal; ring.
      + clear. dv. lie_unfold. ring.
      + rewrite dot3_scale_l. lra.
    - apply R_ltb_false in F. auto. }
  clearbody q'. destruct Hq' as (Oq' & Nq' & Pq').
  assert (Np : 0 < dot3 q' q') by (rewrite Nq'; apply Rmult_lt_0_compat; lra).
  assert (Zq : q' <> zero3) by (intros ->; revert Np; lie_unfold; lra).
  rewrite (unit3_ok q' Zq). cbn [bind].
  pose proof (unit3_len q' Zq) as Ua. pose proof (len3_pos q' Zq) as Lp. pose proof (len3_sq q') as Lq.
  set (l := len3 q') in *. set (a := scale3 (1 / l) q') in *.
  assert (Ea : scaleM (1 - c) (outer3 a a) = S).
  { unfold a. transitivity (scaleM ((1 - c) / (l * l)) (outer3 q' q')).
    - clear - Lp. unfold scaleM, outer3. dv. lie_unfold. f_equal; f_equal; field; lra.
    - rewrite Oq', Lq, Nq'. clear - Dk E2 Hthr. unfold scaleM. dv. lie_unfold. f_equal; f_equal; field; lra. }
  exists a, (acos c). split; [exact Ua|]. split; [exact At|]. split; [reflexivity|].
  apply rot_matrix_of; [exact Ac|rewrite <- ES; exact Ea|].
  (* |v| a = v *)
  rewrite As. fold c v.
  assert (Pa : 0 <= dot3 a v).
  { unfold a. rewrite dot3_scale_l. apply Rmult_le_pos; [|exact Pq']. apply Rlt_le, Rdiv_lt_0_compat; lra. }
  assert (VV : outer3 v v = scaleM (1 - c * c) (outer3 a a)).
  { rewrite IO, <- Ea. clear. unfold scaleM, outer3. dv. lie_unfold. f_equal; f_equal; ring. }
  assert (K : scale3 (dot3 a v) v = scale3 (1 - c * c) a).
  { transitivity (mv3 (outer3 v v) a); [clear; unfold outer3; dv; lie_unfold; f_equal; ring|].
    rewrite VV. transitivity (scale3 ((1 - c * c) * dot3 a a) a); [clear; unfold outer3, scaleM; dv; lie_unfold; f_equal; ring|].
    rewrite Ua. f_equal. ring. }
  assert (K2 : dot3 a v * dot3 a v = 1 - c * c).
  { rewrite <- dot3_scale_r, K, dot3_scale_r, Ua. ring. }
  assert (K3 : sqrt (1 - c * c) = dot3 a v) by (rewrite <- K2; apply sqrt_square, Pa).
  rewrite K3. destruct Pa as [Pa|Pa].
  - rewrite <- K2 in K. clear - K Pa. set (k := dot3 a v) in *. clearbody k.
    transitivity (scale3 (1 / k) (scale3 (k * k) a)); [dv; lie_unfold; f_equal; field; lra|].
    rewrite <- K. dv; lie_unfold; f_equal; field; lra.
  - rewrite <- Pa in *. assert (V0 : v = zero3) by (apply dot3_zero; rewrite IL, <- K2; ring).
    rewrite V0. clear. dv. lie_unfold. f_equal; ring.
Qed.

Lemma rot_matrix_inj a t a' t' :
  dot3 a a = 1 -> dot3 a' a' = 1 -> 0 <= t < PI -> 0 <= t' <= PI -> rot_matrix a t = rot_matrix a' t' ->
  scale3 t a = scale3 t' a'.
Proof.
  intros Ua Ua' Ht Ht' E.
  assert (Ec : cos t = cos t').
  { assert (T : trace3 (rot_matrix a t) = trace3 (rot_matrix a' t')) by (rewrite E; reflexivity).
    rewrite !rot_matrix_rodrigues in T by assumption. rewrite !rodrigues_trace, Ua, Ua' in T. lra. }
  assert (Et : t = t').
  { rewrite <- (acos_cos t), <- (acos_cos t') by lra. rewrite Ec. reflexivity. }
  subst t'. destruct (Req_dec t 0) as [->|N0].
  { clear. dv. lie_unfold. f_equal; ring. }
  assert (Sp : 0 < sin t) by (apply sin_gt_0; lra).
  f_equal. unfold rot_matrix in E. destruct a as [a b c], a' as [d e g]. lie_unfold.
  injection E; intros. f_equal; apply (Rmult_eq_reg_l (sin t)); lra.
Qed.
