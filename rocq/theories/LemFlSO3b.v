(** * coerce() in floating point. *)
From Coq Require Import Reals Lra Lia Psatz.
From Verif Require Import Base Alg Inst ModelLie SpecLie LemLie LemSO3 LemSO3b SpecFlSO3 LemFro RSum ModelFl SpecFl LemFl LemFlChol ModelFlSO3 LemFlSO3.
Open Scope outcome_scope.
Local Open Scope R_scope.

Lemma perp_len a v : len3 a = 1 -> len3 (perp a v) <= len3 v.
Proof.
  intros A. apply len3_le; [apply len3_nonneg|]. rewrite len3_sq. assert (E : dot3 a a = 1) by (rewrite <- len3_sq, A; ring).
  assert (G : dot3 (perp a v) (perp a v) = dot3 v v - 2 * (dot3 a v * dot3 a v) + dot3 a v * dot3 a v * dot3 a a) by (clear; unfold perp; dv; lie_unfold; ring).
  rewrite G, E. nra.
Qed.
Lemma perp_sub a v w : perp a (sub3 v w) = sub3 (perp a v) (perp a w).
Proof. unfold perp. dv. lie_unfold. f_equal; ring. Qed.
Lemma cross_near a b x y : len3 (sub3 (cross3 x y) (cross3 a b)) <= len3 (sub3 x a) * len3 y + len3 a * len3 (sub3 y b).
Proof.
  replace (sub3 (cross3 x y) (cross3 a b)) with (add3 (cross3 (sub3 x a) y) (cross3 a (sub3 y b))) by (dv; lie_unfold; f_equal; ring).
  eapply Rle_trans; [apply len3_add|]. pose proof (len3_cross (sub3 x a) y). pose proof (len3_cross a (sub3 y b)). lra.
Qed.
Lemma dot_near3 a b x y : Rabs (dot3 x y - dot3 a b) <= len3 (sub3 x a) * len3 y + len3 a * len3 (sub3 y b).
Proof.
  replace (dot3 x y - dot3 a b) with (dot3 (sub3 x a) y + dot3 a (sub3 y b)) by (dv; lie_unfold; ring).
  eapply Rle_trans; [apply Rabs_triang|]. pose proof (cs3_len (sub3 x a) y). pose proof (cs3_len a (sub3 y b)). lra.
Qed.

(** the exact run: rows, lengths and determinant *)
Lemma coerce_exact m : det3 m <> 0 ->
  let a := direction (r0 m) in let b1 := perp a (r1 m) in let b := direction b1 in let c1 := perp b (perp a (r2 m)) in let c := direction c1 in
  r0 m <> zero3 /\ r1 m <> zero3 /\ r2 m <> zero3 /\ b1 <> zero3 /\ c1 <> zero3 /\ orthonormal (mkM a b c) /\
  det3 m = len3 (r0 m) * len3 b1 * len3 c1 * det3 (mkM a b c) /\
  so3_coerce m = (if R_ltb 0 (det3 m) then Ok (mkM a b c) else Abort DAssert).
Proof.
  intros D. destruct m as [p q r]. cbv zeta. cbn [r0 r1 r2].
  set (a := direction p). set (b1 := perp a q). set (b := direction b1). set (c1 := perp b (perp a r)). set (c := direction c1).
  assert (Hp : p <> zero3) by (intros ->; apply D; clear; dv; lie_unfold; ring).
  assert (Hq : q <> zero3) by (intros ->; apply D; clear; dv; lie_unfold; ring).
  assert (Hr : r <> zero3) by (intros ->; apply D; clear; dv; lie_unfold; ring).
  pose proof (unit3_len p Hp) as Ua. fold (direction p) in Ua. fold a in Ua. pose proof (scale_unit p Hp) as Sa. fold (direction p) in Sa. fold a in Sa.
  assert (Pb : dot3 a b1 = 0) by (apply (gs1_perp a q Ua)).
  assert (Eb : q = add3 b1 (scale3 (dot3 a q) a)) by (unfold b1, perp; clear; dv; lie_unfold; f_equal; ring).
  assert (Hb : b1 <> zero3). { intros E. apply D. rewrite Eb, E, <- Sa. generalize (dot3 a q) (len3 p) a. clear. intros. dv. lie_unfold. ring. }
  pose proof (unit3_len b1 Hb) as Ub. fold (direction b1) in Ub. fold b in Ub. pose proof (scale_unit b1 Hb) as Sb. fold (direction b1) in Sb. fold b in Sb.
  assert (Pb' : dot3 a b = 0) by (unfold b, direction; rewrite dot3_scale_r, Pb; ring).
  assert (Pc : dot3 b c1 = 0) by (apply (gs1_perp b (perp a r) Ub)).
  assert (Pc' : dot3 a c1 = 0). { unfold c1. unfold perp at 1. rewrite dot3_sub_r, dot3_scale_r, Pb'. change (perp a r) with (gs1 a r). rewrite (gs1_perp a r Ua). ring. }
  assert (Ec : r = add3 c1 (add3 (scale3 (dot3 a r) a) (scale3 (dot3 b (perp a r)) b))) by (unfold c1, perp; clear; generalize a b; intros; dv; lie_unfold; f_equal; ring).
  assert (Hc : c1 <> zero3).
  { intros E. apply D. rewrite Ec, E, Eb, <- Sa, <- Sb. generalize (dot3 a q) (len3 p) (len3 b1) (dot3 a r) (dot3 b (perp a r)) a b. clear. intros. dv. lie_unfold. ring. }
  pose proof (unit3_len c1 Hc) as Uc. fold (direction c1) in Uc. fold c in Uc. pose proof (scale_unit c1 Hc) as Sc. fold (direction c1) in Sc. fold c in Sc.
  assert (Q1 : dot3 a c = 0) by (unfold c, direction; rewrite dot3_scale_r, Pc'; ring).
  assert (Q2 : dot3 b c = 0) by (unfold c, direction; rewrite dot3_scale_r, Pc; ring).
  assert (Ho : orthonormal (mkM a b c)) by (unfold orthonormal; cbn [r0 r1 r2]; auto 10).
  assert (E : det3 (mkM p q r) = len3 p * len3 b1 * len3 c1 * det3 (mkM a b c)).
  { apply (det3_gs p q r a b c (len3 p) (len3 b1) (len3 c1) (dot3 a q) (dot3 a r) (dot3 b (perp a r))); [auto| |].
    - rewrite Sb; exact Eb.
    - rewrite Sc; exact Ec. }
  refine (conj Hp (conj Hq (conj Hr (conj Hb (conj Hc (conj Ho (conj E _))))))).
  unfold so3_coerce. cbn [r0 r1 r2]. rewrite (unit3_ok p Hp). cbn [bind]. fold (direction p). fold a. fold (perp a q). fold b1. rewrite (unit3_ok b1 Hb). cbn [bind]. fold (direction b1). fold b.
  fold (perp a r). fold (perp b (perp a r)). fold c1. rewrite (unit3_ok c1 Hc). cbn [bind]. fold (direction c1). fold c. rewrite det3_rows.
  pose proof (len3_pos p Hp). pose proof (len3_pos b1 Hb). pose proof (len3_pos c1 Hc). assert (L : 0 < len3 p * len3 b1 * len3 c1) by (repeat apply Rmult_lt_0_compat; assumption).
  unfold assert_. destruct (orthonormal_det _ Ho) as [G|G]; rewrite G in E |- *.
  - rewrite (R_ltb_t 0 1), (R_ltb_t 0 (det3 (mkM p q r))) by lra. reflexivity.
  - rewrite (R_ltb_f 0 (-1)), (R_ltb_f 0 (det3 (mkM p q r))) by lra. reflexivity.
Qed.

Section S.
Variables (u : R) (rnd : R -> R).
Hypothesis RN : rounding u rnd.
Hypothesis U : u <= 1 / 1000.
Notation ur := (u_rng u rnd RN).

Lemma fl_coerce_rows m : det3 m <> 0 -> 3400 * u * skewness m <= 1 ->
  let a := direction (r0 m) in let b := direction (perp a (r1 m)) in let c := direction (perp b (perp a (r2 m))) in
  exists q0 q1 q2, len3 (sub3 q0 a) <= 6 * u * skewness m /\ len3 (sub3 q1 b) <= 48 * u * skewness m /\ len3 (sub3 q2 c) <= 272 * u * skewness m /\
    fl_so3_coerce rnd m = (_ <- assert_ (R_ltb 0 (fl_dot3 rnd (fl_cross3 rnd q0 q1) q2)) ;; Ok (mkM q0 q1 q2)) /\ 1 <= skewness m.
Proof.
  intros D K. pose proof ur as Hu. destruct (coerce_exact m D) as (Hp & Hq & Hr & Hb & Hc & Ho & E & _). revert Hb Hc Ho E.
  set (a := direction (r0 m)). set (b1 := perp a (r1 m)). set (b := direction b1). set (c1 := perp b (perp a (r2 m))). set (c := direction c1). intros Hb Hc Ho E. cbv zeta. fold a. fold b1. fold b. fold c1. fold c.
  pose proof (len3_pos _ Hp) as Lp. pose proof (len3_pos _ Hq) as Lq. pose proof (len3_pos _ Hr) as Lr. pose proof (len3_pos _ Hb) as Lb. pose proof (len3_pos _ Hc) as Lc.
  pose proof (direction_len _ Hp) as La1. fold a in La1. pose proof (direction_len _ Hb) as Lb1. fold b in Lb1.
  pose proof (perp_len a (r1 m) La1) as Bb. fold b1 in Bb. pose proof (perp_len a (r2 m) La1) as Bp.
  assert (Bc : len3 c1 <= len3 (r2 m)) by (eapply Rle_trans; [apply perp_len; exact Lb1|exact Bp]).
  (* skewness = (|r1|/|b1|) (|r2|/|c1|) *)
  assert (Ad : Rabs (det3 m) = len3 (r0 m) * len3 b1 * len3 c1).
  { rewrite E, Rabs_mult. assert (0 < len3 (r0 m) * len3 b1 * len3 c1) by (repeat apply Rmult_lt_0_compat; assumption).
    rewrite (Rabs_right (len3 (r0 m) * len3 b1 * len3 c1)) by lra. destruct (orthonormal_det _ Ho) as [G|G]; rewrite G; [rewrite Rabs_R1; ring|rewrite Rabs_left by lra; ring]. }
  set (x := len3 (r1 m) / len3 b1). set (y := len3 (r2 m) / len3 c1).
  assert (SK : skewness m = x * y) by (unfold skewness, x, y; rewrite Ad; field; lra).
  assert (X1 : 1 <= x) by (unfold x; apply (Rmult_le_reg_r (len3 b1)); [exact Lb|]; unfold Rdiv; rewrite Rmult_assoc, Rinv_l by lra; lra).
  assert (Y1 : 1 <= y) by (unfold y; apply (Rmult_le_reg_r (len3 c1)); [exact Lc|]; unfold Rdiv; rewrite Rmult_assoc, Rinv_l by lra; lra).
  assert (Xe : len3 (r1 m) = x * len3 b1) by (unfold x; field; lra). assert (Ye : len3 (r2 m) = y * len3 c1) by (unfold y; field; lra).
  rewrite SK in K |- *. assert (XY : x <= x * y) by nra. assert (XY1 : 1 <= x * y) by nra.
  assert (ux : 3400 * (u * x) <= 1) by nra. assert (ux0 : u <= u * x) by nra. assert (uxy : u * x <= u * (x * y)) by (apply Rmult_le_compat_l; lra).
  assert (kuxy : 3400 * (u * (x * y)) <= 1) by lra.
  (* row 0 *)
  destruct (fl_unit3_ok u rnd RN U _ Hp) as (q0 & E0 & N0). fold a in N0.
  (* row 1 *)
  pose proof (fl_perp u rnd RN U q0 a (r1 m) (6 * u) La1 N0 ltac:(lra)) as P1. fold b1 in P1. set (b2 := fl_sub3 rnd (r1 m) (fl_scale3 rnd (fl_dot3 rnd q0 (r1 m)) q0)) in *.
  assert (P1' : len3 (sub3 b2 b1) <= 21 * (u * x) * len3 b1).
  { eapply Rle_trans; [exact P1|]. rewrite Xe. assert (0 <= u * x * len3 b1) by (apply Rmult_le_pos; nra). nra. }
  destruct (fl_unit3_near u rnd RN U b2 b1 (21 * (u * x)) Hb P1' ltac:(lra)) as (q1 & E1 & N1). fold b in N1.
  assert (N1' : len3 (sub3 q1 b) <= 48 * (u * x)) by lra.
  (* row 2 *)
  pose proof (fl_perp u rnd RN U q0 a (r2 m) (6 * u) La1 N0 ltac:(lra)) as P2. set (c2 := fl_sub3 rnd (r2 m) (fl_scale3 rnd (fl_dot3 rnd q0 (r2 m)) q0)) in *.
  assert (P2' : len3 (sub3 c2 (perp a (r2 m))) <= 21 * u * len3 (r2 m)) by nra.
  assert (Lc2 : len3 c2 <= 1021 / 1000 * len3 (r2 m)). { pose proof (len3_near c2 (perp a (r2 m))). nra. }
  pose proof (fl_perp u rnd RN U q1 b c2 (48 * (u * x)) Lb1 N1' ltac:(lra)) as P3. set (c3 := fl_sub3 rnd c2 (fl_scale3 rnd (fl_dot3 rnd q1 c2) q1)) in *.
  assert (P4 : len3 (sub3 (perp b c2) c1) <= 21 * u * len3 (r2 m)).
  { unfold c1. rewrite <- perp_sub. eapply Rle_trans; [apply perp_len; exact Lb1|exact P2']. }
  assert (P5 : len3 (sub3 c3 c1) <= 133 * (u * (x * y)) * len3 c1).
  { eapply Rle_trans; [apply (len3_tri _ (perp b c2))|].
    assert (Z1 : (8 * u + 21 / 10 * (48 * (u * x))) * len3 c2 <= (1088 / 10 * (u * x)) * (1021 / 1000 * len3 (r2 m))) by (apply Rmult_le_compat; try lra; apply len3_nonneg).
    assert (Z2 : 21 * u * len3 (r2 m) <= 21 * (u * x) * len3 (r2 m)) by (apply Rmult_le_compat_r; lra).
    assert (Z0 : 0 <= u * x * len3 (r2 m)) by (apply Rmult_le_pos; lra).
    replace (133 * (u * (x * y)) * len3 c1) with (133 * (u * x * len3 (r2 m))) by (rewrite Ye; ring). lra. }
  destruct (fl_unit3_near u rnd RN U c3 c1 (133 * (u * (x * y))) Hc P5 ltac:(lra)) as (q2 & E2 & N2). fold c in N2.
  exists q0, q1, q2. split; [lra|]. split; [lra|]. split; [lra|]. split; [|lra].
  unfold fl_so3_coerce. rewrite E0. cbn [bind]. fold b2. rewrite E1. cbn [bind]. fold c2. fold c3. rewrite E2. reflexivity.
Qed.
Lemma fl_coerce_ok m : det3 m <> 0 -> 3400 * u * skewness m <= 1 ->
  (0 < det3 m -> exists q t, fl_so3_coerce rnd m = Ok q /\ so3_coerce m = Ok t /\ rotation t /\ dist q t <= 326 * u * skewness m) /\
  (det3 m < 0 -> fl_so3_coerce rnd m = Abort DAssert).
Proof.
  intros D K. pose proof ur as Hu. destruct (fl_coerce_rows m D K) as (q0 & q1 & q2 & N0 & N1 & N2 & E & S1).
  destruct (coerce_exact m D) as (Hp & Hq & Hr & Hb & Hc & Ho & Ed & Ex). revert Hb Hc Ho Ed Ex N0 N1 N2.
  set (a := direction (r0 m)). set (b1 := perp a (r1 m)). set (b := direction b1). set (c1 := perp b (perp a (r2 m))). set (c := direction c1). intros Hb Hc Ho Ed Ex N0 N1 N2.
  pose proof (direction_len _ Hp) as La1. fold a in La1. pose proof (direction_len _ Hb) as Lb1. fold b in Lb1. pose proof (direction_len _ Hc) as Lc1. fold c in Lc1.
  pose proof (len3_pos _ Hp) as Lp. pose proof (len3_pos _ Hb) as Lb. pose proof (len3_pos _ Hc) as Lc.
  assert (L : 0 < len3 (r0 m) * len3 b1 * len3 c1) by (repeat apply Rmult_lt_0_compat; assumption).
  set (s := u * skewness m). assert (Ks : 3400 * s <= 1) by (unfold s; lra). assert (us : u <= s) by (unfold s; nra).
  assert (N0' : len3 (sub3 q0 a) <= 6 * s) by (unfold s; lra). assert (N1' : len3 (sub3 q1 b) <= 48 * s) by (unfold s; lra). assert (N2' : len3 (sub3 q2 c) <= 272 * s) by (unfold s; lra).
  (* the sign of the triple product *)
  assert (T : Rabs (fl_dot3 rnd (fl_cross3 rnd q0 q1) q2 - det3 (mkM a b c)) < 1).
  { rewrite <- det3_rows. pose proof (fl_cross u rnd RN U q0 q1) as C1. pose proof (cross_near a b q0 q1) as C2. set (x := fl_cross3 rnd q0 q1) in *.
    pose proof (len3_near q0 a) as M0. pose proof (len3_near q1 b) as M1. pose proof (len3_near q2 c) as M2. rewrite La1 in *. rewrite Lb1 in *. rewrite Lc1 in *.
    pose proof (len3_nonneg q0). pose proof (len3_nonneg q1). pose proof (len3_nonneg q2).
    assert (len3 q0 <= 11 / 10) by lra. assert (len3 q1 <= 11 / 10) by lra. assert (len3 q2 <= 11 / 10) by lra.
    assert (Q : len3 q0 * len3 q1 <= 121 / 100) by nra. assert (Q0 : 0 <= len3 q0 * len3 q1) by nra.
    assert (C3 : len3 (sub3 x (cross3 a b)) <= 5 * u + (6 * s * (11 / 10) + 48 * s)).
    { eapply Rle_trans; [apply (len3_tri _ (cross3 q0 q1))|]. pose proof (len3_nonneg (sub3 q0 a)).
      assert (41 / 10 * u * (len3 q0 * len3 q1) <= 41 / 10 * u * (121 / 100)) by (apply Rmult_le_compat_l; lra).
      assert (len3 (sub3 q0 a) * len3 q1 <= 6 * s * (11 / 10)) by (apply Rmult_le_compat; lra). lra. }
    assert (C4 : len3 (sub3 x (cross3 a b)) <= 60 * s) by lra. clear C3.
    assert (La : len3 (cross3 a b) <= 1) by (pose proof (len3_cross a b) as G; rewrite La1, Lb1 in G; lra).
    pose proof (len3_near x (cross3 a b)) as Mx. assert (Lx : len3 x <= 11 / 10) by lra. pose proof (len3_nonneg x).
    pose proof (fl_dot3_err' u rnd RN U x q2) as D1. pose proof (dot_near3 (cross3 a b) c x q2) as D2.
    assert (len3 x * len3 q2 <= 121 / 100) by nra. assert (0 <= len3 x * len3 q2) by nra.
    assert (301 / 100 * u * (len3 x * len3 q2) <= 301 / 100 * u * (121 / 100)) by (apply Rmult_le_compat_l; lra).
    pose proof (len3_nonneg (sub3 x (cross3 a b))). pose proof (len3_nonneg (cross3 a b)). pose proof (len3_nonneg (sub3 q2 c)).
    assert (len3 (sub3 x (cross3 a b)) * len3 q2 <= 60 * s * (11 / 10)) by (apply Rmult_le_compat; lra).
    assert (len3 (cross3 a b) * len3 (sub3 q2 c) <= 1 * (272 * s)) by (apply Rmult_le_compat; lra).
    replace (fl_dot3 rnd x q2 - dot3 (cross3 a b) c) with ((fl_dot3 rnd x q2 - dot3 x q2) + (dot3 x q2 - dot3 (cross3 a b) c)) by ring.
    eapply Rle_lt_trans; [apply Rabs_triang|]. lra. }
  assert (T' : det3 (mkM a b c) - 1 < fl_dot3 rnd (fl_cross3 rnd q0 q1) q2 < det3 (mkM a b c) + 1) by (apply Rabs_def2 in T; lra).
  rewrite E. unfold assert_. split; intros P.
  - rewrite (R_ltb_t 0 (det3 m)) in Ex by exact P. assert (G : det3 (mkM a b c) = 1). { destruct (orthonormal_det _ Ho) as [G|G]; [exact G|]. exfalso. rewrite G in Ed. nra. }
    rewrite R_ltb_t by lra. exists (mkM q0 q1 q2), (mkM a b c). split; [reflexivity|]. split; [exact Ex|]. split; [split; assumption|].
    unfold dist. eapply Rle_trans; [apply fro_sum_rows|]. cbn [r0 r1 r2 subM]. lra.
  - assert (G : det3 (mkM a b c) = -1). { destruct (orthonormal_det _ Ho) as [G|G]; [|exact G]. exfalso. rewrite G in Ed. nra. }
    rewrite R_ltb_f by lra. reflexivity.
Qed.
End S.
