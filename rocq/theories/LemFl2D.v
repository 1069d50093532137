(** * C99: the plane inside space: the two-dimensional computations are the three-dimensional ones with zeros. *)
From Coq Require Import Reals Lra Lia Bool.
From Verif Require Import Base Alg Inst RSum ModelLie SpecLie LemLie ModelSE ModelFl ModelFlSO3 ModelFlSE3 SpecFl LemFl LemFlChol SpecFlSO3 SpecFlHist LemFro LemFlSO3 ModelFl2D SpecFl2D.
Open Scope outcome_scope.
Local Open Scope R_scope.

Definition up (v : V2) : V3 := mk3 (ux v) (uy v) 0.
Definition upM (m : M2) : M3 := mkM (up (s0 m)) (up (s1 m)) (mk3 0 0 1).
Lemma dot_up a b : dot3 (up a) (up b) = dot2 a b.
Proof. unfold dot3, dot2, up. cbn [vx vy vz]. ring. Qed.
Lemma len_up v : len3 (up v) = len2 v.
Proof. unfold len3, len2. rewrite dot_up. reflexivity. Qed.
Lemma sub_up a b : sub3 (up a) (up b) = up (sub2 a b).
Proof. unfold sub3, up, sub2. cbn [vx vy vz ux uy]. f_equal; ring. Qed.
Lemma add_up a b : add3 (up a) (up b) = up (add2 a b).
Proof. unfold add3, up, add2. cbn [vx vy vz ux uy]. f_equal; ring. Qed.
Lemma scale_up k a : scale3 k (up a) = up (scale2 k a).
Proof. unfold scale3, up, scale2. cbn [vx vy vz ux uy]. f_equal; ring. Qed.
Lemma neg_up a : neg3 (up a) = up (neg2 a).
Proof. unfold neg3, up, neg2. cbn [vx vy vz ux uy]. f_equal; ring. Qed.
Lemma mv_up m v : mv3 (upM m) (up v) = up (mv2 m v).
Proof. unfold mv3, upM, mv2. cbn [r0 r1 r2]. rewrite !dot_up. unfold up at 1. cbn [ux uy]. unfold up, dot3. cbn [vx vy vz]. f_equal; ring. Qed.
Lemma tr_up m : tr3 (upM m) = upM (tr2 m).
Proof. destruct m as [[a b] [c d]]. reflexivity. Qed.
Lemma mm_up a b : mm3 (upM a) (upM b) = upM (mm2 a b).
Proof.
  destruct a as [[a1 a2] [a3 a4]], b as [[b1 b2] [b3 b4]]. unfold mm3, mm2, vm3, vm2, dot3, dot2, upM, up, tr3, tr2. cbn [r0 r1 r2 s0 s1 vx vy vz ux uy]. f_equal; f_equal; ring.
Qed.
Lemma det_up m : det3 (upM m) = det2 m.
Proof. destruct m as [[a b] [c d]]. unfold det3, det2, upM, up. cbn [r0 r1 r2 s0 s1 vx vy vz ux uy]. ring. Qed.
Lemma id_up : upM id2 = id3.
Proof. reflexivity. Qed.
Lemma rot_up m : rotation2 m <-> rotation (upM m).
Proof.
  unfold rotation2, rotation, orthonormal2, orthonormal. rewrite det_up. unfold upM. cbn [r0 r1 r2]. rewrite !dot_up.
  assert (Z : forall v, dot3 (up v) (mk3 0 0 1) = 0) by (intros v; unfold dot3, up; cbn [vx vy vz]; ring). rewrite !Z.
  assert (dot3 (mk3 0 0 1) (mk3 0 0 1) = 1) as -> by (unfold dot3; cbn [vx vy vz]; ring). tauto.
Qed.
Lemma dist_up a b : dist (upM a) (upM b) = dist2 a b.
Proof.
  unfold dist, dist2, fro, fro2, subM, subM2, upM. cbn [r0 r1 r2 s0 s1]. rewrite !sub_up, !dot_up. f_equal.
  unfold dot3, sub3. cbn [vx vy vz]. ring.
Qed.
(** a matrix whose first two rows are in the plane is at least as far from another as its upper left part *)
Lemma dist_top a b r : dist2 a b <= dist (mkM (up (s0 a)) (up (s1 a)) r) (upM b).
Proof.
  unfold dist, dist2, fro, fro2, subM, subM2, upM. cbn [r0 r1 r2 s0 s1]. rewrite !sub_up, !dot_up. apply sqrt_le_1_alt.
  pose proof (dot3_nonneg (sub3 r (mk3 0 0 1))). lra.
Qed.
Lemma skew_up m : skewness (upM m) = skewness2 m.
Proof. unfold skewness, skewness2. rewrite det_up. unfold upM. cbn [r0 r1 r2]. rewrite !len_up. replace (len3 (mk3 0 0 1)) with 1; [rewrite Rmult_1_r; reflexivity|]. unfold len3, dot3. cbn [vx vy vz]. replace (0 * 0 + 0 * 0 + 1 * 1) with 1 by ring. rewrite sqrt_1. reflexivity. Qed.

(** the exact coerce *)
Lemma unit_up v : unit3 (up v) = (q <- unit2 v ;; Ok (up q)).
Proof.
  unfold unit3, unit2. rewrite dot_up. destruct (div 1 (sqrt (dot2 v v))) as [k|e| | | |]; cbn [bind]; try reflexivity. rewrite scale_up. reflexivity.
Qed.

Section S.
Variables (u : R) (rnd : R -> R).
Hypothesis RN : rounding u rnd.
Lemma rnd_0 : rnd 0 = 0.
Proof. pose proof (proj1 (proj2 RN) 0) as H. rewrite Rabs_R0, Rmult_0_r in H. pose proof (Rabs_pos (rnd 0 - 0)). assert (E : Rabs (rnd 0 - 0) = 0) by lra. destruct (Req_dec (rnd 0 - 0) 0) as [Z|Z]; [lra|]. pose proof (Rabs_pos_lt _ Z). lra. Qed.
Lemma rnd_rnd x : rnd (rnd x) = rnd x.
Proof. apply RN. Qed.
Lemma fl_dot_z a b : vz a * vz b = 0 -> fl_dot3 rnd a b = fl_dot2 rnd (mk2 (vx a) (vy a)) (mk2 (vx b) (vy b)).
Proof. intros Z. unfold fl_dot3, fl_dot2. cbn [ux uy]. rewrite Z, rnd_0, Rplus_0_r, rnd_rnd. reflexivity. Qed.
Lemma fl_dot_up a b : fl_dot3 rnd (up a) (up b) = fl_dot2 rnd a b.
Proof. rewrite fl_dot_z by (unfold up; cbn [vz]; ring). destruct a, b. reflexivity. Qed.
Lemma fl_dot_up_z a k : fl_dot3 rnd (up a) (mk3 0 0 k) = 0.
Proof. rewrite fl_dot_z by (unfold up; cbn [vz]; ring). unfold fl_dot2, up. cbn [vx vy ux uy]. rewrite !Rmult_0_r, !rnd_0, !Rplus_0_l, !rnd_0, Rplus_0_l, rnd_0. reflexivity. Qed.
Lemma fl_dot_z_up a k : fl_dot3 rnd (mk3 0 0 k) (up a) = 0.
Proof. rewrite fl_dot_z by (unfold up; cbn [vz]; ring). unfold fl_dot2, up. cbn [vx vy ux uy]. rewrite !Rmult_0_l, !rnd_0, !Rplus_0_l, !rnd_0, Rplus_0_l, rnd_0. reflexivity. Qed.
Lemma fl_sub_up a b : fl_sub3 rnd (up a) (up b) = up (fl_sub2 rnd a b).
Proof. unfold fl_sub3, fl_sub2, up. cbn [vx vy vz ux uy]. rewrite Rminus_0_r, rnd_0. reflexivity. Qed.
Lemma fl_add_up a b : fl_add3 rnd (up a) (up b) = up (fl_add2 rnd a b).
Proof. unfold fl_add3, fl_add2, up. cbn [vx vy vz ux uy]. rewrite Rplus_0_r, rnd_0. reflexivity. Qed.
Lemma fl_scale_up k a : fl_scale3 rnd k (up a) = up (fl_scale2 rnd k a).
Proof. unfold fl_scale3, fl_scale2, up. cbn [vx vy vz ux uy]. rewrite Rmult_0_r, rnd_0. reflexivity. Qed.
Lemma fl_mv_up m v : fl_mv3 rnd (upM m) (up v) = up (fl_mv2 rnd m v).
Proof. unfold fl_mv3, fl_mv2, upM. cbn [r0 r1 r2]. rewrite !fl_dot_up, fl_dot_z_up. reflexivity. Qed.
Lemma fl_vm_up v m : fl_vm3 rnd (up v) (upM m) = up (fl_vm2 rnd v m).
Proof. unfold fl_vm3, fl_vm2. rewrite tr_up. unfold upM. cbn [r0 r1 r2]. rewrite !fl_dot_up, fl_dot_up_z. reflexivity. Qed.
Lemma fl_mm_up a b : exists r, fl_mm3 rnd (upM a) (upM b) = mkM (up (s0 (fl_mm2 rnd a b))) (up (s1 (fl_mm2 rnd a b))) r.
Proof. eexists. unfold fl_mm3, upM at 1 3. cbn [r0 r1]. rewrite !fl_vm_up. reflexivity. Qed.
Lemma fl_unit_up v : fl_unit3 rnd (up v) = (q <- fl_unit2 rnd v ;; Ok (up q)).
Proof.
  unfold fl_unit3, fl_unit2. rewrite fl_dot_up. destruct (@div R (FlOps rnd) 1 (rnd (sqrt (fl_dot2 rnd v v)))) as [k|e| | | |]; cbn [bind]; try reflexivity.
  rewrite fl_scale_up. reflexivity.
Qed.
(** where the three-dimensional coerce succeeds the two-dimensional one gives its upper left part *)
Lemma fl_coerce_up m q : fl_so3_coerce rnd (upM m) = Ok q -> exists x r, fl_so2_coerce rnd m = Ok x /\ q = mkM (up (s0 x)) (up (s1 x)) r.
Proof.
  unfold fl_so3_coerce, fl_so2_coerce, upM. cbn [r0 r1 r2]. rewrite fl_unit_up. destruct (fl_unit2 rnd (s0 m)) as [a|e| | | |]; cbn [bind]; try discriminate.
  rewrite fl_dot_up, fl_scale_up, fl_sub_up, fl_unit_up. destruct (fl_unit2 rnd (fl_sub2 rnd (s1 m) _)) as [b|e| | | |]; cbn [bind]; try discriminate.
  destruct (fl_unit3 rnd _) as [c|e| | | |]; cbn [bind]; try discriminate. destruct (assert_ _) as [c'|e| | | |]; cbn [bind]; try discriminate.
  intros E. injection E as <-. exists (mkM2 a b), c. split; reflexivity.
Qed.
End S.
Lemma perp_z a : sub3 (mk3 0 0 1) (scale3 (dot3 (up a) (mk3 0 0 1)) (up a)) = mk3 0 0 1.
Proof. unfold sub3, scale3, dot3, up. cbn [vx vy vz]. f_equal; ring. Qed.
Lemma coerce_up m q : so3_coerce (upM m) = Ok q -> exists x, so2_coerce m = Ok x /\ q = upM x.
Proof.
  unfold so3_coerce, so2_coerce, upM. cbn [r0 r1 r2]. rewrite unit_up. destruct (unit2 (s0 m)) as [a|e| | | |]; cbn [bind]; try discriminate.
  rewrite dot_up, scale_up, sub_up, unit_up. destruct (unit2 (sub2 (s1 m) _)) as [b|e| | | |]; cbn [bind]; try discriminate.
  rewrite !perp_z. assert (unit3 (mk3 0 0 1) = Ok (mk3 0 0 1)) as ->.
  { unfold unit3. replace (dot3 (mk3 0 0 1) (mk3 0 0 1)) with 1 by (unfold dot3; cbn [vx vy vz]; ring). rewrite sqrt_1, R_div_ok by lra. cbn [bind]. f_equal. unfold scale3. cbn [vx vy vz]. f_equal; field. }
  cbn [bind]. destruct (assert_ _) as [c'|e| | | |]; cbn [bind]; try discriminate.
  intros E. injection E as <-. exists (mkM2 a b). split; reflexivity.
Qed.
