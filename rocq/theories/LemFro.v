(** * The Frobenius norm of 3x3 matrices. *)
From Coq Require Import Reals Lra Psatz.
From Verif Require Import Base Alg Inst ModelLie SpecLie LemLie LemSO3 LemSO3b SpecFlSO3.
Local Open Scope R_scope.

Lemma Rabs_le_between x y : Rabs x <= y <-> - y <= x <= y.
Proof. split; [|apply Rabs_le]. unfold Rabs. destruct (Rcase_abs x); lra. Qed.
Lemma cs3 a b : dot3 a b * dot3 a b <= dot3 a a * dot3 b b.
Proof.
  assert (E : dot3 a a * dot3 b b - dot3 a b * dot3 a b = dot3 (cross3 a b) (cross3 a b)) by (dv; lie_unfold; ring).
  pose proof (dot3_nonneg (cross3 a b)). lra.
Qed.
Lemma cs3_len a b : Rabs (dot3 a b) <= len3 a * len3 b.
Proof.
  pose proof (len3_nonneg a). pose proof (len3_nonneg b). apply Rabs_le_between. 
  assert (Q : Rabs (dot3 a b) * Rabs (dot3 a b) <= (len3 a * len3 b) * (len3 a * len3 b)).
  { rewrite <- Rabs_mult, Rabs_right by nra. pose proof (cs3 a b). rewrite <- (len3_sq a), <- (len3_sq b) in H1. nra. }
  assert (P : 0 <= len3 a * len3 b) by nra. pose proof (Rabs_pos (dot3 a b)).
  assert (Rabs (dot3 a b) <= len3 a * len3 b) by nra. apply Rabs_le_between. assumption.
Qed.
Lemma sq_le x y : 0 <= y -> x * x <= y * y -> x <= y.
Proof. intros. nra. Qed.
Lemma len3_le v y : 0 <= y -> dot3 v v <= y * y -> len3 v <= y.
Proof. intros H K. apply sq_le; [exact H|]. rewrite len3_sq. exact K. Qed.
Lemma len3_add a b : len3 (add3 a b) <= len3 a + len3 b.
Proof.
  pose proof (len3_nonneg a). pose proof (len3_nonneg b). apply len3_le; [lra|].
  replace (dot3 (add3 a b) (add3 a b)) with (dot3 a a + 2 * dot3 a b + dot3 b b) by (dv; lie_unfold; ring).
  pose proof (cs3_len a b) as C. apply Rabs_le_between in C. rewrite <- (len3_sq a), <- (len3_sq b). nra.
Qed.
Lemma len3_sc k a : len3 (scale3 k a) = Rabs k * len3 a.
Proof.
  unfold len3. rewrite dot3_scale_l, dot3_scale_r, <- Rmult_assoc, sqrt_mult; [|nra|apply dot3_nonneg]. f_equal.
  change (k * k) with (Rsqr k). apply sqrt_Rsqr_abs.
Qed.
Lemma len3_sub_sym a b : len3 (sub3 a b) = len3 (sub3 b a).
Proof. unfold len3. f_equal. dv. lie_unfold. ring. Qed.
Lemma len3_tri a b c : len3 (sub3 a c) <= len3 (sub3 a b) + len3 (sub3 b c).
Proof. replace (sub3 a c) with (add3 (sub3 a b) (sub3 b c)) by (dv; lie_unfold; f_equal; ring). apply len3_add. Qed.
Lemma len3_near a b : len3 a <= len3 b + len3 (sub3 a b).
Proof. replace a with (add3 b (sub3 a b)) at 1 by (dv; lie_unfold; f_equal; ring). apply len3_add. Qed.
Lemma len3_0 : len3 zero3 = 0.
Proof. unfold len3. replace (dot3 zero3 zero3) with 0 by (lie_unfold; ring). apply sqrt_0. Qed.
Lemma len3_eq0 v : len3 v = 0 -> v = zero3.
Proof. intros H. apply dot3_zero. rewrite <- len3_sq, H. ring. Qed.
Lemma len3_cross a b : len3 (cross3 a b) <= len3 a * len3 b.
Proof.
  pose proof (len3_nonneg a). pose proof (len3_nonneg b). apply len3_le; [nra|].
  assert (E : dot3 (cross3 a b) (cross3 a b) = dot3 a a * dot3 b b - dot3 a b * dot3 a b) by (dv; lie_unfold; ring).
  rewrite E, <- (len3_sq a), <- (len3_sq b). nra.
Qed.
(** componentwise bounds *)
Lemma len3_comp a b : Rabs (vx a) <= Rabs (vx b) -> Rabs (vy a) <= Rabs (vy b) -> Rabs (vz a) <= Rabs (vz b) -> len3 a <= len3 b.
Proof.
  intros X Y Z. apply len3_le; [apply len3_nonneg|]. rewrite len3_sq. unfold dot3.
  assert (Q : forall p q, Rabs p <= Rabs q -> p * p <= q * q).
  { intros p q L. pose proof (Rabs_pos p). assert (p * p = Rabs p * Rabs p) by (rewrite <- Rabs_mult, Rabs_right; nra).
    assert (q * q = Rabs q * Rabs q) by (rewrite <- Rabs_mult, Rabs_right; nra). nra. }
  pose proof (Q _ _ X). pose proof (Q _ _ Y). pose proof (Q _ _ Z). lra.
Qed.
Lemma len3_abs a : len3 (mk3 (Rabs (vx a)) (Rabs (vy a)) (Rabs (vz a))) = len3 a.
Proof. apply Rle_antisym; apply len3_comp; cbn [vx vy vz]; rewrite ?Rabs_Rabsolu; lra. Qed.
Lemma len3_max a e : Rabs (vx a) <= e -> Rabs (vy a) <= e -> Rabs (vz a) <= e -> len3 a <= 2 * e.
Proof.
  intros X Y Z. assert (0 <= e) by (pose proof (Rabs_pos (vx a)); lra). apply len3_le; [lra|]. unfold dot3.
  apply Rabs_le_between in X, Y, Z. nra.
Qed.
Lemma comp_len a : Rabs (vx a) <= len3 a /\ Rabs (vy a) <= len3 a /\ Rabs (vz a) <= len3 a.
Proof.
  pose proof (len3_nonneg a) as P. pose proof (len3_sq a) as Q. unfold dot3 in Q. repeat split; apply Rabs_le_between; nra.
Qed.

(** ** matrices *)
Definition ip (a b : M3) : R := dot3 (r0 a) (r0 b) + dot3 (r1 a) (r1 b) + dot3 (r2 a) (r2 b).
Lemma ip_nonneg a : 0 <= ip a a.
Proof. unfold ip. pose proof (dot3_nonneg (r0 a)). pose proof (dot3_nonneg (r1 a)). pose proof (dot3_nonneg (r2 a)). lra. Qed.
Lemma fro_sq a : fro a * fro a = ip a a.
Proof. apply sqrt_sqrt, ip_nonneg. Qed.
Lemma fro_nonneg a : 0 <= fro a.
Proof. apply sqrt_pos. Qed.
(** the lengths of the rows *)
Definition rl (a : M3) : V3 := mk3 (len3 (r0 a)) (len3 (r1 a)) (len3 (r2 a)).
Lemma fro_rl a : fro a = len3 (rl a).
Proof. unfold fro, len3 at 1, rl. f_equal. cbn [r0 r1 r2]. unfold dot3 at 4. cbn [vx vy vz]. rewrite !len3_sq. reflexivity. Qed.
Lemma fro_le a b : len3 (r0 a) <= len3 (r0 b) -> len3 (r1 a) <= len3 (r1 b) -> len3 (r2 a) <= len3 (r2 b) -> fro a <= fro b.
Proof.
  intros X Y Z. rewrite !fro_rl. apply len3_comp; cbn [vx vy vz rl];
    rewrite !Rabs_right by (apply Rle_ge; apply len3_nonneg); assumption.
Qed.
Lemma fro_le_v a v : len3 (r0 a) <= vx v -> len3 (r1 a) <= vy v -> len3 (r2 a) <= vz v -> fro a <= len3 v.
Proof.
  intros X Y Z. rewrite fro_rl. pose proof (len3_nonneg (r0 a)). pose proof (len3_nonneg (r1 a)). pose proof (len3_nonneg (r2 a)).
  apply len3_comp; cbn [vx vy vz rl]; rewrite !Rabs_right by lra; assumption.
Qed.
Definition addM (a b : M3) : M3 := mkM (add3 (r0 a) (r0 b)) (add3 (r1 a) (r1 b)) (add3 (r2 a) (r2 b)).
Lemma fro_add a b : fro (addM a b) <= fro a + fro b.
Proof.
  rewrite (fro_rl a), (fro_rl b). eapply Rle_trans; [|apply len3_add]. apply fro_le_v; cbn; apply len3_add.
Qed.
Lemma fro_tr a : fro (tr3 a) = fro a.
Proof. unfold fro. f_equal. dv. lie_unfold. ring. Qed.
Lemma fro_rows a x : 0 <= x -> len3 (r0 a) <= x -> len3 (r1 a) <= x -> len3 (r2 a) <= x -> fro a <= 2 * x.
Proof. intros P X Y Z. rewrite fro_rl. apply len3_max; cbn; (rewrite Rabs_right by (apply Rle_ge; apply len3_nonneg)); assumption. Qed.
Lemma fro_row_le a : len3 (r0 a) <= fro a /\ len3 (r1 a) <= fro a /\ len3 (r2 a) <= fro a.
Proof.
  rewrite fro_rl. destruct (comp_len (rl a)) as (X & Y & Z). cbn [vx vy vz rl] in X, Y, Z.
  rewrite Rabs_right in X, Y, Z by (apply Rle_ge; apply len3_nonneg). auto.
Qed.
Lemma fro_sum_rows a : fro a <= len3 (r0 a) + len3 (r1 a) + len3 (r2 a).
Proof.
  pose proof (len3_nonneg (r0 a)). pose proof (len3_nonneg (r1 a)). pose proof (len3_nonneg (r2 a)).
  rewrite fro_rl. apply len3_le; [lra|]. unfold dot3, rl. cbn [vx vy vz]. nra.
Qed.
Lemma dist_sym a b : dist a b = dist b a.
Proof. unfold dist, fro. f_equal. dv. unfold subM. lie_unfold. ring. Qed.
Lemma dist_tri a b c : dist a c <= dist a b + dist b c.
Proof.
  unfold dist. replace (subM a c) with (addM (subM a b) (subM b c)) by (dv; unfold subM, addM; lie_unfold; f_equal; f_equal; ring). apply fro_add.
Qed.
Lemma dist_tr a b : dist (tr3 a) (tr3 b) = dist a b.
Proof. unfold dist. replace (subM (tr3 a) (tr3 b)) with (tr3 (subM a b)) by (dv; reflexivity). apply fro_tr. Qed.
Lemma dist_refl a : dist a a = 0.
Proof. unfold dist, fro. replace 0 with (sqrt 0) by apply sqrt_0. f_equal. dv. unfold subM. lie_unfold. ring. Qed.
Lemma dist_nonneg a b : 0 <= dist a b.
Proof. apply fro_nonneg. Qed.

Lemma len_mv m v : len3 (mv3 m v) <= fro m * len3 v.
Proof.
  rewrite fro_rl. pose proof (len3_nonneg v) as P.
  replace (len3 (rl m) * len3 v) with (len3 (scale3 (len3 v) (rl m))) by (rewrite len3_sc, Rabs_right by lra; ring).
  apply len3_comp; unfold scale3, rl, mv3; cbn [vx vy vz]; rewrite (Rabs_mult (len3 v)), (Rabs_right (len3 v)), (Rabs_right (len3 (_ m))) by (try lra; apply Rle_ge, len3_nonneg);
    (eapply Rle_trans; [apply cs3_len|]; lra).
Qed.
(** multiplication on the right by a matrix that stretches by at most k (its transpose does) *)
Lemma fro_mm_r a b k : 0 <= k -> (forall v, len3 (mv3 (tr3 b) v) <= k * len3 v) -> fro (mm3 a b) <= fro a * k.
Proof.
  intros P H. rewrite (fro_rl a). replace (len3 (rl a) * k) with (len3 (scale3 k (rl a))) by (rewrite len3_sc, Rabs_right by lra; ring).
  apply fro_le_v; unfold mm3, scale3, rl; cbn [r0 r1 r2 vx vy vz]; rewrite vm3_tr; apply H.
Qed.
Lemma rotation_len q v : rotation q -> len3 (mv3 q v) = len3 v.
Proof. intros H. unfold len3. rewrite (rotation_dot q v v H). reflexivity. Qed.
Lemma fro_mm_rot_l q a : rotation q -> fro (mm3 q a) <= fro a.
Proof.
  intros H. rewrite <- fro_tr, tr3_mm, <- (fro_tr a). rewrite <- (Rmult_1_r (fro (tr3 a))). apply fro_mm_r; [lra|].
  intros v. rewrite tr3_tr, (rotation_len q v H). lra.
Qed.
Lemma fro_rotation q : rotation q -> fro q * fro q = 3.
Proof. intros [(A & B & C & _) _]. rewrite fro_sq. unfold ip. lra. Qed.
Lemma stretch b q d : rotation q -> dist b q <= d -> forall v, len3 (mv3 b v) <= (1 + d) * len3 v.
Proof.
  intros Q D v. replace (mv3 b v) with (add3 (mv3 q v) (mv3 (subM b q) v)) by (clear; dv; unfold subM; lie_unfold; f_equal; ring).
  eapply Rle_trans; [apply len3_add|]. rewrite (rotation_len q v Q). pose proof (len_mv (subM b q) v). pose proof (len3_nonneg v).
  assert (fro (subM b q) * len3 v <= d * len3 v) by (apply Rmult_le_compat_r; [assumption|exact D]). lra.
Qed.
(** a product of matrices near rotations is near the product of the rotations *)
Lemma dist_mm a b p q d e : rotation p -> rotation q -> dist a p <= d -> dist b q <= e ->
  dist (mm3 a b) (mm3 p q) <= (1 + d) * (1 + e) - 1.
Proof.
  intros P Q D E. unfold dist.
  replace (subM (mm3 a b) (mm3 p q)) with (addM (mm3 (subM a p) b) (mm3 p (subM b q))) by (clear; dv; unfold subM, addM; lie_unfold; f_equal; f_equal; ring).
  eapply Rle_trans; [apply fro_add|]. pose proof (fro_mm_rot_l p (subM b q) P) as X. pose proof (fro_nonneg (subM b q)).
  assert (Y : fro (mm3 (subM a p) b) <= fro (subM a p) * (1 + e)).
  { apply fro_mm_r; [unfold dist in E; lra|]. apply (stretch (tr3 b) (tr3 q) e); [apply rotation_inv, Q|rewrite dist_tr; exact E]. }
  unfold dist in *. pose proof (fro_nonneg (subM a p)). nra.
Qed.
Lemma fro_near a q d : rotation q -> dist a q <= d -> fro a * fro a <= 3 * ((1 + d) * (1 + d)).
Proof.
  intros Q D. pose proof (fro_nonneg q) as P. pose proof (fro_rotation q Q) as T.
  assert (F : fro a <= fro q + d).
  { replace a with (addM q (subM a q)) by (clear; dv; unfold subM, addM; lie_unfold; f_equal; f_equal; ring).
    eapply Rle_trans; [apply fro_add|]. unfold dist in D. lra. }
  pose proof (fro_nonneg a). pose proof (dist_nonneg a q). assert (1 <= fro q) by nra. assert (fro a <= fro q * (1 + d)) by nra.
  assert (fro a * fro a <= (fro q * (1 + d)) * (fro q * (1 + d))) by (apply Rmult_le_compat; lra).
  replace (3 * ((1 + d) * (1 + d))) with ((fro q * (1 + d)) * (fro q * (1 + d))) by (rewrite <- T; ring). assumption.
Qed.

(** ** what being near a rotation means *)
Lemma near_len a q d v : rotation q -> dist a q <= d -> Rabs (len3 (mv3 a v) - len3 v) <= d * len3 v.
Proof.
  intros Q D. pose proof (stretch a q d Q D v) as X. pose proof (len3_near (mv3 q v) (mv3 a v)) as Y. rewrite (rotation_len q v Q) in Y.
  rewrite len3_sub_sym in Y. replace (sub3 (mv3 a v) (mv3 q v)) with (mv3 (subM a q) v) in Y by (clear; dv; unfold subM; lie_unfold; f_equal; ring).
  pose proof (len_mv (subM a q) v) as Z. pose proof (len3_nonneg v). fold (dist a q) in Z.
  assert (dist a q * len3 v <= d * len3 v) by (apply Rmult_le_compat_r; assumption). apply Rabs_le_between. lra.
Qed.
Lemma near_orth a q d : rotation q -> dist a q <= d -> dist (mm3 a (tr3 a)) id3 <= (1 + d) * (1 + d) - 1.
Proof.
  intros Q D. rewrite <- (rotation_tr_r q Q). apply dist_mm; [exact Q|apply rotation_inv, Q|exact D|rewrite dist_tr; exact D].
Qed.
