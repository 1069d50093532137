(** * Lemmas on 3-vectors, rotations, coerce, exp and ln. *)
From Coq Require Import Reals Lra Bool Psatz.
From Verif Require Import Base Alg Inst ModelLie SpecLie.
Local Open Scope R_scope.

Ltac lie_unfold :=
  unfold so3_mul, so3_mul_assign, so3_inverse, so3_act, so3_act_left, so3_adjoint, mm3, mv3, vm3, tr3, id3,
    add3, sub3, neg3, scale3, cross3, dot3, det3, trace3, hat, zero3 in *;
  cbn [vx vy vz r0 r1 r2] in *.
Ltac dv := repeat match goal with
  | v : V3 |- _ => destruct v
  | m : M3 |- _ => destruct m end.
Ltac v3 := lie_unfold; repeat (f_equal; try ring).

Lemma mm3_act a b v : mv3 (mm3 a b) v = mv3 a (mv3 b v).
Proof. dv. lie_unfold. f_equal; ring. Qed.
Lemma vm3_act a b v : vm3 v (mm3 a b) = vm3 (vm3 v a) b.
Proof. dv. lie_unfold. f_equal; ring. Qed.
Lemma mm3_assoc a b c : mm3 (mm3 a b) c = mm3 a (mm3 b c).
Proof. dv. lie_unfold. f_equal; f_equal; ring. Qed.
Lemma mm3_id_l a : mm3 id3 a = a.
Proof. dv. lie_unfold. f_equal; f_equal; ring. Qed.
Lemma mm3_id_r a : mm3 a id3 = a.
Proof. dv. lie_unfold. f_equal; f_equal; ring. Qed.
Lemma mv3_id v : mv3 id3 v = v.
Proof. dv. lie_unfold. f_equal; ring. Qed.
Lemma det3_mm a b : det3 (mm3 a b) = det3 a * det3 b.
Proof. dv. lie_unfold. ring. Qed.
Lemma det3_tr a : det3 (tr3 a) = det3 a.
Proof. dv. lie_unfold. ring. Qed.
Lemma tr3_mm a b : tr3 (mm3 a b) = mm3 (tr3 b) (tr3 a).
Proof. dv. lie_unfold. f_equal; f_equal; ring. Qed.
Lemma tr3_tr a : tr3 (tr3 a) = a.
Proof. dv. reflexivity. Qed.
Lemma vm3_tr v a : vm3 v a = mv3 (tr3 a) v.
Proof. dv. lie_unfold. f_equal; ring. Qed.
Lemma dot3_mv a u v : dot3 (mv3 a u) v = dot3 u (mv3 (tr3 a) v).
Proof. dv. lie_unfold. ring. Qed.

Lemma orthonormal_mm m : orthonormal m <-> mm3 m (tr3 m) = id3.
Proof.
  unfold orthonormal. dv. lie_unfold. split.
  - intros (A & B & C & D & E & G). f_equal; f_equal; lra.
  - intros H; injection H; intros; repeat split; lra.
Qed.

(** The entries of a rotation equal their cofactors. *)
Definition cof3 (m : M3) : M3 := mkM (cross3 (r1 m) (r2 m)) (cross3 (r2 m) (r0 m)) (cross3 (r0 m) (r1 m)).
Lemma cof3_mm m : mm3 (tr3 (cof3 m)) m = mkM (mk3 (det3 m) 0 0) (mk3 0 (det3 m) 0) (mk3 0 0 (det3 m)).
Proof. unfold cof3. dv. lie_unfold. f_equal; f_equal; ring. Qed.
Lemma rotation_cof m : rotation m -> cof3 m = m.
Proof.
  intros [Ho Hd]. apply orthonormal_mm in Ho.
  pose proof (cof3_mm m) as H. rewrite Hd in H. change (mm3 (tr3 (cof3 m)) m = id3) in H.
  assert (E : tr3 (cof3 m) = tr3 m).
  { rewrite <- (mm3_id_r (tr3 (cof3 m))), <- Ho, <- mm3_assoc, H. apply mm3_id_l. }
  rewrite <- (tr3_tr (cof3 m)), E. apply tr3_tr.
Qed.
Lemma rotation_tr_l m : rotation m -> mm3 (tr3 m) m = id3.
Proof.
  intros H. pose proof (rotation_cof m H) as E. destruct H as [_ Hd].
  rewrite <- E at 1. rewrite cof3_mm, Hd. reflexivity.
Qed.
Lemma rotation_tr_r m : rotation m -> mm3 m (tr3 m) = id3.
Proof. intros [H _]. apply orthonormal_mm, H. Qed.
Lemma rotation_inv m : rotation m -> rotation (tr3 m).
Proof.
  intros H. split; [|rewrite det3_tr; apply H].
  apply orthonormal_mm. rewrite tr3_tr. apply rotation_tr_l, H.
Qed.
Lemma rotation_mul a b : rotation a -> rotation b -> rotation (mm3 a b).
Proof.
  intros [Ha Da] [Hb Db]. split; [|rewrite det3_mm, Da, Db; ring].
  apply orthonormal_mm. rewrite tr3_mm, mm3_assoc, <- (mm3_assoc b).
  apply orthonormal_mm in Ha, Hb. rewrite Hb, mm3_id_l. exact Ha.
Qed.
Lemma rotation_id : rotation id3.
Proof. split; [apply orthonormal_mm, mm3_id_l|lie_unfold; ring]. Qed.
Lemma rotation_dot m u v : rotation m -> dot3 (mv3 m u) (mv3 m v) = dot3 u v.
Proof.
  intros H. rewrite dot3_mv, <- mm3_act, (rotation_tr_l m H), mv3_id. reflexivity.
Qed.
Lemma mv3_cross m u v : rotation m -> mv3 m (cross3 u v) = cross3 (mv3 m u) (mv3 m v).
Proof.
  intros H. pose proof (rotation_cof m H) as E.
  rewrite <- E at 1. dv. unfold cof3 in *. lie_unfold. f_equal; ring.
Qed.

(** ** Lengths and unit vectors *)
Lemma dot3_nonneg v : 0 <= dot3 v v.
Proof. dv. lie_unfold. nra. Qed.
Lemma dot3_zero v : dot3 v v = 0 -> v = zero3.
Proof. destruct v as [a b c]. lie_unfold. intros H. assert (a = 0 /\ b = 0 /\ c = 0) as (-> & -> & ->) by (repeat split; nra). reflexivity. Qed.
Lemma len3_sq v : len3 v * len3 v = dot3 v v.
Proof. unfold len3. apply sqrt_sqrt, dot3_nonneg. Qed.
Lemma len3_nonneg v : 0 <= len3 v.
Proof. apply sqrt_pos. Qed.
Lemma len3_pos v : v <> zero3 -> 0 < len3 v.
Proof.
  intros H. apply sqrt_lt_R0. destruct (dot3_nonneg v) as [G|G]; [exact G|].
  exfalso; apply H, dot3_zero; auto.
Qed.
Lemma Rdiv_ok (a b : R) : b <> 0 -> div (F:=R) a b = Ok (a / b).
Proof. intros H. exact (div_ok (F:=R) a b H). Qed.
Lemma Rdiv_bad (a : R) : div (F:=R) a 0 = NonFinite.
Proof. exact (div_zero (F:=R) a). Qed.
Lemma unit3_ok v : v <> zero3 -> unit3 v = Ok (scale3 (1 / len3 v) v).
Proof.
  intros H. unfold unit3. fold (len3 v). rewrite Rdiv_ok; [reflexivity|].
  pose proof (len3_pos v H); lra.
Qed.
Lemma unit3_zero : unit3 zero3 = NonFinite.
Proof.
  unfold unit3. replace (dot3 zero3 zero3) with 0 by (lie_unfold; ring). rewrite sqrt_0, Rdiv_bad. reflexivity.
Qed.
Lemma unit3_len v : v <> zero3 -> dot3 (scale3 (1 / len3 v) v) (scale3 (1 / len3 v) v) = 1.
Proof.
  intros H. pose proof (len3_pos v H). pose proof (len3_sq v).
  transitivity (/ (len3 v * len3 v) * dot3 v v); [|rewrite H1, Rinv_l; [reflexivity|nra]].
  dv. lie_unfold. field. lra.
Qed.
Lemma V3_dec (u v : V3) : {u = v} + {u <> v}.
Proof.
  destruct u as [a b c], v as [d e g].
  destruct (Req_EM_T a d); [|right; congruence].
  destruct (Req_EM_T b e); [|right; congruence].
  destruct (Req_EM_T c g); [|right; congruence].
  left; congruence.
Qed.

(** ** coerce: Gram-Schmidt on the rows *)
Lemma scale3_1 v : scale3 1 v = v.
Proof. dv. lie_unfold. f_equal; ring. Qed.
Lemma scale_unit v : v <> zero3 -> scale3 (len3 v) (scale3 (1 / len3 v) v) = v.
Proof. intros H. pose proof (len3_pos v H). dv. lie_unfold. f_equal; field; lra. Qed.
Lemma dot3_comm u v : dot3 u v = dot3 v u.
Proof. dv. lie_unfold. ring. Qed.
Lemma dot3_scale_r k u v : dot3 u (scale3 k v) = k * dot3 u v.
Proof. dv. lie_unfold. ring. Qed.
Lemma dot3_scale_l k u v : dot3 (scale3 k u) v = k * dot3 u v.
Proof. dv. lie_unfold. ring. Qed.
Lemma dot3_sub_r u v w : dot3 u (sub3 v w) = dot3 u v - dot3 u w.
Proof. dv. lie_unfold. ring. Qed.
Definition gs1 (a b : V3) : V3 := sub3 b (scale3 (dot3 a b) a).
Lemma gs1_perp a b : dot3 a a = 1 -> dot3 a (gs1 a b) = 0.
Proof. intros H. unfold gs1. rewrite dot3_sub_r, dot3_scale_r, H. ring. Qed.
Lemma det3_rows a b c : dot3 (cross3 a b) c = det3 (mkM a b c).
Proof. dv. lie_unfold. ring. Qed.
Lemma det3_gs a b c a' b' c' la lb lc k1 k2 k3 :
  a = scale3 la a' -> b = add3 (scale3 lb b') (scale3 k1 a') ->
  c = add3 (scale3 lc c') (add3 (scale3 k2 a') (scale3 k3 b')) ->
  det3 (mkM a b c) = la * lb * lc * det3 (mkM a' b' c').
Proof. intros -> -> ->. dv. lie_unfold. ring. Qed.
Lemma orthonormal_det m : orthonormal m -> det3 m = 1 \/ det3 m = -1.
Proof.
  intros H. apply orthonormal_mm in H.
  assert (E : det3 m * det3 m = 1).
  { rewrite <- (det3_tr m) at 2. rewrite <- det3_mm, H. lie_unfold; ring. }
  assert ((det3 m - 1) * (det3 m + 1) = 0) as G by lra.
  apply Rmult_integral in G. lra.
Qed.

(** The factorisation m = L q with L lower triangular with positive diagonal. *)
Definition lower_times (m q : M3) : Prop :=
  exists l00 l10 l11 l20 l21 l22, 0 < l00 /\ 0 < l11 /\ 0 < l22 /\
    r0 m = scale3 l00 (r0 q) /\
    r1 m = add3 (scale3 l10 (r0 q)) (scale3 l11 (r1 q)) /\
    r2 m = add3 (add3 (scale3 l20 (r0 q)) (scale3 l21 (r1 q))) (scale3 l22 (r2 q)).

Lemma coerce_cases m :
  (so3_coerce m = NonFinite /\ det3 m = 0) \/
  (exists q, orthonormal q /\ lower_times m q /\
    ((0 < det3 m /\ det3 q = 1 /\ so3_coerce m = Ok q) \/ (det3 m < 0 /\ det3 q = -1 /\ so3_coerce m = Abort DAssert))).
Proof.
  destruct m as [a b c]. unfold so3_coerce. cbn [r0 r1 r2].
  destruct (V3_dec a zero3) as [->|Ha].
  { left. rewrite unit3_zero. split; [reflexivity|]. dv. lie_unfold. ring. }
  rewrite (unit3_ok a Ha). cbn [bind].
  pose proof (unit3_len a Ha) as Ua. pose proof (scale_unit a Ha) as Sa.
  pose proof (len3_pos a Ha) as La.
  set (a' := scale3 (1 / len3 a) a) in *. set (la := len3 a) in *. clearbody a' la.
  fold (gs1 a' b). fold (gs1 a' c).
  pose proof (gs1_perp a' b Ua) as Pb.
  assert (Eb : b = add3 (gs1 a' b) (scale3 (dot3 a' b) a')).
  { unfold gs1. clear. dv. lie_unfold. f_equal; ring. }
  set (b1 := gs1 a' b) in *. set (k1 := dot3 a' b) in *. clearbody b1 k1.
  destruct (V3_dec b1 zero3) as [->|Hb].
  { left. rewrite unit3_zero. split; [reflexivity|]. rewrite Eb, <- Sa. clear. dv. lie_unfold. ring. }
  rewrite (unit3_ok b1 Hb). cbn [bind].
  pose proof (unit3_len b1 Hb) as Ub. pose proof (scale_unit b1 Hb) as Sb.
  pose proof (len3_pos b1 Hb) as Lb.
  assert (Pb' : dot3 a' (scale3 (1 / len3 b1) b1) = 0) by (rewrite dot3_scale_r, Pb; ring).
  set (b' := scale3 (1 / len3 b1) b1) in *. set (lb := len3 b1) in *. clearbody b' lb.
  fold (gs1 b' (gs1 a' c)).
  pose proof (gs1_perp b' (gs1 a' c) Ub) as Pc.
  assert (Pc' : dot3 a' (gs1 b' (gs1 a' c)) = 0).
  { unfold gs1 at 1. rewrite dot3_sub_r, dot3_scale_r, Pb', (gs1_perp a' c Ua). ring. }
  assert (Ec : c = add3 (gs1 b' (gs1 a' c)) (add3 (scale3 (dot3 a' c) a') (scale3 (dot3 b' (gs1 a' c)) b'))).
  { unfold gs1. clear. dv. lie_unfold. f_equal; ring. }
  set (c1 := gs1 b' (gs1 a' c)) in *. set (k2 := dot3 a' c) in *. set (k3 := dot3 b' (gs1 a' c)) in *.
  clearbody c1 k2 k3.
  destruct (V3_dec c1 zero3) as [->|Hc].
  { left. rewrite unit3_zero. split; [reflexivity|]. rewrite Ec, Eb, <- Sa, <- Sb. clear. dv. lie_unfold. ring. }
  rewrite (unit3_ok c1 Hc). cbn [bind].
  pose proof (unit3_len c1 Hc) as Uc. pose proof (scale_unit c1 Hc) as Sc.
  pose proof (len3_pos c1 Hc) as Lc.
  assert (Q1 : dot3 a' (scale3 (1 / len3 c1) c1) = 0) by (rewrite dot3_scale_r, Pc'; ring).
  assert (Q2 : dot3 b' (scale3 (1 / len3 c1) c1) = 0) by (rewrite dot3_scale_r, Pc; ring).
  set (c' := scale3 (1 / len3 c1) c1) in *. set (lc := len3 c1) in *. clearbody c' lc.
  rewrite det3_rows.
  assert (Ho : orthonormal (mkM a' b' c')) by (unfold orthonormal; cbn [r0 r1 r2]; auto 10).
  assert (D : det3 (mkM a b c) = la * lb * lc * det3 (mkM a' b' c')).
  { apply (det3_gs a b c a' b' c' la lb lc k1 k2 k3); [auto| |].
    - rewrite Sb; exact Eb.
    - rewrite Sc; exact Ec. }
  assert (L3 : 0 < la * lb * lc) by (repeat apply Rmult_lt_0_compat; assumption).
  right. exists (mkM a' b' c'). split; [exact Ho|]. split.
  { exists la, k1, lb, k2, k3, lc. cbn [r0 r1 r2]. repeat split; auto.
    - rewrite Sb. rewrite Eb. clear. dv. lie_unfold. f_equal; ring.
    - rewrite Sc. rewrite Ec at 1. clear. dv. lie_unfold. f_equal; ring. }
  destruct (orthonormal_det _ Ho) as [E|E]; rewrite E in D |- *; [left|right]; (split; [nra|]); (split; [reflexivity|]).
  - unfold assert_. rewrite (proj2 (R_ltb_spec 0 1)) by lra. reflexivity.
  - unfold assert_. rewrite (proj2 (R_ltb_false 0 (-1))) by lra. reflexivity.
Qed.
Lemma coerce_rotation m : rotation m -> so3_coerce m = Ok m.
Proof.
  intros [(A & B & C & D & E & G) Hd]. destruct m as [a b c]. cbn [r0 r1 r2] in *.
  assert (U : forall v, dot3 v v = 1 -> unit3 v = Ok v).
  { intros v Hv. unfold unit3. rewrite Hv, sqrt_1, Rdiv_ok by lra. cbn [bind]. do 2 f_equal.
    clear. dv. lie_unfold. f_equal; field. }
  assert (Z : forall u v k, k = 0 -> sub3 u (scale3 k v) = u).
  { intros u v k ->. clear. dv. lie_unfold. f_equal; ring. }
  unfold so3_coerce. cbn [r0 r1 r2].
  rewrite (U a A). cbn [bind]. rewrite (Z b a _ D), (U b B). cbn [bind].
  rewrite (Z c a _ E), (Z c b _ G), (U c C). cbn [bind].
  rewrite det3_rows, Hd. unfold assert_. rewrite (proj2 (R_ltb_spec 0 1)) by lra. reflexivity.
Qed.
