(** * C70 (extrapolation, gradients), C71 (Hessians) *)
From Coq Require Import Reals Arith Bool Lia Lra FunctionalExtensionality.
From Verif Require Import Base Alg Inst RSum RDeriv SpecMat ModelCG ModelDiff SpecDiff LemEig LemDiff.
Local Open Scope R_scope.

(** ** the extrapolation: for every functor whose value depends only on the step, the result is the first of the estimates with the smallest error *)
Theorem C70_extrapolation : forall St (f : St -> R -> option R * St) g (good : St -> Prop) s, good s -> (forall s h, good s -> fst (f s h) = g h /\ good (snd (f s h))) ->
  exists m, (m < 400)%nat /\ (m = 399%nat \/ gives_up (fun k => g (step_at k)) m) /\ chosen (fun k => g (step_at k)) m (fst (extrapolate_to_zero f s)) /\ good (snd (extrapolate_to_zero f s)).
Proof.
  intros St f g good s Hs Hf. apply (extrapolate_ok f (fun k => g (step_at k)) (fun _ => good) s); [|exact Hs]. intros i t Ht. apply Hf. exact Ht.
Qed.
(** estimates are exact on polynomials of at most their order *)
Theorem C70_estimate_exact : forall n a i j p, (n <= j)%nat -> (j <= i)%nat -> estimate (fun k => Some (poly n a (step_at k))) i j p <-> p = a 0%nat.
Proof.
  intros n a i j p H J. rewrite <- table_iff by exact J.
  rewrite (table_poly (fun k => Some (poly n a (step_at k))) (n + 1) a j i J); [|intros; reflexivity].
  rewrite S_only0; [|lia|].
  - rewrite weight_0. split; [intros E; injection E as <-; simpl; ring|intros ->; f_equal; simpl; ring].
  - intros k Hk. cbn beta. rewrite weight_zero by lia. ring.
Qed.
(** so every sequence that is constant where it is defined, and defined at two consecutive steps, is extrapolated exactly, with error 0 *)
Theorem C70_constant : forall St (f : St -> R -> option R * St) g (good : St -> Prop) s p k, good s -> (forall s h, good s -> fst (f s h) = g h /\ good (snd (f s h))) ->
  (forall m, g (step_at m) = None \/ g (step_at m) = Some p) -> (k < 399)%nat -> g (step_at k) = Some p -> g (step_at (k + 1)) = Some p -> fst (extrapolate_to_zero f s) = Some (p, 0).
Proof.
  intros St f g good s p k Hs Hf G Hk G1 G2. destruct (C70_extrapolation St f g good s Hs Hf) as (m & _ & M & C & _).
  apply (constant_chosen (fun k => g (step_at k)) p k m); try assumption. replace (S k) with (k + 1)%nat by lia. exact G2.
Qed.
(** and so is every sequence p + a h^2 *)
Theorem C70_even : forall St (f : St -> R -> option R * St) (good : St -> Prop) s p a, good s -> (forall s h, 0 < h -> good s -> fst (f s h) = Some (p + a * h ^ 2) /\ good (snd (f s h))) ->
  fst (extrapolate_to_zero f s) = Some (p, 0) /\ good (snd (extrapolate_to_zero f s)).
Proof.
  intros St f good s p a Hs Hf. destruct (extrapolate_ok f (fun k => Some (p + a * step_at k ^ 2)) (fun _ => good) s) as (m & Lm & M & C & G).
  - intros i t Ht. apply Hf; [apply step_pos|exact Ht].
  - exact Hs.
  - split; [|exact G]. apply (even_chosen (fun k => Some (p + a * step_at k ^ 2)) p a m); try assumption. intros; reflexivity.
Qed.

(** ** moving one coordinate *)
Lemma upd_moved v i t : upd v i (v i + t) = moved v i t.
Proof. apply functional_extensionality. intros k. unfold upd, moved. destruct (Nat.eqb_spec k i) as [->|]; reflexivity. Qed.
Lemma upd_moved_neg v i t : upd v i (v i - t) = moved v i (- t).
Proof. rewrite <- upd_moved. reflexivity. Qed.
Lemma upd_upd {A} (v : nat -> A) i a b : upd (upd v i a) i b = upd v i b.
Proof. apply functional_extensionality. intros k. unfold upd. destruct (k =? i)%nat; reflexivity. Qed.
Lemma upd_same {A} (v : nat -> A) i : upd v i (v i) = v.
Proof. apply functional_extensionality. intros k. unfold upd. destruct (Nat.eqb_spec k i) as [->|]; reflexivity. Qed.
Lemma moved_0 v i : moved v i 0 = v.
Proof. rewrite <- upd_moved, Rplus_0_r. apply upd_same. Qed.
Lemma gradient_difference_eq f v i hh : gradient_difference f v i v hh =
  (let h := step_size v i hh in match f (moved v i h), f (moved v i (- h)) with Some f2, Some f1 => Some ((f2 - f1) / (2 * h)) | _, _ => None end, v).
Proof. unfold gradient_difference. cbn zeta. rewrite !upd_upd, upd_same, upd_moved, upd_moved_neg. reflexivity. Qed.
Lemma second_difference_eq f v c i hh : second_difference f v c i v hh =
  (let h := step_size v i hh in match f (moved v i h), f (moved v i (- h)), c with Some f2, Some f1, Some f0 => Some ((f2 - 2 * f0 + f1) / (h * h)) | _, _, _ => None end, v).
Proof. unfold second_difference. cbn zeta. rewrite !upd_upd, upd_same, upd_moved, upd_moved_neg. reflexivity. Qed.
(** the differentiators along one axis leave their point where it was *)
Theorem C70_restored : forall f v i c hh, snd (gradient_difference f v i v hh) = v /\ snd (second_difference f v c i v hh) = v /\ snd (extrapolate_to_zero (gradient_difference f v i) v) = v /\ snd (extrapolate_to_zero (second_difference f v c i) v) = v.
Proof.
  intros f v i c hh. split; [rewrite gradient_difference_eq; reflexivity|]. split; [rewrite second_difference_eq; reflexivity|]. split.
  - destruct (C70_extrapolation point (gradient_difference f v i) (fun h => fst (gradient_difference f v i v h)) (fun x => x = v) v eq_refl) as (m & _ & _ & _ & G); [|exact G]. intros s h ->. split; [reflexivity|rewrite gradient_difference_eq; reflexivity].
  - destruct (C70_extrapolation point (second_difference f v c i) (fun h => fst (second_difference f v c i v h)) (fun x => x = v) v eq_refl) as (m & _ & _ & _ & G); [|exact G]. intros s h ->. split; [reflexivity|rewrite second_difference_eq; reflexivity].
Qed.
(** the mixed differentiator does not *)
Theorem C70_restored_refuted : forall f v i j hh, i <> j -> hh <> 0 -> let x := snd (cross_difference f v i j v hh) in x i <> v i /\ x j <> v j.
Proof.
  intros f v i j hh N Hh. unfold cross_difference. cbn [snd]. cbn zeta.
  assert (P : step_size v i hh <> 0). { unfold step_size. apply Rmult_integral_contrapositive_currified; [exact Hh|]. pose proof (Rmax_r (Rabs (v i) * / 1000) (/ 1000)). lra. }
  unfold upd. rewrite !Nat.eqb_refl. destruct (Nat.eqb_spec i j); [contradiction|]. split; lra.
Qed.
Lemma h_pos v i hh : 0 < hh -> 0 < step_size v i hh.
Proof. intros H. unfold step_size. apply Rmult_lt_0_compat; [exact H|]. pose proof (Rmax_r (Rabs (v i) * / 1000) (/ 1000)). lra. Qed.
Definition scale_at (v : point) (i : nat) : R := Rmax (Rabs (v i) * / 1000) (/ 1000).
Lemma h_scale v i hh : step_size v i hh = hh * scale_at v i. Proof. reflexivity. Qed.
Lemma poly4 a t : poly 4 a t = a 0%nat + a 1%nat * t + a 2%nat * t ^ 2 + a 3%nat * t ^ 3 + a 4%nat * t ^ 4.
Proof. unfold poly. cbn [sum Nat.add]. cbn [fadd f0 ROps]. simpl. ring. Qed.
Lemma poly5 a t : poly 5 a t = a 0%nat + a 1%nat * t + a 2%nat * t ^ 2 + a 3%nat * t ^ 3 + a 4%nat * t ^ 4 + a 5%nat * t ^ 5.
Proof. unfold poly. cbn [sum Nat.add]. cbn [fadd f0 ROps]. simpl. ring. Qed.

(** ** gradients *)
Lemma upto_gradient {B} f n v (out : best -> B) (none : B) : let res := upto n (fun i s => let (e, x) := extrapolate_to_zero (gradient_difference f v i) (fst s) in (x, upd (snd s) i (out e))) (v, fun _ => none) in
  fst res = v /\ forall i, (i < n)%nat -> snd res i = out (fst (extrapolate_to_zero (gradient_difference f v i) v)).
Proof.
  cbn zeta. induction n as [|n [I1 I2]]; cbn [upto]; [split; [reflexivity|lia]|]. set (s := upto n _ _) in *. rewrite I1.
  destruct (C70_restored f v n None 1) as (_ & _ & E & _). destruct (extrapolate_to_zero (gradient_difference f v n) v) as [e x] eqn:Ee. cbn [snd fst] in *. subst x. split; [reflexivity|].
  intros i Hi. unfold upd. destruct (Nat.eqb_spec i n) as [->|]; [rewrite Ee; reflexivity|apply I2; lia].
Qed.
(** each component is extrapolated on its own, around the given point: nothing of the other axes is left behind *)
Theorem C70_gradient_independent : forall f n v i, (i < n)%nat -> numerical_gradient_with_errors f n v i = fst (extrapolate_to_zero (gradient_difference f v i) v) /\ numerical_gradient f n v i = option_map fst (numerical_gradient_with_errors f n v i).
Proof.
  intros f n v i Hi. destruct (upto_gradient f n v (fun e => e) None) as [_ E]. destruct (upto_gradient f n v (option_map fst) None) as [_ E']. 
  assert (A1 : numerical_gradient_with_errors f n v i = fst (extrapolate_to_zero (gradient_difference f v i) v)) by exact (E i Hi).
  assert (A2 : numerical_gradient f n v i = option_map fst (fst (extrapolate_to_zero (gradient_difference f v i) v))) by exact (E' i Hi). rewrite A2, A1. split; reflexivity.
Qed.
(** a function that is a polynomial of degree at most 4 along each axis: the gradient is exact and the reported errors are 0 *)
Theorem C70_gradient_exact : forall f n v, (forall i, (i < n)%nat -> exists a, forall t, f (moved v i t) = poly 4 a t) ->
  forall i, (i < n)%nat -> exists d, derivable_pt_lim (fun t => f (moved v i t)) 0 d /\ numerical_gradient (fun x => Some (f x)) n v i = Some d /\ numerical_gradient_with_errors (fun x => Some (f x)) n v i = Some (d, 0).
Proof.
  intros f n v H i Hi. destruct (H i Hi) as [a A]. exists (a 1%nat). split.
  - apply (D_ext (fun t => a 0%nat + a 1%nat * t + a 2%nat * (t * t) + a 3%nat * (t * (t * t)) + a 4%nat * (t * (t * (t * t))))); [|intros t; rewrite A, poly4; ring].
    eapply D_eq; [repeat first [apply D_plus|apply D_scal|apply D_mult|apply D_id|apply D_const]|cbn beta; ring].
  - destruct (C70_gradient_independent (fun x => Some (f x)) n v i Hi) as [E1 E2]. rewrite E2, E1.
    rewrite (proj1 (C70_even point (gradient_difference (fun x => Some (f x)) v i) (fun x => x = v) v (a 1%nat) (a 3%nat * scale_at v i ^ 2) eq_refl ltac:(intros s h Ph ->; rewrite gradient_difference_eq; cbn zeta; cbn [fst snd]; split; [|reflexivity]; f_equal; rewrite !A, !poly4; pose proof (h_pos v i h Ph) as P; rewrite h_scale in *; field; split; nra))). split; reflexivity.
Qed.
(** ... and a function that is quadratic along the axis where it is defined, and undefined (NaN) for large steps, however small the steps that work, within the 400 samples *)
Theorem C70_gradient_partial_domain : forall f n v i a r, (i < n)%nat -> (forall t, f (moved v i t) = None \/ f (moved v i t) = Some (poly 2 a t)) -> (forall t, Rabs t <= r -> f (moved v i t) <> None) -> step_at 398 * Rmax (Rabs (v i) * / 1000) (/ 1000) <= r ->
  numerical_gradient_with_errors f n v i = Some (a 1%nat, 0).
Proof.
  intros f n v i a r Hi F D Hr. rewrite (proj1 (C70_gradient_independent f n v i Hi)).
  assert (P2 : forall t, poly 2 a t = a 0%nat + a 1%nat * t + a 2%nat * t ^ 2) by (intros; unfold poly; cbn [sum Nat.add]; cbn [fadd f0 ROps]; simpl; ring).
  assert (V : forall h, 0 < h -> f (moved v i (step_size v i h)) <> None -> f (moved v i (- step_size v i h)) <> None -> fst (gradient_difference f v i v h) = Some (a 1%nat)).
  { intros h Ph N1 N2. rewrite gradient_difference_eq. cbn zeta. cbn [fst]. pose proof (h_pos v i h Ph) as P. destruct (F (step_size v i h)) as [C| ->]; [contradiction|]. destruct (F (- step_size v i h)) as [C| ->]; [contradiction|]. f_equal. rewrite !P2. field. lra. }
  assert (S398 : forall m, (398 <= m)%nat -> fst (gradient_difference f v i v (step_at m)) = Some (a 1%nat)).
  { intros m Hm. pose proof (step_pos m) as Pm. assert (Le : step_at m <= step_at 398).
    { replace m with (398 + (m - 398))%nat by lia. generalize (m - 398)%nat. intros k. induction k as [|k IH]; [rewrite Nat.add_0_r; lra|]. rewrite Nat.add_succ_r, step_S. pose proof (step_pos (398 + k)). unfold ridder_c. lra. }
    assert (B : Rabs (step_size v i (step_at m)) <= r). { rewrite Rabs_right by (apply Rle_ge; left; apply h_pos; exact Pm). eapply Rle_trans; [|exact Hr]. unfold step_size. apply Rmult_le_compat_r; [|exact Le]. pose proof (Rmax_r (Rabs (v i) * / 1000) (/ 1000)). lra. }
    apply V; [exact Pm| |]; apply D; [exact B|rewrite Rabs_Ropp; exact B]. }
  apply (C70_constant point (gradient_difference f v i) (fun h => fst (gradient_difference f v i v h)) (fun x => x = v) v (a 1%nat) 398 eq_refl).
  - intros s h ->. split; [reflexivity|rewrite gradient_difference_eq; reflexivity].
  - intros m. pose proof (step_pos m) as Pm. destruct (F (step_size v i (step_at m))) as [N1|N1]; [left; rewrite gradient_difference_eq; cbn zeta; cbn [fst]; rewrite N1; reflexivity|].
    destruct (F (- step_size v i (step_at m))) as [N2|N2]; [left; rewrite gradient_difference_eq; cbn zeta; cbn [fst]; rewrite N1, N2; reflexivity|]. right. apply V; [exact Pm|rewrite N1; discriminate|rewrite N2; discriminate].
  - lia.
  - apply S398. lia.
  - apply S398. lia.
Qed.
(** on degree 5 it may be wrong, and report error 0: 10^12 x^5 - 10^6 (221/121) x^3 has derivative 0 at 0 *)
Definition quintic (x : point) : R := 10 ^ 12 * x 0%nat ^ 5 - 10 ^ 6 * (221 / 121) * x 0%nat ^ 3.
Theorem C70_gradient_refuted : derivable_pt_lim (fun t => quintic (moved (fun _ => 0) 0 t)) 0 0 /\ numerical_gradient_with_errors (fun x => Some (quintic x)) 1 (fun _ => 0) 0 = Some (- (100 / 121), 0).
Proof.
  set (v := fun _ : nat => 0). assert (Q : forall t, quintic (moved v 0 t) = 10 ^ 12 * t ^ 5 - 10 ^ 6 * (221 / 121) * t ^ 3) by (intros t; unfold quintic, moved, v; cbn [Nat.eqb]; rewrite Rplus_0_l; reflexivity).
  split.
  - apply (D_ext (fun t => 10 ^ 12 * (t * (t * (t * (t * t)))) - 10 ^ 6 * (221 / 121) * (t * (t * t)))); [|intros t; rewrite Q; ring].
    eapply D_eq; [apply D_minus; repeat first [apply D_scal|apply D_mult|apply D_id]|cbn beta; ring].
  - rewrite (proj1 (C70_gradient_independent _ 1 v 0 ltac:(lia))).
    assert (Sc : scale_at v 0 = / 1000). { unfold scale_at, v. rewrite Rabs_R0. apply Rmax_right. lra. }
    set (y := fun k : nat => Some (step_at k ^ 4 - 221 / 121 * step_at k ^ 2)).
    destruct (extrapolate_ok (gradient_difference (fun x => Some (quintic x)) v 0) y (fun _ x => x = v) v) as (m & Lm & M & C & _).
    + intros i s ->. rewrite gradient_difference_eq. cbn [fst snd]. split; [|reflexivity]. unfold y. f_equal. rewrite !Q, h_scale, Sc. pose proof (step_pos i). field. lra.
    + reflexivity.
    + assert (S1 : step_at 1 = 10 / 11) by (unfold step_at; simpl; field). 
      assert (Y0 : y 0%nat = Some (- (100 / 121))) by (unfold y; rewrite step_0; f_equal; field).
      assert (Y1 : y 1%nat = Some (- (100 / 121))) by (unfold y; rewrite S1; f_equal; field).
      assert (T : table y 1 1 = Some (- (100 / 121))). { cbn [table]. replace (1 - 1)%nat with 0%nat by lia. rewrite Y0, Y1. cbn [extrapolated]. f_equal. unfold ridder_c. simpl. field. }
      assert (E : estimate_error y 1 1 (- (100 / 121)) 0). { apply cell_iff; [lia|]. split; [exact T|]. unfold cell. replace (1 - 1)%nat with 0%nat by lia. rewrite T. cbn [table]. rewrite Y0, Y1. cbn [distance]. rewrite omax_some. f_equal. replace (- (100 / 121) - - (100 / 121)) with 0 by ring. rewrite Rabs_R0. apply Rmax_left. lra. }
      assert (M1 : (1 <= m)%nat) by (destruct M as [->|[M _]]; lia).
      destruct (fst (extrapolate_to_zero (gradient_difference (fun x => Some (quintic x)) v 0) v)) as [[p e]|]; cbn [chosen] in C; [|destruct (C 1%nat 1%nat _ _ M1 E)].
      destruct C as (i & j & Hi & E' & C). destruct (C 1%nat 1%nat _ _ M1 E) as [C1 C2]. pose proof (error_nonneg _ _ _ _ _ E') as P0. assert (Z : e = 0) by lra.
      pose proof E' as [Hj _]. assert (IJ : i = 1%nat /\ j = 1%nat).
      { destruct (Nat.eq_dec i 1) as [->|N]; [split; lia|]. exfalso. assert (earlier 1 1 i j) by (left; lia). apply C2 in H. lra. }
      destruct IJ as [-> ->]. apply cell_iff in E'; [|lia]. destruct E' as [E' _]. rewrite T in E'. injection E' as <-. rewrite Z. reflexivity.
Qed.
(** non-vacuity: the identity, undefined for x <= 0, at 1/2000: the first steps leave the domain, the result is still exact *)
Example ex_partial_domain : numerical_gradient_with_errors (fun x => if R_ltb 0 (x 0%nat) then Some (x 0%nat) else None) 1 (fun _ => / 2000) 0 = Some (1, 0).
Proof.
  apply (C70_gradient_partial_domain _ 1 (fun _ => / 2000) 0 (fun k => match k with O => / 2000 | 1%nat => 1 | _ => 0 end) (/ 4000)); [lia| | |].
  - intros t. unfold moved. cbn [Nat.eqb]. destruct (R_ltb 0 (/ 2000 + t)); [right|left; reflexivity]. f_equal. unfold poly. cbn [sum Nat.add]. cbn [fadd f0 ROps]. simpl. ring.
  - intros t Ht. unfold moved. cbn [Nat.eqb]. replace (R_ltb 0 (/ 2000 + t)) with true; [discriminate|]. symmetry. apply R_ltb_spec. pose proof (Rle_abs (- t)). rewrite Rabs_Ropp in *. lra.
  - rewrite Rmax_right by (rewrite Rabs_right; lra).
    assert (Le : step_at 398 <= step_at 15).
    { replace 398%nat with (15 + 383)%nat by reflexivity. generalize 383%nat. intros k. induction k as [|k IH]; [rewrite Nat.add_0_r; lra|]. rewrite Nat.add_succ_r, step_S. pose proof (step_pos (15 + k)). unfold ridder_c. lra. }
    assert (step_at 15 <= / 4). { unfold step_at. apply Rinv_le_contravar; [lra|]. simpl. lra. } lra.
Qed.
(** ... and a cubic function of two variables meets the hypothesis of exactness *)
Example ex_gradient : forall v, exists d, derivable_pt_lim (fun t => (fun x : point => x 0%nat * x 1%nat * x 1%nat) (moved v 1 t)) 0 d /\ numerical_gradient (fun x => Some (x 0%nat * x 1%nat * x 1%nat)) 2 v 1 = Some d.
Proof.
  intros v. destruct (C70_gradient_exact (fun x => x 0%nat * x 1%nat * x 1%nat) 2 v) with (i := 1%nat) as (d & D & E & _); [|lia|exists d; split; assumption].
  intros i Hi. destruct i as [|[|i]]; [| |lia].
  - exists (fun k => match k with O => v 0%nat * v 1%nat * v 1%nat | 1%nat => v 1%nat * v 1%nat | _ => 0 end). intros t. rewrite poly4. unfold moved. cbn [Nat.eqb]. ring.
  - exists (fun k => match k with O => v 0%nat * v 1%nat * v 1%nat | 1%nat => 2 * v 0%nat * v 1%nat | 2%nat => v 0%nat | _ => 0 end). intros t. rewrite poly4. unfold moved. cbn [Nat.eqb]. ring.
Qed.
(** ** Hessians *)
Definition two (v : point) (i j : nat) (s t : R) : point := upd (upd v i s) j t.
Lemma two_two v i j a b s t : i <> j -> two (two v i j a b) i j s t = two v i j s t.
Proof. intros N. apply functional_extensionality. intros k. unfold two, upd. destruct (Nat.eqb_spec k j); [reflexivity|]. destruct (Nat.eqb_spec k i); reflexivity. Qed.
Lemma cross_difference_eq f v i j x hh : i <> j -> cross_difference f v i j x hh = (let h := step_size v i hh in
   match f (two x i j (v i + h) (v j + h)), f (two x i j (v i - h) (v j + h)), f (two x i j (v i + h) (v j - h)), f (two x i j (v i - h) (v j - h)) with
   | Some a, Some b, Some c, Some d => Some ((a - b - c + d) / (4 * h * h)) | _, _, _, _ => None end, two x i j (v i - step_size v i hh) (v j - step_size v i hh)).
Proof. intros N. unfold cross_difference. cbn zeta. fold (two x i j (v i + step_size v i hh) (v j + step_size v i hh)). repeat (match goal with |- context [upd (upd (two x i j ?a ?b) i ?s) j ?t] => change (upd (upd (two x i j a b) i s) j t) with (two (two x i j a b) i j s t); rewrite (two_two x i j a b s t N) end). reflexivity. Qed.
(** what the loop over the pairs does, given what the extrapolation of a pair gives at every point it may start from *)
Lemma hessian_cross_ok f n v (stale : point -> Prop) (val : nat -> nat -> best) : stale v ->
  (forall r c x, (r < c < n)%nat -> stale x -> fst (extrapolate_to_zero (cross_difference f v r c) x) = val r c /\ stale (snd (extrapolate_to_zero (cross_difference f v r c) x))) ->
  forall r c, (r < c < n)%nat -> snd (hessian_cross f n v) r c = val r c /\ snd (hessian_cross f n v) c r = val r c.
Proof.
  intros Sv H. unfold hessian_cross.
  set (P := fun (done : nat -> nat -> Prop) (s : point * (nat -> nat -> best)) => stale (fst s) /\ forall r c, (r < c < n)%nat -> done r c -> snd s r c = val r c /\ snd s c r = val r c).
  assert (In : forall r s, (r < n)%nat -> P (fun r' c' => (r' < r)%nat) s -> P (fun r' c' => (r' < S r)%nat) (upto (n - (r + 1)) (fun k s => let c := (r + 1 + k)%nat in let (e, x) := extrapolate_to_zero (cross_difference f v r c) (fst s) in (x, upd2 (upd2 (snd s) c r e) r c e)) s)).
  { intros r s Hr Hs.
    assert (G : forall q, (q <= n - (r + 1))%nat -> P (fun r' c' => (r' < r)%nat \/ r' = r /\ (c' < r + 1 + q)%nat) (upto q (fun k s => let c := (r + 1 + k)%nat in let (e, x) := extrapolate_to_zero (cross_difference f v r c) (fst s) in (x, upd2 (upd2 (snd s) c r e) r c e)) s)).
    { induction q as [|q Iq]; intros Hq; cbn [upto].
      - destruct Hs as [S1 S2]. split; [exact S1|]. intros r' c' Hrc [D|D]; [apply S2; assumption|lia].
      - specialize (Iq ltac:(lia)). set (t := upto q _ s) in *. destruct Iq as [S1 S2]. cbn zeta.
        destruct (H r (r + 1 + q)%nat (fst t) ltac:(lia) S1) as [V S3]. destruct (extrapolate_to_zero (cross_difference f v r (r + 1 + q)) (fst t)) as [e x]. cbn [fst snd] in *. subst e. split; [exact S3|]. cbn [snd].
        intros r' c' Hrc D. unfold upd2.
        destruct (Nat.eq_dec r' r) as [Er|Er]; [destruct (Nat.eq_dec c' (r + 1 + q)) as [Ec|Ec]|].
        + subst r' c'. rewrite !Nat.eqb_refl. cbn [andb]. split; [reflexivity|]. destruct (Nat.eqb_spec (r + 1 + q) r); [lia|]. reflexivity.
        + subst r'. destruct (S2 r c' Hrc) as [A B]; [right; lia|]. rewrite !Nat.eqb_refl. replace (c' =? r + 1 + q)%nat with false by (symmetry; apply Nat.eqb_neq; exact Ec). replace (r =? r + 1 + q)%nat with false by (symmetry; apply Nat.eqb_neq; lia). cbn [andb]. rewrite !andb_false_r. split; assumption.
        + destruct (S2 r' c' Hrc) as [A B]; [left; lia|]. replace (r' =? r)%nat with false by (symmetry; apply Nat.eqb_neq; exact Er). replace (r' =? r + 1 + q)%nat with false by (symmetry; apply Nat.eqb_neq; lia). cbn [andb]. rewrite !andb_false_r. split; assumption. }
    destruct (G (n - (r + 1))%nat (le_n _)) as [G1 G2]. split; [exact G1|]. intros r' c' Hrc D. apply G2; [exact Hrc|]. lia. }
  assert (Out : forall q, (q <= n)%nat -> P (fun r' c' => (r' < q)%nat) (upto q (fun r s => upto (n - (r + 1)) (fun k s => let c := (r + 1 + k)%nat in let (e, x) := extrapolate_to_zero (cross_difference f v r c) (fst s) in (x, upd2 (upd2 (snd s) c r e) r c e)) s) (v, fun _ _ => None))).
  { induction q as [|q Iq]; intros Hq; cbn [upto]; [split; [exact Sv|intros; lia]|]. apply In; [lia|]. apply Iq. lia. }
  destruct (Out n (le_n n)) as [_ O]. intros r c Hrc. apply O; [exact Hrc|lia].
Qed.
Lemma hessian_diag_ok f n v H : forall r c, (r < n)%nat -> (c < n)%nat -> snd (hessian_diag f n v H) r c = if (r =? c)%nat then fst (extrapolate_to_zero (second_difference f v (f v) r) v) else H r c.
Proof.
  unfold hessian_diag. set (body := fun (i : nat) (s : point * (nat -> nat -> best)) => _).
  assert (G : forall q, fst (upto q body (v, H)) = v /\ forall r c, snd (upto q body (v, H)) r c = if ((r =? c) && (r <? q))%nat then fst (extrapolate_to_zero (second_difference f v (f v) r) v) else H r c).
  { induction q as [|q [I1 I2]]; cbn [upto]; [split; [reflexivity|intros; rewrite andb_false_r; reflexivity]|]. set (s := upto q body (v, H)) in *. assert (Eb : body q s = let (e, x) := extrapolate_to_zero (second_difference f v (f v) q) v in (x, upd2 (snd s) q q e)) by (unfold body; rewrite I1; reflexivity). rewrite Eb.
    destruct (C70_restored f v q (f v) 1) as (_ & _ & _ & E). split.
    - destruct (extrapolate_to_zero (second_difference f v (f v) q) v) as [e x] eqn:Ee. exact E.
    - intros r c. destruct (extrapolate_to_zero (second_difference f v (f v) q) v) as [e x] eqn:Ee. cbn [snd fst]. unfold upd2. destruct (Nat.eqb_spec r q) as [->|Nr].
      + destruct (Nat.eqb_spec c q) as [->|Nc].
        * rewrite Nat.eqb_refl. replace (q <? S q)%nat with true by (symmetry; apply Nat.ltb_lt; lia). cbn [andb]. rewrite Ee. reflexivity.
        * cbn [andb]. rewrite I2. destruct (Nat.eqb_spec q c); [lia|]. reflexivity.
      + cbn [andb]. rewrite I2. destruct (r =? c)%nat; cbn [andb]; [|reflexivity]. destruct (Nat.ltb_spec r q); destruct (Nat.ltb_spec r (S q)); try lia; reflexivity. }
  intros r c Hr Hc. rewrite (proj2 (G n)). apply Nat.ltb_lt in Hr. rewrite Hr, andb_true_r. reflexivity.
Qed.
(** the quadratic function along two axes, from any point *)
Lemma sum_upd n i (g : nat -> R -> R) (x : point) s : (i < n)%nat -> Sum n (fun k => g k (upd x i s k)) = Sum n (fun k => g k (x k)) - g i (x i) + g i s.
Proof.
  intros Hi. pose proof (delta_l n i (fun k => g k s - g k (x k)) Hi) as D. cbn beta in D.
  transitivity (Sum n (fun k => g k (x k) + delta i k * (g k s - g k (x k)))); [|rewrite S_add, D; ring].
  apply S_ext. intros k Hk. unfold upd, delta. rewrite (Nat.eqb_sym i k). destruct (Nat.eqb_spec k i) as [->|]; cbn [f0 f1 ROps]; ring.
Qed.
Lemma quadratic_upd n c b A x i s : (i < n)%nat -> quadratic n c b A (upd x i s) =
  quadratic n c b A x + (s - x i) * (b i + (Sum n (fun l => A i l * x l) + Sum n (fun k => x k * A k i)) / 2) + (s - x i) ^ 2 * A i i / 2.
Proof.
  intros Hi. unfold quadratic. rewrite (sum_upd n i (fun k y => b k * y) x s Hi).
  set (Q := Sum n (fun k => Sum n (fun l => x k * A k l * x l))).
  assert (E : Sum n (fun k => Sum n (fun l => upd x i s k * A k l * upd x i s l)) = Q + (s - x i) * (Sum n (fun l => A i l * x l) + Sum n (fun k => x k * A k i)) + (s - x i) ^ 2 * A i i).
  { transitivity (Sum n (fun k => upd x i s k * (Sum n (fun l => A k l * x l) - A k i * x i + A k i * s))).
    { apply S_ext. intros k Hk. rewrite <- (sum_upd n i (fun l y => A k l * y) x s Hi), <- S_mul_l. apply S_ext; intros; ring. }
    rewrite (sum_upd n i (fun k y => y * (Sum n (fun l => A k l * x l) - A k i * x i + A k i * s)) x s Hi).
    replace (Sum n (fun k => x k * (Sum n (fun l => A k l * x l) - A k i * x i + A k i * s))) with (Q + (s - x i) * Sum n (fun k => x k * A k i)).
    - ring.
    - unfold Q. rewrite <- S_mul_l, <- S_add. apply S_ext. intros k Hk. rewrite (S_ext n (fun l => x k * A k l * x l) (fun l => x k * (A k l * x l))) by (intros; ring). rewrite S_mul_l. ring. }
  rewrite E. field.
Qed.
Lemma upd_other {A} (x : nat -> A) i j s : i <> j -> upd x i s j = x j.
Proof. intros N. unfold upd. destruct (Nat.eqb_spec j i); [subst; contradiction|reflexivity]. Qed.
Lemma quadratic_two n c b A x i j s1 s2 t1 t2 : (i < n)%nat -> (j < n)%nat -> i <> j ->
  quadratic n c b A (two x i j s1 t1) - quadratic n c b A (two x i j s2 t1) - quadratic n c b A (two x i j s1 t2) + quadratic n c b A (two x i j s2 t2) = (s1 - s2) * (t1 - t2) * ((A i j + A j i) / 2).
Proof.
  intros Hi Hj N. unfold two.
  assert (L1 : forall s, Sum n (fun l => A j l * upd x i s l) = Sum n (fun l => A j l * x l) - A j i * x i + A j i * s) by (intros s; apply (sum_upd n i (fun l y => A j l * y) x s Hi)).
  assert (L2 : forall s, Sum n (fun k => upd x i s k * A k j) = Sum n (fun k => x k * A k j) - x i * A i j + s * A i j) by (intros s; apply (sum_upd n i (fun k y => y * A k j) x s Hi)).
  rewrite !(quadratic_upd n c b A (upd x i s1) j) by exact Hj. rewrite !(quadratic_upd n c b A (upd x i s2) j) by exact Hj. rewrite !L1, !L2, !upd_other by exact N. field.
Qed.
(** numerical_hessian of a quadratic function of any number of coordinates is its Hessian, with errors 0 *)
Theorem C71_quadratic : forall n c b A v r l, (r < n)%nat -> (l < n)%nat -> let f := fun x => Some (quadratic n c b A x) in
  numerical_hessian f n v r l = Some ((A r l + A l r) / 2) /\ numerical_hessian_with_errors f n v r l = Some ((A r l + A l r) / 2, 0).
Proof.
  intros n c b A v r l Hr Hl f. assert (E : numerical_hessian_with_errors f n v r l = Some ((A r l + A l r) / 2, 0)); [|split; [unfold numerical_hessian; rewrite E; reflexivity|exact E]].
  unfold numerical_hessian_with_errors. rewrite hessian_diag_ok by assumption. destruct (Nat.eqb_spec r l) as [->|N].
  - apply (C70_even point (second_difference f v (f v) l) (fun x => x = v) v ((A l l + A l l) / 2) 0 eq_refl). intros s h Ph ->. rewrite second_difference_eq. cbn zeta. cbn [fst snd]. split; [|reflexivity].
    unfold f. f_equal. rewrite <- !upd_moved, !quadratic_upd by exact Hl. pose proof (h_pos v l h Ph). field. lra.
  - pose proof (hessian_cross_ok f n v (fun _ => True) (fun r c => Some ((A r c + A c r) / 2, 0)) I) as HC.
    assert (HX : forall r c x, (r < c < n)%nat -> True -> fst (extrapolate_to_zero (cross_difference f v r c) x) = Some ((A r c + A c r) / 2, 0) /\ True).
    { intros r' c' x Hrc _. split; [|exact I]. apply (C70_even point (cross_difference f v r' c') (fun _ => True) x ((A r' c' + A c' r') / 2) 0 I). intros s h Ph _. split; [|exact I].
      rewrite cross_difference_eq by lia. cbn zeta. cbn [fst]. unfold f. f_equal. pose proof (h_pos v r' h Ph) as P.
      rewrite (quadratic_two n c b A s r' c' (v r' + step_size v r' h) (v r' - step_size v r' h) (v c' + step_size v r' h) (v c' - step_size v r' h)) by lia. field. lra. }
    specialize (HC HX). destruct (Nat.lt_ge_cases r l) as [L|L].
    + destruct (HC r l ltac:(lia)) as [E _]. exact E.
    + destruct (HC l r ltac:(lia)) as [_ E]. rewrite E. f_equal. f_equal. field.
Qed.
(** the diagonal is exact for every function that is a polynomial of degree at most 5 along each axis: twice the second coefficient *)
Theorem C71_diagonal : forall f n v i a, (i < n)%nat -> (forall t, f (moved v i t) = poly 5 a t) -> numerical_hessian_with_errors (fun x => Some (f x)) n v i i = Some (2 * a 2%nat, 0).
Proof.
  intros f n v i a Hi A. unfold numerical_hessian_with_errors. rewrite hessian_diag_ok by assumption. rewrite Nat.eqb_refl.
  apply (C70_even point (second_difference (fun x => Some (f x)) v (Some (f v)) i) (fun x => x = v) v (2 * a 2%nat) (2 * a 4%nat * scale_at v i ^ 2) eq_refl). intros s h Ph ->. rewrite second_difference_eq. cbn zeta. cbn [fst snd]. split; [|reflexivity].
  f_equal. replace (f v) with (poly 5 a 0) by (rewrite <- A, moved_0; reflexivity). rewrite !A, !poly5. pose proof (h_pos v i h Ph) as P. rewrite h_scale in *. field. split; nra.
Qed.
(** in two coordinates nothing is stale: every polynomial of total degree at most 4 has its mixed derivative *)
Lemma poly2_eq a x y : poly2 a x y =
  (a 0%nat 0%nat + a 0%nat 1%nat * y + a 0%nat 2%nat * (y * y) + a 0%nat 3%nat * (y * (y * y)) + a 0%nat 4%nat * (y * (y * (y * y))) + (a 1%nat 0%nat + a 1%nat 1%nat * y + a 1%nat 2%nat * (y * y) + a 1%nat 3%nat * (y * (y * y))) * x + (a 2%nat 0%nat + a 2%nat 1%nat * y + a 2%nat 2%nat * (y * y)) * (x * x) + (a 3%nat 0%nat + a 3%nat 1%nat * y) * (x * (x * x)) + a 4%nat 0%nat * (x * (x * (x * x)))).
Proof. unfold poly2. cbn [sum Nat.sub]. cbn [fadd f0 ROps]. simpl. ring. Qed.
Theorem C71_two_coordinates : forall a v, let f := fun x : point => Some (poly2 a (x 0%nat) (x 1%nat)) in exists d g, (forall s, derivable_pt_lim (fun t => poly2 a s t) (v 1%nat) (g s)) /\ derivable_pt_lim g (v 0%nat) d /\
  numerical_hessian_with_errors f 2 v 0 1 = Some (d, 0) /\ numerical_hessian_with_errors f 2 v 1 0 = Some (d, 0).
Proof.
  intros a v f. set (y := v 1%nat). set (x := v 0%nat).
  exists (a 1%nat 1%nat + 2 * a 1%nat 2%nat * y + 3 * a 1%nat 3%nat * (y * y) + 2 * (a 2%nat 1%nat + 2 * a 2%nat 2%nat * y) * x + 3 * a 3%nat 1%nat * (x * x)).
  exists (fun s => a 0%nat 1%nat + 2 * a 0%nat 2%nat * y + 3 * a 0%nat 3%nat * (y * y) + 4 * a 0%nat 4%nat * (y * (y * y)) + (a 1%nat 1%nat + 2 * a 1%nat 2%nat * y + 3 * a 1%nat 3%nat * (y * y)) * s + (a 2%nat 1%nat + 2 * a 2%nat 2%nat * y) * (s * s) + a 3%nat 1%nat * (s * (s * s))).
  split; [|split].
  - intros s. eapply D_ext; [|intros t; symmetry; apply poly2_eq]. eapply D_eq; [repeat first [apply D_const|apply D_plus|apply D_id|apply D_scal|apply D_mult]|cbn beta; ring].
  - eapply D_eq; [repeat first [apply D_const|apply D_plus|apply D_id|apply D_scal|apply D_mult]|cbn beta; ring].
  - unfold numerical_hessian_with_errors. rewrite !hessian_diag_ok by lia. cbn [Nat.eqb].
    destruct (hessian_cross_ok f 2 v (fun s => exists s0 s1, s = two v 0 1 s0 s1) (fun _ _ => Some (a 1%nat 1%nat + 2 * a 1%nat 2%nat * y + 3 * a 1%nat 3%nat * (y * y) + 2 * (a 2%nat 1%nat + 2 * a 2%nat 2%nat * y) * x + 3 * a 3%nat 1%nat * (x * x), 0))) with (r := 0%nat) (c := 1%nat) as [E1 E2]; [| |lia|split; assumption].
    + exists (v 0%nat), (v 1%nat). unfold two. rewrite upd_same, upd_same. reflexivity.
    + intros r c s Hrc Hs. assert (r = 0%nat) by lia. assert (c = 1%nat) by lia. subst r c.
      apply (C70_even point (cross_difference f v 0 1) (fun s => exists s0 s1, s = two v 0 1 s0 s1) s _ ((a 1%nat 3%nat + a 3%nat 1%nat) * scale_at v 0 ^ 2)); [exact Hs|]. intros s' h Ph (s0 & s1 & ->). rewrite cross_difference_eq by lia. rewrite !two_two by lia. cbn zeta. cbn [fst snd]. split; [|eexists; eexists; reflexivity].
      unfold f, two, upd. cbn [Nat.eqb]. f_equal. rewrite !poly2_eq. fold x y. pose proof (h_pos v 0 h Ph) as P. rewrite h_scale in *. field. split; nra.
Qed.
(** with three coordinates, a cubic function: the pair (0,1) leaves coordinate 1 displaced, and d2f/dx0dx2 is wrong; the true Hessian of K x0 x1 x2 at 0 is 0 *)
Definition triple (K : R) (x : point) : R := K * x 0%nat * x 1%nat * x 2%nat.
Theorem C71_stale_coordinates : forall K, 0 < K -> exists d, numerical_hessian_with_errors (fun x => Some (triple K x)) 3 (fun _ => 0) 0 2 = Some (d, 0) /\ d <= - (K / 1000 * step_at 399).
Proof.
  intros K PK. set (v := fun _ : nat => 0). set (f := fun x => Some (triple K x)).
  assert (Sc : scale_at v 0 = / 1000). { unfold scale_at, v. rewrite Rabs_R0. apply Rmax_right. lra. }
  unfold numerical_hessian_with_errors. rewrite hessian_diag_ok by lia. cbn [Nat.eqb].
  (* the pair (0,1) *)
  assert (X1 : fst (extrapolate_to_zero (cross_difference f v 0 1) v) = Some (0, 0) /\ exists m, (m < 400)%nat /\ snd (extrapolate_to_zero (cross_difference f v 0 1) v) = two v 0 1 (- (step_at m / 1000)) (- (step_at m / 1000))).
  { assert (St : forall s h, 0 < h -> (s = v \/ exists a b, s = two v 0 1 a b) -> cross_difference f v 0 1 s h = (Some 0, two v 0 1 (- (h / 1000)) (- (h / 1000)))).
    { intros s h Ph Hs. rewrite cross_difference_eq by lia. cbn zeta. assert (T2 : forall a b, two s 0 1 a b = two v 0 1 a b) by (intros a b; destruct Hs as [->|(a' & b' & ->)]; [reflexivity|apply two_two; lia]).
      rewrite !T2. unfold f, triple, two, upd, v. cbn [Nat.eqb]. rewrite h_scale. change (fun _ : nat => 0) with v. rewrite Sc. f_equal.
      - f_equal. field. lra.
      - apply functional_extensionality. intros k. destruct (k =? 1)%nat; [field|]. destruct (k =? 0)%nat; [field|reflexivity]. }
    destruct (extrapolate_ok (cross_difference f v 0 1) (fun _ => Some 0) (fun i s => (i = 0%nat /\ s = v) \/ exists m, i = S m /\ s = two v 0 1 (- (step_at m / 1000)) (- (step_at m / 1000))) v) as (m & Lm & M & C & G).
    - intros i s Hs. rewrite St.
      + split; [reflexivity|]. right. exists i. split; reflexivity.
      + apply step_pos.
      + destruct Hs as [[_ ->]|(m & _ & ->)]; [left; reflexivity|right; eexists; eexists; reflexivity].
    - left. split; reflexivity.
    - split.
      + apply (constant_chosen (fun _ => Some 0) 0 0 m); try assumption; try lia; try reflexivity. intros; right; reflexivity.
      + exists m. split; [exact Lm|]. destruct G as [[G _]|(m' & G1 & G2)]; [discriminate|]. injection G1 as <-. exact G2. }
  destruct X1 as [X1 (m & Lm & X2)].
  set (x := two v 0 1 (- (step_at m / 1000)) (- (step_at m / 1000))) in *.
  (* the pair (0,2) *)
  assert (Y1 : fst (extrapolate_to_zero (cross_difference f v 0 2) x) = Some (- (K / 1000 * step_at m), 0)).
  { apply (C70_even point (cross_difference f v 0 2) (fun s => s 1%nat = - (step_at m / 1000)) x (- (K / 1000 * step_at m)) 0); [reflexivity|]. intros s h Ph Hs. rewrite cross_difference_eq by lia. cbn zeta. cbn [fst snd]. split; [|exact Hs].
    unfold f, triple, two, upd. cbn [Nat.eqb]. rewrite Hs, h_scale, Sc. unfold v. f_equal. field. lra. }
  exists (- (K / 1000 * step_at m)). split.
  - unfold hessian_cross. cbn [upto Nat.sub Nat.add]. cbn [fst snd].
    destruct (extrapolate_to_zero (cross_difference f v 0 1) v) as [e1 x1]. cbn [fst snd] in X1, X2 |- *. subst x1.
    destruct (extrapolate_to_zero (cross_difference f v 0 2) x) as [e2 x2]. cbn [fst snd] in Y1 |- *. subst e2.
    destruct (extrapolate_to_zero (cross_difference f v 1 2) x2) as [e3 x3]. cbn [fst snd]. reflexivity.
  - assert (Le : step_at 399 <= step_at m).
    { replace 399%nat with (m + (399 - m))%nat by lia. generalize (399 - m)%nat. intros k. induction k as [|k IH]; [rewrite Nat.add_0_r; lra|]. rewrite Nat.add_succ_r, step_S. pose proof (step_pos (m + k)). unfold ridder_c. lra. }
    assert (K / 1000 * step_at 399 <= K / 1000 * step_at m) by (apply Rmult_le_compat_l; lra). lra.
Qed.
Print Assumptions C70_extrapolation.
Print Assumptions C70_estimate_exact.
Print Assumptions C70_constant.
Print Assumptions C70_even.
Print Assumptions C70_restored.
Print Assumptions C70_restored_refuted.
Print Assumptions C70_gradient_independent.
Print Assumptions C70_gradient_exact.
Print Assumptions C70_gradient_partial_domain.
Print Assumptions C70_gradient_refuted.
Print Assumptions C71_quadratic.
Print Assumptions C71_stale_coordinates.
Print Assumptions C71_diagonal.
Print Assumptions C71_two_coordinates.
