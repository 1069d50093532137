(** * More lemmas for the 3x3 closed form: repeated eigenvalues, and small norms. *)
From Coq Require Import Reals Arith Bool Lia Lra Psatz Nsatz.
From Verif Require Import Base Alg Mat SpecMat LemMat Inst RSum ModelOps LemOps ModelHelpers LemHelpers ModelLie ModelEig SpecEig LemEig ModelEig3 LemEig3.
Open Scope outcome_scope.
Local Open Scope R_scope.

(** the six 2x2 minors of A - l I *)
Definition rank_one (A : sym3) (l : R) : Prop :=
  (a11 A - l) * (a22 A - l) = a12 A * a12 A /\ (a11 A - l) * (a33 A - l) = a13 A * a13 A /\ (a22 A - l) * (a33 A - l) = a23 A * a23 A /\
  a12 A * a13 A = (a11 A - l) * a23 A /\ a12 A * a23 A = (a22 A - l) * a13 A /\ a13 A * a23 A = (a33 A - l) * a12 A.
Lemma sq_zero x : x * x = 0 -> x = 0.
Proof. intros H. apply Rmult_integral in H. tauto. Qed.
Lemma double_rank A l : charp A l = 0 -> adj_trace A l = 0 -> rank_one A l.
Proof.
  intros D T. set (m11 := (a22 A - l) * (a33 A - l) - a23 A * a23 A). set (m22 := (a11 A - l) * (a33 A - l) - a13 A * a13 A). set (m33 := (a11 A - l) * (a22 A - l) - a12 A * a12 A).
  set (m12 := a13 A * a23 A - a12 A * (a33 A - l)). set (m13 := a12 A * a23 A - a13 A * (a22 A - l)). set (m23 := a12 A * a13 A - a23 A * (a11 A - l)).
  assert (T' : m11 + m22 + m33 = 0). { rewrite <- T. unfold m11, m22, m33, adj_trace, choice1, choice2, choice3. cbn [vx vy vz]. ring. }
  assert (J1 : m11 * m22 = m12 * m12). { assert (m11 * m22 - m12 * m12 = charp A l * (a33 A - l)) by (unfold m11, m22, m12, charp; ring). rewrite D in *. lra. }
  assert (J2 : m11 * m33 = m13 * m13). { assert (m11 * m33 - m13 * m13 = charp A l * (a22 A - l)) by (unfold m11, m33, m13, charp; ring). rewrite D in *. lra. }
  assert (J3 : m22 * m33 = m23 * m23). { assert (m22 * m33 - m23 * m23 = charp A l * (a11 A - l)) by (unfold m22, m33, m23, charp; ring). rewrite D in *. lra. }
  assert (Q : m11 * m11 + m22 * m22 + m33 * m33 + 2 * (m12 * m12 + m13 * m13 + m23 * m23) = 0).
  { rewrite <- J1, <- J2, <- J3. transitivity ((m11 + m22 + m33) * (m11 + m22 + m33)); [ring|rewrite T'; ring]. }
  assert (N : forall x, 0 <= x * x) by (intros x; exact (Rle_0_sqr x)). pose proof (N m11). pose proof (N m22). pose proof (N m33). pose proof (N m12). pose proof (N m13). pose proof (N m23).
  assert (Z1 : m11 = 0) by (apply sq_zero; lra). assert (Z2 : m22 = 0) by (apply sq_zero; lra). assert (Z3 : m33 = 0) by (apply sq_zero; lra).
  assert (Z4 : m12 = 0) by (apply sq_zero; lra). assert (Z5 : m13 = 0) by (apply sq_zero; lra). assert (Z6 : m23 = 0) by (apply sq_zero; lra).
  clear - Z1 Z2 Z3 Z4 Z5 Z6. unfold m11, m22, m33, m12, m13, m23 in *. unfold rank_one. repeat split; lra.
Qed.
Lemma double_raw A eps l : 0 < eps -> rank_one A l -> raw_vector A eps l = mk3 0 0 0.
Proof. intros P (R1 & R2 & R3 & R4 & R5 & R6). apply raw_zero; [exact P| | |]; unfold choice1, choice2, choice3; f_equal; lra. Qed.
(** a vector orthogonal to the other eigenvector is an eigenvector for the repeated eigenvalue *)
Lemma double_space A l mu v w : rank_one A l -> is_eig A mu v -> dot3 v v = 1 -> mu <> l -> dot3 w v = 0 -> is_eig A l w.
Proof.
  intros (R1 & R2 & R3 & R4 & R5 & R6) (E1 & E2 & E3) U Ne O. unfold dot3 in *. destruct v as [x y z], w as [p q r]. unfold is_eig. cbn [vx vy vz] in *.
  set (b11 := a11 A - l) in *. set (b22 := a22 A - l) in *. set (b33 := a33 A - l) in *. set (b12 := a12 A) in *. set (b13 := a13 A) in *. set (b23 := a23 A) in *. set (t := mu - l).
  assert (F1 : b11 * x + b12 * y + b13 * z = t * x) by (unfold b11, t; lra). assert (F2 : b12 * x + b22 * y + b23 * z = t * y) by (unfold b22, t; lra). assert (F3 : b13 * x + b23 * y + b33 * z = t * z) by (unfold b33, t; lra).
  assert (Tn : t <> 0) by (unfold t; lra). replace (a11 A) with (b11 + l) by (unfold b11; ring). replace (a22 A) with (b22 + l) by (unfold b22; ring). replace (a33 A) with (b33 + l) by (unfold b33; ring).
  clearbody b11 b22 b33 b12 b13 b23 t. clear E1 E2 E3.
  assert (K : forall b u v, t * (b) = t * (t * (u * v)) -> b = t * (u * v)) by (intros b u v H; apply Rmult_eq_reg_l in H; [exact H|exact Tn]).
  assert (G11 : b11 = t * (x * x)) by (apply K; nsatz). assert (G22 : b22 = t * (y * y)) by (apply K; nsatz). assert (G33 : b33 = t * (z * z)) by (apply K; nsatz).
  assert (G12 : b12 = t * (x * y)) by (apply K; nsatz). assert (G13 : b13 = t * (x * z)) by (apply K; nsatz). assert (G23 : b23 = t * (y * z)) by (apply K; nsatz).
  rewrite G11, G22, G33, G12, G13, G23. split; [|split].
  - transitivity (l * p + t * x * (p * x + q * y + r * z)); [ring|rewrite O; ring].
  - transitivity (l * q + t * y * (p * x + q * y + r * z)); [ring|rewrite O; ring].
  - transitivity (l * r + t * z * (p * x + q * y + r * z)); [ring|rewrite O; ring].
Qed.
(** the branch for one usable vector: v is the normalised vector *)
Definition perm3 (v : V3) : V3 := mk3 (vy v) (vz v) (vx v).
Definition gs (v : V3) : V3 := sub3 (perm3 v) (scale3 (dot3 (perm3 v) v) v).
Lemma gs_orth v : dot3 v v = 1 -> dot3 (gs v) v = 0.
Proof. intros H. transitivity (dot3 (perm3 v) v - dot3 (perm3 v) v * dot3 v v); [unfold gs, dot3, sub3, scale3; cbn [vx vy vz]; ring|rewrite H; ring]. Qed.
Lemma gs_zero v : dot3 v v = 1 -> dot3 (gs v) (gs v) = 0 -> vx v = vy v /\ vy v = vz v.
Proof.
  intros H Z. assert (E : dot3 (gs v) (gs v) = 1 - dot3 (perm3 v) v * dot3 (perm3 v) v).
  { transitivity (dot3 v v - 2 * dot3 (perm3 v) v * dot3 (perm3 v) v + dot3 (perm3 v) v * dot3 (perm3 v) v * dot3 v v); [unfold gs, dot3, sub3, scale3, perm3; cbn [vx vy vz]; ring|rewrite H; ring]. }
  set (d := dot3 (perm3 v) v) in *. assert (D : (d - 1) * (d + 1) = 0) by lra. apply Rmult_integral in D. unfold d, dot3, perm3 in *. destruct v as [x y z]. cbn [vx vy vz] in *.
  pose proof (Rle_0_sqr (x - y)) as Q1. pose proof (Rle_0_sqr (y - z)) as Q2. pose proof (Rle_0_sqr (z - x)) as Q3. pose proof (Rle_0_sqr (x + y + z)) as Q4. unfold Rsqr in *.
  destruct D as [D|D].
  - assert (A1 : (x - y) * (x - y) = 0) by lra. assert (A2 : (y - z) * (y - z) = 0) by lra. apply sq_zero in A1. apply sq_zero in A2. lra.
  - exfalso. assert ((x + y + z) * (x + y + z) = x * x + y * y + z * z + 2 * (y * x + z * y + x * z)) by ring. lra.
Qed.
Lemma unit3_norm v : 0 < dot3 v v -> unit3 v = Ok (scale3 (1 / sqrt (dot3 v v)) v) /\ dot3 (scale3 (1 / sqrt (dot3 v v)) v) (scale3 (1 / sqrt (dot3 v v)) v) = 1.
Proof.
  intros H. assert (S : 0 < sqrt (dot3 v v)) by (apply sqrt_lt_R0; exact H). split; [unfold unit3; rewrite R_div_ok by lra; reflexivity|].
  rewrite dot_scale. assert (Q : sqrt (dot3 v v) * sqrt (dot3 v v) = dot3 v v) by (apply sqrt_sqrt; lra). transitivity (dot3 v v / (sqrt (dot3 v v) * sqrt (dot3 v v))); [field; lra|rewrite Q; field; lra].
Qed.
Lemma unit3_bad v : dot3 v v = 0 -> unit3 v = NonFinite.
Proof. intros H. unfold unit3. rewrite H, sqrt_0, R_div_bad by reflexivity. reflexivity. Qed.
Lemma cross_norm u v : dot3 (cross3 u v) (cross3 u v) = dot3 u u * dot3 v v - dot3 u v * dot3 u v.
Proof. unfold dot3, cross3. cbn [vx vy vz]. ring. Qed.
Lemma cross_l u v : dot3 (cross3 u v) u = 0. Proof. unfold dot3, cross3. cbn [vx vy vz]. ring. Qed.
Lemma cross_r u v : dot3 (cross3 u v) v = 0. Proof. unfold dot3, cross3. cbn [vx vy vz]. ring. Qed.
Lemma dot_comm u v : dot3 u v = dot3 v u. Proof. unfold dot3. ring. Qed.
Lemma dot_scale_l k u v : dot3 (scale3 k u) v = k * dot3 u v. Proof. unfold dot3, scale3. cbn [vx vy vz]. ring. Qed.
Lemma norm_zero3 : norm1_3 (mk3 0 0 0) = 0.
Proof. unfold norm1_3. cbn [vx vy vz]. rewrite Rabs_R0. ring. Qed.
Lemma ltb_true x y : x < y -> R_ltb x y = true. Proof. apply R_ltb_iff. Qed.
Lemma ltb_false x y : y <= x -> R_ltb x y = false. Proof. apply R_ltb_false. Qed.
Lemma finish_first eps (e : rows) : 0 < eps -> e 1%nat = mk3 0 0 0 -> e 2%nat = mk3 0 0 0 -> eps <= norm1_3 (e 0%nat) ->
  finish eps e = (v <- normalize3 (e 0%nat) ;; v1 <- unit3 (gs v) ;; Ok (set_row3 (set_row3 (set_row3 e 0 v) 1 v1) 2 (cross3 v1 v))).
Proof.
  intros P E1 E2 N. unfold finish. rewrite E1, E2, norm_zero3. rewrite (ltb_true 0 eps P). rewrite orb_true_r. cbn [orb]. unfold sort_pairs. cbn [fst].
  rewrite (ltb_true 0 (norm1_3 (e 0%nat))) by lra. cbn [fst snd]. rewrite (ltb_true 0 (norm1_3 (e 0%nat))) by lra. cbn [fst snd]. rewrite R_ltb_irr. cbn [fst]. rewrite (ltb_true 0 eps P). cbn [negb].
  rewrite (ltb_false _ _ N). cbn [negb]. destruct (normalize3 (e 0%nat)); reflexivity.
Qed.
Lemma finish_last eps (e : rows) : 0 < eps -> e 0%nat = mk3 0 0 0 -> e 1%nat = mk3 0 0 0 -> eps <= norm1_3 (e 2%nat) ->
  finish eps e = (v <- normalize3 (e 2%nat) ;; v1 <- unit3 (gs v) ;; Ok (set_row3 (set_row3 (set_row3 e 2 v) 0 v1) 1 (cross3 v1 v))).
Proof.
  intros P E1 E2 N. unfold finish. rewrite E1, E2, norm_zero3. rewrite (ltb_true 0 eps P). cbn [orb]. unfold sort_pairs. cbn [fst].
  rewrite R_ltb_irr. cbn [fst snd]. rewrite (ltb_false (norm1_3 (e 2%nat)) 0) by lra. cbn [fst snd]. rewrite R_ltb_irr. cbn [fst]. rewrite (ltb_true 0 eps P). cbn [negb].
  rewrite (ltb_false _ _ N). cbn [negb]. destruct (normalize3 (e 2%nat)); reflexivity.
Qed.
Lemma finish_none eps (e : rows) : norm1_3 (e 0%nat) < eps -> norm1_3 (e 1%nat) < eps -> norm1_3 (e 2%nat) < eps -> finish eps e = Ok id_rows.
Proof.
  intros N0 N1 N2. unfold finish. rewrite (ltb_true _ _ N0). cbn [orb]. unfold sort_pairs. cbn [fst].
  destruct (R_ltb (norm1_3 (e 1%nat)) (norm1_3 (e 0%nat))); cbn [fst]; destruct (R_ltb (norm1_3 (e 2%nat)) _); cbn [fst]; destruct (R_ltb _ _); cbn [fst];
    rewrite ?(ltb_true _ _ N0), ?(ltb_true _ _ N1), ?(ltb_true _ _ N2); reflexivity.
Qed.
(** the three vectors of the one-vector branch *)
Lemma gs_triple v v1 : dot3 v v = 1 -> unit3 (gs v) = Ok v1 -> dot3 v1 v1 = 1 /\ dot3 v1 v = 0 /\ dot3 (cross3 v1 v) (cross3 v1 v) = 1 /\ dot3 (cross3 v1 v) v1 = 0 /\ dot3 (cross3 v1 v) v = 0.
Proof.
  intros U E. destruct (Req_dec (dot3 (gs v) (gs v)) 0) as [Z|Z]; [rewrite (unit3_bad _ Z) in E; discriminate|].
  assert (P : 0 < dot3 (gs v) (gs v)). { assert (0 <= dot3 (gs v) (gs v)); [|lra]. unfold dot3. pose proof (Rle_0_sqr (vx (gs v))). pose proof (Rle_0_sqr (vy (gs v))). pose proof (Rle_0_sqr (vz (gs v))). unfold Rsqr in *. lra. }
  destruct (unit3_norm _ P) as (E' & U1). rewrite E' in E. injection E as <-. assert (O : dot3 (scale3 (1 / sqrt (dot3 (gs v) (gs v))) (gs v)) v = 0).
  { rewrite dot_scale_l, (gs_orth v U). ring. }
  split; [exact U1|]. split; [exact O|]. split; [rewrite cross_norm, U1, U, O; ring|]. split; [apply cross_l|apply cross_r].
Qed.
Lemma gs_ok v : dot3 v v = 1 -> ~ (vx v = vy v /\ vy v = vz v) -> exists v1, unit3 (gs v) = Ok v1.
Proof.
  intros U N. destruct (Req_dec (dot3 (gs v) (gs v)) 0) as [Z|Z]; [destruct N; exact (gs_zero v U Z)|].
  assert (P : 0 < dot3 (gs v) (gs v)). { assert (0 <= dot3 (gs v) (gs v)); [|lra]. unfold dot3. pose proof (Rle_0_sqr (vx (gs v))). pose proof (Rle_0_sqr (vy (gs v))). pose proof (Rle_0_sqr (vz (gs v))). unfold Rsqr in *. lra. }
  eexists. exact (proj1 (unit3_norm _ P)).
Qed.
Lemma gs_bad v : dot3 v v = 1 -> vx v = vy v -> vy v = vz v -> unit3 (gs v) = NonFinite.
Proof.
  intros U X Y. apply unit3_bad. destruct v as [x y z]. cbn [vx vy vz] in *. subst x y. unfold gs, perm3, sub3, scale3, dot3 in *. cbn [vx vy vz] in *. rewrite U. ring.
Qed.
(** the eigenvector of the simple eigenvalue has equal components exactly when (1,1,1) is an eigenvector for it *)
Lemma ones_eig A l mu v : rank_one A l -> mu <> l -> is_eig A mu v -> dot3 v v = 1 -> is_eig A mu (mk3 1 1 1) -> vx v = vy v /\ vy v = vz v.
Proof.
  intros R Ne Ev U E1. set (k := 1 / sqrt 3). assert (S3 : sqrt 3 * sqrt 3 = 3) by (apply sqrt_sqrt; lra). assert (P3 : 0 < sqrt 3) by (apply sqrt_lt_R0; lra).
  assert (K : 3 * (k * k) = 1). { unfold k. transitivity (3 / (sqrt 3 * sqrt 3)); [field; lra|rewrite S3; field]. }
  set (o := scale3 k (mk3 1 1 1)). assert (Uo : dot3 o o = 1) by (unfold o, dot3, scale3; cbn [vx vy vz]; lra). assert (Eo : is_eig A mu o) by (apply eig_scale; exact E1).
  set (c := dot3 v o). set (w := add3 v (scale3 (- c) o)). assert (Wm : is_eig A mu w) by (apply eig_add; [exact Ev|apply eig_scale; exact Eo]).
  assert (Wo : dot3 w o = 0). { transitivity (dot3 v o - c * dot3 o o); [unfold w, dot3, add3, scale3; cbn [vx vy vz]; ring|rewrite Uo; unfold c; ring]. }
  pose proof (double_space A l mu o w R Eo Uo Ne Wo) as Wl. assert (Z : dot3 w w = 0) by (apply (eig_orth A l mu w w Wl Wm); lra).
  assert (Q : forall x, 0 <= x * x) by (intros x; exact (Rle_0_sqr x)). unfold dot3 in Z. pose proof (Q (vx w)). pose proof (Q (vy w)). pose proof (Q (vz w)).
  assert (X : vx w = 0) by (apply sq_zero; lra). assert (Y : vy w = 0) by (apply sq_zero; lra). assert (Zz : vz w = 0) by (apply sq_zero; lra).
  unfold w, add3, o, scale3 in X, Y, Zz. cbn [vx vy vz] in X, Y, Zz. lra.
Qed.
(** small norms: all elements and the eigenvalue are bounded *)
Lemma prod_le x y B C : Rabs x <= B -> Rabs y <= C -> Rabs (x * y) <= B * C.
Proof. intros H1 H2. rewrite Rabs_mult. apply Rmult_le_compat; auto using Rabs_pos. Qed.
Lemma raw_small A eps l B : Rabs (a11 A) <= B -> Rabs (a12 A) <= B -> Rabs (a13 A) <= B -> Rabs (a22 A) <= B -> Rabs (a23 A) <= B -> Rabs (a33 A) <= B -> Rabs l <= 3 * B ->
  norm1_3 (raw_vector A eps l) <= 81 * (B * B).
Proof.
  intros A1 A2 A3 A4 A5 A6 L.
  assert (L1 : Rabs (a11 A - l) <= 4 * B) by (unfold Rminus; eapply Rle_trans; [apply Rabs_triang|rewrite Rabs_Ropp; lra]). assert (L2 : Rabs (a22 A - l) <= 4 * B) by (unfold Rminus; eapply Rle_trans; [apply Rabs_triang|rewrite Rabs_Ropp; lra]).
  assert (L3 : Rabs (a33 A - l) <= 4 * B) by (unfold Rminus; eapply Rle_trans; [apply Rabs_triang|rewrite Rabs_Ropp; lra]).
  assert (L1' : Rabs (l - a11 A) <= 4 * B) by (rewrite Rabs_minus_sym; exact L1). assert (L2' : Rabs (l - a22 A) <= 4 * B) by (rewrite Rabs_minus_sym; exact L2). assert (L3' : Rabs (l - a33 A) <= 4 * B) by (rewrite Rabs_minus_sym; exact L3).
  assert (TM : forall x y X Y, Rabs x <= X -> Rabs y <= Y -> Rabs (x - y) <= X + Y) by (intros x y X Y Hx Hy; unfold Rminus; eapply Rle_trans; [apply Rabs_triang|rewrite Rabs_Ropp; lra]).
  assert (TP : forall x y X Y, Rabs x <= X -> Rabs y <= Y -> Rabs (x + y) <= X + Y) by (intros x y X Y Hx Hy; eapply Rle_trans; [apply Rabs_triang|lra]).
  assert (N1 : norm1_3 (choice1 A l) <= 27 * (B * B)).
  { unfold norm1_3, choice1. cbn [vx vy vz]. pose proof (TM _ _ _ _ (prod_le _ _ _ _ A2 A5) (prod_le _ _ _ _ A3 L2)). pose proof (TM _ _ _ _ (prod_le _ _ _ _ A2 A3) (prod_le _ _ _ _ A5 L1)). pose proof (TM _ _ _ _ (prod_le _ _ _ _ L1 L2) (prod_le _ _ _ _ A2 A2)). lra. }
  assert (N2 : norm1_3 (choice2 A l) <= 27 * (B * B)).
  { unfold norm1_3, choice2. cbn [vx vy vz]. pose proof (TP _ _ _ _ (prod_le _ _ _ _ A2 L3') (prod_le _ _ _ _ A5 A3)). pose proof (TM _ _ _ _ (prod_le _ _ _ _ L1' L3') (prod_le _ _ _ _ A3 A3)). pose proof (TP _ _ _ _ (prod_le _ _ _ _ A5 L1') (prod_le _ _ _ _ A2 A3)). lra. }
  assert (N3 : norm1_3 (choice3 A l) <= 27 * (B * B)).
  { unfold norm1_3, choice3. cbn [vx vy vz]. pose proof (TM _ _ _ _ (prod_le _ _ _ _ L2' L3') (prod_le _ _ _ _ A5 A5)). pose proof (TP _ _ _ _ (prod_le _ _ _ _ A2 L3') (prod_le _ _ _ _ A5 A3)). pose proof (TP _ _ _ _ (prod_le _ _ _ _ A3 L2') (prod_le _ _ _ _ A5 A2)). lra. }
  assert (Ad : forall u v, norm1_3 (add3 u v) <= norm1_3 u + norm1_3 v). { intros u v. unfold norm1_3, add3. cbn [vx vy vz]. pose proof (Rabs_triang (vx u) (vx v)). pose proof (Rabs_triang (vy u) (vy v)). pose proof (Rabs_triang (vz u) (vz v)). lra. }
  assert (BB : 0 <= B * B) by (exact (Rle_0_sqr B)). pose proof (Ad (choice1 A l) (choice2 A l)). pose proof (Ad (add3 (choice1 A l) (choice2 A l)) (choice3 A l)).
  unfold raw_vector. destruct (R_ltb (norm1_3 (choice1 A l)) eps) eqn:T; [|rewrite T; lra]. destruct (R_ltb (norm1_3 (add3 (choice1 A l) (choice2 A l))) eps); lra.
Qed.
Lemma root_bound A e0 e1 e2 l B : (forall x, (e0 - x) * (e1 - x) * (e2 - x) = charp A x) -> 0 <= B ->
  Rabs (a11 A) <= B -> Rabs (a12 A) <= B -> Rabs (a13 A) <= B -> Rabs (a22 A) <= B -> Rabs (a23 A) <= B -> Rabs (a33 A) <= B -> charp A l = 0 -> Rabs l <= 3 * B.
Proof.
  intros H PB A1 A2 A3 A4 A5 A6 Z. destruct (vieta A e0 e1 e2 H) as (V1 & V2). rewrite <- H in Z.
  assert (SS : e0 * e0 + e1 * e1 + e2 * e2 = a11 A * a11 A + a22 A * a22 A + a33 A * a33 A + 2 * (a12 A * a12 A + a13 A * a13 A + a23 A * a23 A)).
  { transitivity ((e0 + e1 + e2) * (e0 + e1 + e2) - 2 * (e0 * e1 + e0 * e2 + e1 * e2)); [ring|]. rewrite V1, V2. ring. }
  assert (Sq : forall x, Rabs x <= B -> x * x <= B * B). { intros x Hx. assert (x * x = Rabs x * Rabs x) by (rewrite <- Rabs_mult; symmetry; apply Rabs_right; apply Rle_ge; exact (Rle_0_sqr x)). rewrite H0. apply Rmult_le_compat; auto using Rabs_pos. }
  pose proof (Sq _ A1). pose proof (Sq _ A2). pose proof (Sq _ A3). pose proof (Sq _ A4). pose proof (Sq _ A5). pose proof (Sq _ A6).
  pose proof (Rle_0_sqr e0) as Q0. pose proof (Rle_0_sqr e1) as Q1. pose proof (Rle_0_sqr e2) as Q2. unfold Rsqr in *.
  assert (LL : l * l <= 9 * (B * B)). { apply Rmult_integral in Z. destruct Z as [Z|Z]; [apply Rmult_integral in Z; destruct Z as [Z|Z]|]; [replace l with e0 by lra|replace l with e1 by lra|replace l with e2 by lra]; lra. }
  assert (LL' : Rsqr l <= Rsqr (3 * B)) by (unfold Rsqr; lra). apply Rsqr_le_abs_0 in LL'. rewrite (Rabs_right (3 * B)) in LL' by lra. exact LL'.
Qed.
