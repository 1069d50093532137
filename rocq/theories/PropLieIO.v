(** * C96: text output of rotations, rigid and similarity transforms and SL matrices read back. *)
From Coq Require Import Reals Lra Lia Psatz List Arith.
From Verif Require Import Base Alg Mat SpecMat LemMat Inst ModelFill ModelLie SpecLie LemLie LemSO3 PropSO3 ModelSE ModelSim ModelSL SpecLin LemOps LemHelpers LemChol LemDet LemSL PropSL SpecFl LemFl SpecFlSO3 LemFro ModelFlSO3 LemFlSO3b LemFlSO3d PropFlSO3 ModelLieIO SpecLieIO.
Import ListNotations.
Open Scope outcome_scope. Open Scope bool_scope.
Local Open Scope R_scope.

(** ** coerce on a multiple of a rotation *)
Lemma unit3_scaled s a : s <> 0 -> dot3 a a = 1 -> unit3 (scale3 s a) = Ok (scale3 (s / Rabs s) a).
Proof.
  intros S A. unfold unit3. replace (dot3 (scale3 s a) (scale3 s a)) with (Rsqr s * dot3 a a) by (unfold Rsqr; dv; lie_unfold; ring). rewrite A, Rmult_1_r, sqrt_Rsqr_abs.
  rewrite Rdiv_ok by (apply Rabs_no_R0, S). cbn [bind]. f_equal. unfold scale3. cbn [vx vy vz]. f_equal; field; apply Rabs_no_R0, S.
Qed.
Lemma unit2_scaled s a : s <> 0 -> dot2 a a = 1 -> unit2 (scale2 s a) = Ok (scale2 (s / Rabs s) a).
Proof.
  intros S A. unfold unit2. replace (dot2 (scale2 s a) (scale2 s a)) with (Rsqr s * dot2 a a) by (unfold Rsqr, dot2, scale2; cbn [ux uy]; ring). rewrite A, Rmult_1_r, sqrt_Rsqr_abs.
  rewrite Rdiv_ok by (apply Rabs_no_R0, S). cbn [bind]. f_equal. unfold scale2. cbn [ux uy]. f_equal; field; apply Rabs_no_R0, S.
Qed.
Definition scaleM (s : R) (m : M3) : M3 := mkM (scale3 s (r0 m)) (scale3 s (r1 m)) (scale3 s (r2 m)).
Lemma coerce_scaled s m : 0 < s -> rotation m -> so3_coerce (scaleM s m) = Ok m.
Proof.
  intros S [(A & B & C & D & E & G) Hd]. destruct m as [a b c]. cbn [r0 r1 r2] in *. unfold so3_coerce, scaleM. cbn [r0 r1 r2].
  assert (K : s / Rabs s = 1) by (rewrite Rabs_right by lra; field; lra).
  assert (U : forall v, dot3 v v = 1 -> unit3 (scale3 s v) = Ok v) by (intros v V; rewrite unit3_scaled by lra; rewrite K, scale3_1; reflexivity).
  assert (Z : forall x y k, k = 0 -> sub3 x (scale3 k y) = x) by (intros x y k ->; clear; dv; lie_unfold; f_equal; ring).
  assert (Q : forall x y, dot3 x y = 0 -> dot3 x (scale3 s y) = 0) by (intros x y H; rewrite dot3_scale_r, H; ring).
  rewrite (U a A). cbn [bind]. rewrite (Z _ _ _ (Q _ _ D)), (U b B). cbn [bind].
  rewrite (Z _ _ _ (Q _ _ E)), (Z _ _ _ (Q _ _ G)), (U c C). cbn [bind]. rewrite det3_rows, Hd. unfold assert_. rewrite (proj2 (R_ltb_spec 0 1)) by lra. reflexivity.
Qed.
Lemma coerce_scaled_neg s m : s < 0 -> rotation m -> so3_coerce (scaleM s m) = Abort DAssert.
Proof.
  intros S [_ D]. assert (E : det3 (scaleM s m) = s * s * s * det3 m) by (clear; dv; unfold scaleM; lie_unfold; ring). rewrite D in E.
  assert (N3 : s * s * s < 0) by (assert (0 < s * s) by nra; nra).
  destruct (coerce_cases (scaleM s m)) as [[_ H]|(q & _ & _ & [[H _]|[_ [_ H]]])]; [exfalso; lra|exfalso; lra|exact H].
Qed.
Lemma so2_coerce_scaled s m : s <> 0 -> orthonormal2 m -> so2_coerce (mkM2 (scale2 s (s0 m)) (scale2 s (s1 m))) = Ok (mkM2 (scale2 (s / Rabs s) (s0 m)) (scale2 (s / Rabs s) (s1 m))).
Proof.
  intros S (A & B & D). unfold so2_coerce. cbn [s0 s1]. rewrite unit2_scaled by assumption. cbn [bind].
  replace (dot2 (scale2 (s / Rabs s) (s0 m)) (scale2 s (s1 m))) with (s / Rabs s * s * dot2 (s0 m) (s1 m)) by (unfold dot2, scale2; cbn [ux uy]; ring).
  rewrite D, Rmult_0_r. replace (sub2 (scale2 s (s1 m)) (scale2 0 (scale2 (s / Rabs s) (s0 m)))) with (scale2 s (s1 m)) by (unfold sub2, scale2; cbn [ux uy]; f_equal; ring).
  rewrite unit2_scaled by assumption. reflexivity.
Qed.
Lemma scaleM_1 m : scaleM 1 m = m.
Proof. destruct m as [a b c]. unfold scaleM. cbn [r0 r1 r2]. rewrite !scale3_1. reflexivity. Qed.
Lemma scale2_1 v : scale2 1 v = v.
Proof. destruct v as [a b]. unfold scale2. cbn [ux uy]. f_equal; ring. Qed.

Section S.
Variables (show : R -> text) (parse : text -> option (R * text)) (pad : R -> nat).
Notation emit := (emit show pad).
Notation take := (take parse).
Notation ex := (exact_text show parse).
Notation ex3 := (exact3 show parse).
Notation ex2 := (exact2 show parse).
Notation exM := (exactM show parse).
Notation exM2 := (exactM2 show parse).

Lemma take_blank old c t : is_white c = true -> take old (Some (c :: t)) = take old (Some t).
Proof. intros H. unfold ModelLieIO.take, extract. cbn [skip_white]. rewrite H. reflexivity. Qed.
Lemma take_ok old x y c t : reads_as show parse x y -> is_white c = true -> take old (Some (emit x ++ c :: t)) = (y, Some (c :: t)).
Proof.
  intros [(d & t' & E & W) P] H. unfold ModelFill.emit. induction (pad x) as [|n IH]; cbn [repeat app].
  - unfold ModelLieIO.take, extract. specialize (P (c :: t) ltac:(right; eauto)). rewrite E in P |- *. cbn [app skip_white] in P |- *. rewrite W, P. reflexivity.
  - rewrite take_blank by reflexivity. exact IH.
Qed.
Definition lead (w : text) : Prop := w = [] \/ w = [Blank] \/ w = [Newline].
Lemma take_lead old w x y c t : lead w -> reads_as show parse x y -> is_white c = true -> take old (Some (w ++ emit x ++ c :: t)) = (y, Some (c :: t)).
Proof. intros [->|[->| ->]] H W; cbn [app]; [|rewrite take_blank by reflexivity..]; apply take_ok; assumption. Qed.
(** reading three numbers, and the number after them *)
Definition reads3 (v w : V3) : Prop := reads_as show parse (vx v) (vx w) /\ reads_as show parse (vy v) (vy w) /\ reads_as show parse (vz v) (vz w).
Lemma take3_row old w v v' t : lead w -> reads3 v v' -> take3 parse old (Some (w ++ row3_text show pad v ++ t)) = (v', Some (Newline :: t)).
Proof.
  intros L (X & Y & Z). unfold row3_text, take3. rewrite <- !app_assoc. cbn [app]. rewrite (take_lead _ w _ _ _ _ L X) by reflexivity. rewrite take_blank by reflexivity. rewrite (take_ok _ _ _ _ _ Y) by reflexivity.
  rewrite take_blank by reflexivity. rewrite (take_ok _ _ _ _ _ Z) by reflexivity. destruct v'. reflexivity.
Qed.
Lemma take3_row0 old v v' t : reads3 v v' -> take3 parse old (Some (row3_text show pad v ++ t)) = (v', Some (Newline :: t)).
Proof. exact (take3_row old [] v v' t (or_introl eq_refl)). Qed.
Lemma take3_rowN old v v' t : reads3 v v' -> take3 parse old (Some (Newline :: row3_text show pad v ++ t)) = (v', Some (Newline :: t)).
Proof. exact (take3_row old [Newline] v v' t (or_intror (or_intror eq_refl))). Qed.
Lemma take3_vec old w v v' t : lead w -> reads3 v v' -> take3 parse old (Some (w ++ vec3_text show pad v ++ t)) = (v', Some (Blank :: t)).
Proof.
  intros L (X & Y & Z). unfold vec3_text, take3. rewrite <- !app_assoc. cbn [app]. rewrite (take_lead _ w _ _ _ _ L X) by reflexivity. rewrite take_blank by reflexivity. rewrite (take_ok _ _ _ _ _ Y) by reflexivity.
  rewrite take_blank by reflexivity. rewrite (take_ok _ _ _ _ _ Z) by reflexivity. destruct v'. reflexivity.
Qed.
Lemma so3_text_read m m' coerce old rest : reads3 (r0 m) (r0 m') -> reads3 (r1 m) (r1 m') -> reads3 (r2 m) (r2 m') ->
  so3_read parse coerce old (Some (so3_text show pad m ++ rest)) = (q <- coerce m' ;; Ok (q, Some (Newline :: rest))).
Proof.
  intros A B C. unfold so3_read, so3_text. rewrite <- !app_assoc. rewrite (take3_row0 _ _ _ _ A), (take3_rowN _ _ _ _ B), (take3_rowN _ _ _ _ C). destruct m'. reflexivity.
Qed.
Lemma line_read old o w v v' x x' t : lead w -> reads3 v v' -> reads_as show parse x x' ->
  (let '(a, s) := take3 parse old (Some (w ++ se3_line show pad v x ++ t)) in let '(b, s) := take o s in (a, b, s)) = (v', x', Some (Newline :: t)).
Proof. intros L V X. unfold se3_line. rewrite <- !app_assoc. rewrite (take3_vec _ _ _ _ _ L V). rewrite take_blank by reflexivity. cbn [app]. rewrite (take_ok _ _ _ _ _ X) by reflexivity. reflexivity. Qed.
Lemma se3_take_ok m m' t t' old o rest a b c x y z : m = mkM a b c -> t = mk3 x y z -> reads3 a (r0 m') -> reads3 b (r1 m') -> reads3 c (r2 m') -> reads3 t t' ->
  se3_take parse old o (Some ((se3_line show pad a x ++ se3_line show pad b y ++ se3_line show pad c z) ++ rest)) = (m', t', Some (Newline :: rest)).
Proof.
  intros -> -> A B C (X & Y & Z). cbn [vx vy vz] in X, Y, Z. unfold se3_take. rewrite <- !app_assoc.
  pose proof (line_read (r0 old) (vx o) [] a (r0 m') x (vx t') (se3_line show pad b y ++ se3_line show pad c z ++ rest) (or_introl eq_refl) A X) as L1. cbn [app] in L1.
  destruct (take3 parse (r0 old) _) as [a' s1] eqn:E1. destruct (take (vx o) s1) as [x' s2] eqn:E2. injection L1 as -> -> ->.
  pose proof (line_read (r1 old) (vy o) [Newline] b (r1 m') y (vy t') (se3_line show pad c z ++ rest) (or_intror (or_intror eq_refl)) B Y) as L1. cbn [app] in L1.
  destruct (take3 parse (r1 old) _) as [b' s3] eqn:E3. destruct (take (vy o) s3) as [y' s4] eqn:E4. injection L1 as -> -> ->.
  pose proof (line_read (r2 old) (vz o) [Newline] c (r2 m') z (vz t') rest (or_intror (or_intror eq_refl)) C Z) as L1. cbn [app] in L1.
  destruct (take3 parse (r2 old) _) as [c' s5] eqn:E5. destruct (take (vz o) s5) as [z' s6] eqn:E6. injection L1 as -> -> ->.
  destruct m', t'. reflexivity.
Qed.
Lemma take2_row old w v t : lead w -> ex2 v -> take2 parse old (Some (w ++ row2_text show pad v ++ t)) = (v, Some (Newline :: t)).
Proof.
  intros L (X & Y). unfold row2_text, take2. rewrite <- !app_assoc. cbn [app]. rewrite (take_lead _ w _ _ _ _ L X) by reflexivity. rewrite take_blank by reflexivity. rewrite (take_ok _ _ _ _ _ Y) by reflexivity. destruct v. reflexivity.
Qed.
Lemma take2_row0 old v t : ex2 v -> take2 parse old (Some (row2_text show pad v ++ t)) = (v, Some (Newline :: t)).
Proof. exact (take2_row old [] v t (or_introl eq_refl)). Qed.
Lemma take2_rowN old v t : ex2 v -> take2 parse old (Some (Newline :: row2_text show pad v ++ t)) = (v, Some (Newline :: t)).
Proof. exact (take2_row old [Newline] v t (or_intror (or_intror eq_refl))). Qed.
Lemma take2_line old o w v x t : lead w -> ex2 v -> ex x ->
  (let '(a, s) := take2 parse old (Some (w ++ se2_line show pad v x ++ t)) in let '(b, s) := take o s in (a, b, s)) = (v, x, Some (Newline :: t)).
Proof.
  intros L (X & Y) T. unfold se2_line, vec2_text, take2. rewrite <- !app_assoc. cbn [app]. rewrite (take_lead _ w _ _ _ _ L X) by reflexivity. rewrite take_blank by reflexivity. rewrite (take_ok _ _ _ _ _ Y) by reflexivity.
  rewrite take_blank by reflexivity. rewrite (take_ok _ _ _ _ _ T) by reflexivity. destruct v. reflexivity.
Qed.
Lemma se2_take_ok a b t old o rest : ex2 a -> ex2 b -> ex2 t ->
  se2_take parse old o (Some ((se2_line show pad a (ux t) ++ se2_line show pad b (uy t)) ++ rest)) = (mkM2 a b, t, Some (Newline :: rest)).
Proof.
  intros A B (X & Y). unfold se2_take. rewrite <- !app_assoc.
  pose proof (take2_line (s0 old) (ux o) [] a (ux t) (se2_line show pad b (uy t) ++ rest) (or_introl eq_refl) A X) as L1. cbn [app] in L1.
  destruct (take2 parse (s0 old) _) as [a' z1] eqn:E1. destruct (take (ux o) z1) as [x' z2] eqn:E2. injection L1 as -> -> ->.
  pose proof (take2_line (s1 old) (uy o) [Newline] b (uy t) rest (or_intror (or_intror eq_refl)) B Y) as L1. cbn [app] in L1.
  destruct (take2 parse (s1 old) _) as [b' z3] eqn:E3. destruct (take (uy o) z3) as [y' z4] eqn:E4. injection L1 as -> -> ->. destruct t. reflexivity.
Qed.

(** ** an object whose numbers have exact text reads back as itself; the rest of the stream is left for the next read *)
Theorem C96_so3 m old rest : rotation m -> exM m -> so3_read parse so3_coerce old (Some (so3_text show pad m ++ rest)) = Ok (m, Some (Newline :: rest)).
Proof. intros H (A & B & C). rewrite (so3_text_read m m) by assumption. rewrite (coerce_rotation m H). reflexivity. Qed.
Theorem C96_se3 T old rest : rotation (rot T) -> exM (rot T) -> ex3 (trans T) -> se3_read parse so3_coerce old (Some (se3_text show pad T ++ rest)) = Ok (T, Some (Newline :: rest)).
Proof.
  intros H (A & B & C) E. unfold se3_read, se3_text. rewrite (se3_take_ok (rot T) (rot T) (trans T) (trans T)) by (try assumption; destruct (rot T), (trans T); reflexivity).
  rewrite (coerce_rotation _ H). cbn [bind]. destruct T. reflexivity.
Qed.
Theorem C96_sim3 T old rest : rotation (mrot T) -> 0 < mscl T -> exM (scaleM (mscl T) (mrot T)) -> ex3 (mtrans T) ->
  sim3_read parse so3_coerce old (Some (sim3_text show pad T ++ rest)) = Ok (T, Some (Newline :: rest)).
Proof.
  intros H S (A & B & C) E. unfold sim3_read, sim3_text. rewrite (se3_take_ok (scaleM (mscl T) (mrot T)) (scaleM (mscl T) (mrot T)) (mtrans T) (mtrans T)) by (try assumption; destruct (mtrans T); reflexivity).
  rewrite (coerce_scaled _ _ S H). cbn [bind]. destruct H as [(X & Y & Z & _) _].
  assert (N : forall v, dot3 v v = 1 -> sqrt (dot3 (scale3 (mscl T) v) (scale3 (mscl T) v)) = mscl T).
  { intros v V. replace (dot3 (scale3 (mscl T) v) (scale3 (mscl T) v)) with (mscl T * mscl T * dot3 v v) by (clear; dv; lie_unfold; ring). rewrite V, Rmult_1_r. apply sqrt_square. lra. }
  unfold scaleM. cbn [r0 r1 r2]. rewrite !N by assumption. destruct T as [m t k]. cbn [mrot mtrans mscl]. do 3 f_equal. field.
Qed.
Theorem C96_so2 m old rest : orthonormal2 m -> exM2 m -> so2_read parse old (Some (so2_text show pad m ++ rest)) = Ok (m, Some (Newline :: rest)).
Proof.
  intros H (A & B). unfold so2_read, so2_text. rewrite <- !app_assoc.
  rewrite (take2_row0 _ _ _ A), (take2_rowN _ _ _ B). pose proof (so2_coerce_scaled 1 m ltac:(lra) H) as E. rewrite Rabs_R1 in E. replace (1 / 1) with 1 in E by field. rewrite !scale2_1 in E. rewrite E. cbn [bind]. destruct m. reflexivity.
Qed.
Theorem C96_se2 T old rest : orthonormal2 (rot2 T) -> exM2 (rot2 T) -> ex2 (trans2 T) -> se2_read parse old (Some (se2_text show pad T ++ rest)) = Ok (T, Some (Newline :: rest)).
Proof.
  intros H (A & B) E. unfold se2_read, se2_text. rewrite (se2_take_ok _ _ _ _ _ _ A B E). pose proof (so2_coerce_scaled 1 _ ltac:(lra) H) as K. rewrite Rabs_R1 in K. replace (1 / 1) with 1 in K by field. rewrite !scale2_1 in K. rewrite K. cbn [bind]. destruct T as [[] ?]. reflexivity.
Qed.
(** a negative scale comes back as the same transformation: positive scale, rotation by another half turn *)
Theorem C96_sim2 T old rest : rotation2 (mrot2 T) -> mscl2 T <> 0 -> ex2 (scale2 (mscl2 T) (s0 (mrot2 T))) -> ex2 (scale2 (mscl2 T) (s1 (mrot2 T))) -> ex2 (mtrans2 T) ->
  exists T', sim2_read parse old (Some (sim2_text show pad T ++ rest)) = Ok (T', Some (Newline :: rest)) /\ rotation2 (mrot2 T') /\ mscl2 T' = Rabs (mscl2 T) /\
    (forall p, sim2_act T' p = sim2_act T p) /\ (0 < mscl2 T -> T' = T).
Proof.
  intros H S A B E. unfold sim2_read, sim2_text. rewrite (se2_take_ok _ _ _ _ _ _ A B E). cbn [s0 s1]. pose proof H as [(X & Y & Z) D]. rewrite (so2_coerce_scaled _ _ S (proj1 H)). cbn [bind].
  assert (N : forall v, dot2 v v = 1 -> sqrt (dot2 (scale2 (mscl2 T) v) (scale2 (mscl2 T) v)) = Rabs (mscl2 T)).
  { intros v V. replace (dot2 (scale2 (mscl2 T) v) (scale2 (mscl2 T) v)) with (Rsqr (mscl2 T) * dot2 v v) by (unfold Rsqr, dot2, scale2; cbn [ux uy]; ring). rewrite V, Rmult_1_r. apply sqrt_Rsqr_abs. }
  rewrite !N by assumption. set (k := mscl2 T) in *. set (e := k / Rabs k). assert (Ak : Rabs k <> 0) by (apply Rabs_no_R0, S). assert (E1 : e * Rabs k = k) by (unfold e; field; exact Ak).
  assert (E2 : e * e = 1). { unfold e. replace (k / Rabs k * (k / Rabs k)) with (k * k / (Rabs k * Rabs k)) by (field; exact Ak). rewrite <- Rabs_mult, Rabs_right by nra. field. exact S. }
  eexists. split; [reflexivity|]. cbn [mrot2 mscl2]. split; [|split; [field|split]].
  - destruct (mrot2 T) as [[a b] [c d]]. unfold rotation2, orthonormal2, det2, dot2, scale2 in *. cbn [s0 s1 ux uy] in *.
    repeat split; match goal with |- ?l = ?r => replace l with (e * e * r) by nra; rewrite E2; ring end.
  - intros p. unfold sim2_act, so2_act, mv2. cbn [mrot2 mtrans2 mscl2 s0 s1]. fold k. f_equal. unfold dot2, scale2. cbn [ux uy]. replace ((Rabs k + Rabs k) / 2) with (Rabs k) by field. f_equal; rewrite <- E1 at 3 4; unfold e; field; exact Ak.
  - intros P. assert (e = 1) as ->. { unfold e. rewrite Rabs_right by lra. field. lra. } rewrite Rabs_right by lra. rewrite !scale2_1. destruct T as [[a b] t0 k0]. unfold k. cbn [mrot2 mtrans2 mscl2 s0 s1]. f_equal. field.
Qed.
(** SIM3 prints the rotation times the scale, and a negative multiple of a rotation is no rotation *)
Theorem C96_sim3_negative_refuted T old rest : rotation (mrot T) -> mscl T < 0 -> exM (scaleM (mscl T) (mrot T)) -> ex3 (mtrans T) ->
  sim3_read parse so3_coerce old (Some (sim3_text show pad T ++ rest)) = Abort DAssert.
Proof.
  intros H S (A & B & C) E. unfold sim3_read, sim3_text. rewrite (se3_take_ok (scaleM (mscl T) (mrot T)) (scaleM (mscl T) (mrot T)) (mtrans T) (mtrans T)) by (try assumption; destruct (mtrans T); reflexivity).
  rewrite (coerce_scaled_neg _ _ S H). reflexivity.
Qed.
(** ** whatever the text: the result is a rotation, or the call stops *)
Theorem C96_any_text : (forall old s m s', so3_read parse so3_coerce old s = Ok (m, s') -> rotation m) /\
  (forall old s T s', se3_read parse so3_coerce old s = Ok (T, s') -> rotation (rot T)) /\
  (forall old s T s', sim3_read parse so3_coerce old s = Ok (T, s') -> rotation (mrot T) /\ 0 < mscl T).
Proof.
  assert (K : forall m q, so3_coerce m = Ok q -> rotation q /\ 0 < det3 m).
  { intros m q E. destruct (coerce_cases m) as [[H _]|(p & O & _ & [(P & D & H)|(_ & _ & H)])]; rewrite H in E; try discriminate. injection E as <-. split; [split; assumption|exact P]. }
  assert (B : forall X (o : outcome M3) (f : M3 -> X) x, (m <- o ;; Ok (f m)) = Ok x -> exists m, o = Ok m /\ x = f m).
  { intros X o f x H. destruct o; cbn in H; try discriminate. injection H as <-. eauto. }
  split; [|split].
  - intros old s m s' H. unfold so3_read in H. destruct (take3 parse (r0 old) s) as [a t1]. destruct (take3 parse (r1 old) t1) as [b t2]. destruct (take3 parse (r2 old) t2) as [c t3].
    apply B in H as (q & E & F). injection F as -> _. apply (K _ _ E).
  - intros old s T s' H. unfold se3_read in H. destruct (se3_take parse (rot old) (trans old) s) as [[m t] t1]. apply B in H as (q & E & F). injection F as -> _. apply (K _ _ E).
  - intros old s T s' H. unfold sim3_read in H. destruct (se3_take parse (mrot old) (mtrans old) s) as [[m t] t1]. apply B in H as (q & E & F). injection F as -> _. cbn [mrot mscl]. destruct (K _ _ E) as [Q D].
    split; [exact Q|]. assert (N : r0 m <> zero3) by (intros Z; destruct m as [a b c]; cbn [r0] in Z; subst a; revert D; clear; dv; lie_unfold; intros; lra).
    pose proof (len3_pos _ N) as P. unfold len3 in P. pose proof (sqrt_pos (dot3 (r1 m) (r1 m))). pose proof (sqrt_pos (dot3 (r2 m) (r2 m))). lra.
Qed.
(** reading where there is nothing left to read changes nothing *)
Theorem C96_exhausted t : exhausted parse t -> (forall m, rotation m -> so3_read parse so3_coerce m (Some t) = Ok (m, None)) /\
  (forall T, rotation (rot T) -> se3_read parse so3_coerce T (Some t) = Ok (T, None)) /\
  (forall m, orthonormal2 m -> so2_read parse m (Some t) = Ok (m, None)) /\
  (forall T, orthonormal2 (rot2 T) -> se2_read parse T (Some t) = Ok (T, None)).
Proof.
  intros X. unfold exhausted in X. assert (T0 : forall o, take o (Some t) = (o, None)) by (intros o; unfold ModelLieIO.take; rewrite X; reflexivity).
  assert (T1 : forall o, take o None = (o, None)) by reflexivity. split; [|split; [|split]].
  - intros m H. unfold so3_read, take3. rewrite T0, !T1. destruct m as [[x1 x2 x3] [x4 x5 x6] [x7 x8 x9]]. cbn [r0 r1 r2 vx vy vz] in *. rewrite (coerce_rotation _ H). reflexivity.
  - intros T H. unfold se3_read, se3_take, take3. rewrite T0, !T1. destruct T as [[[x1 x2 x3] [x4 x5 x6] [x7 x8 x9]] [y1 y2 y3]]. cbn [rot trans r0 r1 r2 vx vy vz] in *. rewrite (coerce_rotation _ H). reflexivity.
  - intros m H. unfold so2_read, take2. rewrite T0, !T1. destruct m as [[x1 x2] [x4 x5]]. cbn [s0 s1 ux uy] in *.
    pose proof (so2_coerce_scaled 1 _ ltac:(lra) H) as K. rewrite Rabs_R1 in K. replace (1 / 1) with 1 in K by field. rewrite !scale2_1 in K. cbn [s0 s1] in K. rewrite K. reflexivity.
  - intros T H. unfold se2_read, se2_take, take2. rewrite T0, !T1. destruct T as [[[x1 x2] [x4 x5]] [y1 y2]]. cbn [rot2 trans2 s0 s1 ux uy] in *.
    pose proof (so2_coerce_scaled 1 _ ltac:(lra) H) as K. rewrite Rabs_R1 in K. replace (1 / 1) with 1 in K by field. rewrite !scale2_1 in K. cbn [s0 s1] in K. rewrite K. reflexivity.
Qed.

(** but a similarity read where there is nothing left to read loses its scale *)
Theorem C96_sim_exhausted_refuted t : exhausted parse t -> (forall T, rotation (mrot T) -> sim3_read parse so3_coerce T (Some t) = Ok (mkSIM3 (mrot T) (mtrans T) 1, None)) /\
  (forall T, orthonormal2 (mrot2 T) -> sim2_read parse T (Some t) = Ok (mkSIM2 (mrot2 T) (mtrans2 T) 1, None)).
Proof.
  intros X. unfold exhausted in X. assert (T0 : forall o, take o (Some t) = (o, None)) by (intros o; unfold ModelLieIO.take; rewrite X; reflexivity).
  assert (T1 : forall o, take o None = (o, None)) by reflexivity. split.
  - intros T H. unfold sim3_read, se3_take, take3. rewrite T0, !T1. destruct T as [[[x1 x2 x3] [x4 x5 x6] [x7 x8 x9]] [y1 y2 y3] k]. cbn [mrot mtrans r0 r1 r2 vx vy vz] in *.
    rewrite (coerce_rotation _ H). destruct H as [(A & B & C & _) _]. cbn [r0 r1 r2] in A, B, C. rewrite A, B, C, sqrt_1. cbn [bind]. do 3 f_equal. field.
  - intros T H. unfold sim2_read, se2_take, take2. rewrite T0, !T1. destruct T as [[[x1 x2] [x4 x5]] [y1 y2] k]. cbn [mrot2 mtrans2 s0 s1 ux uy] in *.
    pose proof (so2_coerce_scaled 1 _ ltac:(lra) H) as K. rewrite Rabs_R1 in K. replace (1 / 1) with 1 in K by field. rewrite !scale2_1 in K. cbn [s0 s1] in K. rewrite K.
    destruct H as (A & B & _). cbn [s0 s1] in A, B. rewrite A, B, sqrt_1. cbn [bind]. do 3 f_equal. field.
Qed.
(** ** SL matrices *)
Definition cell (m : mat R) (i j : nat) : text := (if Nat.eqb j 0 then [] else [Blank]) ++ emit (mel m i j).
Definition cells (m : mat R) (i c k : nat) : text := flat_map (cell m i) (seq c k).
Definition rows (m : mat R) (n r k : nat) : text := flat_map (fun i => cells m i 0 n ++ [Newline]) (seq r k).
Lemma flat_snoc {A} (f : nat -> list A) a k : flat_map f (seq a (S k)) = flat_map f (seq a k) ++ f (a + k)%nat.
Proof. rewrite seq_S, flat_map_app. cbn [flat_map]. rewrite app_nil_r. reflexivity. Qed.
Lemma row_text_eq m i : (i < mrows m)%nat -> sl_row_text show pad m i = Ok (cells m i 0 (mcols m) ++ [Newline]).
Proof.
  intros Hi. unfold sl_row_text.
  assert (W : wp (for_ 0 (mcols m) (fun j t => x <- mget m i j ;; Ok (t ++ (if Nat.eqb j 0 then [] else [Blank]) ++ emit x)) []) (fun t => t = cells m i 0 (mcols m))).
  { apply (wp_for (fun j t => t = cells m i 0 j)); [lia|reflexivity|]. intros j t Hj ->. rewrite mget_ok by lia. cbn [bind wp]. unfold cells. rewrite flat_snoc. reflexivity. }
  destruct (for_ _ _ _ _); cbn [wp] in W; try contradiction. subst. reflexivity.
Qed.
Lemma sl_text_eq m : sl_text show pad m = Ok (rows m (mcols m) 0 (mrows m)).
Proof.
  unfold sl_text.
  assert (W : wp (for_ 0 (mrows m) (fun i t => t' <- sl_row_text show pad m i ;; Ok (t ++ t')) []) (fun t => t = rows m (mcols m) 0 (mrows m))).
  { apply (wp_for (fun j t => t = rows m (mcols m) 0 j)); [lia|reflexivity|]. intros j t Hj ->. rewrite row_text_eq by lia. cbn [bind wp]. unfold rows. rewrite flat_snoc. reflexivity. }
  destruct (for_ _ _ _ _); cbn [wp] in W; try contradiction. subst. reflexivity.
Qed.
(** what is left of the stream before entry (r, c) is read *)
Definition left_ (m : mat R) (n : nat) (rest : text) (r c : nat) : text :=
  (if Nat.eqb c 0 && negb (Nat.eqb r 0) then [Newline] else []) ++ cells m r c (n - c) ++ Newline :: rows m n (S r) (n - S r) ++ rest.
Lemma take_cell m n rest r c old : (c < n)%nat -> ex (mel m r c) -> take old (Some (left_ m n rest r c)) = (mel m r c, Some (left_ m n rest r (S c))).
Proof.
  intros Hc E. unfold left_. replace (n - c)%nat with (S (n - S c)) by lia. unfold cells at 1. cbn [seq flat_map]. fold (cells m r (S c) (n - S c)). unfold cell.
  set (T := cells m r (S c) (n - S c) ++ Newline :: rows m n (S r) (n - S r) ++ rest). cbn [Nat.eqb andb app].
  assert (HT : exists d t, T = d :: t /\ is_white d = true).
  { unfold T. destruct (n - S c)%nat; [exists Newline; eexists; split; reflexivity|]. unfold cells. cbn [seq flat_map]. unfold cell at 1. cbn [Nat.eqb app]. exists Blank. eexists. split; reflexivity. }
  destruct HT as (d & t & HT & W).
  replace ((if (c =? 0)%nat && negb (r =? 0)%nat then [Newline] else []) ++ (((if (c =? 0)%nat then [] else [Blank]) ++ emit (mel m r c)) ++ cells m r (S c) (n - S c)) ++ Newline :: rows m n (S r) (n - S r) ++ rest)
    with (((if (c =? 0)%nat && negb (r =? 0)%nat then [Newline] else []) ++ (if (c =? 0)%nat then [] else [Blank])) ++ emit (mel m r c) ++ T) by (unfold T; rewrite <- !app_assoc; reflexivity).
  rewrite HT. apply take_lead; [|exact E|exact W]. unfold lead. destruct (c =? 0)%nat, (r =? 0)%nat; cbn [andb negb app]; auto.
Qed.
Theorem C96_sl N m old rest : (1 <= N)%nat -> mrows m = N -> mcols m = N -> mrows old = N -> mcols old = N -> det N (mel m) = 1 ->
  (forall i j, (i < N)%nat -> (j < N)%nat -> ex (mel m i j)) ->
  exists t C, sl_text show pad m = Ok t /\ sl_read parse N old (Some (t ++ rest)) = Ok (C, Some (Newline :: rest)) /\ mat_is C N N (mel m).
Proof.
  intros HN M1 M2 O1 O2 D E. rewrite sl_text_eq, M1, M2. exists (rows m N 0 N). unfold sl_read.
  assert (W : wp (for_ 0 (mrows old) (fun r st => for_ 0 (mcols old) (fun c st =>
     x <- mget (fst st) r c ;; let '(y, s) := take x (snd st) in m <- mset (fst st) r c y ;; Ok (m, s)) st) (old, Some (rows m N 0 N ++ rest)))
     (fun st => mrows (fst st) = N /\ mcols (fst st) = N /\ (forall i j, (i < N)%nat -> (j < N)%nat -> mel (fst st) i j = mel m i j) /\ snd st = Some (Newline :: rest))).
  { rewrite O1, O2.
    apply wp_mono with (P := fun st : mat R * option text => mrows (fst st) = N /\ mcols (fst st) = N /\ (forall i j, (i < N)%nat -> (j < N)%nat -> mel (fst st) i j = mel m i j) /\ snd st = Some ((if (N =? 0)%nat then [] else [Newline]) ++ rows m N N (N - N) ++ rest)).
    2:{ intros st (A & B & C & S). do 3 (split; [assumption|]). etransitivity; [exact S|]. rewrite Nat.sub_diag. destruct N; [lia|]. reflexivity. }
    apply (wp_for (fun r st => mrows (fst st) = N /\ mcols (fst st) = N /\ (forall i j, (i < r)%nat -> (j < N)%nat -> mel (fst st) i j = mel m i j) /\
      snd st = Some ((if (r =? 0)%nat then [] else [Newline]) ++ rows m N r (N - r) ++ rest))); [lia| |].
    - cbn [fst snd]. do 2 (split; [assumption|]). split; [intros; lia|]. cbn [Nat.eqb app]. rewrite Nat.sub_0_r. reflexivity.
    - intros r st Hr (A & B & C & S).
      apply wp_mono with (P := fun st : mat R * option text => mrows (fst st) = N /\ mcols (fst st) = N /\ (forall i j, (i < r \/ i = r /\ j < N)%nat -> (j < N)%nat -> mel (fst st) i j = mel m i j) /\ snd st = Some (left_ m N rest r N)).
      2:{ intros st' (A' & B' & C' & S'). do 2 (split; [assumption|]). split; [intros i j Hi Hj; apply C'; lia|]. etransitivity; [exact S'|]. unfold left_. rewrite Nat.sub_diag. replace (N =? 0)%nat with false by (symmetry; apply Nat.eqb_neq; lia). reflexivity. }
      apply (wp_for (fun c st => mrows (fst st) = N /\ mcols (fst st) = N /\ (forall i j, (i < r \/ i = r /\ j < c)%nat -> (j < N)%nat -> mel (fst st) i j = mel m i j) /\ snd st = Some (left_ m N rest r c))); [lia| |].
      + do 2 (split; [assumption|]). split; [intros i j [H|H] Hj; [apply C; lia|lia]|]. etransitivity; [exact S|]. unfold left_. rewrite Nat.eqb_refl, Nat.sub_0_r.
        replace (N - r)%nat with (Datatypes.S (N - Datatypes.S r)) by lia. unfold rows at 1. cbn [seq flat_map]. fold (rows m N (Datatypes.S r) (N - Datatypes.S r)). rewrite <- !app_assoc. destruct (r =? 0)%nat; reflexivity.
      + intros c st' Hc (A' & B' & C' & S'). rewrite mget_ok by lia. cbn [bind]. rewrite S', take_cell by (try lia; apply E; lia). rewrite mset_ok by lia. cbn [bind wp fst snd mrows mcols mel].
        do 2 (split; [assumption|]). split; [|reflexivity]. intros i j Hi Hj. destruct ((i =? r)%nat && (j =? c)%nat) eqn:K.
        * apply andb_prop in K as [K1 K2]. apply Nat.eqb_eq in K1, K2. subst. reflexivity.
        * apply C'; [|exact Hj]. apply Bool.andb_false_iff in K as [K|K]; apply Nat.eqb_neq in K; lia. }
  destruct (for_ _ _ _ _) as [[m' s']| | | | |]; cbn [wp] in W; try contradiction. cbn [fst snd] in W. destruct W as (A & B & C & ->). cbn [bind].
  assert (D' : det N (mel m') = 1) by (rewrite <- D; apply det_ext; exact C).
  destruct (proj1 (C75_coerce N m' HN A B) ltac:(cbn [f1 ROps] in D'; lra)) as (k & Q & K & EQ & (Q1 & Q2 & Q3) & DQ). rewrite EQ. cbn [bind].
  assert (k = 1).
  { rewrite (det_ext N _ (fun i j => k * mel m' i j)) in DQ by exact Q3. rewrite det_scale, D' in DQ. cbn [f1 ROps] in DQ. rewrite Rmult_1_r in DQ.
    destruct (Rtotal_order k 1) as [L|[L|L]]; [|exact L|]; exfalso.
    - pose proof (pow_lt_1_compat k N ltac:(lra) ltac:(lia)). lra.
    - pose proof (Rlt_pow_R1 k N ltac:(lra) ltac:(lia)). lra. }
  subst k. exists Q. split; [reflexivity|]. split; [reflexivity|]. split; [exact Q1|]. split; [exact Q2|]. intros i j Hi Hj. rewrite Q3, C by assumption. ring.
Qed.

(** ** text of limited precision, and coerce() in floating point *)
Section Rounded.
Variables (u : R) (rnd : R -> R) (eps : R).
Hypothesis RN : rounding u rnd.
Hypothesis U : u <= 1 / 6800.
Hypothesis TP : text_precision show parse eps.
Lemma near3 v : exists w, reads3 v w /\ len3 (sub3 w v) <= eps * len3 v.
Proof.
  destruct (TP (vx v)) as (x & X & EX). destruct (TP (vy v)) as (y & Y & EY). destruct (TP (vz v)) as (z & Z & EZ). exists (mk3 x y z). split; [split; [exact X|split; [exact Y|exact Z]]|].
  assert (P : 0 <= eps). { destruct (TP 1) as (y1 & _ & E1). rewrite Rabs_R1 in E1. pose proof (Rabs_pos (y1 - 1)). lra. }
  replace (eps * len3 v) with (len3 (scale3 eps v)) by (rewrite len3_sc, Rabs_right by lra; reflexivity).
  apply len3_comp; unfold sub3, scale3; cbn [vx vy vz]; rewrite Rabs_mult, (Rabs_right eps) by lra; assumption.
Qed.
Lemma nearM m : exists m', reads3 (r0 m) (r0 m') /\ reads3 (r1 m) (r1 m') /\ reads3 (r2 m) (r2 m') /\ dist m' m <= eps * fro m.
Proof.
  destruct (near3 (r0 m)) as (a & A & EA). destruct (near3 (r1 m)) as (b & B & EB). destruct (near3 (r2 m)) as (c & C & EC). exists (mkM a b c). cbn [r0 r1 r2]. do 3 (split; [assumption|]).
  assert (P : 0 <= eps). { destruct (TP 1) as (y1 & _ & E1). rewrite Rabs_R1 in E1. pose proof (Rabs_pos (y1 - 1)). lra. }
  unfold dist. rewrite (fro_rl m). replace (eps * len3 (rl m)) with (len3 (scale3 eps (rl m))) by (rewrite len3_sc, Rabs_right by lra; reflexivity).
  apply fro_le_v; cbn; assumption.
Qed.
Lemma near_rot q r d : rotation r -> dist q r <= d -> exists m, reads3 (r0 q) (r0 m) /\ reads3 (r1 q) (r1 m) /\ reads3 (r2 q) (r2 m) /\ dist m r <= d + 2 * eps * (1 + d).
Proof.
  intros Q D. destruct (nearM q) as (m & A & B & C & E). exists m. do 3 (split; [assumption|]). pose proof (fro_near q r d Q D) as F. pose proof (fro_nonneg q). pose proof (dist_nonneg q r).
  assert (P : 0 <= eps). { destruct (TP 1) as (y1 & _ & E1). rewrite Rabs_R1 in E1. pose proof (Rabs_pos (y1 - 1)). lra. }
  assert (F2 : fro q <= 2 * (1 + d)) by (apply sq_le; nra). assert (eps * fro q <= eps * (2 * (1 + d))) by (apply Rmult_le_compat_l; assumption).
  pose proof (dist_tri m q r). lra.
Qed.
Theorem C96_rounded q r d old rest : rotation r -> dist q r <= d -> d + 2 * eps * (1 + d) <= 1 / 10 ->
  exists x, so3_read parse (fl_so3_coerce rnd) old (Some (so3_text show pad q ++ rest)) = Ok (x, Some (Newline :: rest)) /\
    dist x r <= 62 * (d + 2 * eps * (1 + d)) + 652 * u /\ exists t, rotation t /\ dist x t <= 652 * u.
Proof.
  intros Q D L. destruct (near_rot q r d Q D) as (m & A & B & C & G). rewrite (so3_text_read q m) by assumption.
  destruct (C94_repair u rnd RN U m r _ Q G L) as (x & t & Ex & Rt & D1 & D2). rewrite Ex. cbn [bind]. exists x. split; [reflexivity|]. split; [|exists t; split; assumption].
  pose proof (dist_tri x t r). lra.
Qed.
Theorem C96_rounded_se3 T r d old rest : rotation r -> dist (rot T) r <= d -> d + 2 * eps * (1 + d) <= 1 / 10 ->
  exists X, se3_read parse (fl_so3_coerce rnd) old (Some (se3_text show pad T ++ rest)) = Ok (X, Some (Newline :: rest)) /\
    dist (rot X) r <= 62 * (d + 2 * eps * (1 + d)) + 652 * u /\ (exists t, rotation t /\ dist (rot X) t <= 652 * u) /\
    len3 (sub3 (trans X) (trans T)) <= eps * len3 (trans T).
Proof.
  intros Q D L. destruct (near_rot (rot T) r d Q D) as (m & A & B & C & G). destruct (near3 (trans T)) as (t & Rt & Et). unfold se3_read, se3_text.
  rewrite (se3_take_ok (rot T) m (trans T) t) by (try assumption; destruct (rot T), (trans T); reflexivity).
  destruct (C94_repair u rnd RN U m r _ Q G L) as (x & w & Ex & Rw & D1 & D2). rewrite Ex. cbn [bind]. exists (mkSE3 x t). split; [reflexivity|]. cbn [rot trans].
  split; [pose proof (dist_tri x w r); lra|]. split; [exists w; split; assumption|exact Et].
Qed.
End Rounded.
End S.

Print Assumptions C96_so3. Print Assumptions C96_se3. Print Assumptions C96_sim3. Print Assumptions C96_so2. Print Assumptions C96_se2. Print Assumptions C96_sim2.
Print Assumptions C96_sim3_negative_refuted. Print Assumptions C96_any_text. Print Assumptions C96_exhausted. Print Assumptions C96_sim_exhausted_refuted.
Print Assumptions C96_sl. Print Assumptions C96_rounded. Print Assumptions C96_rounded_se3.
