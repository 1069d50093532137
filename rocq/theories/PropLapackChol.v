(** * C82: Lapack_Cholesky. *)
From Coq Require Import Reals Arith Bool Lia Lra Psatz.
From Verif Require Import Base Alg Inst Mat SpecMat LemMat RSum ModelOps LemOps SpecLin LemLin LemHelpers LemDet LemDetMul LemDetMore SpecForm LemForm LemChol LemCholMore SpecExp RRect LemGR ModelLU SpecLU LemLU ModelLapackChol SpecLapackChol LemLapackChol LemLapackChol2.
Open Scope outcome_scope.
Local Open Scope R_scope.

Lemma usym_sym n a : symmetric n (usym a).
Proof. intros r c Hr Hc. unfold usym. destruct (Nat.leb_spec r c), (Nat.leb_spec c r); try reflexivity; try lia. replace c with r by lia. reflexivity. Qed.
Lemma usym_id n a r c : symmetric n a -> (r < n)%nat -> (c < n)%nat -> usym a r c = a r c.
Proof. intros H Hr Hc. unfold usym. destruct (Nat.leb_spec r c); [reflexivity|apply H; assumption]. Qed.
Lemma posdef_ext n a b : (forall r c, (r < n)%nat -> (c < n)%nat -> a r c = b r c) -> posdef n a -> posdef n b.
Proof.
  intros H [S P]. split.
  - intros r c Hr Hc. rewrite <- !H by assumption. apply S; assumption.
  - intros x Hx. specialize (P x Hx). apply R_ltb_spec. apply R_ltb_spec in P. unfold quad in *.
    erewrite S_ext; [exact P|]. intros i Hi. cbn beta. apply S_ext. intros j Hj. cbn beta. rewrite H by assumption. reflexivity.
Qed.
Lemma make_inv n A c : mrows A = n -> mcols A = n -> lc_make A = Ok c ->
  exists v, mis (lc_m c) n n (fun r j => if ((r <? n) && (j <? n))%bool then Lof v r j else mel A r j) /\ mis (lc_w c) n n v /\
   (lc_rank c = n /\ pot_eqs n n (mel A) v \/ (lc_rank c < n)%nat /\ pot_stop n (lc_rank c) (mel A) v).
Proof. intros H1 H2 E. destruct (make_ok n A H1 H2) as (c' & v & E' & H). rewrite E in E'. injection E' as <-. exists v. exact H. Qed.
Lemma full_inv n A c : mrows A = n -> mcols A = n -> lc_make A = Ok c -> posdef n (usym (mel A)) ->
  exists v, mis (lc_m c) n n (fun r j => if ((r <? n) && (j <? n))%bool then Lof v r j else mel A r j) /\ mis (lc_w c) n n v /\ lc_rank c = n /\ pot_eqs n n (mel A) v.
Proof.
  intros H1 H2 E P. destruct (make_inv n A c H1 H2 E) as (v & M1 & M2 & [[K F]|[K F]]); [exists v; split; [exact M1|]; split; [exact M2|]; split; [exact K|exact F]|].
  exfalso. exact (stop_not_posdef n (lc_rank c) (mel A) v K F P).
Qed.

(** A square matrix is always decomposed; rank() is n exactly when the symmetric matrix with A's upper triangle is positive definite,
    and otherwise it is the size of the largest positive definite leading block before the first one that is not. *)
Theorem C82_total : forall A : mat R, mrows A = mcols A -> exists c, lc_make A = Ok c /\ (lc_rank c <= mrows A)%nat /\ mrows (lc_get_L c) = mrows A /\ mcols (lc_get_L c) = mrows A.
Proof. intros A H. destruct (make_ok (mrows A) A eq_refl (eq_sym H)) as (c & v & E & (HR & C & _) & _ & [[K _]|[K _]]); exists c; (split; [exact E|split; [lia|split; assumption]]). Qed.
Lemma quad_one x a : quad 1 (usym a) x = x 0%nat * a 0%nat 0%nat * x 0%nat.
Proof. unfold quad, usym. cbn [sum Nat.leb]. cbn [f0 fadd fmul ROps]. ring. Qed.
Theorem C82_rank : forall n (A : mat R) c, mrows A = n -> mcols A = n -> lc_make A = Ok c ->
  (lc_rank c = n <-> posdef n (usym (mel A))) /\
  ((lc_rank c < n)%nat -> posdef (lc_rank c) (usym (mel A)) /\ ~ posdef (lc_rank c + 1) (usym (mel A))).
Proof.
  intros n A c H1 H2 E. destruct (make_inv n A c H1 H2 E) as (v & M1 & M2 & [[K F]|[K F]]).
  - split; [|lia]. split; [|intros _; exact K]. intros _. exact (proj1 (pot_posdef n (mel A) v F)).
  - split.
    + split; [lia|]. intros P. exfalso. exact (stop_not_posdef n (lc_rank c) (mel A) v K F P).
    + intros _. set (k := lc_rank c) in *. assert (F0 := F). destruct F0 as (Q & D & Z & _). split.
      * apply (pot_posdef k (mel A) v). destruct Q as [Q1 Q2]. split; [exact Q1|]. intros r j Hj Hr. apply Q2; lia.
      * replace (k + 1)%nat with (S k) by lia. intros P.
        remember (fun r j : nat => if (((r =? k) || (j <? r)) && negb ((r =? k) && (j =? k)))%bool then mel A r j else v r j) as w eqn:Ew.
        assert (I : forall r j, (r < k)%nat -> (r <= j)%nat -> w r j = v r j).
        { intros r j Hr Hj. rewrite Ew. destruct (Nat.eqb_spec r k), (Nat.ltb_spec j r); try lia. reflexivity. }
        assert (I' : w k k = v k k) by (rewrite Ew, Nat.eqb_refl; destruct (Nat.ltb_spec k k); [lia|reflexivity]).
        apply (stop_not_posdef (S k) k (mel A) w ltac:(lia)); [|exact P].
        destruct Q as [Q1 Q2]. split; [split|split; [|split]].
        -- intros j Hj. rewrite I by lia. apply Q1. exact Hj.
        -- intros r j Hj Hr. rewrite (Q2 r j) by lia. apply S_ext. intros m Hm. rewrite !I by lia. reflexivity.
        -- rewrite I', D. f_equal. apply S_ext. intros m Hm. rewrite !I by lia. reflexivity.
        -- rewrite I'. exact Z.
        -- intros r j Hr Hn. destruct F as (_ & _ & _ & F). rewrite Ew.
           destruct (Nat.eqb_spec r k), (Nat.ltb_spec j r), (Nat.eqb_spec j k); cbn [orb andb negb]; try reflexivity; try lia; apply F; lia.
Qed.
(** For a positive definite A: get_L() is lower triangular with a positive diagonal and the library's L * L.T() is A. *)
Theorem C82_factorises : forall n (A : mat R) c, mrows A = n -> mcols A = n -> posdef n (usym (mel A)) -> lc_make A = Ok c ->
  mrows (lc_get_L c) = n /\ mcols (lc_get_L c) = n /\ (forall r j, (r < n)%nat -> (j < n)%nat -> (r < j)%nat -> mel (lc_get_L c) r j = 0) /\
  (forall i, (i < n)%nat -> 0 < mel (lc_get_L c) i i) /\
  gives_mat (mmul (lc_get_L c) (tr (lc_get_L c))) n n (usym (mel A)) /\
  (symmetric n (mel A) -> gives_mat (mmul (lc_get_L c) (tr (lc_get_L c))) n n (mel A)).
Proof.
  intros n A c H1 H2 P E. destruct (full_inv n A c H1 H2 E P) as (v & (HR & C & V) & _ & _ & F). unfold lc_get_L.
  assert (VL : forall r j, (r < n)%nat -> (j < n)%nat -> mel (lc_m c) r j = Lof v r j).
  { intros r j Hr Hj. rewrite V. destruct (Nat.ltb_spec r n), (Nat.ltb_spec j n); try lia. reflexivity. }
  split; [exact HR|]. split; [exact C|]. split.
  { intros r j Hr Hj H. rewrite VL by assumption. unfold Lof. destruct (Nat.leb_spec j r); [lia|reflexivity]. }
  split.
  { intros i Hi. rewrite VL by assumption. unfold Lof. rewrite Nat.leb_refl. apply F. exact Hi. }
  assert (G : gives_mat (mmul (lc_m c) (tr (lc_m c))) n n (usym (mel A))).
  { eapply gives_mat_ext; [apply mmul_ok; cbn [tr mrows]; lia|lia|cbn [tr mcols]; lia|]. intros i j Hi Hj. cbn [tr mcols mel] in *.
    rewrite (pot_factor n n (mel A) v F (le_n n)) by lia. rewrite C. apply S_ext. intros k Hk. rewrite !VL by lia. reflexivity. }
  split; [exact G|]. intros Hs. eapply gives_mat_ext; [exact G|reflexivity|reflexivity|]. intros i j Hi Hj. apply (usym_id n); assumption.
Qed.
(** ... backsub solves A x = b, for a vector and for every column of a matrix ... *)
Theorem C82_backsub : forall n (A : mat R) c, mrows A = n -> mcols A = n -> posdef n (usym (mel A)) -> lc_make A = Ok c ->
  (forall b, vlen b = n -> exists x, lc_backsub c b = Ok x /\ vlen x = n /\ solves n (usym (mel A)) (vat x) (vat b)) /\
  (forall B, mrows B = n -> exists X, lc_backsub_mat c B = Ok X /\ mrows X = n /\ mcols X = mcols B /\
    forall j, (j < mcols B)%nat -> solves n (usym (mel A)) (fun i => mel X i j) (fun i => mel B i j)).
Proof.
  intros n A c H1 H2 P E. destruct (full_inv n A c H1 H2 E P) as (v & (HR & C & V) & HW & _ & F).
  assert (D : forall i, (i < n)%nat -> v i i <> 0) by (intros i Hi; pose proof (proj1 F i Hi); lra).
  assert (G : forall b, vlen b = n -> exists x, potrs (lc_w c) b = Ok x /\ vlen x = n /\ forall i, (i < n)%nat -> Sum n (fun k => usym (mel A) i k * vat x k) = vat b i).
  { intros b Hb. destruct (potrs_ok n (lc_w c) v b HW Hb D) as (x & Ex & Lx & Sx). exists x. split; [exact Ex|]. split; [exact Lx|]. intros r Hr. rewrite <- (Sx r Hr).
    apply S_ext. intros k Hk. rewrite (pot_factor n n (mel A) v F (le_n n)) by lia. reflexivity. }
  split.
  - intros b Hb. unfold lc_backsub. rewrite same_size_eq by lia. cbn [bind]. destruct (G b Hb) as (x & Ex & Lx & Sx). exists x. split; [exact Ex|]. split; [exact Lx|exact Sx].
  - intros B HB. unfold lc_backsub_mat. rewrite same_size_eq by lia. cbn [bind].
    destruct (@each_col_ok R ROps n (potrs (lc_w c)) (usym (mel A)) B HB G) as (X & EX & R1 & R2 & SX). exists X. split; [exact EX|]. split; [exact R1|]. split; [exact R2|].
    intros j Hj i Hi. apply SX; assumption.
Qed.
(** ... get_inverse() is the symmetric two-sided inverse ... *)
Theorem C82_inverse : forall n (A : mat R) c, mrows A = n -> mcols A = n -> posdef n (usym (mel A)) -> lc_make A = Ok c ->
  exists V, lc_inverse c = Ok V /\ mrows V = n /\ mcols V = n /\ symmetric n (mel V) /\
   forall r k, (r < n)%nat -> (k < n)%nat -> Sum n (fun j => usym (mel A) r j * mel V j k) = delta r k /\ Sum n (fun j => mel V r j * usym (mel A) j k) = delta r k.
Proof.
  intros n A c H1 H2 P E. destruct (full_inv n A c H1 H2 E P) as (v & (HR & C & V) & HW & _ & F).
  assert (D : forall i, (i < n)%nat -> v i i <> 0) by (intros i Hi; pose proof (proj1 F i Hi); lra).
  destruct (pot_posdef n (mel A) v F) as (_ & NS & _). destruct (@nonsingular_inverse R ROps RLaws n (usym (mel A)) NS) as (inv & IR & IL). cbn [fmul ROps] in IR, IL.
  assert (SI : forall i j, (i < n)%nat -> (j < n)%nat -> inv i j = inv j i).
  { intros i j Hi Hj.
    assert (K : Sum n (fun k => inv i k * Sum n (fun l => usym (mel A) k l * inv j l)) = inv i j).
    { rewrite (S_ext n _ (fun k => inv i k * delta k j)).
      - rewrite (S_one n j) by exact Hj. unfold delta at 1. rewrite Nat.eqb_refl. rewrite S_zero; [cbn [f1 ROps]; ring|]. intros k Hk. destruct (Nat.eqb_spec k j); [reflexivity|]. unfold delta. destruct (Nat.eqb_spec k j); [lia|]. cbn [f0 ROps]. ring.
      - intros k Hk. f_equal. rewrite (S_ext n _ (fun l => inv j l * usym (mel A) l k)) by (intros l Hl; rewrite (usym_sym n (mel A) k l) by assumption; ring). rewrite (IL j k Hj Hk). unfold delta. rewrite Nat.eqb_sym. reflexivity. }
    rewrite <- K. rewrite (S_ext n _ (fun k => Sum n (fun l => inv i k * usym (mel A) k l * inv j l))) by (intros k Hk; rewrite <- S_mul_l; apply S_ext; intros; ring).
    rewrite S_swap. rewrite (S_ext n _ (fun l => delta i l * inv j l)).
    - rewrite (S_one n i) by exact Hi. unfold delta at 1. rewrite Nat.eqb_refl. rewrite S_zero; [cbn [f1 ROps]; ring|]. intros k Hk. destruct (Nat.eqb_spec k i); [reflexivity|]. unfold delta. destruct (Nat.eqb_spec i k); [lia|]. cbn [f0 ROps]. ring.
    - intros l Hl. rewrite S_mul_r. f_equal. apply IL; assumption. }
  destruct (potri_ok n (lc_w c) v inv HW D) as (M & EM & HM).
  { intros j x Hj Hx i Hi.
    assert (Z : forall k, (k < n)%nat -> x k - inv k j = 0).
    { apply NS. intros r Hr. cbn [fmul ROps]. rewrite (S_ext n _ (fun c => usym (mel A) r c * x c - usym (mel A) r c * inv c j)) by (intros; ring). rewrite S_sub.
      assert (I2 := IR r j Hr Hj). cbn [fmul ROps] in I2. rewrite I2. rewrite <- (Hx r Hr). rewrite (S_ext n _ (fun c0 => Sum n (fun k => Lof v r k * Lof v c0 k) * x c0)); [cbn [f0 ROps]; ring|].
      intros k Hk. rewrite (pot_factor n n (mel A) v F (le_n n)) by lia. reflexivity. }
    pose proof (Z i Hi). lra. }
  unfold lc_inverse. rewrite EM. cbn [bind]. rewrite HR.
  destruct (wp_ok_inv _ _ (mirror_ok n M _ HM)) as (V' & EV & R1 & R2 & VV). exists V'. split; [exact EV|]. split; [exact R1|]. split; [exact R2|].
  assert (VI : forall r k, (r < n)%nat -> (k < n)%nat -> mel V' r k = inv r k).
  { intros r k Hr Hk. rewrite VV by assumption. destruct (Nat.leb_spec r k).
    - destruct (Nat.ltb_spec r n), (Nat.leb_spec r k), (Nat.ltb_spec k n); cbn [andb]; try lia. apply SI; assumption.
    - destruct (Nat.ltb_spec k n), (Nat.leb_spec k r), (Nat.ltb_spec r n); cbn [andb]; try lia. reflexivity. }
  split; [intros r k Hr Hk; rewrite !VI by assumption; apply SI; assumption|].
  intros r k Hr Hk. split.
  - rewrite <- (IR r k Hr Hk). apply S_ext. intros j Hj. rewrite VI by assumption. reflexivity.
  - rewrite <- (IL r k Hr Hk). apply S_ext. intros j Hj. rewrite VI by assumption. reflexivity.
Qed.
(** ... mahalanobis(v) is v^T A^-1 v ... *)
Theorem C82_mahalanobis : forall n (A : mat R) c b, mrows A = n -> mcols A = n -> posdef n (usym (mel A)) -> lc_make A = Ok c -> vlen b = n ->
  exists V q, lc_inverse c = Ok V /\ lc_mahalanobis c b = Ok q /\ q = quad n (mel V) (vat b) /\ ((exists i, (i < n)%nat /\ vat b i <> 0) -> 0 < q).
Proof.
  intros n A c b H1 H2 P E Hb. destruct (C82_inverse n A c H1 H2 P E) as (V & EV & R1 & R2 & SV & IV).
  destruct (proj1 (C82_backsub n A c H1 H2 P E) b Hb) as (x & Ex & Lx & Sx).
  assert (X : forall i, (i < n)%nat -> vat x i = Sum n (fun k => mel V i k * vat b k)).
  { intros i Hi. rewrite (S_ext n _ (fun k => Sum n (fun j => mel V i k * usym (mel A) k j * vat x j))).
    - rewrite S_swap. rewrite (S_ext n _ (fun j => delta i j * vat x j)).
      + rewrite (S_one n i) by exact Hi. unfold delta at 1. rewrite Nat.eqb_refl. rewrite S_zero; [cbn [f1 ROps]; ring|]. intros k Hk. destruct (Nat.eqb_spec k i); [reflexivity|]. unfold delta. destruct (Nat.eqb_spec i k); [lia|]. cbn [f0 ROps]. ring.
      + intros j Hj. rewrite S_mul_r. f_equal. apply (proj2 (IV i j Hi Hj)).
    - intros k Hk. rewrite <- (Sx k Hk). cbn [fmul ROps]. rewrite <- S_mul_l. apply S_ext. intros; ring. }
  exists V, (Sum n (fun i => vat b i * vat x i)). split; [exact EV|]. split.
  { unfold lc_mahalanobis. rewrite Ex. cbn [bind]. rewrite dot_ok by lia. rewrite Hb. reflexivity. }
  split.
  - unfold quad. apply S_ext. intros i Hi. rewrite X by assumption. cbn [fmul ROps]. rewrite <- S_mul_l. apply S_ext. intros; ring.
  - intros (i & Hi & Hn). destruct P as [_ P].
    assert (Q : 0 < quad n (usym (mel A)) (vat x)).
    { apply R_ltb_spec. apply P. destruct (@first_nonzero R ROps RLaws n (vat x)) as [Z|(j & Hj & Nj)]; [|exists j; split; assumption].
      exfalso. apply Hn. rewrite <- (Sx i Hi). apply S_zero. intros k Hk. cbn [fmul ROps]. rewrite (Z k Hk). cbn [f0 ROps]. ring. }
    replace (Sum n (fun i => vat b i * vat x i)) with (quad n (usym (mel A)) (vat x)); [exact Q|].
    unfold quad. apply S_ext. intros k Hk. rewrite <- (Sx k Hk). cbn [fmul ROps]. rewrite <- S_mul_r. apply S_ext. intros j Hj. ring.
Qed.
(** ... and determinant() is det A. *)
Theorem C82_determinant : forall n (A : mat R) c, (0 < n)%nat -> mrows A = n -> mcols A = n -> posdef n (usym (mel A)) -> lc_make A = Ok c ->
  lc_determinant c = Ok (det n (usym (mel A))) /\ 0 < det n (usym (mel A)).
Proof.
  intros n A c Hn H1 H2 P E. destruct (full_inv n A c H1 H2 E P) as (v & M & HW & _ & F). destruct (pot_posdef n (mel A) v F) as (_ & _ & DT).
  destruct n as [|n]; [lia|]. rewrite (determinant_ok n c _ M).
  assert (Q : prod (S n) (fun k => if ((k <? S n) && (k <? S n))%bool then Lof v k k else mel A k k) = prod (S n) (fun k => v k k)).
  { apply prod_ext. intros k Hk. destruct (Nat.ltb_spec k (S n)); [|lia]. cbn [andb]. unfold Lof. rewrite Nat.leb_refl. reflexivity. }
  rewrite Q. rewrite DT. split; [reflexivity|].
  assert (G : forall m, (m <= S n)%nat -> 0 < prod m (fun k => v k k)).
  { induction m as [|m IH]; intros Hm; cbn [prod]; cbn [f1 fmul ROps]; [lra|]. apply Rmult_lt_0_compat; [apply IH; lia|apply F; lia]. }
  pose proof (G (S n) (le_n _)). nra.
Qed.

Definition good (n : nat) (a : rmat) (c : lchol) : Prop := exists v f,
  mis (lc_m c) n n (fun r j => if ((r <? n) && (j <? n))%bool then Lof v r j else f r j) /\ mis (lc_w c) n n v /\
  (lc_rank c = n /\ pot_eqs n n a v \/ (lc_rank c < n)%nat /\ pot_stop n (lc_rank c) a v).
Lemma good_same n a b c d : same_upper n a b -> good n a c -> good n b d ->
  lc_rank c = lc_rank d /\ mat_eq (lc_get_L c) (lc_get_L d) /\ (forall x, lc_backsub c x = lc_backsub d x) /\ lc_determinant c = lc_determinant d.
Proof.
  intros HU (v & fa & MA & WA & DA) (w & fb & MB & WB & DB).
  assert (HU' : same_upper n b a) by (intros r k H; symmetry; apply HU; exact H).
  assert (K : lc_rank c = lc_rank d /\ forall r k, (r <= k < n)%nat -> v r k = w r k).
  { destruct DA as [[KA FA]|[KA FA]], DB as [[KB FB]|[KB FB]].
    - split; [congruence|]. intros r k H. apply (pot_det n n a b v w (le_n n) HU FA FB); lia.
    - exfalso. apply (stop_clash n (lc_rank d) n b a w v ltac:(lia) HU' FB FA).
    - exfalso. apply (stop_clash n (lc_rank c) n a b v w ltac:(lia) HU FA FB).
    - assert (KK : lc_rank c = lc_rank d).
      { destruct (lt_eq_lt_dec (lc_rank c) (lc_rank d)) as [[L|L]|L]; [|exact L|].
        - exfalso. apply (stop_clash n (lc_rank c) (lc_rank d) a b v w ltac:(lia) HU FA). apply FB.
        - exfalso. apply (stop_clash n (lc_rank d) (lc_rank c) b a w v ltac:(lia) HU' FB). apply FA. }
      split; [exact KK|]. destruct FA as (EA' & DA & _ & OA). destruct FB as (EB' & DB & _ & OB). rewrite <- KK in *.
      pose proof (pot_det n (lc_rank c) a b v w ltac:(lia) HU EA' EB') as Q. intros r k H.
      destruct (lt_dec r (lc_rank c)) as [L|L]; [apply Q; lia|].
      destruct (Nat.eq_dec r (lc_rank c)) as [Er|Nr]; [destruct (Nat.eq_dec k (lc_rank c)) as [Ek|Nk]|].
      + rewrite Er, Ek, DA, DB. rewrite (HU _ _) by lia. f_equal. apply S_ext. intros m Hm. rewrite Q by lia. reflexivity.
      + rewrite OA, OB by lia. apply HU. exact H.
      + rewrite OA, OB by lia. apply HU. exact H. }
  destruct K as [K V]. split; [exact K|].
  assert (L : forall r k, (r < n)%nat -> (k < n)%nat -> mel (lc_m c) r k = mel (lc_m d) r k).
  { intros r k Hr Hk. destruct MA as (_ & _ & EA'). destruct MB as (_ & _ & EB'). rewrite EA', EB'. destruct (Nat.ltb_spec r n), (Nat.ltb_spec k n); try lia. cbn [andb]. unfold Lof.
    destruct (Nat.leb_spec k r); [apply V; lia|reflexivity]. }
  destruct MA as (RA & CA & _). destruct MB as (RB & CB & _). split.
  { unfold mat_eq, mat_is, lc_get_L. rewrite RB, CB. split; [exact RA|]. split; [exact CA|exact L]. }
  split.
  - intros x. unfold lc_backsub. rewrite CA, CB. destruct (same_size n (vlen x)); try reflexivity. cbn [bind]. apply (potrs_ext n (lc_w c) (lc_w d) v w x WA WB V).
  - unfold lc_determinant. rewrite RA, RB. destruct n as [|n]; [unfold mget; rewrite RA, RB; reflexivity|]. rewrite !mget_ok by lia. cbn [bind]. rewrite L by lia.
    rewrite (for_ext 1 (S n) _ (fun i det => x <- mget (lc_m d) i i ;; Ok (det * x))); [reflexivity|]. intros i s Hi. rewrite !mget_ok by lia. rewrite L by lia. reflexivity.
Qed.
(** Only A's UPPER triangle is read: matrices that agree there give the same rank, L, solutions and determinant. *)
Theorem C82_upper_only : forall n (A B : mat R) c d, mrows A = n -> mcols A = n -> mrows B = n -> mcols B = n ->
  (forall r k, (r <= k < n)%nat -> mel A r k = mel B r k) -> lc_make A = Ok c -> lc_make B = Ok d ->
  lc_rank c = lc_rank d /\ mat_eq (lc_get_L c) (lc_get_L d) /\ (forall b, lc_backsub c b = lc_backsub d b) /\ lc_determinant c = lc_determinant d.
Proof.
  intros n A B c d A1 A2 B1 B2 HU EA EB. destruct (make_inv n A c A1 A2 EA) as (v & GA). destruct (make_inv n B d B1 B2 EB) as (w & GB).
  apply (good_same n (mel A) (mel B)); [exact HU|exists v, (mel A); exact GA|exists w, (mel B); exact GB].
Qed.
(** The documentation says "Only the lower half of the matrix is considered": two matrices with the same lower half and different ranks. *)
Definition m2 (a b c d : R) : mat R := mkmat 2 2 (fun r k => match r, k with O, O => a | O, _ => b | _, O => c | _, _ => d end).
Lemma quad2 a b c d x : quad 2 (usym (mel (m2 a b c d))) x = a * (x 0%nat * x 0%nat) + 2 * b * (x 0%nat * x 1%nat) + d * (x 1%nat * x 1%nat).
Proof. unfold quad, usym. cbn [sum Nat.leb m2 mel]. cbn [f0 fadd fmul ROps]. ring. Qed.
Lemma posdef2 a b c d : 0 < a -> b * b < a * d -> posdef 2 (usym (mel (m2 a b c d))).
Proof.
  intros Ha Hd. split; [apply usym_sym|]. intros x (i & Hi & Hx). apply R_ltb_spec. cbn [f0 ROps] in *. rewrite quad2.
  set (p := x 0%nat) in *. set (q := x 1%nat) in *.
  assert (G : p <> 0 \/ q <> 0). { destruct i as [|[|i]]; [left|right|lia]; exact Hx. }
  assert (E : a * (a * (p * p) + 2 * b * (p * q) + d * (q * q)) = (a * p + b * q) * (a * p + b * q) + (a * d - b * b) * (q * q)) by ring.
  assert (T : 0 < (a * p + b * q) * (a * p + b * q) + (a * d - b * b) * (q * q)).
  { destruct (Req_dec q 0) as [Z|Z].
    - rewrite Z. assert (p <> 0) by (destruct G as [G|G]; [exact G|contradiction]). assert (0 < (a * p) * (a * p)). { assert (a * p <> 0) by (apply Rmult_integral_contrapositive; split; lra). pose proof (Rlt_0_sqr (a * p) H0). unfold Rsqr in *. lra. } nra.
    - pose proof (Rlt_0_sqr q Z). unfold Rsqr in *. pose proof (Rle_0_sqr (a * p + b * q)). unfold Rsqr in *. nra. }
  rewrite <- E in T. nra.
Qed.
Theorem C82_lower_half_refuted : exists A B c d, mrows A = 2%nat /\ mcols A = 2%nat /\ mrows B = 2%nat /\ mcols B = 2%nat /\
  (forall r k, (k <= r < 2)%nat -> mel A r k = mel B r k) /\ lc_make A = Ok c /\ lc_make B = Ok d /\ lc_rank c = 2%nat /\ lc_rank d <> 2%nat.
Proof.
  destruct (C82_total (m2 1 0 2 1) eq_refl) as (c & Ec & _). destruct (C82_total (m2 1 2 2 1) eq_refl) as (d & Ed & _).
  exists (m2 1 0 2 1), (m2 1 2 2 1), c, d. split; [reflexivity|]. split; [reflexivity|]. split; [reflexivity|]. split; [reflexivity|]. split.
  { intros r k H. destruct r as [|[|r]], k as [|[|k]]; try lia; reflexivity. }
  split; [exact Ec|]. split; [exact Ed|]. split.
  - apply (C82_rank 2 (m2 1 0 2 1) c eq_refl eq_refl Ec). apply posdef2; lra.
  - intros K. apply (C82_rank 2 (m2 1 2 2 1) d eq_refl eq_refl Ed) in K. destruct K as [_ K].
    assert (Q : 0 < quad 2 (usym (mel (m2 1 2 2 1))) (fun i => match i with O => 1 | _ => -1 end)).
    { apply R_ltb_spec. apply K. exists 0%nat. split; [lia|]. cbn [f0 ROps]. lra. }
    rewrite quad2 in Q. lra.
Qed.
(** A singular positive semidefinite matrix: the solves divide by zero, get_inverse() fails its assertion and determinant() is 0 (as det A is). *)
Theorem C82_semidefinite : forall n (A : mat R) c, mrows A = n -> mcols A = n -> psd n (usym (mel A)) -> ~ posdef n (usym (mel A)) -> lc_make A = Ok c ->
  (lc_rank c < n)%nat /\ (forall b, vlen b = n -> lc_backsub c b = NonFinite) /\ lc_inverse c = Abort DAssert /\ lc_determinant c = Ok 0 /\ det n (usym (mel A)) = 0.
Proof.
  intros n A c H1 H2 [_ HP] NP E. destruct (make_inv n A c H1 H2 E) as (v & M & HW & [[K F]|[K F]]).
  { exfalso. apply NP. apply (pot_posdef n (mel A) v F). }
  split; [exact K|]. set (k := lc_rank c) in *.
  assert (Z : v k k = 0).
  { pose proof (stop_ldl' n k (mel A) v K F) as LD.
    destruct (ldl_probe (S k) (usym (mel A)) (fun r j => if (j =? k)%nat then delta r j else unitL (S k) v r j) (fun j => if (j =? k)%nat then v k k else v j j * v j j) k ltac:(lia)) as (x & Q & _).
    - intros r j Hr Hj H. destruct (Nat.eqb_spec j k); [reflexivity|]. apply unitL_unit; assumption.
    - exact LD.
    - cbn beta in Q. rewrite Nat.eqb_refl in Q. destruct F as (_ & _ & Z & _).
      pose proof (HP (fun i => if (i <? S k)%nat then x i else 0)) as P.
      pose proof (quad_extend (Fl:=RLaws) (S k) n (usym (mel A)) x ltac:(lia)) as QE. cbn [f0 ROps] in QE. rewrite QE, Q in P.
      apply R_ltb_false in P. cbn [f0 ROps] in P. lra. }
  assert (NZ : forall j, (j < k)%nat -> v j j <> 0) by (intros j Hj; destruct F as ([F _] & _); pose proof (F j Hj); lra).
  assert (M0 := M). destruct M0 as (HR & HC & HE).
  split.
  { intros b Hb. unfold lc_backsub. rewrite same_size_eq by lia. cbn [bind]. apply (potrs_bad n (lc_w c) v b k); assumption. }
  split. { unfold lc_inverse. rewrite (potri_bad n (lc_w c) v k) by assumption. reflexivity. }
  split.
  - destruct n as [|n]; [lia|]. rewrite (determinant_ok n c _ M).
    assert (Q : prod (S n) (fun j => if ((j <? S n) && (j <? S n))%bool then Lof v j j else mel A j j) = 0).
    { refine (@LemForm.prod_zero R ROps RLaws (S n) _ k K _). cbn beta. destruct (Nat.ltb_spec k (S n)); [|lia]. cbn [andb]. unfold Lof. rewrite Nat.leb_refl. exact Z. }
    rewrite Q. f_equal. ring.
  - destruct (Req_dec (det n (usym (mel A))) 0) as [D|D]; [exact D|]. exfalso. apply NP. split; [apply usym_sym|]. intros x (i & Hi & Hx).
    pose proof (HP x) as P. apply R_ltb_false in P. apply R_ltb_spec. cbn [f0 ROps] in *. destruct P as [P|P]; [exact P|]. exfalso. apply Hx.
    apply (proj2 (@det_nonsingular R ROps RLaws n (usym (mel A))) D); [|exact Hi].
    intros r Hr. apply (@psd_null R ROps RLaws n (usym (mel A)) x); [split; [apply usym_sym|exact HP]|symmetry; exact P|exact Hr].
Qed.

(** ... although the class is documented for positive semidefinite matrices and to give their rank and L*L^T:
    diag(0,4) has rank 1, rank() says 0, and the product of get_L() with its transpose is diag(0,16). *)
Theorem C82_semidefinite_refuted : exists A c, mrows A = 2%nat /\ mcols A = 2%nat /\ psd 2 (mel A) /\ rank_is 2 (mel A) 1 /\ lc_make A = Ok c /\ lc_rank c = 0%nat /\
  exists P, mmul (lc_get_L c) (tr (lc_get_L c)) = Ok P /\ mel P 1 1 = 16 /\ mel A 1 1 = 4.
Proof.
  set (A := m2 0 0 0 4). destruct (make_ok 2 A eq_refl eq_refl) as (c & v & E & (HR & HC & HE) & HW & D).
  assert (K : lc_rank c = 0%nat /\ pot_stop 2 0 (mel A) v).
  { destruct D as [[K [F1 F2]]|[K F]].
    - exfalso. pose proof (F1 0%nat ltac:(lia)). pose proof (F2 0%nat 0%nat ltac:(lia) ltac:(lia)) as Q. cbn [sum A m2 mel] in Q. cbn [f0 fadd ROps] in Q. nra.
    - destruct (lc_rank c) as [|k]; [split; [reflexivity|exact F]|]. exfalso. destruct F as ([F1 F2] & _). pose proof (F1 0%nat ltac:(lia)). pose proof (F2 0%nat 0%nat ltac:(lia) ltac:(lia)) as Q. cbn [sum A m2 mel] in Q. cbn [f0 fadd ROps] in Q. nra. }
  destruct K as [K (_ & _ & _ & O)]. exists A, c. split; [reflexivity|]. split; [reflexivity|]. split.
  { split; [intros r k Hr Hk; destruct r as [|[|r]], k as [|[|k]]; try lia; reflexivity|]. intros x. apply R_ltb_false.
    unfold quad. cbn [sum A m2 mel]. cbn [f0 fadd fmul ROps]. nra. }
  split; [|split; [exact E|split; [exact K|]]].
  { assert (Mul : forall x r, Sum 2 (fun c => mel A r c * x c) = if (r =? 0)%nat then 0 else 4 * x 1%nat).
    { intros x r. cbn [sum A m2 mel]. destruct r as [|r]; cbn [Nat.eqb]; cbn [f0 fadd ROps]; ring. }
    split.
    - exists (fun _ _ => 1). intros w H j Hj. replace j with 0%nat by lia. specialize (H 1%nat ltac:(lia)). cbn [sum A m2 mel] in H. cbn [f0 fadd fmul ROps] in *. lra.
    - intros [x H]. cbn [f0 fmul ROps] in H.
      assert (G : forall w : nat -> R, w 0%nat * x 0%nat 1%nat + w 1%nat * x 1%nat 1%nat = 0 -> w 0%nat = 0 /\ w 1%nat = 0).
      { intros w Hw. assert (KK : forall r, (r < 2)%nat -> Sum 2 (fun j => w j * Sum 2 (fun c => mel A r c * x j c)) = 0).
        { intros r Hr. rewrite (S_ext 2 _ (fun j => w j * (if (r =? 0)%nat then 0 else 4 * x j 1%nat))) by (intros; rewrite Mul; reflexivity).
          cbn [sum]. cbn [f0 fadd ROps]. destruct (r =? 0)%nat; lra. }
        split; apply (H w KK); lia. }
      destruct (G (fun j => if (j =? 0)%nat then x 1%nat 1%nat else - x 0%nat 1%nat)) as [Z1 Z0]; [cbn [Nat.eqb]; ring|]. cbn [Nat.eqb] in Z1, Z0.
      destruct (G (fun _ => 1)) as [Z _]; lra. }
  destruct (mmul_ok (lc_get_L c) (tr (lc_get_L c)) ltac:(unfold lc_get_L; cbn [tr mrows]; lia)) as (P & EP & R1 & R2 & VP). exists P. split; [exact EP|]. split; [|reflexivity].
  rewrite VP by (unfold lc_get_L in *; cbn [tr mcols] in *; lia). unfold lc_get_L. rewrite HC. cbn [sum tr mel]. cbn [f0 fadd fmul ROps]. rewrite !HE. cbn [Nat.ltb Nat.leb andb]. unfold Lof. cbn [Nat.leb].
  rewrite (O 1%nat 1%nat), (O 0%nat 1%nat) by lia. cbn [A m2 mel]. ring.
Qed.
(** A symmetric matrix that is not positive semidefinite is not rejected: rank() reports it, but backsub() silently solves another system
    and determinant() is wrong. *)
Theorem C82_indefinite_refuted : exists A c, mrows A = 2%nat /\ mcols A = 2%nat /\ symmetric 2 (mel A) /\ lc_make A = Ok c /\ lc_rank c = 1%nat /\
  lc_determinant c = Ok 9 /\ det 2 (mel A) = -3 /\
  exists b x, vlen b = 2%nat /\ lc_backsub c b = Ok x /\ ~ solves 2 (mel A) (vat x) (vat b).
Proof.
  set (A := m2 1 2 2 1). destruct (make_ok 2 A eq_refl eq_refl) as (c & v & E & M & HW & D).
  assert (K : lc_rank c = 1%nat /\ pot_stop 2 1 (mel A) v).
  { destruct D as [[K [F1 F2]]|[K F]].
    - exfalso. pose proof (F1 1%nat ltac:(lia)). pose proof (F2 0%nat 0%nat ltac:(lia) ltac:(lia)) as Q. pose proof (F2 1%nat 0%nat ltac:(lia) ltac:(lia)) as Q1. pose proof (F2 1%nat 1%nat ltac:(lia) ltac:(lia)) as Q2. cbn [sum A m2 mel] in Q, Q1, Q2. cbn [f0 fadd ROps] in Q, Q1, Q2.
      assert (X : v 0%nat 0%nat = 1 \/ v 0%nat 0%nat = -1) by (assert ((v 0%nat 0%nat - 1) * (v 0%nat 0%nat + 1) = 0) by nra; apply Rmult_integral in H0; destruct H0; [left|right]; lra).
      destruct X as [X|X]; rewrite X in Q1; nra.
    - destruct (lc_rank c) as [|[|k]]; [|split; [reflexivity|exact F]|lia]. exfalso. destruct F as (_ & Q & Z & _). cbn [sum A m2 mel] in Q. cbn [f0 ROps] in Q. lra. }
  destruct K as [K ([F1 F2] & Q & _ & O)].
  pose proof (F1 0%nat ltac:(lia)) as P0. pose proof (F2 0%nat 0%nat ltac:(lia) ltac:(lia)) as Q0. pose proof (F2 1%nat 0%nat ltac:(lia) ltac:(lia)) as Q1. cbn [sum A m2 mel] in Q, Q0, Q1. cbn [f0 fadd ROps] in Q, Q0, Q1.
  assert (V00 : v 0%nat 0%nat = 1) by nra. rewrite V00 in Q1. assert (V01 : v 0%nat 1%nat = 2) by lra. rewrite V01 in Q. assert (V11 : v 1%nat 1%nat = -3) by lra.
  exists A, c. split; [reflexivity|]. split; [reflexivity|]. split.
  { intros r k Hr Hk. destruct r as [|[|r]], k as [|[|k]]; try lia; reflexivity. }
  split; [exact E|]. split; [exact K|]. split.
  { rewrite (determinant_ok 1 c _ M). cbn [prod Nat.ltb Nat.leb andb]. unfold Lof. cbn [Nat.leb]. rewrite V00, V11. cbn [f1 fmul ROps]. f_equal. ring. }
  split.
  { cbn [det sum A m2 mel]. unfold sgn, skip. cbn [Nat.even Nat.ltb Nat.leb]. cbn [f0 f1 fadd fmul fopp ROps]. ring. }
  destruct (potrs_ok 2 (lc_w c) v (mkvec 2 (fun i => match i with O => 0 | _ => 3 end)) HW eq_refl) as (x & Ex & Lx & Sx).
  { intros i Hi. destruct i as [|[|i]]; [rewrite V00|rewrite V11|lia]; lra. }
  exists (mkvec 2 (fun i => match i with O => 0 | _ => 3 end)), x. split; [|split].
  2:{ unfold lc_backsub. rewrite same_size_eq by (destruct M as (_ & C & _); rewrite C; reflexivity). cbn [bind]. exact Ex. }
  - reflexivity.
  - intros Hs. pose proof (Hs 0%nat ltac:(lia)) as S0. pose proof (Hs 1%nat ltac:(lia)) as S1. pose proof (Sx 1%nat ltac:(lia)) as T1.
    cbn [sum A m2 mel vat] in S0, S1, T1. cbn [f0 fadd fmul ROps] in S0, S1, T1. unfold Lof in T1. cbn [Nat.leb] in T1. rewrite V00, V01, V11 in T1. lra.
Qed.
(** Sizes: a non-square matrix, a recompute or a right-hand side of another size stop the program; recomputing forgets the old contents;
    determinant() of an empty matrix reads out of bounds. *)
Theorem C82_sizes : forall A : mat R,
  (mrows A <> mcols A -> lc_make A = Abort DSizeMismatch) /\
  (forall old, mrows (lc_m old) = mrows A -> mcols (lc_m old) = mrows A -> mrows A = mcols A -> exists c d, lc_compute old A = Ok c /\ lc_make A = Ok d /\ lc_rank c = lc_rank d /\ mat_eq (lc_get_L c) (lc_get_L d) /\ forall b, lc_backsub c b = lc_backsub d b) /\
  (forall old, mrows (lc_m old) <> mrows A -> lc_compute old A = Abort DSizeMismatch) /\
  (forall c b, mrows A = mcols A -> lc_make A = Ok c -> vlen b <> mrows A -> lc_backsub c b = Abort DSizeMismatch /\ lc_mahalanobis c b = Abort DSizeMismatch) /\
  (forall c B, mrows A = mcols A -> lc_make A = Ok c -> mrows B <> mrows A -> lc_backsub_mat c B = Abort DSizeMismatch) /\
  (forall c, mrows A = 0%nat -> mcols A = 0%nat -> lc_make A = Ok c -> lc_determinant c = UB).
Proof.
  intros A. split; [intros H; unfold lc_make; rewrite same_size_bad by exact H; reflexivity|]. split.
  { intros old H1 H2 H3. unfold lc_compute, lc_make. rewrite !same_size_eq by lia. cbn [bind]. set (n := mrows A) in *.
    destruct (do_compute_ok n (lc_m old) A H1 H2 eq_refl (eq_sym H3)) as (c & v & Ec & M1). destruct (do_compute_ok n A A eq_refl (eq_sym H3) eq_refl (eq_sym H3)) as (d & w & Ed & M2).
    exists c, d. split; [exact Ec|]. split; [exact Ed|].
    destruct (good_same n (mel A) (mel A) c d) as (G1 & G2 & G3 & _); [intros r k _; reflexivity|exists v, (mel (lc_m old)); exact M1|exists w, (mel A); exact M2|].
    split; [exact G1|]. split; [exact G2|exact G3]. }
  split. { intros old H. unfold lc_compute. destruct (Nat.eq_dec (mrows A) (mcols A)) as [S|S]; [rewrite same_size_eq by exact S|rewrite same_size_bad by exact S; reflexivity]. cbn [bind]. rewrite same_size_bad by lia. reflexivity. }
  split. { intros c b S E H. destruct (make_inv (mrows A) A c eq_refl (eq_sym S) E) as (v & (_ & C & _) & _). assert (G : lc_backsub c b = Abort DSizeMismatch) by (unfold lc_backsub; rewrite same_size_bad by lia; reflexivity). split; [exact G|]. unfold lc_mahalanobis. rewrite G. reflexivity. }
  split. { intros c B S E H. destruct (make_inv (mrows A) A c eq_refl (eq_sym S) E) as (v & (_ & C & _) & _). unfold lc_backsub_mat. rewrite same_size_bad by lia. reflexivity. }
  intros c H1 H2 E. destruct (make_inv 0 A c H1 H2 E) as (v & (C & _ & _) & _). unfold lc_determinant, mget. rewrite C. reflexivity.
Qed.

(** A concrete positive definite matrix: [[4,2],[2,5]] = L L^T with determinant 16. *)
Example C82_example : exists c x, lc_make (m2 4 2 2 5) = Ok c /\ lc_rank c = 2%nat /\ lc_determinant c = Ok 16 /\
  lc_backsub c (mkvec 2 (fun i => match i with O => 8 | _ => 12 end)) = Ok x /\ vat x 0%nat = 1 /\ vat x 1%nat = 2.
Proof.
  destruct (C82_total (m2 4 2 2 5) eq_refl) as (c & E & _). assert (P : posdef 2 (usym (mel (m2 4 2 2 5)))) by (apply posdef2; lra).
  destruct (proj1 (C82_backsub 2 (m2 4 2 2 5) c eq_refl eq_refl P E) (mkvec 2 (fun i => match i with O => 8 | _ => 12 end)) eq_refl) as (x & Ex & _ & Sx).
  exists c, x. split; [exact E|]. split; [apply (C82_rank 2 (m2 4 2 2 5) c eq_refl eq_refl E); exact P|]. split.
  { destruct (C82_determinant 2 (m2 4 2 2 5) c ltac:(lia) eq_refl eq_refl P E) as [D _]. rewrite D. f_equal.
    cbn [det sum]. unfold sgn, skip, usym. cbn [Nat.even Nat.ltb Nat.leb m2 mel]. cbn [f0 f1 fadd fmul fopp ROps]. ring. }
  split; [exact Ex|]. pose proof (Sx 0%nat ltac:(lia)) as S0. pose proof (Sx 1%nat ltac:(lia)) as S1. cbn [sum vat] in S0, S1. unfold usym in S0, S1. cbn [Nat.leb m2 mel] in S0, S1. cbn [f0 fadd fmul ROps] in S0, S1. lra.
Qed.
