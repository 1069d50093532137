(** * C93: LU in floating point. *)
From Coq Require Import Reals Lra Lia Arith Bool.
From Verif Require Import Base Alg Inst Mat SpecMat LemMat LemOps ModelOps SpecLin LemLin LemDet LemDetMul LemDetMore ModelLU SpecLU LemLU ModelGetrf LemGetrfStep LemGetrf RSum ModelFl SpecFl LemFl LemFlChol LemFlChol2 LemFlChol3 SpecFlGauss LemFlGauss LemFlGauss2 LemFlDet LemFlDet2 LemFlLU RRect ExFl PropFl PropFlGauss PropFlDet.
Local Open Scope R_scope.
Local Notation det := (@det R ROps).

Section P.
Variables (u : R) (rnd : R -> R).
Hypothesis RN : rounding u rnd.
Let U := u_rng u rnd RN.
Local Notation O := (FlOps rnd).

Section N.
Variables (n : nat) (A : mat R) (M : R).
Hypotheses (HR : mrows A = n) (HC : mcols A = n) (HM : forall i j, (i < n)%nat -> (j < n)%nat -> Rabs (mel A i j) <= M).

Lemma fl_construct : exists L info, @lu_construct R O A = Ok (L, info) /\ fl_lu_inv u rnd n (mel A) n (lu_m L, lu_piv L, info).
Proof.
  unfold lu_construct. rewrite HC, HR, same_size_ok. cbn [bind]. destruct (fl_getrf u rnd RN n A HR HC) as (m & piv & info & -> & I). cbn [bind]. exists (mklu m piv), info. split; [reflexivity|exact I].
Qed.
(** The constructor always ends. The stored factors are the exact factors of a nearby matrix, with the recorded interchanges; the unit factor
    is bounded by partial pivoting; get_info() is 0 if no pivot is zero, and otherwise says which is the first. *)
Theorem C93_factors : exists L info E, @lu_construct R O A = Ok (L, info) /\
  (forall r c, (r < n)%nat -> (c < n)%nat -> Rabs (E r c) <= bwd u n * (growth u n * M)) /\ @factorised R ROps n (fun r c => mel A r c + E r c) L /\
  (forall r c, (r < n)%nat -> (c < n)%nat -> Rabs (@unit_upper R ROps (mel (lu_m L)) r c) <= (1 + u) ^ 2) /\
  (info = None -> forall k, (k < n)%nat -> mel (lu_m L) k k <> 0) /\
  (forall i, info = Some i -> (i < n)%nat /\ mel (lu_m L) i i = 0 /\ forall k, (k < i)%nat -> mel (lu_m L) k k <> 0).
Proof.
  destruct fl_construct as (L & info & EL & I). destruct (fl_lu_factorised u rnd RN n (mel A) M _ _ _ I HM) as (E & BE & HF). exists L, info, E. split; [exact EL|]. split; [exact BE|].
  split; [destruct L; exact HF|]. destruct I as (_ & _ & _ & _ & HL & _ & HI). split; [|split].
  - intros r c Hr Hc. pose proof (pow_1pu u 2 ltac:(lra)). unfold unit_upper. cbn [f0 f1 ROps]. destruct (Nat.ltb_spec r c); [apply HL; lia|]. destruct (r =? c)%nat; [rewrite Rabs_R1|rewrite Rabs_R0]; lra.
  - intros ->. exact HI.
  - intros i ->. exact HI.
Qed.
(** A nonzero get_info(): a matrix within rounding errors of A is singular. *)
Theorem C93_info : forall L info, @lu_construct R O A = Ok (L, info) -> info <> None ->
  exists E, (forall r c, (r < n)%nat -> (c < n)%nat -> Rabs (E r c) <= bwd u n * (growth u n * M)) /\ ~ @nonsingular R ROps n (fun r c => mel A r c + E r c).
Proof.
  intros L info EL N. destruct C93_factors as (L' & info' & E & EL' & BE & HF & _ & _ & HS). rewrite EL in EL'. injection EL' as <- <-. exists E. split; [exact BE|]. intros NS.
  destruct info as [i|]; [|contradiction]. destruct (HS i eq_refl) as (I1 & I2 & _). exact (@pivots_nonzero R ROps RLaws n _ L HF NS i I1 I2).
Qed.
(** backsub: non-finite exactly if get_info() is not 0; otherwise the result solves exactly a system with a nearby matrix. *)
Theorem C93_backward_error : forall L info (b : vec R), @lu_construct R O A = Ok (L, info) -> vlen b = n ->
  (info <> None -> @lu_backsub_vec R O L b = NonFinite) /\
  (info = None -> exists x E, @lu_backsub_vec R O L b = Ok x /\ vlen x = n /\ (forall r, (r < n)%nat -> Sum n (fun j => (mel A r j + E r j) * vat x j) = vat b r) /\
    (forall r j, (r < n)%nat -> (j < n)%nat -> Rabs (E r j) <= (bwd u (2 * n) + bwd u n) * (growth u n * M))).
Proof.
  intros L info b EL Hb. destruct fl_construct as (L' & info' & EL' & I). rewrite EL in EL'. injection EL' as <- <-. pose proof (fl_lu_dlu u rnd n (mel A) _ _ _ I) as D.
  destruct I as (H1 & H2 & Hp & _ & _ & _ & HI). unfold lu_backsub_vec. rewrite H1, Hb, same_size_ok. cbn [bind]. split.
  - intros N. destruct info as [i|]; [|contradiction]. destruct HI as (I1 & I2 & I3). rewrite (fl_trsm_upper_bad rnd n (lu_m L) b i); try assumption. reflexivity.
  - intros ->. cbn [info_ok] in HI. destruct (fl_trsm_upper rnd n (lu_m L) b H1 H2 Hb HI) as (y & Ey & Ly & Vy). rewrite Ey. cbn [bind].
    destruct (fl_trsm_unit rnd n (lu_m L) y H1 H2 Ly) as (z & Ez & Lz & Vz). rewrite Ez. cbn [bind].
    destruct (swap_rows_vec_ok n L z H1 Hp Lz) as (x & Ex & Lx & Vx). set (m := lu_m L) in *. set (piv := lu_piv L) in *.
    destruct (lu_solve_gen u rnd RN n m (mel m) (vat b) (vat y) (vat z)) as (g & Hg & G).
    { intros r Hr. destruct (div_term u rnd RN (mel m r r) (subs rnd (vat b r) (mel m r) (vat y) r) (HI r Hr)) as (h & Fh & Eh). exists h. split; [exact Fh|]. rewrite (Vy r Hr). exact Eh. }
    { exact Vz. }
    set (E0 := fun r j => Sum n (fun k => lo (mel m) r k * up m k j * g r j k) - mel A r (sg piv n j)).
    assert (B0 : forall r j, (r < n)%nat -> (j < n)%nat -> Rabs (E0 r j) <= (bwd u (2 * n) + bwd u n) * (growth u n * M)).
    { intros r j Hr Hj. unfold E0. destruct (dlu_terms u rnd RN n _ n _ _ _ j r D Hr ltac:(lia) Hj) as (h & Hh & Gh). cbv beta in Gh.
      assert (T : forall k, (k < n)%nat -> ulo (fun r k => mel m k r) j k * upd (tmat n m) k r = lo (mel m) r k * up m k j).
      { intros k Hk. unfold ulo, upd, lo, up. cbn [mel tmat]. destruct (Nat.ltb_spec k j), (Nat.leb_spec k r), (Nat.eqb_spec j k), (Nat.eqb_spec k j); try lia; ring. }
      fold piv in Gh. fold m in Gh. rewrite Gh. rewrite (S_ext n (fun k => ulo (fun r k => mel m k r) j k * upd (tmat n m) k r * h k) (fun k => lo (mel m) r k * up m k j * h k)) by (intros k Hk; rewrite T by exact Hk; reflexivity).
      eapply Rle_trans; [apply (fac_sum_err u rnd RN n (fun k => lo (mel m) r k * up m k j) (g r j) h); intros k Hk; [apply Hg; assumption|apply Hh]|].
      apply Rmult_le_compat_l; [pose proof (bwd_nonneg u (2 * n) U); pose proof (bwd_nonneg u n U); lra|].
      pose proof (dlu_total u rnd RN n (fun i j => mel A j i) n (tmat n m) (sg piv n) (fun r k => mel m k r) M j r D) as B. unfold abs_lu in B.
      rewrite (S_ext n (fun k => Rabs (ulo (fun r k => mel m k r) j k * upd (tmat n m) k r)) (fun k => Rabs (lo (mel m) r k * up m k j))) in B by (intros k Hk; rewrite T by exact Hk; reflexivity).
      apply B; try assumption; [intros i Hi; apply (sg_lt n); [lia|exact Hp|exact Hi]|intros; apply HM; assumption|lia]. }
    exists x, (fun r => undo piv n (E0 r)). split; [exact Ex|]. split; [exact Lx|]. split.
    + intros r Hr. rewrite (S_ext n _ (fun j => (mel A r j + undo piv n (E0 r) j) * undo piv n (vat z) j)) by (intros j Hj; rewrite (Vx j Hj); reflexivity).
      pose proof (@undo_sum R ROps RLaws n piv n (fun j => mel A r j + undo piv n (E0 r) j) (vat z) ltac:(lia) ltac:(intros; apply Hp; assumption)) as Q. cbn [fmul ROps] in Q.
      refine (eq_trans Q _). rewrite (G r Hr). apply S_ext. intros j Hj. f_equal. rewrite (interchanged_sg piv (fun j => mel A r j + undo piv n (E0 r) j)). rewrite <- (interchanged_sg piv (undo piv n (E0 r))).
      rewrite (interchanged_undo n piv n (E0 r)) by (lia || exact Hp || exact Hj). unfold E0. ring.
    + intros r j Hr Hj. apply (undo_all n piv (fun x => Rabs x <= _) n); [lia|exact Hp| |exact Hj]. intros c Hc. apply B0; assumption.
Qed.
(** X with X A = 1: the distance to the exact solution *)
Theorem C93_forward_error : forall L (b x : vec R) X xs, @lu_construct R O A = Ok (L, None) -> vlen b = n -> @lu_backsub_vec R O L b = Ok x ->
  left_inverse n X (mel A) -> (forall r, (r < n)%nat -> Sum n (fun j => mel A r j * xs j) = vat b r) ->
  forall i, (i < n)%nat -> Rabs (vat x i - xs i) <= (bwd u (2 * n) + bwd u n) * (growth u n * M) * (Sum n (fun j => Rabs (X i j)) * Sum n (fun k => Rabs (vat x k))).
Proof.
  intros L b x X xs EL HB EX HX HS i Hi. destruct (proj2 (C93_backward_error L None b EL HB) eq_refl) as (x' & E & EX' & _ & E1 & E2). rewrite EX in EX'. injection EX' as <-. set (eps := (bwd u (2 * n) + bwd u n) * (growth u n * M)) in *.
  rewrite <- (left_apply n X (mel A) (vat x) i HX Hi), <- (left_apply n X (mel A) xs i HX Hi). rewrite <- S_sub.
  rewrite (S_ext n _ (fun j => - (X i j * Sum n (fun k => E j k * vat x k)))).
  - eapply Rle_trans; [apply S_abs_le|]. rewrite <- Rmult_assoc, (Rmult_comm eps), Rmult_assoc, <- S_mul_r. apply S_mono. intros j Hj. rewrite Rabs_Ropp, Rabs_mult. apply Rmult_le_compat_l; [apply Rabs_pos|].
    eapply Rle_trans; [apply S_abs_le|]. rewrite <- S_mul_l. apply S_mono. intros k Hk. rewrite Rabs_mult. apply Rmult_le_compat_r; [apply Rabs_pos|apply E2; assumption].
  - intros j Hj. rewrite HS by exact Hj. rewrite <- (E1 j Hj). rewrite (S_ext n (fun k => (mel A j k + E j k) * vat x k) (fun k => mel A j k * vat x k + E j k * vat x k)) by (intros; ring). rewrite S_add. ring.
Qed.
(** A condition under which there is a solution: A is not too close to a singular matrix. *)
Lemma far_nonsingular X : left_inverse n X (mel A) -> (forall i, (i < n)%nat -> Sum n (fun j => Rabs (X i j)) * (INR n * (bwd u n * (growth u n * M))) < 1) ->
  forall E, (forall r c, (r < n)%nat -> (c < n)%nat -> Rabs (E r c) <= bwd u n * (growth u n * M)) -> @nonsingular R ROps n (fun r c => mel A r c + E r c).
Proof.
  intros HX HN E HE x Hx c Hc. set (eps := bwd u n * (growth u n * M)) in *.
  destruct (max_exists n x ltac:(lia)) as (i & Hi & Hm). change (forall r, (r < n)%nat -> Sum n (fun c => (mel A r c + E r c) * x c) = 0) in Hx.
  assert (B : Rabs (x i) <= Sum n (fun j => Rabs (X i j)) * (INR n * eps) * Rabs (x i)).
  { rewrite <- (left_apply n X (mel A) x i HX Hi) at 1. eapply Rle_trans; [apply S_abs_le|]. rewrite Rmult_assoc, <- S_mul_r. apply S_mono. intros j Hj. rewrite Rabs_mult. apply Rmult_le_compat_l; [apply Rabs_pos|].
    replace (Sum n (fun k => mel A j k * x k)) with (- Sum n (fun k => E j k * x k)).
    - rewrite Rabs_Ropp. eapply Rle_trans; [apply S_abs_le|]. apply (Rle_trans _ (Sum n (fun _ => eps * Rabs (x i)))).
      + apply S_mono. intros k Hk. rewrite Rabs_mult. apply Rmult_le_compat; try apply Rabs_pos; [apply HE; assumption|apply Hm; exact Hk].
      + right. rewrite S_cst. ring.
    - pose proof (Hx j Hj) as H0. rewrite (S_ext n _ (fun k => mel A j k * x k + E j k * x k)) in H0 by (intros; ring). rewrite S_add in H0. lra. }
  pose proof (HN i Hi) as L. pose proof (Rabs_pos (x i)) as P. assert (Z : Rabs (x i) = 0) by nra.
  pose proof (Hm c Hc) as Q. rewrite Z in Q. pose proof (Rabs_pos (x c)). destruct (Req_dec (x c) 0) as [|Nz]; [assumption|]. apply Rabs_pos_lt in Nz. lra.
Qed.
Theorem C93_well_conditioned : forall X, left_inverse n X (mel A) -> (forall i, (i < n)%nat -> Sum n (fun j => Rabs (X i j)) * (INR n * (bwd u n * (growth u n * M))) < 1) ->
  exists L, @lu_construct R O A = Ok (L, None) /\ forall b, vlen b = n -> exists x, @lu_backsub_vec R O L b = Ok x /\ vlen x = n.
Proof.
  intros X HX HN. destruct C93_factors as (L & info & _ & EL & _). assert (Hi : info = None).
  { destruct info as [i|]; [|reflexivity]. exfalso. destruct (C93_info L (Some i) EL ltac:(discriminate)) as (E & BE & NS). apply NS. apply (far_nonsingular X); assumption. }
  rewrite Hi in EL. exists L. split; [exact EL|]. intros b Hb. destruct (proj2 (C93_backward_error L None b EL Hb) eq_refl) as (x & _ & Ex & Lx & _). exists x. split; assumption.
Qed.
(** determinant(): the determinant of the same nearby matrix, up to the rounding of a product of n numbers *)
Theorem C93_determinant : exists L info d E c, @lu_construct R O A = Ok (L, info) /\ @lu_determinant R O L = Ok d /\ d = det n (fun r j => mel A r j + E r j) * c /\ 0 < c /\ Rabs (c - 1) <= bwd u n /\
  (forall r j, (r < n)%nat -> (j < n)%nat -> Rabs (E r j) <= bwd u n * (growth u n * M)).
Proof.
  destruct C93_factors as (L & info & E & EL & BE & HF & _). pose proof HF as (H1 & H2 & Hp & _).
  assert (SG : @lu_sign R O L = @lu_sign R ROps L) by reflexivity.
  assert (SE : exists e, @lu_sign R O L = Ok e /\ forall d, @lu_determinant R ROps L = Ok d -> d = e * @prod_ R ROps n (fun i => mel (lu_m L) i i)).
  { rewrite SG. unfold lu_determinant. assert (W : wp (@lu_sign R ROps L) (fun _ => True)) by (unfold lu_sign; apply (wp_for (fun _ _ => True)); [lia|exact I|intros i a Hi _; exact I]).
    apply wp_ok_inv in W. destruct W as (e & Ee & _). exists e. split; [exact Ee|]. intros d. rewrite Ee. cbn [bind]. rewrite H1. intros Ed.
    assert (W : wp (for_ 0 n (fun i result => (x <- mget (lu_m L) i i ;; Ok (@fmul R ROps result x))%outcome) e) (fun d => d = e * @prod_ R ROps n (fun i => mel (lu_m L) i i))).
    { apply (wp_for (fun k d => d = e * @prod_ R ROps k (fun i => mel (lu_m L) i i))); [lia|cbn; ring|]. intros i a Hi ->. rewrite mget_ok by lia. cbn [bind wp prod_]. cbn [fmul ROps]. ring. }
    rewrite Ed in W. exact W. }
  destruct SE as (e & Ee & SE).
  pose proof (@lu_determinant_ok R ROps RLaws n (fun r c => mel A r c + E r c) L) as LD.
  assert (W : exists d c, @lu_determinant R O L = Ok d /\ fac u n c /\ d = e * @prod_ R ROps n (fun i => mel (lu_m L) i i) * c).
  { unfold lu_determinant. rewrite Ee. cbn [bind]. rewrite H1.
    assert (W : wp (for_ 0 n (fun i result => (x <- mget (lu_m L) i i ;; Ok (@fmul R O result x))%outcome) e) (fun d => exists c, fac u n c /\ d = e * @prod_ R ROps n (fun i => mel (lu_m L) i i) * c)).
    { apply (wp_for (fun k d => exists c, fac u k c /\ d = e * @prod_ R ROps k (fun i => mel (lu_m L) i i) * c)); [lia|exists 1; split; [apply fac_1; exact U|cbn; ring]|].
      intros i a Hi (c & Fc & ->). rewrite mget_ok by lia. cbn [bind wp prod_]. cbn [fmul O FlOps]. match goal with |- context [rnd ?x] => destruct (rnd_fac u rnd RN x) as (h & Fh & ->) end.
      exists (c * h). split; [replace (S i) with (i + 1)%nat by lia; apply fac_mul; assumption|]. cbn [fmul ROps]. ring. }
    apply wp_ok_inv in W. destruct W as (d & Ed & c & Fc & Hd). exists d, c. split; [exact Ed|]. split; assumption. }
  destruct W as (d & c & Ed & Fc & Hd). exists L, info, d, E, c. split; [exact EL|]. split; [exact Ed|]. split.
  - rewrite Hd. f_equal. symmetry. apply SE. apply LD. exact HF.
  - split; [apply (fac_pos u n c U Fc)|]. split; [apply fac_err; [exact U|exact Fc]|exact BE].
Qed.
(** Its sign is right, and it is not 0, unless a matrix within rounding errors of A is singular. *)
Theorem C93_determinant_sign : (forall E, (forall r j, (r < n)%nat -> (j < n)%nat -> Rabs (E r j) <= bwd u n * (growth u n * M)) -> @nonsingular R ROps n (fun r j => mel A r j + E r j)) ->
  exists L d, @lu_construct R O A = Ok (L, None) /\ @lu_determinant R O L = Ok d /\ 0 < d * det n (mel A).
Proof.
  intros NS. destruct C93_determinant as (L & info & d & E & c & EL & Ed & D & C0 & _ & BE). assert (Hi : info = None).
  { destruct info as [i|]; [|reflexivity]. exfalso. destruct (C93_info L (Some i) EL ltac:(discriminate)) as (E' & BE' & N'). apply N'. apply NS. exact BE'. }
  rewrite Hi in EL. exists L, d. split; [exact EL|]. split; [exact Ed|]. rewrite D. replace (det n (fun r j => mel A r j + E r j) * c * det n (mel A)) with (det n (mel A) * det n (fun r j => mel A r j + E r j) * c) by ring.
  apply Rmult_lt_0_compat; [|exact C0]. apply same_sign. intros x Hx. apply (@det_nonsingular R ROps RLaws). apply (NS (fun i j => x * E i j)).
  intros r j Hr Hj. rewrite Rabs_mult. pose proof (BE r j Hr Hj). pose proof (Rabs_pos (E r j)). rewrite (Rabs_right x) by lra. nra.
Qed.
(** How far from det A. *)
Theorem C93_determinant_error : 0 <= M -> forall L info d, @lu_construct R O A = Ok (L, info) -> @lu_determinant R O L = Ok d ->
  Rabs (d - det n (mel A)) <= INR (fact n) * M ^ n * ((1 + bwd u n * growth u n) ^ n * (1 + bwd u n) - 1).
Proof.
  intros M0 L info d EL ED. destruct C93_determinant as (L' & info' & d' & E & c & EL' & ED' & D & C0 & C1 & BE). rewrite EL in EL'. injection EL' as <- <-. rewrite ED in ED'. injection ED' as <-. set (eps := bwd u n * growth u n).
  assert (EP : 0 <= eps) by (apply Rmult_le_pos; [apply bwd_nonneg; exact U|apply (growth_nonneg u rnd RN)]).
  assert (BE' : forall r j, (r < n)%nat -> (j < n)%nat -> Rabs (E r j) <= eps * M) by (intros r j Hr Hj; unfold eps; rewrite Rmult_assoc; apply BE; assumption).
  assert (PM : 0 <= eps * M) by (apply Rmult_le_pos; assumption). pose proof (det_change n (mel A) E M (eps * M) HM BE' M0 PM) as DC.
  assert (DB : Rabs (det n (fun i j => mel A i j + E i j)) <= INR (fact n) * (M + eps * M) ^ n).
  { apply det_bound; [|lra]. intros i j Hi Hj. eapply Rle_trans; [apply Rabs_triang|]. apply Rplus_le_compat; [apply HM|apply BE']; assumption. }
  replace (M + eps * M) with (M * (1 + eps)) in DC, DB by ring. rewrite Rpow_mult_distr in DC, DB. set (D1 := det n (fun i j => mel A i j + E i j)) in *. set (D0 := det n (mel A)) in *.
  rewrite D. replace (D1 * c - D0) with ((D1 - D0) + D1 * (c - 1)) by ring. eapply Rle_trans; [apply Rabs_triang|]. rewrite Rabs_mult.
  assert (T : Rabs D1 * Rabs (c - 1) <= INR (fact n) * (M ^ n * (1 + eps) ^ n) * bwd u n) by (apply Rmult_le_compat; try apply Rabs_pos; assumption). lra.
Qed.
End N.
End P.

(** Non-vacuity: double precision, a matrix that needs an interchange. get_info() is 0, and for every b the result solves a system within 1e-13 of the given one. *)
Example C93_double : exists L, @lu_construct R (FlOps rnd64) exG = Ok (L, None) /\ forall b : vec R, vlen b = 2%nat -> exists x E, @lu_backsub_vec R (FlOps rnd64) L b = Ok x /\ vlen x = 2%nat /\
  (forall r, (r < 2)%nat -> Sum 2 (fun j => (mel exG r j + E r j) * vat x j) = vat b r) /\ (forall r j, (r < 2)%nat -> (j < 2)%nat -> Rabs (E r j) <= / 10 ^ 13).
Proof.
  set (u := / 2 * Flocq.Core.Raux.bpow Flocq.Core.Zaux.radix2 (-52)). assert (U : 0 <= u < / 10 ^ 15 / 4) by exact u64_rng.
  assert (HM : forall i j, (i < 2)%nat -> (j < 2)%nat -> Rabs (mel exG i j) <= 3) by (intros i j Hi Hj; destruct i as [|[|i]], j as [|[|j]]; try lia; cbn; unfold Rabs; destruct (Rcase_abs _); lra).
  assert (G : 0 <= growth u 2 <= 5).
  { split; [apply (growth_nonneg u rnd64 rnd64_rounding)|]. unfold growth. assert (P : (1 + u) ^ 10 <= 5 / 4). { assert (1 <= 1 + u <= 1 + / 100) by lra. assert ((1 + u) ^ 10 <= (1 + / 100) ^ 10) by (apply pow_incr; lra). lra. }
    replace ((1 + u) ^ 2 * (2 * (1 + u) ^ 4) ^ 2) with (4 * (1 + u) ^ 10) by ring. lra. }
  pose proof (bwd64 2 ltac:(lia)) as B2. pose proof (bwd64 4 ltac:(lia)) as B4. fold u in B2, B4. cbn [INR] in B2, B4. pose proof (bwd_nonneg u 2 ltac:(lra)). pose proof (bwd_nonneg u 4 ltac:(lra)).
  destruct (C93_well_conditioned u rnd64 rnd64_rounding 2 exG 3 eq_refl eq_refl HM exGi) as (L & EL & _).
  - intros i k Hi Hk. destruct i as [|[|i]], k as [|[|k]]; try lia; cbn; ring.
  - intros i Hi. assert (S4 : 0 <= Sum 2 (fun j => Rabs (exGi i j)) <= 4).
    { split; [apply S_nonneg; intros; apply Rabs_pos|]. destruct i as [|[|i]]; [| |lia]; cbn; unfold Rabs; repeat destruct (Rcase_abs _); lra. }
    fold u. cbn [INR]. assert (T : 0 <= bwd u 2 * (growth u 2 * 3) <= / 1000). { split; [apply Rmult_le_pos; lra|]. apply (Rle_trans _ (((1 + 1) * (/ 10 ^ 15 / 2)) * (5 * 3))); [apply Rmult_le_compat; lra|lra]. }
    apply (Rle_lt_trans _ (4 * ((1 + 1) * / 1000))); [apply Rmult_le_compat; lra|lra].
  - exists L. split; [exact EL|]. intros b HB. destruct (proj2 (C93_backward_error u rnd64 rnd64_rounding 2 exG 3 eq_refl eq_refl HM L None b EL HB) eq_refl) as (x & E & Ex & Lx & E1 & E2).
    exists x, E. split; [exact Ex|]. split; [exact Lx|]. split; [exact E1|].
    intros r j Hr Hj. eapply Rle_trans; [apply E2; assumption|]. fold u. cbn [Nat.mul Nat.add]. apply (Rle_trans _ ((3 / 10 ^ 15) * (5 * 3))); [apply Rmult_le_compat; lra|lra].
Qed.
Print Assumptions C93_factors. Print Assumptions C93_info. Print Assumptions C93_backward_error. Print Assumptions C93_forward_error. Print Assumptions C93_well_conditioned.
Print Assumptions C93_determinant. Print Assumptions C93_determinant_sign. Print Assumptions C93_determinant_error. Print Assumptions C93_double.
