(** * make_fad_so3, se3, so2, se2. *)
From Coq Require Import Reals Lra Lia Arith Bool FunctionalExtensionality.
From Verif Require Import Base Alg Inst Mat SpecMat LemMat LemOps ModelOps RDeriv RSum ModelLie SpecLie LemLie LemSO3 PropSO3 ModelSE SpecSE LemSE LemSE3 PropSE ModelFad SpecFad LemFad LemFad2.
Open Scope outcome_scope.
Local Open Scope R_scope.

Lemma diff_good D k x : (k < D)%nat -> fad_diff D k x = Ok (mkfad (fval x) true (fun j => if (j =? k)%nat then 1 else 0)).
Proof. intros H. unfold fad_diff. destruct (Nat.ltb_spec k D); [reflexivity|lia]. Qed.
Lemma fad_so3_ok D start : (start + 3 <= D)%nat -> exists m, make_fad_so3 D start = Ok m /\ mrows m = 3%nat /\ mcols m = 3%nat /\
  forall i j, (i < 3)%nat -> (j < 3)%nat -> fval (mel m i j) = ent id3 i j /\
    forall k, dk (mel m i j) k = (if (start <=? k)%nat && (k <? start + 3)%nat then ent (so3_generator (k - start)) i j else 0).
Proof.
  intros H. eassert (X : make_fad_so3 D start = Ok _).
  { unfold make_fad_so3. cbv zeta.
    unfold mget, mset. do 4 (cbn [bind fident mrows mcols mel Nat.ltb Nat.leb Nat.eqb andb fval fconst]; rewrite ?diff_good by lia).
    cbn [bind fident mrows mcols mel Nat.ltb Nat.leb Nat.eqb andb fval fconst]. reflexivity. }
  rewrite X. clear X.
  eexists. split; [reflexivity|]. cbn [mrows mcols mel]. split; [reflexivity|]. split; [reflexivity|].
  intros i j Hi Hj. unfold ent, id3, so3_generator.
  three i Hi; three j Hj; cbn [Nat.eqb andb fident mel fval fmul FadOps fad_mul fconst comp3 vx vy vz r0 r1 r2]; (split; [ring|]); intros k; rewrite ?dk_mul; unfold dk; cbn [fdep fder fval fconst];
    destruct (Nat.leb_spec start k) as [L|L], (Nat.ltb_spec k (start + 3)) as [U|U]; cbn [andb];
    try (assert (K : (k - start = 0 \/ k - start = 1 \/ k - start = 2)%nat) by lia; destruct K as [K|[K|K]]; rewrite K; cbn [comp3 vx vy vz r0 r1 r2]);
    repeat match goal with |- context[(?x =? ?y)%nat] => destruct (Nat.eqb_spec x y); try lia end; try ring.
Qed.
Lemma fad_so3_jet D start p : (start + 3 <= D)%nat -> three_of start p = zero3 -> exists m, make_fad_so3 D start = Ok m /\
  mjet D p 3 3 (fun i j q => ent (so3E start q) i j) m.
Proof.
  intros H Hz. destruct (fad_so3_ok D start H) as (m & E & Rm & Cm & V). exists m. split; [exact E|]. split; [exact Rm|]. split; [exact Cm|].
  intros i j Hi Hj. destruct (V i j Hi Hj) as [Vv Vd]. apply jet_dk. split; [rewrite Vv, so3E_p by exact Hz; reflexivity|].
  intros k Hk. rewrite Vd. apply so3E_partial; assumption.
Qed.
(** make_fad_vector *)
Lemma wp_ex {A} (x : outcome A) (Q : A -> Prop) : wp x Q -> exists a, x = Ok a /\ Q a.
Proof. destruct x; cbn; try contradiction. intros H. eauto. Qed.
Lemma fad_vec_ok D val start : exists v, make_fad_vector D val start = Ok v /\ vlen v = vlen val /\
  forall i, (i < vlen val)%nat -> vat v i = if (start + i <? D)%nat then mkfad (vat val i) true (fun j => if (j =? start + i)%nat then 1 else 0) else fconst (vat val i).
Proof.
  unfold make_fad_vector. apply wp_ex.
  eapply wp_mono; [apply (wp_for (fun k (v : vec fad) => vlen v = vlen val /\ forall i, (i < vlen val)%nat ->
    vat v i = if (i <? k)%nat && (start + i <? D)%nat then mkfad (vat val i) true (fun j => if (j =? start + i)%nat then 1 else 0) else fconst (vat val i)))|].
  - lia.
  - split; [reflexivity|]. intros i Hi. destruct (Nat.ltb_spec i 0); [lia|]. reflexivity.
  - intros i v Hi [Lv Ev]. destruct (Nat.ltb_spec (start + i) D) as [L|L].
    + rewrite vget_ok by lia. cbn [bind]. rewrite diff_good by exact L. cbn [bind]. rewrite vset_ok by lia. cbn [wp]. cbn [vlen vat]. split; [exact Lv|].
      intros j Hj. destruct (Nat.eqb_spec j i) as [->|Hn].
      * destruct (Nat.ltb_spec i (S i)); [|lia]. destruct (Nat.ltb_spec (start + i) D); [|lia]. cbn [andb]. rewrite Ev by exact Hj.
        destruct (Nat.ltb_spec i i); [lia|]. cbn [andb fval fconst]. reflexivity.
      * rewrite Ev by exact Hj. replace (j <? S i)%nat with (j <? i)%nat; [reflexivity|]. destruct (Nat.ltb_spec j i), (Nat.ltb_spec j (S i)); try reflexivity; lia.
    + cbn [wp]. split; [exact Lv|]. intros j Hj. rewrite Ev by exact Hj.
      destruct (Nat.ltb_spec j i), (Nat.ltb_spec j (S i)), (Nat.ltb_spec (start + j) D); cbn [andb]; try reflexivity; lia.
  - intros v [Lv Ev]. split; [exact Lv|]. intros i Hi. rewrite Ev by exact Hi. destruct (Nat.ltb_spec i (vlen val)); [|lia]. reflexivity.
Qed.
Lemma fad_vec_jet D val start p : (start + vlen val <= D)%nat -> (forall i, (i < vlen val)%nat -> p (start + i)%nat = vat val i) ->
  exists v, make_fad_vector D val start = Ok v /\ vjet D p (vlen val) (fun i q => q (start + i)%nat) v.
Proof.
  intros H Hp. destruct (fad_vec_ok D val start) as (v & E & L & V). exists v. split; [exact E|]. split; [exact L|]. intros i Hi. rewrite V by exact Hi.
  destruct (Nat.ltb_spec (start + i) D); [|lia]. destruct (jet_var D p (start + i) (fconst (vat val i))) as (y & Ey & J); [lia|symmetry; apply Hp; exact Hi|].
  rewrite diff_good in Ey by lia. injection Ey as <-. exact J.
Qed.
Lemma three_zero start p : three_of start p = zero3 -> forall i, (i < 3)%nat -> p (start + i)%nat = 0.
Proof. intros E i Hi. injection E as E0 E1 E2. destruct i as [|[|[|i]]]; [rewrite Nat.add_0_r| | |lia]; assumption. Qed.
Lemma fad_se3_jet D start p : (start + 6 <= D)%nat -> three_of start p = zero3 -> three_of (start + 3) p = zero3 -> exists A, make_fad_se3 D start = Ok A /\
  mjet D p 3 3 (fun i j q => ent (rot (se3E start q)) i j) (fr A) /\ vjet D p 3 (fun i q => comp3 (trans (se3E start q)) i) (ft A).
Proof.
  intros H Hz Hz'. unfold make_fad_se3. destruct (fad_so3_ok D (start + 3)) as (m & E & Rm & Cm & V); [lia|]. rewrite E. cbn [bind].
  destruct (fad_vec_ok D (mkvec 3 (fun _ => 0)) start) as (v & Ev & Lv & W). rewrite Ev. cbn [bind]. eexists. split; [reflexivity|]. cbn [fr ft]. cbn [vlen vat] in *. split.
  - split; [exact Rm|]. split; [exact Cm|]. intros i j Hi Hj. destruct (V i j Hi Hj) as [Vv Vd]. apply jet_dk. split.
    { rewrite Vv, se3E_p by assumption. reflexivity. }
    intros k Hk. rewrite Vd. pose proof (se3E_partial start p k i j Hz Hz' ltac:(lia) ltac:(lia)) as P. unfold partial in *.
    eapply D_eq; [eapply D_ext; [exact P|]|].
    + intros h. cbn beta. unfold hom3. destruct (Nat.ltb_spec i 3); [|lia]. destruct (Nat.ltb_spec j 3); [|lia]. reflexivity.
    + destruct (Nat.leb_spec start k), (Nat.ltb_spec k (start + 6)), (Nat.leb_spec (start + 3) k), (Nat.ltb_spec k (start + 3 + 3)); cbn [andb]; try reflexivity; try lia.
      * remember (k - start)%nat as a. replace (k - (start + 3))%nat with (a - 3)%nat by lia. assert (Ha : (a = 3 \/ a = 4 \/ a = 5)%nat) by lia.
        unfold se3_generator, so3_generator, ent. destruct Ha as [Ha|[Ha|Ha]]; rewrite Ha; three i Hi; three j Hj; cbn; ring.
      * remember (k - start)%nat as a. unfold se3_generator. destruct (Nat.ltb_spec a 3); [|lia]. destruct (Nat.eqb_spec j 3); [lia|]. rewrite andb_false_r. reflexivity.
  - split; [exact Lv|]. intros i Hi. rewrite W by exact Hi. destruct (Nat.ltb_spec (start + i) D); [|lia]. apply jet_dk. split.
    { rewrite se3E_p by assumption. cbn [fval se3_default trans]. three i Hi; reflexivity. }
    intros k Hk. unfold dk. cbn [fdep fder]. pose proof (se3E_partial start p k i 3 Hz Hz' ltac:(lia) ltac:(lia)) as P. unfold partial in *.
    eapply D_eq; [eapply D_ext; [exact P|]|].
    + intros h. cbn beta. unfold hom3. destruct (Nat.ltb_spec i 3); [|lia]. reflexivity.
    + destruct (Nat.leb_spec start k), (Nat.ltb_spec k (start + 6)); cbn [andb]; try (destruct (Nat.eqb_spec k (start + i)); [lia|reflexivity]).
      remember (k - start)%nat as a. unfold se3_generator. destruct (Nat.ltb_spec a 3).
      * rewrite Nat.eqb_refl, andb_true_r. destruct (Nat.eqb_spec k (start + i)), (Nat.eqb_spec i a); try reflexivity; lia.
      * destruct (Nat.eqb_spec k (start + i)); [lia|]. assert (Ha : (a = 3 \/ a = 4 \/ a = 5)%nat) by lia. destruct Ha as [Ha|[Ha|Ha]]; rewrite Ha; three i Hi; reflexivity.
Qed.
Lemma fse_mul_jet D p n (fa : nat -> nat -> (nat -> R) -> R) fb (ga : nat -> nat -> (nat -> R) -> R) gb A B :
  mjet D p n n fa (fr A) -> vjet D p n fb (ft A) -> mjet D p n n ga (fr B) -> vjet D p n gb (ft B) ->
  exists C, fse_mul A B = Ok C /\ mjet D p n n (fun i j q => Sum n (fun k => fa i k q * ga k j q)) (fr C) /\
    vjet D p n (fun i q => fb i q + Sum n (fun k => fa i k q * gb k q)) (ft C).
Proof.
  intros JA JB KA KB. unfold fse_mul. destruct (mmul_jet D p n n n fa ga _ _ JA KA) as (c & -> & Jc). cbn [bind].
  destruct (mv_jet D p n n fa gb _ _ JA KB) as (x & -> & Jx). cbn [bind]. destruct (vadd_jet D p n _ _ _ _ JB Jx) as (t & -> & Jt). cbn [bind].
  eexists. split; [reflexivity|]. split; assumption.
Qed.
Lemma vjet_ext D p n f g v : vjet D p n f v -> (forall i q, (i < n)%nat -> f i q = g i q) -> vjet D p n g v.
Proof. intros [L H] E. split; [exact L|]. intros i Hi. eapply jet_ext; [apply H; exact Hi|]. intros q. apply E. exact Hi. Qed.
Lemma mjet_ext D p n m f g v : mjet D p n m f v -> (forall i j q, (i < n)%nat -> (j < m)%nat -> f i j q = g i j q) -> mjet D p n m g v.
Proof. intros (L & L' & H) E. split; [exact L|]. split; [exact L'|]. intros i j Hi Hj. eapply jet_ext; [apply H; assumption|]. intros q. apply E; assumption. Qed.
