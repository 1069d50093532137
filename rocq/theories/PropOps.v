(** * Property theorems C20-C24: vector and matrix arithmetic over any ordered field. *)
From Coq Require Import Arith Bool List Lia Field QArith Qcanon.
From Verif Require Import Base Alg Mat SpecMat LemMat ModelOps LemOps Inst.
Import ListNotations.
Local Open Scope nat_scope.
Local Open Scope F_scope.

(** Concrete data for the examples (rationals). *)
Definition q (z : Z) : Qc := Q2Qc (inject_Z z).
Definition vq (l : list Z) : vec Qc := mkvec (length l) (fun i => q (nth i l 0%Z)).
Definition mq (r c : nat) (l : list Z) : mat Qc := mkmat r c (fun i j => q (nth (i * c + j)%nat l 0%Z)).
Definition vals (x : outcome (vec Qc)) : list Q := match x with Ok v => map (fun i => this (vat v i)) (seq 0 (vlen v)) | _ => [] end.
Definition mvals (x : outcome (mat Qc)) : list (list Q) :=
  match x with Ok m => map (fun r => map (fun c => this (mel m r c)) (seq 0 (mcols m))) (seq 0 (mrows m)) | _ => [] end.

Section P.
Context {F : Type} {Fo : Ops F} {Fl : Laws F}.
Add Field Ff : law_field.

(** ** C20 *)
Theorem C20_vector_elementwise :
  forall (a b : vec F) (s : F), vlen a = vlen b ->
    gives_vec (vadd a b) (vlen a) (fun i => vat a i + vat b i) /\
    gives_vec (vsub a b) (vlen a) (fun i => vat a i - vat b i) /\
    gives_vec (vneg a) (vlen a) (fun i => - vat a i) /\
    gives_vec (vscale a s) (vlen a) (fun i => vat a i * s) /\
    gives_vec (vscale_l s a) (vlen a) (fun i => s * vat a i) /\
    (s <> 0 -> gives_vec (vdivs a s) (vlen a) (fun i => vat a i / s)).
Proof.
  intros a b s H. repeat split; eauto using vadd_ok, vsub_ok, vneg_ok, vscale_ok, vscale_l_ok, vdivs_ok.
Qed.
Theorem C20_matrix_elementwise :
  forall (a b : mat F) (s : F), mrows a = mrows b -> mcols a = mcols b ->
    gives_mat (madd a b) (mrows a) (mcols a) (fun i j => mel a i j + mel b i j) /\
    gives_mat (msub a b) (mrows a) (mcols a) (fun i j => mel a i j - mel b i j) /\
    gives_mat (mneg a) (mrows a) (mcols a) (fun i j => - mel a i j) /\
    gives_mat (mscale a s) (mrows a) (mcols a) (fun i j => mel a i j * s) /\
    gives_mat (mscale_l s a) (mrows a) (mcols a) (fun i j => s * mel a i j) /\
    (s <> 0 -> gives_mat (mdivs a s) (mrows a) (mcols a) (fun i j => mel a i j / s)).
Proof.
  intros a b s H H'. repeat split; eauto using madd_ok, msub_ok, mneg_ok, mscale_ok, mscale_l_ok, mdivs_ok.
Qed.
(** Compound assignment gives what the binary operator gives; in every case, also when the
    sizes differ or the divisor is zero. *)
Theorem C20_compound_assignment :
  forall (a b : vec F) (A B : mat F) (s : F),
    (vlen a = vlen b -> agree_vec (vadd_assign a b) (vadd a b) /\ agree_vec (vsub_assign a b) (vsub a b)) /\
    (vlen a <> vlen b -> vadd_assign a b = Abort DSizeMismatch /\ vadd a b = Abort DSizeMismatch /\
                         vsub_assign a b = Abort DSizeMismatch /\ vsub a b = Abort DSizeMismatch) /\
    agree_vec (vmul_assign a s) (vscale a s) /\
    (s <> 0 -> agree_vec (vdiv_assign a s) (vdivs a s)) /\
    (mrows A = mrows B -> mcols A = mcols B -> agree_mat (madd_assign A B) (madd A B) /\ agree_mat (msub_assign A B) (msub A B)) /\
    (mrows A <> mrows B \/ mcols A <> mcols B ->
       madd_assign A B = Abort DSizeMismatch /\ madd A B = Abort DSizeMismatch /\
       msub_assign A B = Abort DSizeMismatch /\ msub A B = Abort DSizeMismatch) /\
    agree_mat (mmul_assign A s) (mscale A s) /\
    (s <> 0 -> agree_mat (mdiv_assign A s) (mdivs A s)).
Proof.
  intros a b A B s.
  split; [|split; [|split; [|split; [|split; [|split; [|split]]]]]].
  - intros H. split; eapply agree_vec_intro; eauto using vadd_assign_ok, vadd_ok, vsub_assign_ok, vsub_ok.
  - intros H. unfold vadd_assign, vadd, vsub_assign, vsub. rewrite same_size_bad by exact H. auto.
  - eapply agree_vec_intro; [apply vmul_assign_ok|apply vscale_ok].
  - intros H. eapply agree_vec_intro; [apply vdiv_assign_ok; exact H|apply vdivs_ok; exact H].
  - intros H H'. split; eapply agree_mat_intro; eauto using madd_assign_ok, madd_ok, msub_assign_ok, msub_ok.
  - intros H. unfold madd_assign, madd, msub_assign, msub. destruct (Nat.eq_dec (mrows A) (mrows B)) as [E|E].
    + rewrite (same_size_eq _ _ E), same_size_bad by tauto. auto.
    + rewrite same_size_bad by exact E. auto.
  - eapply agree_mat_intro; [apply mmul_assign_ok|apply mscale_ok].
  - intros H. eapply agree_mat_intro; [apply mdiv_assign_ok; exact H|apply mdivs_ok; exact H].
Qed.
Ltac vs L := eapply gives_vec_bind; [apply L; auto; try congruence|]; let v := fresh "v" in let E := fresh "E" in let H := fresh "H" in intros v [E H].
Ltac ve L := eapply gives_vec_ext; [apply L; auto; try congruence|try congruence|cbv beta].
Ltac ms L := eapply gives_mat_bind; [apply L; auto; try congruence|]; let v := fresh "v" in let E := fresh "E" in let E2 := fresh "E" in let H := fresh "H" in intros v (E & E2 & H).
Ltac me L := eapply gives_mat_ext; [apply L; auto; try congruence|try congruence|try congruence|cbv beta].
Theorem C20_vector_space_laws :
  forall (a b c : vec F) (s t : F), vlen a = vlen b -> vlen b = vlen c ->
    agree_vec (vadd a b) (vadd b a) /\
    agree_vec (x <- vadd a b ;; vadd x c) (y <- vadd b c ;; vadd a y) /\
    agree_vec (x <- vsub a b ;; vadd x b) (Ok a) /\
    agree_vec (x <- vneg b ;; vadd a x) (vsub a b) /\
    agree_vec (x <- vadd a b ;; vscale_l s x) (x <- vscale_l s a ;; y <- vscale_l s b ;; vadd x y) /\
    agree_vec (vscale_l (s + t) a) (x <- vscale_l s a ;; y <- vscale_l t a ;; vadd x y) /\
    agree_vec (x <- vscale_l t a ;; vscale_l s x) (vscale_l (s * t) a) /\
    agree_vec (vscale_l 1 a) (Ok a) /\
    agree_vec (vscale_l s a) (vscale a s) /\
    (s <> 0 -> agree_vec (x <- vdivs a s ;; vscale x s) (Ok a)).
Proof.
  intros a b c s t Hab Hbc.
  assert (Self : gives_vec (Ok a) (vlen a) (vat a)) by (exists a; split; [reflexivity|split; auto]).
  repeat split.
  - eapply agree_vec_intro; [apply vadd_ok; auto|]. ve vadd_ok. intros; ring.
  - eapply (agree_vec_intro _ _ (vlen a) (fun i => vat a i + vat b i + vat c i)).
    + vs vadd_ok. ve vadd_ok. intros i Hi. rewrite H by lia. reflexivity.
    + vs vadd_ok. ve vadd_ok. intros i Hi. rewrite H by lia. ring.
  - eapply agree_vec_intro; [|exact Self]. vs vsub_ok. ve vadd_ok. intros i Hi. rewrite H by lia. ring.
  - eapply agree_vec_intro; [|apply vsub_ok; auto]. vs vneg_ok. ve vadd_ok. intros i Hi. rewrite H by lia. ring.
  - eapply (agree_vec_intro _ _ (vlen a) (fun i => s * (vat a i + vat b i))).
    + vs vadd_ok. ve vscale_l_ok. intros i Hi. rewrite H by lia. reflexivity.
    + vs vscale_l_ok. vs vscale_l_ok. ve vadd_ok. intros i Hi. rewrite H, H0 by lia. ring.
  - eapply agree_vec_intro; [apply vscale_l_ok|]. vs vscale_l_ok. vs vscale_l_ok. ve vadd_ok. intros i Hi. rewrite H, H0 by lia. ring.
  - eapply agree_vec_intro; [|apply vscale_l_ok]. vs vscale_l_ok. ve vscale_l_ok. intros i Hi. rewrite H by lia. ring.
  - eapply agree_vec_intro; [|exact Self]. ve vscale_l_ok. intros; ring.
  - eapply agree_vec_intro; [apply vscale_l_ok|]. ve vscale_ok. intros; ring.
  - intros Hs. eapply agree_vec_intro; [|exact Self]. vs vdivs_ok. ve vscale_ok. intros i Hi. rewrite H by lia. field. exact Hs.
Qed.
Theorem C20_matrix_space_laws :
  forall (a b c : mat F) (s t : F), mrows a = mrows b -> mcols a = mcols b -> mrows b = mrows c -> mcols b = mcols c ->
    agree_mat (madd a b) (madd b a) /\
    agree_mat (x <- madd a b ;; madd x c) (y <- madd b c ;; madd a y) /\
    agree_mat (x <- msub a b ;; madd x b) (Ok a) /\
    agree_mat (x <- mneg b ;; madd a x) (msub a b) /\
    agree_mat (x <- madd a b ;; mscale_l s x) (x <- mscale_l s a ;; y <- mscale_l s b ;; madd x y) /\
    agree_mat (mscale_l (s + t) a) (x <- mscale_l s a ;; y <- mscale_l t a ;; madd x y) /\
    agree_mat (x <- mscale_l t a ;; mscale_l s x) (mscale_l (s * t) a) /\
    agree_mat (mscale_l s a) (mscale a s) /\
    (s <> 0 -> agree_mat (x <- mdivs a s ;; mscale x s) (Ok a)).
Proof.
  intros a b c s t Hr Hc Hr' Hc'.
  assert (Self : gives_mat (Ok a) (mrows a) (mcols a) (mel a)) by (exists a; split; [reflexivity|split; [|split]; auto]).
  repeat split.
  - eapply agree_mat_intro; [apply madd_ok; auto|]. me madd_ok. intros; ring.
  - eapply (agree_mat_intro _ _ (mrows a) (mcols a) (fun i j => mel a i j + mel b i j + mel c i j)).
    + ms madd_ok. me madd_ok. intros i j Hi Hj. rewrite H by lia. reflexivity.
    + ms madd_ok. me madd_ok. intros i j Hi Hj. rewrite H by lia. ring.
  - eapply agree_mat_intro; [|exact Self]. ms msub_ok. me madd_ok. intros i j Hi Hj. rewrite H by lia. ring.
  - eapply agree_mat_intro; [|apply msub_ok; auto]. ms mneg_ok. me madd_ok. intros i j Hi Hj. rewrite H by lia. ring.
  - eapply (agree_mat_intro _ _ (mrows a) (mcols a) (fun i j => s * (mel a i j + mel b i j))).
    + ms madd_ok. me mscale_l_ok. intros i j Hi Hj. rewrite H by lia. reflexivity.
    + ms mscale_l_ok. ms mscale_l_ok. me madd_ok. intros i j Hi Hj. rewrite H, H0 by lia. ring.
  - eapply agree_mat_intro; [apply mscale_l_ok|]. ms mscale_l_ok. ms mscale_l_ok. me madd_ok. intros i j Hi Hj. rewrite H, H0 by lia. ring.
  - eapply agree_mat_intro; [|apply mscale_l_ok]. ms mscale_l_ok. me mscale_l_ok. intros i j Hi Hj. rewrite H by lia. ring.
  - eapply agree_mat_intro; [apply mscale_l_ok|]. me mscale_ok. intros; ring.
  - intros Hs. eapply agree_mat_intro; [|exact Self]. ms mdivs_ok. me mscale_ok. intros i j Hi Hj. rewrite H by lia. field. exact Hs.
Qed.
(** == is elementwise equality and != is its negation; unequal sizes stop. *)
Theorem C20_equality :
  (forall a b : vec F, vlen a = vlen b -> exists q, vequal a b = Ok q /\ vnotequal a b = Ok (negb q) /\
     (q = true <-> forall i, (i < vlen a)%nat -> vat a i = vat b i)) /\
  (forall A B : mat F, mrows A = mrows B -> mcols A = mcols B -> exists q, mequal A B = Ok q /\ mnotequal A B = Ok (negb q) /\
     (q = true <-> forall i j, (i < mrows A)%nat -> (j < mcols A)%nat -> mel A i j = mel B i j)) /\
  (forall a b : vec F, vlen a <> vlen b -> vequal a b = Abort DSizeMismatch /\ vnotequal a b = Abort DSizeMismatch).
Proof.
  split; [exact vequal_ok|]. split; [exact mequal_ok|]. intros a b H. unfold vequal, vnotequal. rewrite same_size_bad by exact H. auto.
Qed.
(** Dividing a nonempty vector by zero gives no finite result. *)
Theorem C20_divide_by_zero : forall a : vec F, (0 < vlen a)%nat -> vdivs a 0 = NonFinite.
Proof. exact vdivs_zero. Qed.

(** ** C21 *)
Theorem C21_dot_is_sum_of_products :
  forall a b : vec F,
    (vlen a = vlen b -> dot a b = Ok (sum (vlen a) (fun i => vat a i * vat b i))) /\
    (vlen a <> vlen b -> dot a b = Abort DSizeMismatch).
Proof. intros a b. split; [apply dot_ok|apply dot_bad]. Qed.
Theorem C21_symmetric_bilinear :
  forall (a b c : vec F) (s : F), vlen a = vlen b -> vlen b = vlen c ->
    dot a b = dot b a /\
    (exists x y, dot a c = Ok x /\ dot b c = Ok y /\ (v <- vadd a b ;; dot v c) = Ok (x + y)) /\
    (exists x, dot a c = Ok x /\ (v <- vscale_l s a ;; dot v c) = Ok (s * x)).
Proof.
  intros a b c s Hab Hbc. split; [|split].
  - rewrite !dot_ok by congruence. rewrite Hab. f_equal. apply sum_ext. intros; ring.
  - do 2 eexists. split; [apply dot_ok; congruence|]. split; [apply dot_ok; congruence|].
    destruct (vadd_ok a b Hab) as (v & -> & E & H). cbn [bind]. rewrite dot_ok by congruence. f_equal.
    rewrite <- Hab, E, <- sum_add. apply sum_ext. intros i Hi. rewrite H by exact Hi. ring.
  - eexists. split; [apply dot_ok; congruence|].
    destruct (vscale_l_ok a s) as (v & -> & E & H). cbn [bind]. rewrite dot_ok by congruence. f_equal.
    rewrite E, <- sum_mul_l. apply sum_ext. intros i Hi. rewrite H by exact Hi. ring.
Qed.
Theorem C21_norm_sq_positive :
  forall a : vec F, exists x, dot a a = Ok x /\ 0 <= x /\ (x = 0 <-> forall i, (i < vlen a)%nat -> vat a i = 0).
Proof.
  intros a. eexists. split; [apply dot_ok; reflexivity|]. split; [apply sum_nonneg; intros; apply sq_nonneg|]. split.
  - intros H i Hi. pose proof (sum_nonneg_zero _ _ (fun i _ => sq_nonneg (vat a i)) H i Hi) as E. apply mul_zero in E. tauto.
  - intros H. apply sum_zero. intros i Hi. rewrite H by exact Hi. ring.
Qed.
Theorem C21_cauchy_schwarz :
  forall a b : vec F, vlen a = vlen b ->
    exists x y z, dot a b = Ok x /\ dot a a = Ok y /\ dot b b = Ok z /\ x * x <= y * z.
Proof.
  intros a b H. do 3 eexists. split; [apply dot_ok; exact H|]. split; [apply dot_ok; reflexivity|]. split; [apply dot_ok; reflexivity|].
  rewrite <- H. apply cauchy_schwarz.
Qed.

(** ** C22 *)
Theorem C22_product_entries :
  forall a b : mat F,
    (mcols a = mrows b -> gives_mat (mmul a b) (mrows a) (mcols b) (fun i j => sum (mcols a) (fun k => mel a i k * mel b k j))) /\
    (mcols a <> mrows b -> mmul a b = Abort DSizeMismatch).
Proof. intros a b. split; [apply mmul_ok|]. intros H. unfold mmul. rewrite same_size_bad by exact H. reflexivity. Qed.
Theorem C22_associative :
  forall a b c : mat F, mcols a = mrows b -> mcols b = mrows c ->
    agree_mat (x <- mmul a b ;; mmul x c) (y <- mmul b c ;; mmul a y).
Proof.
  intros a b c Hab Hbc.
  eapply (agree_mat_intro _ _ (mrows a) (mcols c) (fun i j => sum (mcols a) (fun k => sum (mcols b) (fun l => mel a i k * (mel b k l * mel c l j))))).
  - ms mmul_ok. me mmul_ok. intros i j Hi Hj. rewrite E0.
    transitivity (sum (mcols b) (fun l => sum (mcols a) (fun k => mel a i k * (mel b k l * mel c l j)))).
    + apply sum_ext. intros l Hl. rewrite H by (congruence || lia). rewrite <- sum_mul_r. apply sum_ext. intros; ring.
    + apply sum_swap.
  - ms mmul_ok. me mmul_ok. intros i j Hi Hj. apply sum_ext. intros k Hk. rewrite H by (congruence || lia).
    rewrite <- sum_mul_l. reflexivity.
Qed.
Theorem C22_distributes :
  forall a b c : mat F, mrows b = mrows c -> mcols b = mcols c ->
    (mcols a = mrows b -> agree_mat (x <- madd b c ;; mmul a x) (x <- mmul a b ;; y <- mmul a c ;; madd x y) /\
                          agree_mat (x <- msub b c ;; mmul a x) (x <- mmul a b ;; y <- mmul a c ;; msub x y)) /\
    (mcols b = mrows a -> agree_mat (x <- madd b c ;; mmul x a) (x <- mmul b a ;; y <- mmul c a ;; madd x y) /\
                          agree_mat (x <- msub b c ;; mmul x a) (x <- mmul b a ;; y <- mmul c a ;; msub x y)).
Proof.
  intros a b c Hr Hc. split; intros Hab; split.
  - eapply (agree_mat_intro _ _ (mrows a) (mcols b) (fun i j => sum (mcols a) (fun k => mel a i k * mel b k j) + sum (mcols a) (fun k => mel a i k * mel c k j))).
    + ms madd_ok. me mmul_ok. intros i j Hi Hj. rewrite <- sum_add. apply sum_ext. intros k Hk. rewrite H by (congruence || lia). ring.
    + ms mmul_ok. ms mmul_ok. me madd_ok. intros i j Hi Hj. rewrite H, H0 by (congruence || lia). reflexivity.
  - eapply (agree_mat_intro _ _ (mrows a) (mcols b) (fun i j => sum (mcols a) (fun k => mel a i k * mel b k j) - sum (mcols a) (fun k => mel a i k * mel c k j))).
    + ms msub_ok. me mmul_ok. intros i j Hi Hj. rewrite <- sum_sub. apply sum_ext. intros k Hk. rewrite H by (congruence || lia). ring.
    + ms mmul_ok. ms mmul_ok. me msub_ok. intros i j Hi Hj. rewrite H, H0 by (congruence || lia). reflexivity.
  - eapply (agree_mat_intro _ _ (mrows b) (mcols a) (fun i j => sum (mcols b) (fun k => mel b i k * mel a k j) + sum (mcols c) (fun k => mel c i k * mel a k j))).
    + ms madd_ok. me mmul_ok. intros i j Hi Hj. rewrite <- Hc, E0, <- sum_add. apply sum_ext. intros k Hk. rewrite H by (congruence || lia). ring.
    + ms mmul_ok. ms mmul_ok. me madd_ok. intros i j Hi Hj. rewrite H, H0 by (congruence || lia). reflexivity.
  - eapply (agree_mat_intro _ _ (mrows b) (mcols a) (fun i j => sum (mcols b) (fun k => mel b i k * mel a k j) - sum (mcols c) (fun k => mel c i k * mel a k j))).
    + ms msub_ok. me mmul_ok. intros i j Hi Hj. rewrite <- Hc, E0, <- sum_sub. apply sum_ext. intros k Hk. rewrite H by (congruence || lia). ring.
    + ms mmul_ok. ms mmul_ok. me msub_ok. intros i j Hi Hj. rewrite H, H0 by (congruence || lia). reflexivity.
Qed.
Theorem C22_transpose_of_product :
  forall a b : mat F, mcols a = mrows b ->
    agree_mat (x <- mmul a b ;; Ok (tr x)) (mmul (tr b) (tr a)).
Proof.
  intros a b Hab. eapply (agree_mat_intro _ _ (mcols b) (mrows a) (fun i j => sum (mcols a) (fun k => mel a j k * mel b k i))).
  - ms mmul_ok. eexists. split; [reflexivity|]. split; [exact E0|]. split; [exact E|]. intros i j Hi Hj. cbn. apply H; assumption.
  - eapply gives_mat_ext; [apply mmul_ok; cbn; congruence|reflexivity|reflexivity|]. intros i j Hi Hj. cbn.
    rewrite <- Hab. apply sum_ext. intros; ring.
Qed.
Theorem C22_identity_neutral :
  forall (a e : mat F),
    (mat_is e (mrows a) (mrows a) delta -> agree_mat (mmul e a) (Ok a)) /\
    (mat_is e (mcols a) (mcols a) delta -> agree_mat (mmul a e) (Ok a)).
Proof.
  intros a e. assert (Self : gives_mat (Ok a) (mrows a) (mcols a) (mel a)) by (exists a; split; [reflexivity|split; [|split]; auto]).
  split; intros (H1 & H2 & H3); eapply agree_mat_intro; try exact Self.
  - me mmul_ok. intros i j Hi Hj. rewrite (sum_one _ i).
    + rewrite H3 by lia. unfold delta. rewrite Nat.eqb_refl. ring.
    + lia.
    + intros k Hk Hne. rewrite H3 by lia. unfold delta. destruct (Nat.eqb_spec i k); [lia|ring].
  - me mmul_ok. intros i j Hi Hj. rewrite (sum_one _ j).
    + rewrite H3 by lia. unfold delta. rewrite Nat.eqb_refl. ring.
    + lia.
    + intros k Hk Hne. rewrite H3 by lia. unfold delta. destruct (Nat.eqb_spec k j); [lia|ring].
Qed.
(** M*v and v*M are multiplication by the column, respectively row, matrix of v. *)
Theorem C22_matrix_vector :
  forall (a : mat F) (v : vec F),
    (mcols a = vlen v -> gives_vec (mv a v) (mrows a) (fun i => sum (mcols a) (fun k => mel a i k * vat v k)) /\
       agree_mat (w <- mv a v ;; Ok (as_col w)) (mmul a (as_col v))) /\
    (mrows a = vlen v -> gives_vec (vm v a) (mcols a) (fun j => sum (mrows a) (fun k => vat v k * mel a k j)) /\
       agree_mat (w <- vm v a ;; Ok (as_row w)) (mmul (as_row v) a)).
Proof.
  intros a v. split; intros H.
  - split; [apply mv_ok; exact H|]. eapply agree_mat_intro; [|apply mmul_ok; exact H].
    destruct (mv_ok a v H) as (w & -> & E & G). eexists. split; [reflexivity|]. split; [exact E|]. split; [reflexivity|].
    intros i j Hi Hj. cbn. apply G. exact Hi.
  - split; [apply vm_ok; exact H|]. eapply agree_mat_intro; [|apply mmul_ok; cbn; congruence].
    destruct (vm_ok a v H) as (w & -> & E & G). eexists. split; [reflexivity|]. split; [reflexivity|]. split; [exact E|].
    intros i j Hi Hj. cbn. rewrite G by exact Hj. rewrite H. reflexivity.
Qed.

(** ** C23 *)
(** DiagonalMatrix converted to a Matrix: the vector on the diagonal, zeros elsewhere. *)
Theorem C23_diagonal_to_matrix :
  forall (dynamic : bool) (d : vec F),
    gives_mat (diag_eval dynamic d (vlen d) (vlen d)) (vlen d) (vlen d) (fun i j => if i =? j then vat d i else 0).
Proof. intros dyn d. apply diag_eval_ok; [apply Nat.min_id|reflexivity]. Qed.
(** Each diagonal product equals the ordinary product with that matrix. *)
Theorem C23_diagonal_products :
  forall (dynamic : bool) (d e v : vec F) (m : mat F), vlen d = vlen e -> vlen d = vlen v ->
    agree_vec (diag_vec d v) (D <- diag_eval dynamic d (vlen d) (vlen d) ;; mv D v) /\
    agree_vec (vec_diag v d) (D <- diag_eval dynamic d (vlen d) (vlen d) ;; vm v D) /\
    agree_mat (p <- diag_diag d e ;; diag_eval dynamic p (vlen p) (vlen p))
              (D <- diag_eval dynamic d (vlen d) (vlen d) ;; E <- diag_eval dynamic e (vlen e) (vlen e) ;; mmul D E) /\
    (mrows m = vlen d -> agree_mat (diag_mat d m) (D <- diag_eval dynamic d (vlen d) (vlen d) ;; mmul D m)) /\
    (mcols m = vlen d -> agree_mat (mat_diag m d) (D <- diag_eval dynamic d (vlen d) (vlen d) ;; mmul m D)).
Proof.
  intros dyn d e v m Hde Hdv.
  destruct (C23_diagonal_to_matrix dyn d) as (D & ED & D1 & D2 & D3). rewrite ED.
  destruct (C23_diagonal_to_matrix dyn e) as (E & EE & E1 & E2 & E3). rewrite EE. cbn [bind].
  assert (K : forall x y z, x = y -> (if x =? y then z else 0) = (z:F)) by (intros x y z ->; rewrite Nat.eqb_refl; reflexivity).
  assert (K' : forall x y z, x <> y -> (if x =? y then z else 0) = (0:F)) by (intros x y z H; apply Nat.eqb_neq in H; rewrite H; reflexivity).
  repeat split.
  - eapply agree_vec_intro; [apply vdiagmult_ok; congruence|]. eapply gives_vec_ext; [apply mv_ok; congruence|congruence|].
    intros i Hi. cbn. rewrite (sum_one _ i); [rewrite D3, K by lia; reflexivity|lia|]. intros k Hk Hne. rewrite D3, K' by lia. ring.
  - eapply agree_vec_intro; [eapply gives_vec_ext; [apply vdiagmult_ok; congruence|symmetry; exact Hdv|reflexivity]|].
    eapply gives_vec_ext; [apply vm_ok; congruence|congruence|].
    intros i Hi. cbn. rewrite (sum_one _ i); [rewrite D3, K by lia; reflexivity|lia|]. intros k Hk Hne. rewrite D3, K' by lia. ring.
  - destruct (vdiagmult_ok d e Hde) as (p & Ep & P1 & P2). unfold diag_diag. rewrite Ep. cbn [bind].
    eapply agree_mat_intro; [apply C23_diagonal_to_matrix|]. eapply gives_mat_ext; [apply mmul_ok; congruence|congruence|congruence|].
    intros i j Hi Hj. cbn. destruct (Nat.eqb_spec i j) as [<-|Hne].
    + rewrite (sum_one _ i); [rewrite D3, E3, !K, P2 by lia; reflexivity|lia|]. intros k Hk Hne. rewrite D3, K' by lia. ring.
    + apply sum_zero. intros k Hk. destruct (Nat.eq_dec i k) as [<-|].
      * rewrite E3, K' by lia. ring.
      * rewrite D3, K' by lia. ring.
  - intros Hm. eapply agree_mat_intro; [apply vmdiag_ok; congruence|]. eapply gives_mat_ext; [apply mmul_ok; congruence|congruence|congruence|].
    intros i j Hi Hj. cbn. rewrite (sum_one _ i); [rewrite D3, K by lia; reflexivity|lia|]. intros k Hk Hne. rewrite D3, K' by lia. ring.
  - intros Hm. eapply agree_mat_intro; [apply mvdiag_ok; congruence|]. eapply gives_mat_ext; [apply mmul_ok; congruence|congruence|congruence|].
    intros i j Hi Hj. cbn. rewrite (sum_one _ j); [rewrite D3, K by lia; reflexivity|lia|]. intros k Hk Hne. rewrite D3, K' by lia. ring.
Qed.
(** The negated diagonal matrix is the negated matrix. *)
Theorem C23_diagonal_negation :
  forall (dynamic : bool) (d : vec F),
    agree_mat (n <- diag_neg d ;; diag_eval dynamic n (vlen n) (vlen n)) (D <- diag_eval dynamic d (vlen d) (vlen d) ;; mneg D).
Proof.
  intros dyn d. destruct (C23_diagonal_to_matrix dyn d) as (D & ED & D1 & D2 & D3). rewrite ED.
  destruct (vneg_ok d) as (n & En & N1 & N2). unfold diag_neg. rewrite En. cbn [bind].
  eapply agree_mat_intro; [apply C23_diagonal_to_matrix|]. eapply gives_mat_ext; [apply mneg_ok|congruence|congruence|].
  intros i j Hi Hj. cbn. rewrite D3 by lia. destruct (i =? j); [rewrite N2 by lia; reflexivity|ring].
Qed.
Theorem C23_diagonal_inverse :
  forall d : vec F,
    ((forall i, (i < vlen d)%nat -> vat d i <> 0) ->
       gives_vec (e <- diag_inverse d ;; diag_diag d e) (vlen d) (fun _ => 1) /\
       gives_vec (e <- diag_inverse d ;; diag_diag e d) (vlen d) (fun _ => 1)) /\
    (forall v, diag_inverse d = Ok v -> forall i, (i < vlen d)%nat -> vat d i <> 0).
Proof.
  intros d. split.
  - intros H. destruct (vfor_ok (vlen d) (fun i => x <- vget d i ;; div 1 x) (fun i => 1 / vat d i)) as (e & Ee & E1 & E2).
    { intros i Hi. rewrite vget_ok by exact Hi. cbn. apply div_ok. auto. }
    unfold diag_inverse. rewrite Ee. cbn [bind]. split.
    + eapply gives_vec_ext; [apply vdiagmult_ok; congruence|reflexivity|]. intros i Hi. cbn. rewrite E2 by exact Hi. field. auto.
    + eapply gives_vec_ext; [apply vdiagmult_ok; congruence|exact E1|]. intros i Hi. cbn. rewrite E2 by lia. field. rewrite E1 in Hi; auto.
  - intros v E. assert (W : wlp (diag_inverse d) (fun _ => forall i, (i < vlen d)%nat -> vat d i <> 0)).
    { unfold diag_inverse, vfor. eapply wlp_mono; [apply (wlp_for (fun k w => vlen w = vlen d /\ forall i, (i < k)%nat -> vat d i <> 0))|].
      - lia.
      - split; [reflexivity|]. lia.
      - intros i w Hi [Hl H]. rewrite vget_ok by lia. cbn [bind]. unfold div. destruct (feqb (vat d i) 0) eqn:Ez; [exact I|]. cbn [bind].
        rewrite vset_ok by lia. cbn. split; [exact Hl|]. intros j Hj. destruct (Nat.eq_dec j i) as [->|]; [|apply H; lia].
        intros Z. rewrite Z, eqb_refl in Ez. discriminate.
      - intros w [_ H]. exact H. }
    rewrite E in W. exact W.
Qed.

(** ** C24 *)
Theorem C24_cross_product :
  forall a b c : vec F, vlen a = 3%nat -> vlen b = 3%nat -> vlen c = 3%nat ->
    (* orthogonal to both operands *)
    (x <- cross a b ;; dot x a) = Ok 0 /\ (x <- cross a b ;; dot x b) = Ok 0 /\
    (* anticommutative *)
    agree_vec (cross a b) (x <- cross b a ;; vneg x) /\
    (* Lagrange: |a^b|^2 = |a|^2|b|^2 - (a.b)^2 *)
    (exists n x y z, (p <- cross a b ;; dot p p) = Ok n /\ dot a a = Ok x /\ dot b b = Ok y /\ dot a b = Ok z /\ n = x * y - z * z) /\
    (* Jacobi *)
    gives_vec (p <- cross b c ;; u <- cross a p ;; q <- cross c a ;; v <- cross b q ;; r <- cross a b ;; w <- cross c r ;;
               s <- vadd u v ;; vadd s w) 3 (fun _ => 0).
Proof.
  intros a b c Ha Hb Hc.
  destruct (cross_ok a b Ha Hb) as (x & Ex & X1 & X2).
  destruct (cross_ok b a Hb Ha) as (x' & Ex' & X1' & X2').
  destruct (cross_ok b c Hb Hc) as (p & Ep & P1 & P2).
  destruct (cross_ok c a Hc Ha) as (q & Eq & Q1 & Q2).
  destruct (cross_ok a p Ha P1) as (u & Eu & U1 & U2).
  destruct (cross_ok b q Hb Q1) as (v & Ev & V1 & V2).
  destruct (cross_ok c x Hc X1) as (w & Ew & W1 & W2).
  rewrite Ex, Ex', Ep, Eq. cbn [bind]. repeat split.
  - rewrite dot_ok by congruence. rewrite X1. cbn [sum]. rewrite !X2 by lia. f_equal. ring.
  - rewrite dot_ok by congruence. rewrite X1. cbn [sum]. rewrite !X2 by lia. f_equal. ring.
  - eapply agree_vec_intro; [exists x; split; [reflexivity|split; [exact X1|exact X2]]|].
    eapply gives_vec_ext; [apply vneg_ok|exact X1'|]. cbv beta. intros i Hi. rewrite X2' by lia. destruct i as [|[|[|i]]]; [ring|ring|ring|lia].
  - do 4 eexists. split; [apply dot_ok; reflexivity|]. split; [apply dot_ok; reflexivity|]. split; [apply dot_ok; reflexivity|].
    split; [apply dot_ok; congruence|]. rewrite X1, Ha, Hb. cbn [sum]. rewrite !X2 by lia. ring.
  - rewrite Eu. cbn [bind]. rewrite Ev. cbn [bind]. rewrite Ew. cbn [bind].
    destruct (vadd_ok u v) as (s & Es & S1 & S2); [congruence|]. rewrite Es. cbn [bind].
    eapply gives_vec_ext; [apply vadd_ok; congruence|congruence|]. cbv beta. intros i Hi. rewrite S2 by lia. rewrite U2, V2, W2 by lia.
    destruct i as [|[|[|i]]]; [| | |lia]; rewrite ?P2, ?Q2, ?X2 by lia; ring.
Qed.
End P.
Print Assumptions C20_vector_elementwise.
Print Assumptions C20_matrix_elementwise.
Print Assumptions C20_compound_assignment.
Print Assumptions C20_vector_space_laws.
Print Assumptions C20_matrix_space_laws.
Print Assumptions C20_equality.
Print Assumptions C20_divide_by_zero.
Print Assumptions C21_dot_is_sum_of_products.
Print Assumptions C21_symmetric_bilinear.
Print Assumptions C21_norm_sq_positive.
Print Assumptions C21_cauchy_schwarz.
Print Assumptions C22_product_entries.
Print Assumptions C22_associative.
Print Assumptions C22_distributes.
Print Assumptions C22_transpose_of_product.
Print Assumptions C22_identity_neutral.
Print Assumptions C22_matrix_vector.
Print Assumptions C23_diagonal_to_matrix.
Print Assumptions C23_diagonal_products.
Print Assumptions C23_diagonal_inverse.
Print Assumptions C23_diagonal_negation.
Print Assumptions C24_cross_product.

(** The scalar laws are met by the rationals and the reals. *)
Example scalars_nonvac : Laws Qc /\ Laws Rdefinitions.R.
Proof. split; [exact QcLaws|exact RLaws]. Qed.
Example C20_nonvac : vals (vsub (vq [1;2;3]%Z) (vq [5;0;1]%Z)) = [(-4)#1; 2#1; 2#1]%Q /\
  vals (vdivs (vq [1;2]%Z) (q 2)) = [1#2; 1#1]%Q /\ vequal (vq [1;2]%Z) (vq [1;2]%Z) = Ok true.
Proof. vm_compute. auto. Qed.
Example C22_nonvac : mvals (mmul (mq 2 3 [1;2;3;4;5;6]%Z) (mq 3 1 [1;0;2]%Z)) = [[7#1]; [16#1]]%Q.
Proof. reflexivity. Qed.
Example C23_nonvac : mvals (diag_eval true (vq [4;5]%Z) 2 2) = [[4#1;0#1];[0#1;5#1]]%Q /\
  vals (diag_inverse (vq [4;5]%Z)) = [1#4;1#5]%Q.
Proof. split; reflexivity. Qed.
Example C24_nonvac : vals (cross (vq [1;2;3]%Z) (vq [4;5;6]%Z)) = [(-3)#1; 6#1; (-3)#1]%Q.
Proof. reflexivity. Qed.
