(** * GR_SVD: exact values of vectors and matrices, and the inner loops *)
From Coq Require Import Reals Arith Bool Lia Lra Psatz.
From Verif Require Import Base Alg Inst Mat SpecMat LemMat RSum ModelOps ModelSVD ModelGR SpecExp LemEig LemExp RRect.
Open Scope outcome_scope.
Local Open Scope R_scope.

(** sizes and all the elements, also those out of range *)
Definition mis (U : mat R) (m n : nat) (f : rmat) : Prop := mrows U = m /\ mcols U = n /\ forall r c, mel U r c = f r c.
Definition vis (v : vec R) (n : nat) (f : nat -> R) : Prop := vlen v = n /\ forall i, vat v i = f i.
Definition upd2 (f : rmat) (r c : nat) (x : R) : rmat := fun i j => if ((i =? r) && (j =? c))%nat then x else f i j.
Definition upd1 (f : nat -> R) (r : nat) (x : R) : nat -> R := fun i => if (i =? r)%nat then x else f i.
Lemma upd2_in f r c x : upd2 f r c x r c = x. Proof. unfold upd2. rewrite !Nat.eqb_refl. reflexivity. Qed.
Lemma upd2_out f r c x i j : i <> r \/ j <> c -> upd2 f r c x i j = f i j.
Proof. intros H. unfold upd2. destruct (Nat.eqb_spec i r); [|reflexivity]. destruct (Nat.eqb_spec j c); [|reflexivity]. destruct H; contradiction. Qed.
Lemma upd1_in f r x : upd1 f r x r = x. Proof. unfold upd1. rewrite Nat.eqb_refl. reflexivity. Qed.
Lemma upd1_out f r x i : i <> r -> upd1 f r x i = f i. Proof. intros H. unfold upd1. destruct (Nat.eqb_spec i r); [contradiction|reflexivity]. Qed.
Lemma mis_ext U m n f g : mis U m n f -> (forall r c, f r c = g r c) -> mis U m n g.
Proof. intros (A & B & C) E. split; [exact A|split; [exact B|]]. intros. rewrite C. apply E. Qed.
Lemma vis_ext U n f g : vis U n f -> (forall r, f r = g r) -> vis U n g.
Proof. intros (A & C) E. split; [exact A|]. intros. rewrite C. apply E. Qed.
Lemma mis_self U : mis U (mrows U) (mcols U) (mel U). Proof. split; [reflexivity|split; reflexivity]. Qed.
Lemma vis_self U : vis U (vlen U) (vat U). Proof. split; reflexivity. Qed.
Lemma wp_mget {B} U m n f r c (k : R -> outcome B) Q : mis U m n f -> (r < m)%nat -> (c < n)%nat -> wp (k (f r c)) Q -> wp (bind (mget U r c) k) Q.
Proof. intros (A & A2 & C) Hr Hc H. rewrite mget_ok by lia. cbn [bind]. rewrite C. exact H. Qed.
Lemma wp_vget {B} U n f r (k : R -> outcome B) Q : vis U n f -> (r < n)%nat -> wp (k (f r)) Q -> wp (bind (vget U r) k) Q.
Proof. intros (A & C) Hr H. rewrite vget_ok by lia. cbn [bind]. rewrite C. exact H. Qed.
Lemma mset_mis U m n f r c x : mis U m n f -> (r < m)%nat -> (c < n)%nat -> exists U', mset U r c x = Ok U' /\ mis U' m n (upd2 f r c x).
Proof. intros (A & A2 & C) Hr Hc. rewrite mset_ok by lia. eexists. split; [reflexivity|]. split; [exact A|split; [exact A2|]]. intros i j. cbn [mel]. unfold upd2. rewrite C. reflexivity. Qed.
Lemma vset_vis U n f r x : vis U n f -> (r < n)%nat -> exists U', vset U r x = Ok U' /\ vis U' n (upd1 f r x).
Proof. intros (A & C) Hr. rewrite vset_ok by lia. eexists. split; [reflexivity|]. split; [exact A|]. intros i. cbn [vat]. unfold upd1. rewrite C. reflexivity. Qed.
Lemma wp_mset {B} U m n f r c x (k : mat R -> outcome B) Q : mis U m n f -> (r < m)%nat -> (c < n)%nat -> (forall U', mis U' m n (upd2 f r c x) -> wp (k U') Q) -> wp (bind (mset U r c x) k) Q.
Proof. intros H Hr Hc K. destruct (mset_mis U m n f r c x H Hr Hc) as (U' & -> & H'). exact (K U' H'). Qed.
Lemma wp_mset_end U m n f r c x (Q : mat R -> Prop) : mis U m n f -> (r < m)%nat -> (c < n)%nat -> (forall U', mis U' m n (upd2 f r c x) -> Q U') -> wp (mset U r c x) Q.
Proof. intros H Hr Hc K. destruct (mset_mis U m n f r c x H Hr Hc) as (U' & -> & H'). exact (K U' H'). Qed.
Lemma wp_vset {B} U n f r x (k : vec R -> outcome B) Q : vis U n f -> (r < n)%nat -> (forall U', vis U' n (upd1 f r x) -> wp (k U') Q) -> wp (bind (vset U r x) k) Q.
Proof. intros H Hr K. destruct (vset_vis U n f r x H Hr) as (U' & -> & H'). exact (K U' H'). Qed.
Lemma wp_vset_end U n f r x (Q : vec R -> Prop) : vis U n f -> (r < n)%nat -> (forall U', vis U' n (upd1 f r x) -> Q U') -> wp (vset U r x) Q.
Proof. intros H Hr K. destruct (vset_vis U n f r x H Hr) as (U' & -> & H'). exact (K U' H'). Qed.
Lemma wp_div {B} a b (k : R -> outcome B) Q : b <> 0 -> wp (k (a / b)) Q -> wp (bind (div (F:=R) a b) k) Q.
Proof. intros H K. rewrite R_div_ok by exact H. exact K. Qed.
Lemma wp_seq {A B} (x : outcome A) (P : A -> Prop) (k : A -> outcome B) Q : wp x P -> (forall a, P a -> wp (k a) Q) -> wp (bind x k) Q.
Proof. intros H K. apply wp_bind. eapply wp_mono; [exact H|exact K]. Qed.
Lemma R_eqb_false x y : R_eqb x y = false -> x <> y.
Proof. intros H E. apply R_eqb_spec in E. congruence. Qed.
Lemma R_eqb_true x y : R_eqb x y = true -> x = y.
Proof. apply R_eqb_spec. Qed.
(** ** loops *)
Definition from (a : nat) (f : nat -> R) (k : nat) : R := if (a <=? k)%nat then f k else 0.
Lemma from_in a f k : (a <= k)%nat -> from a f k = f k. Proof. intros H. unfold from. destruct (Nat.leb_spec a k); [reflexivity|lia]. Qed.
Lemma from_out a f k : (k < a)%nat -> from a f k = 0. Proof. intros H. unfold from. destruct (Nat.leb_spec a k); [lia|reflexivity]. Qed.
Lemma S_from_low a f : Sum a (from a f) = 0. Proof. apply S_zero. intros i Hi. apply from_out; exact Hi. Qed.
Lemma for_sum a b (body : nat -> R -> outcome R) f s0 : (forall k s, (a <= k < b)%nat -> body k s = Ok (s + f k)) -> for_ a b body s0 = Ok (s0 + Sum b (from a f)).
Proof.
  intros H. destruct (Nat.le_gt_cases b a) as [L|L].
  - unfold for_. replace (b - a)%nat with 0%nat by lia. cbn [for_up]. rewrite S_zero; [f_equal; ring|]. intros i Hi. apply from_out. lia.
  - assert (W : wp (for_ a b body s0) (fun s => s = s0 + Sum b (from a f))).
    { apply (wp_for (fun k s => s = s0 + Sum k (from a f))); [lia|rewrite S_from_low; ring|]. intros k s Hk ->. rewrite H by exact Hk. cbn [wp sum]. cbn [fadd ROps]. rewrite (from_in a f k) by lia. ring. }
    apply wp_ok_inv in W. destruct W as (s & -> & ->). reflexivity.
Qed.
(** rows a .. b-1 of column j replaced by phi; columns a .. b-1 of row i *)
Definition colset (f : rmat) (j a b : nat) (phi : nat -> R) : rmat := fun r c => if ((c =? j) && (a <=? r) && (r <? b))%nat then phi r else f r c.
Definition rowset (f : rmat) (i a b : nat) (phi : nat -> R) : rmat := fun r c => if ((r =? i) && (a <=? c) && (c <? b))%nat then phi c else f r c.
Definition vecset (f : nat -> R) (a b : nat) (phi : nat -> R) : nat -> R := fun r => if ((a <=? r) && (r <? b))%nat then phi r else f r.
Lemma colset_in f j a b phi r : (a <= r < b)%nat -> colset f j a b phi r j = phi r.
Proof. intros [H1 H2]. unfold colset. rewrite Nat.eqb_refl. apply Nat.leb_le in H1. apply Nat.ltb_lt in H2. rewrite H1, H2. reflexivity. Qed.
Lemma colset_out f j a b phi r c : c <> j \/ (r < a)%nat \/ (b <= r)%nat -> colset f j a b phi r c = f r c.
Proof. intros H. unfold colset. destruct (Nat.eqb_spec c j), (Nat.leb_spec a r), (Nat.ltb_spec r b); cbn [andb]; try reflexivity. lia. Qed.
Lemma rowset_in f j a b phi c : (a <= c < b)%nat -> rowset f j a b phi j c = phi c.
Proof. intros [H1 H2]. unfold rowset. rewrite Nat.eqb_refl. apply Nat.leb_le in H1. apply Nat.ltb_lt in H2. rewrite H1, H2. reflexivity. Qed.
Lemma rowset_out f j a b phi r c : r <> j \/ (c < a)%nat \/ (b <= c)%nat -> rowset f j a b phi r c = f r c.
Proof. intros H. unfold rowset. destruct (Nat.eqb_spec r j), (Nat.leb_spec a c), (Nat.ltb_spec c b); cbn [andb]; try reflexivity. lia. Qed.
Lemma vecset_in f a b phi r : (a <= r < b)%nat -> vecset f a b phi r = phi r.
Proof. intros [H1 H2]. unfold vecset. apply Nat.leb_le in H1. apply Nat.ltb_lt in H2. rewrite H1, H2. reflexivity. Qed.
Lemma vecset_out f a b phi r : (r < a)%nat \/ (b <= r)%nat -> vecset f a b phi r = f r.
Proof. intros H. unfold vecset. destruct (Nat.leb_spec a r), (Nat.ltb_spec r b); cbn [andb]; try reflexivity. lia. Qed.
Lemma colset_step f j a k phi r c : (a <= k)%nat -> upd2 (colset f j a k phi) k j (phi k) r c = colset f j a (S k) phi r c.
Proof. intros H. unfold upd2, colset. destruct (Nat.eqb_spec r k), (Nat.eqb_spec c j), (Nat.leb_spec a r), (Nat.ltb_spec r k), (Nat.ltb_spec r (S k)); cbn [andb]; subst; try reflexivity; lia. Qed.
Lemma rowset_step f j a k phi r c : (a <= k)%nat -> upd2 (rowset f j a k phi) j k (phi k) r c = rowset f j a (S k) phi r c.
Proof. intros H. unfold upd2, rowset. destruct (Nat.eqb_spec c k), (Nat.eqb_spec r j), (Nat.leb_spec a c), (Nat.ltb_spec c k), (Nat.ltb_spec c (S k)); cbn [andb]; subst; try reflexivity; lia. Qed.
Lemma vecset_step f a k phi r : (a <= k)%nat -> upd1 (vecset f a k phi) k (phi k) r = vecset f a (S k) phi r.
Proof. intros H. unfold upd1, vecset. destruct (Nat.eqb_spec r k), (Nat.leb_spec a r), (Nat.ltb_spec r k), (Nat.ltb_spec r (S k)); cbn [andb]; subst; try reflexivity; lia. Qed.
Lemma colset_empty f j a phi r c : colset f j a a phi r c = f r c. Proof. apply colset_out. lia. Qed.
Lemma rowset_empty f j a phi r c : rowset f j a a phi r c = f r c. Proof. apply rowset_out. lia. Qed.
Lemma vecset_empty f a phi r : vecset f a a phi r = f r. Proof. apply vecset_out. lia. Qed.
Lemma for_col U m n f j a b phi (body : nat -> mat R -> outcome (mat R)) : mis U m n f -> (a <= b <= m)%nat -> (j < n)%nat ->
  (forall k U, (a <= k < b)%nat -> mis U m n (colset f j a k phi) -> wp (body k U) (fun U' => mis U' m n (upd2 (colset f j a k phi) k j (phi k)))) ->
  wp (for_ a b body U) (fun U' => mis U' m n (colset f j a b phi)).
Proof.
  intros HU Hab Hj H. apply (wp_for (fun k U => mis U m n (colset f j a k phi))); [lia|apply (mis_ext U m n f); [exact HU|intros; rewrite colset_empty; reflexivity]|].
  intros k V Hk HV. eapply wp_mono; [apply H; assumption|]. intros V' HV'. apply (mis_ext V' m n _ _ HV'). intros. apply colset_step. lia.
Qed.
Lemma for_row U m n f j a b phi (body : nat -> mat R -> outcome (mat R)) : mis U m n f -> (a <= b <= n)%nat -> (j < m)%nat ->
  (forall k U, (a <= k < b)%nat -> mis U m n (rowset f j a k phi) -> wp (body k U) (fun U' => mis U' m n (upd2 (rowset f j a k phi) j k (phi k)))) ->
  wp (for_ a b body U) (fun U' => mis U' m n (rowset f j a b phi)).
Proof.
  intros HU Hab Hj H. apply (wp_for (fun k U => mis U m n (rowset f j a k phi))); [lia|apply (mis_ext U m n f); [exact HU|intros; rewrite rowset_empty; reflexivity]|].
  intros k V Hk HV. eapply wp_mono; [apply H; assumption|]. intros V' HV'. apply (mis_ext V' m n _ _ HV'). intros. apply rowset_step. lia.
Qed.
Lemma for_vec U n f a b phi (body : nat -> vec R -> outcome (vec R)) : vis U n f -> (a <= b <= n)%nat ->
  (forall k U, (a <= k < b)%nat -> vis U n (vecset f a k phi) -> wp (body k U) (fun U' => vis U' n (upd1 (vecset f a k phi) k (phi k)))) ->
  wp (for_ a b body U) (fun U' => vis U' n (vecset f a b phi)).
Proof.
  intros HU Hab H. apply (wp_for (fun k U => vis U n (vecset f a k phi))); [lia|apply (vis_ext U n f); [exact HU|intros; rewrite vecset_empty; reflexivity]|].
  intros k V Hk HV. eapply wp_mono; [apply H; assumption|]. intros V' HV'. apply (vis_ext V' n _ _ HV'). intros. apply vecset_step. lia.
Qed.
(** columns / rows a .. b-1 replaced one after the other: column j becomes psi applied to the original column j *)
Definition cols (f : rmat) (a b r0 r1 : nat) (psi : rmat) : rmat := fun r c => if ((a <=? c) && (c <? b) && (r0 <=? r) && (r <? r1))%nat then psi r c else f r c.
Lemma cols_in f a b r0 r1 psi r c : (a <= c < b)%nat -> (r0 <= r < r1)%nat -> cols f a b r0 r1 psi r c = psi r c.
Proof. intros H1 H2. unfold cols. destruct (Nat.leb_spec a c), (Nat.ltb_spec c b), (Nat.leb_spec r0 r), (Nat.ltb_spec r r1); cbn [andb]; try reflexivity; lia. Qed.
Lemma cols_out f a b r0 r1 psi r c : (c < a)%nat \/ (b <= c)%nat \/ (r < r0)%nat \/ (r1 <= r)%nat -> cols f a b r0 r1 psi r c = f r c.
Proof. intros H. unfold cols. destruct (Nat.leb_spec a c), (Nat.ltb_spec c b), (Nat.leb_spec r0 r), (Nat.ltb_spec r r1); cbn [andb]; try reflexivity; lia. Qed.
Lemma for_cols U m n f a b r0 r1 psi (body : nat -> mat R -> outcome (mat R)) : mis U m n f -> (a <= b)%nat ->
  (forall j U, (a <= j < b)%nat -> mis U m n (cols f a j r0 r1 psi) -> wp (body j U) (fun U' => mis U' m n (colset (cols f a j r0 r1 psi) j r0 r1 (fun r => psi r j)))) ->
  wp (for_ a b body U) (fun U' => mis U' m n (cols f a b r0 r1 psi)).
Proof.
  intros HU Hab H. apply (wp_for (fun k U => mis U m n (cols f a k r0 r1 psi))); [lia|apply (mis_ext U m n f); [exact HU|intros; rewrite cols_out by lia; reflexivity]|].
  intros k V Hk HV. eapply wp_mono; [apply H; assumption|]. intros V' HV'. apply (mis_ext V' m n _ _ HV'). intros r c. unfold colset, cols.
  destruct (Nat.eqb_spec c k), (Nat.leb_spec a c), (Nat.ltb_spec c k), (Nat.ltb_spec c (S k)), (Nat.leb_spec r0 r), (Nat.ltb_spec r r1); cbn [andb]; subst; try reflexivity; lia.
Qed.
Lemma for_rows U m n f a b c0 c1 psi (body : nat -> mat R -> outcome (mat R)) : mis U m n f -> (a <= b)%nat ->
  (forall j U, (a <= j < b)%nat -> mis U m n (cols f c0 c1 a j psi) -> wp (body j U) (fun U' => mis U' m n (rowset (cols f c0 c1 a j psi) j c0 c1 (fun c => psi j c)))) ->
  wp (for_ a b body U) (fun U' => mis U' m n (cols f c0 c1 a b psi)).
Proof.
  intros HU Hab H. apply (wp_for (fun k U => mis U m n (cols f c0 c1 a k psi))); [lia|apply (mis_ext U m n f); [exact HU|intros; rewrite cols_out by lia; reflexivity]|].
  intros k V Hk HV. eapply wp_mono; [apply H; assumption|]. intros V' HV'. apply (mis_ext V' m n _ _ HV'). intros r c. unfold rowset, cols.
  destruct (Nat.eqb_spec r k), (Nat.leb_spec c0 c), (Nat.ltb_spec c c1), (Nat.leb_spec a r), (Nat.ltb_spec r k), (Nat.ltb_spec r (S k)); cbn [andb]; subst; try reflexivity; lia.
Qed.
