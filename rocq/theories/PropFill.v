(** * Property theorems C16-C19: comma filling, Data, makeVector, text input/output. *)
From Coq Require Import ZArith Bool List Lia ZifyBool.
From Verif Require Import Base ModelSize ModelView ModelFill SpecSize SpecView LemSize LemView LemAssign LemFill.
Import ListNotations.
Open Scope Z_scope.

Definition mem1 : mem Z := [[0;1;2;3;4;5;6;7;8;9;10;11]; [20;21;22;23;24]; [30]].
Definition mat1 : mview := base_rowmajor 3 (-1) 0 0 3 4.
Definition vec1 : vview := base_vec (-1) 1 0 5.
Definition one1 : vview := base_vec 1 2 0 1.
Definition col1 : mview := base_rowmajor (-1) (-1) 1 0 5 1.
Example mat1_good : good mem1 (OM mat1).
Proof. apply base_good, BO_row; try lia. split; [lia|]. eexists. split; [reflexivity|]. cbn. lia. Qed.
Example vec1_good : good mem1 (OV vec1).
Proof. apply base_good, BO_vec; try lia. split; [lia|]. eexists. split; [reflexivity|]. cbn. lia. Qed.
Example one1_good : good mem1 (OV one1).
Proof. apply base_good, BO_vec; try lia. split; [lia|]. eexists. split; [reflexivity|]. cbn. lia. Qed.
Example col1_good : good mem1 (OM col1).
Proof. apply base_good, BO_row; try lia. split; [lia|]. eexists. split; [reflexivity|]. cbn. lia. Qed.

(** ** C16: Fill(v) = x, xs... *)
(** With exactly size() values, at least two of them. Missing: size 1, see C16_single_refuted. *)
Theorem C16_fill_exact_partial :
  forall (V : Type) (cb : bool) (m : mem V) (v : vview) (x : V) (xs : list V),
    good m (OV v) -> Z.of_nat (length (x :: xs)) = vn v -> xs <> [] ->
    exists m', vfill cb v x xs m = Ok m' /\
      (forall i, 0 <= i < vn v -> rd m' (vaddr v i) = nth_error (x :: xs) (Z.to_nat i)) /\
      (forall a, ~ element_of a (OV v) -> rd m' a = rd m a).
Proof.
  intros V cb m v x xs Hg Hl Hne. pose proof (vfill_ok cb v m x xs Hg Hl Hne) as H.
  apply wp_ok_inv in H as (m' & E & H1 & H2). exists m'. split; [exact E|]. split; [|apply H2].
  intros i Hi. apply (H1 (i, 0)). cbn; lia.
Qed.
Print Assumptions C16_fill_exact_partial.
Example C16_fill_exact_nonvac : exists m', vfill false vec1 7 [8;9;10;11] mem1 = Ok m' /\ rd m' (vaddr vec1 3) = Some 10.
Proof. eexists. split; reflexivity. Qed.
(** Any other number of values does not compile or stops with a diagnostic. *)
Theorem C16_wrong_count_rejected :
  forall (V : Type) (cb : bool) (m : mem V) (v : vview) (x : V) (xs : list V),
    good m (OV v) -> Z.of_nat (length (x :: xs)) <> vn v ->
    vfill cb v x xs m = CompileError \/ vfill cb v x xs m = Abort DUnderfill \/ vfill cb v x xs m = Abort DOverfill.
Proof. intros V cb m v x xs Hg Hne. apply vfill_bad; auto. Qed.
Print Assumptions C16_wrong_count_rejected.
Example C16_wrong_count_nonvac :
  vfill true vec1 7 [8;9;10] mem1 = Abort DUnderfill /\ vfill true vec1 7 [8;9;10;11;12] mem1 = Abort DOverfill.
Proof. split; reflexivity. Qed.
(** ... and filling a one element vector with its one value is rejected too. *)
Theorem C16_single_refuted :
  forall (V : Type) (cb : bool) (m : mem V) (v : vview) (x : V),
    good m (OV v) -> vn v = 1 ->
    vfill cb v x [] m = CompileError \/ vfill cb v x [] m = Abort DOverfill.
Proof.
  intros V cb m v x (Hwt & _) Hn. unfold vfill, check_overfill. destruct Hwt as [[HS|HS] _]; rewrite HS, ?Hn; cbn; auto.
Qed.
Print Assumptions C16_single_refuted.
Example C16_single_nonvac : good mem1 (OV one1) /\ vn one1 = 1 /\ vfill true one1 5 [] mem1 = CompileError.
Proof. split; [apply one1_good|split; reflexivity]. Qed.
(** A Resizable vector can never be filled this way, although its size is known at run time. *)
Theorem C16_resizable_refuted :
  forall (V : Type) (cb : bool) (m : mem V) (v : vview) (x : V) (xs : list V),
    vS v = Resizable -> vfill cb v x xs m = CompileError.
Proof. intros V cb m v x xs H. unfold vfill, check_overfill. rewrite H. reflexivity. Qed.
Print Assumptions C16_resizable_refuted.

(** ** C17: Fill(m) = x, xs... *)
(** Missing: matrices with one column, see C17_one_column_refuted. *)
Theorem C17_fill_exact_partial :
  forall (V : Type) (cb : bool) (m : mem V) (a : mview) (x : V) (xs : list V),
    good m (OM a) -> Z.of_nat (length (x :: xs)) = mr a * mc a -> 2 <= mc a ->
    exists m', mfill cb a x xs m = Ok m' /\
      (forall r c, 0 <= r < mr a -> 0 <= c < mc a ->
         rd m' (maddr a r c) = nth_error (x :: xs) (Z.to_nat (r * mc a + c))) /\
      (forall b, ~ element_of b (OM a) -> rd m' b = rd m b).
Proof.
  intros V cb m a x xs Hg Hl Hc. pose proof (mfill_ok cb a m x xs Hg Hl Hc) as H.
  apply wp_ok_inv in H as (m' & E & H1 & H2). exists m'. split; [exact E|]. split; [|apply H2].
  intros r c Hr Hc'. apply (H1 (r, c)). cbn; lia.
Qed.
Print Assumptions C17_fill_exact_partial.
Example C17_fill_exact_nonvac : good mem1 (OM mat1) /\
  exists m', mfill true mat1 40 [41;42;43;44;45;46;47;48;49;50;51] mem1 = Ok m' /\ rd m' (maddr mat1 2 1) = Some 49.
Proof. split; [apply mat1_good|]. eexists. split; reflexivity. Qed.
Theorem C17_wrong_count_rejected :
  forall (V : Type) (cb : bool) (m : mem V) (a : mview) (x : V) (xs : list V),
    good m (OM a) -> 2 <= mc a -> Z.of_nat (length (x :: xs)) <> mr a * mc a ->
    mfill cb a x xs m = CompileError \/ mfill cb a x xs m = Abort DUnderfill \/ mfill cb a x xs m = Abort DOverfill.
Proof. intros V cb m a x xs Hg Hc Hn. apply mfill_bad; auto. Qed.
Print Assumptions C17_wrong_count_rejected.
Example C17_wrong_count_nonvac : mfill true mat1 40 [41;42] mem1 = Abort DUnderfill.
Proof. reflexivity. Qed.
(** A matrix with one column can never be filled, however many values are given. *)
Theorem C17_one_column_refuted :
  forall (V : Type) (cb : bool) (m : mem V) (a : mview) (x : V) (xs : list V) (m' : mem V),
    good m (OM a) -> mc a = 1 -> mfill cb a x xs m <> Ok m'.
Proof.
  intros V cb m a x xs m' (Hwt & _) H1. unfold mfill. destruct (Z_le_gt_dec (mr a) 0) as [H0|H0].
  - destruct (check_moverfill_over a 0 Hwt) as [-> | ->]; [pose proof Hwt as (_ & _ & ? & ?); nia|discriminate|discriminate].
  - destruct (check_moverfill 0 (mR a) (mC a) (mr a * mc a)) as [[]| | | | |]; cbn; try discriminate.
    destruct (set_rc cb a 0 0 x m) as [m1| | | | |]; cbn; try discriminate.
    apply mfill_rest_onecol; lia.
Qed.
Print Assumptions C17_one_column_refuted.
Example C17_one_column_nonvac : good mem1 (OM col1) /\ mc col1 = 1 /\
  mfill false col1 1 [2;3;4;5] mem1 = Abort DUnderfill /\ mfill true col1 1 [2;3;4;5] mem1 = Abort DIndex.
Proof. split; [apply col1_good|]. repeat split; reflexivity. Qed.

(** ** C18 *)
Theorem C18_vector_from_data :
  forall (V : Type) (cb : bool) (m : mem V) (v : vview) (xs : list V),
    good m (OV v) ->
    (Z.of_nat (length xs) = vn v -> exists m', data_vec cb v xs m = Ok m' /\
       (forall i, 0 <= i < vn v -> rd m' (vaddr v i) = nth_error xs (Z.to_nat i)) /\
       (forall a, ~ element_of a (OV v) -> rd m' a = rd m a)) /\
    (Z.of_nat (length xs) <> vn v -> data_vec cb v xs m = CompileError \/ data_vec cb v xs m = Abort DSizeMismatch).
Proof.
  intros V cb m v xs Hg. split.
  - intros Hl. destruct (data_vec_ok cb v m xs Hg Hl) as (m' & E & H1 & H2). exists m'. split; [exact E|]. split; [|apply H2].
    intros i Hi. apply (H1 (i, 0)). cbn; lia.
  - intros Hn. apply data_vec_bad; [apply Hg|exact Hn].
Qed.
Print Assumptions C18_vector_from_data.
Example C18_vector_nonvac : exists m', data_vec false vec1 [1;2;3;4;5] mem1 = Ok m' /\ rd m' (vaddr vec1 4) = Some 5.
Proof. eexists. split; reflexivity. Qed.
Theorem C18_makeVector :
  forall (V : Type) (cb : bool) (m : mem V) (v : vview) (xs : list V),
    good m (OV v) -> Z.of_nat (length xs) = vn v ->
    exists m', make_vector cb v xs m = Ok m' /\
      (forall i, 0 <= i < vn v -> rd m' (vaddr v i) = nth_error xs (Z.to_nat i)) /\
      (forall a, ~ element_of a (OV v) -> rd m' a = rd m a).
Proof.
  intros V cb m v xs Hg Hl. pose proof (make_vec_ok cb v m xs Hg Hl) as H.
  apply wp_ok_inv in H as (m' & E & H1 & H2). exists m'. split; [exact E|]. split; [|apply H2].
  intros i Hi. apply (H1 (i, 0)). cbn; lia.
Qed.
Print Assumptions C18_makeVector.
(** Statically sized matrices. Missing: matrices with a Dynamic dimension, where nothing is
    stored (C18_dynamic_matrix_refuted). *)
Theorem C18_matrix_from_data_partial :
  forall (V : Type) (cb : bool) (m : mem V) (a : mview) (xs : list V),
    good m (OM a) ->
    (mR a = mr a -> mC a = mc a -> Z.of_nat (length xs) = mr a * mc a -> exists m', data_mat cb a xs m = Ok m' /\
       (forall r c, 0 <= r < mr a -> 0 <= c < mc a -> rd m' (maddr a r c) = nth_error xs (Z.to_nat (r * mc a + c))) /\
       (forall b, ~ element_of b (OM a) -> rd m' b = rd m b)) /\
    (Z.of_nat (length xs) <> mr a * mc a -> data_mat cb a xs m = CompileError \/ data_mat cb a xs m = Abort DSizeMismatch).
Proof.
  intros V cb m a xs Hg. split.
  - intros HR HC Hl. destruct (data_mat_ok cb a m xs Hg HR HC Hl) as (m' & E & H1 & H2). exists m'. split; [exact E|]. split; [|apply H2].
    intros r c Hr Hc. apply (H1 (r, c)). cbn; lia.
  - intros Hn. apply data_mat_bad; [apply Hg|exact Hn].
Qed.
Print Assumptions C18_matrix_from_data_partial.
Definition mat2 : mview := base_colmajor 2 2 1 1 2 2.
Example C18_matrix_nonvac : good mem1 (OM mat2) /\
  exists m', data_mat true mat2 [1;2;3;4] mem1 = Ok m' /\ rd m' (maddr mat2 1 0) = Some 3 /\ rd m' (maddr mat2 0 1) = Some 2.
Proof.
  split; [apply base_good, BO_col; try lia; split; [lia|]; eexists; (split; [reflexivity|]); cbn; lia|].
  eexists. repeat split; reflexivity.
Qed.
(** Matrix<> m(2,2); m = Data(1,2,3,4); passes the size check and stores nothing at all. *)
Theorem C18_dynamic_matrix_refuted :
  forall (V : Type) (cb : bool) (m : mem V) (a : mview) (xs : list V),
    good m (OM a) -> (mR a = -1 \/ mC a = -1) -> Z.of_nat (length xs) = mr a * mc a ->
    data_mat cb a xs m = Ok m.
Proof. intros V cb m a xs (Hwt & _). apply data_mat_dyn. exact Hwt. Qed.
Print Assumptions C18_dynamic_matrix_refuted.
Example C18_dynamic_nonvac : good mem1 (OM col1) /\ mR col1 = -1 /\ data_mat true col1 [1;2;3;4;5] mem1 = Ok mem1.
Proof. split; [apply col1_good|]. split; reflexivity. Qed.

(** ** C19 *)
(** What is assumed of the scalar type's own << and >>: its text starts with a non-blank
    character, and reading it back, when it is followed by white space or the end of the
    stream, gives the value and leaves the rest. *)
Definition scalar_io_roundtrips {V} (show : V -> text) (parse : text -> option (V * text)) : Prop :=
  (forall x, exists c t, show x = c :: t /\ is_white c = false) /\
  (forall x t, (t = [] \/ exists c t', t = c :: t' /\ is_white c = true) -> parse (show x ++ t) = Some (x, t)).
Definition blank_text (w : text) : Prop := forall c, In c w -> is_white c = true.

Theorem C19_vector_roundtrip :
  forall (V : Type) (show : V -> text) (parse : text -> option (V * text)) (pad : V -> nat),
    scalar_io_roundtrips show parse ->
    forall (cb : bool) (m m2 : mem V) (src dst : vview) (rest : text),
      good m (OV src) -> good m2 (OV dst) -> vn src = vn dst ->
      exists t m', print_vec show pad cb m src = Ok t /\
        (* reading the printed text, followed by anything else *)
        (exists w, blank_text w /\ read_vec parse cb dst (t ++ rest) m2 = Ok (m', Some (w ++ rest))) /\
        (forall i, 0 <= i < vn dst -> rd m' (vaddr dst i) = rd m (vaddr src i)) /\
        (forall a, ~ element_of a (OV dst) -> rd m' a = rd m2 a).
Proof.
  intros V show parse pad [Hs Hp] cb m m2 src dst rest Hg Hg2 Hn.
  pose proof Hg as ((_ & Hn0) & Hin & _).
  destruct (opt_list (fun i => rd m (vaddr src (Z.of_nat i))) (Z.to_nat (vn src))) as (vals & Hl & Hv).
  { intros i Hi. destruct (Hin (Z.of_nat i, 0)) as [x Hx]; [cbn; lia|]. cbn in Hx. congruence. }
  assert (Hp' : forall x t, at_break t -> parse (show x ++ t) = Some (x, t)).
  { intros x t Ht. apply Hp. destruct t as [|c t]; [left; reflexivity|right; exists c, t; split; [reflexivity|exact Ht]]. }
  destruct (vec_text_yields show pad vals rest) as (w & Hw & Y).
  assert (H := read_vec_ok show parse Hs Hp' cb dst m2 _ vals _ Hg2 ltac:(lia) Y).
  apply wp_ok_inv in H as ([m' ot] & E & H1 & H2 & H3). cbn [fst snd] in *. subst ot.
  exists (vec_text show pad vals), m'. split; [apply print_vec_ok; [lia|intros i Hi; rewrite Hv by lia; reflexivity]|].
  split; [exists w; split; [exact Hw|exact E]|]. split; [|apply H3].
  intros i Hi. specialize (H2 (i, 0)). cbn [fst oaddr] in H2. rewrite H2 by (cbn; lia). rewrite Hv by lia. rewrite Z2Nat.id by lia. reflexivity.
Qed.
Print Assumptions C19_vector_roundtrip.
Theorem C19_matrix_roundtrip :
  forall (V : Type) (show : V -> text) (parse : text -> option (V * text)) (pad : V -> nat),
    scalar_io_roundtrips show parse ->
    forall (cb : bool) (m m2 : mem V) (src dst : mview) (rest : text),
      good m (OM src) -> good m2 (OM dst) -> mr src = mr dst -> mc src = mc dst ->
      exists t m', print_mat show pad cb m src = Ok t /\
        (exists w, blank_text w /\ read_mat parse cb dst (t ++ rest) m2 = Ok (m', Some (w ++ rest))) /\
        (forall r c, 0 <= r < mr dst -> 0 <= c < mc dst -> rd m' (maddr dst r c) = rd m (maddr src r c)) /\
        (forall a, ~ element_of a (OM dst) -> rd m' a = rd m2 a).
Proof.
  intros V show parse pad [Hs Hp] cb m m2 src dst rest Hg Hg2 Hr Hc.
  pose proof Hg as ((_ & _ & Hr0 & Hc0) & Hin & _).
  destruct (opt_rows (fun i j => rd m (maddr src (Z.of_nat i) (Z.of_nat j))) (Z.to_nat (mr src)) (Z.to_nat (mc src))) as (rows & Hl & Hrow & Hcl & Hv).
  { intros i j Hi Hj. destruct (Hin (Z.of_nat i, Z.of_nat j)) as [x Hx]; [cbn; lia|]. cbn in Hx. congruence. }
  assert (Hp' : forall x t, at_break t -> parse (show x ++ t) = Some (x, t)).
  { intros x t Ht. apply Hp. destruct t as [|c t]; [left; reflexivity|right; exists c, t; split; [reflexivity|exact Ht]]. }
  destruct (mat_text_yields show pad rows rest) as (w & Hw & Y).
  assert (H := read_mat_ok show parse Hs Hp' cb dst m2 _ (concat rows) _ Hg2 ltac:(nia) Y).
  apply wp_ok_inv in H as ([m' ot] & E & H1 & H2 & H3). cbn [fst snd] in *. subst ot.
  exists (mat_text show pad rows), m'. split.
  { apply print_mat_ok; [lia|lia|]. intros i l El. destruct (Hrow i l El) as [Hll Hj]. split; [lia|]. intros j Hj'.
    rewrite Hj by lia. reflexivity. }
  split; [exists w; split; [exact Hw|exact E]|]. split; [|apply H3].
  intros r c H4 H5. specialize (H2 (r, c)). cbn [fst snd oaddr] in H2. rewrite H2 by (cbn; lia).
  unfold pos; cbn [fst snd]. replace (Z.to_nat (r * mc dst + c)) with (Z.to_nat r * Z.to_nat (mc src) + Z.to_nat c)%nat.
  2:{ rewrite Hc, Z2Nat.inj_add, Z2Nat.inj_mul by nia. reflexivity. }
  rewrite Hv by lia. rewrite !Z2Nat.id by lia. reflexivity.
Qed.
Print Assumptions C19_matrix_roundtrip.
(** The hypothesis is met, e.g., by one-character scalars. *)
Definition show1 (x : nat) : text := [Ch x].
Definition parse1 (t : text) : option (nat * text) := match t with Ch x :: t' => Some (x, t') | _ => None end.
Example C19_nonvac : scalar_io_roundtrips show1 parse1.
Proof. split; [intros x; exists (Ch x), []; split; reflexivity|]. intros; reflexivity. Qed.
