(** * C51: LU. *)
From Coq Require Import Arith Bool Lia Field List ZArith QArith Qcanon.
From Verif Require Import Base Alg Mat SpecMat LemMat Inst ModelOps LemOps LemHelpers LemChol SpecLin LemLin LemDet LemDetMore LemDetMul ModelLU SpecLU LemLU PropOps.
Import ListNotations.
Open Scope outcome_scope.

Section P.
Context {F : Type} {Fo : Ops F} {Fl : Laws F}.
Open Scope F_scope.
Add Field Ff : law_field.

(** With the factors getrf returns for a nonsingular matrix, backsub of a vector solves the system. *)
Theorem C51_backsub_vec : forall n (A : nat -> nat -> F) (L : lu F) (b : vec F), factorised n A L -> nonsingular n A -> vlen b = n ->
  exists x, lu_backsub_vec L b = Ok x /\ vlen x = n /\ solves n A (vat x) (vat b).
Proof.
  intros n A L b HF NS Hb. pose proof (pivots_nonzero n A L HF NS) as Nz. pose proof HF as (H1 & H2 & Hp & _). unfold lu_backsub_vec. rewrite H1, Hb, same_size_eq by reflexivity. cbn [bind].
  destruct (trsm_upper_ok n (lu_m L) b H1 H2 Hb Nz) as (y & E & Y1 & Y2). rewrite E. cbn [bind].
  destruct (trsm_unit_lower_ok n (lu_m L) y H1 H2 Y1) as (z & E' & Z1 & Z2). rewrite E'. cbn [bind].
  destruct (swap_rows_vec_ok n L z H1 Hp Z1) as (x & Ex & X1 & X2). exists x. split; [exact Ex|]. split; [exact X1|].
  apply (solve_ok n A L (vat b) (vat y) (vat z) (vat x)); [exact HF|exact Y2|exact Z2|exact X2].
Qed.
(** For a singular matrix it never returns numbers; a right-hand side of the wrong size is reported. *)
Theorem C51_singular : forall n (A : nat -> nat -> F) (L : lu F) (b : vec F), factorised n A L -> ~ nonsingular n A -> vlen b = n -> lu_backsub_vec L b = NonFinite.
Proof.
  intros n A L b HF NS Hb. pose proof HF as (H1 & H2 & Hp & _). unfold lu_backsub_vec. rewrite H1, Hb, same_size_eq by reflexivity. cbn [bind].
  assert (G : forall m, (m <= n)%nat -> (forall k, (k < m)%nat -> mel (lu_m L) k k <> 0) \/ exists i, (i < m)%nat /\ mel (lu_m L) i i = 0 /\ forall k, (k < i)%nat -> mel (lu_m L) k k <> 0).
  { induction m as [|m IH]; intros Hm; [left; lia|]. destruct IH as [H|(i & Hi & Z)]; [lia| |right; exists i; split; [lia|exact Z]].
    destruct (feqb (mel (lu_m L) m m) 0) eqn:E.
    - right. exists m. split; [lia|]. split; [apply law_eqb; exact E|exact H].
    - left. intros k Hk. destruct (Nat.eq_dec k m) as [->|N]; [|apply H; lia]. intros Z. apply law_eqb in Z. congruence. }
  destruct (G n (le_n n)) as [H|(i & Hi & Z & Nz)].
  - exfalso. apply NS. apply det_nonsingular. rewrite (lu_det_eq n A L HF). intros E. apply (prod_nonzero n _ H). apply (mul_cancel (sign_ (lu_piv L) n)); [apply sign_nonzero|]. rewrite E. ring.
  - rewrite (trsm_upper_bad n (lu_m L) b i); auto.
Qed.
Theorem C51_size : forall (L : lu F) (b : vec F), vlen b <> mrows (lu_m L) -> exists d, lu_backsub_vec L b = Abort d.
Proof. intros L b H. unfold lu_backsub_vec. rewrite same_size_bad by (intros E; apply H; congruence). eexists. reflexivity. Qed.
(** A matrix right-hand side whose number of columns is a template constant: every column is solved. *)
Theorem C51_backsub_static : forall n (A : nat -> nat -> F) (L : lu F) (B : mat F), factorised n A L -> nonsingular n A -> mrows B = n ->
  exists X, lu_backsub_mat L (Some (mcols B)) B = Ok X /\ mrows X = n /\ mcols X = mcols B /\ forall j, (j < mcols B)%nat -> solves n A (fun i => mel X i j) (fun i => mel B i j).
Proof.
  intros n A L B HF NS HB. pose proof (pivots_nonzero n A L HF NS) as Nz. pose proof HF as (H1 & H2 & Hp & _). unfold lu_backsub_mat. rewrite H1, HB, same_size_eq by reflexivity. cbn [bind].
  destruct (each_col_ok n (trsm_upper (lu_m L)) (lower (mel (lu_m L))) B HB (fun v Hv => trsm_upper_ok n (lu_m L) v H1 H2 Hv Nz)) as (Y & E & Y1 & Y2 & Y3). rewrite E. cbn [bind].
  destruct (each_col_ok n (trsm_unit_lower (lu_m L)) (unit_upper (mel (lu_m L))) Y Y1 (fun v Hv => trsm_unit_lower_ok n (lu_m L) v H1 H2 Hv)) as (Z & E' & Z1 & Z2 & Z3). rewrite E'. cbn [bind].
  rewrite Y2 in Z2, Z3. destruct (swap_rows_mat_ok n (mcols B) L Z H1 Hp Z1 Z2) as (X & Ex & X1 & X2 & X3). exists X. split; [exact Ex|]. split; [exact X1|]. split; [exact X2|].
  intros j Hj. apply (solve_ok n A L _ (fun k => mel Y k j) (fun k => mel Z k j) (fun k => mel X k j)); auto.
Qed.
(** A dynamically sized one is solved when LAPACK made no interchange ... *)
Theorem C51_backsub_dynamic_partial : forall n (A : nat -> nat -> F) (L : lu F) (B : mat F), factorised n A L -> nonsingular n A -> mrows B = n -> (forall i, (i < n)%nat -> lu_piv L i = i) ->
  exists X, lu_backsub_mat L None B = Ok X /\ mrows X = n /\ mcols X = mcols B /\ forall j, (j < mcols B)%nat -> solves n A (fun i => mel X i j) (fun i => mel B i j).
Proof.
  intros n A L B HF NS HB Hid. pose proof (pivots_nonzero n A L HF NS) as Nz. pose proof HF as (H1 & H2 & Hp & _). unfold lu_backsub_mat. rewrite H1, HB, same_size_eq by reflexivity. cbn [bind].
  destruct (each_col_ok n (trsm_upper (lu_m L)) (lower (mel (lu_m L))) B HB (fun v Hv => trsm_upper_ok n (lu_m L) v H1 H2 Hv Nz)) as (Y & E & Y1 & Y2 & Y3). rewrite E. cbn [bind].
  destruct (each_col_ok n (trsm_unit_lower (lu_m L)) (unit_upper (mel (lu_m L))) Y Y1 (fun v Hv => trsm_unit_lower_ok n (lu_m L) v H1 H2 Hv)) as (Z & E' & Z1 & Z2 & Z3). rewrite E'. cbn [bind].
  rewrite Y2 in Z2, Z3. rewrite (swap_rows_mat_none n) by exact H1. exists Z. split; [reflexivity|]. split; [exact Z1|]. split; [exact Z2|].
  intros j Hj. apply (solve_ok n A L _ (fun k => mel Y k j) (fun k => mel Z k j) (fun k => mel Z k j)); auto.
  intros k Hk. assert (G : forall m (z : nat -> F), (m <= n)%nat -> forall k, undo (lu_piv L) m z k = z k).
  { clear - Hid. induction m as [|m IH]; intros z Hm k; [reflexivity|]. cbn [undo]. rewrite IH by lia. unfold exchange. rewrite Hid by lia. destruct (Nat.eqb_spec k m) as [->|]; reflexivity. }
  rewrite G by lia. reflexivity.
Qed.
(** ... and not otherwise: the interchanges are never undone, since the loop over the columns runs up to the template parameter -1.
    For every size from 2 up: A exchanges the first two unknowns. *)
Theorem C51_backsub_dynamic_refuted : forall n, (2 <= n)%nat -> exists (A : nat -> nat -> F) (L : lu F) (B : mat F),
  factorised n A L /\ nonsingular n A /\ mrows B = n /\ mcols B = 1%nat /\
  exists X, lu_backsub_mat L None B = Ok X /\ ~ solves n A (fun i => mel X i 0%nat) (fun i => mel B i 0%nat).
Proof.
  intros n Hn. set (p := fun i => if (i =? 0)%nat then 1%nat else i). set (L := mklu (mkmat n n delta) p : lu F).
  set (A := fun r c => exchange 0 1 (delta (F:=F) r) c). set (B := mkmat n 1 (fun i _ => if (i =? 0)%nat then 1 else 0) : mat F).
  assert (P1 : forall m (f : nat -> F), (1 <= m)%nat -> forall k, interchanged p m f k = exchange 0 1 f k).
  { clear. intros m f. induction m as [|m IH]; intros Hm k; [lia|]. cbn [interchanged]. destruct m as [|m]; [reflexivity|]. unfold exchange at 1. unfold p at 1 3. cbn [Nat.eqb].
    rewrite !IH by lia. destruct (Nat.eqb_spec k (S m)) as [->|]; reflexivity. }
  assert (HF : factorised n A L).
  { unfold factorised, L, lu_m, lu_piv. cbn [mrows mcols mel]. split; [reflexivity|]. split; [reflexivity|]. split.
    - intros i Hi. unfold p. destruct (Nat.eqb_spec i 0); lia.
    - intros r c Hr Hc. rewrite P1 by lia. rewrite (sum_ext n _ (fun k => delta r k * unit_upper delta k c)).
      2:{ intros k Hk. f_equal. unfold lower, delta. destruct (Nat.leb_spec k r), (Nat.eqb_spec r k); try lia; reflexivity. }
      rewrite (sum_delta_l n r (fun k => unit_upper delta k c)) by exact Hr. unfold unit_upper, A, exchange, delta.
      destruct c as [|[|c]]; cbn [Nat.eqb].
      + destruct (Nat.ltb_spec r 0); [lia|]. reflexivity.
      + destruct (Nat.ltb_spec r 1), (Nat.eqb_spec r 1), (Nat.eqb_spec r 0); try lia; reflexivity.
      + destruct (Nat.ltb_spec r (S (S c))), (Nat.eqb_spec r (S (S c))); try lia; reflexivity. }
  assert (NS : nonsingular n A).
  { apply det_nonsingular. rewrite (lu_det_eq n A L HF). intros E. apply (prod_nonzero n (fun i => mel (lu_m L) i i)).
    - intros i Hi. unfold L. cbn [lu_m mel]. unfold delta. rewrite Nat.eqb_refl. exact one_neq_zero.
    - apply (mul_cancel (sign_ (lu_piv L) n)); [apply sign_nonzero|]. rewrite E. ring. }
  pose proof (pivots_nonzero n A L HF NS) as Nz. pose proof HF as (H1 & H2 & Hp & _).
  exists A, L, B. split; [exact HF|]. split; [exact NS|]. split; [reflexivity|]. split; [reflexivity|].
  unfold lu_backsub_mat. rewrite H1. unfold B at 1. cbn [mrows]. rewrite same_size_eq by reflexivity. cbn [bind].
  destruct (each_col_ok n (trsm_upper (lu_m L)) (lower (mel (lu_m L))) B eq_refl (fun v Hv => trsm_upper_ok n (lu_m L) v H1 H2 Hv Nz)) as (Y & E & Y1 & Y2 & Y3). rewrite E. cbn [bind].
  destruct (each_col_ok n (trsm_unit_lower (lu_m L)) (unit_upper (mel (lu_m L))) Y Y1 (fun v Hv => trsm_unit_lower_ok n (lu_m L) v H1 H2 Hv)) as (Z & E' & Z1 & Z2 & Z3). rewrite E'. cbn [bind].
  rewrite (swap_rows_mat_none n) by exact H1. exists Z. split; [reflexivity|]. intros S.
  assert (ZY : forall i, (i < n)%nat -> mel Z i 0%nat = mel Y i 0%nat).
  { intros i Hi. rewrite <- (Z3 i 0%nat Hi) by (rewrite Y2; cbn; lia). rewrite (sum_ext n _ (fun k => delta i k * mel Z k 0%nat)).
    - rewrite (sum_delta_l n i (fun k => mel Z k 0%nat)) by exact Hi. reflexivity.
    - intros k Hk. f_equal. unfold unit_upper, L, lu_m, mel, delta. destruct (Nat.ltb_spec i k), (Nat.eqb_spec i k); try lia; reflexivity. }
  assert (YB : forall i, (i < n)%nat -> mel Y i 0%nat = mel B i 0%nat).
  { intros i Hi. rewrite <- (Y3 i 0%nat Hi) by (cbn; lia). rewrite (sum_ext n _ (fun k => delta i k * mel Y k 0%nat)).
    - rewrite (sum_delta_l n i (fun k => mel Y k 0%nat)) by exact Hi. reflexivity.
    - intros k Hk. f_equal. unfold lower, L, lu_m, mel, delta. destruct (Nat.leb_spec k i), (Nat.eqb_spec i k); try lia; reflexivity. }
  specialize (S 0%nat ltac:(lia)). cbn beta in S. unfold A in S. rewrite <- (exchange_sum n 0 1 (delta 0%nat) (fun k => mel Z k 0%nat)) in S by lia.
  rewrite (sum_delta_l n 0 (fun c => exchange 0 1 (fun k => mel Z k 0%nat) c)) in S by lia. unfold exchange in S. cbn [Nat.eqb] in S. rewrite ZY, YB in S by lia. unfold B in S. cbn [mel Nat.eqb] in S. apply one_neq_zero. symmetry. exact S.
Qed.
(** determinant() is the determinant, with the sign of the interchanges, of singular matrices too *)
Theorem C51_determinant : forall n (A : nat -> nat -> F) (L : lu F), factorised n A L -> lu_determinant L = Ok (det n A).
Proof. exact lu_determinant_ok. Qed.
(** The documentation of get_lu() says: diagonal and above are U, below with a unit diagonal are L. It is the other way round, so the
    documented L U is not A with its rows permuted. *)
Definition documented_l (m : nat -> nat -> F) (r c : nat) : F := if (c <? r)%nat then m r c else if (c =? r)%nat then 1 else 0.
Definition documented_u (m : nat -> nat -> F) (r c : nat) : F := if (r <=? c)%nat then m r c else 0.
Theorem C51_get_lu_refuted : exists (A : nat -> nat -> F) (L : lu F), factorised 2 A L /\ nonsingular 2 A /\
  forall rho : nat -> nat, (rho 0%nat < 2)%nat -> (rho 1%nat < 2)%nat ->
  ~ (forall r c, (r < 2)%nat -> (c < 2)%nat -> sum 2 (fun k => documented_l (mel (lu_m L)) r k * documented_u (mel (lu_m L)) k c) = A (rho r) c).
Proof.
  set (a := fun r c : nat => if ((r =? 0) && (c =? 0))%bool then 1 + 1 else 1 : F).
  set (m := fun r c : nat => if (r =? 0)%nat then (if (c =? 0)%nat then 1 + 1 else 1 / (1 + 1)) else if (c =? 0)%nat then 1 else 1 / (1 + 1) : F).
  pose proof two_neq as T.
  assert (HF : factorised 2 a (mklu (mkmat 2 2 m) (fun i => i))).
  { split; [reflexivity|]. split; [reflexivity|]. split; [intros i Hi; cbn; lia|]. cbn [lu_m mel lu_piv]. intros r c Hr Hc.
    destruct r as [|[|r]]; [| |lia]; (destruct c as [|[|c]]; [| |lia]); cbn [interchanged sum]; unfold exchange, lower, unit_upper, a, m; cbn; field; exact T. }
  exists a, (mklu (mkmat 2 2 m) (fun i => i)). split; [exact HF|]. split.
  - apply det_nonsingular. rewrite (lu_det_eq 2 a _ HF). cbn [sign_ prod_ lu_piv lu_m mel]. rewrite !Nat.ltb_irrefl. unfold m. cbn [Nat.eqb].
    intros E. apply one_neq_zero. rewrite <- E. field. exact T.
  - intros rho R0 R1 H. specialize (H 0%nat 1%nat ltac:(lia) ltac:(lia)). cbn [sum lu_m mel] in H. unfold documented_l, documented_u, a, m in H. cbn in H. rewrite andb_false_r in H.
    assert (H2 : (1 : F) / (1 + 1) = 1). { etransitivity; [|exact H]. field. exact T. }
    assert (H3 : (1 + 1) * (1 / (1 + 1)) = (1 : F)) by (field; exact T). rewrite H2 in H3. apply one_neq_zero. transitivity ((1 + 1) * 1 - 1 : F); [ring|]. rewrite H3. ring.
Qed.
End P.
Print Assumptions C51_backsub_vec.
Print Assumptions C51_singular.
Print Assumptions C51_size.
Print Assumptions C51_backsub_static.
Print Assumptions C51_backsub_dynamic_partial.
Print Assumptions C51_backsub_dynamic_refuted.
Print Assumptions C51_determinant.
Print Assumptions C51_get_lu_refuted.

(** A real run: the factors of [[1,2],[4,4]] with one interchange (columns 0 and 1 of the first row: pivot 2). *)
Definition ex_lu : lu Qc := mklu (mkmat 2 2 (fun r c => if (r =? 0)%nat then (if (c =? 0)%nat then q 2 else Q2Qc (1 # 2)) else if (c =? 0)%nat then q 4 else q 2)) (fun i => 1%nat).
Example C51_nonvacuous : factorised 2 (mel (mq 2 2 [1; 2; 4; 4]%Z)) ex_lu.
Proof.
  split; [reflexivity|]. split; [reflexivity|]. split; [intros [|[|i]] Hi; cbn; lia|].
  intros [|[|r]] [|[|c]] Hr Hc; try lia; apply Qc_is_canon; vm_compute; reflexivity.
Qed.
Example C51_run : vals (lu_backsub_vec ex_lu (vq [5; 12]%Z)) = [1; 2]%Q /\
  mvals (lu_backsub_mat ex_lu (Some 1%nat) (mq 2 1 [5; 12]%Z)) = [[1]; [2]]%Q /\ mvals (lu_backsub_mat ex_lu None (mq 2 1 [5; 12]%Z)) = [[2]; [1]]%Q /\
  lu_determinant ex_lu = Ok (q (-4)).
Proof. split; [vm_compute; reflexivity|]. split; [vm_compute; reflexivity|]. split; [vm_compute; reflexivity|]. vm_compute. f_equal. Qed.
