(** * C91: LU from construction to results, with LAPACK's reference getrf and getri written out. *)
From Coq Require Import Arith Bool List Lia Field QArith Qcanon.
From Verif Require Import Base Alg Mat SpecMat LemMat ModelOps LemOps SpecLin LemLin LemDet LemDetMore ModelLU SpecLU LemLU PropLU ModelGetrf LemGetrfStep LemGetrf LemGetri ModelGauss PropGauss Inst.
Open Scope nat_scope.
Open Scope outcome_scope.

Section P.
Context {F : Type} {Fo : Ops F} {Fl : Laws F}.
Open Scope F_scope.
Add Field Ff : law_field.
Section N.
Variables (n : nat) (A : mat F).
Hypotheses (HR : mrows A = n) (HC : mcols A = n).
Lemma construct_ok : exists L info, lu_construct A = Ok (L, info) /\ getrf_inv n (mel A) n (lu_m L, lu_piv L, info).
Proof.
  unfold lu_construct. rewrite HC, HR, same_size_ok. cbn [bind]. destruct (getrf_ok n A HR HC) as (m & piv & info & -> & I). cbn [bind]. exists (mklu m piv), info. split; [reflexivity|exact I].
Qed.
(** The constructor always ends for a square matrix; interchanging the columns of A as recorded gives the product of the stored
    factors; by partial pivoting the entries of the unit factor are at most 1 in size; get_info() is 0 exactly for nonsingular A,
    and otherwise says where the first zero on the diagonal of the triangular factor is. *)
Theorem C91_decomposes : exists L info, lu_construct A = Ok (L, info) /\ factorised n (mel A) L /\
  (forall r c, (r < n)%nat -> (c < n)%nat -> fabs (unit_upper (mel (lu_m L)) r c) <= 1) /\ (info = None <-> nonsingular n (mel A)) /\
  (forall i, info = Some i -> (i < n)%nat /\ mel (lu_m L) i i = 0 /\ forall k, (k < i)%nat -> mel (lu_m L) k k <> 0).
Proof.
  destruct construct_ok as (L & info & E & I). exists L, info. split; [exact E|]. assert (HF : factorised n (mel A) L) by (destruct L; exact (getrf_inv_factorised n (mel A) _ _ info I)).
  split; [exact HF|]. destruct I as (_ & _ & _ & _ & II & HB). split; [|split].
  - intros r c Hr Hc. unfold unit_upper. destruct (Nat.ltb_spec r c); [apply HB; lia|]. destruct (r =? c)%nat; [rewrite abs_pos_id by (apply lt_le, zero_lt_one); apply le_refl|rewrite abs0; apply lt_le, zero_lt_one].
  - unfold info_ok in II. destruct info as [i|].
    + split; [discriminate|]. intros NS. exfalso. destruct II as (I1 & I2 & _). exact (pivots_nonzero n (mel A) L HF NS i I1 I2).
    + split; [|reflexivity]. intros _. apply det_nonsingular. rewrite (lu_det_eq n (mel A) L HF). apply mul_neq; [apply sign_nonzero|]. apply prod_nonzero. exact II.
  - intros i ->. exact II.
Qed.
(** backsub on the constructed object solves the system; a singular matrix gives a division by zero, which get_info() announces. *)
Theorem C91_solves : forall b : vec F, vlen b = n -> exists L info, lu_construct A = Ok (L, info) /\
  (nonsingular n (mel A) -> info = None /\ exists x, lu_backsub_vec L b = Ok x /\ vlen x = n /\ solves n (mel A) (vat x) (vat b) /\ gives_vec (mv A x) n (vat b)) /\
  (~ nonsingular n (mel A) -> info <> None /\ lu_backsub_vec L b = NonFinite).
Proof.
  intros b Hb. destruct C91_decomposes as (L & info & E & HF & _ & HI & _). exists L, info. split; [exact E|]. split.
  - intros NS. split; [apply HI; exact NS|]. destruct (C51_backsub_vec n (mel A) L b HF NS Hb) as (x & Ex & Lx & Sx). exists x. split; [exact Ex|]. split; [exact Lx|]. split; [exact Sx|].
    destruct (mv_ok A x) as (y & Ey & Ly & Vy); [lia|]. exists y. split; [exact Ey|]. split; [lia|]. intros i Hi. rewrite Vy by lia. rewrite HC. apply Sx. exact Hi.
  - intros NS. split; [intros H; apply NS; apply HI; exact H|]. apply (C51_singular n (mel A)); assumption.
Qed.
(** get_inverse() of a nonsingular matrix is its two-sided inverse, and get_info() is 0. *)
Theorem C91_inverse : nonsingular n (mel A) -> exists L V, lu_construct A = Ok (L, None) /\ lu_inverse L = Ok (V, None) /\ mrows V = n /\ mcols V = n /\ gives_mat (mmul A V) n n delta /\ gives_mat (mmul V A) n n delta.
Proof.
  intros NS. destruct C91_decomposes as (L & info & E & HF & _ & HI & _). rewrite (proj2 HI NS) in E. destruct (getri_ok n (mel A) L HF (pivots_nonzero n (mel A) L HF NS)) as (V & EV & RV & CV & G).
  exists L, V. split; [exact E|]. split; [exact EV|]. split; [exact RV|]. split; [exact CV|]. split.
  - destruct (mmul_ok A V) as (P & EP & RP & CP & VP); [lia|]. exists P. split; [exact EP|]. split; [lia|]. split; [lia|]. intros i j Hi Hj. rewrite VP by lia. rewrite HC. apply G; assumption.
  - destruct (mmul_ok V A) as (P & EP & RP & CP & VP); [lia|]. exists P. split; [exact EP|]. split; [lia|]. split; [lia|]. intros i j Hi Hj. rewrite VP by lia. rewrite CV. apply left_inverse; [exact NS|exact G|exact Hi|exact Hj].
Qed.
(** get_inverse() of a singular matrix returns a matrix all the same: the stored factors. Only get_info() tells. *)
Theorem C91_singular_inverse : ~ nonsingular n (mel A) -> exists L i, lu_construct A = Ok (L, Some i) /\ lu_inverse L = Ok (lu_m L, Some i).
Proof.
  intros NS. destruct C91_decomposes as (L & info & E & HF & _ & HI & HS). destruct info as [i|]; [|exfalso; apply NS; apply HI; reflexivity].
  exists L, i. split; [exact E|]. destruct (HS i eq_refl) as (I1 & I2 & I3). destruct HF as (H1 & H2 & _). apply (getri_singular L n i); assumption.
Qed.
(** determinant() is the determinant, singular or not, and so equals the free function determinant(A). *)
Theorem C91_determinant : exists L info, lu_construct A = Ok (L, info) /\ lu_determinant L = Ok (det n (mel A)) /\ lu_determinant L = determinant A.
Proof.
  destruct C91_decomposes as (L & info & E & HF & _). exists L, info. split; [exact E|]. rewrite (C51_determinant n (mel A) L HF). split; [reflexivity|].
  rewrite (proj1 (C39_determinant A ltac:(lia))), HR. reflexivity.
Qed.
(** compute() on an object of the same size gives what the constructor gives, whatever was decomposed before. *)
Theorem C91_compute : forall L0 : lu F, mrows (lu_m L0) = n -> lu_compute L0 A = lu_construct A.
Proof. intros L0 H. unfold lu_compute, lu_construct. rewrite H, HC, HR. reflexivity. Qed.
End N.
Theorem C91_not_square : forall A : mat F, mrows A <> mcols A -> lu_construct A = Abort DSizeMismatch.
Proof. intros A H. unfold lu_construct. rewrite same_size_ok. cbn [bind]. rewrite same_size_bad by exact H. reflexivity. Qed.
Theorem C91_compute_size : forall (L : lu F) (A : mat F), ~ (mrows A = mrows (lu_m L) /\ mcols A = mrows (lu_m L)) -> lu_compute L A = Abort DSizeMismatch.
Proof.
  intros L A H. unfold lu_compute. destruct (Nat.eq_dec (mrows (lu_m L)) (mrows A)) as [E|E]; [rewrite (same_size_eq _ _ E)|rewrite (same_size_bad _ _ E); reflexivity].
  cbn [bind]. rewrite same_size_bad by (intros G; apply H; split; congruence). reflexivity.
Qed.
End P.
(** Non-vacuity, over the rationals: [[0,2,1],[1,1,0],[2,0,1]], whose first step needs an interchange. *)
Definition exA : mat Qc := mkmat 3 3 (fun i j => Q2Qc (inject_Z (match i, j with 0%nat, 0%nat => 0 | 0%nat, 1%nat => 2 | 0%nat, _ => 1 | 1%nat, 0%nat => 1 | 1%nat, 1%nat => 1 | 1%nat, _ => 0 | _, 0%nat => 2 | _, 1%nat => 0 | _, _ => 1 end)%Z)).
Example C91_runs : match lu_construct exA with
  | Ok (L, None) => match lu_inverse L with
     | Ok (V, None) => (lu_piv L 0 =? 1)%nat && Qeq_bool (mel V 0%nat 0%nat) (-1 # 4) && Qeq_bool (mel V 2%nat 1%nat) (-1) &&
                       match lu_determinant L with Ok d => Qeq_bool d (-4) | _ => false end
     | _ => false end
  | _ => false end = true.
Proof. vm_compute. reflexivity. Qed.
(** ... and a singular one *)
Example C91_singular_runs : match lu_construct (mkmat 2 2 (fun i j => Q2Qc (inject_Z (if (i =? j)%nat then 1 else 1)))) with
  | Ok (L, Some i) => (i =? 1)%nat && match lu_inverse L with Ok (V, Some k) => (k =? 1)%nat && Qeq_bool (mel V 0%nat 0%nat) 1 | _ => false end
  | _ => false end = true.
Proof. vm_compute. reflexivity. Qed.
