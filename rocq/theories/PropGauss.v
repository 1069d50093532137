(** * C36 C37 C38 C39 C73: Gaussian elimination, Gauss-Jordan reduction and the determinant. *)
From Coq Require Import Arith Bool List Lia ZArith QArith Qcanon.
From Verif Require Import Base Alg Mat SpecMat LemMat SpecLin LemLin ModelOps LemOps Inst ModelGauss LemGauss LemGaussJordan LemDet LemDetMul LemDetMore LemDeterminant PropOps.
Import ListNotations.
Local Open Scope nat_scope.

Section P.
Context {F : Type} {Fo : Ops F} {Fl : Laws F}.
Add Field Ff : law_field.

(** A nonsingular: x is returned, A*x == b (computed by the library's own product), and x is the only solution. *)
Theorem C36_solves : forall n (A : mat F) (b : vec F), mrows A = n -> mcols A = n -> vlen b = n -> nonsingular n (mel A) ->
  exists x, gaussian_elimination A b = Ok x /\ vlen x = n /\ gives_vec (mv A x) n (vat b) /\
    forall y, solves n (mel A) y (vat b) -> forall i, i < n -> y i = vat x i.
Proof.
  intros n A b HR HC HB NS. destruct (gaussian_elimination_ok n A b HR HC HB) as [[_ (x & Ex & Lx & Sx)]|[N _]]; [|contradiction].
  exists x. split; [exact Ex|]. split; [exact Lx|]. split.
  - eapply gives_vec_ext; [apply mv_ok; lia|exact HR|]. intros i Hi. rewrite HC. apply Sx. lia.
  - intros y Hy i Hi. apply (solves_unique n (mel A) y (vat x) (vat b)); assumption.
Qed.
(** A singular: no finite result at all. *)
Theorem C36_singular : forall n (A : mat F) (b : vec F), mrows A = n -> mcols A = n -> vlen b = n -> ~ nonsingular n (mel A) ->
  gaussian_elimination A b = NonFinite.
Proof. intros n A b HR HC HB NS. destruct (gaussian_elimination_ok n A b HR HC HB) as [[N _]|[_ E]]; [contradiction|exact E]. Qed.
(** Whatever is returned is a solution. *)
Theorem C36_result_is_a_solution : forall n (A : mat F) (b x : vec F), mrows A = n -> mcols A = n -> vlen b = n ->
  gaussian_elimination A b = Ok x -> gives_vec (mv A x) n (vat b).
Proof.
  intros n A b x HR HC HB E. destruct (gaussian_elimination_ok n A b HR HC HB) as [[_ (x' & Ex & Lx & Sx)]|[_ N]]; [|congruence].
  rewrite E in Ex. injection Ex as <-. eapply gives_vec_ext; [apply mv_ok; lia|exact HR|]. intros i Hi. rewrite HC. apply Sx. lia.
Qed.

Theorem C37_solves : forall n q (A B : mat F), mrows A = n -> mcols A = n -> mrows B = n -> mcols B = q -> nonsingular n (mel A) ->
  exists X, gaussian_elimination_mat A B = Ok X /\ mrows X = n /\ mcols X = q /\ gives_mat (mmul A X) n q (mel B).
Proof.
  intros n q A B HR HC HB HQ NS. destruct (gaussian_elimination_mat_ok n q A B HR HC HB HQ) as [[_ (x & Ex & Lx & Cx & Sx)]|[N _]]; [|contradiction].
  exists x. split; [exact Ex|]. split; [exact Lx|]. split; [exact Cx|].
  eapply gives_mat_ext; [apply mmul_ok; lia|exact HR|exact Cx|]. intros i j Hi Hj. rewrite HC. apply Sx; lia.
Qed.
(** each column is solved as by the vector version *)
Theorem C37_columns : forall n q (A B X : mat F), mrows A = n -> mcols A = n -> mrows B = n -> mcols B = q ->
  gaussian_elimination_mat A B = Ok X -> forall k, k < q -> exists x, gaussian_elimination A (mkvec n (fun i => mel B i k)) = Ok x /\
   forall i, i < n -> vat x i = mel X i k.
Proof.
  intros n q A B X HR HC HB HQ E k Hk. destruct (gaussian_elimination_mat_ok n q A B HR HC HB HQ) as [[NS (X' & Ex & Lx & Cx & Sx)]|[_ N]]; [|congruence].
  rewrite E in Ex. injection Ex as <-. destruct (C36_solves n A (mkvec n (fun i => mel B i k)) HR HC eq_refl NS) as (x & Ex & Lv & _ & U).
  exists x. split; [exact Ex|]. intros i Hi. symmetry. apply (U (fun i => mel X i k)); [|exact Hi]. apply Sx. exact Hk.
Qed.
Theorem C37_singular : forall n q (A B : mat F), mrows A = n -> mcols A = n -> mrows B = n -> mcols B = q -> ~ nonsingular n (mel A) ->
  gaussian_elimination_mat A B = NonFinite.
Proof. intros n q A B HR HC HB HQ NS. destruct (gaussian_elimination_mat_ok n q A B HR HC HB HQ) as [[N _]|[_ E]]; [contradiction|exact E]. Qed.

(** [A|B] becomes [I|X] with A*X == B *)
Theorem C38_reduces : forall n q (m : mat F), mrows m = n -> mcols m = n + q -> nonsingular n (mel m) ->
  exists m', gauss_jordan m = Ok m' /\ mrows m' = n /\ mcols m' = n + q /\
    (forall r c, r < n -> c < n -> mel m' r c = delta r c) /\
    gives_mat (mmul (mkmat n n (mel m)) (mkmat n q (fun r c => mel m' r (n + c)))) n q (fun r c => mel m r (n + c)).
Proof.
  intros n q m HR HC NS. destruct (gauss_jordan_ok n (n + q) ltac:(lia) m (conj HR HC)) as [[_ (m' & E & [R' C'] & D & Sx)]|[N _]]; [|contradiction].
  exists m'. split; [exact E|]. split; [exact R'|]. split; [exact C'|]. split; [exact D|].
  eapply gives_mat_ext; [apply mmul_ok; reflexivity|reflexivity|reflexivity|]. intros i j Hi Hj. cbn [mrows mcols mel] in *. apply (Sx (n + j)); lia.
Qed.
(** [A|I]: the right half is a two-sided inverse of A *)
Theorem C38_inverts : forall n (m : mat F), mrows m = n -> mcols m = n + n -> nonsingular n (mel m) ->
  (forall r c, r < n -> c < n -> mel m r (n + c) = delta r c) ->
  exists m', gauss_jordan m = Ok m' /\
    let A := mkmat n n (mel m) in let V := mkmat n n (fun r c => mel m' r (n + c)) in
    gives_mat (mmul A V) n n delta /\ gives_mat (mmul V A) n n delta.
Proof.
  intros n m HR HC NS HI. destruct (C38_reduces n n m HR HC NS) as (m' & E & R' & C' & _ & P). exists m'. split; [exact E|]. cbv zeta.
  assert (P' : gives_mat (mmul (mkmat n n (mel m)) (mkmat n n (fun r c => mel m' r (n + c)))) n n delta).
  { eapply gives_mat_ext; [exact P|reflexivity|reflexivity|]. intros i j Hi Hj. apply HI; assumption. }
  split; [exact P'|].
  assert (S1 : forall r k, r < n -> k < n -> sum n (fun c => fmul (mel m r c) (mel m' c (n + k))) = delta r k).
  { destruct P' as (pm & Ep & _ & _ & Vp). destruct (mmul_ok (mkmat n n (mel m)) (mkmat n n (fun r c => mel m' r (n + c))) eq_refl) as (pm' & Ep' & _ & _ & Vp').
    rewrite Ep in Ep'. injection Ep' as <-. cbn [mrows mcols mel] in *. intros r k Hr Hk. rewrite <- Vp by assumption. symmetry. rewrite Vp' by assumption. reflexivity. }
  eapply gives_mat_ext; [apply mmul_ok; reflexivity|reflexivity|reflexivity|]. cbn [mrows mcols mel]. intros i j Hi Hj.
  apply (solves_unique n (mel m) (fun i => sum n (fun k => fmul (mel m' i (n + k)) (mel m k j))) (fun i => delta i j) (fun r => mel m r j)); [exact NS| | |exact Hi].
  - intros r Hr. rewrite (sum_ext n _ (fun c => sum n (fun k => fmul (mel m k j) (fmul (mel m r c) (mel m' c (n + k)))))).
    + rewrite sum_swap. rewrite (sum_ext n _ (fun k => fmul (mel m k j) (delta r k))).
      * rewrite (sum_one n r) by (first [exact Hr|intros k Hk Hkr; unfold delta; destruct (Nat.eqb_spec r k); [lia|ring]]).
        unfold delta. rewrite Nat.eqb_refl. ring.
      * intros k Hk. rewrite sum_mul_l. rewrite S1 by assumption. reflexivity.
    + intros c Hc. rewrite <- sum_mul_l. apply sum_ext. intros k Hk. ring.
  - intros r Hr. rewrite (sum_one n j); [|exact Hj|].
    + unfold delta. rewrite Nat.eqb_refl. ring.
    + intros c Hc Hcj. unfold delta. destruct (Nat.eqb_spec c j); [lia|ring].
Qed.
Theorem C38_singular : forall n q (m : mat F), mrows m = n -> mcols m = n + q -> ~ nonsingular n (mel m) -> gauss_jordan m = NonFinite.
Proof.
  intros n q m HR HC NS. destruct (gauss_jordan_ok n (n + q) ltac:(lia) m (conj HR HC)) as [[N _]|[_ E]]; [contradiction|exact E].
Qed.

(** [det] is the Laplace expansion (SpecLin.v). *)
Theorem C39_determinant : forall A : mat F, mrows A = mcols A ->
  determinant A = Ok (det (mrows A) (mel A)) /\ determinant_gaussian_elimination A = Ok (det (mrows A) (mel A)).
Proof. intros A H. split; [apply determinant_ok; exact H|apply determinant_ge_ok; exact H]. Qed.
(** The determinant the library computes is THE determinant: the only function of the rows that is linear in
    each row, vanishes on equal rows and is 1 on the identity (so Leibniz' formula, which has these properties,
    gives the same number). *)
Theorem C39_unique : forall n (D : (nat -> nat -> F) -> F) (A : mat F), alternating n D -> D delta = f1 -> mrows A = n -> mcols A = n ->
  determinant A = Ok (D (mel A)) /\ determinant_gaussian_elimination A = Ok (D (mel A)).
Proof.
  intros n D A HD H1 HR HC. assert (E : D (mel A) = det n (mel A)) by (rewrite (det_unique n D HD), H1; ring).
  rewrite E, <- HR. apply C39_determinant. lia.
Qed.
(** [det] itself is such a function (so C39_unique is not vacuous). *)
Theorem C39_alternating : forall n, alternating n (det (F:=F) n) /\ det n (delta (F:=F)) = f1.
Proof. intros n. split; [apply det_alternating|apply det_delta]. Qed.
(** determinant(A*B) == determinant(A) * determinant(B) *)
Theorem C39_multiplicative : forall n (A B P : mat F), mrows A = n -> mcols A = n -> mrows B = n -> mcols B = n -> mmul A B = Ok P ->
  exists a b, determinant A = Ok a /\ determinant B = Ok b /\ determinant P = Ok (fmul a b).
Proof.
  intros n A B P HA CA HB CB E. destruct (mmul_ok A B ltac:(lia)) as (P' & E' & R & C & V). rewrite E in E'. injection E' as <-.
  exists (det n (mel A)), (det n (mel B)). rewrite !determinant_ok by lia. rewrite R, HA, HB. split; [reflexivity|]. split; [reflexivity|].
  f_equal. rewrite <- det_mul. apply det_ext. intros r c Hr Hc. rewrite V, CA by lia. reflexivity.
Qed.
(** determinant(A.T()) == determinant(A) *)
Theorem C39_transpose : forall A : mat F, mrows A = mcols A -> determinant (tr A) = determinant A.
Proof.
  intros A H. rewrite !determinant_ok by (cbn [tr mrows mcols]; lia). cbn [tr mrows mcols mel]. rewrite <- H. f_equal. apply det_tr.
Qed.
(** determinant(A) is zero exactly for the singular matrices *)
Theorem C39_singular : forall A : mat F, mrows A = mcols A -> (determinant A = Ok f0 <-> ~ nonsingular (mrows A) (mel A)).
Proof.
  intros A H. rewrite determinant_ok by exact H. rewrite det_nonsingular. split.
  - intros E. injection E as E. intros N. apply N. exact E.
  - intros N. f_equal. destruct (eq_dec (det (mrows A) (mel A)) f0) as [E|E]; [exact E|contradiction].
Qed.
Theorem C39_not_square : forall A : mat F, mrows A <> mcols A ->
  determinant A = Abort DSizeMismatch /\ determinant_gaussian_elimination A = Abort DSizeMismatch.
Proof. intros A H. unfold determinant, determinant_gaussian_elimination. rewrite same_size_bad by exact H. split; reflexivity. Qed.

(** The several-right-hand-sides overload and the determinant test the sizes ... *)
Theorem C73_matrix_checked : forall A B : mat F, mrows A <> mcols A \/ mrows A <> mrows B ->
  gaussian_elimination_mat A B = Abort DSizeMismatch.
Proof.
  intros A B H. unfold gaussian_elimination_mat, same_size. destruct (Nat.eqb_spec (mrows A) (mcols A)); [|reflexivity]. cbn [bind].
  destruct (Nat.eqb_spec (mrows A) (mrows B)); [lia|reflexivity].
Qed.
(** ... but the vector overload believes b.size(): a longer b reads outside A ... *)
Lemma for_ub {St} j : forall lo (k : nat) (body : nat -> St -> outcome St) (s : St), j < k ->
  (forall i t, lo <= i < lo + j -> exists t', body i t = Ok t') -> (forall t, body (lo + j) t = UB) -> for_up k lo body s = UB.
Proof.
  induction j as [|j IH]; intros lo k body s Hk Ho Hu; (destruct k as [|k]; [lia|]); cbn [for_up].
  - rewrite Nat.add_0_r in Hu. rewrite Hu. reflexivity.
  - destruct (Ho lo s ltac:(lia)) as [t' ->]. cbn [bind]. apply IH; [lia| |].
    + intros i t Hi. apply Ho. lia.
    + intros t. replace (S lo + j) with (lo + S j) by lia. apply Hu.
Qed.
Theorem C73_longer_vector_refuted : forall (A : mat F) (b : vec F), mrows A < vlen b -> gaussian_elimination A b = UB.
Proof.
  intros A b H. unfold gaussian_elimination, ge_elim. unfold for_ at 1. destruct (vlen b - 0) as [|k] eqn:Ek; [lia|]. cbn [for_up]. unfold ge_step at 1, find_pivot, mget at 1.
  destruct (Nat.ltb_spec 0 (mrows A)); [|reflexivity]. destruct (Nat.ltb_spec 0 (mcols A)); [|reflexivity]. cbn [andb bind]. unfold for_ at 1.
  rewrite (for_ub (mrows A - 1)).
  - reflexivity.
  - lia.
  - intros i t Hi. rewrite mget_ok by lia. cbn [bind]. eexists. reflexivity.
  - intros t. unfold mget. destruct (Nat.ltb_spec (1 + (mrows A - 1)) (mrows A)); [lia|]. reflexivity.
Qed.
End P.
(** ... and a shorter b silently solves the leading block: here A is 2x2, b has one element, and a
    "solution" is returned without any diagnosis. *)
Theorem C73_shorter_vector_refuted : exists (A : mat Qc) (b x : vec Qc), mrows A = 2 /\ mcols A = 2 /\ vlen b = 1 /\
  gaussian_elimination A b = Ok x.
Proof. exists (mq 2 2 [2;1;1;3]%Z), (vq [4]%Z). eexists. split; [reflexivity|]. split; [reflexivity|]. split; [reflexivity|]. vm_compute. reflexivity. Qed.

Print Assumptions C36_solves.
Print Assumptions C36_singular.
Print Assumptions C36_result_is_a_solution.
Print Assumptions C37_solves.
Print Assumptions C37_columns.
Print Assumptions C37_singular.
Print Assumptions C38_reduces.
Print Assumptions C38_inverts.
Print Assumptions C38_singular.
Print Assumptions C39_determinant.
Print Assumptions C39_unique.
Print Assumptions C39_alternating.
Print Assumptions C39_multiplicative.
Print Assumptions C39_transpose.
Print Assumptions C39_singular.
Print Assumptions C39_not_square.
Print Assumptions C73_matrix_checked.
Print Assumptions C73_longer_vector_refuted.
Print Assumptions C73_shorter_vector_refuted.

(** Non-vacuity: a nonsingular matrix that needs a row interchange (its first pivot is 0), and a singular one. *)
Example C36_nonvac : nonsingular 2 (mel (mq 2 2 [0;2;1;3]%Z)) /\ vals (gaussian_elimination (mq 2 2 [0;2;1;3]%Z) (vq [4;5]%Z)) = [(-1)#1;2#1]%Q /\
  gaussian_elimination (mq 2 2 [1;2;2;4]%Z) (vq [1;2]%Z) = NonFinite.
Proof.
  split; [|split; vm_compute; reflexivity].
  destruct (gaussian_elimination_ok 2 (mq 2 2 [0;2;1;3]%Z) (vq [4;5]%Z) eq_refl eq_refl eq_refl) as [[H _]|[_ H]]; [exact H|]. vm_compute in H. discriminate.
Qed.
Example C37_nonvac : mvals (gaussian_elimination_mat (mq 2 2 [0;2;1;3]%Z) (mq 2 2 [4;2;5;3]%Z)) = [[(-1)#1;0#1];[2#1;1#1]]%Q.
Proof. vm_compute. reflexivity. Qed.
Example C38_nonvac : mvals (gauss_jordan (mq 2 4 [0;2;1;0; 1;3;0;1]%Z)) = [[1#1;0#1;(-3)#2;1#1];[0#1;1#1;1#2;0#1]]%Q.
Proof. vm_compute. reflexivity. Qed.
Example C39_nonvac : (match determinant (mq 3 3 [0;2;1;1;3;0;4;5;6]%Z) with Ok d => this d | _ => 0%Q end) = ((-19)#1)%Q /\
  determinant (mq 3 3 [1;2;3;4;5;6;7;8;9]%Z) = Ok (q 0).
Proof. split; vm_compute; reflexivity. Qed.
Example C73_nonvac : mrows (mq 1 1 [2]%Z) < vlen (vq [1;2]%Z).
Proof. cbn. lia. Qed.
