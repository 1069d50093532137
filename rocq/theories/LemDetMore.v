(** * Determinant of the transpose; a matrix is nonsingular iff its determinant is not 0; inverses. *)
From Coq Require Import Arith Bool List Lia Field.
From Verif Require Import Base Alg Mat SpecMat LemMat SpecLin LemLin LemDet LemDetMul ModelGauss LemGauss.

Section L.
Context {F : Type} {Fo : Ops F} {Fl : Laws F}.
Add Field Ff : law_field.
Open Scope F_scope.

Lemma sum_delta_r n k (f : nat -> F) : (k < n)%nat -> sum n (fun c => f c * delta c k) = f k.
Proof.
  intros Hk. rewrite (sum_one n k); [unfold delta; rewrite Nat.eqb_refl; ring|exact Hk|]. intros i _ H. unfold delta. destruct (Nat.eqb_spec i k); [lia|ring].
Qed.
Lemma sum_delta_l n k (f : nat -> F) : (k < n)%nat -> sum n (fun c => delta k c * f c) = f k.
Proof.
  intros Hk. rewrite (sum_one n k); [unfold delta; rewrite Nat.eqb_refl; ring|exact Hk|]. intros i _ H. unfold delta. destruct (Nat.eqb_spec k i); [lia|ring].
Qed.
(** a right inverse of a nonsingular matrix is a left inverse *)
Lemma left_inverse n (a v : nat -> nat -> F) : nonsingular n a ->
  (forall r k, (r < n)%nat -> (k < n)%nat -> sum n (fun c => a r c * v c k) = delta r k) ->
  forall r k, (r < n)%nat -> (k < n)%nat -> sum n (fun c => v r c * a c k) = delta r k.
Proof.
  intros NS H i j Hi Hj.
  apply (solves_unique n a (fun i => sum n (fun k => v i k * a k j)) (fun i => delta i j) (fun r => a r j) NS); [| |exact Hi].
  - intros r Hr. rewrite (sum_ext n _ (fun c => sum n (fun k => a k j * (a r c * v c k)))).
    + rewrite sum_swap. rewrite (sum_ext n _ (fun k => delta r k * a k j)); [exact (sum_delta_l n r (fun k => a k j) Hr)|]. intros k Hk. rewrite sum_mul_l, H by assumption. ring.
    + intros c Hc. rewrite <- sum_mul_l. apply sum_ext. intros k Hk. ring.
  - intros r Hr. exact (sum_delta_r n j (fun c => a r c) Hj).
Qed.
Lemma nonsingular_inverse n (a : nat -> nat -> F) : nonsingular n a ->
  exists v, (forall r k, (r < n)%nat -> (k < n)%nat -> sum n (fun c => a r c * v c k) = delta r k) /\
            (forall r k, (r < n)%nat -> (k < n)%nat -> sum n (fun c => v r c * a c k) = delta r k).
Proof.
  intros NS. destruct (gaussian_elimination_mat_ok n n (mkmat n n a) (mkmat n n delta) eq_refl eq_refl eq_refl eq_refl) as [[_ (x & _ & _ & _ & Sx)]|[N _]]; [|contradiction].
  assert (H : forall r k, (r < n)%nat -> (k < n)%nat -> sum n (fun c => a r c * mel x c k) = delta r k) by (intros r k Hr Hk; apply (Sx k Hk r Hr)).
  exists (mel x). split; [exact H|]. apply left_inverse; assumption.
Qed.
Lemma inverse_nonsingular n (a v : nat -> nat -> F) :
  (forall r k, (r < n)%nat -> (k < n)%nat -> sum n (fun c => v r c * a c k) = delta r k) -> nonsingular n a.
Proof.
  intros H x Hx c Hc. rewrite <- (sum_delta_l n c x Hc).
  rewrite (sum_ext n _ (fun k => sum n (fun r => v c r * (a r k * x k)))).
  - rewrite sum_swap. apply sum_zero. intros r Hr. rewrite sum_mul_l, Hx by exact Hr. ring.
  - intros k Hk. rewrite <- H by assumption. rewrite <- sum_mul_r. apply sum_ext. intros r Hr. ring.
Qed.
Lemma det_neq n (a : nat -> nat -> F) : nonsingular n a -> det n a <> 0.
Proof.
  intros NS E. destruct (nonsingular_inverse n a NS) as (v & H & _). pose proof (det_mul n a v) as M. rewrite E in M.
  rewrite (det_ext n _ delta) in M by (intros; apply H; assumption). rewrite det_delta in M. apply one_neq_zero. rewrite M. ring.
Qed.
Lemma first_nonzero n (x : nat -> F) : (forall i, (i < n)%nat -> x i = 0) \/ exists j, (j < n)%nat /\ x j <> 0.
Proof.
  induction n as [|n IH]; [left; lia|]. destruct IH as [IH|(j & Hj & H)]; [|right; exists j; split; [lia|exact H]].
  destruct (eq_dec (x n) 0) as [E|E]; [left|right; exists n; split; [lia|exact E]]. intros i Hi. destruct (Nat.eq_dec i n) as [->|]; [exact E|apply IH; lia].
Qed.
Lemma det_nonsingular n (a : nat -> nat -> F) : nonsingular n a <-> det n a <> 0.
Proof.
  split; [apply det_neq|]. intros Hd x Hx. destruct (first_nonzero n x) as [Z|(j & Hj & Hn)]; [exact Z|exfalso].
  (* replace column j by a x *)
  set (D := fun b : nat -> nat -> F => det n (fun r c => if (c =? j)%nat then sum n (fun k => b r k * x k) else b r c)).
  assert (HD : alternating n D).
  { split; [|split].
    - intros u w H. apply det_ext. intros r c Hr Hc. destruct (c =? j)%nat; [|apply H; assumption]. apply sum_ext. intros k Hk. rewrite H by assumption. reflexivity.
    - intros k u w z s Hk Ho Hs. apply (det_lin n k); [exact Hk| |].
      + intros r c Hr Hc Hrk. destruct (c =? j)%nat; [|apply Ho; assumption]. split; apply sum_ext; intros i Hi; destruct (Ho r i Hr Hi Hrk) as [E1 E2]; rewrite ?E1, ?E2; reflexivity.
      + intros c Hc. destruct (c =? j)%nat; [|apply Hs; exact Hc]. rewrite <- sum_mul_l, <- sum_add. apply sum_ext. intros i Hi. rewrite Hs by exact Hi. ring.
    - intros i p u Hi Hp Hip He. apply (det_eq_rows n i p); [exact Hip|exact Hi|exact Hp|]. intros c Hc. destruct (c =? j)%nat; [|apply He; exact Hc].
      apply sum_ext. intros k Hk. rewrite He by exact Hk. reflexivity. }
  pose proof (det_unique n D HD a) as E.
  assert (Z : D a = 0).
  { unfold D. rewrite (det_ext n _ (fun r c => sum n (fun k => a r k * (if (c =? j)%nat then 0 else delta k c)))).
    - rewrite det_mul. assert (Zr : det n (fun k c => if (c =? j)%nat then 0 else delta k c) = 0); [|rewrite Zr; ring].
      apply (D_zero_row n (det n) (det_alternating n) j); [exact Hj|]. intros c Hc. unfold delta. rewrite (Nat.eqb_sym j c). destruct (c =? j)%nat; reflexivity.
    - intros r c Hr Hc. destruct (Nat.eqb_spec c j).
      + rewrite Hx by exact Hr. rewrite sum_zero by (intros; ring). reflexivity.
      + rewrite sum_delta_r by exact Hc. reflexivity. }
  rewrite Z in E. symmetry in E. apply mul_zero in E. destruct E as [E|E]; [exact (Hd E)|]. revert E. apply det_neq.
  (* the identity with column j replaced by x is nonsingular *)
  intros y Hy. assert (R : forall r, (r < n)%nat -> sum n (fun c => (if (c =? j)%nat then sum n (fun k => delta r k * x k) else delta r c) * y c) = x r * y j + (if (r =? j)%nat then 0 else y r)).
  { intros r Hr. rewrite (sum_ext n _ (fun c => x r * y c * delta c j + delta r c * (if (c =? j)%nat then 0 else y c))).
    - rewrite sum_add, sum_delta_r, (sum_delta_l n r (fun c => if (c =? j)%nat then 0 else y c)) by assumption. reflexivity.
    - intros c Hc. rewrite sum_delta_l by exact Hr. destruct (Nat.eqb_spec c j) as [->|]; [unfold delta; rewrite Nat.eqb_refl; ring|]. unfold delta. destruct (Nat.eqb_spec c j); [lia|]. ring. }
  assert (Yj : y j = 0).
  { pose proof (Hy j Hj) as E. rewrite R in E by exact Hj. rewrite Nat.eqb_refl in E. assert (E' : x j * y j = 0) by (rewrite <- E; ring). apply mul_zero in E'. destruct E'; [contradiction|assumption]. }
  intros c Hc. destruct (Nat.eq_dec c j) as [->|]; [exact Yj|]. pose proof (Hy c Hc) as E. rewrite R in E by exact Hc. destruct (Nat.eqb_spec c j); [lia|]. rewrite Yj in E. rewrite <- E. ring.
Qed.

(** the determinant is linear in each column *)
Lemma det_col_lin n : forall k (a b c : nat -> nat -> F) s, (k < n)%nat ->
  (forall r j, (r < n)%nat -> (j < n)%nat -> j <> k -> c r j = a r j /\ b r j = a r j) ->
  (forall r, (r < n)%nat -> c r k = a r k + s * b r k) -> det n c = det n a + s * det n b.
Proof.
  induction n as [|n IH]; intros k a b c s Hk Ho Hs; [lia|]. rewrite !det_S, <- sum_mul_l, <- sum_add. apply sum_ext. intros i Hi.
  destruct k as [|k].
  - rewrite Hs by exact Hi.
    rewrite (det_ext n (fun r j => c (skip i r) (S j)) (fun r j => a (skip i r) (S j))) by (intros r j Hr Hj; apply Ho; [apply skip_lt; exact Hr|lia|lia]).
    rewrite (det_ext n (fun r j => b (skip i r) (S j)) (fun r j => a (skip i r) (S j))) by (intros r j Hr Hj; apply Ho; [apply skip_lt; exact Hr|lia|lia]). ring.
  - destruct (Ho i 0%nat Hi ltac:(lia) ltac:(lia)) as [-> ->].
    rewrite (IH k (fun r j => a (skip i r) (S j)) (fun r j => b (skip i r) (S j)) (fun r j => c (skip i r) (S j)) s).
    + ring.
    + lia.
    + intros r j Hr Hj Hjk. apply Ho; [apply skip_lt; exact Hr|lia|lia].
    + intros r Hr. apply Hs. apply skip_lt. exact Hr.
Qed.
Lemma det_eq_cols n i p (a : nat -> nat -> F) : i <> p -> (i < n)%nat -> (p < n)%nat -> (forall r, (r < n)%nat -> a r i = a r p) -> det n a = 0.
Proof.
  intros Hip Hi Hp He. apply opp_self.
  transitivity (det n (fun r c => sum n (fun k => a r k * delta (swp i p k) c))).
  - apply det_ext. intros r c Hr Hc. rewrite (sum_one n (swp i p c)).
    + rewrite swp_inv. unfold delta. rewrite Nat.eqb_refl. unfold swp. destruct (Nat.eqb_spec c i) as [->|]; [rewrite He by exact Hr; ring|]. destruct (Nat.eqb_spec c p) as [->|]; [rewrite He by exact Hr; ring|ring].
    + apply swp_lt; assumption.
    + intros k Hk Hn. unfold delta. destruct (Nat.eqb_spec (swp i p k) c) as [E|]; [|ring]. exfalso. apply Hn. rewrite <- E, swp_inv. reflexivity.
  - rewrite det_mul. rewrite (det_swap_ne n i p delta) by assumption. rewrite det_delta. ring.
Qed.
Lemma det_tr n (a : nat -> nat -> F) : det n (fun r c => a c r) = det n a.
Proof.
  rewrite (det_unique n (fun a => det n (fun r c => a c r))).
  - rewrite (det_ext n (fun r c => delta c r) delta) by (intros; unfold delta; rewrite Nat.eqb_sym; reflexivity). rewrite det_delta. ring.
  - split; [|split].
    + intros x y H. apply det_ext. intros; apply H; assumption.
    + intros k x y z s Hk Ho Hs. apply (det_col_lin n k); [exact Hk| |exact Hs]. intros r j Hr Hj Hjk. apply Ho; assumption.
    + intros i p x Hi Hp Hip He. apply (det_eq_cols n i p); assumption.
Qed.
End L.
