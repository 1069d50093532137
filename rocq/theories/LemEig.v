(** * Lemmas for SymEigen. *)
From Coq Require Import Reals Arith Bool Lia Lra Psatz.
From Verif Require Import Base Alg Mat SpecMat LemMat Inst RSum ModelOps LemOps ModelHelpers LemHelpers LemChol SpecLin LemLin LemDet LemDetMore LemDetMul SpecForm LemForm ModelEig SpecEig.
Open Scope outcome_scope.
Local Open Scope R_scope.

Lemma delta_l n k f : (k < n)%nat -> Sum n (fun i => delta k i * f i) = f k.
Proof. exact (@sum_delta_l R ROps RLaws n k f). Qed.
Lemma delta_r n k f : (k < n)%nat -> Sum n (fun i => f i * delta i k) = f k.
Proof. exact (@sum_delta_r R ROps RLaws n k f). Qed.
Lemma delta_sym i j : delta (F:=R) i j = delta j i.
Proof. unfold delta. rewrite Nat.eqb_sym. reflexivity. Qed.
Lemma orthonormal_nonsingular n V : orthonormal n V -> nonsingular (F:=R) n V.
Proof.
  intros H. apply (@det_nonsingular R ROps RLaws). rewrite <- (@det_tr R ROps RLaws). apply (@det_nonsingular R ROps RLaws).
  apply (@inverse_nonsingular R ROps RLaws n (fun r c => V c r) V). exact H.
Qed.
Lemma orthonormal_cols n V : orthonormal n V -> forall r c, (r < n)%nat -> (c < n)%nat -> Sum n (fun k => V k r * V k c) = delta r c.
Proof. intros H. exact (@left_inverse R ROps RLaws n V (fun r c => V c r) (orthonormal_nonsingular n V H) H). Qed.
(** V^T diag(d) V *)
Definition spec (n : nat) (V : nat -> nat -> R) (d : nat -> R) (r c : nat) : R := Sum n (fun k => V k r * (d k * V k c)).
Lemma spec_ext n V d d' r c : (forall k, (k < n)%nat -> d k = d' k) -> spec n V d r c = spec n V d' r c.
Proof. intros H. apply S_ext. intros k Hk. rewrite H by exact Hk. reflexivity. Qed.
Lemma spec_sym n V d r c : spec n V d r c = spec n V d c r.
Proof. apply S_ext. intros; ring. Qed.
Lemma spec_one n V r c : orthonormal n V -> (r < n)%nat -> (c < n)%nat -> spec n V (fun _ => 1) r c = delta r c.
Proof. intros H Hr Hc. rewrite <- (orthonormal_cols n V H r c Hr Hc). apply S_ext. intros; ring. Qed.
Lemma spec_vec n V d (x : nat -> R) r : (r < n)%nat -> Sum n (fun c => spec n V d r c * x c) = Sum n (fun k => V k r * (d k * Sum n (fun c => V k c * x c))).
Proof.
  intros Hr. unfold spec. rewrite (S_ext n _ (fun c => Sum n (fun k => V k r * d k * (V k c * x c)))).
  2:{ intros c Hc. rewrite <- S_mul_r. apply S_ext. intros; ring. }
  rewrite S_swap. apply S_ext. intros k Hk. rewrite S_mul_l. ring.
Qed.
Lemma row_spec n V d k c : orthonormal n V -> (k < n)%nat -> Sum n (fun m => V k m * spec n V d m c) = d k * V k c.
Proof.
  intros H Hk. unfold spec. rewrite (S_ext n _ (fun m => Sum n (fun l => (V k m * V l m) * (d l * V l c)))).
  2:{ intros m Hm. rewrite <- S_mul_l. apply S_ext. intros; ring. }
  rewrite S_swap. rewrite (S_ext n _ (fun l => delta k l * (d l * V l c))).
  2:{ intros l Hl. rewrite S_mul_r, H by auto. reflexivity. }
  exact (delta_l n k (fun l => d l * V l c) Hk).
Qed.
Lemma spec_mul n V d d' r c : orthonormal n V -> (r < n)%nat -> (c < n)%nat -> Sum n (fun m => spec n V d r m * spec n V d' m c) = spec n V (fun k => d k * d' k) r c.
Proof.
  intros H Hr Hc. rewrite spec_vec by exact Hr. unfold spec at 2. apply S_ext. intros k Hk. rewrite row_spec by auto. ring.
Qed.
Lemma spec_model n (V : mat R) (d : vec R) : mrows V = n -> mcols V = n -> vlen d = n -> gives_mat (t <- vmdiag d V ;; mmul (tr V) t) n n (spec n (mel V) (vat d)).
Proof.
  intros H1 H2 Hd. destruct (@vmdiag_ok R ROps d V ltac:(congruence)) as (t & E & T1 & T2 & T3). rewrite E. cbn [bind].
  destruct (@mmul_ok R ROps (tr V) t) as (p & Ep & P1 & P2 & P3); [cbn [tr mcols]; congruence|]. exists p. split; [exact Ep|]. cbn [tr mrows mcols mel] in *.
  split; [congruence|]. split; [congruence|]. intros i j Hi Hj. rewrite P3 by congruence. rewrite H1. apply S_ext. intros k Hk. cbn [tr mel]. rewrite T3 by congruence. reflexivity.
Qed.
(** ** the reciprocals *)
Lemma R_ltb_iff x y : R_ltb x y = true <-> x < y.
Proof. split; [apply R_ltb_spec|]. intros H. destruct (R_ltb x y) eqn:E; [reflexivity|]. apply R_ltb_false in E. lra. Qed.
Lemma inv_diag_ok n A cond (E : eig) : (0 < n)%nat -> eigensystem n A E -> exists m, largest n (vat (e_vals E)) m /\
  gives_vec (eig_inv_diag cond E) n (fun i => if R_ltb m (Rabs (vat (e_vals E) i) * cond) then / vat (e_vals E) i else 0).
Proof.
  intros Hn (H1 & H2 & H3 & HV & HA & _). unfold eig_inv_diag. rewrite H3. rewrite !vget_ok by lia. cbn [bind].
  set (e := vat (e_vals E)) in *. set (m := if R_ltb (e (n - 1)%nat) (- e 0%nat) then - e 0%nat else e (n - 1)%nat).
  assert (L : largest n e m).
  { assert (B : forall i, (i < n)%nat -> e 0%nat <= e i <= e (n - 1)%nat) by (intros i Hi; split; apply HA; lia).
    pose proof (B 0%nat Hn) as B0. split.
    - intros i Hi. specialize (B i Hi). unfold m. apply Rabs_le. destruct (R_ltb _ _) eqn:T; [apply R_ltb_spec in T|apply R_ltb_false in T]; lra.
    - unfold m. destruct (R_ltb _ _) eqn:T; [apply R_ltb_spec in T|apply R_ltb_false in T].
      + exists 0%nat. split; [lia|]. rewrite Rabs_left1 by lra. reflexivity.
      + exists (n - 1)%nat. split; [lia|]. apply Rabs_pos_eq. lra. }
  exists m. split; [exact L|]. assert (M0 : 0 <= m). { destruct L as (_ & i & _ & <-). apply Rabs_pos. }
  apply wp_ok_inv. eapply wp_mono; [apply (wp_for (fun k v => vlen v = n /\ forall i, (i < k)%nat -> vat v i = if R_ltb m (Rabs (e i) * cond) then / e i else 0))|].
  - lia.
  - split; [reflexivity|lia].
  - intros i v Hi (V1 & V2). rewrite vget_ok by lia. cbn [bind]. fold e. destruct (R_ltb m (Rabs (e i) * cond)) eqn:T.
    + assert (Nz : e i <> 0). { intros Z. apply R_ltb_spec in T. rewrite Z, Rabs_R0 in T. lra. }
      rewrite R_div_ok by exact Nz. cbn [bind]. rewrite vset_ok by lia. cbn [wp vlen vat]. split; [exact V1|]. intros k Hk. destruct (Nat.eqb_spec k i) as [->|]; [rewrite T; unfold Rdiv; ring|apply V2; lia].
    + rewrite vset_ok by lia. cbn [wp vlen vat]. split; [exact V1|]. intros k Hk. destruct (Nat.eqb_spec k i) as [->|]; [rewrite T; reflexivity|apply V2; lia].
  - intros v (V1 & V2). split; [exact V1|]. intros i Hi. apply V2. exact Hi.
Qed.
Lemma eigensystem_spec n A E : eigensystem n A E -> forall r c, (r < n)%nat -> (c < n)%nat -> A r c = spec n (mel (e_vecs E)) (vat (e_vals E)) r c.
Proof. intros (_ & _ & _ & _ & _ & H) r c Hr Hc. rewrite H by auto. apply S_ext. intros; ring. Qed.
(** x^T A x = sum of e_k (V x)_k^2 *)
Lemma quad_spec n A E x : eigensystem n A E -> quad (F:=R) n A x = Sum n (fun k => vat (e_vals E) k * (Sum n (fun r => mel (e_vecs E) k r * x r) * Sum n (fun r => mel (e_vecs E) k r * x r))).
Proof.
  intros (_ & _ & _ & _ & _ & H). apply (@quad_ldl R ROps RLaws n A (fun r k => mel (e_vecs E) k r) (vat (e_vals E)) x).
  intros r c Hr Hc. rewrite H by auto. apply S_ext. intros. cbn [fmul ROps]. ring.
Qed.
(** the sum of the squares is preserved: V x = 0 only for x = 0 *)
Lemma orthonormal_inj n V x : orthonormal n V -> (forall k, (k < n)%nat -> Sum n (fun r => V k r * x r) = 0) -> forall i, (i < n)%nat -> x i = 0.
Proof. intros H Z. exact (orthonormal_nonsingular n V H x Z). Qed.
