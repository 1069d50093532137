(** * Lemmas about quadratic forms and L D L^T factorisations. *)
From Coq Require Import Arith Bool List Lia Field.
From Verif Require Import Base Alg Mat SpecMat LemMat SpecLin SpecForm LemLin LemDet LemDetMul.

Section L.
Context {F : Type} {Fo : Ops F} {Fl : Laws F}.
Add Field Ff : law_field.
Open Scope F_scope.

Lemma prod_ext n (f g : nat -> F) : (forall i, (i < n)%nat -> f i = g i) -> prod n f = prod n g.
Proof. induction n as [|n IH]; intros H; [reflexivity|]. cbn [prod]. rewrite IH by (intros; apply H; lia). rewrite H by lia. reflexivity. Qed.
Lemma prod_first n (f : nat -> F) : prod (S n) f = f 0%nat * prod n (fun i => f (S i)).
Proof. induction n as [|n IH]; [cbn [prod]; ring|]. cbn [prod] in IH |- *. rewrite IH. ring. Qed.
Lemma prod_mul n (f g : nat -> F) : prod n (fun i => f i * g i) = prod n f * prod n g.
Proof. induction n as [|n IH]; cbn [prod]; [ring|]. rewrite IH. ring. Qed.
Lemma prod_one n : prod n (fun _ => 1) = (1 : F).
Proof. induction n as [|n IH]; cbn [prod]; [ring|]. rewrite IH. ring. Qed.
Lemma prod_neq n (f : nat -> F) : (forall i, (i < n)%nat -> f i <> 0) -> prod n f <> 0.
Proof. induction n as [|n IH]; intros H; cbn [prod]; [apply one_neq_zero|]. apply mul_neq; [apply IH; intros; apply H; lia|apply H; lia]. Qed.
Lemma prod_pos n (f : nat -> F) : (forall i, (i < n)%nat -> 0 < f i) -> 0 < prod n f.
Proof. induction n as [|n IH]; intros H; cbn [prod]; [apply zero_lt_one|]. apply law_mul; [apply IH; intros; apply H; lia|apply H; lia]. Qed.
Lemma prod_zero n (f : nat -> F) i : (i < n)%nat -> f i = 0 -> prod n f = 0.
Proof. induction n as [|n IH]; intros H E; [lia|]. cbn [prod]. destruct (Nat.eq_dec i n) as [->|]; [rewrite E; ring|]. rewrite IH by (lia || exact E). ring. Qed.

(** determinants of triangular matrices *)
Lemma det_upper n : forall a : nat -> nat -> F, (forall r c, (r < n)%nat -> (c < r)%nat -> a r c = 0) -> det n a = prod n (fun i => a i i).
Proof.
  induction n as [|n IH]; intros a H; [reflexivity|]. rewrite det_first_col by (intros r Hr; apply H; lia). rewrite prod_first. f_equal.
  apply (IH (fun r c => a (S r) (S c))). intros r c Hr Hc. apply H; lia.
Qed.
Lemma det_lower n : forall a : nat -> nat -> F, (forall r c, (c < n)%nat -> (r < c)%nat -> a r c = 0) -> det n a = prod n (fun i => a i i).
Proof.
  induction n as [|n IH]; intros a H; [reflexivity|]. rewrite det_S. rewrite (sum_one _ 0%nat).
  - rewrite prod_first. unfold sgn. cbn [Nat.even]. rewrite (det_ext n _ (fun r c => a (S r) (S c))) by (intros; reflexivity).
    rewrite (IH (fun r c => a (S r) (S c))) by (intros; apply H; lia). ring.
  - lia.
  - intros i Hi Hn. destruct n as [|n]; [lia|].
    rewrite (D_zero_row (S n) (det (S n)) (det_alternating (S n)) 0%nat); [ring|lia|]. intros j Hj.
    unfold skip. destruct (Nat.ltb_spec 0 i); [|lia]. apply H; lia.
Qed.
Lemma det_diag n (a : nat -> nat -> F) : (forall r c, (r < n)%nat -> (c < n)%nat -> r <> c -> a r c = 0) -> det n a = prod n (fun i => a i i).
Proof. intros H. apply det_upper. intros r c Hr Hc. apply H; lia. Qed.

(** quadratic forms *)
Lemma quad_ext n (a b : nat -> nat -> F) x y : (forall r c, (r < n)%nat -> (c < n)%nat -> a r c = b r c) -> (forall r, (r < n)%nat -> x r = y r) -> quad n a x = quad n b y.
Proof. intros H H'. apply sum_ext. intros r Hr. apply sum_ext. intros c Hc. rewrite H, !H' by assumption. reflexivity. Qed.
Lemma quad_extend m n (a : nat -> nat -> F) x : (m <= n)%nat -> quad n a (fun i => if (i <? m)%nat then x i else 0) = quad m a x.
Proof.
  intros H. unfold quad. replace n with (m + (n - m))%nat at 1 by lia. rewrite sum_split.
  assert (G : forall r, sum n (fun c => (if (r <? m)%nat then x r else 0) * a r c * (if (c <? m)%nat then x c else 0)) =
     if (r <? m)%nat then sum m (fun c => x r * a r c * x c) else 0).
  { intros r. replace n with (m + (n - m))%nat by lia. rewrite sum_split. rewrite (sum_zero (n - m)).
    - destruct (Nat.ltb_spec r m).
      + rewrite (sum_ext m _ (fun c => x r * a r c * x c)) by (intros c Hc; destruct (Nat.ltb_spec c m); [reflexivity|lia]). ring.
      + rewrite sum_zero by (intros; ring). ring.
    - intros c Hc. destruct (Nat.ltb_spec (m + c) m); [lia|]. ring. }
  transitivity (sum m (fun r => sum m (fun c => x r * a r c * x c)) + 0); [f_equal|ring].
  - apply sum_ext. intros r Hr. etransitivity; [apply G|]. destruct (Nat.ltb_spec r m); [reflexivity|lia].
  - apply sum_zero. intros r Hr. etransitivity; [apply G|]. destruct (Nat.ltb_spec (m + r) m); [lia|reflexivity].
Qed.
(** the form of L D L^T is sum_k d_k (L^T x)_k^2 *)
Lemma quad_ldl n (a l : nat -> nat -> F) (d x : nat -> F) :
  (forall r c, (r < n)%nat -> (c < n)%nat -> a r c = sum n (fun k => l r k * d k * l c k)) ->
  quad n a x = sum n (fun k => d k * (sum n (fun r => l r k * x r) * sum n (fun r => l r k * x r))).
Proof.
  intros H. unfold quad.
  rewrite (sum_ext n _ (fun r => sum n (fun k => (l r k * x r) * (d k * sum n (fun c => l c k * x c))))).
  - rewrite sum_swap. apply sum_ext. intros k Hk. rewrite sum_mul_r. ring.
  - intros r Hr. rewrite (sum_ext n _ (fun c => sum n (fun k => x r * (l r k * d k * l c k) * x c))).
    + rewrite sum_swap. apply sum_ext. intros k Hk. rewrite (sum_ext n _ (fun c => l r k * x r * d k * (l c k * x c))) by (intros; ring). rewrite sum_mul_l. ring.
    + intros c Hc. rewrite H by assumption. rewrite <- sum_mul_l, <- sum_mul_r. reflexivity.
Qed.
(** for unit lower triangular l some x has L^T x = e_j *)
Lemma ldl_probe n (a l : nat -> nat -> F) (d : nat -> F) j : (j < n)%nat -> unit_lower n l ->
  (forall r c, (r < n)%nat -> (c < n)%nat -> a r c = sum n (fun k => l r k * d k * l c k)) ->
  exists x, quad n a x = d j /\ exists i, (i < n)%nat /\ x i <> 0.
Proof.
  intros Hj Hl H. destruct (upper_solve n (fun k r => l r k) (fun k => delta k j)) as [x Hx].
  { intros r c Hr Hc Hcr. rewrite Hl by lia. rewrite Nat.eqb_sym. reflexivity. }
  exists x. split.
  - rewrite (quad_ldl n a l d x H). rewrite (sum_one n j); [|exact Hj|].
    + rewrite (Hx j Hj). unfold delta. rewrite Nat.eqb_refl. ring.
    + intros k Hk Hn. rewrite (Hx k Hk). unfold delta. destruct (Nat.eqb_spec k j); [lia|]. ring.
  - destruct (eq_dec (sum n (fun r => l r j * x r)) 0) as [E|_].
    + exfalso. rewrite (Hx j Hj) in E. unfold delta in E. rewrite Nat.eqb_refl in E. exact (one_neq_zero E).
    + assert (G : forall m, (m <= n)%nat -> (forall i, (i < m)%nat -> x i = 0) \/ exists i, (i < n)%nat /\ x i <> 0).
      { induction m as [|m IH]; intros Hm; [left; lia|]. destruct IH as [IH|IH]; [lia| |right; exact IH].
        destruct (eq_dec (x m) 0) as [E|E]; [left|right; exists m; split; [lia|exact E]]. intros i Hi. destruct (Nat.eq_dec i m) as [->|]; [exact E|apply IH; lia]. }
      destruct (G n ltac:(lia)) as [Z|Z]; [|exact Z]. exfalso. pose proof (Hx j Hj) as E. rewrite sum_zero in E by (intros i Hi; rewrite Z by exact Hi; ring).
      unfold delta in E. rewrite Nat.eqb_refl in E. apply one_neq_zero. symmetry. exact E.
Qed.
Lemma ldl_posdef n (a l : nat -> nat -> F) (d : nat -> F) : unit_lower n l ->
  (forall r c, (r < n)%nat -> (c < n)%nat -> a r c = sum n (fun k => l r k * d k * l c k)) ->
  (posdef n a <-> forall k, (k < n)%nat -> 0 < d k).
Proof.
  intros Hl H. split.
  - intros [_ Hp] k Hk. destruct (ldl_probe n a l d k Hk Hl H) as (x & <- & Hx). apply Hp. exact Hx.
  - intros Hd. split.
    + intros r c Hr Hc. rewrite !H by assumption. apply sum_ext. intros k Hk. ring.
    + intros x Hx. rewrite (quad_ldl n a l d x H). set (y := fun k => sum n (fun r => l r k * x r)).
      assert (Q : forall k, (k < n)%nat -> 0 <= d k * (y k * y k)) by (intros k Hk; apply mul_nonneg; [apply lt_le, Hd, Hk|apply sq_nonneg]).
      destruct (law_total 0 (sum n (fun k => d k * (y k * y k)))) as [G|[G|G]]; [exact G| |].
      * exfalso. destruct Hx as (i & Hi & Hxi). apply Hxi.
        assert (Z : forall k, (k < n)%nat -> y k = 0).
        { intros k Hk. symmetry in G. pose proof (sum_nonneg_zero n _ Q G k Hk) as E. apply mul_zero in E. destruct E as [E|E].
          - exfalso. pose proof (Hd k Hk) as P. rewrite E in P. exact (law_irr _ P).
          - apply mul_zero in E. destruct E; assumption. }
        apply (upper_unique n (fun k r => l r k) x (fun _ => 0)); [|intros r Hr; fold (y r); rewrite Z by exact Hr; rewrite sum_zero by (intros; ring); reflexivity|exact Hi].
        intros r c Hr Hc Hcr. rewrite Hl by lia. rewrite Nat.eqb_sym. reflexivity.
      * exfalso. apply (law_irr (0:F)). apply (le_lt_trans _ _ _ (sum_nonneg n _ Q)). exact G.
Qed.
(** psd with x^T A x = 0 gives A x = 0 *)
Lemma psd_null n (a : nat -> nat -> F) x : psd n a -> quad n a x = 0 -> forall r, (r < n)%nat -> sum n (fun c => a r c * x c) = 0.
Proof.
  intros [Hs Hp] Hq r Hr. set (b := sum n (fun c => a r c * x c)). destruct (eq_dec b 0) as [E|E]; [exact E|exfalso].
  set (q := a r r). set (s := - (q + 1) / ((1 + 1) * b)).
  assert (two : (1 + 1 : F) <> 0).
  { intros H. apply (law_irr (0:F)). rewrite <- H at 2. apply add_pos_nonneg; [apply zero_lt_one|apply lt_le, zero_lt_one]. }
  pose proof (Hp (fun i => s * x i + delta i r)) as P.
  assert (Eq : quad n a (fun i => s * x i + delta i r) = s * s * quad n a x + (1 + 1) * s * b + q).
  { assert (S1 : forall f : nat -> F, sum n (fun c => f c * delta c r) = f r).
    { intros f. rewrite (sum_one n r); [unfold delta; rewrite Nat.eqb_refl; ring|exact Hr|]. intros i _ Hn. unfold delta. destruct (Nat.eqb_spec i r); [lia|ring]. }
    unfold quad. rewrite (sum_ext n _ (fun i => s * s * sum n (fun c => x i * a i c * x c) + s * (x i * a i r) + delta i r * (s * sum n (fun c => a i c * x c) + a i r))).
    - rewrite !sum_add, !sum_mul_l. rewrite (sum_ext n (fun i => delta i r * _) (fun i => (s * sum n (fun c => a i c * x c) + a i r) * delta i r)) by (intros; ring).
      rewrite S1. fold b. fold q. rewrite (sum_ext n (fun i => x i * a i r) (fun c => a r c * x c)) by (intros i Hi; rewrite (Hs i r) by assumption; ring). fold b. ring.
    - intros i Hi. rewrite (sum_ext n _ (fun c => s * s * (x i * a i c * x c) + s * x i * (a i c * delta c r) + s * delta i r * (a i c * x c) + delta i r * (a i c * delta c r))) by (intros; ring).
      rewrite !sum_add, !sum_mul_l, (S1 (fun c => a i c)). ring. }
  rewrite Eq, Hq in P. apply (law_irr (0:F)). apply (le_lt_trans _ _ _ P).
  replace (s * s * 0 + (1 + 1) * s * b + q) with (- (1) : F) by (unfold s; field; auto).
  apply neg_pos. replace (- - (1)) with (1 : F) by ring. apply zero_lt_one.
Qed.
End L.
