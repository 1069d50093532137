(** * Lemmas: the energy as a quadratic function; compute(). *)
From Coq Require Import Arith Bool List Lia Permutation.
From Verif Require Import Base Alg Mat SpecMat LemMat SpecLin LemLin ModelOps LemOps ModelObjects LemObjects LemHelpers LemGauss LemDetMore SpecForm LemForm ModelChol LemChol LemCholSolve LemCholMore PropChol ModelWLS SpecWLS LemWLS LemWLSRun.
Import ListNotations.

Section L.
Context {F : Type} {Fo : Ops F} {Fl : Laws F}.
Add Field Ff : law_field.
Open Scope F_scope.

Definition bil (n : nat) (a : nat -> nat -> F) (y x : nat -> F) : F := sum n (fun r => sum n (fun c => y r * a r c * x c)).
Lemma bil_sym n a y x : symmetric n a -> bil n a y x = bil n a x y.
Proof. intros H. unfold bil. rewrite sum_swap. apply sum_ext. intros r Hr. apply sum_ext. intros c Hc. rewrite (H c r) by assumption. ring. Qed.
Lemma quad_sub n a x y : symmetric n a -> quad n a (fun i => x i - y i) = quad n a x - (1 + 1) * bil n a y x + quad n a y.
Proof.
  intros H. transitivity (quad n a x - bil n a x y - bil n a y x + quad n a y); [|rewrite (bil_sym n a x y H); ring].
  unfold quad, bil. rewrite <- !sum_sub, <- sum_add. apply sum_ext. intros r Hr. rewrite <- !sum_sub, <- sum_add. apply sum_ext. intros c Hc. ring.
Qed.
Lemma bil_solves n a y x g : solves n a y g -> symmetric n a -> bil n a y x = dotf n g x.
Proof.
  intros Hs H. rewrite bil_sym by exact H. unfold bil, dotf. apply sum_ext. intros r Hr. rewrite <- (Hs r Hr), <- sum_mul_r. apply sum_ext. intros c Hc. ring.
Qed.
Lemma quad_bil n a x : quad n a x = bil n a x x.
Proof. reflexivity. Qed.
(** completing the square *)
Lemma complete_square n a g mu x : symmetric n a -> solves n a mu g ->
  quad n a x - (1 + 1) * dotf n g x = (quad n a mu - (1 + 1) * dotf n g mu) + quad n a (fun i => x i - mu i).
Proof.
  intros H Hs. rewrite quad_sub by exact H. rewrite !(bil_solves n a mu _ g) by assumption. rewrite (quad_bil n a mu), (bil_solves n a mu mu g) by assumption. ring.
Qed.

(** the energy of a den *)
Definition denE (n : nat) (d : den (F:=F)) (x : nat -> F) : F := quad (dN d) (dW d) (fun k => dm d k - dotf n (dJ d k) x) + quad n (dP d) x.
Definition den_sym (n : nat) (d : den (F:=F)) : Prop := symmetric (dN d) (dW d) /\ symmetric n (dP d).
Lemma dH_quad n d x : quad n (dH d) x = quad (dN d) (dW d) (fun k => dotf n (dJ d k) x) + quad n (dP d) x.
Proof.
  set (N := dN d). transitivity (bil n (fun r c => sum N (fun l => sum N (fun k => dJ d k r * dW d k l) * dJ d l c)) x x + quad n (dP d) x).
  - unfold quad, bil. rewrite <- sum_add. apply sum_ext. intros r Hr. rewrite <- sum_add. apply sum_ext. intros c Hc. unfold dH. fold N. ring.
  - f_equal. unfold bil, quad, dotf.
    transitivity (sum n (fun r => sum n (fun c => sum N (fun k => sum N (fun l => (dJ d k r * x r) * dW d k l * (dJ d l c * x c)))))).
    + apply sum_ext. intros r Hr. apply sum_ext. intros c Hc. rewrite <- sum_mul_l, <- sum_mul_r.
      rewrite (sum_swap N N). apply sum_ext. intros l Hl. rewrite <- sum_mul_r, <- sum_mul_l, <- sum_mul_r. apply sum_ext. intros k Hk. ring.
    + transitivity (sum n (fun r => sum N (fun k => sum N (fun l => (dJ d k r * x r) * dW d k l * sum n (fun c => dJ d l c * x c))))).
      * apply sum_ext. intros r Hr. rewrite sum_swap. apply sum_ext. intros k Hk. rewrite sum_swap. apply sum_ext. intros l Hl. rewrite <- sum_mul_l. reflexivity.
      * rewrite sum_swap. apply sum_ext. intros k Hk. rewrite sum_swap. apply sum_ext. intros l Hl. rewrite <- sum_mul_r, <- sum_mul_r. apply sum_ext. intros r Hr. ring.
Qed.
Lemma dg_dot n d x : dotf n (dg d) x = bil (dN d) (dW d) (fun k => dotf n (dJ d k) x) (dm d).
Proof.
  set (N := dN d). unfold dotf, bil, dg. fold N.
  transitivity (sum n (fun r => sum N (fun k => sum N (fun l => (dJ d k r * x r) * dW d k l * dm d l)))).
  - apply sum_ext. intros r Hr. rewrite <- sum_mul_r. rewrite (sum_swap N N). apply sum_ext. intros l Hl. rewrite <- sum_mul_r, <- sum_mul_r. apply sum_ext. intros k Hk. ring.
  - rewrite sum_swap. apply sum_ext. intros k Hk. rewrite sum_swap. apply sum_ext. intros l Hl. rewrite <- sum_mul_r, <- sum_mul_r. reflexivity.
Qed.
Lemma denE_quad n d x : den_sym n d -> denE n d x = quad n (dH d) x - (1 + 1) * dotf n (dg d) x + quad (dN d) (dW d) (dm d).
Proof. intros [H _]. unfold denE. rewrite quad_sub by exact H. rewrite dH_quad, dg_dot. ring. Qed.
Lemma dH_sym n d : den_sym n d -> symmetric n (dH d).
Proof.
  intros [HW HP] r c Hr Hc. unfold dH. rewrite (HP r c) by assumption. f_equal.
  rewrite (sum_ext (dN d) _ (fun l => sum (dN d) (fun k => dJ d k r * dW d k l * dJ d l c))) by (intros; rewrite <- sum_mul_r; reflexivity).
  rewrite sum_swap. apply sum_ext. intros k Hk. rewrite <- sum_mul_r. apply sum_ext. intros l Hl. rewrite (HW k l) by assumption. ring.
Qed.

Lemma delta_quad k (w : F) e : quad k (fun i j => w * delta i j) e = sum k (fun i => w * (e i * e i)).
Proof.
  unfold quad. apply sum_ext. intros r Hr. rewrite (sum_one k r); [unfold delta; rewrite Nat.eqb_refl; ring|exact Hr|].
  intros c Hc Hn. unfold delta. destruct (Nat.eqb_spec r c); [lia|]. ring.
Qed.
Lemma diag_quad k (v : nat -> F) e : quad k (fun i j => if (i =? j)%nat then v i else 0) e = sum k (fun i => v i * (e i * e i)).
Proof.
  unfold quad. apply sum_ext. intros r Hr. rewrite (sum_one k r); [rewrite Nat.eqb_refl; ring|exact Hr|].
  intros c Hc Hn. destruct (Nat.eqb_spec r c); [lia|]. ring.
Qed.
Lemma zero_quad k (e : nat -> F) : quad k (fun _ _ => 0) e = 0.
Proof. unfold quad. apply sum_zero. intros. apply sum_zero. intros. ring. Qed.
Lemma op_den n o x : op_energy n o x = denE n (den_of n o) x.
Proof.
  destruct o as [v|v|m|m J w|m J w|m J W|m J W|m J i w|m J i W|m J i K j W]; unfold denE; cbn [op_energy den_of dN dm dJ dW dP]; unfold cov_energy.
  - rewrite diag_quad. unfold quad at 1. cbn [sum]. ring.
  - rewrite diag_quad. unfold quad at 1. cbn [sum]. ring.
  - unfold quad at 2. cbn [sum]. ring.
  - rewrite zero_quad. unfold quad. cbn [sum]. ring.
  - rewrite zero_quad, delta_quad. cbv zeta. ring.
  - rewrite zero_quad. ring.
  - rewrite zero_quad. ring.
  - rewrite zero_quad. unfold quad. cbn [sum]. ring.
  - rewrite zero_quad. ring.
  - rewrite zero_quad. ring.
Qed.
Lemma op_sym n o : op_ok n o -> den_sym n (den_of n o).
Proof.
  assert (Z : forall k, symmetric k (fun _ _ => 0 : F)) by (intros k r c _ _; reflexivity).
  assert (D : forall k (v : nat -> F), symmetric k (fun r c => if (r =? c)%nat then v r else 0)).
  { intros k v r c _ _. destruct (Nat.eqb_spec r c) as [->|Hn]; [rewrite Nat.eqb_refl; reflexivity|]. destruct (Nat.eqb_spec c r); [congruence|reflexivity]. }
  unfold den_sym. destruct o as [v|v|m|m J w|m J w|m J W|m J W|m J i w|m J i W|m J i K j W]; cbn [op_ok den_of dN dm dJ dW dP]; intros H; (split; [|try apply Z]); try apply Z.
  - apply (D n (fun _ => v)).
  - apply (D n (vat v)).
  - apply H.
  - intros r c _ _. reflexivity.
  - intros r c _ _. unfold delta. rewrite Nat.eqb_sym. reflexivity.
  - apply H.
  - apply H.
  - intros r c _ _. reflexivity.
  - apply H.
  - apply H.
Qed.
Fixpoint konst (n : nat) (os : list (wop F)) : F := match os with [] => 0 | o :: os => quad (dN (den_of n o)) (dW (den_of n o)) (dm (den_of n o)) + konst n os end.
Lemma quad_zero_mat n (x : nat -> F) : quad n (fun _ _ => 0) x = 0.
Proof. apply zero_quad. Qed.
Lemma quad_add n (a b : nat -> nat -> F) x : quad n (fun r c => a r c + b r c) x = quad n a x + quad n b x.
Proof. unfold quad. rewrite <- sum_add. apply sum_ext. intros r Hr. rewrite <- sum_add. apply sum_ext. intros c Hc. ring. Qed.
Lemma dotf_add n (a b x : nat -> F) : dotf n (fun r => a r + b r) x = dotf n a x + dotf n b x.
Proof. unfold dotf. rewrite <- sum_add. apply sum_ext. intros r Hr. ring. Qed.
Lemma energy_quad n os x : Forall (op_ok n) os -> energy n os x = quad n (runH n os) x - (1 + 1) * dotf n (rung n os) x + konst n os.
Proof.
  induction os as [|o os IH]; intros H; cbn [energy runH rung konst].
  - rewrite zero_quad. unfold dotf. rewrite sum_zero by (intros; ring). ring.
  - inversion H as [|? ? Ho Hos]; subst. rewrite IH by exact Hos. rewrite op_den, denE_quad by (apply op_sym; exact Ho).
    rewrite (quad_add n (dH (den_of n o)) (runH n os)), (dotf_add n (dg (den_of n o)) (rung n os)). ring.
Qed.
Lemma runH_sym n os : Forall (op_ok n) os -> symmetric n (runH n os).
Proof.
  induction os as [|o os IH]; intros H r c Hr Hc; cbn [runH]; [reflexivity|]. inversion H as [|? ? Ho Hos]; subst. rewrite (dH_sym n _ (op_sym n o Ho) r c) by assumption. rewrite (IH Hos r c) by assumption. reflexivity.
Qed.
(** zero measurements *)
Lemma op_zero_ok n o : op_ok n o -> op_ok n (op_zero o).
Proof. destruct o; cbn [op_ok op_zero]; auto. Qed.
Lemma op_zero_den n o d : op_ok n o -> op_energy n (op_zero o) d = quad n (dH (den_of n o)) d.
Proof.
  intros Ho. rewrite op_den, denE_quad by (apply op_sym, op_zero_ok, Ho).
  assert (E : (forall r c, dH (den_of n (op_zero o)) r c = dH (den_of n o) r c) /\ (forall k, dm (den_of n (op_zero o)) k = 0)).
  { destruct o; cbn [op_zero den_of dm]; split; reflexivity. }
  destruct E as [E1 E2]. rewrite (quad_ext n (dH (den_of n (op_zero o))) (dH (den_of n o)) d d) by (intros; first [apply E1|reflexivity]).
  assert (E3 : dotf n (dg (den_of n (op_zero o))) d = 0).
  { unfold dotf. apply sum_zero. intros r Hr. unfold dg. rewrite (sum_zero (dN (den_of n (op_zero o)))); [ring|]. intros l Hl. rewrite E2. ring. }
  assert (E4 : quad (dN (den_of n (op_zero o))) (dW (den_of n (op_zero o))) (dm (den_of n (op_zero o))) = 0).
  { unfold quad. apply sum_zero. intros r Hr. apply sum_zero. intros c Hc. rewrite E2. ring. }
  rewrite E3, E4. ring.
Qed.
Lemma curvature_quad n os d : Forall (op_ok n) os -> curvature n os d = quad n (runH n os) d.
Proof.
  unfold curvature. induction os as [|o os IH]; intros H; cbn [map energy runH]; [rewrite zero_quad; reflexivity|]. inversion H as [|? ? Ho Hos]; subst.
  rewrite IH by exact Hos. rewrite op_zero_den by exact Ho. rewrite (quad_add n (dH (den_of n o)) (runH n os)). reflexivity.
Qed.
Lemma sq_weight (w e : F) : fle 0 w -> fle 0 (w * (e * e)).
Proof. intros H. apply mul_nonneg; [exact H|apply sq_nonneg]. Qed.
Lemma op_zero_nonneg n o d : op_nonneg n o -> fle 0 (op_energy n (op_zero o) d).
Proof.
  destruct o as [v|v|m|m J w|m J w|m J W|m J W|m J i w|m J i W|m J i K j W]; cbn [op_nonneg op_zero op_energy]; intros H; cbv zeta; unfold cov_energy.
  - apply sum_nonneg. intros i Hi. apply sq_weight. exact H.
  - apply sum_nonneg. intros i Hi. apply sq_weight. apply H. exact Hi.
  - apply H.
  - apply sq_weight. exact H.
  - apply sum_nonneg. intros i Hi. apply sq_weight. exact H.
  - apply H.
  - apply H.
  - apply sq_weight. exact H.
  - apply H.
  - apply H.
Qed.
Lemma add_nonneg2 (x y : F) : fle 0 x -> fle 0 y -> fle 0 (x + y).
Proof.
  intros Hx Hy. pose proof (sum_nonneg 2 (fun i => if (i =? 0)%nat then x else y)) as S. replace (x + y) with (sum 2 (fun i => if (i =? 0)%nat then x else y)) by (cbn [sum Nat.eqb]; ring).
  apply S. intros i _. destruct (i =? 0)%nat; assumption.
Qed.
Lemma curvature_nonneg n os d : Forall (op_nonneg n) os -> fle 0 (curvature n os d).
Proof.
  unfold curvature. induction os as [|o os IH]; intros H; cbn [map energy]; [apply le_refl|]. inversion H as [|? ? Ho Hos]; subst. apply add_nonneg2; [apply op_zero_nonneg; exact Ho|apply IH; exact Hos].
Qed.

(** compute() *)
Definition upper_sym (a : nat -> nat -> F) (r c : nat) : F := if (c <? r)%nat then a c r else a r c.
Lemma upper_sym_sym n a : symmetric n (upper_sym a).
Proof. intros r c _ _. unfold upper_sym. destruct (Nat.ltb_spec c r), (Nat.ltb_spec r c); try lia; try reflexivity. replace r with c by lia. reflexivity. Qed.
Lemma mirror_ok n (C : mat F) : mrows C = n -> mcols C = n -> gives_mat (wls_mirror C) n n (upper_sym (mel C)).
Proof.
  intros HR HC. unfold wls_mirror, gives_mat. apply wp_ok_inv. rewrite HR. destruct n as [|n].
  { rewrite for_empty by lia. cbn [wp]. unfold mat_is. split; [exact HR|]. split; [exact HC|]. lia. }
  eapply wp_mono; [apply (wp_for (fun k (C' : mat F) => mrows C' = S n /\ mcols C' = S n /\ forall r c, mel C' r c = if ((r <? k) && (c <? r))%nat%bool then mel C c r else mel C r c))|].
  - lia.
  - split; [exact HR|]. split; [exact HC|]. intros r c. destruct (Nat.ltb_spec r 1), (Nat.ltb_spec c r); try lia; reflexivity.
  - intros k C' Hk (R' & K' & V').
    eapply wp_mono; [apply (wp_for (fun j (C2 : mat F) => mrows C2 = S n /\ mcols C2 = S n /\ forall r c, mel C2 r c = if ((r =? k) && (c <? j))%nat%bool then mel C c r else mel C' r c))|].
    + lia.
    + split; [exact R'|]. split; [exact K'|]. intros r c. destruct (Nat.ltb_spec c 0); [lia|]. rewrite andb_false_r. reflexivity.
    + intros j C2 Hj (R2 & K2 & V2). rewrite mget_ok by lia. cbn [bind]. rewrite mset_ok by lia. cbn [wp mrows mcols mel]. split; [exact R2|]. split; [exact K2|].
      intros r c. rewrite !V2. destruct (Nat.eqb_spec r k), (Nat.eqb_spec c j), (Nat.ltb_spec c j), (Nat.ltb_spec c (S j)); subst; cbn [andb]; try lia; try reflexivity.
      destruct (Nat.eqb_spec j k); [lia|]. cbn [andb]. rewrite V'. destruct (Nat.ltb_spec k j); [lia|]. rewrite andb_false_r. reflexivity.
    + intros C2 (R2 & K2 & V2). split; [exact R2|]. split; [exact K2|]. intros r c. rewrite V2, V'.
      destruct (Nat.eqb_spec r k), (Nat.ltb_spec c k), (Nat.ltb_spec c r), (Nat.ltb_spec r k), (Nat.ltb_spec r (S k)); subst; cbn [andb]; try lia; reflexivity.
  - intros C' (R' & K' & V'). unfold mat_is. split; [exact R'|]. split; [exact K'|]. intros r c Hr Hc. rewrite V'. unfold upper_sym. destruct (Nat.ltb_spec r (S n)); [reflexivity|lia].
Qed.
Lemma nonsingular_ext n (a b : nat -> nat -> F) : (forall r c, (r < n)%nat -> (c < n)%nat -> a r c = b r c) -> nonsingular n a -> nonsingular n b.
Proof. intros H NS x Hx. apply NS. intros r Hr. rewrite <- (Hx r Hr). apply sum_ext. intros c Hc. rewrite H by assumption. reflexivity. Qed.
Lemma solves_ext n (a b : nat -> nat -> F) x y g h : (forall r c, (r < n)%nat -> (c < n)%nat -> a r c = b r c) -> (forall r, (r < n)%nat -> x r = y r) -> (forall r, (r < n)%nat -> g r = h r) -> solves n a x g -> solves n b y h.
Proof. intros H H' H'' S r Hr. rewrite <- H'' by exact Hr. rewrite <- (S r Hr). apply sum_ext. intros c Hc. rewrite H, H' by assumption. reflexivity. Qed.
Lemma compute_ok n w H g : acc n w H g ->
  exists C ch, wls_mirror (w_C w) = Ok C /\ mat_is C n n (upper_sym H) /\ cholesky C = Ok ch /\ (ch_rank ch <= n)%nat /\
   ((ch_rank ch = n /\ exists mu, wls_compute w = Ok (mkwls C (w_v w) ch mu) /\ vlen mu = n /\ nonsingular n (upper_sym H) /\ solves n (upper_sym H) (vat mu) g) \/
    ((ch_rank ch < n)%nat /\ wls_compute w = NonFinite)).
Proof.
  intros (A1 & A2 & A3 & A4 & A5 & A6). destruct (mirror_ok n (w_C w) A1 A2) as (C & EC & RC & KC & VC).
  assert (VC' : forall r c, (r < n)%nat -> (c < n)%nat -> mel C r c = upper_sym H r c).
  { intros r c Hr Hc. rewrite VC by assumption. unfold upper_sym. destruct (Nat.ltb_spec c r); apply A5; lia. }
  assert (SC : symmetric n (mel C)) by (intros r c Hr Hc; rewrite !VC' by assumption; apply (upper_sym_sym n); assumption).
  destruct (C41_total C ltac:(lia)) as (ch & Ech & Hk). rewrite RC in Hk. exists C, ch. split; [exact EC|]. split; [split; [exact RC|]; split; [exact KC|exact VC']|]. split; [exact Ech|]. split; [exact Hk|].
  unfold wls_compute. rewrite EC. cbn [bind]. rewrite C41_recompute by congruence. rewrite Ech. cbn [bind].
  destruct (Nat.eq_dec (ch_rank ch) n) as [K|K]; [left|right].
  - split; [exact K|]. destruct (C42_solves n C ch RC KC SC Ech K (w_v w) A3) as (mu & -> & Lmu & P & _). cbn [bind]. exists mu. split; [reflexivity|]. split; [exact Lmu|]. split.
    + apply (nonsingular_ext n (mel C)); [exact VC'|]. apply (solve_ns n C ch); assumption.
    + destruct (mv_ok C mu ltac:(lia)) as (p & Ep & Lp & Vp). destruct P as (p' & Ep' & Lp' & Vp'). rewrite Ep in Ep'. injection Ep' as <-.
      intros r Hr. rewrite <- A6 by exact Hr. rewrite <- Vp' by exact Hr. rewrite Vp by lia. rewrite KC. apply sum_ext. intros c Hc. rewrite VC' by assumption. reflexivity.
  - assert (Hlt : (ch_rank ch < n)%nat) by lia. split; [exact Hlt|]. rewrite (C42_singular n C ch (w_v w) RC KC Ech Hlt A3). reflexivity.
Qed.
(** two states with the same accumulated information compute the same thing *)
Definition agree_wls (n : nat) (x y : outcome (wls F)) : Prop :=
  (x = NonFinite /\ y = NonFinite) \/
  exists a b, x = Ok a /\ y = Ok b /\ vec_is (w_mu a) n (vat (w_mu b)) /\ vlen (w_mu b) = n /\
    mat_is (w_C a) n n (mel (w_C b)) /\ mrows (w_C b) = n /\ mcols (w_C b) = n /\ vec_is (w_v a) n (vat (w_v b)) /\ vlen (w_v b) = n.
Lemma compute_agree n w w' H g H' g' : acc n w H g -> acc n w' H' g' -> (forall r c, (r <= c < n)%nat -> H r c = H' r c) -> (forall r, (r < n)%nat -> g r = g' r) ->
  agree_wls n (wls_compute w) (wls_compute w').
Proof.
  intros A A' EH Eg. destruct (compute_ok n w H g A) as (C & ch & _ & (RC & KC & VC) & Ech & _ & R). destruct (compute_ok n w' H' g' A') as (C' & ch' & _ & (RC' & KC' & VC') & Ech' & _ & R').
  assert (U : forall r c, (r < n)%nat -> (c < n)%nat -> upper_sym H r c = upper_sym H' r c) by (intros r c Hr Hc; unfold upper_sym; destruct (Nat.ltb_spec c r); apply EH; lia).
  assert (K : ch_rank ch = ch_rank ch').
  { apply (C41_lower_only n C C' ch ch'); try assumption. intros r c Hr. rewrite VC, VC' by lia. apply U; lia. }
  destruct R as [(K1 & mu & E & L & NS & Sv)|(K1 & E)], R' as [(K2 & mu' & E' & L' & NS' & Sv')|(K2 & E')]; try lia; [right|left; split; assumption].
  eexists _, _. split; [exact E|]. split; [exact E'|]. cbn [w_mu w_C w_v]. destruct A as (_ & _ & A3 & _ & _ & A6). destruct A' as (_ & _ & A3' & _ & _ & A6').
  split; [split; [exact L|]|]. { intros i Hi. apply (solves_unique n (upper_sym H') (vat mu) (vat mu') g'); try assumption. eapply solves_ext; [exact U| |exact Eg|exact Sv]. reflexivity. }
  split; [exact L'|]. split; [split; [exact RC|]; split; [exact KC|]; intros r c Hr Hc; rewrite VC, VC' by assumption; apply U; assumption|]. split; [exact RC'|]. split; [exact KC'|].
  split; [|exact A3']. split; [exact A3|]. intros i Hi. rewrite A6, A6' by exact Hi. apply Eg. exact Hi.
Qed.
End L.
