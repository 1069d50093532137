(** * Lemmas about the LDL^T decomposition: factors, substitution, determinant. *)
From Coq Require Import Arith Bool List Lia Field.
From Verif Require Import Base Alg Mat SpecMat LemMat SpecLin SpecForm LemLin LemDet LemDetMul LemForm ModelOps LemOps ModelObjects LemObjects LemHelpers ModelChol LemChol.
Import ListNotations.

Lemma for_stop {St} (P : St -> Prop) lo hi j (body : nat -> St -> outcome St) s : lo <= j < hi -> P s ->
  (forall i t, lo <= i < j -> P t -> wp (body i t) P) -> (forall t, P t -> body j t = NonFinite) -> for_ lo hi body s = NonFinite.
Proof.
  intros Hj. remember (j - lo) as k eqn:Ek. revert lo s Hj Ek. induction k as [|k IH]; intros lo s Hj Ek Hs Ho Hn.
  - rewrite for_step by lia. replace lo with j by lia. rewrite Hn by exact Hs. reflexivity.
  - rewrite for_step by lia. pose proof (Ho lo s ltac:(lia) Hs) as W. destruct (body lo s) as [s'| | | | |]; cbn [wp] in W; try contradiction.
    cbn [bind]. apply IH; [lia|lia|exact W| |exact Hn]. intros i t Hi. apply Ho. lia.
Qed.

Section L.
Context {F : Type} {Fo : Ops F} {Fl : Laws F}.
Add Field Ff : law_field.
Open Scope F_scope.

Lemma set_row_ok (m : mat F) r v : (r < mrows m)%nat -> vlen v = mcols m ->
  exists m', set_row m r v = Ok m' /\ mrows m' = mrows m /\ mcols m' = mcols m /\
    forall i c, (c < mcols m)%nat -> mel m' i c = if (i =? r)%nat then vat v c else mel m i c.
Proof.
  intros Hr Hv. unfold set_row. rewrite same_size_eq by lia. cbn [bind].
  destruct (row_loop 0 (mcols m) r (fun c m => x <- vget v c ;; mset m r c x)%outcome m (vat v)) as (m' & E & R & C & V); [lia|lia| |].
  - intros j m' Hj _ _ _. rewrite vget_ok by lia. reflexivity.
  - exists m'. split; [exact E|]. split; [exact R|]. split; [exact C|]. intros i c Hc. rewrite V. destruct (Nat.leb_spec 0 c), (Nat.ltb_spec c (mcols m)); try lia. rewrite !andb_true_r. reflexivity.
Qed.

Definition chL (C : mat F) (r c : nat) : F := if (c <? r)%nat then mel C r c else delta r c.
Lemma chL_unit (C : mat F) n : unit_lower n (chL C).
Proof. intros r c Hr Hc H. unfold chL, delta. destruct (Nat.ltb_spec c r); [lia|]. reflexivity. Qed.
Lemma chL_diag C r : chL C r r = 1.
Proof. unfold chL, delta. rewrite Nat.ltb_irrefl, Nat.eqb_refl. reflexivity. Qed.
(** sum over a row / column of L *)
Lemma sum_lower C n (y : nat -> F) i : (i < n)%nat -> sum n (fun k => chL C i k * y k) = y i + sum i (fun k => mel C i k * y k).
Proof.
  intros Hi. replace n with (i + S (n - S i))%nat by lia. rewrite sum_split, sum_first. rewrite Nat.add_0_r, chL_diag. rewrite (sum_zero (n - S i)).
  - rewrite (sum_ext i _ (fun k => mel C i k * y k)); [ring|]. intros k Hk. unfold chL. destruct (Nat.ltb_spec k i); [reflexivity|lia].
  - intros k Hk. unfold chL, delta. destruct (Nat.ltb_spec (i + S k) i); [lia|]. destruct (Nat.eqb_spec i (i + S k)); [lia|]. ring.
Qed.
Lemma sum_lower_t C n (y : nat -> F) i : (i < n)%nat -> sum n (fun r => chL C r i * y r) = y i + sum (n - S i) (fun k => mel C (S i + k) i * y (S i + k)%nat).
Proof.
  intros Hi. replace n with (i + S (n - S i))%nat at 1 by lia. rewrite sum_split, sum_first. rewrite Nat.add_0_r, chL_diag. rewrite (sum_zero i).
  - rewrite (sum_ext (n - S i) _ (fun k => mel C (S i + k) i * y (S i + k)%nat)); [ring|]. intros k Hk. replace (i + S k)%nat with (S i + k)%nat by lia. unfold chL. destruct (Nat.ltb_spec i (S i + k)); [reflexivity|lia].
  - intros k Hk. unfold chL, delta. destruct (Nat.ltb_spec i k); [lia|]. destruct (Nat.eqb_spec k i); [lia|]. ring.
Qed.
(** the factorisation of the leading block *)
Lemma ldl_of m a (C : mat F) :
  (forall r c, (c < r < m)%nat -> mel C c r = mel C c c * mel C r c) ->
  (forall r c, (c <= r < m)%nat -> a r c = (if (r =? c)%nat then mel C c c else mel C c r) + sum c (fun k => mel C k c * mel C r k)) ->
  forall r c, (r < m)%nat -> (c < m)%nat -> lower_sym a r c = sum m (fun k => chL C r k * mel C k k * chL C c k).
Proof.
  intros H1 H2.
  assert (G : forall r c, (c <= r < m)%nat -> a r c = sum m (fun k => chL C r k * mel C k k * chL C c k)).
  { intros r c Hr. rewrite (sum_ext m _ (fun k => chL C c k * (mel C k k * chL C r k))) by (intros; ring). rewrite sum_lower by lia. rewrite H2 by exact Hr. f_equal.
    - unfold chL, delta. destruct (Nat.eqb_spec r c) as [->|]; [rewrite Nat.ltb_irrefl; ring|]. destruct (Nat.ltb_spec c r); [|lia]. apply H1. lia.
    - apply sum_ext. intros k Hk. unfold chL. destruct (Nat.ltb_spec k r); [|lia]. rewrite (H1 c k) by lia. ring. }
  intros r c Hr Hc. unfold lower_sym. destruct (Nat.leb_spec c r); [apply G; lia|]. rewrite G by lia. apply sum_ext. intros k Hk. ring.
Qed.
Lemma inv_ldl n a (C : mat F) : chol_inv n a n C ->
  forall r c, (r < n)%nat -> (c < n)%nat -> lower_sym a r c = sum n (fun k => chL C r k * mel C k k * chL C c k).
Proof. intros (_ & _ & _ & H1 & H2 & _). apply ldl_of; intros r c H; [apply H1|apply H2]; lia. Qed.
Lemma stop_ldl n a k (C : mat F) : (k < n)%nat -> chol_stop n a k C ->
  forall r c, (r < S k)%nat -> (c < S k)%nat -> lower_sym a r c = sum (S k) (fun j => chL C r j * mel C j j * chL C c j).
Proof.
  intros Hk (_ & _ & _ & H1 & H2 & H3 & H4). apply ldl_of; intros r c H.
  - apply H1; lia.
  - destruct (Nat.eq_dec c k) as [->|]; [|apply H2; lia]. replace r with k by lia. rewrite Nat.eqb_refl, H3, H4. ring.
Qed.

(** L y = v, forward *)
Lemma chol_forward_ok n (C : mat F) (v : vec F) : mrows C = n -> mcols C = n -> vlen v = n ->
  wp (for_ 0 n (fun i y =>
    val <- vget v i ;;
    val <- for_ 0 i (fun j val => x <- mget C i j ;; yj <- vget y j ;; Ok (fsub val (fmul x yj))) val ;;
    vset y i val)%outcome (vnew n))
   (fun y => vlen y = n /\ forall i, (i < n)%nat -> sum n (fun k => chL C i k * vat y k) = vat v i).
Proof.
  intros HR HC HV.
  eapply wp_mono; [apply (wp_for (fun k y => vlen y = n /\ forall i, (i < k)%nat -> vat y i + sum i (fun k => mel C i k * vat y k) = vat v i))|].
  - lia.
  - split; [reflexivity|lia].
  - intros i y Hi (Hl & Hy). rewrite vget_ok by lia. cbn [bind]. apply wp_bind.
    eapply wp_mono; [apply (wp_for (fun k val => val = vat v i - sum k (fun k => mel C i k * vat y k)))|].
    + lia.
    + cbn [sum]. ring.
    + intros j val Hj ->. rewrite mget_ok by lia. cbn [bind]. rewrite vget_ok by lia. cbn [bind wp sum]. ring.
    + intros val ->. rewrite vset_ok by lia. cbn [wp vlen vat]. split; [exact Hl|]. intros r Hr. destruct (Nat.eqb_spec r i) as [->|].
      * match goal with |- _ - ?s + ?t = _ => replace t with s; [ring|apply sum_ext] end. intros k Hk. destruct (Nat.eqb_spec k i); [lia|reflexivity].
      * rewrite <- (Hy r) by lia. f_equal. apply sum_ext. intros k Hk. destruct (Nat.eqb_spec k i); [lia|reflexivity].
  - intros y (Hl & Hy). split; [exact Hl|]. intros i Hi. rewrite sum_lower by exact Hi. apply Hy. exact Hi.
Qed.
Lemma chol_diag_ok n (C : mat F) (y : vec F) : mrows C = n -> mcols C = n -> vlen y = n -> (forall i, (i < n)%nat -> mel C i i <> 0) ->
  exists z, for_ 0 n (fun i y => a <- vget y i ;; d <- mget C i i ;; z <- div a d ;; vset y i z)%outcome y = Ok z /\ vlen z = n /\ forall i, (i < n)%nat -> vat z i = vat y i / mel C i i.
Proof.
  intros HR HC HV Hd. apply wp_ok_inv.
  eapply wp_mono; [apply (wp_for (fun k z => vlen z = n /\ (forall i, (i < k)%nat -> vat z i = vat y i / mel C i i) /\ forall i, (k <= i)%nat -> vat z i = vat y i))|].
  - lia.
  - split; [exact HV|]. split; [lia|reflexivity].
  - intros i z Hi (H1 & H2 & H3). rewrite vget_ok by lia. cbn [bind]. rewrite mget_ok by lia. cbn [bind]. rewrite div_ok by (apply Hd; lia). cbn [bind]. rewrite vset_ok by lia. cbn [wp vlen vat].
    split; [exact H1|]. split.
    + intros j Hj. destruct (Nat.eqb_spec j i) as [->|]; [rewrite H3 by lia; reflexivity|apply H2; lia].
    + intros j Hj. destruct (Nat.eqb_spec j i); [lia|apply H3; lia].
  - intros z (H1 & H2 & _). split; [exact H1|exact H2].
Qed.
Lemma chol_back_ok n (C : mat F) (y : vec F) : mrows C = n -> mcols C = n -> vlen y = n ->
  wp (for_down n 0 (fun i result =>
    val <- vget y i ;;
    val <- for_ (S i) n (fun j val => x <- mget C j i ;; rj <- vget result j ;; Ok (fsub val (fmul x rj))) val ;;
    vset result i val)%outcome (vnew n))
   (fun x => vlen x = n /\ forall i, (i < n)%nat -> sum n (fun r => chL C r i * vat x r) = vat y i).
Proof.
  intros HR HC HV.
  eapply wp_mono; [apply (wp_for_down (fun k x => vlen x = n /\ forall i, (k <= i < n)%nat -> vat x i + sum (n - S i) (fun k => mel C (S i + k) i * vat x (S i + k)%nat) = vat y i))|].
  - lia.
  - split; [reflexivity|lia].
  - intros i x Hi (Hl & Hx). rewrite vget_ok by lia. cbn [bind]. apply wp_bind.
    eapply wp_mono; [apply (wp_for (fun k val => val = vat y i - sum (k - S i) (fun k => mel C (S i + k) i * vat x (S i + k)%nat)))|].
    + lia.
    + rewrite Nat.sub_diag. cbn [sum]. ring.
    + intros j val Hj ->. rewrite mget_ok by lia. cbn [bind]. rewrite vget_ok by lia. cbn [bind wp]. replace (S j - S i)%nat with (S (j - S i)) by lia. cbn [sum].
      replace (S i + (j - S i))%nat with j by lia. ring.
    + intros val ->. rewrite vset_ok by lia. cbn [wp vlen vat]. split; [exact Hl|]. intros r Hr. destruct (Nat.eqb_spec r i) as [->|].
      * match goal with |- _ - ?s + ?t = _ => replace t with s; [ring|apply sum_ext] end.
        intros k Hk. destruct (Nat.eqb_spec (S i + k) i); [lia|reflexivity].
      * rewrite <- (Hx r) by lia. f_equal. apply sum_ext. intros k Hk. destruct (Nat.eqb_spec (S r + k) i); [lia|reflexivity].
  - intros x (Hl & Hx). split; [exact Hl|]. intros i Hi. rewrite sum_lower_t by exact Hi. apply Hx. lia.
Qed.
(** (L D L^T) x = v, for the factors stored in C *)
Definition ldl_solves (n : nat) (C : mat F) (x v : nat -> F) : Prop :=
  forall i, (i < n)%nat -> sum n (fun k => chL C i k * (mel C k k * sum n (fun r => chL C r k * x r))) = v i.
Lemma ldl_solves_solves n a (C : mat F) x v :
  (forall r c, (r < n)%nat -> (c < n)%nat -> a r c = sum n (fun k => chL C r k * mel C k k * chL C c k)) ->
  ldl_solves n C x v <-> solves n a x v.
Proof.
  intros H. unfold ldl_solves, solves.
  assert (E : forall i, (i < n)%nat -> sum n (fun c => a i c * x c) = sum n (fun k => chL C i k * (mel C k k * sum n (fun r => chL C r k * x r)))).
  { intros i Hi. rewrite (sum_ext n _ (fun c => sum n (fun k => chL C i k * mel C k k * chL C c k * x c))).
    - rewrite sum_swap. apply sum_ext. intros k Hk. rewrite (sum_ext n _ (fun c => chL C i k * mel C k k * (chL C c k * x c))) by (intros; ring). rewrite sum_mul_l. ring.
    - intros c Hc. rewrite H by assumption. rewrite <- sum_mul_r. reflexivity. }
  split; intros G i Hi; specialize (G i Hi); rewrite E in * by exact Hi; exact G.
Qed.
Lemma chol_backsub_ok n (ch : chol F) (v : vec F) : mrows (ch_m ch) = n -> mcols (ch_m ch) = n -> vlen v = n -> (forall i, (i < n)%nat -> mel (ch_m ch) i i <> 0) ->
  exists x, chol_backsub ch v = Ok x /\ vlen x = n /\ ldl_solves n (ch_m ch) (vat x) (vat v).
Proof.
  intros HR HC HV Hd. unfold chol_backsub. rewrite HR, same_size_eq by lia. cbn [bind].
  destruct (wp_ok_inv _ _ (chol_forward_ok n (ch_m ch) v HR HC HV)) as (y & -> & Hy & Ey). cbn [bind].
  destruct (chol_diag_ok n (ch_m ch) y HR HC Hy Hd) as (z & -> & Hz & Ez). cbn [bind].
  destruct (wp_ok_inv _ _ (chol_back_ok n (ch_m ch) z HR HC Hz)) as (x & -> & Hx & Ex).
  exists x. split; [reflexivity|]. split; [exact Hx|]. intros i Hi. rewrite <- Ey by exact Hi. apply sum_ext. intros k Hk. rewrite Ex, Ez by exact Hk. field. apply Hd. exact Hk.
Qed.
Lemma chol_backsub_zero n (ch : chol F) (v : vec F) j : mrows (ch_m ch) = n -> mcols (ch_m ch) = n -> vlen v = n ->
  (j < n)%nat -> (forall i, (i < j)%nat -> mel (ch_m ch) i i <> 0) -> mel (ch_m ch) j j = 0 -> chol_backsub ch v = NonFinite.
Proof.
  intros HR HC HV Hj Hd Hz. unfold chol_backsub. rewrite HR, same_size_eq by lia. cbn [bind].
  destruct (wp_ok_inv _ _ (chol_forward_ok n (ch_m ch) v HR HC HV)) as (y & -> & Hy & Ey). cbn [bind].
  rewrite (for_stop (fun z => vlen z = n) 0 n j); [reflexivity|lia|exact Hy| |].
  - intros i z Hi Hl. rewrite vget_ok by lia. cbn [bind]. rewrite mget_ok by lia. cbn [bind]. rewrite div_ok by (apply Hd; lia). cbn [bind]. rewrite vset_ok by lia. exact Hl.
  - intros z Hl. rewrite vget_ok by lia. cbn [bind]. rewrite mget_ok by lia. cbn [bind]. rewrite Hz, div_zero. reflexivity.
Qed.

(** val -= x * row r of y *)
Lemma row_sub_ok (val : vec F) (y : mat F) j x : vlen val = mcols y -> (j < mrows y)%nat ->
  exists w, (yj <- row y j ;; t <- vscale_l x yj ;; vsub_assign val t)%outcome = Ok w /\ vlen w = mcols y /\ forall c, (c < mcols y)%nat -> vat w c = vat val c - x * mel y j c.
Proof.
  intros Hl Hj. rewrite row_ok by exact Hj. cbn [bind]. destruct (vscale_l_ok (mkvec (mcols y) (fun c => mel y j c)) x) as (t & -> & Ht & Vt). cbn [bind].
  cbn [vlen vat] in Ht, Vt. destruct (vsub_assign_ok val t) as (w & -> & Hw & Vw); [lia|]. exists w. split; [reflexivity|]. split; [lia|]. intros c Hc. rewrite Vw, Vt by lia. reflexivity.
Qed.
Lemma chol_backsub_mat_ok n q (ch : chol F) (m : mat F) : mrows (ch_m ch) = n -> mcols (ch_m ch) = n -> mrows m = n -> mcols m = q -> (forall i, (i < n)%nat -> mel (ch_m ch) i i <> 0) ->
  exists x, chol_backsub_mat ch m = Ok x /\ mrows x = n /\ mcols x = q /\ forall k, (k < q)%nat -> ldl_solves n (ch_m ch) (fun r => mel x r k) (fun r => mel m r k).
Proof.
  intros HR HC HM HQ Hd. unfold chol_backsub_mat. rewrite HR, HQ, same_size_eq by lia. cbn [bind]. set (C := ch_m ch) in *.
  apply wp_ok_inv. apply wp_bind.
  eapply wp_mono; [apply (wp_for (fun k y => mrows y = n /\ mcols y = q /\ forall i c, (i < k)%nat -> (c < q)%nat -> mel y i c + sum i (fun k => mel C i k * mel y k c) = mel m i c))|].
  { lia. } { split; [reflexivity|]. split; [reflexivity|]. lia. }
  { intros i y Hi (Hl & Hlc & Hy). rewrite row_ok by lia. cbn [bind]. apply wp_bind.
    eapply wp_mono; [apply (wp_for (fun k val => vlen val = q /\ forall c, (c < q)%nat -> vat val c = mel m i c - sum k (fun k => mel C i k * mel y k c)))|].
    - lia.
    - cbn [vlen vat sum]. split; [exact HQ|]. intros c Hc. ring.
    - intros j val Hj (V1 & V2). rewrite mget_ok by lia. cbn [bind]. destruct (row_sub_ok val y j (mel C i j)) as (w & -> & W1 & W2); [lia|lia|]. cbn [wp]. split; [lia|].
      intros c Hc. rewrite W2 by lia. rewrite V2 by exact Hc. cbn [sum]. ring.
    - intros val (V1 & V2). destruct (set_row_ok y i val) as (y' & -> & R' & C' & V'); [lia|lia|]. cbn [wp]. split; [lia|]. split; [lia|].
      intros r c Hr Hc. rewrite !V' by lia. destruct (Nat.eqb_spec r i) as [->|].
      + rewrite V2 by exact Hc. match goal with |- _ - ?s + ?t = _ => replace t with s; [ring|apply sum_ext] end. intros k Hk. rewrite V' by lia. destruct (Nat.eqb_spec k i); [lia|reflexivity].
      + rewrite <- (Hy r c) by lia. f_equal. apply sum_ext. intros k Hk. rewrite V' by lia. destruct (Nat.eqb_spec k i); [lia|reflexivity]. }
  intros y (Hl & Hlc & Hy). apply wp_bind.
  eapply wp_mono; [apply (wp_for (fun k z => mrows z = n /\ mcols z = q /\ (forall i c, (i < k)%nat -> (c < q)%nat -> mel z i c = mel y i c / mel C i i) /\ forall i c, (k <= i)%nat -> (c < q)%nat -> mel z i c = mel y i c))|].
  { lia. } { split; [exact Hl|]. split; [exact Hlc|]. split; [lia|reflexivity]. }
  { intros i z Hi (H1 & H1' & H2 & H3). rewrite mget_ok by lia. cbn [bind]. rewrite div_ok by (apply Hd; lia). cbn [bind]. rewrite row_ok by lia. cbn [bind].
    destruct (vmul_assign_ok (mkvec (mcols z) (fun c => mel z i c)) (1 / mel C i i)) as (v & -> & L' & V'). cbn [vlen vat] in L', V'. cbn [bind].
    destruct (set_row_ok z i v) as (z' & -> & R' & C' & W'); [lia|lia|]. cbn [wp]. split; [lia|]. split; [lia|]. split.
    - intros r c Hr Hc. rewrite W' by lia. destruct (Nat.eqb_spec r i) as [->|]; [|apply H2; lia]. rewrite V' by lia. rewrite H3 by lia. field. apply Hd. lia.
    - intros r c Hr Hc. rewrite W' by lia. destruct (Nat.eqb_spec r i); [lia|]. apply H3; lia. }
  intros z (Z1 & Z1' & Z2 & _).
  eapply wp_mono; [apply (wp_for_down (fun k x => mrows x = n /\ mcols x = q /\ forall i c, (k <= i < n)%nat -> (c < q)%nat -> mel x i c + sum (n - S i) (fun k => mel C (S i + k) i * mel x (S i + k) c) = mel z i c))|].
  { lia. } { split; [reflexivity|]. split; [reflexivity|]. lia. }
  { intros i x Hi (Hl' & Hlc' & Hx). rewrite row_ok by lia. cbn [bind]. apply wp_bind.
    eapply wp_mono; [apply (wp_for (fun k val => vlen val = q /\ forall c, (c < q)%nat -> vat val c = mel z i c - sum (k - S i) (fun k => mel C (S i + k) i * mel x (S i + k) c)))|].
    - lia.
    - cbn [vlen vat]. rewrite Nat.sub_diag. cbn [sum]. split; [exact Z1'|]. intros c Hc. ring.
    - intros j val Hj (V1 & V2). rewrite mget_ok by lia. cbn [bind]. destruct (row_sub_ok val x j (mel C j i)) as (w & -> & W1 & W2); [lia|lia|]. cbn [wp]. split; [lia|].
      intros c Hc. rewrite W2 by lia. rewrite V2 by exact Hc. replace (S j - S i)%nat with (S (j - S i)) by lia. cbn [sum]. replace (S i + (j - S i))%nat with j by lia. ring.
    - intros val (V1 & V2). destruct (set_row_ok x i val) as (x' & -> & R' & C' & V'); [lia|lia|]. cbn [wp]. split; [lia|]. split; [lia|].
      intros r c Hr Hc. rewrite !V' by lia. destruct (Nat.eqb_spec r i) as [->|].
      + rewrite V2 by exact Hc. match goal with |- _ - ?s + ?t = _ => replace t with s; [ring|apply sum_ext] end. intros k Hk. rewrite V' by lia. destruct (Nat.eqb_spec (S i + k) i); [lia|reflexivity].
      + rewrite <- (Hx r c) by lia. f_equal. apply sum_ext. intros k Hk. rewrite V' by lia. destruct (Nat.eqb_spec (S r + k) i); [lia|reflexivity]. }
  intros x (X1 & X2 & X3). split; [exact X1|]. split; [exact X2|]. intros c Hc i Hi.
  rewrite <- Hy by (exact Hi || exact Hc). rewrite sum_lower by exact Hi.
  assert (E : forall k, (k < n)%nat -> mel C k k * sum n (fun r => chL C r k * mel x r c) = mel y k c).
  { intros k Hk. rewrite sum_lower_t by exact Hk. rewrite X3 by (lia || exact Hc). rewrite Z2 by (lia || exact Hc). field. apply Hd. exact Hk. }
  rewrite E by exact Hi. f_equal. apply sum_ext. intros k Hk. rewrite E by lia. reflexivity.
Qed.

Lemma chol_det_ok n (ch : chol F) : mrows (ch_m ch) = S n -> mcols (ch_m ch) = S n -> chol_det ch = Ok (prod (S n) (fun i => mel (ch_m ch) i i)).
Proof.
  intros HR HC. unfold chol_det. rewrite mget_ok by lia. cbn [bind]. rewrite HR. apply wp_eq.
  apply (wp_for (fun k a => a = prod k (fun i => mel (ch_m ch) i i))); [lia|cbn [prod]; ring|].
  intros k a Hk ->. rewrite mget_ok by lia. cbn [bind wp prod]. reflexivity.
Qed.
Lemma chol_L_ok n (ch : chol F) : mrows (ch_m ch) = n -> mcols (ch_m ch) = n -> gives_mat (chol_L ch) n n (chL (ch_m ch)).
Proof.
  intros HR HC. unfold chol_L. rewrite HR. set (C := ch_m ch) in *.
  destruct (identity_eval_ok HOne (mnew n n) eq_refl) as (m & -> & R & K & V). cbn [mrows mcols mnew] in R, K, V. cbn [bind].
  unfold gives_mat. apply wp_ok_inv. destruct n as [|n].
  { rewrite for_empty by lia. cbn [wp]. unfold mat_is. split; [exact R|]. split; [exact K|]. lia. }
  eapply wp_mono; [apply (wp_for (fun k (m' : mat F) => mrows m' = S n /\ mcols m' = S n /\ forall r c, (r < S n)%nat -> (c < S n)%nat -> mel m' r c = if (r <? k)%nat then chL C r c else delta r c))|].
  - lia.
  - split; [exact R|]. split; [exact K|]. intros r c Hr Hc. rewrite V by assumption. unfold chL, delta. destruct (Nat.ltb_spec r 1), (Nat.ltb_spec c r); try lia; try reflexivity.
  - intros i m' Hi (R' & K' & V').
    eapply wp_mono; [apply (wp_for (fun k (m2 : mat F) => mrows m2 = S n /\ mcols m2 = S n /\ forall r c, (r < S n)%nat -> (c < S n)%nat -> mel m2 r c = if ((r =? i) && (c <? k))%nat%bool then mel C r c else mel m' r c))|].
    + lia.
    + split; [exact R'|]. split; [exact K'|]. intros r c Hr Hc. destruct (Nat.ltb_spec c 0); [lia|]. rewrite andb_false_r. reflexivity.
    + intros j m2 Hj (R2 & K2 & V2). rewrite mget_ok by lia. cbn [bind]. rewrite mset_ok by lia. cbn [wp mrows mcols mel]. split; [exact R2|]. split; [exact K2|].
      intros r c Hr Hc. rewrite V2 by assumption. destruct (Nat.eqb_spec r i), (Nat.eqb_spec c j), (Nat.ltb_spec c j), (Nat.ltb_spec c (S j)); cbn [andb]; try lia; subst; reflexivity.
    + intros m2 (R2 & K2 & V2). split; [exact R2|]. split; [exact K2|]. intros r c Hr Hc. rewrite V2, V' by assumption.
      unfold chL, delta. destruct (Nat.eqb_spec r i), (Nat.ltb_spec c i), (Nat.ltb_spec r i), (Nat.ltb_spec r (S i)), (Nat.ltb_spec c r); cbn [andb]; try lia; reflexivity.
  - intros m' (R' & K' & V'). unfold mat_is. split; [exact R'|]. split; [exact K'|]. intros r c Hr Hc. rewrite V' by assumption. destruct (Nat.ltb_spec r (S n)); [reflexivity|lia].
Qed.
Lemma chol_D_ok n (ch : chol F) : mrows (ch_m ch) = n -> mcols (ch_m ch) = n -> gives_mat (chol_D ch) n n (fun r c => if (r =? c)%nat then mel (ch_m ch) r r else 0).
Proof.
  intros HR HC. unfold chol_D, zeros_mat. rewrite HR. set (C := ch_m ch) in *.
  destruct (mfill_ok (mnew n n) (fun _ _ => 0)) as (m & -> & R & K & V). cbn [mrows mcols mnew] in R, K, V. cbn [bind].
  unfold gives_mat. apply wp_ok_inv.
  eapply wp_mono; [apply (wp_for (fun k (m' : mat F) => mrows m' = n /\ mcols m' = n /\ forall r c, (r < n)%nat -> (c < n)%nat -> mel m' r c = if ((r =? c) && (r <? k))%nat%bool then mel C r r else 0))|].
  - lia.
  - split; [exact R|]. split; [exact K|]. intros r c Hr Hc. rewrite V by assumption. destruct (Nat.ltb_spec r 0); [lia|]. rewrite andb_false_r. reflexivity.
  - intros i m' Hi (R' & K' & V'). rewrite mget_ok by lia. cbn [bind]. rewrite mset_ok by lia. cbn [wp mrows mcols mel]. split; [exact R'|]. split; [exact K'|].
    intros r c Hr Hc. rewrite V' by assumption. destruct (Nat.eqb_spec r i), (Nat.eqb_spec c i), (Nat.eqb_spec r c), (Nat.ltb_spec r i), (Nat.ltb_spec r (S i)); cbn [andb]; try lia; subst; reflexivity.
  - intros m' (R' & K' & V'). unfold mat_is. split; [exact R'|]. split; [exact K'|]. intros r c Hr Hc. rewrite V' by assumption. destruct (Nat.ltb_spec r n); [|lia]. rewrite andb_true_r. reflexivity.
Qed.
End L.
