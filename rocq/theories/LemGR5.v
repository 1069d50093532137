(** * GR_SVD: the product U B V^T under rotations, and under dropping an element of B *)
From Coq Require Import Reals Arith Bool Lia Lra Psatz Setoid Morphisms.
From Verif Require Import Base Alg Inst Mat SpecMat LemMat RSum ModelOps ModelSVD ModelGR SpecExp SpecEig LemEig LemExp RRect LemGR LemGR3 LemGR4.
Open Scope outcome_scope.
Local Open Scope R_scope.

(** upper bidiagonal: d on the diagonal, e q above it in column q *)
Definition bidi (d e : nat -> R) : rmat := fun p q => if (p =? q)%nat then d p else if (q =? S p)%nat then e q else 0.
Definition colrot (X : rmat) (a b : nat) (c s : R) : rmat := fun r p => if (p =? a)%nat then X r a * c + X r b * s else if (p =? b)%nat then - X r a * s + X r b * c else X r p.
Definition usv (n : nat) (U B V : rmat) (r c : nat) : R := Sum n (fun p => Sum n (fun q => U r p * B p q * V c q)).
(** tol bounds each dropped element, cnt counts them *)
Record fact (m n : nat) (A G : rmat) (tol : R) (cnt : nat) (U V B : rmat) : Prop := mkfact {
  f_err : forall r c, (r < m)%nat -> (c < n)%nat -> Rabs (A r c - usv n U B V r c) <= INR cnt * tol;
  f_V : req n n (mm n V (tp V)) delta;
  f_U : req m m (mm n U (tp U)) G;
  f_iso : (n <= m)%nat -> req n n (mm m (tp U) U) delta;
  f_proj : tol = 0 -> req n n (mm n (mm m (tp U) U) B) B }.
Lemma colrot_a X a b c s r : colrot X a b c s r a = X r a * c + X r b * s.
Proof. unfold colrot. rewrite Nat.eqb_refl. reflexivity. Qed.
Lemma colrot_b X a b c s r : a <> b -> colrot X a b c s r b = - X r a * s + X r b * c.
Proof. intros H. unfold colrot. rewrite Nat.eqb_refl. destruct (Nat.eqb_spec b a); [congruence|reflexivity]. Qed.
Lemma colrot_o X a b c s r p : p <> a -> p <> b -> colrot X a b c s r p = X r p.
Proof. intros H H2. unfold colrot. destruct (Nat.eqb_spec p a); [contradiction|]. destruct (Nat.eqb_spec p b); [contradiction|reflexivity]. Qed.
(** products of two rotated things *)
Lemma rot_sum n a b c s x y x' y' : (a < n)%nat -> (b < n)%nat -> a <> b -> c * c + s * s = 1 ->
  x' a = x a * c + x b * s -> x' b = - x a * s + x b * c -> (forall p, (p < n)%nat -> p <> a -> p <> b -> x' p = x p) ->
  y' a = y a * c + y b * s -> y' b = - y a * s + y b * c -> (forall p, (p < n)%nat -> p <> a -> p <> b -> y' p = y p) ->
  Sum n (fun p => x' p * y' p) = Sum n (fun p => x p * y p).
Proof.
  intros Ha Hb N CS Xa Xb Xo Ya Yb Yo. apply (S_two n a b); [exact Ha|exact Hb|exact N| |].
  - intros p Hp H1 H2. rewrite Xo, Yo by assumption. reflexivity.
  - rewrite Xa, Xb, Ya, Yb. replace (x a * y a + x b * y b) with ((c * c + s * s) * (x a * y a + x b * y b)) by (rewrite CS; ring). ring.
Qed.
Lemma usv_B n U B B' V r c : req n n B B' -> usv n U B V r c = usv n U B' V r c.
Proof. intros H. unfold usv. apply S_ext. intros p Hp. apply S_ext. intros q Hq. rewrite H by assumption. reflexivity. Qed.
Lemma usv_left n U B V r c : usv n U B V r c = Sum n (fun p => U r p * Sum n (fun q => B p q * V c q)).
Proof. unfold usv. apply S_ext. intros p Hp. rewrite <- S_mul_l. apply S_ext. intros. ring. Qed.
Lemma usv_right n U B V r c : usv n U B V r c = Sum n (fun q => V c q * Sum n (fun p => U r p * B p q)).
Proof. unfold usv. rewrite S_swap. apply S_ext. intros p Hp. rewrite <- S_mul_l. apply S_ext. intros. ring. Qed.
Lemma S_lin n f g (c s : R) : Sum n f * c + Sum n g * s = Sum n (fun k => f k * c + g k * s).
Proof. rewrite S_add, !S_mul_r. reflexivity. Qed.
Section F.
Variables (m n : nat) (A G : rmat) (tol : R).
Lemma fact_ext cnt U V B U' V' B' : req m n U U' -> req n n V V' -> req n n B B' -> fact m n A G tol cnt U V B -> fact m n A G tol cnt U' V' B'.
Proof.
  intros HU HV HB [E FV FU FI FP]. split.
  - intros r c Hr Hc. replace (usv n U' B' V' r c) with (usv n U B V r c); [apply E; assumption|]. unfold usv. apply S_ext. intros p Hp. apply S_ext. intros q Hq. rewrite HU, HV, HB by assumption. reflexivity.
  - rewrite <- HV. exact FV.
  - rewrite <- HU. exact FU.
  - intros L. rewrite <- HU. apply FI, L.
  - intros Z. rewrite <- HU, <- HB. apply FP, Z.
Qed.
Lemma fact_B cnt U V B B' : (forall p q, (p < n)%nat -> (q < n)%nat -> B p q = B' p q) -> fact m n A G tol cnt U V B -> fact m n A G tol cnt U V B'.
Proof. intros H. apply fact_ext; [reflexivity|reflexivity|exact H]. Qed.
Definition rowrot (B : rmat) (a b : nat) (c s : R) : rmat := fun p q => if (p =? a)%nat then B a q * c + B b q * s else if (p =? b)%nat then - B a q * s + B b q * c else B p q.
Lemma rowrot_a X a b c s r : rowrot X a b c s a r = X a r * c + X b r * s.
Proof. unfold rowrot. rewrite Nat.eqb_refl. reflexivity. Qed.
Lemma rowrot_b X a b c s r : a <> b -> rowrot X a b c s b r = - X a r * s + X b r * c.
Proof. intros H. unfold rowrot. rewrite Nat.eqb_refl. destruct (Nat.eqb_spec b a); [congruence|reflexivity]. Qed.
Lemma rowrot_o X a b c s r p : p <> a -> p <> b -> rowrot X a b c s p r = X p r.
Proof. intros H H2. unfold rowrot. destruct (Nat.eqb_spec p a); [contradiction|]. destruct (Nat.eqb_spec p b); [contradiction|reflexivity]. Qed.
Lemma rot_gram k X a b c s : (a < k)%nat -> (b < k)%nat -> a <> b -> c * c + s * s = 1 -> forall i j, mm k (colrot X a b c s) (tp (colrot X a b c s)) i j = mm k X (tp X) i j.
Proof.
  intros Ha Hb N CS i j. unfold mm, tp. apply (rot_sum k a b c s (fun p => X i p) (fun p => X j p)); auto; intros; rewrite ?colrot_a, ?(colrot_b X a b c s _ N), ?colrot_o by assumption; reflexivity.
Qed.
Lemma colgram_rot mm_ X a b c s p q : a <> b -> Sum mm_ (fun r => colrot X a b c s r p * colrot X a b c s r q) =
  colrot (rowrot (fun p q => Sum mm_ (fun r => X r p * X r q)) a b c s) a b c s p q.
Proof.
  intros N. assert (L : forall x1 x2 y1 y2 (w1 w2 z1 z2 : R), Sum mm_ (fun r => (X r x1 * w1 + X r x2 * w2) * (X r y1 * z1 + X r y2 * z2)) =
    (Sum mm_ (fun r => X r x1 * X r y1) * w1 + Sum mm_ (fun r => X r x2 * X r y1) * w2) * z1 + (Sum mm_ (fun r => X r x1 * X r y2) * w1 + Sum mm_ (fun r => X r x2 * X r y2) * w2) * z2).
  { intros. rewrite <- !S_mul_r, <- !S_add, <- !S_mul_r, <- S_add. apply S_ext. intros. ring. }
  assert (X1 : forall p, exists x1 x2 w1 w2, (forall r, colrot X a b c s r p = X r x1 * w1 + X r x2 * w2) /\ (forall (Y : rmat) q, rowrot Y a b c s p q = Y x1 q * w1 + Y x2 q * w2) /\ (forall (Y : rmat) q, colrot Y a b c s q p = Y q x1 * w1 + Y q x2 * w2)).
  { intros p'. destruct (Nat.eq_dec p' a) as [->|Na]; [|destruct (Nat.eq_dec p' b) as [->|Nb]].
    - exists a, b, c, s. split; [|split]; intros; rewrite ?colrot_a, ?rowrot_a; reflexivity.
    - exists a, b, (-s), c. split; [|split]; intros; rewrite ?colrot_b, ?rowrot_b by exact N; ring.
    - exists p', p', 1, 0. split; [|split]; intros; rewrite ?colrot_o, ?rowrot_o by assumption; ring. }
  destruct (X1 p) as (x1 & x2 & w1 & w2 & P1 & P2 & _). destruct (X1 q) as (y1 & y2 & z1 & z2 & Q1 & _ & Q3).
  rewrite (S_ext mm_ _ (fun r => (X r x1 * w1 + X r x2 * w2) * (X r y1 * z1 + X r y2 * z2))) by (intros; rewrite P1, Q1; reflexivity). rewrite L, Q3, !P2. ring.
Qed.
Lemma delta_rot a b c s p q : a <> b -> c * c + s * s = 1 -> colrot (rowrot delta a b c s) a b c s p q = delta p q.
Proof.
  intros N CS. unfold colrot, rowrot, delta. cbn [f0 f1 ROps]. repeat match goal with |- context [(?a =? ?b)%nat] => destruct (Nat.eqb_spec a b) end; subst; try contradiction; try congruence; try ring; (transitivity (c * c + s * s); [ring|exact CS]).
Qed.
(** columns a, b of U and rows a, b of B *)
Lemma fact_rows cnt U V B a b c s : (a < n)%nat -> (b < n)%nat -> a <> b -> c * c + s * s = 1 -> fact m n A G tol cnt U V B ->
  fact m n A G tol cnt (colrot U a b c s) V (rowrot B a b c s).
Proof.
  intros Ha Hb N CS [E FV FU FI FP]. split.
  - intros r k Hr Hk. replace (usv n (colrot U a b c s) (rowrot B a b c s) V r k) with (usv n U B V r k); [apply E; assumption|]. rewrite !usv_right. apply S_ext. intros q Hq. f_equal. symmetry.
    apply (rot_sum n a b c s (fun p => U r p) (fun p => B p q)); auto; intros; rewrite ?colrot_a, ?rowrot_a, ?(colrot_b U a b c s _ N), ?(rowrot_b B a b c s _ N), ?colrot_o, ?rowrot_o by assumption; reflexivity.
  - exact FV.
  - intros i j Hi Hj. rewrite rot_gram by assumption. apply FU; assumption.
  - intros L p q Hp Hq. unfold mm, tp. rewrite (colgram_rot m U a b c s p q N). rewrite <- (delta_rot a b c s p q N CS). specialize (FI L). unfold mm, tp in FI. unfold colrot, rowrot. destruct (q =? a)%nat, (q =? b)%nat, (p =? a)%nat, (p =? b)%nat; rewrite !FI by assumption; reflexivity.
  - intros Z p q Hp Hq. specialize (FP Z). assert (K : forall p, (p < n)%nat -> mm n (mm m (tp (colrot U a b c s)) (colrot U a b c s)) (rowrot B a b c s) p q = Sum n (fun k => rowrot (mm m (tp U) U) a b c s p k * B k q)).
    { intros p' Hp'. unfold mm at 1. apply (rot_sum n a b c s (fun k => rowrot (mm m (tp U) U) a b c s p' k) (fun k => B k q)); auto; intros; rewrite ?rowrot_a, ?(rowrot_b B a b c s _ N), ?(rowrot_o B) by assumption; try reflexivity; unfold mm at 1, tp at 1; rewrite (colgram_rot m U a b c s p' _ N), ?colrot_a, ?(colrot_b _ a b c s _ N), ?colrot_o by assumption; reflexivity. }
    rewrite K by exact Hp. assert (D : forall x, (x < n)%nat -> Sum n (fun k => mm m (tp U) U x k * B k q) = B x q) by (intros; apply FP; assumption).
    destruct (Nat.eq_dec p a) as [->|Na]; [|destruct (Nat.eq_dec p b) as [->|Nb]].
    + rewrite rowrot_a, <- (D a), <- (D b) by assumption. rewrite S_lin. apply S_ext. intros k _. rewrite rowrot_a. ring.
    + rewrite (rowrot_b B a b c s _ N), <- (D a), <- (D b) by assumption. replace (- Sum n (fun k => mm m (tp U) U a k * B k q) * s) with (Sum n (fun k => mm m (tp U) U a k * B k q) * - s) by ring. rewrite S_lin. apply S_ext. intros k _. rewrite (rowrot_b _ a b c s _ N). ring.
    + rewrite (rowrot_o B) by assumption. rewrite <- (D p) by assumption. apply S_ext. intros. rewrite rowrot_o by assumption. reflexivity.
Qed.
(** columns a, b of V and of B *)
Lemma fact_cols cnt U V B a b c s : (a < n)%nat -> (b < n)%nat -> a <> b -> c * c + s * s = 1 -> fact m n A G tol cnt U V B ->
  fact m n A G tol cnt U (colrot V a b c s) (colrot B a b c s).
Proof.
  intros Ha Hb N CS [E FV FU FI FP]. split.
  - intros r k Hr Hk. replace (usv n U (colrot B a b c s) (colrot V a b c s) r k) with (usv n U B V r k); [apply E; assumption|]. rewrite !usv_left. apply S_ext. intros q Hq. f_equal. symmetry.
    apply (rot_sum n a b c s (fun p => B q p) (fun p => V k p)); auto; intros; rewrite ?colrot_a, ?(colrot_b _ a b c s _ N), ?colrot_o by assumption; reflexivity.
  - intros i j Hi Hj. rewrite rot_gram by assumption. apply FV; assumption.
  - exact FU.
  - exact FI.
  - intros Z p q Hp Hq. specialize (FP Z). assert (D : forall x y, (x < n)%nat -> (y < n)%nat -> Sum n (fun k => mm m (tp U) U x k * B k y) = B x y) by (intros; apply FP; assumption). unfold mm at 1.
    destruct (Nat.eq_dec q a) as [->|Na]; [|destruct (Nat.eq_dec q b) as [->|Nb]].
    + rewrite colrot_a, <- (D p a), <- (D p b) by assumption. rewrite S_lin. apply S_ext. intros k _. rewrite colrot_a. ring.
    + rewrite (colrot_b B a b c s _ N), <- (D p a), <- (D p b) by assumption. replace (- Sum n (fun k => mm m (tp U) U p k * B k a) * s) with (Sum n (fun k => mm m (tp U) U p k * B k a) * - s) by ring. rewrite S_lin. apply S_ext. intros k _. rewrite (colrot_b _ a b c s _ N). ring.
    + rewrite (colrot_o B) by assumption. rewrite <- (D p q) by assumption. apply S_ext. intros. rewrite colrot_o by assumption. reflexivity.
Qed.
(** column k negated *)
Definition colneg (X : rmat) (k : nat) : rmat := fun r p => if (p =? k)%nat then - X r p else X r p.
Lemma fact_neg cnt U V B k : fact m n A G tol cnt U V B -> fact m n A G tol cnt U (colneg V k) (colneg B k).
Proof.
  intros [E FV FU FI FP]. split; [| |exact FU|exact FI|].
  - intros r c Hr Hc. replace (usv n U (colneg B k) (colneg V k) r c) with (usv n U B V r c); [apply E; assumption|]. unfold usv. apply S_ext. intros p _. apply S_ext. intros q _. unfold colneg. destruct (q =? k)%nat; ring.
  - intros i j Hi Hj. rewrite <- (FV i j Hi Hj). unfold mm, tp. apply S_ext. intros q _. unfold colneg. destruct (q =? k)%nat; ring.
  - intros Z p q Hp Hq. specialize (FP Z p q Hp Hq). unfold colneg at 2. rewrite <- FP. unfold mm at 1 3. unfold colneg. destruct (q =? k)%nat; [|reflexivity]. rewrite <- Ropp_mult_distr_l_reverse || idtac.
    replace (- Sum n (fun k0 => mm m (tp U) U p k0 * B k0 q)) with (-1 * Sum n (fun k0 => mm m (tp U) U p k0 * B k0 q)) by ring. rewrite <- S_mul_l. apply S_ext. intros. ring.
Qed.
Hypothesis rows_short : forall r, (r < m)%nat -> G r r <= 1.
Hypothesis tol_nonneg : 0 <= tol.
Lemma sq_le_1 N0 (x : nat -> R) p : (p < N0)%nat -> Sum N0 (fun k => x k * x k) <= 1 -> Rabs (x p) <= 1.
Proof.
  intros Hp H. assert (x p * x p <= 1).
  { rewrite (S_one N0 p _ Hp) in H. assert (0 <= Sum N0 (fun p0 => if (p0 =? p)%nat then 0 else x p0 * x p0)) by (apply S_nonneg; intros k _; destruct (k =? p)%nat; nra). lra. }
  apply Rabs_le. split; nra.
Qed.
Lemma fact_small cnt U V B r c p q : fact m n A G tol cnt U V B -> (r < m)%nat -> (c < n)%nat -> (p < n)%nat -> (q < n)%nat -> Rabs (U r p) <= 1 /\ Rabs (V c q) <= 1.
Proof.
  intros [E FV FU FI FP] Hr Hc Hp Hq. split.
  - apply (sq_le_1 n (fun k => U r k) p Hp). eapply Rle_trans; [|apply (rows_short r Hr)]. rewrite <- (FU r r Hr Hr). unfold mm, tp. apply Req_le. reflexivity.
  - apply (sq_le_1 n (fun k => V c k) q Hq). pose proof (FV c c Hc Hc) as K. rewrite delta_eq in K. unfold mm, tp in K. rewrite <- K. apply Req_le. reflexivity.
Qed.
(** one element of B changed by at most tol *)
Lemma fact_drop cnt U V B B' a b : (a < n)%nat -> (b < n)%nat -> Rabs (B a b - B' a b) <= tol -> (forall p q, (p < n)%nat -> (q < n)%nat -> p <> a \/ q <> b -> B' p q = B p q) ->
  fact m n A G tol cnt U V B -> fact m n A G tol (S cnt) U V B'.
Proof.
  intros Ha Hb Hd Ho F. pose proof F as [E FV FU FI FP]. split; [|exact FV|exact FU|exact FI|].
  - intros r c Hr Hc. destruct (fact_small cnt U V B r c a b F Hr Hc Ha Hb) as [S1 S2].
    assert (K : usv n U B' V r c = usv n U B V r c - U r a * (B a b - B' a b) * V c b).
    { unfold usv. rewrite (S_one n a (fun p => Sum n (fun q => U r p * B' p q * V c q)) Ha), (S_one n a (fun p => Sum n (fun q => U r p * B p q * V c q)) Ha).
      rewrite (S_one n b (fun q => U r a * B' a q * V c q) Hb), (S_one n b (fun q => U r a * B a q * V c q) Hb).
      rewrite (S_ext n (fun p => if (p =? b)%nat then 0 else U r a * B' a p * V c p) (fun p => if (p =? b)%nat then 0 else U r a * B a p * V c p)) by (intros q Hq; destruct (Nat.eqb_spec q b); [reflexivity|rewrite Ho by (try assumption; right; assumption); reflexivity]).
      rewrite (S_ext n (fun p => if (p =? a)%nat then 0 else Sum n (fun q => U r p * B' p q * V c q)) (fun p => if (p =? a)%nat then 0 else Sum n (fun q => U r p * B p q * V c q))) by (intros p Hp; destruct (Nat.eqb_spec p a); [reflexivity|apply S_ext; intros q Hq; rewrite Ho by (try assumption; left; assumption); reflexivity]). ring. }
    rewrite K. replace (A r c - (usv n U B V r c - U r a * (B a b - B' a b) * V c b)) with ((A r c - usv n U B V r c) + U r a * (B a b - B' a b) * V c b) by ring.
    eapply Rle_trans; [apply Rabs_triang|]. rewrite S_INR. rewrite Rmult_plus_distr_r, Rmult_1_l. apply Rplus_le_compat; [apply E; assumption|]. rewrite !Rabs_mult.
    pose proof (Rabs_pos (U r a)). pose proof (Rabs_pos (V c b)). pose proof (Rabs_pos (B a b - B' a b)).
    assert (Rabs (U r a) * Rabs (B a b - B' a b) <= tol) by nra. assert (0 <= Rabs (U r a) * Rabs (B a b - B' a b)) by nra. nra.
  - intros Z. assert (Ed : B' a b = B a b). { rewrite Z in Hd. pose proof (Rabs_pos (B a b - B' a b)). assert (Q : Rabs (B a b - B' a b) = 0) by lra. destruct (Req_dec (B a b - B' a b) 0) as [Q2|Q2]; [lra|]. apply Rabs_no_R0 in Q2. contradiction. }
    assert (HB : req n n B B'). { intros p q Hp Hq. destruct (Nat.eq_dec p a) as [->|]; [destruct (Nat.eq_dec q b) as [->|]|]; symmetry; [exact Ed|apply Ho; auto|apply Ho; auto]. }
    rewrite <- HB. apply FP, Z.
Qed.
Lemma fact_more cnt cnt' U V B : (cnt <= cnt')%nat -> fact m n A G tol cnt U V B -> fact m n A G tol cnt' U V B.
Proof. intros L [E FV FU FI FP]. split; [|exact FV|exact FU|exact FI|exact FP]. intros r c Hr Hc. eapply Rle_trans; [apply E; assumption|]. apply Rmult_le_compat_r; [exact tol_nonneg|apply le_INR; exact L]. Qed.
End F.
(** ** the code of a rotation *)
Lemma rotate_ok X m n a b c s : mrows X = m -> mcols X = n -> (a < n)%nat -> (b < n)%nat -> a <> b ->
  wp (rotate X a b c s) (fun X' => mrows X' = m /\ mcols X' = n /\ req m n (mel X') (colrot (mel X) a b c s)).
Proof.
  intros Hm Hn Ha Hb N. unfold rotate. rewrite Hm.
  eapply wp_mono; [apply (wp_for (fun k X' => mis X' m n (fun r p => if (r <? k)%nat then colrot (mel X) a b c s r p else mel X r p)))|]; [lia| | |].
  - split; [exact Hm|split; [exact Hn|]]. intros r p. destruct (Nat.ltb_spec r 0); [lia|reflexivity].
  - intros k X' Hk HX. eapply wp_mget; [exact HX|lia|exact Ha|]. eapply wp_mget; [exact HX|lia|exact Hb|]. destruct (Nat.ltb_spec k k); [lia|].
    eapply wp_mset; [exact HX|lia|exact Ha|]. intros X1 H1. eapply wp_mset_end; [exact H1|lia|exact Hb|]. intros X2 H2. eapply mis_ext; [exact H2|]. intros r p. unfold upd2, colrot. cases; subst; try contradiction; try lia; try congruence; reflexivity.
  - intros X' (H1 & H2 & H3). split; [exact H1|split; [exact H2|]]. intros r p Hr Hp. rewrite H3. destruct (Nat.ltb_spec r m); [reflexivity|lia].
Qed.
