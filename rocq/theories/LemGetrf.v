(** * The reference getrf delivers what C51 assumes of LAPACK. *)
From Coq Require Import Arith Bool Lia Field.
From Verif Require Import Base Alg Mat SpecMat LemMat SpecLin LemLin ModelLU SpecLU ModelGetrf LemGetrfStep.
Open Scope outcome_scope.

Section L.
Context {F : Type} {Fo : Ops F} {Fl : Laws F}.
Open Scope F_scope.
Add Field Ff : law_field.
Lemma exchange_swp {X} i s (f : nat -> X) k : exchange i s f k = f (swp i s k).
Proof. unfold exchange, swp. destruct (k =? i)%nat, (k =? s)%nat; reflexivity. Qed.
Lemma interchanged_ext {X} piv piv' (f : nat -> X) : forall m, (forall i, (i < m)%nat -> piv' i = piv i) -> forall c, interchanged piv' m f c = interchanged piv m f c.
Proof.
  induction m as [|m IH]; intros H c; [reflexivity|]. cbn [interchanged]. rewrite !exchange_swp, H by lia. apply IH. intros; apply H; lia.
Qed.
Lemma abs0 : fabs (0 : F) = 0.
Proof. apply abs_zero. reflexivity. Qed.
Lemma abs_quot_le (x y : F) : x <> 0 -> fabs y <= fabs x -> fabs (1 / x * y) <= 1.
Proof.
  intros Nx H. assert (P : 0 < fabs x) by (apply abs_pos; exact Nx). assert (E : fabs (1 / x) * fabs x = 1).
  { rewrite <- abs_mul. replace (1 / x * x) with (1 : F) by (field; exact Nx). apply abs_pos_id. apply lt_le. apply zero_lt_one. }
  rewrite abs_mul. apply (le_trans _ (fabs (1 / x) * fabs x)); [apply mul_le_l; [apply abs_nonneg|exact H]|]. rewrite E. apply le_refl.
Qed.
(** the pivots say where it stopped being nonsingular *)
Definition info_ok (j : nat) (m : mat F) (info : option nat) : Prop :=
  match info with None => forall k, (k < j)%nat -> mel m k k <> 0 | Some i => (i < j)%nat /\ mel m i i = 0 /\ forall k, (k < i)%nat -> mel m k k <> 0 end.
Definition getrf_inv (n : nat) (A : nat -> nat -> F) (j : nat) (s : mat F * (nat -> nat) * option nat) : Prop :=
  let '(m, piv, info) := s in
  mrows m = n /\ mcols m = n /\ (forall k, (k < j)%nat -> (k <= piv k < n)%nat) /\
  (forall r c, (r < n)%nat -> (c < n)%nat -> interchanged piv j (A r) c = sum j (fun k => lower (mel m) r k * unit_upper (mel m) k c) + (if ((j <=? r)%nat && (j <=? c)%nat) then mel m r c else 0)) /\
  info_ok j m info /\ (forall k c, (k < j)%nat -> (k < c < n)%nat -> fabs (mel m k c) <= 1).

Lemma getrf_step n A j s : (j < n)%nat -> getrf_inv n A j s -> exists s', getf2_step n j s = Ok s' /\ getrf_inv n A (S j) s'.
Proof.
  intros Hj. destruct s as [[m piv] info]. intros (Hr & Hc & Hp & HV & HI & HB).
  destruct (getf2_step_ord le_refl le_trans lt_le div_ok law_eqb m piv info n j Hj Hr Hc) as (p & m' & piv' & info' & E & Pp & Pm & Pv & In & Iz & ST).
  { intros p Hpp Z Hm c Hc'. specialize (Hm c Hc'). rewrite Z, abs0 in Hm. apply abs_zero. apply le_antisym; [exact Hm|apply abs_nonneg]. }
  { apply law_irr. }
  destruct ST as (R' & C' & S1 & S2 & S3 & S4 & S5 & S6). exists (m', piv', info'). split; [exact E|].
  assert (Az : mel m j p = 0 -> forall c, (j <= c < n)%nat -> mel m j c = 0).
  { intros Z c Hc'. specialize (Pm c Hc'). rewrite Z, abs0 in Pm. apply abs_zero. apply le_antisym; [exact Pm|apply abs_nonneg]. }
  assert (Dg : forall k, (k < j)%nat -> mel m' k k = mel m k k) by (intros k Hk; apply S1; lia). assert (Dj : mel m' j j = mel m j p) by (apply S2; lia).
  assert (SW : forall c, (c < n)%nat -> (swp j p c < n)%nat /\ ((j <= swp j p c)%nat <-> (j <= c)%nat) /\ ((c < j)%nat -> swp j p c = c)).
  { intros c Hc'. unfold swp. destruct (Nat.eqb_spec c j), (Nat.eqb_spec c p); lia. }
  assert (Sj : swp j p j = p) by (unfold swp; rewrite Nat.eqb_refl; reflexivity).
  refine (conj R' (conj C' (conj _ (conj _ (conj _ _))))).
  - intros k Hk. rewrite Pv. destruct (Nat.eqb_spec k j) as [->|]; [lia|apply Hp; lia].
  - intros r c Hr' Hc'. cbn [interchanged]. rewrite exchange_swp. rewrite (interchanged_ext piv piv' (A r) j) by (intros i Hi; rewrite Pv; destruct (Nat.eqb_spec i j); [lia|reflexivity]).
    rewrite Pv, Nat.eqb_refl. destruct (SW c Hc') as (Q1 & Q2 & Q3). rewrite HV by assumption. set (c0 := swp j p c) in *.
    change (sum (S j) ?f) with (sum j f + f j). cbn beta.
    rewrite (sum_ext j (fun k => lower (mel m) r k * unit_upper (mel m) k c0) (fun k => lower (mel m') r k * unit_upper (mel m') k c)).
    2:{ intros k Hk. f_equal.
        - unfold lower. destruct (k <=? r)%nat; [|reflexivity]. symmetry. apply S1; lia.
        - unfold unit_upper. rewrite (S3 k c) by lia. fold c0. destruct (le_lt_dec j c) as [G|G]; [|rewrite (Q3 G); reflexivity].
          destruct (Nat.ltb_spec k c), (Nat.ltb_spec k c0); try lia. reflexivity. }
    rewrite <- (Ring_theory.Radd_assoc (Field_theory.F_R law_field)). f_equal. unfold lower, unit_upper.
    destruct (Nat.leb_spec j r), (Nat.leb_spec j c0), (Nat.leb_spec (S j) r), (Nat.leb_spec (S j) c), (Nat.ltb_spec j c), (Nat.eqb_spec j c); try lia; cbn [andb]; try ring.
    + rewrite (S6 r c) by lia. fold c0. rewrite (S2 r) by lia. ring.
    + subst c. rewrite (S2 r) by lia. unfold c0. rewrite Sj. ring.
    + assert (r = j) by lia. subst r. rewrite Dj. destruct (eq_dec (mel m j p) 0) as [Z|N].
      * rewrite Z, (Az Z c0) by lia. ring.
      * rewrite (S4 N c) by lia. fold c0. field. exact N.
    + subst c. rewrite (S2 r) by lia. unfold c0. rewrite Sj. ring.
  - unfold info_ok in *. destruct (eq_dec (mel m j p) 0) as [Z|N].
    + destruct (Iz Z) as (Pj & ->). destruct info as [i|].
      * destruct HI as (I1 & I2 & I3). split; [lia|]. split; [rewrite Dg by lia; exact I2|]. intros k Hk. rewrite Dg by lia. apply I3. exact Hk.
      * split; [lia|]. split; [rewrite Dj; exact Z|]. intros k Hk. rewrite Dg by lia. apply HI. exact Hk.
    + rewrite (In N). destruct info as [i|].
      * destruct HI as (I1 & I2 & I3). split; [lia|]. split; [rewrite Dg by lia; exact I2|]. intros k Hk. rewrite Dg by lia. apply I3. exact Hk.
      * intros k Hk. destruct (Nat.eq_dec k j) as [->|]; [rewrite Dj; exact N|]. rewrite Dg by lia. apply HI. lia.
  - intros k c Hk Hc'. destruct (Nat.eq_dec k j) as [->|].
    + destruct (SW c) as (Q1 & Q2 & _); [lia|]. destruct (eq_dec (mel m j p) 0) as [Z|N].
      * rewrite (S5 Z) by lia. rewrite (Az Z) by lia. rewrite abs0. apply lt_le. apply zero_lt_one.
      * rewrite (S4 N) by lia. apply abs_quot_le; [exact N|]. apply Pm. lia.
    + rewrite S3 by lia. destruct (SW c) as (Q1 & Q2 & Q3); [lia|]. apply HB; [lia|]. destruct (le_lt_dec j c); [lia|rewrite Q3 by assumption; lia].
Qed.
Lemma getrf_ok n (A : mat F) : mrows A = n -> mcols A = n -> exists m piv info, getrf n A = Ok (m, piv, info) /\ getrf_inv n (mel A) n (m, piv, info).
Proof.
  intros Hr Hc. assert (W : wp (getrf n A) (getrf_inv n (mel A) n)).
  { unfold getrf. apply (wp_for (getrf_inv n (mel A))); [lia| |].
    - refine (conj Hr (conj Hc (conj _ (conj _ (conj _ _))))); [intros; lia| |intros k Hk; lia|intros; lia].
      intros r c _ _. cbn [interchanged sum]. cbn [Nat.leb andb]. ring.
    - intros j s Hj I. destruct (getrf_step n (mel A) j s) as (s' & -> & I'); [lia|exact I|]. exact I'. }
  apply wp_ok_inv in W. destruct W as ([[m piv] info] & E & I). exists m, piv, info. split; [exact E|exact I].
Qed.
Lemma getrf_inv_factorised n A m piv info : getrf_inv n A n (m, piv, info) -> factorised n A (mklu m piv).
Proof.
  intros (Hr & Hc & Hp & HV & _). split; [exact Hr|]. split; [exact Hc|]. split; [exact Hp|]. intros r c Hr' Hc'. cbn [lu_m lu_piv]. rewrite HV by assumption.
  destruct (Nat.leb_spec n r); [lia|]. cbn [andb]. ring.
Qed.
End L.
