(** * Lemmas about determinant.h. *)
From Coq Require Import Arith Bool List Lia Field.
From Verif Require Import Base Alg Mat SpecMat LemMat SpecLin LemLin ModelGauss LemGauss LemDet.

Section L.
Context {F : Type} {Fo : Ops F} {Fl : Laws F}.
Add Field Ff : law_field.
Open Scope F_scope.

Lemma det_step_ok n (A0 : F) (A : mat F) d i : (i < n)%nat -> mrows A = n -> mcols A = n ->
  A0 = d * det (n - i) (fun r c => mel A (i + r) (i + c)) ->
  wp (det_step n i (A, d, false)) (fun s => let '(A', d', fin) := s in mrows A' = n /\ mcols A' = n /\
     if fin then d' = 0 /\ A0 = 0 else A0 = d' * det (n - S i) (fun r c => mel A' (S i + r) (S i + c))).
Proof.
  intros Hi HR HC HD. unfold det_step. destruct (find_pivot_ok A n i) as (p & Ep & Hp & Hm); [lia..|]. rewrite Ep. cbn [bind]. rewrite mget_ok by lia. cbn [bind].
  assert (Sw : exists A1 d1, (if (p =? i)%nat then Ok (A, d) else
     (A <- for_ i n (fun j A => mswap A i p j) A ;; Ok (A, d * - (1)))%outcome) = Ok (A1, d1) /\ mrows A1 = n /\ mcols A1 = n /\ mel A1 i i = mel A p i /\
     (forall r, (i <= r < n)%nat -> fabs (mel A1 r i) <= fabs (mel A1 i i)) /\
     A0 = d1 * det (n - i) (fun r c => mel A1 (i + r) (i + c))).
  { destruct (Nat.eqb_spec p i) as [->|Hpi].
    - exists A, d. split; [reflexivity|]. split; [exact HR|]. split; [exact HC|]. split; [reflexivity|]. split; [exact Hm|]. exact HD.
    - destruct (row_swap i n i p (fun j A => mswap A i p j) A) as (A1 & E1 & R1 & C1 & V1); [lia..|reflexivity|].
      rewrite E1. cbn [bind]. exists A1, (d * - (1)). split; [reflexivity|]. split; [lia|]. split; [lia|].
      assert (V : forall r c, (i <= c < n)%nat -> mel A1 r c = mel A (swp i p r) c).
      { intros r c Hc. rewrite V1. destruct (Nat.leb_spec i c), (Nat.ltb_spec c n); try lia. reflexivity. }
      assert (Hpi' : swp i p i = p) by (unfold swp; rewrite Nat.eqb_refl; reflexivity).
      split; [rewrite V, Hpi' by lia; reflexivity|]. split.
      + intros r Hr. rewrite !V, Hpi' by lia. apply Hm. unfold swp. destruct (Nat.eqb_spec r i), (Nat.eqb_spec r p); lia.
      + rewrite HD. rewrite (det_ext (n - i) (fun r c => mel A1 (i + r) (i + c)) (fun r c => mel A (i + swp 0 (p - i) r) (i + c))).
        * pose proof (det_swap (n - i) 0 (p - i) (fun r c => mel A (i + r) (i + c)) ltac:(lia) ltac:(lia)) as E. cbv beta in E. rewrite E. ring.
        * intros r c Hr Hc. rewrite V by lia. f_equal. unfold swp. destruct (Nat.eqb_spec (i + r) i), (Nat.eqb_spec (i + r) p), (Nat.eqb_spec r 0), (Nat.eqb_spec r (p - i)); lia. }
  destruct Sw as (A1 & d1 & -> & R1 & C1 & V1 & Hm1 & HD1). cbn [bind]. rewrite mget_ok by lia. cbn [bind]. rewrite <- V1.
  replace (n - i)%nat with (S (n - S i)) in HD1 by lia.
  destruct (feqb (d1 * mel A1 i i) 0) eqn:Z.
  - apply law_eqb in Z. cbn [wp]. split; [exact R1|]. split; [exact C1|]. split; [reflexivity|]. apply mul_zero in Z. destruct Z as [Z|Z].
    + rewrite HD1, Z. ring.
    + rewrite HD1. rewrite det_zero_col; [ring|]. intros r Hr. rewrite Nat.add_0_r. apply (pivot_zero _ (mel A1 i i)); [apply Hm1; lia|exact Z].
  - assert (Hnz : mel A1 i i <> 0).
    { intros E. rewrite E in Z. replace (d1 * 0) with (0:F) in Z by ring. rewrite eqb_refl in Z. discriminate. }
    apply wp_bind. eapply wp_mono; [apply (wp_for (fun u A2 => mrows A2 = n /\ mcols A2 = n /\
      forall r c, (r < n)%nat -> (c < n)%nat -> mel A2 r c = if ((i <? r)%nat && (r <? u)%nat) && (i <? c)%nat then mel A1 r c - mel A1 r i / mel A1 i i * mel A1 i c else mel A1 r c))|].
    + lia.
    + split; [exact R1|]. split; [exact C1|]. intros r c _ _. destruct (Nat.ltb_spec i r), (Nat.ltb_spec r (S i)); try lia; reflexivity.
    + intros u A2 Hu (R2 & C2 & V2). rewrite mget_ok by lia. cbn [bind]. rewrite div_ok by exact Hnz. cbn [bind].
      assert (V2i : forall c, (c < n)%nat -> mel A2 i c = mel A1 i c) by (intros c Hc; rewrite V2 by lia; rewrite Nat.ltb_irrefl; reflexivity).
      assert (V2u : forall c, (c < n)%nat -> mel A2 u c = mel A1 u c) by (intros c Hc; rewrite V2 by lia; rewrite Nat.ltb_irrefl, andb_false_r; reflexivity).
      rewrite V2u by lia. set (f := mel A1 u i / mel A1 i i).
      destruct (row_loop (S i) n u (fun j A => x <- mget A u j ;; y <- mget A i j ;; mset A u j (x - f * y)) A2 (fun j => mel A1 u j - f * mel A1 i j)) as (A3 & E3 & R3 & C3 & V3); [lia..| |].
      { intros j m' Hj Rm Cm Hm'. rewrite !mget_ok by lia. cbn [bind]. rewrite !Hm' by lia. rewrite V2i, V2u by lia. reflexivity. }
      rewrite E3. cbn [wp]. split; [lia|]. split; [lia|]. intros r c Hr Hc. rewrite V3, V2 by lia.
      destruct (Nat.eqb_spec r u), (Nat.ltb_spec i r), (Nat.ltb_spec r u), (Nat.ltb_spec r (S u)), (Nat.leb_spec (S i) c), (Nat.ltb_spec i c), (Nat.ltb_spec c n); try lia; cbn [andb]; subst; reflexivity.
    + intros A2 (R2 & C2 & V2). cbn [wp]. split; [exact R2|]. split; [exact C2|]. rewrite HD1.
      rewrite (det_elim (n - S i) _ (fun r => mel A1 (S i + r) i / mel A1 i i)).
      * rewrite !Nat.add_0_r. rewrite (det_ext (n - S i) (fun r c => mel A2 (S i + r) (S i + c)) (fun r c => mel A1 (i + S r) (i + S c) - mel A1 (S i + r) i / mel A1 i i * mel A1 i (i + S c))); [ring|].
        intros r c Hr Hc. rewrite V2 by lia. destruct (Nat.ltb_spec i (S i + r)), (Nat.ltb_spec (S i + r) n), (Nat.ltb_spec i (S i + c)); try lia. cbn [andb].
        replace (i + S r)%nat with (S i + r)%nat by lia. replace (i + S c)%nat with (S i + c)%nat by lia. reflexivity.
      * intros r Hr. rewrite !Nat.add_0_r. replace (i + S r)%nat with (S i + r)%nat by lia. field. exact Hnz.
Qed.
Lemma determinant_ge_ok (A : mat F) : mrows A = mcols A -> determinant_gaussian_elimination A = Ok (det (mrows A) (mel A)).
Proof.
  intros HRC. unfold determinant_gaussian_elimination. rewrite HRC at 1. rewrite same_size_ok. cbn [bind]. set (n := mrows A) in *. set (D := det n (mel A)).
  assert (W : wp (for_ 0 n (det_step n) (A, f1, false)) (fun s : mat F * F * bool => snd (fst s) = D)).
  { eapply wp_mono; [apply (wp_for (fun i (s : mat F * F * bool) => let '(A', d', fin) := s in mrows A' = n /\ mcols A' = n /\
       if fin then d' = 0 /\ D = 0 else D = d' * det (n - i) (fun r c => mel A' (i + r) (i + c))))|].
    - lia.
    - split; [reflexivity|]. split; [symmetry; exact HRC|]. rewrite Nat.sub_0_r. cbn [Nat.add]. unfold D.
      transitivity (det n (mel A)); [reflexivity|]. rewrite (det_ext n (mel A) (fun r c => mel A r c)) by reflexivity. ring.
    - intros i [[A' d'] fin] Hi (R & C & H). destruct fin.
      + cbn [det_step wp]. auto.
      + apply det_step_ok; [lia|assumption..].
    - intros [[A' d'] fin] (R & C & H). cbn [fst snd]. destruct fin; [destruct H as [-> ->]; reflexivity|].
      rewrite Nat.sub_diag in H. cbn [det] in H. rewrite H. ring. }
  apply wp_ok_inv in W. destruct W as ([[A' d'] fin] & -> & H). cbn [bind fst snd] in *. rewrite H. reflexivity.
Qed.
Lemma det_2 (a : nat -> nat -> F) : det 2 a = a 0%nat 0%nat * a 1%nat 1%nat - a 1%nat 0%nat * a 0%nat 1%nat.
Proof. unfold det, sum, sgn, skip. cbn [Nat.even Nat.ltb Nat.leb]. ring. Qed.
Lemma determinant_ok (A : mat F) : mrows A = mcols A -> determinant A = Ok (det (mrows A) (mel A)).
Proof.
  intros H. unfold determinant. rewrite same_size_eq by exact H. cbn [bind]. destruct (Nat.eqb_spec (mrows A) 2) as [E|]; [|apply determinant_ge_ok; exact H].
  rewrite !mget_ok by lia. cbn [bind]. rewrite E, det_2. reflexivity.
Qed.
End L.
