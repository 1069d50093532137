(** * The matrix overload of gaussian_elimination works on each column of b exactly as the vector overload does, whatever the scalar arithmetic. *)
From Coq Require Import Arith Bool List Lia.
From Verif Require Import Base Alg Mat SpecMat LemMat SpecLin LemLin ModelGauss LemGauss.

(** same kind of outcome, and related values *)
Definition osim {A B} (Q : A -> B -> Prop) (x : outcome A) (y : outcome B) : Prop :=
  match x with
  | Ok a => exists b, y = Ok b /\ Q a b
  | UB => y = UB | Abort d => y = Abort d | NonFinite => y = NonFinite | CompileError => y = CompileError | OutOfFuel => y = OutOfFuel
  end.
Lemma osim_bind {A B C D} (Q : A -> B -> Prop) (T : C -> D -> Prop) x y f g : osim Q x y -> (forall a b, Q a b -> osim T (f a) (g b)) -> osim T (bind x f) (bind y g).
Proof. intros H K. destruct x; cbn [osim] in H; try (rewrite H; reflexivity). destruct H as (b & -> & Hq). cbn [bind]. apply K. exact Hq. Qed.
Lemma osim_same {A} (x : outcome A) : osim eq x x.
Proof. destruct x; cbn [osim]; try reflexivity. eexists. split; reflexivity. Qed.
Lemma osim_for {A B} (Q : A -> B -> Prop) lo hi f g x y : Q x y -> (forall i a b, lo <= i < hi -> Q a b -> osim Q (f i a) (g i b)) -> osim Q (for_ lo hi f x) (for_ lo hi g y).
Proof.
  intros H K. unfold for_. assert (G : forall k i x y, lo <= i -> i + k <= hi \/ k = 0 -> Q x y -> osim Q (for_up k i f x) (for_up k i g y)).
  { induction k as [|k IH]; intros i x0 y0 Hi Hk Hq; cbn [for_up]; [exists y0; split; [reflexivity|exact Hq]|].
    apply (osim_bind Q); [apply K; [lia|exact Hq]|]. intros a b Hab. apply IH; [lia|lia|exact Hab]. }
  apply G; [lia|lia|exact H].
Qed.
Lemma osim_ok {A B} (Q : A -> B -> Prop) a b : Q a b -> osim Q (Ok a) (Ok b).
Proof. intros H. exists b. split; [reflexivity|exact H]. Qed.

Section L.
Context {F : Type} {Fo : Ops F}.
Variables (n q k : nat).
Hypothesis Hk : k < q.
(** v is column k of m *)
Definition iscol (m : mat F) (v : vec F) : Prop := (mrows m = n /\ mcols m = q) /\ vlen v = n /\ forall r, r < n -> vat v r = mel m r k.
Lemma col_swap m v i p : iscol m v -> i < n -> p < n -> i <> p -> osim iscol (mb_swap m i p) (vswap v i p).
Proof.
  intros (H1 & H2 & H3) Hi Hp Hip. destruct (m_swap n q m i p H1 Hi Hp Hip) as (m' & -> & M1 & M2). destruct (v_swap n v i p H2 Hi Hp Hip) as (v' & -> & V1 & V2).
  apply osim_ok. split; [exact M1|]. split; [exact V1|]. intros r Hr. rewrite M2 by assumption. rewrite (V2 r 0) by lia. apply H3. apply swp_lt; assumption.
Qed.
Lemma col_scale m v i f : iscol m v -> i < n -> osim iscol (mb_scale m i f) (vb_scale v i f).
Proof.
  intros (H1 & H2 & H3) Hi. destruct (m_scale n q m i f H1 Hi) as (m' & -> & M1 & M2). destruct (v_scale n v i f H2 Hi) as (v' & -> & V1 & V2).
  apply osim_ok. split; [exact M1|]. split; [exact V1|]. intros r Hr. rewrite M2 by assumption. rewrite (V2 r 0) by lia. rewrite !H3 by assumption. reflexivity.
Qed.
Lemma col_sub m v u i f : iscol m v -> i < n -> u < n -> u <> i -> osim iscol (mb_sub m u i f) (vb_sub v u i f).
Proof.
  intros (H1 & H2 & H3) Hi Hu Hui. destruct (m_sub n q m u i f H1 Hi Hu Hui) as (m' & -> & M1 & M2). destruct (v_sub n v u i f H2 Hi Hu Hui) as (v' & -> & V1 & V2).
  apply osim_ok. split; [exact M1|]. split; [exact V1|]. intros r Hr. rewrite M2 by assumption. rewrite (V2 r 0) by lia. rewrite !H3 by assumption. reflexivity.
Qed.
Definition colst (s : mat F * mat F) (t : mat F * vec F) : Prop := fst s = fst t /\ iscol (snd s) (snd t).
Lemma find_pivot_range (A : mat F) i p : i < n -> find_pivot A n i = Ok p -> i <= p < n.
Proof.
  intros Hi H. unfold find_pivot in H. destruct (mget A i i) as [x| | | | |]; try discriminate. cbn [bind] in H.
  match type of H with bind ?f _ = _ => assert (W : wlp f (fun s => i <= fst s < n)) end.
  { apply (wlp_for (fun _ s => i <= fst s < n)); [lia|cbn; lia|]. intros j [p' x'] Hj Hp. cbn [fst] in Hp. destruct (mget A j i); cbn [bind wlp]; try exact I. destruct (fltb _ _); cbn [fst]; lia. }
  match type of H with bind ?f _ = _ => destruct f as [s| | | | |] end; try discriminate. cbn [bind] in H. injection H as <-. exact W.
Qed.
Lemma col_step (A : mat F) m v i : i < n -> iscol m v -> osim colst (ge_step mb_swap mb_scale mb_sub n i (A, m)) (ge_step vswap vb_scale vb_sub n i (A, v)).
Proof.
  intros Hi Hc. unfold ge_step. destruct (find_pivot A n i) as [p| | | | |] eqn:Ep; try reflexivity. cbn [bind]. pose proof (find_pivot_range A i p Hi Ep) as Hp.
  apply (osim_bind eq); [apply osim_same|]. intros piv ? <-. apply (osim_bind eq); [apply osim_same|]. intros inv ? <-.
  apply (osim_bind colst).
  { destruct (Nat.eqb_spec p i) as [->|Hpi]; [apply osim_ok; split; [reflexivity|exact Hc]|]. apply (osim_bind eq); [apply osim_same|]. intros A1 ? <-.
    apply (osim_bind iscol); [apply col_swap; [exact Hc|lia..]|]. intros m1 v1 Hc1. apply osim_ok. split; [reflexivity|exact Hc1]. }
  intros [A1 m1] [A1' v1] [E Hc1]. cbn [fst snd] in E, Hc1. subst A1'. apply (osim_bind eq); [apply osim_same|]. intros A2 ? <-.
  apply (osim_bind iscol); [apply col_scale; [exact Hc1|exact Hi]|]. intros m2 v2 Hc2.
  apply osim_for; [split; [reflexivity|exact Hc2]|]. intros u [A3 m3] [A3' v3] Hu [E Hc3]. cbn [fst snd] in E, Hc3. subst A3'.
  apply (osim_bind eq); [apply osim_same|]. intros f ? <-. apply (osim_bind eq); [apply osim_same|]. intros A4 ? <-.
  apply (osim_bind iscol); [apply col_sub; [exact Hc3|lia..]|]. intros m4 v4 Hc4. apply osim_ok. split; [reflexivity|exact Hc4].
Qed.
Lemma col_elim (A : mat F) m v : iscol m v -> osim colst (ge_elim mb_swap mb_scale mb_sub n A m) (ge_elim vswap vb_scale vb_sub n A v).
Proof.
  intros Hc. unfold ge_elim. apply osim_for; [split; [reflexivity|exact Hc]|]. intros i [A1 m1] [A1' v1] Hi [E Hc1]. cbn [fst snd] in E, Hc1. subst A1'. apply col_step; [lia|exact Hc1].
Qed.
End L.

(** v - x(0)y(0) - x(1)y(1) - ..., in the scalar arithmetic *)
Section BS.
Context {F : Type} {Fo : Ops F}.
Fixpoint gsubs (v : F) (x y : nat -> F) (k : nat) : F := match k with O => v | S j => fsub (gsubs v x y j) (fmul (x j) (y j)) end.
Lemma gsubs_ext v v' x y x' y' k : v = v' -> (forall i, (i < k)%nat -> x i = x' i) -> (forall i, (i < k)%nat -> y i = y' i) -> gsubs v x y k = gsubs v' x' y' k.
Proof. intros -> Hx Hy. induction k as [|k IH]; [reflexivity|]. cbn [gsubs]. rewrite IH by (intros; (apply Hx || apply Hy); lia). rewrite Hx, Hy by lia. reflexivity. Qed.
(** back substitution *)
Lemma bs_vec_ok n (A : mat F) (b : vec F) : mrows A = n -> mcols A = n -> vlen b = n ->
  exists x, backsub_vec n A b = Ok x /\ vlen x = n /\
    forall i, (i < n)%nat -> vat x i = gsubs (vat b i) (fun k => mel A i (S i + k)%nat) (fun k => vat x (S i + k)%nat) (n - S i).
Proof.
  intros HR HC HB. unfold backsub_vec. apply wp_ok_inv.
  eapply wp_mono; [apply (wp_for_down (fun k x => vlen x = n /\ forall i, (k <= i < n)%nat ->
     vat x i = gsubs (vat b i) (fun k => mel A i (S i + k)%nat) (fun k => vat x (S i + k)%nat) (n - S i)))|].
  - lia.
  - split; [reflexivity|]. lia.
  - intros i x Hi (Hl & Hx). rewrite vget_ok by lia. cbn [bind]. rewrite vset_ok by lia. cbn [bind].
    eapply wp_mono; [apply (wp_for (fun k y => vlen y = n /\ (forall c, c <> i -> vat y c = vat x c) /\
       vat y i = gsubs (vat b i) (fun k => mel A i (S i + k)%nat) (fun k => vat x (S i + k)%nat) (k - S i)))|].
    + lia.
    + cbn [vlen vat]. split; [exact Hl|]. split; [intros c Hc; destruct (Nat.eqb_spec c i); [lia|reflexivity]|].
      rewrite Nat.eqb_refl, Nat.sub_diag. reflexivity.
    + intros j y Hj (H1 & H2 & H3). rewrite mget_ok by lia. cbn [bind]. rewrite !vget_ok by lia. cbn [bind]. rewrite vset_ok by lia. cbn [wp vlen vat].
      split; [exact H1|]. split; [intros c Hc; destruct (Nat.eqb_spec c i); [lia|apply H2; exact Hc]|].
      rewrite Nat.eqb_refl. replace (S j - S i)%nat with (S (j - S i)) by lia. cbn [gsubs]. replace (S i + (j - S i))%nat with j by lia.
      rewrite <- H3. rewrite (H2 j) by lia. reflexivity.
    + intros y (H1 & H2 & H3). split; [exact H1|]. intros r Hr. destruct (Nat.eq_dec r i) as [->|].
      * rewrite H3. apply gsubs_ext; [reflexivity|reflexivity|]. intros j Hj. rewrite H2 by lia. reflexivity.
      * rewrite (H2 r) by assumption. rewrite Hx by lia. apply gsubs_ext; [reflexivity|reflexivity|]. intros j Hj. rewrite H2 by lia. reflexivity.
  - intros x (Hl & Hx). split; [exact Hl|]. intros r Hr. apply Hx. lia.
Qed.
Lemma bs_mat_ok n q (A b : mat F) : mrows A = n -> mcols A = n -> mrows b = n -> mcols b = q ->
  exists x, backsub_mat n A b = Ok x /\ mrows x = n /\ mcols x = q /\
    forall i c, (i < n)%nat -> (c < q)%nat -> mel x i c = gsubs (mel b i c) (fun k => mel A i (S i + k)%nat) (fun k => mel x (S i + k)%nat c) (n - S i).
Proof.
  intros HR HC HB1 HB2. unfold backsub_mat. apply wp_ok_inv. rewrite HB1, HB2.
  eapply wp_mono; [apply (wp_for_down (fun k x => mrows x = n /\ mcols x = q /\ forall i c, (k <= i < n)%nat -> (c < q)%nat ->
     mel x i c = gsubs (mel b i c) (fun k => mel A i (S i + k)%nat) (fun k => mel x (S i + k)%nat c) (n - S i)))|].
  - lia.
  - split; [reflexivity|]. split; [reflexivity|]. lia.
  - intros i x Hi (Hl1 & Hl2 & Hx).
    eapply wp_mono; [apply (wp_for (fun kc y => mrows y = n /\ mcols y = q /\ (forall r c, r <> i -> mel y r c = mel x r c) /\
       forall c, (c < kc)%nat -> mel y i c = gsubs (mel b i c) (fun k => mel A i (S i + k)%nat) (fun k => mel x (S i + k)%nat c) (n - S i)))|].
    + lia.
    + split; [exact Hl1|]. split; [exact Hl2|]. split; [reflexivity|]. lia.
    + intros kc y Hkc (Y1 & Y2 & Y3 & Y4). rewrite mget_ok by lia. cbn [bind]. rewrite mset_ok by lia. cbn [bind].
      eapply wp_mono; [apply (wp_for (fun k z => mrows z = n /\ mcols z = q /\ (forall r c, r <> i -> mel z r c = mel x r c) /\
        (forall c, c <> kc -> mel z i c = mel y i c) /\
        mel z i kc = gsubs (mel b i kc) (fun k => mel A i (S i + k)%nat) (fun k => mel x (S i + k)%nat kc) (k - S i)))|].
      * lia.
      * cbn [mrows mcols mel]. split; [exact Y1|]. split; [exact Y2|]. split; [|split].
        -- intros r c Hr. destruct (Nat.eqb_spec r i); [lia|]. apply Y3. exact Hr.
        -- intros c Hc. destruct (Nat.eqb_spec c kc); [lia|]. rewrite andb_false_r. reflexivity.
        -- rewrite !Nat.eqb_refl, Nat.sub_diag. reflexivity.
      * intros j z Hj (H1 & H2 & H3 & H4 & H5). rewrite !mget_ok by lia. cbn [bind]. rewrite mset_ok by lia. cbn [wp mrows mcols mel].
        split; [exact H1|]. split; [exact H2|]. split; [|split].
        -- intros r c Hr. destruct (Nat.eqb_spec r i); [lia|]. apply H3. exact Hr.
        -- intros c Hc. destruct (Nat.eqb_spec c kc); [lia|]. rewrite andb_false_r. apply H4. exact Hc.
        -- rewrite !Nat.eqb_refl. cbn [andb]. replace (S j - S i)%nat with (S (j - S i)) by lia. cbn [gsubs]. replace (S i + (j - S i))%nat with j by lia.
           rewrite <- H5. rewrite (H3 j) by lia. reflexivity.
      * intros z (H1 & H2 & H3 & H4 & H5). split; [exact H1|]. split; [exact H2|]. split; [exact H3|].
        intros c Hc. destruct (Nat.eq_dec c kc) as [->|]; [exact H5|]. rewrite H4 by assumption. apply Y4. lia.
    + intros y (Y1 & Y2 & Y3 & Y4). split; [exact Y1|]. split; [exact Y2|]. intros r c Hr Hc. destruct (Nat.eq_dec r i) as [->|].
      * rewrite (Y4 c Hc). apply gsubs_ext; [reflexivity|reflexivity|]. intros j Hj. rewrite Y3 by lia. reflexivity.
      * rewrite (Y3 r) by assumption. rewrite Hx by (lia || exact Hc). apply gsubs_ext; [reflexivity|reflexivity|]. intros j Hj. rewrite Y3 by lia. reflexivity.
  - intros x (Hl & Hl2 & Hx). split; [exact Hl|]. split; [exact Hl2|]. intros i c Hi Hc. apply Hx; [lia|exact Hc].
Qed.
End BS.

Section D.
Context {F : Type} {Fo : Ops F}.
Definition dims (n m : nat) (A : mat F) : Prop := mrows A = n /\ mcols A = m.
Lemma mset_dims n m (A : mat F) i j v : dims n m A -> wlp (mset A i j v) (dims n m).
Proof. intros H. unfold mset. destruct (_ && _)%bool; cbn [wlp]; [exact H|exact I]. Qed.
Lemma ge_elim_dims n q (A m : mat F) : mrows A = n -> mcols A = n -> mrows m = n /\ mcols m = q ->
  wlp (ge_elim mb_swap mb_scale mb_sub n A m) (fun s => dims n n (fst s) /\ True).
Proof.
  intros HR HC HM. unfold ge_elim. apply (wlp_for (fun _ s => dims n n (fst s) /\ True)); [lia|split; [split; assumption|exact I]|].
  intros i [A1 m1] Hi [H _]. cbn [fst] in H. unfold ge_step. apply wlp_bind. destruct (find_pivot A1 n i); cbn [wlp]; try exact I. apply wlp_bind. destruct (mget _ _ _); cbn [wlp]; try exact I.
  apply wlp_bind. destruct (div _ _); cbn [wlp]; try exact I. apply wlp_bind.
  apply (wlp_mono _ (fun s => dims n n (fst s))).
  { destruct (_ =? _); cbn [wlp]; [exact H|]. apply wlp_bind. apply (wlp_mono _ (dims n n)).
    - apply (wlp_for (fun _ => dims n n)); [lia|exact H|]. intros j A2 Hj H2. unfold mswap. destruct (mget A2 _ _); cbn [bind wlp]; try exact I. destruct (mget A2 _ _); cbn [bind wlp]; try exact I.
      apply wlp_bind. eapply wlp_mono; [apply (mset_dims n n); exact H2|]. intros A3 H3. apply mset_dims. exact H3.
    - intros A2 H2. apply wlp_bind. destruct (mb_swap _ _ _); cbn [wlp]; try exact I. exact H2. }
  intros [A2 m2] H2. cbn [fst] in H2. apply wlp_bind. apply (wlp_mono _ (dims n n)).
  { apply (wlp_for (fun _ => dims n n)); [lia|exact H2|]. intros j A3 Hj H3. destruct (mget A3 _ _); cbn [bind wlp]; try exact I. apply mset_dims. exact H3. }
  intros A3 H3. apply wlp_bind. destruct (mb_scale _ _ _); cbn [wlp]; try exact I.
  apply (wlp_for (fun _ s => dims n n (fst s) /\ True)); [lia|split; [exact H3|exact I]|]. intros w [A4 m4] Hw [H4 _]. cbn [fst] in H4. apply wlp_bind. destruct (mget _ _ _); cbn [wlp]; try exact I.
  apply wlp_bind. apply (wlp_mono _ (dims n n)).
  { apply (wlp_for (fun _ => dims n n)); [lia|exact H4|]. intros j A5 Hj H5. destruct (mget A5 _ _); cbn [bind wlp]; try exact I. destruct (mget A5 _ _); cbn [bind wlp]; try exact I. apply mset_dims. exact H5. }
  intros A5 H5. apply wlp_bind. destruct (mb_sub _ _ _ _); cbn [wlp]; try exact I. split; [exact H5|exact I].
Qed.
End D.

Section T.
Context {F : Type} {Fo : Ops F}.
Lemma gaussian_columns n q k (A m : mat F) : mrows A = n -> mcols A = n -> mrows m = n -> mcols m = q -> (k < q)%nat ->
  osim (fun X x => mrows X = n /\ mcols X = q /\ vlen x = n /\ forall i, (i < n)%nat -> vat x i = mel X i k) (gaussian_elimination_mat A m) (gaussian_elimination A (mkvec n (fun i => mel m i k))).
Proof.
  intros HR HC HB HQ Hk. unfold gaussian_elimination_mat, gaussian_elimination. rewrite HR, HC, HB, !same_size_ok. cbn [bind vlen].
  assert (I0 : iscol n q k m (mkvec n (fun i => mel m i k))) by (split; [split; assumption|]; split; reflexivity).
  pose proof (col_elim n q k Hk A m _ I0) as S0.
  destruct (ge_elim mb_swap mb_scale mb_sub n A m) as [[A1 m1]| | | | |] eqn:E1; cbn [osim] in S0; try (rewrite S0; reflexivity).
  destruct S0 as ([A1' v1] & E2 & E & (HM1 & HM2) & HV & HC1). rewrite E2. cbn [fst snd bind] in *. subst A1'.
  assert (D : mrows A1 = n /\ mcols A1 = n). { pose proof (ge_elim_dims n q A m HR HC (conj HB HQ)) as W. rewrite E1 in W. exact (proj1 W). }
  destruct D as [D1 D2]. destruct (bs_mat_ok n q A1 m1 D1 D2 HM1 HM2) as (X & -> & X1 & X2 & X3). destruct (bs_vec_ok n A1 v1 D1 D2 HV) as (x & -> & x1 & x2).
  apply osim_ok. split; [exact X1|]. split; [exact X2|]. split; [exact x1|]. intros i Hi.
  assert (G : forall d i, (i < n)%nat -> (n - i <= d)%nat -> vat x i = mel X i k).
  { induction d as [|d IH]; intros j Hj Hd; [lia|]. rewrite x2, X3 by assumption. apply gsubs_ext; [apply HC1; exact Hj|reflexivity|]. intros c Hc. apply IH; lia. }
  apply (G n); lia.
Qed.
End T.
