(** * The LDL^T decomposition of Cholesky.h in floating point: what the loops compute, and the backward error. *)
From Coq Require Import Reals Lra Lia Arith Bool.
From Verif Require Import Base Alg Inst Mat SpecMat SpecForm LemMat LemOps LemHelpers ModelOps ModelChol LemChol LemCholSolve RSum ModelFl SpecFl LemFl.
Open Scope outcome_scope.
Local Open Scope R_scope.

Section C.
Variable (rnd : R -> R).
Let O := FlOps rnd.
Lemma subs_ext v v' x y x' y' k : v = v' -> (forall i, (i < k)%nat -> x i = x' i) -> (forall i, (i < k)%nat -> y i = y' i) -> subs rnd v x y k = subs rnd v' x' y' k.
Proof. intros <- Hx Hy. induction k as [|k IH]; cbn [subs]; [reflexivity|]. rewrite IH by (intros; (apply Hx || apply Hy); lia). rewrite Hx, Hy by lia. reflexivity. Qed.
Lemma fl_div_ok a b : b <> 0 -> @div R O a b = Ok (rnd (a / b)).
Proof. intros H. unfold div. cbn [feqb f0 O FlOps fdiv]. unfold R_eqb. destruct (Req_EM_T b 0); [contradiction|reflexivity]. Qed.
Lemma fl_div_bad a : @div R O a 0 = NonFinite.
Proof. unfold div. cbn [feqb f0 O FlOps fdiv]. unfold R_eqb. destruct (Req_EM_T 0 0); [reflexivity|contradiction]. Qed.

Lemma fl_chol_val (C : mat R) n row col : mrows C = n -> mcols C = n -> (row < n)%nat -> (col < n)%nat ->
  @chol_val R O C row col = Ok (subs rnd (mel C row col) (fun k => mel C k col) (fun k => mel C row k) col).
Proof.
  intros HR HC Hr Hc. unfold chol_val. rewrite mget_ok by lia. cbn [bind]. apply wp_eq.
  apply (wp_for (fun k v => v = subs rnd (mel C row col) (fun k => mel C k col) (fun k => mel C row k) k)); [lia|reflexivity|].
  intros k v Hk ->. rewrite !mget_ok by lia. reflexivity.
Qed.
(** the equations between the stored numbers after [col] columns *)
Definition fl_inv (n : nat) (a : nat -> nat -> R) (col : nat) (C : mat R) : Prop :=
  mrows C = n /\ mcols C = n /\
  (forall c, (c < col)%nat -> mel C c c <> 0) /\
  (forall r c, (c < col)%nat -> (c < r < n)%nat -> mel C r c = rnd (mel C c r * rnd (1 / mel C c c))) /\
  (forall r c, (c < col)%nat -> (c <= r < n)%nat -> mel C c r = subs rnd (a r c) (fun k => mel C k c) (fun k => mel C r k) c) /\
  (forall r c, (col <= r < n)%nat -> (col <= c < n)%nat -> mel C r c = a r c).
Definition fl_stop (n : nat) (a : nat -> nat -> R) (col : nat) (C : mat R) : Prop :=
  mrows C = n /\ mcols C = n /\
  (forall c, (c < col)%nat -> mel C c c <> 0) /\
  (forall r c, (c < col)%nat -> (c < r < n)%nat -> mel C r c = rnd (mel C c r * rnd (1 / mel C c c))) /\
  (forall r c, (c < col)%nat -> (c <= r < n)%nat -> mel C c r = subs rnd (a r c) (fun k => mel C k c) (fun k => mel C r k) c) /\
  mel C col col = 0 /\ subs rnd (a col col) (fun k => mel C k col) (fun k => mel C col k) col = 0.

Lemma fl_chol_col n a col (C : mat R) : (col < n)%nat -> fl_inv n a col C ->
  exists C' f, @chol_col R O n col (C, None) = Ok (C', f) /\
   ((f = None /\ fl_inv n a (S col) C') \/ (f = Some col /\ fl_stop n a col C')).
Proof.
  intros Hcol (HR & HC & I0 & I1 & I2 & I3). unfold chol_col. rewrite for_step by exact Hcol.
  unfold chol_row at 1. rewrite (fl_chol_val C n) by assumption. cbn [bind]. rewrite Nat.eqb_refl. rewrite mset_ok by lia. cbn [bind].
  set (w := fun r => subs rnd (mel C r col) (fun k => mel C k col) (fun k => mel C r k) col). fold (w col).
  destruct (feqb (w col) f0) eqn:E.
  - apply R_eqb_spec in E. cbn [bind]. rewrite for_id by (intros; reflexivity). cbn [bind]. eexists _, _. split; [reflexivity|]. right. split; [reflexivity|].
    unfold fl_stop. cbn [mrows mcols mel]. split; [exact HR|]. split; [exact HC|].
    assert (V : forall r c, ((r < col) \/ (c < col))%nat -> (if ((r =? col)%nat && (c =? col)%nat)%bool then w col else mel C r c) = mel C r c).
    { intros r c H. destruct (Nat.eqb_spec r col), (Nat.eqb_spec c col); cbn [andb]; try reflexivity. lia. }
    split; [|split; [|split; [|split]]].
    + intros c Hc. rewrite V by lia. apply I0. exact Hc.
    + intros r c Hc Hr. rewrite !V by lia. apply I1; assumption.
    + intros r c Hc Hr. rewrite !V by lia. rewrite (I2 r c Hc Hr). apply subs_ext; [reflexivity| |]; intros k Hk; rewrite V by lia; reflexivity.
    + rewrite !Nat.eqb_refl. cbn [andb]. exact E.
    + rewrite <- I3 by lia. transitivity (w col); [|exact E]. unfold w at 2. apply subs_ext; [reflexivity| |]; intros k Hk; rewrite V by lia; reflexivity.
  - assert (N : w col <> 0) by (intros Hn; apply R_eqb_spec in Hn; unfold O in E; cbn [feqb FlOps f0] in E; congruence).
    rewrite (fl_div_ok 1) by exact N. cbn [bind].
    set (g := fun (k i j : nat) => if ((i =? col) && (j =? col))%nat%bool then w col
        else if ((j =? col) && ((col <? i) && (i <? k)))%nat%bool then rnd (w i * rnd (1 / w col))
        else if ((i =? col) && ((col <? j) && (j <? k)))%nat%bool then w j else mel C i j).
    assert (L : wp (for_ (S col) n (@chol_row R O col) (mkmat (mrows C) (mcols C) (fun i j => if ((i =? col) && (j =? col))%nat%bool then w col else mel C i j), rnd (1 / w col), None))
       (fun s => exists C', s = (C', rnd (1 / w col), None) /\ mrows C' = n /\ mcols C' = n /\ forall i j, mel C' i j = g n i j)).
    { apply (wp_for (fun k s => exists C', s = (C', rnd (1 / w col), None) /\ mrows C' = n /\ mcols C' = n /\ forall i j, mel C' i j = g k i j)).
      - lia.
      - eexists. split; [reflexivity|]. cbn [mrows mcols mel]. split; [exact HR|]. split; [exact HC|]. intros i j. unfold g.
        destruct (Nat.eqb_spec i col), (Nat.eqb_spec j col), (Nat.ltb_spec col i), (Nat.ltb_spec i (S col)), (Nat.ltb_spec col j), (Nat.ltb_spec j (S col)); cbn [andb]; try reflexivity; lia.
      - intros k s Hk (C' & -> & R' & K' & V'). unfold chol_row. rewrite (fl_chol_val C' n) by lia. cbn [bind].
        destruct (Nat.eqb_spec k col); [lia|]. rewrite mset_ok by lia. cbn [bind]. rewrite mset_ok by (cbn [mrows mcols]; lia). cbn [bind wp].
        eexists. split; [reflexivity|]. cbn [mrows mcols mel]. split; [exact R'|]. split; [exact K'|].
        assert (W : subs rnd (mel C' k col) (fun k0 => mel C' k0 col) (fun k0 => mel C' k k0) col = w k).
        { unfold w. apply subs_ext.
          - rewrite V'. unfold g. destruct (Nat.eqb_spec k col); [lia|]. cbn [andb]. rewrite Nat.ltb_irrefl, !andb_false_r. reflexivity.
          - intros x Hx. rewrite V'. unfold g. destruct (Nat.eqb_spec x col); [lia|]. destruct (Nat.ltb_spec col x); [lia|]. rewrite !andb_false_r. cbn [andb]. reflexivity.
          - intros x Hx. rewrite V'. unfold g. destruct (Nat.eqb_spec x col); [lia|]. destruct (Nat.eqb_spec k col); [lia|]. cbn [andb]. reflexivity. }
        rewrite W. intros i j. rewrite !V'. unfold g. unfold O. cbn [fmul FlOps].
        destruct (Nat.eqb_spec i k), (Nat.eqb_spec j k), (Nat.eqb_spec i col), (Nat.eqb_spec j col); cbn [andb]; try lia; subst;
          repeat match goal with |- context [(?x <? ?y)%nat] => destruct (Nat.ltb_spec x y) end; cbn [andb]; try lia; reflexivity. }
    apply wp_ok_inv in L. destruct L as (s & Es & C' & -> & R' & K' & V'). unfold O in *. cbn [f1 FlOps] in *. rewrite Es. cbn [bind]. eexists _, _. split; [reflexivity|]. left. split; [reflexivity|].
    assert (Vl : forall r c, ((r < col) \/ (c < col))%nat -> mel C' r c = mel C r c).
    { intros r c H. rewrite V'. unfold g. destruct (Nat.eqb_spec r col), (Nat.eqb_spec c col), (Nat.ltb_spec col r), (Nat.ltb_spec col c); cbn [andb]; try reflexivity; lia. }
    assert (Vd : mel C' col col = w col) by (rewrite V'; unfold g; rewrite Nat.eqb_refl; reflexivity).
    assert (Vr : forall r, (col < r < n)%nat -> mel C' r col = rnd (w r * rnd (1 / w col)) /\ mel C' col r = w r).
    { intros r Hr. rewrite !V'. unfold g. rewrite Nat.eqb_refl. destruct (Nat.eqb_spec r col); [lia|]. destruct (Nat.ltb_spec col r), (Nat.ltb_spec r n); try lia. cbn [andb]. split; reflexivity. }
    unfold fl_inv. split; [exact R'|]. split; [exact K'|]. split; [|split; [|split]].
    + intros c Hc. destruct (Nat.eq_dec c col) as [->|]; [rewrite Vd; exact N|]. rewrite Vl by lia. apply I0. lia.
    + intros r c Hc Hr. destruct (Nat.eq_dec c col) as [->|].
      * rewrite Vd. destruct (Vr r Hr) as [-> ->]. reflexivity.
      * rewrite !Vl by lia. apply I1; lia.
    + intros r c Hc Hr. rewrite (subs_ext (a r c) (a r c) _ _ (fun k => mel C k c) (fun k => mel C r k) c) by (reflexivity || (intros k Hk; rewrite Vl by lia; reflexivity)).
      destruct (Nat.eq_dec c col) as [->|].
      * rewrite <- I3 by lia. fold (w r). destruct (Nat.eq_dec r col) as [->|]; [exact Vd|]. apply Vr. lia.
      * rewrite !Vl by lia. apply I2; lia.
    + intros r c Hr Hc. rewrite V'. unfold g. destruct (Nat.eqb_spec r col), (Nat.eqb_spec c col); try lia. cbn [andb]. apply I3; lia.
Qed.
Lemma fl_chol_compute n (A : mat R) : mrows A = n -> mcols A = n ->
  exists ch, @chol_compute R O A = Ok ch /\
   ((ch_rank ch = n /\ fl_inv n (mel A) n (ch_m ch)) \/ ((ch_rank ch < n)%nat /\ fl_stop n (mel A) (ch_rank ch) (ch_m ch))).
Proof.
  intros HR HC. unfold chol_compute. apply wp_ok_inv. apply wp_bind. rewrite HR.
  eapply wp_mono; [apply (wp_for (fun k (s : mat R * option nat) => match snd s with None => fl_inv n (mel A) k (fst s)
     | Some j => (j < n)%nat /\ fl_stop n (mel A) j (fst s) end))|].
  - lia.
  - cbn [fst snd]. unfold fl_inv. split; [exact HR|]. split; [exact HC|]. split; [lia|]. split; [lia|]. split; [lia|]. reflexivity.
  - intros k [C [j|]] Hk H; cbn [fst snd] in H.
    + cbn [chol_col wp fst snd]. exact H.
    + destruct (fl_chol_col n (mel A) k C ltac:(lia) H) as (C' & f & -> & [[-> H']|[-> H']]); cbn [wp fst snd]; [exact H'|]. split; [lia|exact H'].
  - intros [C [j|]] H; cbn [fst snd] in H; cbn [wp].
    + right. cbn [ch_rank ch_m]. exact H.
    + left. cbn [ch_rank ch_m]. destruct H as (H0 & H). split; [exact H0|]. split; [exact H0|exact H].
Qed.

(** the substitutions *)
Lemma fl_forward n (C : mat R) (v : vec R) : mrows C = n -> mcols C = n -> vlen v = n ->
  wp (for_ 0 n (fun i y =>
    val <- vget v i ;;
    val <- for_ 0 i (fun j val => x <- mget C i j ;; yj <- vget y j ;; Ok (@fsub R O val (@fmul R O x yj))) val ;;
    vset y i val) (@vnew R O n))
   (fun y => vlen y = n /\ forall i, (i < n)%nat -> vat y i = subs rnd (vat v i) (fun k => mel C i k) (vat y) i).
Proof.
  intros HR HC HV.
  eapply wp_mono; [apply (wp_for (fun k y => vlen y = n /\ forall i, (i < k)%nat -> vat y i = subs rnd (vat v i) (fun k => mel C i k) (vat y) i))|].
  - lia.
  - split; [reflexivity|lia].
  - intros i y Hi (Hl & Hy). rewrite vget_ok by lia. cbn [bind]. apply wp_bind.
    eapply wp_mono; [apply (wp_for (fun k val => val = subs rnd (vat v i) (fun k => mel C i k) (vat y) k))|].
    + lia.
    + reflexivity.
    + intros j val Hj ->. rewrite mget_ok by lia. cbn [bind]. rewrite vget_ok by lia. reflexivity.
    + intros val ->. rewrite vset_ok by lia. cbn [wp vlen vat]. split; [exact Hl|]. intros r Hr. destruct (Nat.eqb_spec r i) as [->|].
      * apply subs_ext; [reflexivity|reflexivity|]. intros k Hk. destruct (Nat.eqb_spec k i); [lia|reflexivity].
      * rewrite (Hy r) by lia. apply subs_ext; [reflexivity|reflexivity|]. intros k Hk. destruct (Nat.eqb_spec k i); [lia|reflexivity].
  - intros y (Hl & Hy). split; [exact Hl|exact Hy].
Qed.
Lemma fl_diag n (C : mat R) (y : vec R) : mrows C = n -> mcols C = n -> vlen y = n -> (forall i, (i < n)%nat -> mel C i i <> 0) ->
  exists z, for_ 0 n (fun i y => a <- vget y i ;; d <- mget C i i ;; z <- @div R O a d ;; vset y i z) y = Ok z /\ vlen z = n /\ forall i, (i < n)%nat -> vat z i = rnd (vat y i / mel C i i).
Proof.
  intros HR HC HV Hd. apply wp_ok_inv.
  eapply wp_mono; [apply (wp_for (fun k z => vlen z = n /\ (forall i, (i < k)%nat -> vat z i = rnd (vat y i / mel C i i)) /\ forall i, (k <= i)%nat -> vat z i = vat y i))|].
  - lia.
  - split; [exact HV|]. split; [lia|reflexivity].
  - intros i z Hi (H1 & H2 & H3). rewrite vget_ok by lia. cbn [bind]. rewrite mget_ok by lia. cbn [bind]. rewrite fl_div_ok by (apply Hd; lia). cbn [bind]. rewrite vset_ok by lia. cbn [wp vlen vat].
    split; [exact H1|]. split.
    + intros j Hj. destruct (Nat.eqb_spec j i) as [->|]; [rewrite H3 by lia; reflexivity|apply H2; lia].
    + intros j Hj. destruct (Nat.eqb_spec j i); [lia|apply H3; lia].
  - intros z (H1 & H2 & _). split; [exact H1|exact H2].
Qed.
Lemma fl_back n (C : mat R) (y : vec R) : mrows C = n -> mcols C = n -> vlen y = n ->
  wp (for_down n 0 (fun i result =>
    val <- vget y i ;;
    val <- for_ (S i) n (fun j val => x <- mget C j i ;; rj <- vget result j ;; Ok (@fsub R O val (@fmul R O x rj))) val ;;
    vset result i val) (@vnew R O n))
   (fun x => vlen x = n /\ forall i, (i < n)%nat -> vat x i = subs rnd (vat y i) (fun k => mel C (S i + k) i) (fun k => vat x (S i + k)%nat) (n - S i)).
Proof.
  intros HR HC HV.
  eapply wp_mono; [apply (wp_for_down (fun k x => vlen x = n /\ forall i, (k <= i < n)%nat -> vat x i = subs rnd (vat y i) (fun k => mel C (S i + k) i) (fun k => vat x (S i + k)%nat) (n - S i)))|].
  - lia.
  - split; [reflexivity|lia].
  - intros i x Hi (Hl & Hx). rewrite vget_ok by lia. cbn [bind]. apply wp_bind.
    eapply wp_mono; [apply (wp_for (fun k val => val = subs rnd (vat y i) (fun k => mel C (S i + k) i) (fun k => vat x (S i + k)%nat) (k - S i)))|].
    + lia.
    + rewrite Nat.sub_diag. reflexivity.
    + intros j val Hj ->. rewrite mget_ok by lia. cbn [bind]. rewrite vget_ok by lia. cbn [bind wp]. replace (S j - S i)%nat with (S (j - S i)) by lia. cbn [subs].
      replace (S i + (j - S i))%nat with j by lia. reflexivity.
    + intros val ->. rewrite vset_ok by lia. cbn [wp vlen vat]. split; [exact Hl|]. intros r Hr. destruct (Nat.eqb_spec r i) as [->|].
      * apply subs_ext; [reflexivity|reflexivity|]. intros k Hk. destruct (Nat.eqb_spec (S i + k) i); [lia|reflexivity].
      * rewrite (Hx r) by lia. apply subs_ext; [reflexivity|reflexivity|]. intros k Hk. destruct (Nat.eqb_spec (S r + k) i); [lia|reflexivity].
  - intros x (Hl & Hx). split; [exact Hl|]. intros i Hi. apply Hx. lia.
Qed.
Lemma fl_backsub n (ch : chol R) (v : vec R) : mrows (ch_m ch) = n -> mcols (ch_m ch) = n -> vlen v = n -> (forall i, (i < n)%nat -> mel (ch_m ch) i i <> 0) ->
  exists x y z, @chol_backsub R O ch v = Ok x /\ vlen x = n /\
    (forall i, (i < n)%nat -> y i = subs rnd (vat v i) (fun k => mel (ch_m ch) i k) y i) /\
    (forall i, (i < n)%nat -> z i = rnd (y i / mel (ch_m ch) i i)) /\
    (forall i, (i < n)%nat -> vat x i = subs rnd (z i) (fun k => mel (ch_m ch) (S i + k) i) (fun k => vat x (S i + k)%nat) (n - S i)).
Proof.
  intros HR HC HV Hd. unfold chol_backsub. rewrite HR, same_size_eq by lia. cbn [bind].
  destruct (wp_ok_inv _ _ (fl_forward n (ch_m ch) v HR HC HV)) as (y & -> & Hy & Ey). cbn [bind].
  destruct (fl_diag n (ch_m ch) y HR HC Hy Hd) as (z & -> & Hz & Ez). cbn [bind].
  destruct (wp_ok_inv _ _ (fl_back n (ch_m ch) z HR HC Hz)) as (x & -> & Hx & Ex).
  exists x, (vat y), (vat z). split; [reflexivity|]. split; [exact Hx|]. split; [exact Ey|]. split; [exact Ez|exact Ex].
Qed.
End C.
