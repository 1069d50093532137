(** * Lapack_Cholesky: the substitutions, the inverse and the object. *)
From Coq Require Import Reals Arith Bool Lia Lra Psatz.
From Verif Require Import Base Alg Inst Mat SpecMat LemMat RSum ModelOps LemOps SpecLin LemLin LemHelpers LemDet LemDetMul LemDetMore SpecForm LemForm LemChol LemCholMore SpecExp RRect LemGR ModelLU SpecLU LemLU ModelLapackChol SpecLapackChol LemLapackChol.
Open Scope outcome_scope.
Local Open Scope R_scope.

Lemma fwd_trsm n W b : mrows W = n -> mcols W = n -> potrs_fwd W b = trsm_upper (tr W) b.
Proof.
  intros HR HC. unfold potrs_fwd, trsm_upper. cbn [tr mrows]. rewrite HR, HC. apply for_ext. intros i y Hi. rewrite bind_assoc.
  destruct (vget y i) as [x| | | | |]; try reflexivity. cbn [bind]. unfold fget.
  rewrite (for_ext 0 i _ (fun k acc => a <- mget (tr W) i k ;; z <- vget y k ;; Ok (acc - a * z)) x).
  2:{ intros k s Hk. rewrite (mget_ok W) by lia. rewrite (mget_ok (tr W)) by (cbn [tr mrows mcols]; lia). reflexivity. }
  change (fun (k : nat) (acc : R) => a <- mget (tr W) i k;; z <- vget y k;; Ok (fsub acc (fmul a z))) with (fun (k : nat) (acc : R) => a <- mget (tr W) i k;; z <- vget y k;; Ok (acc - a * z)).
  destruct (for_ 0 i _ x); try reflexivity. cbn [bind]. rewrite (mget_ok W) by lia. rewrite (mget_ok (tr W)) by (cbn [tr mrows mcols]; lia). reflexivity.
Qed.
Lemma fwd_ok n W v b : mis W n n v -> vlen b = n -> (forall i, (i < n)%nat -> v i i <> 0) ->
  exists y, potrs_fwd W b = Ok y /\ vlen y = n /\ forall i, (i < n)%nat -> Sum n (fun k => Lof v i k * vat y k) = vat b i.
Proof.
  intros (HR & HC & HE) Hb Hd. rewrite (fwd_trsm n) by assumption.
  destruct (trsm_upper_ok n (tr W) b) as (y & E & L & S); [exact HC|exact HR|exact Hb|intros i Hi; cbn [tr mel]; rewrite HE; apply Hd; exact Hi|].
  exists y. split; [exact E|]. split; [exact L|]. intros i Hi. rewrite <- (S i Hi). apply S_ext. intros k Hk. unfold Lof, lower. cbn [tr mel].
  destruct (Nat.leb_spec k i); [rewrite HE; reflexivity|reflexivity].
Qed.
Lemma fwd_bad n W v b i : mis W n n v -> vlen b = n -> (i < n)%nat -> v i i = 0 -> (forall k, (k < i)%nat -> v k k <> 0) -> potrs_fwd W b = NonFinite.
Proof.
  intros (HR & HC & HE) Hb Hi Z Nz. rewrite (fwd_trsm n) by assumption. apply (trsm_upper_bad n (tr W) b i); cbn [tr mrows mcols mel]; try assumption.
  - rewrite HE. exact Z.
  - intros k Hk. rewrite HE. apply Nz. exact Hk.
Qed.
Lemma from_first n i f : (i < n)%nat -> Sum n (from i f) = f i + Sum n (from (i + 1) f).
Proof.
  intros Hi. rewrite (S_one n i) by exact Hi. rewrite from_in by lia. f_equal.
  apply S_ext. intros k Hk. unfold from. destruct (Nat.leb_spec i k), (Nat.leb_spec (i + 1) k), (Nat.eqb_spec k i); try lia; reflexivity.
Qed.
Lemma bwd_ok n W v b : mis W n n v -> vlen b = n -> (forall i, (i < n)%nat -> v i i <> 0) ->
  exists y, potrs_bwd W b = Ok y /\ vlen y = n /\ forall i, (i < n)%nat -> Sum n (fun k => Lof v k i * vat y k) = vat b i.
Proof.
  intros HW Hb Hd. assert (HW0 := HW). destruct HW0 as (HR & HC & HE). apply wp_ok_inv. unfold potrs_bwd. rewrite HR.
  eapply wp_mono; [apply (wp_for_down (fun i y => vlen y = n /\ (forall k, (k < i)%nat -> vat y k = vat b k) /\ forall k, (i <= k < n)%nat -> Sum n (from k (fun j => v k j * vat y j)) = vat b k))|].
  - lia.
  - split; [exact Hb|]. split; [reflexivity|lia].
  - intros i y Hi (Y1 & Y2 & Y3). rewrite vget_ok by lia. cbn [bind]. unfold fget.
    rewrite (for_sum (i + 1) n _ (fun k => - (v i k * vat y k)) (vat y i)).
    2:{ intros k s Hk. rewrite mget_ok, vget_ok by lia. cbn [bind]. rewrite HE. reflexivity. }
    cbn [bind]. eapply wp_mget; [exact HW|lia|lia|]. apply wp_div; [apply Hd; lia|]. rewrite vset_ok by lia. cbn [wp vlen vat].
    split; [exact Y1|]. split.
    + intros k Hk. destruct (Nat.eqb_spec k i); [lia|]. apply Y2. lia.
    + intros k Hk. set (q := (_ / v i i)).
      destruct (Nat.eq_dec k i) as [->|Nk].
      * rewrite from_first by lia. rewrite Nat.eqb_refl.
        rewrite (S_ext n (from (i + 1) _) (from (i + 1) (fun j => v i j * vat y j))).
        2:{ intros j Hj. unfold from. destruct (Nat.leb_spec (i + 1) j); [|reflexivity]. destruct (Nat.eqb_spec j i); [lia|reflexivity]. }
        unfold q. rewrite (S_ext n (from (i + 1) (fun k => - _)) (fun k => -1 * from (i + 1) (fun j => v i j * vat y j) k)).
        2:{ intros j Hj. unfold from. destruct (Nat.leb_spec (i + 1) j); ring. }
        rewrite S_mul_l. rewrite Y2 by lia. field. apply Hd. lia.
      * rewrite <- (Y3 k) by lia. apply S_ext. intros j Hj. unfold from. destruct (Nat.leb_spec k j); [|reflexivity]. destruct (Nat.eqb_spec j i); [lia|reflexivity].
  - intros y (Y1 & _ & Y3). split; [exact Y1|]. intros i Hi. rewrite <- (Y3 i) by lia. apply S_ext. intros k Hk. unfold Lof, from. destruct (Nat.leb_spec i k); [reflexivity|ring].
Qed.

Lemma potrs_ok n W v b : mis W n n v -> vlen b = n -> (forall i, (i < n)%nat -> v i i <> 0) ->
  exists x, potrs W b = Ok x /\ vlen x = n /\ forall r, (r < n)%nat -> Sum n (fun c => Sum n (fun k => Lof v r k * Lof v c k) * vat x c) = vat b r.
Proof.
  intros HW Hb Hd. destruct (fwd_ok n W v b HW Hb Hd) as (y & Ey & Ly & Sy). destruct (bwd_ok n W v y HW Ly Hd) as (x & Ex & Lx & Sx).
  exists x. unfold potrs. rewrite Ey. cbn [bind]. split; [exact Ex|]. split; [exact Lx|]. intros r Hr. rewrite <- (Sy r Hr).
  rewrite (S_ext n _ (fun c => Sum n (fun k => Lof v r k * Lof v c k * vat x c))) by (intros c Hc; rewrite S_mul_r; reflexivity).
  rewrite S_swap. apply S_ext. intros k Hk. rewrite <- (Sx k Hk). rewrite <- S_mul_l. apply S_ext. intros c Hc. ring.
Qed.
Lemma potrs_bad n W v b i : mis W n n v -> vlen b = n -> (i < n)%nat -> v i i = 0 -> (forall k, (k < i)%nat -> v k k <> 0) -> potrs W b = NonFinite.
Proof. intros. unfold potrs. rewrite (fwd_bad n W v b i) by assumption. reflexivity. Qed.

(** ** the object *)
Lemma do_compute_ok n m w : mrows m = n -> mcols m = n -> mrows w = n -> mcols w = n ->
  exists c v, lc_do_compute m w = Ok c /\ mis (lc_m c) n n (fun r j => if ((r <? n) && (j <? n))%bool then Lof v r j else mel m r j) /\ mis (lc_w c) n n v /\
   (lc_rank c = n /\ pot_eqs n n (mel w) v \/ (lc_rank c < n)%nat /\ pot_stop n (lc_rank c) (mel w) v).
Proof.
  intros Hm1 Hm2 Hw1 Hw2. unfold lc_do_compute. rewrite Hm1.
  destruct (wp_ok_inv _ _ (potrf_ok n w Hw1 Hw2)) as ([w' info] & E & v & HV & D). cbn [fst snd] in *. rewrite E. cbn [bind].
  assert (G : wp (for_ 0 n (fun i m => m <- for_ 0 (i + 1) (fun j m => x <- mget w' j i ;; mset m i j x) m ;; for_ (i + 1) n (fun j m => mset m i j 0) m) m)
    (fun m' => mis m' n n (cols (mel m) 0 n 0 n (Lof v)))).
  { apply (for_rows m n n (mel m) 0 n 0 n (Lof v)); [split; [exact Hm1|split; [exact Hm2|reflexivity]]|lia|]. intros i U Hi HU.
    eapply wp_seq.
    - apply (for_row U n n _ i 0 (i + 1) (Lof v i) _ HU); [lia|lia|]. intros j U' Hj HU'. eapply wp_mget; [exact HV|lia|lia|].
      eapply wp_mset_end; [exact HU'|lia|lia|]. intros U2 HU2. assert (EL : Lof v i j = v j i) by (unfold Lof; destruct (Nat.leb_spec j i); [reflexivity|lia]). rewrite EL. exact HU2.
    - intros U1 HU1. eapply wp_mono; [apply (for_row U1 n n _ i (i + 1) n (Lof v i) _ HU1); [lia|lia|]|].
      + intros j U' Hj HU'. eapply wp_mset_end; [exact HU'|lia|lia|]. intros U2 HU2. assert (EL : Lof v i j = 0) by (unfold Lof; destruct (Nat.leb_spec j i); [lia|reflexivity]). rewrite EL. exact HU2.
      + intros U2 HU2. eapply mis_ext; [exact HU2|]. intros r c. unfold rowset.
        destruct (Nat.eqb_spec r i); cbn [andb]; [|reflexivity].
        destruct (Nat.leb_spec (i + 1) c), (Nat.ltb_spec c n), (Nat.leb_spec 0 c), (Nat.ltb_spec c (i + 1)); cbn [andb]; try lia; reflexivity. }
  destruct (wp_ok_inv _ _ G) as (m' & E' & HM'). rewrite E'. cbn [bind]. eexists. exists v. split; [reflexivity|]. cbn [lc_m lc_w lc_rank].
  split.
  { eapply mis_ext; [exact HM'|]. intros r c. unfold cols. destruct (Nat.ltb_spec r n), (Nat.ltb_spec c n), (Nat.leb_spec 0 r), (Nat.leb_spec 0 c); cbn [andb]; try lia; reflexivity. }
  split; [exact HV|]. destruct D as [[-> [D _]]|(k & Hk & -> & D)].
  - left. cbn [Nat.ltb Nat.leb]. split; [reflexivity|exact D].
  - right. cbn [Nat.ltb Nat.leb]. rewrite Nat.sub_succ, Nat.sub_0_r. split; [exact Hk|exact D].
Qed.
Lemma make_ok n A : mrows A = n -> mcols A = n ->
  exists c v, lc_make A = Ok c /\ mis (lc_m c) n n (fun r j => if ((r <? n) && (j <? n))%bool then Lof v r j else mel A r j) /\ mis (lc_w c) n n v /\
   (lc_rank c = n /\ pot_eqs n n (mel A) v \/ (lc_rank c < n)%nat /\ pot_stop n (lc_rank c) (mel A) v).
Proof. intros H1 H2. unfold lc_make. rewrite same_size_eq by lia. cbn [bind]. apply do_compute_ok; assumption. Qed.

(** ** potri *)
Lemma zero_scan n W v : mis W n n v -> exists z, for_ 0 n (fun i z => d <- fget W i i ;; Ok (z || R_eqb d 0)%bool) false = Ok z /\ (z = true <-> exists i, (i < n)%nat /\ v i i = 0).
Proof.
  intros HW. apply wp_ok_inv. eapply wp_mono; [apply (wp_for (fun i z => z = true <-> exists k, (k < i)%nat /\ v k k = 0))|].
  - lia.
  - split; [discriminate|]. intros (k & Hk & _). lia.
  - intros i z Hi H. unfold fget. eapply wp_mget; [exact HW|lia|lia|]. cbn [wp]. split.
    + intros E. apply orb_true_iff in E. destruct E as [E|E].
      * apply H in E. destruct E as (k & Hk & Z). exists k. split; [lia|exact Z].
      * apply R_eqb_true in E. exists i. split; [lia|exact E].
    + intros (k & Hk & Z). apply orb_true_iff. destruct (Nat.eq_dec k i) as [->|Nk]; [right; apply R_eqb_spec; exact Z|left; apply H; exists k; split; [lia|exact Z]].
  - intros z H. exact H.
Qed.
Lemma potri_ok n W v inv : mis W n n v -> (forall i, (i < n)%nat -> v i i <> 0) ->
  (forall j x, (j < n)%nat -> (forall r, (r < n)%nat -> Sum n (fun c => Sum n (fun k => Lof v r k * Lof v c k) * x c) = delta r j) -> forall i, (i < n)%nat -> x i = inv i j) ->
  exists V, potri W = Ok (V, true) /\ mis V n n (fun r c => if ((r <? n) && ((r <=? c) && (c <? n)))%bool then inv c r else v r c).
Proof.
  intros HW Hd Hinv. assert (HW0 := HW). destruct HW0 as (HR & HC & HE). unfold potri. rewrite HR.
  destruct (zero_scan n W v HW) as (z & Ez & Hz). rewrite Ez. cbn [bind]. destruct z.
  { exfalso. destruct (proj1 Hz eq_refl) as (i & Hi & Z). exact (Hd i Hi Z). }
  assert (G : wp (for_ 0 n (fun j V => x <- potrs W (mkvec n (fun i => if (i =? j)%nat then 1 else 0)) ;; for_ j n (fun i V => y <- vget x i ;; fset V i j y) V) W)
    (fun V => mis V n n (fun r c => if ((r <? n) && ((r <=? c) && (c <? n)))%bool then inv c r else v r c))).
  { apply (wp_for (fun j V => mis V n n (fun r c => if ((r <? j) && ((r <=? c) && (c <? n)))%bool then inv c r else v r c))).
    - lia.
    - eapply mis_ext; [exact HW|]. intros r c. reflexivity.
    - intros j V Hj HV. destruct (potrs_ok n W v (mkvec n (fun i => if (i =? j)%nat then 1 else 0)) HW eq_refl Hd) as (x & Ex & Lx & Sx). rewrite Ex. cbn [bind vat] in *.
      pose proof (Hinv j (vat x) ltac:(lia) Sx) as Hx.
      eapply wp_mono; [apply (for_row V n n _ j j n (fun i => inv i j) _ HV); [lia|lia|]|].
      + intros i U Hi HU. rewrite vget_ok by lia. cbn [bind]. unfold fset. eapply wp_mset_end; [exact HU|lia|lia|]. intros U' HU'. rewrite Hx in HU' by lia. exact HU'.
      + intros U HU. eapply mis_ext; [exact HU|]. intros r c. unfold rowset.
        destruct (Nat.eqb_spec r j) as [->|Nr]; cbn [andb].
        * destruct (Nat.ltb_spec j (S j)), (Nat.ltb_spec j j), (Nat.leb_spec j c), (Nat.ltb_spec c n); cbn [andb]; try lia; reflexivity.
        * destruct (Nat.ltb_spec r (S j)), (Nat.ltb_spec r j); cbn [andb]; try lia; reflexivity. }
  destruct (wp_ok_inv _ _ G) as (V & EV & HV). rewrite EV. cbn [bind]. exists V. split; [reflexivity|exact HV].
Qed.
Lemma potri_bad n W v i : mis W n n v -> (i < n)%nat -> v i i = 0 -> potri W = Ok (W, false).
Proof.
  intros HW Hi Z. assert (HW0 := HW). destruct HW0 as (HR & HC & HE). unfold potri. rewrite HR.
  destruct (zero_scan n W v HW) as (z & Ez & Hz). rewrite Ez. cbn [bind]. destruct z; [reflexivity|]. exfalso. assert (false = true) by (apply Hz; exists i; split; assumption). discriminate.
Qed.
Lemma mirror_ok n M u : mis M n n u -> wp (for_ 1 n (fun i M => for_ 0 i (fun j M => x <- mget M j i ;; mset M i j x) M) M) (fun V => mrows V = n /\ mcols V = n /\ forall r c, (r < n)%nat -> (c < n)%nat -> mel V r c = if (r <=? c)%nat then u r c else u c r).
Proof.
  intros HM. destruct (Nat.eq_dec n 0) as [->|Nn]; [rewrite for_empty by lia; destruct HM as (HR & HC & HE); cbn [wp]; split; [exact HR|split; [exact HC|lia]]|].
  eapply wp_mono; [apply (wp_for (fun i V => mis V n n (fun r c => if ((r <? i) && (c <? r))%bool then u c r else u r c)))|].
  - lia.
  - eapply mis_ext; [exact HM|]. intros r c. destruct (Nat.ltb_spec r 1), (Nat.ltb_spec c r); cbn [andb]; try lia; reflexivity.
  - intros i V Hi HV. eapply wp_mono; [apply (for_row V n n _ i 0 i (fun j => u j i) _ HV); [lia|lia|]|].
    + intros j U Hj HU. eapply wp_mget; [exact HU|lia|lia|]. rewrite rowset_out by lia. destruct (Nat.ltb_spec j i), (Nat.ltb_spec i j); cbn [andb]; try lia.
      eapply wp_mset_end; [exact HU|lia|lia|]. intros U' HU'. exact HU'.
    + intros U HU. eapply mis_ext; [exact HU|]. intros r c. unfold rowset. destruct (Nat.eqb_spec r i) as [->|Nr]; cbn [andb].
      * destruct (Nat.leb_spec 0 c), (Nat.ltb_spec c i), (Nat.ltb_spec i i), (Nat.ltb_spec i (S i)); cbn [andb]; try lia; reflexivity.
      * destruct (Nat.ltb_spec r (S i)), (Nat.ltb_spec r i); cbn [andb]; try lia; reflexivity.
  - intros V (HR & HC & HE). split; [exact HR|]. split; [exact HC|]. intros r c Hr Hc. rewrite HE.
    destruct (Nat.ltb_spec r n), (Nat.ltb_spec c r), (Nat.leb_spec r c); cbn [andb]; try lia; reflexivity.
Qed.

Lemma determinant_ok n (c : lchol) l : mis (lc_m c) (S n) (S n) l -> lc_determinant c = Ok (prod (S n) (fun k => l k k) * prod (S n) (fun k => l k k)).
Proof.
  intros HM. assert (HM0 := HM). destruct HM0 as (HR & HC & HE). unfold lc_determinant. rewrite HR. rewrite mget_ok by lia. cbn [bind]. rewrite HE.
  assert (G : wp (for_ 1 (S n) (fun i det => x <- mget (lc_m c) i i ;; Ok (det * x)) (l 0%nat 0%nat)) (fun d => d = prod (S n) (fun k => l k k))).
  { apply (wp_for (fun i d => d = prod i (fun k => l k k))).
    - lia.
    - cbn [prod]. cbn [f1 fmul ROps]. ring.
    - intros i s Hi ->. eapply wp_mget; [exact HM|lia|lia|]. reflexivity. }
  destruct (wp_ok_inv _ _ G) as (d & E & ->). rewrite E. reflexivity.
Qed.

(** ** only the upper triangle matters *)
Definition same_upper (n : nat) (a b : rmat) : Prop := forall r c, (r <= c < n)%nat -> a r c = b r c.
Lemma pot_det n k a b v w : (k <= n)%nat -> same_upper n a b -> pot_eqs n k a v -> pot_eqs n k b w -> forall c, (c < k)%nat -> forall r, (c <= r < n)%nat -> v c r = w c r.
Proof.
  intros Hk HU [P1 E1] [P2 E2]. induction c as [c IH] using (well_founded_induction lt_wf). intros Hc.
  assert (Q : forall r, (c <= r < n)%nat -> v c r * v c c = w c r * w c c).
  { intros r Hr. pose proof (E1 r c Hc Hr) as A. pose proof (E2 r c Hc Hr) as B. rewrite (HU c r) in A by lia. cbn [sum] in A, B. cbn [fadd ROps] in A, B.
    assert (Z : Sum c (fun k => v k r * v k c) = Sum c (fun k => w k r * w k c)).
    { apply S_ext. intros j Hj. rewrite (IH j), (IH j) by lia. reflexivity. }
    rewrite Z in A. lra. }
  assert (D : v c c = w c c). { pose proof (Q c ltac:(lia)). pose proof (P1 c Hc). pose proof (P2 c Hc). nra. }
  intros r Hr. pose proof (Q r Hr) as A. rewrite D in A. pose proof (P2 c Hc). apply (Rmult_eq_reg_r (w c c)); [exact A|lra].
Qed.
Lemma stop_clash n k j a b v w : (k < j <= n)%nat -> same_upper n a b -> pot_stop n k a v -> pot_eqs n j b w -> False.
Proof.
  intros Hk HU (E & D & Z & _) F. assert (G : pot_eqs n k b w). { destruct F as [F1 F2]. split; intros; [apply F1|apply F2]; lia. }
  pose proof (pot_det n k a b v w ltac:(lia) HU E G) as Q. destruct F as [F1 F2]. pose proof (F2 k k ltac:(lia) ltac:(lia)) as B. cbn [sum] in B. cbn [fadd ROps] in B.
  rewrite (HU k k) in D by lia. rewrite (S_ext k (fun m => v m k * v m k) (fun m => w m k * w m k)) in D by (intros m Hm; rewrite Q by lia; reflexivity).
  pose proof (F1 k ltac:(lia)). nra.
Qed.
Lemma for_down_ext {St} hi lo (b1 b2 : nat -> St -> outcome St) s :
  (forall i s, (lo <= i < hi)%nat -> b1 i s = b2 i s) -> for_down hi lo b1 s = for_down hi lo b2 s.
Proof.
  unfold for_down. remember (hi - lo)%nat as m eqn:Em. revert hi s Em.
  induction m as [|m IH]; intros hi s Em H; [reflexivity|]. cbn [for_dn].
  rewrite H by lia. destruct (b2 _ s); try reflexivity. cbn [bind]. apply (IH (hi - 1)%nat); [lia|intros; apply H; lia].
Qed.
Lemma potrs_ext n W W' v v' b : mis W n n v -> mis W' n n v' -> same_upper n v v' -> potrs W b = potrs W' b.
Proof.
  intros (HR & HC & HE) (HR' & HC' & HE') HU. unfold potrs.
  assert (M : forall r c, (r <= c < n)%nat -> mget W r c = mget W' r c) by (intros r c H; rewrite !mget_ok by lia; rewrite HE, HE'; f_equal; apply HU; exact H).
  assert (E1 : potrs_fwd W b = potrs_fwd W' b).
  { unfold potrs_fwd. rewrite HR, HR'. apply for_ext. intros i y Hi. destruct (vget y i); try reflexivity. cbn [bind]. unfold fget.
    rewrite (for_ext 0 i _ (fun k s => a <- mget W' k i ;; z <- vget y k ;; Ok (s - a * z))) by (intros k s Hk; rewrite M by lia; reflexivity). rewrite (M i i) by lia. reflexivity. }
  rewrite E1. destruct (potrs_fwd W' b) as [y0| | | | |]; try reflexivity. cbn [bind].
  unfold potrs_bwd. rewrite HR, HR'. apply for_down_ext. intros i y Hi. destruct (vget y i); try reflexivity. cbn [bind]. unfold fget.
  rewrite (for_ext (i + 1) n _ (fun k s => a <- mget W' i k ;; z <- vget y k ;; Ok (s - a * z))) by (intros k s Hk; rewrite M by lia; reflexivity). rewrite (M i i) by lia. reflexivity.
Qed.
