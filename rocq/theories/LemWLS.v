(** * Lemmas: every WLS call adds its information matrix and vector. *)
From Coq Require Import Arith Bool List Lia.
From Verif Require Import Base Alg Mat SpecMat LemMat SpecLin LemLin ModelOps LemOps ModelObjects LemObjects LemHelpers LemDetMore SpecForm LemForm ModelChol ModelWLS SpecWLS.
Import ListNotations.

Section L.
Context {F : Type} {Fo : Ops F} {Fl : Laws F}.
Add Field Ff : law_field.
Open Scope F_scope.

Definition upd (C : nat -> nat -> F) (r c : nat) (x : F) (i j : nat) : F := if ((i =? r) && (j =? c))%nat%bool then x else C i j.
Lemma madd_at_ok (C : mat F) r c y : (r < mrows C)%nat -> (c < mcols C)%nat ->
  madd_at C r c y = Ok (mkmat (mrows C) (mcols C) (fun i j => if ((i =? r) && (j =? c))%nat%bool then mel C r c + y else mel C i j)).
Proof. intros Hr Hc. unfold madd_at. rewrite mget_ok by assumption. cbn [bind]. rewrite mset_ok by assumption. reflexivity. Qed.
Lemma vadd_at_ok (v : vec F) r y : (r < vlen v)%nat -> vadd_at v r y = Ok (mkvec (vlen v) (fun i => if (i =? r)%nat then vat v r + y else vat v i)).
Proof. intros Hr. unfold vadd_at. rewrite vget_ok by assumption. cbn [bind]. rewrite vset_ok by assumption. reflexivity. Qed.

(** a loop that adds f c to the elements (r, lo+c) *)
Lemma row_add_loop (f : nat -> F) (g : nat -> outcome F) r lo hi c0 (C : mat F) : (lo <= hi)%nat -> (r < mrows C)%nat -> (c0 + hi <= mcols C)%nat ->
  (forall c, (lo <= c < hi)%nat -> g c = Ok (f c)) ->
  exists C', for_ lo hi (fun c C => y <- g c ;; madd_at C r (c0 + c) y)%outcome C = Ok C' /\ mrows C' = mrows C /\ mcols C' = mcols C /\
   forall i j, mel C' i j = if ((i =? r) && (c0 + lo <=? j) && (j <? c0 + hi))%nat%bool then mel C i j + f (j - c0)%nat else mel C i j.
Proof.
  intros Hlo Hr Hc Hg. apply wp_ok_inv.
  apply (wp_for (fun k (C' : mat F) => mrows C' = mrows C /\ mcols C' = mcols C /\ forall i j, mel C' i j = if ((i =? r) && (c0 + lo <=? j) && (j <? c0 + k))%nat%bool then mel C i j + f (j - c0)%nat else mel C i j)); [exact Hlo| |].
  - split; [reflexivity|]. split; [reflexivity|]. intros i j. destruct (Nat.leb_spec (c0 + lo) j), (Nat.ltb_spec j (c0 + lo)); try lia; rewrite ?andb_false_r; reflexivity.
  - intros k C' Hk (R' & K' & V'). rewrite Hg by exact Hk. cbn [bind]. rewrite madd_at_ok by lia. cbn [wp mrows mcols mel]. split; [exact R'|]. split; [exact K'|].
    intros i j. rewrite !V'. destruct (Nat.eqb_spec i r), (Nat.eqb_spec j (c0 + k)); subst; rewrite ?Nat.eqb_refl; cbn [andb]; try reflexivity.
    + destruct (Nat.leb_spec (c0 + lo) (c0 + k)), (Nat.ltb_spec (c0 + k) (c0 + k)), (Nat.ltb_spec (c0 + k) (c0 + S k)); try lia. cbn [andb]. replace (c0 + k - c0)%nat with k by lia. reflexivity.
    + destruct (Nat.leb_spec (c0 + lo) j), (Nat.ltb_spec j (c0 + k)), (Nat.ltb_spec j (c0 + S k)); try lia; reflexivity.
Qed.
Definition placed2 (r0 h c0 l : nat) (b : nat -> nat -> F) (r c : nat) : F :=
  if ((r0 <=? r) && (r <? r0 + h) && ((c0 <=? c) && (c <? c0 + l)))%nat%bool then b (r - r0)%nat (c - c0)%nat else 0.
Lemma mslice_add_ok (C b : mat F) r0 c0 : (r0 + mrows b <= mrows C)%nat -> (c0 + mcols b <= mcols C)%nat ->
  gives_mat (mslice_add C r0 c0 b) (mrows C) (mcols C) (fun r c => mel C r c + placed2 r0 (mrows b) c0 (mcols b) (mel b) r c).
Proof.
  intros HR HC. unfold mslice_add, gives_mat. apply wp_ok_inv.
  eapply wp_mono; [apply (wp_for (fun k (C' : mat F) => mrows C' = mrows C /\ mcols C' = mcols C /\ forall r c, mel C' r c = mel C r c + placed2 r0 k c0 (mcols b) (mel b) r c))|].
  - lia.
  - split; [reflexivity|]. split; [reflexivity|]. intros r c. unfold placed2. destruct (Nat.leb_spec r0 r), (Nat.ltb_spec r (r0 + 0)); try lia; cbn [andb]; ring.
  - intros k C' Hk (R' & K' & V').
    destruct (row_add_loop (mel b k) (fun c => mget b k c) (r0 + k)%nat 0 (mcols b) c0 C') as (C2 & E & R2 & K2 & V2); [lia|lia|lia|intros; apply mget_ok; lia|].
    rewrite E. cbn [wp]. split; [congruence|]. split; [congruence|]. intros r c. rewrite V2, V'. unfold placed2.
    destruct (Nat.eqb_spec r (r0 + k)) as [->|].
    + destruct (Nat.leb_spec r0 (r0 + k)), (Nat.ltb_spec (r0 + k) (r0 + k)), (Nat.ltb_spec (r0 + k) (r0 + S k)); try lia. cbn [andb]. replace (r0 + k - r0)%nat with k by lia. rewrite Nat.add_0_r.
      destruct ((c0 <=? c) && (c <? c0 + mcols b))%nat%bool; ring.
    + cbn [andb]. destruct (Nat.leb_spec r0 r), (Nat.ltb_spec r (r0 + k)), (Nat.ltb_spec r (r0 + S k)); try lia; reflexivity.
  - intros C' (R' & K' & V'). unfold mat_is. split; [exact R'|]. split; [exact K'|]. intros; apply V'.
Qed.
Lemma vslice_add_ok (v b : vec F) i0 : (i0 + vlen b <= vlen v)%nat -> gives_vec (vslice_add v i0 b) (vlen v) (fun r => vat v r + placed i0 (vlen b) (vat b) r).
Proof.
  intros H. unfold vslice_add, gives_vec. apply wp_ok_inv.
  eapply wp_mono; [apply (wp_for (fun k (v' : vec F) => vlen v' = vlen v /\ forall r, vat v' r = vat v r + placed i0 k (vat b) r))|].
  - lia.
  - split; [reflexivity|]. intros r. unfold placed. destruct (Nat.leb_spec i0 r), (Nat.ltb_spec r (i0 + 0)); try lia; cbn [andb]; ring.
  - intros k v' Hk (L' & V'). rewrite vget_ok by lia. cbn [bind]. rewrite vadd_at_ok by lia. cbn [wp vlen vat]. split; [exact L'|]. intros r. rewrite !V'. unfold placed.
    destruct (Nat.eqb_spec r (i0 + k)) as [->|].
    + destruct (Nat.leb_spec i0 (i0 + k)), (Nat.ltb_spec (i0 + k) (i0 + k)), (Nat.ltb_spec (i0 + k) (i0 + S k)); try lia. cbn [andb]. replace (i0 + k - i0)%nat with k by lia. ring.
    + destruct (Nat.leb_spec i0 r), (Nat.ltb_spec r (i0 + k)), (Nat.ltb_spec r (i0 + S k)); try lia; reflexivity.
  - intros v' (L' & V'). unfold vec_is. split; [exact L'|]. intros; apply V'.
Qed.

(** ** A call as a block of N measurements plus a prior matrix *)
Record den := mkden { dN : nat; dm : nat -> F; dJ : nat -> nat -> F; dW : nat -> nat -> F; dP : nat -> nat -> F }.
Definition den_of (n : nat) (o : wop F) : den :=
  match o with
  | PriorS v => mkden 0 (fun _ => 0) (fun _ _ => 0) (fun _ _ => 0) (fun r c => if (r =? c)%nat then v else 0)
  | PriorV v => mkden 0 (fun _ => 0) (fun _ _ => 0) (fun _ _ => 0) (fun r c => if (r =? c)%nat then vat v r else 0)
  | PriorM m => mkden 0 (fun _ => 0) (fun _ _ => 0) (fun _ _ => 0) (mel m)
  | Meas m J w => mkden 1 (fun _ => m) (fun _ => vat J) (fun _ _ => w) (fun _ _ => 0)
  | MeasRowsW m J w => mkden (mrows J) (vat m) (mel J) (fun k l => w * delta k l) (fun _ _ => 0)
  | MeasCov m J W => mkden (mcols J) (vat m) (fun k r => mel J r k) (mel W) (fun _ _ => 0)
  | MeasRows m J W => mkden (mrows J) (vat m) (mel J) (mel W) (fun _ _ => 0)
  | Sparse m J i w => mkden 1 (fun _ => m) (fun _ => placed i (vlen J) (vat J)) (fun _ _ => w) (fun _ _ => 0)
  | SparseRows m J i W => mkden (mrows J) (vat m) (fun k => placed i (mcols J) (mel J k)) (mel W) (fun _ _ => 0)
  | SparseRows2 m J i K j W => mkden (mrows J) (vat m) (fun k r => placed i (mcols J) (mel J k) r + placed j (mcols K) (mel K k) r) (mel W) (fun _ _ => 0)
  end.
Definition dH (d : den) (r c : nat) : F := sum (dN d) (fun l => sum (dN d) (fun k => dJ d k r * dW d k l) * dJ d l c) + dP d r c.
Definition dg (d : den) (r : nat) : F := sum (dN d) (fun l => sum (dN d) (fun k => dJ d k r * dW d k l) * dm d l).

(** the state of the accumulators *)
Definition acc (n : nat) (w : wls F) (H : nat -> nat -> F) (g : nat -> F) : Prop :=
  mrows (w_C w) = n /\ mcols (w_C w) = n /\ vlen (w_v w) = n /\ mrows (ch_m (w_dec w)) = n /\
  (forall r c, (r <= c < n)%nat -> mel (w_C w) r c = H r c) /\ (forall r, (r < n)%nat -> vat (w_v w) r = g r).
Lemma acc_ext n w H g H' g' : acc n w H g -> (forall r c, (r <= c < n)%nat -> H r c = H' r c) -> (forall r, (r < n)%nat -> g r = g' r) -> acc n w H' g'.
Proof.
  intros (A1 & A2 & A3 & A4 & A5 & A6) E E'. unfold acc. split; [exact A1|]. split; [exact A2|]. split; [exact A3|]. split; [exact A4|].
  split; intros; [rewrite A5 by assumption; apply E; assumption|rewrite A6 by assumption; apply E'; assumption].
Qed.
Definition adds (n : nat) (f : wls F -> outcome (wls F)) (H : nat -> nat -> F) (g : nat -> F) : Prop :=
  forall w H0 g0, acc n w H0 g0 -> exists w', f w = Ok w' /\ acc n w' (fun r c => H0 r c + H r c) (fun r => g0 r + g r) /\ w_mu w' = w_mu w.
Lemma adds_ext n f H g H' g' : adds n f H g -> (forall r c, (r <= c < n)%nat -> H r c = H' r c) -> (forall r, (r < n)%nat -> g r = g' r) -> adds n f H' g'.
Proof.
  intros A E E' w H0 g0 Hw. destruct (A w H0 g0 Hw) as (w' & Ew & Aw & M). exists w'. split; [exact Ew|]. split; [|exact M].
  eapply acc_ext; [exact Aw| |]; intros; cbv beta; [rewrite E by assumption|rewrite E' by assumption]; reflexivity.
Qed.

Lemma diag_add_loop n (x : nat -> F) (g : nat -> outcome F) (C : mat F) : mrows C = n -> mcols C = n -> (forall i, (i < n)%nat -> g i = Ok (x i)) ->
  exists C', for_ 0 n (fun i C => y <- g i ;; madd_at C i i y)%outcome C = Ok C' /\ mrows C' = n /\ mcols C' = n /\
    forall r c, (r < n)%nat -> mel C' r c = mel C r c + (if (r =? c)%nat then x r else 0).
Proof.
  intros HR HC Hg. apply wp_ok_inv.
  eapply wp_mono; [apply (wp_for (fun k (C' : mat F) => mrows C' = n /\ mcols C' = n /\ forall r c, mel C' r c = mel C r c + (if ((r =? c) && (r <? k))%nat%bool then x r else 0)))|].
  - lia.
  - split; [exact HR|]. split; [exact HC|]. intros r c. destruct (Nat.ltb_spec r 0); [lia|]. rewrite andb_false_r. ring.
  - intros k C' Hk (R' & K' & V'). rewrite Hg by lia. cbn [bind]. rewrite madd_at_ok by lia. cbn [wp mrows mcols mel]. split; [exact R'|]. split; [exact K'|].
    intros r c. rewrite !V'. destruct (Nat.eqb_spec r k), (Nat.eqb_spec c k), (Nat.eqb_spec r c), (Nat.ltb_spec r k), (Nat.ltb_spec r (S k)); subst; try lia; rewrite ?Nat.eqb_refl, ?Nat.ltb_irrefl; cbn [andb]; ring.
  - intros C' (R' & K' & V'). split; [exact R'|]. split; [exact K'|]. intros r c Hr. rewrite V'. destruct (Nat.ltb_spec r n); [|lia]. rewrite andb_true_r. reflexivity.
Qed.
Lemma prior_adds n v : adds n (wls_prior v) (fun r c => if (r =? c)%nat then v else 0) (fun _ => 0).
Proof.
  intros w H0 g0 (A1 & A2 & A3 & A4 & A5 & A6). unfold wls_prior. rewrite A1.
  destruct (diag_add_loop n (fun _ => v) (fun _ => Ok v) (w_C w) A1 A2 (fun _ _ => eq_refl)) as (C' & E & R' & K' & V').
  cbn [bind] in E. rewrite E. cbn [bind]. eexists. split; [reflexivity|]. split; [|reflexivity].
  unfold acc. cbn [w_C w_v w_dec]. split; [exact R'|]. split; [exact K'|]. split; [exact A3|]. split; [exact A4|]. split.
  - intros r c Hr. rewrite V' by lia. rewrite A5 by exact Hr. reflexivity.
  - intros r Hr. rewrite A6 by exact Hr. ring.
Qed.
Lemma prior_vec_adds n v : vlen v = n -> adds n (wls_prior_vec v) (fun r c => if (r =? c)%nat then vat v r else 0) (fun _ => 0).
Proof.
  intros Hv w H0 g0 (A1 & A2 & A3 & A4 & A5 & A6). unfold wls_prior_vec. rewrite A1, same_size_eq by lia. cbn [bind].
  destruct (diag_add_loop n (vat v) (vget v) (w_C w) A1 A2) as (C' & E & R' & K' & V'); [intros; apply vget_ok; lia|].
  rewrite E. cbn [bind]. eexists. split; [reflexivity|]. split; [|reflexivity].
  unfold acc. cbn [w_C w_v w_dec]. split; [exact R'|]. split; [exact K'|]. split; [exact A3|]. split; [exact A4|]. split.
  - intros r c Hr. rewrite V' by lia. rewrite A5 by exact Hr. reflexivity.
  - intros r Hr. rewrite A6 by exact Hr. ring.
Qed.
Lemma prior_mat_adds n m : mrows m = n -> mcols m = n -> adds n (wls_prior_mat m) (mel m) (fun _ => 0).
Proof.
  intros HR HC w H0 g0 (A1 & A2 & A3 & A4 & A5 & A6). unfold wls_prior_mat. destruct (madd_assign_ok (w_C w) m) as (C' & -> & R' & K' & V'); [lia|lia|]. cbn [bind].
  eexists. split; [reflexivity|]. split; [|reflexivity]. unfold acc. cbn [w_C w_v w_dec]. split; [lia|]. split; [lia|]. split; [exact A3|]. split; [exact A4|]. split.
  - intros r c Hr. rewrite V' by lia. rewrite A5 by exact Hr. reflexivity.
  - intros r Hr. rewrite A6 by exact Hr. ring.
Qed.

(** the loop shared by add_mJ and add_sparse_mJ (index 0 for the former) *)
Lemma meas_loop n l i0 m wt (J : vec F) (C : mat F) (v : vec F) : mrows C = n -> mcols C = n -> vlen v = n -> (l <= vlen J)%nat -> (i0 + l <= n)%nat ->
  exists C' v', for_ 0 l (fun r '(C, v) =>
      x <- vget J r ;; let Jw := wt * x in
      v <- vadd_at v (i0 + r) (m * Jw) ;;
      C <- for_ r l (fun c C => y <- (y <- vget J c ;; Ok (Jw * y)) ;; madd_at C (i0 + r) (i0 + c) y) C ;;
      Ok (C, v))%outcome (C, v) = Ok (C', v') /\ mrows C' = n /\ mcols C' = n /\ vlen v' = n /\
   (forall r c, (r <= c < n)%nat -> mel C' r c = mel C r c + wt * placed i0 l (vat J) r * placed i0 l (vat J) c) /\
   (forall r, (r < n)%nat -> vat v' r = vat v r + m * (wt * placed i0 l (vat J) r)).
Proof.
  intros HR HC HV HJ Hi.
  assert (W : wp (for_ 0 l (fun r '(C, v) =>
      x <- vget J r ;; let Jw := wt * x in
      v <- vadd_at v (i0 + r) (m * Jw) ;;
      C <- for_ r l (fun c C => y <- (y <- vget J c ;; Ok (Jw * y)) ;; madd_at C (i0 + r) (i0 + c) y) C ;;
      Ok (C, v))%outcome (C, v)) (fun s => mrows (fst s) = n /\ mcols (fst s) = n /\ vlen (snd s) = n /\
       (forall r c, (r <= c < n)%nat -> mel (fst s) r c = mel C r c + wt * placed i0 l (vat J) r * placed i0 l (vat J) c) /\
       (forall r, (r < n)%nat -> vat (snd s) r = vat v r + m * (wt * placed i0 l (vat J) r)))).
  { eapply wp_mono; [apply (wp_for (fun k (s : mat F * vec F) => mrows (fst s) = n /\ mcols (fst s) = n /\ vlen (snd s) = n /\
       (forall r c, (r <= c < n)%nat -> mel (fst s) r c = mel C r c + wt * placed i0 k (vat J) r * placed i0 l (vat J) c) /\
       (forall r, (r < n)%nat -> vat (snd s) r = vat v r + m * (wt * placed i0 k (vat J) r))))|].
    - lia.
    - cbn [fst snd]. assert (Z : forall r, placed i0 0 (vat J) r = 0) by (intros r; unfold placed; destruct (Nat.leb_spec i0 r), (Nat.ltb_spec r (i0 + 0)); try lia; reflexivity).
      split; [exact HR|]. split; [exact HC|]. split; [exact HV|]. split; intros; rewrite Z; ring.
    - intros k [C1 v1] Hk (R1 & K1 & L1 & V1 & U1). cbn [fst snd] in *. rewrite vget_ok by lia. cbn [bind]. rewrite vadd_at_ok by lia. cbn [bind].
      destruct (row_add_loop (fun c => wt * vat J k * vat J c) (fun c => y <- vget J c ;; Ok (wt * vat J k * y))%outcome (i0 + k)%nat k l i0 C1) as (C2 & E & R2 & K2 & V2); [lia|lia|lia|intros c Hc; rewrite vget_ok by lia; reflexivity|].
      rewrite E. cbn [bind wp fst snd vlen vat]. split; [congruence|]. split; [congruence|]. split; [exact L1|]. split.
      + intros r c Hr. rewrite V2. rewrite V1 by exact Hr. unfold placed.
        destruct (Nat.eqb_spec r (i0 + k)) as [->|].
        * destruct (Nat.leb_spec i0 (i0 + k)), (Nat.ltb_spec (i0 + k) (i0 + k)), (Nat.ltb_spec (i0 + k) (i0 + S k)); try lia. replace (i0 + k - i0)%nat with k by lia. cbn [andb].
          destruct (Nat.leb_spec (i0 + k) c), (Nat.leb_spec i0 c), (Nat.ltb_spec c (i0 + l)); try lia; cbn [andb]; ring.
        * cbn [andb]. destruct (Nat.leb_spec i0 r), (Nat.ltb_spec r (i0 + k)), (Nat.ltb_spec r (i0 + S k)); try lia; cbn [andb]; ring.
      + intros r Hr. destruct (Nat.eqb_spec r (i0 + k)) as [->|].
        * rewrite U1 by lia. unfold placed. destruct (Nat.leb_spec i0 (i0 + k)), (Nat.ltb_spec (i0 + k) (i0 + k)), (Nat.ltb_spec (i0 + k) (i0 + S k)); try lia. replace (i0 + k - i0)%nat with k by lia. cbn [andb]. ring.
        * rewrite U1 by lia. unfold placed. destruct (Nat.leb_spec i0 r), (Nat.ltb_spec r (i0 + k)), (Nat.ltb_spec r (i0 + S k)); try lia; cbn [andb]; ring.
    - intros s Hs. exact Hs. }
  apply wp_ok_inv in W. destruct W as ((C' & v') & E & W). exists C', v'. split; [exact E|exact W].
Qed.
Lemma placed_all n (J : nat -> F) r : (r < n)%nat -> placed 0 n J r = J r.
Proof. intros H. unfold placed. cbn [Nat.leb andb Nat.add]. destruct (Nat.ltb_spec r n); [|lia]. rewrite Nat.sub_0_r. reflexivity. Qed.
Lemma add_adds n m J wt : vlen J = n -> adds n (wls_add m J wt) (fun r c => wt * vat J r * vat J c) (fun r => m * (wt * vat J r)).
Proof.
  intros HJ w H0 g0 (A1 & A2 & A3 & A4 & A5 & A6). unfold wls_add. rewrite A1.
  destruct (meas_loop n n 0 m wt J (w_C w) (w_v w) A1 A2 A3 ltac:(lia) ltac:(lia)) as (C' & v' & E & R' & K' & L' & V' & U').
  match goal with |- exists _, bind ?e _ = _ /\ _ => replace e with (@Ok (mat F * vec F) (C', v')) end.
  2:{ rewrite <- E. apply for_ext. intros i [C1 v1] Hi. destruct (vget J i); try reflexivity. cbn [bind Nat.add]. destruct (vadd_at v1 i (m * (wt * a))); try reflexivity. cbn [bind].
      f_equal. apply for_ext. intros c C2 Hc. destruct (vget J c); reflexivity. }
  cbn [bind]. eexists. split; [reflexivity|]. split; [|reflexivity]. unfold acc. cbn [w_C w_v w_dec]. split; [exact R'|]. split; [exact K'|]. split; [exact L'|]. split; [exact A4|]. split.
  - intros r c Hr. rewrite V' by exact Hr. rewrite !placed_all by lia. rewrite A5 by exact Hr. reflexivity.
  - intros r Hr. rewrite U' by exact Hr. rewrite placed_all by lia. rewrite A6 by exact Hr. reflexivity.
Qed.
Lemma sparse_adds n m J i wt : (i + vlen J <= n)%nat ->
  adds n (wls_add_sparse m J i wt) (fun r c => wt * placed i (vlen J) (vat J) r * placed i (vlen J) (vat J) c) (fun r => m * (wt * placed i (vlen J) (vat J) r)).
Proof.
  intros HJ w H0 g0 (A1 & A2 & A3 & A4 & A5 & A6). unfold wls_add_sparse.
  destruct (meas_loop n (vlen J) i m wt J (w_C w) (w_v w) A1 A2 A3 ltac:(lia) ltac:(lia)) as (C' & v' & E & R' & K' & L' & V' & U').
  match goal with |- exists _, bind ?e _ = _ /\ _ => replace e with (@Ok (mat F * vec F) (C', v')) end.
  2:{ rewrite <- E. apply for_ext. intros k [C1 v1] Hk. destruct (vget J k); try reflexivity. cbn [bind]. rewrite (Nat.add_comm k i). destruct (vadd_at v1 (i + k) (m * (wt * a))); try reflexivity. cbn [bind].
      f_equal. apply for_ext. intros c C2 Hc. rewrite (Nat.add_comm c i). destruct (vget J c); reflexivity. }
  cbn [bind]. eexists. split; [reflexivity|]. split; [|reflexivity]. unfold acc. cbn [w_C w_v w_dec]. split; [exact R'|]. split; [exact K'|]. split; [exact L'|]. split; [exact A4|]. split.
  - intros r c Hr. rewrite V' by exact Hr. rewrite A5 by exact Hr. reflexivity.
  - intros r Hr. rewrite U' by exact Hr. rewrite A6 by exact Hr. reflexivity.
Qed.
End L.
