(** * C49, C50: functions of a singular value decomposition. *)
From Coq Require Import Reals Arith Bool Lia Lra Psatz List Permutation.
From Verif Require Import Base Alg Mat SpecMat LemMat Inst RSum ModelOps LemOps ModelHelpers LemHelpers SpecLin LemLin LemDet LemDetMore LemDetMul SpecForm LemForm SpecEig LemEig SpecSVD ModelSVD LemSVD.
Open Scope outcome_scope.
Local Open Scope R_scope.

(** an SVD object that holds a decomposition of the m x n matrix A with descending singular values, as LAPACK's gesvd leaves it *)
Definition svd_holds (m n : nat) (A : nat -> nat -> R) (S : svd) : Prop :=
  mrows (sv_copy S) = m /\ mcols (sv_copy S) = n /\ vlen (sv_diag S) = Nat.min m n /\ mrows (sv_square S) = Nat.min m n /\ mcols (sv_square S) = Nat.min m n /\
  (forall i j, (i <= j < Nat.min m n)%nat -> vat (sv_diag S) j <= vat (sv_diag S) i) /\
  svd_of m n (Nat.min m n) A (mel (svd_U S)) (vat (sv_diag S)) (fun c i => mel (svd_VT S) i c).
Lemma svd_sizes m n A S : svd_holds m n A S -> mrows (svd_U S) = m /\ mcols (svd_U S) = Nat.min m n /\ mrows (svd_VT S) = Nat.min m n /\ mcols (svd_VT S) = n.
Proof.
  intros (H1 & H2 & _ & H4 & H5 & _). unfold svd_U, svd_VT, is_vertical. rewrite H1, H2. destruct (n <=? m)%nat eqn:T; [apply Nat.leb_le in T|apply Nat.leb_gt in T].
  - rewrite Nat.min_r in * by lia. repeat split; assumption.
  - rewrite Nat.min_l in * by lia. repeat split; assumption.
Qed.
Lemma svd_inv_ok m n A cond S : (0 < m)%nat -> (0 < n)%nat -> svd_holds m n A S -> gives_vec (svd_inv_diag cond S) (Nat.min m n) (fun i => if R_ltb (vat (sv_diag S) 0%nat) (vat (sv_diag S) i * cond) then / vat (sv_diag S) i else 0).
Proof.
  intros Hm Hn H. pose proof H as (H1 & H2 & H3 & _ & _ & _ & HS & _). unfold svd_inv_diag, min_dim. rewrite H1, H2.
  destruct (inv_loop (Nat.min m n) (sv_diag S) (vat (sv_diag S) 0%nat) cond ltac:(lia) (HS 0%nat ltac:(lia))) as (d & E & D). exists d. split; [|exact D]. rewrite <- E. apply for_ext. intros i v Hi. rewrite !vget_ok by lia. reflexivity.
Qed.
(** get_inv_diag(condition): reciprocals of exactly the singular values larger than the largest over condition *)
Theorem C49_svd_inv_diag : forall m n A cond S, (0 < m)%nat -> (0 < n)%nat -> svd_holds m n A S -> exists d M, largest (Nat.min m n) (vat (sv_diag S)) M /\ svd_inv_diag cond S = Ok d /\ vlen d = Nat.min m n /\
  forall i, (i < Nat.min m n)%nat -> (M < vat (sv_diag S) i * cond -> vat (sv_diag S) i <> 0 /\ vat d i = / vat (sv_diag S) i) /\ (vat (sv_diag S) i * cond <= M -> vat d i = 0).
Proof.
  intros m n A cond S Hm Hn H. destruct (svd_inv_ok m n A cond S Hm Hn H) as (d & E & D1 & D2). pose proof H as (_ & _ & _ & _ & _ & De & HS & _). exists d, (vat (sv_diag S) 0%nat). split; [|split; [exact E|split; [exact D1|]]].
  - split; [|exists 0%nat; split; [lia|apply Rabs_right, Rle_ge, HS; lia]]. intros i Hi. rewrite Rabs_right by (apply Rle_ge, HS; lia). apply De. lia.
  - intros i Hi. rewrite D2 by exact Hi. pose proof (HS 0%nat ltac:(lia)). split; intros C.
    + split; [intros Z; rewrite Z in C; lra|]. apply R_ltb_iff in C. rewrite C. reflexivity.
    + apply R_ltb_false in C. rewrite C. reflexivity.
Qed.
(** get_pinv(condition) satisfies the Penrose equations when every non-zero singular value passes the condition test *)
Theorem C49_svd_pinv : forall m n A cond S, (0 < m)%nat -> (0 < n)%nat -> svd_holds m n A S -> (forall i, (i < Nat.min m n)%nat -> vat (sv_diag S) i <> 0 -> vat (sv_diag S) 0%nat < vat (sv_diag S) i * cond) ->
  exists P, svd_pinv cond S = Ok P /\ mrows P = n /\ mcols P = m /\ penrose m n A (mel P).
Proof.
  intros m n A cond S Hm Hn H C. destruct (svd_inv_ok m n A cond S Hm Hn H) as (d & E & D1 & D2). destruct (svd_sizes m n A S H) as (U1 & U2 & V1 & V2). unfold svd_pinv. rewrite E. cbn [bind].
  destruct (pinv_model m n (Nat.min m n) (svd_U S) (tr (svd_VT S)) d) as (P & EP & P1 & P2 & P3); try assumption. exists P. split; [exact EP|]. split; [exact P1|]. split; [exact P2|].
  pose proof H as (_ & _ & _ & _ & _ & _ & HS). pose proof HS as (S0 & _). apply (penrose_ok m n (Nat.min m n) A _ _ _ (vat d) _ HS); [| |exact P3].
  - intros i Hi Z. rewrite D2 by exact Hi. rewrite Z. destruct (R_ltb _ _) eqn:T; [apply R_ltb_spec in T; pose proof (S0 0%nat ltac:(lia)); lra|reflexivity].
  - intros i Hi N. rewrite D2 by exact Hi. pose proof (C i Hi N) as L. apply R_ltb_iff in L. rewrite L. reflexivity.
Qed.
(** backsub(b) is get_pinv() * b, and the shortest least-squares solution of A x = b *)
Theorem C49_svd_backsub : forall m n A cond S (b : vec R), (0 < m)%nat -> (0 < n)%nat -> svd_holds m n A S -> vlen b = m ->
  exists P x, svd_pinv cond S = Ok P /\ svd_backsub_vec cond S b = Ok x /\ vlen x = n /\ (forall r, (r < n)%nat -> vat x r = Sum m (fun c => mel P r c * vat b c)) /\
  ((forall i, (i < Nat.min m n)%nat -> vat (sv_diag S) i <> 0 -> vat (sv_diag S) 0%nat < vat (sv_diag S) i * cond) -> least_squares m n A (vat b) (vat x)).
Proof.
  intros m n A cond S b Hm Hn H Hb. destruct (svd_inv_ok m n A cond S Hm Hn H) as (d & E & D1 & D2). destruct (svd_sizes m n A S H) as (U1 & U2 & V1 & V2).
  destruct (pinv_model m n (Nat.min m n) (svd_U S) (tr (svd_VT S)) d) as (P & EP & P1 & P2 & P3); try assumption. destruct (backsub_vec_model m n (Nat.min m n) (svd_U S) (tr (svd_VT S)) d b) as (x & Ex & X1 & X2); try assumption.
  assert (EP' : svd_pinv cond S = Ok P) by (unfold svd_pinv; rewrite E; exact EP).
  assert (XP : forall r, (r < n)%nat -> vat x r = Sum m (fun c => mel P r c * vat b c)). { intros r Hr. rewrite X2 by exact Hr. apply S_ext. intros c Hc. rewrite P3 by auto. reflexivity. }
  exists P, x. split; [exact EP'|]. split; [unfold svd_backsub_vec; rewrite E; exact Ex|]. split; [exact X1|]. split; [exact XP|].
  intros C. destruct (C49_svd_pinv m n A cond S Hm Hn H C) as (P' & EP'' & _ & _ & Pn). rewrite EP' in EP''. injection EP'' as <-. apply (penrose_least_squares m n A (mel P)); assumption.
Qed.
Theorem C49_svd_backsub_mat : forall m n A cond S (B : mat R), (0 < m)%nat -> (0 < n)%nat -> svd_holds m n A S -> mrows B = m ->
  exists P X, svd_pinv cond S = Ok P /\ svd_backsub_mat cond S B = Ok X /\ mrows X = n /\ mcols X = mcols B /\ forall r c, (r < n)%nat -> (c < mcols B)%nat -> mel X r c = Sum m (fun q => mel P r q * mel B q c).
Proof.
  intros m n A cond S B Hm Hn H Hb. destruct (svd_inv_ok m n A cond S Hm Hn H) as (d & E & D1 & D2). destruct (svd_sizes m n A S H) as (U1 & U2 & V1 & V2).
  destruct (pinv_model m n (Nat.min m n) (svd_U S) (tr (svd_VT S)) d) as (P & EP & P1 & P2 & P3); try assumption. destruct (backsub_mat_model m n (Nat.min m n) (svd_U S) (tr (svd_VT S)) d B) as (X & Ex & X1 & X2 & X3); try assumption.
  exists P, X. split; [unfold svd_pinv; rewrite E; exact EP|]. split; [unfold svd_backsub_mat; rewrite E; exact Ex|]. split; [exact X1|]. split; [exact X2|]. intros r c Hr Hc. rewrite X3 by auto. apply S_ext. intros q Hq. rewrite P3 by auto. reflexivity.
Qed.
(** ** GR_SVD *)
Definition gr_holds (m n : nat) (A : nat -> nat -> R) (S : grsvd) : Prop :=
  vlen (gr_diag S) = n /\ mrows (gr_U S) = m /\ mcols (gr_U S) = n /\ mrows (gr_V S) = n /\ mcols (gr_V S) = n /\ svd_of m n n A (mel (gr_U S)) (vat (gr_diag S)) (mel (gr_V S)).
Theorem C49_gr_extremes : forall S, (0 < vlen (gr_diag S))%nat ->
  (exists M, gr_largest S = Ok M /\ (forall i, (i < vlen (gr_diag S))%nat -> vat (gr_diag S) i <= M) /\ exists i, (i < vlen (gr_diag S))%nat /\ vat (gr_diag S) i = M) /\
  (exists M j, gr_smallest S = Ok M /\ gr_smallest_index S = Ok j /\ (j < vlen (gr_diag S))%nat /\ vat (gr_diag S) j = M /\ (forall i, (i < vlen (gr_diag S))%nat -> M <= vat (gr_diag S) i) /\ (forall i, (i < j)%nat -> M < vat (gr_diag S) i)).
Proof. intros S H. split; [apply gr_largest_ok|apply gr_smallest_ok]; exact H. Qed.
Lemma gr_inv_ok m n A cond S : (0 < n)%nat -> gr_holds m n A S -> exists M, gr_largest S = Ok M /\ 0 <= M /\ (forall i, (i < n)%nat -> vat (gr_diag S) i <= M) /\ (exists i, (i < n)%nat /\ vat (gr_diag S) i = M) /\
  gives_vec (gr_inv_diag cond S) n (fun i => if R_ltb M (vat (gr_diag S) i * cond) then / vat (gr_diag S) i else 0).
Proof.
  intros Hn H. pose proof H as (H1 & _ & _ & _ & _ & S0 & _). destruct (gr_largest_ok S ltac:(lia)) as (M & EM & LM & j & Hj & Ej). rewrite H1 in *. exists M. split; [exact EM|].
  assert (PM : 0 <= M) by (rewrite <- Ej; apply S0; exact Hj). split; [exact PM|]. split; [exact LM|]. split; [exists j; auto|]. unfold gr_inv_diag. rewrite EM. cbn [bind]. rewrite H1. apply inv_loop; [lia|exact PM].
Qed.
Theorem C49_gr_inv_diag : forall m n A cond S, (0 < n)%nat -> gr_holds m n A S -> exists d M, largest n (vat (gr_diag S)) M /\ gr_inv_diag cond S = Ok d /\ vlen d = n /\
  forall i, (i < n)%nat -> (M < vat (gr_diag S) i * cond -> vat (gr_diag S) i <> 0 /\ vat d i = / vat (gr_diag S) i) /\ (vat (gr_diag S) i * cond <= M -> vat d i = 0).
Proof.
  intros m n A cond S Hn H. destruct (gr_inv_ok m n A cond S Hn H) as (M & EM & PM & LM & (j & Hj & Ej) & d & Ed & D1 & D2). pose proof H as (_ & _ & _ & _ & _ & S0 & _). exists d, M. split; [|split; [exact Ed|split; [exact D1|]]].
  - split; [intros i Hi; rewrite Rabs_right by (apply Rle_ge, S0; exact Hi); apply LM; exact Hi|exists j; split; [exact Hj|rewrite Rabs_right by (apply Rle_ge, S0; exact Hj); exact Ej]].
  - intros i Hi. rewrite D2 by exact Hi. split; intros C.
    + split; [intros Z; rewrite Z in C; lra|]. apply R_ltb_iff in C. rewrite C. reflexivity.
    + apply R_ltb_false in C. rewrite C. reflexivity.
Qed.
Theorem C49_gr_pinv : forall m n A cond S, (0 < n)%nat -> gr_holds m n A S -> (forall i j, (i < n)%nat -> (j < n)%nat -> vat (gr_diag S) i <> 0 -> vat (gr_diag S) j < vat (gr_diag S) i * cond) ->
  exists P, gr_pinv cond S = Ok P /\ mrows P = n /\ mcols P = m /\ penrose m n A (mel P).
Proof.
  intros m n A cond S Hn H C. destruct (gr_inv_ok m n A cond S Hn H) as (M & EM & PM & LM & (j & Hj & Ej) & d & Ed & D1 & D2). pose proof H as (H1 & H2 & H3 & H4 & H5 & HS). unfold gr_pinv. rewrite Ed. cbn [bind].
  destruct (pinv_model m n n (gr_U S) (gr_V S) d) as (P & EP & P1 & P2 & P3); try assumption. exists P. split; [exact EP|]. split; [exact P1|]. split; [exact P2|].
  apply (penrose_ok m n n A _ _ _ (vat d) _ HS); [| |exact P3].
  - intros i Hi Z. rewrite D2 by exact Hi. rewrite Z. destruct (R_ltb _ _) eqn:T; [apply R_ltb_spec in T; lra|reflexivity].
  - intros i Hi N. rewrite D2 by exact Hi. pose proof (C i j Hi Hj N) as L. rewrite Ej in L. apply R_ltb_iff in L. rewrite L. reflexivity.
Qed.
Theorem C49_gr_backsub : forall m n A cond S (b : vec R) (B : mat R), (0 < n)%nat -> gr_holds m n A S -> vlen b = m -> mrows B = m ->
  exists P x X, gr_pinv cond S = Ok P /\ gr_backsub_vec cond S b = Ok x /\ vlen x = n /\ (forall r, (r < n)%nat -> vat x r = Sum m (fun c => mel P r c * vat b c)) /\
  gr_backsub_mat cond S B = Ok X /\ mrows X = n /\ mcols X = mcols B /\ (forall r c, (r < n)%nat -> (c < mcols B)%nat -> mel X r c = Sum m (fun q => mel P r q * mel B q c)) /\
  ((forall i j, (i < n)%nat -> (j < n)%nat -> vat (gr_diag S) i <> 0 -> vat (gr_diag S) j < vat (gr_diag S) i * cond) -> least_squares m n A (vat b) (vat x)).
Proof.
  intros m n A cond S b B Hn H Hb HB. destruct (gr_inv_ok m n A cond S Hn H) as (M & EM & PM & LM & (j & Hj & Ej) & d & Ed & D1 & D2). pose proof H as (H1 & H2 & H3 & H4 & H5 & HS).
  destruct (pinv_model m n n (gr_U S) (gr_V S) d) as (P & EP & P1 & P2 & P3); try assumption. destruct (backsub_vec_model m n n (gr_U S) (gr_V S) d b) as (x & Ex & X1 & X2); try assumption. destruct (backsub_mat_model m n n (gr_U S) (gr_V S) d B) as (X & EX & Y1 & Y2 & Y3); try assumption.
  assert (EP' : gr_pinv cond S = Ok P) by (unfold gr_pinv; rewrite Ed; exact EP).
  assert (XP : forall r, (r < n)%nat -> vat x r = Sum m (fun c => mel P r c * vat b c)). { intros r Hr. rewrite X2 by exact Hr. apply S_ext. intros c Hc. rewrite P3 by auto. reflexivity. }
  exists P, x, X. split; [exact EP'|]. split; [unfold gr_backsub_vec; rewrite Ed; exact Ex|]. split; [exact X1|]. split; [exact XP|]. split; [unfold gr_backsub_mat; rewrite Ed; exact EX|]. split; [exact Y1|]. split; [exact Y2|]. split.
  - intros r c Hr Hc. rewrite Y3 by auto. apply S_ext. intros q Hq. rewrite P3 by auto. reflexivity.
  - intros C. destruct (C49_gr_pinv m n A cond S Hn H C) as (P' & EP'' & _ & _ & Pn). rewrite EP' in EP''. injection EP'' as <-. apply (penrose_least_squares m n A (mel P)); assumption.
Qed.
(** reorder(): descending singular values, the columns of U and V moved with them, and the same product *)
Lemma column_loop n (M0 : mat R) (p : nat -> nat) : mcols M0 = n -> (forall i, (i < n)%nat -> (p i < n)%nat) ->
  gives_mat (for_ 0 n (fun i M => for_ 0 (mrows M) (fun r M => x <- mget M0 r (p i) ;; mset M r i x) M) M0) (mrows M0) n (fun r i => mel M0 r (p i)).
Proof.
  intros Hc Hp. apply wp_ok_inv. eapply wp_mono; [apply (wp_for (fun k M => mrows M = mrows M0 /\ mcols M = n /\ forall r i, (r < mrows M0)%nat -> (i < k)%nat -> mel M r i = mel M0 r (p i)))|].
  - lia.
  - split; [reflexivity|]. split; [exact Hc|lia].
  - intros i M Hi (M1 & M2 & M3). eapply wp_mono; [apply (wp_for (fun q M' => mrows M' = mrows M0 /\ mcols M' = n /\ (forall r j, (r < mrows M0)%nat -> (j < i)%nat -> mel M' r j = mel M0 r (p j)) /\ forall r, (r < q)%nat -> mel M' r i = mel M0 r (p i)))|].
    + lia.
    + repeat split; try assumption. intros r Hr. lia.
    + intros r M' Hr (A1 & A2 & A3 & A4). pose proof (Hp i ltac:(lia)). rewrite mget_ok by lia. cbn [bind]. rewrite mset_ok by lia. cbn [wp mrows mcols mel]. split; [exact A1|]. split; [exact A2|]. split.
      * intros r' j Hr' Hj. destruct (Nat.eqb_spec j i); [lia|]. rewrite andb_false_r. apply A3; auto.
      * intros r' Hr'. rewrite Nat.eqb_refl, andb_true_r. destruct (Nat.eqb_spec r' r) as [->|]; [reflexivity|]. apply A4. lia.
    + intros M' (A1 & A2 & A3 & A4). split; [exact A1|]. split; [exact A2|]. intros r j Hr Hj. destruct (Nat.eq_dec j i) as [->|]; [apply A4; lia|apply A3; [exact Hr|lia]].
  - intros M (M1 & M2 & M3). split; [exact M1|]. split; [exact M2|]. intros; apply M3; assumption.
Qed.
Theorem C49_reorder : forall m n S, vlen (gr_diag S) = n -> mrows (gr_U S) = m -> mcols (gr_U S) = n -> mrows (gr_V S) = n -> mcols (gr_V S) = n ->
  exists S' p, gr_reorder S = Ok S' /\ vlen (gr_diag S') = n /\ mrows (gr_U S') = m /\ mcols (gr_U S') = n /\ mrows (gr_V S') = n /\ mcols (gr_V S') = n /\
  (forall i j, (i <= j < n)%nat -> vat (gr_diag S') j <= vat (gr_diag S') i) /\
  (forall i, (i < n)%nat -> (p i < n)%nat) /\ (forall i j, (i < n)%nat -> (j < n)%nat -> p i = p j -> i = j) /\
  (forall i, (i < n)%nat -> vat (gr_diag S') i = vat (gr_diag S) (p i)) /\ (forall r i, (r < m)%nat -> (i < n)%nat -> mel (gr_U S') r i = mel (gr_U S) r (p i)) /\ (forall r i, (r < n)%nat -> (i < n)%nat -> mel (gr_V S') r i = mel (gr_V S) r (p i)) /\
  (forall r c, (r < m)%nat -> (c < n)%nat -> Sum n (fun i => mel (gr_U S') r i * vat (gr_diag S') i * mel (gr_V S') c i) = Sum n (fun i => mel (gr_U S) r i * vat (gr_diag S) i * mel (gr_V S) c i)).
Proof.
  intros m n S H1 H2 H3 H4 H5. set (s := vat (gr_diag S)). set (p := perm_of s n). set (L := sort_list (tagged s n)).
  assert (E1 : for_ 0 n (fun i l => x <- vget (gr_diag S) i ;; Ok (l ++ (- x, i) :: nil)) nil = Ok (tagged s n)).
  { apply wp_eq. eapply wp_mono; [apply (wp_for (fun k l => l = tagged s k))|]; [lia|reflexivity| |intros l ->; reflexivity]. intros i l Hi ->. rewrite vget_ok by lia. cbn [bind wp]. unfold tagged. rewrite seq_S, map_app. reflexivity. }
  assert (E2 : gives_vec (for_ 0 n (fun i d => vset d i (- fst (nth i L (0, 0%nat)))) (gr_diag S)) n (fun i => s (p i))).
  { apply wp_ok_inv. eapply wp_mono; [apply (wp_for (fun k v => vlen v = n /\ forall i, (i < k)%nat -> vat v i = s (p i)))|]; [lia|split; [exact H1|lia]| |intros v V; exact V].
    intros i v Hi (V1 & V2). rewrite vset_ok by lia. cbn [wp vlen vat]. split; [exact V1|]. intros k Hk. destruct (Nat.eqb_spec k i) as [->|]; [apply (perm_of_lt s n i); lia|apply V2; lia]. }
  assert (Hp : forall i, (i < n)%nat -> (p i < n)%nat) by (intros i Hi; apply (perm_of_lt s n i Hi)).
  destruct E2 as (d & Ed & D1 & D2). destruct (column_loop n (gr_U S) p H3 Hp) as (U & EU & U1 & U2 & U3). destruct (column_loop n (gr_V S) p H5 Hp) as (V & EV & V1 & V2 & V3).
  exists (mkgr d U V), p. unfold gr_reorder. rewrite H1, E1. cbn [bind]. fold L. rewrite Ed. cbn [bind]. unfold p, perm_of in EU, EV. fold L in EU, EV. rewrite EU. cbn [bind]. rewrite EV. cbn [bind gr_diag gr_U gr_V].
  split; [reflexivity|]. split; [exact D1|]. split; [congruence|]. split; [exact U2|]. split; [congruence|]. split; [exact V2|]. split; [|split; [exact Hp|split; [intros i j Hi Hj; apply perm_of_inj; assumption|split; [exact D2|split; [intros; apply U3; [congruence|assumption]|split; [intros; apply V3; [congruence|assumption]|]]]]]].
  - intros i j Hij. rewrite !D2 by lia. destruct (Nat.eq_dec i j) as [->|]; [lra|]. apply perm_of_desc. lia.
  - intros r c Hr Hc. rewrite <- (sum_reindex n p (fun i => mel (gr_U S) r i * s i * mel (gr_V S) c i)) by apply perm_of_perm. apply S_ext. intros i Hi. rewrite D2 by exact Hi. rewrite U3, V3 by congruence. reflexivity.
Qed.

(** ** determinant() *)
Lemma prod_abs n (f : nat -> R) : (forall i, (i < n)%nat -> 0 <= f i) -> 0 <= prod (F:=R) n f.
Proof. induction n as [|n IH]; intros H; cbn [prod]; cbn [f1 fmul ROps]; [lra|]. apply Rmult_le_pos; [apply IH; intros; apply H; lia|apply H; lia]. Qed.
Lemma prod_zero n (f : nat -> R) i : (i < n)%nat -> f i = 0 -> prod (F:=R) n f = 0.
Proof. induction n as [|n IH]; intros Hi Z; [lia|]. cbn [prod]. cbn [fmul ROps]. destruct (Nat.eq_dec i n) as [->|]; [rewrite Z; ring|rewrite IH by (lia || assumption); ring]. Qed.
(** the product of the singular values of a square matrix is the absolute value of its determinant *)
Theorem C49_determinant : forall n A S, (0 < n)%nat -> svd_holds n n A S -> svd_determinant S = Ok (Rabs (det (F:=R) n A)).
Proof.
  intros n A S Hn H. pose proof H as (_ & _ & H3 & _ & _ & _ & S0 & SU & SV & SA). rewrite Nat.min_id in *. set (s := vat (sv_diag S)) in *.
  assert (E : svd_determinant S = Ok (prod (F:=R) n s)).
  { unfold svd_determinant. rewrite vget_ok by lia. cbn [bind]. rewrite H3. apply wp_eq. eapply wp_mono; [apply (wp_for (fun k x => x = prod (F:=R) k s))|].
    - lia.
    - cbn [prod]. cbn [f1 fmul ROps]. fold s. ring.
    - intros i x Hi ->. rewrite vget_ok by lia. reflexivity.
    - intros x ->. reflexivity. }
  rewrite E. f_equal. set (U := mel (svd_U S)) in *. set (V := fun c i => mel (svd_VT S) i c) in *.
  assert (EA : det (F:=R) n A = det (F:=R) n U * (prod (F:=R) n s * det (F:=R) n V)).
  { transitivity (det (F:=R) n (fun r c => Sum n (fun k => U r k * Sum n (fun l => (if (k =? l)%nat then s k else 0) * V c l)))).
    - apply (@det_ext R ROps). intros r c Hr Hc. rewrite SA by auto. apply S_ext. intros k Hk. rewrite (S_ext n (fun l => (if (k =? l)%nat then s k else 0) * V c l) (fun l => delta k l * (s k * V c l))).
      + rewrite (delta_l n k (fun l => s k * V c l)) by exact Hk. cbn [fmul ROps]. subst V. cbn beta. ring.
      + intros l Hl. unfold delta. destruct (k =? l)%nat; cbn [f0 f1 ROps]; ring.
    - pose proof (@det_mul R ROps RLaws n U (fun k c => Sum n (fun l => (if (k =? l)%nat then s k else 0) * V c l))) as M1.
      pose proof (@det_mul R ROps RLaws n (fun k l => if (k =? l)%nat then s k else 0) (fun l c => V c l)) as M2. cbn [fmul ROps] in M1, M2. rewrite M1, M2, (@det_tr R ROps RLaws n V).
      rewrite (@det_diag R ROps RLaws n (fun k l => if (k =? l)%nat then s k else 0)) by (intros r c _ _ N; destruct (Nat.eqb_spec r c); [contradiction|reflexivity]).
      f_equal. f_equal. apply (@prod_ext R ROps). intros i Hi. rewrite Nat.eqb_refl. reflexivity. }
  destruct (@first_nonzero R ROps RLaws n (fun k => if R_eqb (s k) 0 then 1 else 0)) as [Z|(k & Hk & Z)].
  - assert (Nz : forall k, (k < n)%nat -> s k <> 0). { intros k Hk Zk. specialize (Z k Hk). apply R_eqb_spec in Zk. rewrite Zk in Z. cbn [f0 ROps] in Z. lra. }
    assert (Dt : forall W : nat -> nat -> R, (forall i j, (i < n)%nat -> (j < n)%nat -> Sum n (fun r => W r i * W r j) = delta i j) -> Rabs (det (F:=R) n W) = 1).
    { intros W HW. pose proof (@det_mul R ROps RLaws n (fun i r => W r i) W) as M. cbn [fmul ROps] in M. rewrite (@det_ext R ROps n _ delta HW), (@det_delta R ROps RLaws), (@det_tr R ROps RLaws n W) in M. cbn [f1 ROps] in M.
      assert (Q : Rabs (det n W) * Rabs (det n W) = 1) by (rewrite <- Rabs_mult, <- M; apply Rabs_R1). pose proof (Rabs_pos (det n W)). nra. }
    rewrite EA, !Rabs_mult. rewrite (Dt U) by (intros i j Hi Hj; apply SU; auto). rewrite (Dt V) by (intros i j Hi Hj; apply SV; auto). rewrite (Rabs_right (prod n s)) by (apply Rle_ge, prod_abs; exact S0). ring.
  - assert (Zk : s k = 0). { destruct (R_eqb (s k) 0) eqn:T; [apply R_eqb_spec; exact T|contradiction]. } rewrite EA, (prod_zero n s k Hk Zk). rewrite Rmult_0_l, Rmult_0_r, Rabs_R0. reflexivity.
Qed.
(** "for square matrices this is the determinant": not when the determinant is negative *)
Theorem C49_determinant_refuted : forall n A S, (0 < n)%nat -> svd_holds n n A S -> det (F:=R) n A < 0 -> svd_determinant S <> Ok (det (F:=R) n A).
Proof. intros n A S Hn H N E. rewrite (C49_determinant n A S Hn H) in E. injection E as E. pose proof (Rabs_pos (det n A)). lra. Qed.
Definition m1 (x : R) : mat R := mkmat 1 1 (fun _ _ => x).
Example ex_minus_one : svd_holds 1 1 (fun _ _ => -1) (mksvd (m1 (-1)) (mkvec 1 (fun _ => 1)) (m1 1)) /\ det (F:=R) 1 (fun _ _ => -1) < 0.
Proof.
  split; [|cbn [det sum sgn Nat.even fadd fmul f0 f1 ROps]; lra]. unfold svd_holds, svd_U, svd_VT, is_vertical. cbn [sv_copy sv_diag sv_square m1 mrows mcols vlen vat mel Nat.min Nat.leb].
  split; [reflexivity|]. split; [reflexivity|]. split; [reflexivity|]. split; [reflexivity|]. split; [reflexivity|]. split; [intros; lra|]. split; [intros; lra|]. split; [|split].
  - intros i j Hi Hj _ _. replace i with 0%nat by lia. replace j with 0%nat by lia. cbv [delta Nat.eqb]. cbn [sum fadd f0 f1 ROps]. ring.
  - intros i j Hi Hj _ _. replace i with 0%nat by lia. replace j with 0%nat by lia. cbv [delta Nat.eqb]. cbn [sum fadd f0 f1 ROps]. ring.
  - intros r c Hr Hc. cbn [sum fadd f0 ROps]. ring.
Qed.

(** ** C50: rank() *)
(** the number of singular values that pass the condition test of get_inv_diag *)
Definition kept (n : nat) (s : nat -> R) (cond : R) : nat := count n (fun i => R_ltb (s 0%nat) (s i * cond)).
Lemma count_negb n p : (count n p + count n (fun i => negb (p i)))%nat = n.
Proof. induction n as [|n IH]; [reflexivity|]. cbn [count]. destruct (p n); cbn [negb]; lia. Qed.
(** rank() counts the discarded singular values, plus one *)
Theorem C50_what_rank_returns : forall m n A cond S, (0 < m)%nat -> (0 < n)%nat -> svd_holds m n A S -> vat (sv_diag S) 0%nat <> 0 ->
  svd_rank cond S = Ok (1 + (Nat.min m n - kept (Nat.min m n) (vat (sv_diag S)) cond))%nat.
Proof.
  intros m n A cond S Hm Hn H Nz. pose proof H as (H1 & H2 & H3 & _). unfold svd_rank. rewrite vget_ok by lia. cbn [bind]. destruct (R_eqb (vat (sv_diag S) 0%nat) 0) eqn:T; [apply R_eqb_spec in T; contradiction|]. clear T.
  unfold min_dim. rewrite H1, H2. set (s := vat (sv_diag S)) in *. set (k := Nat.min m n) in *. apply wp_eq. eapply wp_mono; [apply (wp_for (fun i r => r = (1 + count i (fun i => negb (R_ltb (s 0%nat) (s i * cond))))%nat))|].
  - lia.
  - reflexivity.
  - intros i r Hi ->. rewrite vget_ok by lia. cbn [bind wp]. fold s. cbn [count]. destruct (negb (R_ltb (s 0%nat) (s i * cond))); lia.
  - intros r ->. unfold kept. pose proof (count_negb k (fun i => R_ltb (s 0%nat) (s i * cond))). cbn beta in *. f_equal. lia.
Qed.
Theorem C50_rank_zero : forall m n A cond S, (0 < m)%nat -> (0 < n)%nat -> svd_holds m n A S -> vat (sv_diag S) 0%nat = 0 -> svd_rank cond S = Ok 0%nat.
Proof. intros m n A cond S Hm Hn H Z. pose proof H as (_ & _ & H3 & _). unfold svd_rank. rewrite vget_ok by lia. cbn [bind]. apply R_eqb_spec in Z. rewrite Z. reflexivity. Qed.
(** the decomposition of the identity *)
Definition identity_svd (n : nat) : svd := mksvd (mkmat n n delta) (mkvec n (fun _ => 1)) (mkmat n n delta).
Lemma identity_holds n : svd_holds n n delta (identity_svd n).
Proof.
  unfold svd_holds, svd_U, svd_VT, is_vertical, identity_svd. cbn [sv_copy sv_diag sv_square mrows mcols vlen vat]. rewrite Nat.leb_refl, Nat.min_id. cbn [mel].
  split; [reflexivity|]. split; [reflexivity|]. split; [reflexivity|]. split; [reflexivity|]. split; [reflexivity|]. split; [intros; lra|]. split; [intros; lra|]. split; [|split].
  - intros i j Hi Hj _ _. rewrite (S_ext n _ (fun r => delta i r * delta r j)) by (intros q Hq; rewrite (delta_sym q i); reflexivity). exact (delta_l n i (fun r => delta r j) Hi).
  - intros i j Hi Hj _ _. exact (delta_l n i (fun c => delta j c) Hi) || (rewrite (delta_l n i (fun c => delta j c) Hi); apply delta_sym).
  - intros r c Hr Hc. rewrite (S_ext n _ (fun i => delta r i * delta i c)) by (intros; ring). symmetry. exact (delta_l n r (fun i => delta i c) Hr).
Qed.
(** so the identity of any size has "rank" one, and in general full rank is reported as one *)
Theorem C50_rank_refuted : forall n, (1 < n)%nat -> svd_holds n n delta (identity_svd n) /\ kept n (vat (sv_diag (identity_svd n))) svd_condition_no = n /\ svd_rank svd_condition_no (identity_svd n) = Ok 1%nat.
Proof.
  intros n Hn. split; [apply identity_holds|]. assert (K : kept n (vat (sv_diag (identity_svd n))) svd_condition_no = n).
  { unfold kept, identity_svd. cbn [sv_diag vat]. clear Hn. induction n as [|n IH]; [reflexivity|]. cbn [count]. rewrite IH. destruct (R_ltb 1 (1 * svd_condition_no)) eqn:T; [reflexivity|]. apply R_ltb_false in T. unfold svd_condition_no in T. lra. }
  split; [exact K|]. rewrite (C50_what_rank_returns n n delta) by (lia || apply identity_holds || (cbn [identity_svd sv_diag vat]; lra)). rewrite Nat.min_id, K. f_equal. lia.
Qed.
(** non-vacuity: the identity meets the hypotheses of the theorems above *)
Example ex_identity : forall n, (0 < n)%nat -> exists P, svd_pinv svd_condition_no (identity_svd n) = Ok P /\ penrose n n delta (mel P).
Proof.
  intros n Hn. destruct (C49_svd_pinv n n delta svd_condition_no (identity_svd n) Hn Hn (identity_holds n)) as (P & E & _ & _ & HP); [|exists P; split; assumption].
  intros i Hi _. cbn [identity_svd sv_diag vat]. unfold svd_condition_no. lra.
Qed.
(** non-vacuity, rectangular and rank deficient: A = diag(2, 0) with three rows, whose zero singular value is discarded *)
Definition flat_svd : svd := mksvd (mkmat 3 2 delta) (mkvec 2 (fun i => if (i =? 0)%nat then 2 else 0)) (mkmat 2 2 delta).
Example ex_flat : svd_holds 3 2 (fun r c => if (r =? 0)%nat then (if (c =? 0)%nat then 2 else 0) else 0) flat_svd /\
  forall i, (i < Nat.min 3 2)%nat -> vat (sv_diag flat_svd) i <> 0 -> vat (sv_diag flat_svd) 0%nat < vat (sv_diag flat_svd) i * svd_condition_no.
Proof.
  split.
  - unfold svd_holds, svd_U, svd_VT, is_vertical, flat_svd. cbn [sv_copy sv_diag sv_square mrows mcols vlen vat mel Nat.min Nat.leb].
    split; [reflexivity|]. split; [reflexivity|]. split; [reflexivity|]. split; [reflexivity|]. split; [reflexivity|]. split; [|split; [|split; [|split]]].
    + intros i j Hij. destruct i as [|[|]]; destruct j as [|[|]]; try lia; cbn [Nat.eqb]; lra.
    + intros i Hi. destruct i as [|[|]]; try lia; cbn [Nat.eqb]; lra.
    + intros i j Hi Hj Ni Nj. destruct i as [|[|]]; try lia; cbn [Nat.eqb] in Ni; try lra. destruct j as [|[|]]; try lia; cbn [Nat.eqb] in Nj; try lra. cbv [delta Nat.eqb]. cbn [sum fadd f0 f1 ROps]. ring.
    + intros i j Hi Hj Ni Nj. destruct i as [|[|]]; try lia; cbn [Nat.eqb] in Ni; try lra. destruct j as [|[|]]; try lia; cbn [Nat.eqb] in Nj; try lra. cbv [delta Nat.eqb]. cbn [sum fadd f0 f1 ROps]. ring.
    + intros r c Hr Hc. destruct r as [|[|[|]]]; try lia; destruct c as [|[|]]; try lia; cbv [delta Nat.eqb]; cbn [sum fadd f0 f1 ROps]; ring.
  - intros i Hi N. unfold flat_svd in *. cbn [sv_diag vat Nat.min] in *. destruct i as [|[|]]; try lia; cbn [Nat.eqb] in *; unfold svd_condition_no; lra.
Qed.
Print Assumptions C49_svd_inv_diag.
Print Assumptions C49_svd_pinv.
Print Assumptions C49_svd_backsub.
Print Assumptions C49_svd_backsub_mat.
Print Assumptions C49_gr_extremes.
Print Assumptions C49_gr_inv_diag.
Print Assumptions C49_gr_pinv.
Print Assumptions C49_gr_backsub.
Print Assumptions C49_reorder.
Print Assumptions C49_determinant.
Print Assumptions C49_determinant_refuted.
Print Assumptions C50_what_rank_returns.
Print Assumptions C50_rank_zero.
Print Assumptions C50_rank_refuted.
