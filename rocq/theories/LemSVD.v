(** * Lemmas for the functions of a singular value decomposition. *)
From Coq Require Import Reals Arith Bool Lia Lra Psatz List Permutation.
From Verif Require Import Base Alg Mat SpecMat LemMat Inst RSum ModelOps LemOps ModelHelpers LemHelpers LemEig SpecSVD ModelSVD.
Open Scope outcome_scope.
Local Open Scope R_scope.

(** X diag(d) Y^T *)
Definition op (k : nat) (X Y : nat -> nat -> R) (d : nat -> R) (r c : nat) : R := Sum k (fun i => X r i * d i * Y c i).
Lemma op_ext k X Y d d' r c : (forall i, (i < k)%nat -> d i = d' i) -> op k X Y d r c = op k X Y d' r c.
Proof. intros H. apply S_ext. intros i Hi. rewrite H by exact Hi. reflexivity. Qed.
Lemma op_sym k X d r c : op k X X d r c = op k X X d c r.
Proof. apply S_ext. intros; ring. Qed.
Lemma op_mul q k X Y Z d e r c : (forall i j, (i < k)%nat -> (j < k)%nat -> d i <> 0 -> e j <> 0 -> Sum q (fun p => Y p i * Y p j) = delta i j) ->
  Sum q (fun p => op k X Y d r p * op k Y Z e p c) = op k X Z (fun i => d i * e i) r c.
Proof.
  intros H. unfold op. rewrite (S_ext q _ (fun p => Sum k (fun i => Sum k (fun j => (X r i * d i * e j * Z c j) * (Y p i * Y p j))))).
  2:{ intros p Hp. rewrite <- S_mul_r. apply S_ext. intros i Hi. rewrite <- S_mul_l. apply S_ext. intros j Hj. ring. }
  rewrite S_swap. apply S_ext. intros i Hi. rewrite S_swap.
  rewrite (S_ext k _ (fun j => delta i j * (X r i * d i * e j * Z c j))).
  2:{ intros j Hj. rewrite S_mul_l. destruct (Req_dec (d i) 0) as [Z1|N1]; [rewrite Z1; ring|]. destruct (Req_dec (e j) 0) as [Z2|N2]; [rewrite Z2; ring|]. rewrite H by auto. ring. }
  rewrite (delta_l k i (fun j => X r i * d i * e j * Z c j)) by exact Hi. ring.
Qed.
(** the pseudo-inverse of a decomposition *)
Lemma penrose_ok m n k A U s V d P : svd_of m n k A U s V -> (forall i, (i < k)%nat -> s i = 0 -> d i = 0) -> (forall i, (i < k)%nat -> s i <> 0 -> d i = / s i) -> (forall r c, (r < n)%nat -> (c < m)%nat -> P r c = op k V U d r c) -> penrose m n A P.
Proof.
  intros (S0 & SU & SV & SA) D0 D1 HP. assert (Dn : forall i, (i < k)%nat -> d i <> 0 -> s i <> 0) by (intros i Hi N Z; apply N, D0; auto).
  assert (SA' : forall r c, (r < m)%nat -> (c < n)%nat -> A r c = op k U V s r c) by exact SA.
  assert (AP : forall r c, (r < m)%nat -> (c < m)%nat -> mult n A P r c = op k U U (fun i => s i * d i) r c).
  { intros r c Hr Hc. unfold mult. rewrite <- (op_mul n k U V U s d) by (intros; apply SV; auto). apply S_ext. intros p Hp. rewrite SA', HP by auto. reflexivity. }
  assert (PA : forall r c, (r < n)%nat -> (c < n)%nat -> mult m P A r c = op k V V (fun i => d i * s i) r c).
  { intros r c Hr Hc. unfold mult. rewrite <- (op_mul m k V U V d s) by (intros; apply SU; auto). apply S_ext. intros p Hp. rewrite SA', HP by auto. reflexivity. }
  assert (P1 : forall i, s i * d i <> 0 -> s i <> 0) by (intros i N Z; apply N; rewrite Z; ring). assert (P2 : forall i, d i * s i <> 0 -> s i <> 0) by (intros i N Z; apply N; rewrite Z; ring).
  split; [|split; [|split]].
  - intros r c Hr Hc. unfold mult at 1. rewrite (S_ext m _ (fun p => op k U U (fun i => s i * d i) r p * op k U V s p c)) by (intros p Hp; rewrite AP, (SA' p c) by auto; reflexivity).
    rewrite (op_mul m k U U V (fun i => s i * d i) s) by (intros; apply SU; auto; eapply P1; eauto). rewrite (SA' r c) by auto. apply op_ext. intros i Hi. destruct (Req_dec (s i) 0) as [Z|N]; [rewrite Z; ring|rewrite D1 by auto; field; exact N].
  - intros r c Hr Hc. unfold mult at 1. rewrite (S_ext n _ (fun p => op k V V (fun i => d i * s i) r p * op k V U d p c)) by (intros p Hp; rewrite PA, (HP p c) by auto; reflexivity).
    rewrite (op_mul n k V V U (fun i => d i * s i) d) by (intros; apply SV; auto; eapply P2; eauto). rewrite (HP r c) by auto. apply op_ext. intros i Hi. destruct (Req_dec (s i) 0) as [Z|N]; [rewrite (D0 i Hi Z); ring|rewrite D1 by auto; field; exact N].
  - intros i j Hi Hj. rewrite !AP by auto. apply op_sym.
  - intros i j Hi Hj. rewrite !PA by auto. apply op_sym.
Qed.
(** the Penrose equations make P b the shortest least-squares solution *)
Lemma penrose_least_squares m n A P b x : penrose m n A P -> (forall r, (r < n)%nat -> x r = Sum m (fun c => P r c * b c)) -> least_squares m n A b x.
Proof.
  intros (P1 & P2 & P3 & P4) Hx.
  (* A^T (A x - b) = 0 *)
  assert (AX : forall r, (r < m)%nat -> Sum n (fun c => A r c * x c) = Sum m (fun q => mult n A P r q * b q)).
  { intros r Hr. unfold mult. rewrite (S_ext n _ (fun c => Sum m (fun q => (A r c * P c q) * b q))); [rewrite S_swap; apply S_ext; intros q Hq; rewrite S_mul_r; reflexivity|]. intros c Hc. rewrite Hx by exact Hc. rewrite <- S_mul_l. apply S_ext. intros; ring. }
  assert (N : forall c, (c < n)%nat -> Sum m (fun r => A r c * residual n A x b r) = 0).
  { intros c Hc. unfold residual. rewrite (S_ext m _ (fun r => Sum m (fun q => (mult n A P q r * A r c) * b q) - A r c * b r)).
    2:{ intros r Hr. rewrite AX by exact Hr. rewrite (S_ext m (fun q => mult n A P q r * A r c * b q) (fun q => A r c * (mult n A P r q * b q))) by (intros q Hq; rewrite (P3 q r) by auto; ring). rewrite S_mul_l. ring. }
    rewrite S_sub, S_swap. rewrite (S_ext m (fun q => Sum m (fun r => mult n A P q r * A r c * b q)) (fun q => A q c * b q)); [ring|]. intros q Hq. rewrite S_mul_r. f_equal. apply (P1 q c Hq Hc). }
  intros y. set (z := fun c => y c - x c).
  assert (RY : forall r, residual n A y b r = residual n A x b r + Sum n (fun c => A r c * z c)).
  { intros r. unfold residual, z. rewrite (S_ext n (fun c => A r c * (y c - x c)) (fun c => A r c * y c - A r c * x c)) by (intros; ring). rewrite S_sub. ring. }
  assert (Pyth : sqlen m (residual n A y b) = sqlen m (residual n A x b) + sqlen m (fun r => Sum n (fun c => A r c * z c))).
  { unfold sqlen. rewrite (S_ext m (fun i => residual n A y b i * residual n A y b i) (fun r => (residual n A x b r * residual n A x b r + Sum n (fun c => A r c * z c) * Sum n (fun c => A r c * z c)) + 2 * (Sum n (fun c => A r c * z c) * residual n A x b r))) by (intros r Hr; rewrite RY; ring).
    rewrite S_add, S_add, S_mul_l. assert (X : Sum m (fun r => Sum n (fun c => A r c * z c) * residual n A x b r) = 0).
    { rewrite (S_ext m _ (fun r => Sum n (fun c => z c * (A r c * residual n A x b r)))) by (intros r Hr; rewrite <- S_mul_r; apply S_ext; intros; ring). rewrite S_swap. apply S_zero. intros c Hc. rewrite S_mul_l, N by exact Hc. ring. }
    rewrite X. ring. }
  assert (Q : 0 <= sqlen m (fun r => Sum n (fun c => A r c * z c))) by (apply S_nonneg; intros; apply Rle_0_sqr).
  split; [lra|]. intros E. assert (Z0 : forall r, (r < m)%nat -> Sum n (fun c => A r c * z c) = 0).
  { intros r Hr. assert (Zs : sqlen m (fun r => Sum n (fun c => A r c * z c)) = 0) by lra. pose proof (S_pos_zero m _ (fun i _ => Rle_0_sqr (Sum n (fun c => A i c * z c))) Zs r Hr) as K. unfold Rsqr in K. apply Rmult_integral in K. tauto. }
  (* x = P A x, so x . z = x . P A z = 0 *)
  assert (XP : forall r, (r < n)%nat -> x r = Sum n (fun c => mult m P A r c * x c)).
  { intros r Hr. rewrite (Hx r Hr). rewrite (S_ext n _ (fun c => Sum m (fun q => (mult m P A r c * P c q) * b q))) by (intros c Hc; rewrite (Hx c Hc), <- S_mul_l; apply S_ext; intros; ring).
    rewrite S_swap. apply S_ext. intros q Hq. rewrite S_mul_r. f_equal. symmetry. apply (P2 r q Hr Hq). }
  assert (PZ : forall c, (c < n)%nat -> Sum n (fun r => mult m P A c r * z r) = 0).
  { intros c Hc. unfold mult. rewrite (S_ext n _ (fun r => Sum m (fun q => P c q * (A q r * z r)))) by (intros r Hr; rewrite <- S_mul_r; apply S_ext; intros; ring). rewrite S_swap. apply S_zero. intros q Hq. rewrite S_mul_l, Z0 by exact Hq. ring. }
  assert (XZ : Sum n (fun r => x r * z r) = 0).
  { rewrite (S_ext n _ (fun r => Sum n (fun c => x c * (mult m P A c r * z r)))) by (intros r Hr; rewrite (XP r Hr) at 1; rewrite <- S_mul_r; apply S_ext; intros c Hc; rewrite (P4 r c) by auto; ring).
    rewrite S_swap. apply S_zero. intros c Hc. rewrite S_mul_l, PZ by exact Hc. ring. }
  assert (LY : sqlen n y = sqlen n x + sqlen n z).
  { unfold sqlen. rewrite (S_ext n (fun i => y i * y i) (fun i => (x i * x i + z i * z i) + 2 * (x i * z i))) by (intros; unfold z; ring). rewrite !S_add, S_mul_l, XZ. ring. }
  assert (0 <= sqlen n z) by (apply S_nonneg; intros; apply Rle_0_sqr). lra.
Qed.
(** the loop of both get_inv_diag functions *)
Lemma inv_loop n (s : vec R) (T cond : R) : (n <= vlen s)%nat -> 0 <= T ->
  gives_vec (for_ 0 n (fun i v => x <- vget s i ;; if R_ltb T (x * cond) then (y <- div (F:=R) 1 x ;; vset v i y) else vset v i 0) (vnew n)) n (fun i => if R_ltb T (vat s i * cond) then / vat s i else 0).
Proof.
  intros Hn HT. apply wp_ok_inv. eapply wp_mono; [apply (wp_for (fun k v => vlen v = n /\ forall i, (i < k)%nat -> vat v i = if R_ltb T (vat s i * cond) then / vat s i else 0))|].
  - lia.
  - split; [reflexivity|lia].
  - intros i v Hi (V1 & V2). rewrite vget_ok by lia. cbn [bind]. destruct (R_ltb T (vat s i * cond)) eqn:E.
    + assert (Nz : vat s i <> 0). { intros Z. apply R_ltb_spec in E. rewrite Z in E. lra. }
      rewrite R_div_ok by exact Nz. cbn [bind]. rewrite vset_ok by lia. cbn [wp vlen vat]. split; [exact V1|]. intros k Hk. destruct (Nat.eqb_spec k i) as [->|]; [rewrite E; unfold Rdiv; ring|apply V2; lia].
    + rewrite vset_ok by lia. cbn [wp vlen vat]. split; [exact V1|]. intros k Hk. destruct (Nat.eqb_spec k i) as [->|]; [rewrite E; reflexivity|apply V2; lia].
  - intros v (V1 & V2). split; [exact V1|]. intros i Hi. apply V2. exact Hi.
Qed.
(** the products V diag(d) U^T, applied or not *)
Lemma pinv_model m n k (U V : mat R) (d : vec R) : mrows U = m -> mcols U = k -> mrows V = n -> mcols V = k -> vlen d = k ->
  gives_mat (t <- mvdiag V d ;; mmul t (tr U)) n m (op k (mel V) (mel U) (vat d)).
Proof.
  intros H1 H2 H3 H4 Hd. destruct (@mvdiag_ok R ROps d V ltac:(congruence)) as (t & E & T1 & T2 & T3). rewrite E. cbn [bind].
  destruct (@mmul_ok R ROps t (tr U)) as (p & Ep & P1 & P2 & P3); [cbn [tr mrows]; congruence|]. exists p. split; [exact Ep|]. cbn [tr mrows mcols mel] in *.
  split; [congruence|]. split; [congruence|]. intros i j Hi Hj. rewrite P3 by congruence. rewrite T2, H4. apply S_ext. intros q Hq. cbn [tr mel]. rewrite T3 by congruence. reflexivity.
Qed.
Lemma backsub_vec_model m n k (U V : mat R) (d b : vec R) : mrows U = m -> mcols U = k -> mrows V = n -> mcols V = k -> vlen d = k -> vlen b = m ->
  gives_vec (t <- mv (tr U) b ;; t <- vdiagmult d t ;; mv V t) n (fun r => Sum m (fun c => op k (mel V) (mel U) (vat d) r c * vat b c)).
Proof.
  intros H1 H2 H3 H4 Hd Hb. destruct (@mv_ok R ROps (tr U) b ltac:(cbn [tr mcols]; congruence)) as (t & Et & T1 & T2). rewrite Et. cbn [bind tr mrows mcols mel] in *.
  destruct (@vdiagmult_ok R ROps d t ltac:(congruence)) as (u & Eu & U1 & U2). rewrite Eu. cbn [bind].
  destruct (@mv_ok R ROps V u ltac:(congruence)) as (x & Ex & X1 & X2). exists x. split; [exact Ex|]. split; [congruence|]. intros r Hr. rewrite X2 by congruence. rewrite H4.
  unfold op. rewrite (S_ext m _ (fun c => Sum k (fun i => (mel V r i * vat d i) * (mel U c i * vat b c)))) by (intros c Hc; rewrite <- S_mul_r; apply S_ext; intros; ring). rewrite S_swap.
  apply S_ext. intros i Hi. rewrite S_mul_l. rewrite U2 by congruence. rewrite T2 by congruence. rewrite H1. cbn [fmul ROps]. rewrite Rmult_assoc. reflexivity.
Qed.
Lemma backsub_mat_model m n k (U V : mat R) (d : vec R) (B : mat R) : mrows U = m -> mcols U = k -> mrows V = n -> mcols V = k -> vlen d = k -> mrows B = m ->
  gives_mat (t <- mmul (tr U) B ;; t <- vmdiag d t ;; mmul V t) n (mcols B) (fun r c => Sum m (fun q => op k (mel V) (mel U) (vat d) r q * mel B q c)).
Proof.
  intros H1 H2 H3 H4 Hd Hb. destruct (@mmul_ok R ROps (tr U) B ltac:(cbn [tr mcols]; congruence)) as (t & Et & T1 & T2 & T3). rewrite Et. cbn [bind tr mrows mcols mel] in *.
  destruct (@vmdiag_ok R ROps d t ltac:(congruence)) as (u & Eu & U1 & U2 & U3). rewrite Eu. cbn [bind].
  destruct (@mmul_ok R ROps V u ltac:(congruence)) as (x & Ex & X1 & X2 & X3). exists x. split; [exact Ex|]. split; [congruence|]. split; [congruence|]. intros r c Hr Hc. rewrite X3 by congruence. rewrite H4.
  unfold op. rewrite (S_ext m _ (fun q => Sum k (fun i => (mel V r i * vat d i) * (mel U q i * mel B q c)))) by (intros q Hq; rewrite <- S_mul_r; apply S_ext; intros; ring). rewrite S_swap.
  apply S_ext. intros i Hi. rewrite S_mul_l. rewrite U3 by congruence. rewrite T3 by congruence. rewrite H1. cbn [fmul ROps]. rewrite Rmult_assoc. reflexivity.
Qed.
(** the running maximum and minimum *)
Lemma gr_largest_ok S : (0 < vlen (gr_diag S))%nat -> exists M, gr_largest S = Ok M /\ (forall i, (i < vlen (gr_diag S))%nat -> vat (gr_diag S) i <= M) /\ exists i, (i < vlen (gr_diag S))%nat /\ vat (gr_diag S) i = M.
Proof.
  intros Hn. unfold gr_largest. rewrite vget_ok by lia. cbn [bind]. apply wp_ok_inv.
  eapply wp_mono; [apply (wp_for (fun k d => (forall i, (i < k)%nat -> vat (gr_diag S) i <= d) /\ exists i, (i < k)%nat /\ vat (gr_diag S) i = d))|].
  - lia.
  - split; [|exists 0%nat; split; [lia|reflexivity]]. intros i Hi. replace i with 0%nat by lia. lra.
  - intros i d Hi (A & j & Hj & E). rewrite vget_ok by lia. cbn [bind wp]. destruct (R_ltb d (vat (gr_diag S) i)) eqn:T; [apply R_ltb_spec in T|apply R_ltb_false in T].
    + split; [|exists i; split; [lia|reflexivity]]. intros q Hq. destruct (Nat.eq_dec q i) as [->|]; [lra|]. specialize (A q ltac:(lia)). lra.
    + split; [|exists j; split; [lia|exact E]]. intros q Hq. destruct (Nat.eq_dec q i) as [->|]; [lra|]. apply A. lia.
  - intros d H. exact H.
Qed.
Lemma gr_smallest_ok S : (0 < vlen (gr_diag S))%nat -> exists M j, gr_smallest S = Ok M /\ gr_smallest_index S = Ok j /\ (j < vlen (gr_diag S))%nat /\ vat (gr_diag S) j = M /\ (forall i, (i < vlen (gr_diag S))%nat -> M <= vat (gr_diag S) i) /\ (forall i, (i < j)%nat -> M < vat (gr_diag S) i).
Proof.
  intros Hn. assert (A : exists M, gr_smallest S = Ok M /\ (forall i, (i < vlen (gr_diag S))%nat -> M <= vat (gr_diag S) i) /\ exists i, (i < vlen (gr_diag S))%nat /\ vat (gr_diag S) i = M).
  { unfold gr_smallest. rewrite vget_ok by lia. cbn [bind]. apply wp_ok_inv.
    eapply wp_mono; [apply (wp_for (fun k d => (forall i, (i < k)%nat -> d <= vat (gr_diag S) i) /\ exists i, (i < k)%nat /\ vat (gr_diag S) i = d))|].
    - lia.
    - split; [|exists 0%nat; split; [lia|reflexivity]]. intros i Hi. replace i with 0%nat by lia. lra.
    - intros i d Hi (A & j & Hj & E). rewrite vget_ok by lia. cbn [bind wp]. destruct (R_ltb (vat (gr_diag S) i) d) eqn:T; [apply R_ltb_spec in T|apply R_ltb_false in T].
      + split; [|exists i; split; [lia|reflexivity]]. intros q Hq. destruct (Nat.eq_dec q i) as [->|]; [lra|]. specialize (A q ltac:(lia)). lra.
      + split; [|exists j; split; [lia|exact E]]. intros q Hq. destruct (Nat.eq_dec q i) as [->|]; [lra|]. apply A. lia.
    - intros d H. exact H. }
  assert (B : exists r, for_ 1 (vlen (gr_diag S)) (fun i s => x <- vget (gr_diag S) i ;; Ok (if R_ltb x (snd s) then (i, x) else s)) (0%nat, vat (gr_diag S) 0%nat) = Ok r /\
    ((fst r < vlen (gr_diag S))%nat /\ vat (gr_diag S) (fst r) = snd r /\ (forall i, (i < vlen (gr_diag S))%nat -> snd r <= vat (gr_diag S) i) /\ forall i, (i < fst r)%nat -> snd r < vat (gr_diag S) i)).
  { apply wp_ok_inv. eapply wp_mono; [apply (wp_for (fun k r => (fst r < k)%nat /\ vat (gr_diag S) (fst r) = snd r /\ (forall i, (i < k)%nat -> snd r <= vat (gr_diag S) i) /\ forall i, (i < fst r)%nat -> snd r < vat (gr_diag S) i))|].
    - lia.
    - cbn [fst snd]. repeat split; [lia| |lia]. intros i Hi. replace i with 0%nat by lia. lra.
    - intros i [j d] Hi (A1 & A2 & A3 & A4). cbn [fst snd] in *. rewrite vget_ok by lia. cbn [bind wp]. destruct (R_ltb (vat (gr_diag S) i) d) eqn:T; cbn [fst snd]; [apply R_ltb_spec in T|apply R_ltb_false in T].
      + repeat split; [lia| |]. { intros q Hq. destruct (Nat.eq_dec q i) as [->|]; [lra|]. specialize (A3 q ltac:(lia)). lra. } intros q Hq. specialize (A3 q ltac:(lia)). lra.
      + repeat split; [lia|exact A2| |exact A4]. intros q Hq. destruct (Nat.eq_dec q i) as [->|]; [lra|]. apply A3. lia.
    - intros r H. exact H. }
  destruct A as (M & EM & LM & j & Hj & Ej). destruct B as ([k d] & Er & B1 & B2 & B3 & B4). cbn [fst snd] in *. assert (Ed : d = M). { apply Rle_antisym; [rewrite <- Ej; apply B3; exact Hj|rewrite <- B2; apply LM; exact B1]. } rewrite Ed in B2, B3, B4.
  exists M, k. split; [exact EM|]. split; [unfold gr_smallest_index; rewrite vget_ok by lia; cbn [bind]; rewrite Er; reflexivity|]. exact (conj B1 (conj B2 (conj B3 B4))).
Qed.
(** ** reorder *)
Definition pair_le (a b : R * nat) : Prop := fst a <= fst b.
Lemma insert_perm a l : Permutation (insert_pair a l) (a :: l).
Proof. induction l as [|b l IH]; cbn [insert_pair]; [apply Permutation_refl|]. destruct (pair_lt a b); [apply Permutation_refl|]. eapply Permutation_trans; [apply perm_skip, IH|apply perm_swap]. Qed.
Lemma sort_perm l : Permutation (sort_list l) l.
Proof. induction l as [|a l IH]; cbn [sort_list]; [apply Permutation_refl|]. eapply Permutation_trans; [apply insert_perm|apply perm_skip, IH]. Qed.
Inductive ascending : list (R * nat) -> Prop :=
| asc_nil : ascending nil
| asc_cons a l : (forall b, In b l -> pair_le a b) -> ascending l -> ascending (a :: l).
Lemma insert_asc a l : ascending l -> ascending (insert_pair a l).
Proof.
  induction 1 as [|b l Hb Hl IH]; cbn [insert_pair]; [constructor; [intros b []|constructor]|]. destruct (pair_lt a b) eqn:T.
  - assert (Q : pair_le a b). { unfold pair_lt in T. unfold pair_le. apply orb_true_iff in T. destruct T as [T|T]; [apply R_ltb_spec in T; lra|]. apply andb_true_iff in T. destruct T as (T & _). apply negb_true_iff, R_ltb_false in T. exact T. }
    constructor; [|constructor; assumption]. intros c [->|Hc]; [exact Q|]. specialize (Hb c Hc). unfold pair_le in *. lra.
  - assert (Q : pair_le b a). { unfold pair_lt in T. unfold pair_le. apply orb_false_iff in T. destruct T as (T & _). apply R_ltb_false in T. exact T. }
    constructor; [|exact IH]. intros c Hc. apply (Permutation_in _ (insert_perm a l)) in Hc. destruct Hc as [->|Hc]; [exact Q|apply Hb; exact Hc].
Qed.
Lemma sort_asc l : ascending (sort_list l).
Proof. induction l as [|a l IH]; cbn [sort_list]; [constructor|apply insert_asc, IH]. Qed.
Lemma asc_nth l d : ascending l -> forall i j, (i < j < length l)%nat -> pair_le (nth i l d) (nth j l d).
Proof.
  induction 1 as [|a l Ha Hl IH]; intros i j Hij; cbn [length] in Hij; [lia|]. destruct j as [|j]; [lia|]. destruct i as [|i]; cbn [nth].
  - apply Ha. apply nth_In. lia.
  - apply IH. lia.
Qed.
Fixpoint lsum (l : list R) : R := match l with nil => 0 | x :: t => x + lsum t end.
Lemma lsum_perm l l' : Permutation l l' -> lsum l = lsum l'.
Proof. induction 1; cbn [lsum]; lra. Qed.
Lemma lsum_app l l' : lsum (l ++ l') = lsum l + lsum l'.
Proof. induction l as [|a l IH]; cbn [lsum app]; [lra|]. rewrite IH. ring. Qed.
Lemma sum_seq n f : Sum n f = lsum (map f (seq 0 n)).
Proof. induction n as [|n IH]; [reflexivity|]. rewrite seq_S, map_app, lsum_app. cbn [sum map lsum]. cbn [fadd ROps]. rewrite IH. cbn [Nat.add]. ring. Qed.
Lemma map_nth_seq {A} (l : list A) d : map (fun i => nth i l d) (seq 0 (length l)) = l.
Proof. induction l as [|a l IH]; [reflexivity|]. cbn [length seq map nth]. f_equal. rewrite <- seq_shift, map_map. exact IH. Qed.
(** a sum over a rearranged index *)
Lemma sum_reindex n (p : nat -> nat) f : Permutation (map p (seq 0 n)) (seq 0 n) -> Sum n (fun i => f (p i)) = Sum n f.
Proof. intros H. rewrite !sum_seq. rewrite <- (map_map p f). apply lsum_perm. apply Permutation_map. exact H. Qed.
(** the sorted list and the permutation it defines *)
Definition tagged (s : nat -> R) (n : nat) : list (R * nat) := map (fun i => (- s i, i)) (seq 0 n).
Lemma tagged_len s n : length (sort_list (tagged s n)) = n.
Proof. rewrite (Permutation_length (sort_perm _)). unfold tagged. rewrite map_length, seq_length. reflexivity. Qed.
Definition perm_of (s : nat -> R) (n i : nat) : nat := snd (nth i (sort_list (tagged s n)) (0, 0%nat)).
Lemma perm_of_perm s n : Permutation (map (perm_of s n) (seq 0 n)) (seq 0 n).
Proof.
  unfold perm_of. rewrite <- (map_map (fun i => nth i (sort_list (tagged s n)) (0, 0%nat)) snd). pose proof (map_nth_seq (sort_list (tagged s n)) (0, 0%nat)) as E. rewrite tagged_len in E. rewrite E.
  eapply Permutation_trans; [apply Permutation_map, sort_perm|]. unfold tagged. rewrite map_map. cbn [snd]. rewrite map_id. apply Permutation_refl.
Qed.
Lemma tagged_in s n i : (i < n)%nat -> In (nth i (sort_list (tagged s n)) (0, 0%nat)) (tagged s n).
Proof. intros Hi. apply (Permutation_in _ (sort_perm _)). apply nth_In. rewrite tagged_len. exact Hi. Qed.
Lemma perm_of_lt s n i : (i < n)%nat -> (perm_of s n i < n)%nat /\ - fst (nth i (sort_list (tagged s n)) (0, 0%nat)) = s (perm_of s n i).
Proof.
  intros Hi. pose proof (tagged_in s n i Hi) as H. unfold perm_of. unfold tagged in H at 2. apply in_map_iff in H. destruct H as (j & E & Hj). rewrite <- E. cbn [fst snd]. apply in_seq in Hj. split; [lia|ring].
Qed.
Lemma perm_of_desc s n i j : (i < j < n)%nat -> s (perm_of s n j) <= s (perm_of s n i).
Proof.
  intros H. destruct (perm_of_lt s n i ltac:(lia)) as (_ & <-). destruct (perm_of_lt s n j ltac:(lia)) as (_ & <-).
  pose proof (asc_nth _ (0, 0%nat) (sort_asc (tagged s n)) i j ltac:(rewrite tagged_len; exact H)) as L. unfold pair_le in L. lra.
Qed.
Lemma perm_of_inj s n i j : (i < n)%nat -> (j < n)%nat -> perm_of s n i = perm_of s n j -> i = j.
Proof.
  intros Hi Hj E. assert (ND : NoDup (map (perm_of s n) (seq 0 n))) by (eapply Permutation_NoDup; [apply Permutation_sym, perm_of_perm|apply seq_NoDup]).
  apply (proj1 (NoDup_nth _ 0%nat) ND i j); [rewrite map_length, seq_length; exact Hi|rewrite map_length, seq_length; exact Hj|].
  rewrite !(nth_indep (map (perm_of s n) (seq 0 n)) 0%nat (perm_of s n 0)) by (rewrite map_length, seq_length; assumption). rewrite !map_nth, !seq_nth by assumption. exact E.
Qed.
