(** * The index walk of SL's generators, and sums of generators. *)
From Coq Require Import Reals Arith Bool Lia List Field.
From Verif Require Import Base Alg Mat SpecMat LemMat ModelOps LemOps Inst SpecLin LemLin ModelHelpers LemHelpers LemChol ModelGauss LemGauss LemDet LemDetMore LemDetMul LemDeterminant ModelLie ModelSL.
Import ListNotations.
Open Scope outcome_scope.

(** pairs (r, c), r < c < N, numbered row by row *)
Fixpoint off (N r : nat) : nat := match r with 0 => 0 | S r => off N r + (N - 1 - r) end.
Definition pos (N r c : nat) : nat := off N r + (c - r - 1).
Lemma off_double N r : r <= N -> 2 * off N r + r * r + r = 2 * (r * N).
Proof. induction r; intros H; cbn [off]; [lia|]. specialize (IHr ltac:(lia)). nia. Qed.
Lemma off_mono N r s : r < s -> off N r + (N - 1 - r) <= off N s.
Proof. induction s; intros H; [lia|]. cbn [off]. destruct (Nat.eq_dec r s) as [->|]; lia. Qed.
Lemma off_last N : 1 <= N -> off N (N - 1) = count_symm N.
Proof.
  intros H. unfold count_symm, sl_dim, count_diag. pose proof (off_double N (N - 1) ltac:(lia)) as D.
  replace (N * N - 1 - (N - 1)) with (off N (N - 1) * 2) by nia. rewrite Nat.div_mul; lia.
Qed.
Lemma dims N : 1 <= N -> sl_dim N = diag_limit N + (count_symm N + count_symm N) /\ symm_limit N = diag_limit N + count_symm N.
Proof.
  intros H. pose proof (off_last N H) as L. pose proof (off_double N (N - 1) ltac:(lia)) as D.
  unfold symm_limit, diag_limit, count_diag, sl_dim. rewrite <- L. nia.
Qed.
Lemma pos_lt N r c : r < c -> c < N -> pos N r c < count_symm N.
Proof. intros H1 H2. rewrite <- off_last by lia. unfold pos. pose proof (off_mono N r (N - 1) ltac:(lia)). lia. Qed.
Lemma pos_inj N r c s d : r < c -> c < N -> s < d -> d < N -> pos N r c = pos N s d -> r = s /\ c = d.
Proof.
  intros H1 H2 H3 H4 E. unfold pos in E.
  assert (r = s). { destruct (lt_eq_lt_dec r s) as [[L| ]|L]; auto; [pose proof (off_mono N r s L)|pose proof (off_mono N s r L)]; lia. }
  subst s. split; lia.
Qed.
Lemma sl_walk_gen N p : p < count_symm N -> 1 <= N -> forall fuel row col, N - row < fuel -> row < N -> off N row + col = p + 1 -> 1 <= col ->
  exists r c, sl_walk fuel N row col = Ok (r, c - r) /\ r < c /\ c < N /\ pos N r c = p.
Proof.
  intros Hp HN. induction fuel; intros row col Hf Hr Ho Hc; [lia|]. cbn [sl_walk].
  destruct (Nat.ltb_spec (N - row - 1) col) as [L|L].
  - apply IHfuel; try lia.
    + destruct (Nat.eq_dec row (N - 1)) as [->|]; [|lia]. exfalso. rewrite off_last in Ho by lia. lia.
    + cbn [off]. lia.
  - exists row, (col + row). split; [do 2 f_equal; lia|]. split; [lia|]. split; [lia|]. unfold pos. lia.
Qed.
Lemma sl_walk_ok N p : p < count_symm N -> 1 <= N -> exists r c, sl_walk (S N) N 0 (p + 1) = Ok (r, c - r) /\ r < c /\ c < N /\ pos N r c = p.
Proof. intros Hp HN. apply sl_walk_gen; auto; cbn [off]; lia. Qed.

Section S.
Context {F : Type} {Fo : Ops F} {Fl : Laws F}.
Open Scope F_scope.
Add Field Ff : law_field.
Definition unit_ (a b r c : nat) : F := if ((r =? a) && (c =? b))%bool then 1 else 0.
Lemma unit_at a b r c : r = a -> c = b -> unit_ a b r c = 1.
Proof. intros -> ->. unfold unit_. rewrite !Nat.eqb_refl. reflexivity. Qed.
Lemma unit_off a b r c : r <> a \/ c <> b -> unit_ a b r c = 0.
Proof. intros H. unfold unit_. destruct (Nat.eqb_spec r a), (Nat.eqb_spec c b); cbn [andb]; auto. destruct H; contradiction. Qed.
Lemma gen_diag N i : (i < diag_limit N)%nat -> (1 <= N)%nat -> gives_mat (sl_generator N i) N N (fun r c => unit_ i i r c - unit_ (i + 1) (i + 1) r c).
Proof.
  intros Hi HN. unfold sl_generator. destruct (dims N HN) as [D1 D2]. unfold diag_limit, count_diag in *.
  assert (E : (i <? sl_dim N) = true) by (apply Nat.ltb_lt; lia). rewrite E. unfold assert_. cbn [bind].
  assert (E' : (i <? N - 1) = true) by (apply Nat.ltb_lt; lia). rewrite E'.
  rewrite mset_ok by (cbn; lia). cbn [bind mrows mcols sl_zeros]. rewrite mset_ok by (cbn; lia).
  eexists. split; [reflexivity|]. split; [reflexivity|]. split; [reflexivity|]. intros r c Hr Hc. cbn [mel sl_zeros].
  unfold unit_. destruct (Nat.eqb_spec r (i + 1)), (Nat.eqb_spec c (i + 1)), (Nat.eqb_spec r i), (Nat.eqb_spec c i); cbn [andb]; subst; try lia; ring.
Qed.
Lemma gen_symm N p : (p < count_symm N)%nat -> (1 <= N)%nat -> exists a b, (a < b < N)%nat /\ pos N a b = p /\
  gives_mat (sl_generator N (diag_limit N + p)) N N (fun r c => unit_ a b r c + unit_ b a r c) /\
  gives_mat (sl_generator N (symm_limit N + p)) N N (fun r c => unit_ b a r c - unit_ a b r c).
Proof.
  intros Hp HN. destruct (sl_walk_ok N p Hp HN) as (a & b & W & H1 & H2 & E). exists a, b. split; [lia|]. split; [exact E|].
  destruct (dims N HN) as [D1 D2]. split.
  - unfold sl_generator.
    assert (E1 : (diag_limit N + p <? sl_dim N) = true) by (apply Nat.ltb_lt; lia). rewrite E1. unfold assert_. cbn [bind].
    assert (E2 : (diag_limit N + p <? diag_limit N) = false) by (apply Nat.ltb_ge; lia). rewrite E2.
    assert (E3 : (diag_limit N + p <? symm_limit N) = true) by (apply Nat.ltb_lt; lia). rewrite E3.
    replace (diag_limit N + p - diag_limit N + 1)%nat with (p + 1)%nat by lia. rewrite W. cbn [bind].
    replace (b - a + a)%nat with b by lia.
    rewrite mset_ok by (cbn; lia). cbn [bind mrows mcols sl_zeros]. rewrite mset_ok by (cbn; lia).
    eexists. split; [reflexivity|]. split; [reflexivity|]. split; [reflexivity|]. intros r c Hr Hc. cbn [mel sl_zeros].
    unfold unit_. destruct (Nat.eqb_spec r a), (Nat.eqb_spec c b), (Nat.eqb_spec r b), (Nat.eqb_spec c a); cbn [andb]; subst; try lia; ring.
  - unfold sl_generator.
    assert (E1 : (symm_limit N + p <? sl_dim N) = true) by (apply Nat.ltb_lt; lia). rewrite E1. unfold assert_. cbn [bind].
    assert (E2 : (symm_limit N + p <? diag_limit N) = false) by (apply Nat.ltb_ge; lia). rewrite E2.
    assert (E3 : (symm_limit N + p <? symm_limit N) = false) by (apply Nat.ltb_ge; lia). rewrite E3.
    replace (symm_limit N + p - symm_limit N + 1)%nat with (p + 1)%nat by lia. rewrite W. cbn [bind].
    replace (b - a + a)%nat with b by lia.
    rewrite mset_ok by (cbn; lia). cbn [bind mrows mcols sl_zeros]. rewrite mset_ok by (cbn; lia).
    eexists. split; [reflexivity|]. split; [reflexivity|]. split; [reflexivity|]. intros r c Hr Hc. cbn [mel sl_zeros].
    unfold unit_. destruct (Nat.eqb_spec r a), (Nat.eqb_spec c b), (Nat.eqb_spec r b), (Nat.eqb_spec c a); cbn [andb]; subst; try lia; ring.
Qed.
(** the matrices, as a function *)
Definition gmat (N i : nat) : nat -> nat -> F := match sl_generator N i with Ok m => mel m | _ => fun _ _ => 0 end.
Lemma gmat_is N i f : gives_mat (sl_generator N i) N N f -> forall r c, (r < N)%nat -> (c < N)%nat -> gmat N i r c = f r c.
Proof. intros (m & E & _ & _ & H) r c Hr Hc. unfold gmat. rewrite E. apply H; auto. Qed.
Lemma gen_total N i : (1 <= N)%nat -> (i < sl_dim N)%nat -> gives_mat (sl_generator N i) N N (gmat N i).
Proof.
  intros HN Hi. destruct (dims N HN) as [D1 D2].
  assert (G : exists f, gives_mat (sl_generator N i) N N f).
  { destruct (le_lt_dec (diag_limit N) i) as [L|L]; [|eexists; apply gen_diag; auto].
    destruct (le_lt_dec (symm_limit N) i) as [L'|L'].
    - destruct (gen_symm N (i - symm_limit N) ltac:(lia) HN) as (a & b & _ & _ & _ & G). replace (symm_limit N + (i - symm_limit N))%nat with i in G by lia. eauto.
    - destruct (gen_symm N (i - diag_limit N) ltac:(lia) HN) as (a & b & _ & _ & G & _). replace (diag_limit N + (i - diag_limit N))%nat with i in G by lia. eauto. }
  destruct G as (f & m & E & S1 & S2 & H). exists m. split; [exact E|]. split; [exact S1|]. split; [exact S2|].
  intros r c Hr Hc. unfold gmat. rewrite E. reflexivity.
Qed.
(** linear combinations *)
Definition lin_comb (N : nat) (v : nat -> F) (r c : nat) : F := sum (sl_dim N) (fun i => v i * gmat N i r c).
Lemma sum_diag n (v : nat -> F) r : (r <= n)%nat ->
  sum n (fun i => v i * (unit_ i i r r - unit_ (i + 1) (i + 1) r r)) = (if r <? n then v r else 0) - (match r with 0%nat => 0 | S q => v q end).
Proof.
  intros Hr.
  transitivity (sum n (fun i => v i * unit_ i i r r) - sum n (fun i => v i * unit_ (i + 1) (i + 1) r r)).
  { rewrite <- sum_sub. apply sum_ext. intros; ring. }
  f_equal.
  - destruct (Nat.ltb_spec r n) as [L|L].
    + rewrite (sum_one n r); auto. { rewrite unit_at by auto. ring. } intros i Hi Hn. rewrite unit_off by auto. ring.
    + apply sum_zero. intros i Hi. rewrite unit_off by lia. ring.
  - destruct r as [|q].
    + apply sum_zero. intros i Hi. rewrite unit_off by lia. ring.
    + rewrite (sum_one n q); [|lia|]. { rewrite unit_at by lia. ring. } intros i Hi Hn. rewrite unit_off by lia. ring.
Qed.
Lemma lin_comb_split N v r c : (1 <= N)%nat -> (r < N)%nat -> (c < N)%nat ->
  lin_comb N v r c = sum (diag_limit N) (fun i => v i * (unit_ i i r c - unit_ (i + 1) (i + 1) r c))
    + (sum (count_symm N) (fun p => v (diag_limit N + p)%nat * gmat N (diag_limit N + p) r c)
      + sum (count_symm N) (fun p => v (symm_limit N + p)%nat * gmat N (symm_limit N + p) r c)).
Proof.
  intros HN Hr Hc. unfold lin_comb. destruct (dims N HN) as [D1 D2]. rewrite D1, sum_split. f_equal.
  - apply sum_ext. intros i Hi. f_equal. apply (gmat_is N i _ (gen_diag N i Hi HN)); auto.
  - rewrite sum_split. f_equal. apply sum_ext. intros p Hp. rewrite D2, Nat.add_assoc. reflexivity.
Qed.
Lemma lin_comb_diag N v r : (1 <= N)%nat -> (r < N)%nat ->
  lin_comb N v r r = (if r <? N - 1 then v r else 0) - (match r with 0%nat => 0 | S q => v q end).
Proof.
  intros HN Hr. rewrite lin_comb_split by auto.
  rewrite sum_diag by (unfold diag_limit, count_diag; lia).
  assert (Z1 : forall p, (p < count_symm N)%nat -> gmat N (diag_limit N + p) r r = 0 /\ gmat N (symm_limit N + p) r r = 0).
  { intros p Hp. destruct (gen_symm N p Hp HN) as (a & b & H & _ & G1 & G2). rewrite (gmat_is _ _ _ G1), (gmat_is _ _ _ G2) by auto.
    rewrite !unit_off by lia. split; ring. }
  rewrite !sum_zero; [unfold diag_limit, count_diag; ring| |]; intros p Hp; destruct (Z1 p Hp) as [E1 E2]; rewrite ?E1, ?E2; ring.
Qed.
Lemma lin_comb_upper N v r c : (r < c)%nat -> (c < N)%nat ->
  lin_comb N v r c = v (diag_limit N + pos N r c)%nat - v (symm_limit N + pos N r c)%nat /\
  lin_comb N v c r = v (diag_limit N + pos N r c)%nat + v (symm_limit N + pos N r c)%nat.
Proof.
  intros Hr Hc. assert (HN : (1 <= N)%nat) by lia.
  assert (Z : forall p, (p < count_symm N)%nat -> p <> pos N r c -> gmat N (diag_limit N + p) r c = 0 /\ gmat N (symm_limit N + p) r c = 0 /\
     gmat N (diag_limit N + p) c r = 0 /\ gmat N (symm_limit N + p) c r = 0).
  { intros p Hp Hn. destruct (gen_symm N p Hp HN) as (a & b & H & E & G1 & G2).
    rewrite !(gmat_is _ _ _ G1), !(gmat_is _ _ _ G2) by lia.
    assert (a <> r \/ b <> c). { destruct (Nat.eq_dec a r); destruct (Nat.eq_dec b c); auto. subst. congruence. }
    rewrite !unit_off by lia. repeat split; ring. }
  destruct (gen_symm N (pos N r c) (pos_lt N r c Hr Hc) HN) as (a & b & H & E & G1 & G2).
  destruct (pos_inj N a b r c ltac:(lia) ltac:(lia) Hr Hc E) as [-> ->].
  rewrite !lin_comb_split by lia.
  rewrite !(sum_zero (diag_limit N)) by (intros i Hi; rewrite !unit_off by lia; ring).
  rewrite !(sum_one (count_symm N) (pos N r c)); auto using pos_lt; try (intros p Hp Hn; destruct (Z p Hp Hn) as (E1 & E2 & E3 & E4); rewrite ?E1, ?E2, ?E3, ?E4; ring).
  rewrite !(gmat_is _ _ _ G1), !(gmat_is _ _ _ G2) by lia.
  rewrite (unit_at r c r c), (unit_at c r c r), (unit_off r c c r), (unit_off c r r c) by lia. split; ring.
Qed.

Lemma exp_matrix_ok N (v : vec F) : (1 <= N)%nat -> vlen v = sl_dim N -> gives_mat (sl_exp_matrix N v) N N (lin_comb N (vat v)).
Proof.
  intros HN Hv. unfold sl_exp_matrix. rewrite same_size_eq by exact Hv. cbn [bind].
  apply wp_ok_inv.
  eapply wp_mono; [apply (wp_for (fun i t => mat_is t N N (fun r c => sum i (fun k => vat v k * gmat N k r c))) 0 (sl_dim N))|].
  - lia.
  - split; [reflexivity|]. split; [reflexivity|]. intros; reflexivity.
  - intros i t Hi (R1 & R2 & R3). destruct (gen_total N i HN ltac:(lia)) as (g & -> & G1 & G2 & G3). cbn [bind].
    rewrite vget_ok by lia. cbn [bind].
    destruct (mscale_ok g (vat v i)) as (s & -> & S1 & S2 & S3). cbn [bind].
    destruct (madd_assign_ok t s) as (q & -> & Q1 & Q2 & Q3); [congruence|congruence|]. cbn [wp].
    split; [congruence|]. split; [congruence|]. intros r c Hr Hc. rewrite Q3 by lia. rewrite R3 by auto. rewrite S3 by lia. rewrite G3 by auto. cbn [sum]. ring.
  - auto.
Qed.
Definition half_ : F := 1 / (1 + 1).
Lemma ln_vector_ok N (l : mat F) : (1 <= N)%nat -> mrows l = N -> mcols l = N -> exists v, sl_ln_vector N l = Ok v /\ vlen v = sl_dim N /\
  (forall i, (i < diag_limit N)%nat -> vat v i = mel l i i + match i with 0%nat => 0 | S k => mel l k k end) /\
  (forall r c, (r < c)%nat -> (c < N)%nat -> vat v (diag_limit N + pos N r c)%nat = (mel l r c + mel l c r) * half_ /\
     vat v (symm_limit N + pos N r c)%nat = (- mel l r c + mel l c r) * half_).
Proof.
  intros HN H1 H2. unfold sl_ln_vector. pose proof two_neq as T. unfold two in T. rewrite div_ok by exact T. cbn [bind]. fold half_.
  destruct (dims N HN) as [D1 D2].
  apply wp_ok_inv. apply wp_bind.
  assert (W1 : wp (for_ 0 (diag_limit N) (fun i s =>
     let '(v, last) := s in x <- mget l i i ;; v <- vset v i (fadd x last) ;; Ok (v, x)) (vnew (sl_dim N), f0)) (fun s => vlen (fst s) = sl_dim N /\ forall i, (i < diag_limit N)%nat -> vat (fst s) i = mel l i i + match i with 0%nat => 0 | S k => mel l k k end)).
  { eapply wp_mono; [apply (wp_for (fun n s => vlen (fst s) = sl_dim N /\ snd s = match n with 0%nat => 0 | S k => mel l k k end /\
       forall i, (i < n)%nat -> vat (fst s) i = mel l i i + match i with 0%nat => 0 | S k => mel l k k end) 0 (diag_limit N))|].
    - lia.
    - split; [reflexivity|]. split; [reflexivity|]. intros; lia.
    - intros i [v last] Hi (L & E & IH). cbn [fst snd] in *. unfold diag_limit, count_diag in *.
      rewrite mget_ok by lia. cbn [bind]. rewrite vset_ok by lia. cbn [bind wp fst snd vlen vat].
      split; [exact L|]. split; [reflexivity|]. intros j Hj. destruct (Nat.eqb_spec j i) as [->|Hn]; [rewrite E; reflexivity|apply IH; lia].
    - intros s (A & _ & B); auto. }
  eapply wp_mono; [exact W1|]. clear W1. intros [v0 last0] (L0 & I0). cbn [fst] in *. apply wp_bind.
    eapply wp_mono; [apply (wp_for (fun n s => let '(v, row, col) := s in vlen v = sl_dim N /\ (forall i, (i < diag_limit N)%nat -> vat v i = vat v0 i) /\
       ((n < symm_limit N)%nat -> (row < col)%nat /\ (col < N)%nat /\ (diag_limit N + pos N row col)%nat = n) /\
       forall r c, (r < c)%nat -> (c < N)%nat -> (diag_limit N + pos N r c < n)%nat -> vat v (diag_limit N + pos N r c)%nat = (mel l r c + mel l c r) * half_ /\
         vat v (symm_limit N + pos N r c)%nat = (- mel l r c + mel l c r) * half_) (diag_limit N) (symm_limit N))|].
    - lia.
    - split; [exact L0|]. split; [reflexivity|]. split; [|intros; lia]. intros H. split; [lia|]. split; [|unfold pos; cbn [off]; lia].
      destruct (le_lt_dec N 1) as [X|X]; [|lia]. exfalso. clear - H X HN. assert (E : N = 1%nat) by lia. rewrite E in H. vm_compute in H. lia.
    - intros i [[v row] col] Hi (L & Iv & Irc & IH). destruct (Irc ltac:(lia)) as (R1 & R2 & R3).
      rewrite !mget_ok by lia. cbn [bind]. rewrite vset_ok by lia. cbn [bind]. rewrite vset_ok by (cbn [vlen]; lia). cbn [bind vlen vat].
      assert (Q : forall w, vlen w = sl_dim N -> (forall j, vat w j = if (j =? i + count_symm N)%nat then (- mel l row col + mel l col row) * half_ else
            if (j =? i)%nat then (mel l row col + mel l col row) * half_ else vat v j) ->
          (forall j, (j < diag_limit N)%nat -> vat w j = vat v0 j) /\
          forall r c, (r < c)%nat -> (c < N)%nat -> (diag_limit N + pos N r c < S i)%nat -> vat w (diag_limit N + pos N r c)%nat = (mel l r c + mel l c r) * half_ /\
         vat w (symm_limit N + pos N r c)%nat = (- mel l r c + mel l c r) * half_).
      { intros w Lw Ew. split.
        - intros j Hj. rewrite Ew. destruct (Nat.eqb_spec j (i + count_symm N)); [lia|]. destruct (Nat.eqb_spec j i); [lia|]. apply Iv; auto.
        - intros r c Hr Hc Hp. rewrite !Ew. pose proof (pos_lt N r c Hr Hc).
          destruct (Nat.eq_dec (diag_limit N + pos N r c) i) as [E|E].
          + assert (E' : pos N r c = pos N row col) by lia. destruct (pos_inj N r c row col Hr Hc R1 R2 E') as [-> ->].
            destruct (Nat.eqb_spec (diag_limit N + pos N row col) (i + count_symm N)); [lia|].
            destruct (Nat.eqb_spec (diag_limit N + pos N row col) i); [|lia].
            destruct (Nat.eqb_spec (symm_limit N + pos N row col) (i + count_symm N)); [|lia]. auto.
          + destruct (Nat.eqb_spec (diag_limit N + pos N r c) (i + count_symm N)); [lia|].
            destruct (Nat.eqb_spec (diag_limit N + pos N r c) i); [lia|].
            destruct (Nat.eqb_spec (symm_limit N + pos N r c) (i + count_symm N)); [lia|].
            destruct (Nat.eqb_spec (symm_limit N + pos N r c) i); [lia|]. apply IH; auto. lia. }
      destruct (Nat.eqb_spec (col + 1) N) as [EN|EN]; cbn [wp].
      + split; [exact L|]. destruct (Q (mkvec (sl_dim N) (fun j => if (j =? i + count_symm N)%nat then (- mel l row col + mel l col row) * half_ else
            if (j =? i)%nat then (mel l row col + mel l col row) * half_ else vat v j)) eq_refl ltac:(reflexivity)) as [Q1 Q2].
        split; [exact Q1|]. split; [|exact Q2]. intros Hs.
        assert (EP : pos N (row + 1) (row + 1 + 1) = (pos N row col + 1)%nat).
        { unfold pos. replace (row + 1)%nat with (S row) by lia. cbn [off]. lia. }
        assert (row + 1 + 1 < N)%nat.
        { destruct (le_lt_dec N (row + 1 + 1)) as [X|X]; auto. exfalso. assert (E1 : (row + 1 = N - 1)%nat) by lia.
          assert (pos N row col + 1 = count_symm N)%nat; [|lia]. rewrite <- off_last by lia. rewrite <- E1. unfold pos. replace (row + 1)%nat with (S row) by lia. cbn [off]. lia. }
        lia.
      + split; [exact L|]. destruct (Q (mkvec (sl_dim N) (fun j => if (j =? i + count_symm N)%nat then (- mel l row col + mel l col row) * half_ else
            if (j =? i)%nat then (mel l row col + mel l col row) * half_ else vat v j)) eq_refl ltac:(reflexivity)) as [Q1 Q2].
        split; [exact Q1|]. split; [|exact Q2]. intros Hs. unfold pos in *. lia.
    - intros [[v row] col] (L & Iv & _ & IH). cbn [wp]. split; [exact L|]. split.
  + intros i Hi. rewrite Iv by auto. apply I0; auto.
  + intros r c Hr Hc. apply IH; auto. pose proof (pos_lt N r c Hr Hc). lia.
Qed.
End S.
