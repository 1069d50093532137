(** * Properties C11-C13: owning vectors. Specification: SpecStore.v (worlds of values). *)
From Coq Require Import ZArith List Bool Arith Lia ZifyBool.
From Verif Require Import Base ModelSize ModelStore SpecStore LemStore.
Import ListNotations.
Open Scope nat_scope.
Open Scope outcome_scope.

(** The debugging build switch as the specification sees it. *)
Definition dbg_switch {V} (dbg : option V) : bool := match dbg with None => false | Some _ => true end.

(** ** C11 *)
Theorem C11_value_semantics :
  forall (V : Type) (dbg : option V) (zero : V) (bytes : nat) (p : list (cmd V)) (w : world V),
    spec_run (dbg_switch dbg) p nothing = Good w ->
    exists s, run dbg zero bytes p init = Ok s /\
      (* every live vector reads back the prescribed sequence *)
      (forall x k vs, w x = Some (k, Values vs) ->
         osize s x = Ok (length vs) /\
         forall i, i < length vs -> exists v, el_get s x i = Ok v /\
                   (nth_error vs i = Some None \/ nth_error vs i = Some (Some v))) /\
      (* nothing lives that should not *)
      (forall x, w x = None -> objs s x = None) /\
      (* every heap block still allocated belongs to a live vector: no leak *)
      (forall b l, nth_error (hp s) b = Some (Some l) ->
         exists x r, objs s x = Some r /\ (exists n, r = OnHeap n b \/ r = DynHeap n (Some b))) /\
      (* no two vectors share storage *)
      (forall x y r q n m b, objs s x = Some r -> objs s y = Some q ->
         (r = OnHeap n b \/ r = DynHeap n (Some b)) -> (q = OnHeap m b \/ q = DynHeap m (Some b)) -> x = y).
Proof.
  intros V dbg zero bytes p w H. pose proof (sim_run dbg zero bytes p init nothing rel_init) as S.
  unfold dbg_on in S. unfold dbg_switch in H. rewrite H in S. destruct S as (s & E & W & R). exists s. split; [exact E|].
  split; [|split; [|split]].
  - intros x k vs Hx. specialize (R x). rewrite Hx in R. destruct R as (_ & l & Hl & Ha).
    rewrite (agree_len _ _ Ha). split; [apply osize_ok; auto|]. intros i Hi.
    destruct (nth_error l i) as [v|] eqn:Ev; [|apply nth_error_None in Ev; lia].
    exists v. split; [apply (el_get_ok s x l); auto|].
    clear - Ha Ev. revert i Ev. induction Ha as [|a b vs l Hab Ha IH]; intros [|i] Ev; cbn in *; try discriminate.
    + injection Ev as ->. destruct Hab as [-> | ->]; auto.
    + apply IH. exact Ev.
  - intros x Hx. specialize (R x). rewrite Hx in R. exact R.
  - intros b l Hb. destruct (wf_leak s W b l Hb) as [x Hx]. unfold owner in Hx.
    destruct (objs s x) as [r|] eqn:Er; [|discriminate]. exists x, r. split; [exact Er|].
    destruct r as [?|n q|n [q|]|?]; cbn in Hx; try discriminate; exists n; injection Hx as ->; auto.
  - intros x y r q n m b Hx Hy Hr Hq. apply (wf_own s W x y b); unfold owner.
    + rewrite Hx. destruct Hr as [-> | ->]; reflexivity.
    + rewrite Hy. destruct Hq as [-> | ->]; reflexivity.
Qed.
Print Assumptions C11_value_semantics.
Theorem C11_all_freed_at_end :
  forall (V : Type) (dbg : option V) (zero : V) (bytes : nat) (p : list (cmd V)) (w : world V),
    spec_run (dbg_switch dbg) p nothing = Good w -> (forall x, w x = None) ->
    exists s, run dbg zero bytes p init = Ok s /\ forall b c, nth_error (hp s) b = Some c -> c = None.
Proof.
  intros V dbg zero bytes p w H Hw. destruct (C11_value_semantics V dbg zero bytes p w H) as (s & E & _ & N & L & _).
  exists s. split; [exact E|]. intros b [l|] Hb; [|reflexivity]. destruct (L b l Hb) as (x & r & Hx & _).
  rewrite (N x (Hw x)) in Hx. discriminate.
Qed.
Print Assumptions C11_all_freed_at_end.
Theorem C11_size_errors_stop :
  forall (V : Type) (dbg : option V) (zero : V) (bytes : nat) (p : list (cmd V)),
    spec_run (dbg_switch dbg) p nothing = Stop ->
    run dbg zero bytes p init = CompileError \/ run dbg zero bytes p init = Abort DSizeMismatch.
Proof.
  intros V dbg zero bytes p H. pose proof (sim_run dbg zero bytes p init nothing rel_init) as S.
  unfold dbg_on in S. unfold dbg_switch in H. rewrite H in S. exact S.
Qed.
Print Assumptions C11_size_errors_stop.
(** A program with every kind of vector, small and large static ones. *)
Definition prog0 : list (cmd nat) :=
  [NewList KDyn 0 [1;2;3]; NewSize (KStatic 3) 1 3 (fun i => i); Assign 1 0; Copy 2 0; Write 2 1 9; Move 3 2;
   NewList KRes 4 [7]; Assign 4 3; Resize 4 5; Write 4 4 6; Convert (KStatic 5) 5 4 (fun _ => 0); Swap 0 3; Swap 1 3;
   Destroy 2; Destroy 4].
Example C11_nonvac :
  exists w, spec_run false prog0 nothing = Good w /\
    w 0 = Some (KDyn, Values [Some 1; Some 9; Some 3]) /\
    w 3 = Some (KDyn, Values [Some 1; Some 2; Some 3]) /\
    w 5 = Some (KStatic 5, Values [Some 1; Some 9; Some 3; None; Some 6]) /\ w 2 = None /\
    spec_run false (prog0 ++ [Assign 0 5]) nothing = Stop /\
    spec_run true (prog0 ++ [Destroy 0; Destroy 1; Destroy 3; Destroy 5]) nothing <> Stuck.
Proof. eexists. split; [reflexivity|]. repeat split. discriminate. Qed.

(** ** C12 *)
(** For every nonempty vector: after moving out of it, it still reports its old size, but any
    element access, copying it, assigning it, and assigning any same-size vector to it is UB. *)
Theorem C12_moved_from_refuted :
  forall (V : Type) (dbg : option V) (zero : V) (bytes : nat) (a : V) (l : list V),
    exists s, run dbg zero bytes [NewList KDyn 0 (a :: l); Move 1 0; Copy 2 1] init = Ok s /\
      osize s 0 = Ok (length (a :: l)) /\ el_get s 0 0 = UB /\
      step dbg zero bytes (Assign 0 2) s = UB /\ step dbg zero bytes (Copy 3 0) s = UB /\
      step dbg zero bytes (Assign 2 0) s = UB.
Proof.
  intros V dbg zero bytes a l.
  assert (Hw : exists w, spec_run (dbg_switch dbg) [NewList KDyn 0 (a :: l); Move 1 0; Copy 2 1] nothing = Good w /\
     w 2 = Some (KDyn, Values (map Some (a :: l))) /\ w 0 = Some (KDyn, MovedFrom (length (a :: l)))).
  { cbn [spec_run spec_step fits create nothing put Nat.eqb]. eexists. split; [reflexivity|].
    cbn. rewrite map_length. auto. }
  destruct Hw as (w & Hw & H2 & H0).
  pose proof (sim_run dbg zero bytes [NewList KDyn 0 (a :: l); Move 1 0; Copy 2 1] init nothing rel_init) as S.
  unfold dbg_on in S. unfold dbg_switch in Hw. rewrite Hw in S. destruct S as (s & E & W & R).
  exists s. split; [exact E|].
  pose proof (R 0) as R0. rewrite H0 in R0. destruct R0 as [_ R0].
  pose proof (R 2) as R2. rewrite H2 in R2. destruct R2 as (Sh2 & l2 & C2 & A2).
  pose proof (agree_len _ _ A2) as L2. rewrite map_length in L2. cbn [length] in *.
  split; [unfold osize, get_rep; rewrite R0; reflexivity|].
  split; [unfold el_get, get_rep; rewrite R0; reflexivity|].
  destruct (nth_error l2 0) as [v|] eqn:Ev; [|apply nth_error_None in Ev; lia].
  pose proof (el_get_ok s 2 l2 0 v C2 Ev) as G2.
  assert (SZ0 : osize s 0 = Ok (S (length l))) by (unfold osize, get_rep; rewrite R0; reflexivity).
  assert (SZ2 : osize s 2 = Ok (S (length l))) by (rewrite (osize_ok s 2 l2 W C2); congruence).
  assert (K0 : okind s 0 = Ok KDyn) by (unfold okind, get_rep; rewrite R0; reflexivity).
  pose proof (okind_ok s 2 _ _ Sh2) as K2.
  assert (M : size_mismatch (size_param KDyn) (size_param KDyn) (Z.of_nat (S (length l))) (Z.of_nat (S (length l))) = Ok tt).
  { apply (nat_mismatch KDyn KDyn); try discriminate. reflexivity. }
  assert (Dn : forall x, okind s x = Ok KDyn -> destructive_resize dbg zero s x (S (length l)) = Ok s).
  { intros x. unfold okind, destructive_resize. destruct (get_rep s x) as [r| | | | |]; try discriminate. cbn.
    destruct r; cbn; try discriminate; reflexivity. }
  split; [|split].
  - cbn [step]. unfold assign. rewrite SZ2. cbn [bind]. rewrite (Dn 0 K0). cbn [bind]. rewrite K0, K2, SZ0, SZ2. cbn [bind].
    rewrite M. cbn [bind]. unfold for_. cbn [Nat.sub for_up]. rewrite G2. cbn [bind].
    unfold el_set, get_rep. rewrite R0. reflexivity.
  - cbn [step]. unfold copy_ctor, get_rep. rewrite R0. cbn [bind]. unfold copy_cells, for_. cbn [Nat.sub for_up]. reflexivity.
  - cbn [step]. unfold assign. rewrite SZ0. cbn [bind]. rewrite (Dn 2 K2). cbn [bind]. rewrite K0, K2, SZ0, SZ2. cbn [bind].
    rewrite M. cbn [bind]. unfold for_. cbn [Nat.sub for_up]. unfold el_get at 1, get_rep. rewrite R0. reflexivity.
Qed.
Print Assumptions C12_moved_from_refuted.
(** What is left of the property: a moved-from vector can be destroyed, in every reachable state
    (the specification lets any live name be destroyed), and the value is in the target. *)
Theorem C12_moved_from_destroy_partial :
  forall (V : Type) (dbg : option V) (zero : V) (bytes : nat) (p : list (cmd V)) (w : world V) (x y k : nat) vs,
    spec_run (dbg_switch dbg) p nothing = Good w -> w y = Some (KDyn, Values vs) -> w x = None -> k = length vs ->
    exists s, run dbg zero bytes (p ++ [Move x y; Destroy y]) init = Ok s /\ objs s y = None /\
      osize s x = Ok k /\ forall i v, nth_error vs i = Some (Some v) -> el_get s x i = Ok v.
Proof.
  intros V dbg zero bytes p w x y k vs Hp Hy Hx ->.
  assert (N : x <> y) by congruence.
  assert (SA : forall (p' q' : list (cmd V)) (w1 : world V), spec_run (dbg_switch dbg) p' nothing = Good w1 ->
     spec_run (dbg_switch dbg) (p' ++ q') nothing = spec_run (dbg_switch dbg) q' w1).
  { intros p'. generalize (@nothing V). induction p' as [|c p' IH]; intros w0 q' w1; cbn [spec_run app].
    - intros [= ->]. reflexivity.
    - destruct (spec_step (dbg_switch dbg) c w0); try discriminate. apply IH. }
  assert (Hq : exists w', spec_run (dbg_switch dbg) (p ++ [Move x y; Destroy y]) nothing = Good w' /\
     w' y = None /\ w' x = Some (KDyn, Values vs)).
  { rewrite (SA p _ w Hp). cbn [spec_run spec_step]. rewrite Hy, Hx. cbn [spec_run spec_step].
    unfold put at 1. rewrite Nat.eqb_refl. eexists. split; [reflexivity|]. unfold put. rewrite !Nat.eqb_refl.
    destruct (Nat.eqb_spec y x); [congruence|]. auto. }
  destruct Hq as (w' & Hq & Hy' & Hx').
  destruct (C11_value_semantics V dbg zero bytes _ w' Hq) as (s & E & A & B & _). exists s. split; [exact E|].
  split; [apply B; exact Hy'|]. destruct (A x KDyn vs Hx') as [S G]. split; [exact S|]. intros i v Hi.
  destruct (G i) as (v' & Hv & [Q|Q]); [apply nth_error_Some; congruence|congruence|congruence].
Qed.
Print Assumptions C12_moved_from_destroy_partial.

(** ** C13 *)
Theorem C13_resize_keeps_prefix :
  forall (V : Type) (dbg : option V) (zero : V) (s : state V) (x n : nat) (l : list V),
    objs s x = Some (StdVec l) ->
    exists s', resize dbg zero s x n = Ok s' /\ osize s' x = Ok n /\
      (forall i, i < n -> i < length l -> el_get s' x i = el_get s x i) /\
      (forall i, i < n -> exists v, el_get s' x i = Ok v) /\
      hp s' = hp s /\ forall y, y <> x -> objs s' y = objs s y.
Proof.
  intros V dbg zero s x n l Hx. unfold resize, get_rep. rewrite Hx. cbn [bind]. eexists. split; [reflexivity|].
  set (l' := if length l <? n then _ else _).
  assert (L : length l' = n).
  { unfold l'. destruct (length l <? n) eqn:E; [|apply vec_resize_len].
    rewrite app_length, firstn_length, dbg_init_len, skipn_length, vec_resize_len. lia. }
  assert (P : forall i, i < n -> i < length l -> nth_error l' i = nth_error l i).
  { intros i Hi Hl. assert (Q : nth_error (vec_resize zero l n) i = nth_error l i).
    { unfold vec_resize. rewrite nth_error_app1 by (rewrite firstn_length; lia).
      clear -Hi. revert n Hi. revert i. induction l as [|a l IH]; intros i n Hi; [rewrite firstn_nil; reflexivity|].
      destruct n as [|n]; [lia|]. destruct i; cbn; [reflexivity|]. apply IH. lia. }
    unfold l'. destruct (length l <? n) eqn:E; [|exact Q].
    rewrite nth_error_app1 by (rewrite firstn_length, vec_resize_len; lia).
    rewrite <- Q. clear -Hl. generalize (vec_resize zero l n). generalize dependent (length l). intros k Hk.
    revert k Hk. induction i as [|i IH]; intros k Hk [|a l2]; destruct k; cbn; auto; try lia. apply IH. lia. }
  split; [|split; [|split; [|split]]].
  - unfold osize, get_rep; cbn. rewrite set_obj_same. cbn. congruence.
  - intros i H1 H2. unfold el_get, get_rep; cbn. rewrite set_obj_same, Hx. cbn. unfold list_get. rewrite P by auto. reflexivity.
  - intros i Hi. unfold el_get, get_rep; cbn. rewrite set_obj_same. cbn. unfold list_get.
    destruct (nth_error l' i) eqn:E; [eauto|]. apply nth_error_None in E. lia.
  - reflexivity.
  - intros y Hy. cbn. apply set_obj_other. auto.
Qed.
Print Assumptions C13_resize_keeps_prefix.
(** Assigning a nonempty vector to a Resizable one makes it an exact copy, whatever the sizes were
    (in a debug-initialising build: unless it is the same object). Missing: the empty source and
    slices of the destination itself, refuted below. *)
Theorem C13_assign_copies_partial :
  forall (V : Type) (dbg : option V) (zero : V) (bytes : nat) (p : list (cmd V)) (w : world V) x y lx ky ly,
    spec_run (dbg_switch dbg) p nothing = Good w ->
    w x = Some (KRes, Values lx) -> w y = Some (ky, Values (map Some ly)) -> ly <> [] ->
    (dbg = None \/ x <> y) ->
    exists s, run dbg zero bytes (p ++ [Assign x y]) init = Ok s /\ osize s x = Ok (length ly) /\
      (forall i v, nth_error ly i = Some v -> el_get s x i = Ok v) /\
      (forall i v, nth_error ly i = Some v -> el_get s y i = Ok v).
Proof.
  intros V dbg zero bytes p w x y lx ky ly Hp Hx Hy Hne Hd.
  assert (SA : forall (p' q' : list (cmd V)) (w1 : world V), spec_run (dbg_switch dbg) p' nothing = Good w1 ->
     spec_run (dbg_switch dbg) (p' ++ q') nothing = spec_run (dbg_switch dbg) q' w1).
  { intros p'. generalize (@nothing V). induction p' as [|c p' IH]; intros w0 q' w1; cbn [spec_run app].
    - intros [= ->]. reflexivity.
    - destruct (spec_step (dbg_switch dbg) c w0); try discriminate. apply IH. }
  assert (Hq : spec_run (dbg_switch dbg) (p ++ [Assign x y]) nothing = Good (put w x (Some (KRes, Values (map Some ly))))).
  { rewrite (SA p _ w Hp). cbn [spec_run spec_step]. rewrite Hx, Hy. cbn [is_res]. rewrite map_length.
    replace ((length ly =? 0) || dbg_switch dbg && (x =? y)) with false; [reflexivity|].
    destruct ly as [|a ly]; [congruence|]. cbn. destruct Hd as [-> | Hd]; [reflexivity|].
    destruct (Nat.eqb_spec x y); [contradiction|]. rewrite andb_false_r. reflexivity. }
  destruct (C11_value_semantics V dbg zero bytes _ _ Hq) as (s & E & A & _). exists s. split; [exact E|].
  assert (Q : forall z, z = x \/ z = y -> exists k, put w x (Some (KRes, Values (map Some ly))) z = Some (k, Values (map Some ly))).
  { intros z Hz. unfold put. destruct (Nat.eqb_spec x z); [eauto|]. destruct Hz as [-> | ->]; [congruence|]. eauto. }
  assert (G : forall z, z = x \/ z = y -> osize s z = Ok (length ly) /\ forall i v, nth_error ly i = Some v -> el_get s z i = Ok v).
  { intros z Hz. destruct (Q z Hz) as [k Hk]. destruct (A z k _ Hk) as [S1 S2]. rewrite map_length in *. split; [exact S1|].
    intros i v Hi. destruct (S2 i) as (v' & Hv' & Hn); [apply nth_error_Some; congruence|].
    rewrite nth_error_map, Hi in Hn. cbn in Hn. destruct Hn as [Hn|Hn]; congruence. }
  destruct (G x (or_introl eq_refl)) as [G1 G2]. destruct (G y (or_intror eq_refl)) as [_ G4]. auto.
Qed.
Print Assumptions C13_assign_copies_partial.
Example C13_nonvac : exists w lx ky ly, spec_run false [NewList KRes 0 [1]; NewList KDyn 1 [4;5;6]] nothing = Good w /\
  w 0 = Some (KRes, Values lx) /\ w 1 = Some (ky, Values (map Some ly)) /\ ly <> [].
Proof. eexists. exists [Some 1], KDyn, [4;5;6]. split; [reflexivity|]. repeat split. discriminate. Qed.
(** Assigning an empty vector to a Resizable vector evaluates &numbers[0] of an empty
    std::vector (allocator.hh:317, 351-352): undefined, in every build. *)
Theorem C13_assign_empty_refuted :
  forall (V : Type) (dbg : option V) (zero : V) (bytes : nat) (l : list V),
    run dbg zero bytes [NewList KRes 0 l; NewList KDyn 1 []; Assign 0 1] init = UB.
Proof. intros. reflexivity. Qed.
Print Assumptions C13_assign_empty_refuted.
(** so does Vector<Resizable>(0) itself (allocator.hh:280-284) *)
Theorem C13_empty_resizable_refuted :
  forall (V : Type) (dbg : option V) (zero : V) (bytes : nat) (g : nat -> V), run dbg zero bytes [NewSize KRes 0 0 g] init = UB.
Proof. intros. reflexivity. Qed.
Print Assumptions C13_empty_resizable_refuted.
(** In a build that debug-initialises, v = v destroys a Resizable vector. *)
Theorem C13_self_assign_debug_refuted :
  forall (V : Type) (d zero a b : V) (bytes : nat), a <> d ->
    exists s, run (Some d) zero bytes [NewList KRes 0 [a; b]; Assign 0 0] init = Ok s /\
      el_get s 0 0 = Ok d /\ el_get s 0 1 = Ok d /\ el_get s 0 0 <> Ok a.
Proof. intros V d zero a b bytes Hne. eexists. split; [reflexivity|]. repeat split. cbn. congruence. Qed.
Print Assumptions C13_self_assign_debug_refuted.
(** v = v.slice(a,n) on a Resizable vector reads destroyed elements as soon as a > 0 and n > 0
    (the last source element a+n-1 is past the new size n): for every vector and every such slice
    (n <= a, where the very first read is already bad; a default build). *)
Theorem C13_assign_own_slice_refuted :
  forall (V : Type) (zero : V) (s : state V) (l : list V) (a n : nat),
    objs s 0 = Some (StdVec l) -> 0 < n -> n <= a -> a + n <= length l ->
    assign_slice None zero s 0 0 a n = UB.
Proof.
  intros V zero s l a n Hs Hn Ha Hl. unfold assign_slice, osize, get_rep. rewrite Hs. cbn [bind rsize].
  replace (length l <? a + n) with false by lia. unfold destructive_resize, get_rep. rewrite Hs. cbn [bind].
  replace (n =? 0) with false by lia. cbn [bind]. unfold okind, osize, get_rep. cbn [objs]. rewrite set_obj_same. cbn [bind rsize rkind].
  assert (L : length (dbg_init None (vec_resize zero l n)) = n) by (rewrite dbg_init_len, vec_resize_len; reflexivity).
  rewrite L. change (size_mismatch (size_param KRes) Dynamic (Z.of_nat n) (Z.of_nat n)) with
    (if (Z.of_nat n =? Z.of_nat n)%Z then Ok tt else Abort DSizeMismatch : outcome unit).
  rewrite Z.eqb_refl. cbn [bind]. unfold for_. rewrite Nat.sub_0_r. destruct n as [|n]; [lia|]. cbn [for_up].
  unfold el_get at 1, get_rep. cbn [objs]. rewrite set_obj_same. cbn [bind]. unfold list_get.
  rewrite (proj2 (nth_error_None _ (a + 0))); [reflexivity|]. rewrite L. lia.
Qed.
Print Assumptions C13_assign_own_slice_refuted.
