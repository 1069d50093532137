(** * Specification vocabulary for views: indices, ranges, the documented index maps. *)
From Coq Require Import ZArith List.
From Verif Require Import Base ModelSize ModelView.
Import ListNotations.
Open Scope Z_scope.

(** An element index: (i,0) for vectors, (r,c) for matrices. *)
Definition idx := (Z * Z)%type.
Definition in_range (o : obj) (i : idx) : Prop :=
  match o with
  | OV v => 0 <= fst i < vn v /\ snd i = 0
  | OM m => 0 <= fst i < mr m /\ 0 <= snd i < mc m
  end.
Definition oaddr (o : obj) (i : idx) : addr :=
  match o with OV v => vaddr v (fst i) | OM m => maddr m (fst i) (snd i) end.

(** Static sizes agree with the run-time ones (every object except views of a
    Resizable vector, see C14). *)
Definition well_typed (o : obj) : Prop :=
  match o with
  | OV v => (vS v = -1 \/ vS v = vn v) /\ 0 <= vn v
  | OM m => (mR m = -1 \/ mR m = mr m) /\ (mC m = -1 \/ mC m = mc m) /\ 0 <= mr m /\ 0 <= mc m
  end.

(** The documented meaning of a view: which element of the parent is element [i] of the view. *)
Definition pick (static_arg runtime_arg : Z) : Z :=
  if static_arg =? -1 then runtime_arg else static_arg.
Definition parent_index (p : vop) (i : idx) : idx :=
  match p with
  | Slice s _ => (s + fst i, 0)
  | SliceT St _ s _ => (pick St s + fst i, 0)
  | SliceS St _ => (St + fst i, 0)
  | AsRow => (snd i, 0)
  | AsCol => (fst i, 0)
  | AsSlice => i
  | MSlice rs cs _ _ => (rs + fst i, cs + snd i)
  | MSliceT Rs Cs _ _ rs cs _ _ => (pick Rs rs + fst i, pick Cs cs + snd i)
  | MSliceS Rs Cs _ _ => (Rs + fst i, Cs + snd i)
  | Row r => (r, fst i)
  | Transpose => (snd i, fst i)
  | Diag => (fst i, fst i)
  end.
(** ... along a chain of operations (first operation first). *)
Fixpoint origin_index (ps : list vop) (i : idx) : idx :=
  match ps with [] => i | p :: ps' => parent_index p (origin_index ps' i) end.

(** The documented number of elements of a view. *)
Definition dims (o : obj) : Z * Z :=
  match o with OV v => (vn v, 1) | OM m => (mr m, mc m) end.
Definition view_dims (p : vop) (o : obj) : Z * Z :=
  match p with
  | Slice _ l => (l, 1)
  | SliceT _ Ln _ l => (pick Ln l, 1)
  | SliceS _ Ln => (Ln, 1)
  | AsRow => (1, fst (dims o))
  | AsCol => (fst (dims o), 1)
  | AsSlice => dims o
  | MSlice _ _ rl cl => (rl, cl)
  | MSliceT _ _ Rl Cl _ _ rl cl => (pick Rl rl, pick Cl cl)
  | MSliceS _ _ Rl Cl => (Rl, Cl)
  | Row _ => (snd (dims o), 1)
  | Transpose => (snd (dims o), fst (dims o))
  | Diag => (Z.min (fst (dims o)) (snd (dims o)), 1)
  end.

(** Memory-level well-formedness: all in-range elements exist, and different indices are
    different elements. *)
Definition in_mem {V} (m : mem V) (o : obj) : Prop :=
  forall i, in_range o i -> exists v, rd m (oaddr o i) = Some v.
Definition no_alias (o : obj) : Prop :=
  forall i j, in_range o i -> in_range o j -> oaddr o i = oaddr o j -> i = j.
Definition good {V} (m : mem V) (o : obj) : Prop := well_typed o /\ in_mem m o /\ no_alias o.

(** Two objects share no element. *)
Definition disjoint (a b : obj) : Prop :=
  forall i j, in_range a i -> in_range b j -> oaddr a i <> oaddr b j.
Definition element_of (a : addr) (o : obj) : Prop := exists i, in_range o i /\ a = oaddr o i.

(** An object owning, or wrapped around, [n] (resp. r*c) consecutive cells of a block. *)
Definition block_has {V} (m : mem V) (blk : nat) (lo n : Z) : Prop :=
  0 <= lo /\ exists l, nth_error m blk = Some l /\ lo + n <= Z.of_nat (length l).
Inductive base_object {V} (m : mem V) : obj -> Prop :=
| BO_vec S blk off n : (S = -1 \/ S = n) -> 0 <= n -> block_has m blk off n ->
    base_object m (OV (base_vec S blk off n))
| BO_row R C blk off r c : (R = -1 \/ R = r) -> (C = -1 \/ C = c) -> 0 <= r -> 0 <= c ->
    block_has m blk off (r * c) -> base_object m (OM (base_rowmajor R C blk off r c))
| BO_col R C blk off r c : (R = -1 \/ R = r) -> (C = -1 \/ C = c) -> 0 <= r -> 0 <= c ->
    block_has m blk off (r * c) -> base_object m (OM (base_colmajor R C blk off r c)).

(** Two memories with the same cells, differing at most on the addresses in [A]. *)
Definition same_cells {V} (m m' : mem V) : Prop :=
  forall a, (rd m a = None <-> rd m' a = None).
Definition unchanged_outside {V} (A : addr -> Prop) (m m' : mem V) : Prop :=
  same_cells m m' /\ forall a, ~ A a -> rd m' a = rd m a.
