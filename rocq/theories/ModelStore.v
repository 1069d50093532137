(** * Storage of owning vectors: construction, copy, move, assignment, swap, resize, destruction.
    Model only. Heap blocks made by new[] are explicit, freed blocks stay recorded as freed.
    std::vector (used by Vector<Resizable>) is taken as a value: a list. *)
From Coq Require Import ZArith List Bool Arith.
From Verif Require Import Base ModelSize.
Import ListNotations.
Open Scope nat_scope.
Open Scope outcome_scope.

Section Store.
Context {V : Type}.
(** debug.hh:53-128: what debug_initialize writes: nothing in the default build ([None]),
    a fixed value with TOON_INITIALIZE_VAL / _NAN / _SNAN (TOON_INITIALIZE_RANDOM not modelled). *)
Variable dbg : option V.
(** the value-initialised element std::vector::resize appends (C++ standard) *)
Variable zero : V.
(** sizeof(Precision) *)
Variable bytes : nat.

(** The type of a vector: Vector<n>, Vector<Dynamic> or Vector<Resizable>. *)
Inductive kind := KStatic (n : nat) | KDyn | KRes.
(** Its SizeParameter, vector.hh:133 *)
Definition size_param (k : kind) : Z :=
  match k with KStatic n => Z.of_nat n | KDyn => Dynamic | KRes => Resizable end.

(** The heap: block number -> contents, [None] once deleted. *)
Definition heap := list (option (list V)).
Inductive rep :=
| OnStack (l : list V)                     (* allocator.hh:60-68 my_data[Size] inside the object *)
| OnHeap (n : nat) (p : nat)               (* allocator.hh:81-104 static, larger than 1000 bytes *)
| DynHeap (n : nat) (p : option nat)       (* allocator.hh:182-184 my_size, my_data (None: null) *)
| StdVec (l : list V).                     (* allocator.hh:267-269 std::vector numbers *)
Record state := mkst { hp : heap; objs : nat -> option rep }.
Definition set_obj (o : nat -> option rep) (x : nat) (r : option rep) : nat -> option rep :=
  fun y => if Nat.eqb x y then r else o y.

(** size(): allocator.hh:138, 218, 291 *)
Definition rsize (r : rep) : nat :=
  match r with OnStack l => length l | OnHeap n _ => n | DynHeap n _ => n | StdVec l => length l end.
Definition rkind (r : rep) : kind :=
  match r with OnStack l => KStatic (length l) | OnHeap n _ => KStatic n | DynHeap _ _ => KDyn | StdVec _ => KRes end.

Definition list_get (l : list V) (i : nat) : outcome V :=
  match nth_error l i with Some v => Ok v | None => UB end.
Fixpoint list_put (l : list V) (i : nat) (v : V) : list V :=
  match l, i with
  | [], _ => []
  | _ :: t, O => v :: t
  | h :: t, S i' => h :: list_put t i' v
  end.
Definition list_set (l : list V) (i : nat) (v : V) : outcome (list V) :=
  if i <? length l then Ok (list_put l i v) else UB.
(** reading / writing p[i] for a heap pointer: null, freed or out of range is UB *)
Definition hp_get (h : heap) (p : option nat) (i : nat) : outcome V :=
  match p with
  | None => UB
  | Some b => match nth_error h b with Some (Some l) => list_get l i | _ => UB end
  end.
Fixpoint hp_put (h : heap) (b : nat) (c : option (list V)) : heap :=
  match h, b with
  | [], _ => []
  | _ :: t, O => c :: t
  | x :: t, S b' => x :: hp_put t b' c
  end.
Definition hp_set (h : heap) (p : option nat) (i : nat) (v : V) : outcome heap :=
  match p with
  | None => UB
  | Some b => match nth_error h b with
              | Some (Some l) => l' <- list_set l i v ;; Ok (hp_put h b (Some l'))
              | _ => UB end
  end.
(** delete[] my_data: a null pointer is fine, a freed block is a double free *)
Definition hp_free (h : heap) (p : option nat) : outcome heap :=
  match p with
  | None => Ok h
  | Some b => match nth_error h b with Some (Some _) => Ok (hp_put h b None) | _ => UB end
  end.
(** new Precision[n]: a fresh block; its contents are the argument *)
Definition hp_new (h : heap) (l : list V) : heap * nat := (h ++ [Some l], length h).

(** element access v[i] of object [x] (vbase.hh:159-167, unchecked build) *)
Definition get_rep (s : state) (x : nat) : outcome rep :=
  match objs s x with Some r => Ok r | None => UB end.
Definition el_get (s : state) (x i : nat) : outcome V :=
  r <- get_rep s x ;;
  match r with
  | OnStack l | StdVec l => list_get l i
  | OnHeap _ p => hp_get (hp s) (Some p) i
  | DynHeap _ p => hp_get (hp s) p i
  end.
Definition el_set (s : state) (x i : nat) (v : V) : outcome state :=
  r <- get_rep s x ;;
  match r with
  | OnStack l => l' <- list_set l i v ;; Ok (mkst (hp s) (set_obj (objs s) x (Some (OnStack l'))))
  | StdVec l => l' <- list_set l i v ;; Ok (mkst (hp s) (set_obj (objs s) x (Some (StdVec l'))))
  | OnHeap _ p => h' <- hp_set (hp s) (Some p) i v ;; Ok (mkst h' (objs s))
  | DynHeap _ p => h' <- hp_set (hp s) p i v ;; Ok (mkst h' (objs s))
  end.
Definition osize (s : state) (x : nat) : outcome nat := r <- get_rep s x ;; Ok (rsize r).
Definition okind (s : state) (x : nat) : outcome kind := r <- get_rep s x ;; Ok (rkind r).

(** debug_initialize applied to raw contents *)
Definition dbg_init (l : list V) : list V :=
  match dbg with None => l | Some d => repeat d (length l) end.
Definition raw (g : nat -> V) (n : nat) : list V := dbg_init (map g (seq 0 n)).
(** allocator.hh:111-113: on the heap iff sizeof(Precision)*Size > max_bytes_on_stack (TooN.h: 1000) *)
Definition big (n : nat) : bool := (1000 <? Z.of_nat bytes * Z.of_nat n)%Z.

(** Install a new object [x]; its name must be free (scoping, C++). *)
Definition new_obj (s : state) (x : nat) (h : heap) (r : rep) : outcome state :=
  match objs s x with Some _ => UB | None => Ok (mkst h (set_obj (objs s) x (Some r))) end.

(** Object of kind [k] with raw contents [l]:
    static: allocator.hh:60-104; Dynamic: allocator.hh:205-209. *)
Definition alloc_rep (s : state) (k : kind) (l : list V) : heap * rep :=
  match k with
  | KStatic n => if big n then (let (h, p) := hp_new (hp s) l in (h, OnHeap n p)) else (hp s, OnStack l)
  | KDyn => let (h, p) := hp_new (hp s) l in (h, DynHeap (length l) (Some p))
  | KRes => (hp s, StdVec l)
  end.

(** Vector(int): allocator.hh:125-127 (static: size ignored), 205-209, 280-284. For Resizable
    debug_initialize(data(), size()) evaluates &numbers[0]: UB when empty. *)
Definition new_size (s : state) (k : kind) (x n : nat) (g : nat -> V) : outcome state :=
  match k with
  | KStatic m => let (h, r) := alloc_rep s k (raw g m) in new_obj s x h r
  | KDyn => let (h, r) := alloc_rep s k (raw g n) in new_obj s x h r
  | KRes => if n =? 0 then UB
            else let (h, r) := alloc_rep s k (dbg_init (repeat zero n)) in new_obj s x h r
  end.
(** Initializer lists: allocator.hh:129-135 (static_assert on the length), 186-190, 275-278. *)
Definition new_list (s : state) (k : kind) (x : nat) (l : list V) : outcome state :=
  match k with
  | KStatic m => if length l =? m then (let (h, r) := alloc_rep s k l in new_obj s x h r) else CompileError
  | _ => let (h, r) := alloc_rep s k l in new_obj s x h r
  end.

(** for(int i=0; i < n; i++) dst[i] = p[i]: the copied contents. allocator.hh:97-103, 192-197 *)
Definition copy_cells (h : heap) (p : option nat) (n : nat) : outcome (list V) :=
  for_ 0 n (fun i acc => v <- hp_get h p i ;; Ok (acc ++ [v])) [].
(** Vector(const Vector&) = default (vector.hh:151) *)
Definition copy_ctor (s : state) (x y : nat) : outcome state :=
  r <- get_rep s y ;;
  match r with
  | OnStack l => new_obj s x (hp s) (OnStack l)
  | StdVec l => new_obj s x (hp s) (StdVec l)
  | OnHeap n p => l <- copy_cells (hp s) (Some p) n ;;
                  let (h, q) := hp_new (hp s) l in new_obj s x h (OnHeap n q)
  | DynHeap n p => l <- copy_cells (hp s) p n ;;
                   let (h, q) := hp_new (hp s) l in new_obj s x h (DynHeap n (Some q))
  end.
(** Vector(Vector&&) = default (vector.hh:150): Dynamic steals the pointer
    (allocator.hh:199-203) and keeps my_size; std::vector leaves the source empty; static
    storage has no move constructor, so it is copied. *)
Definition move_ctor (s : state) (x y : nat) : outcome state :=
  r <- get_rep s y ;;
  match r with
  | DynHeap n p => s' <- new_obj s x (hp s) (DynHeap n p) ;;
                   Ok (mkst (hp s') (set_obj (objs s') y (Some (DynHeap n None))))
  | StdVec l => s' <- new_obj s x (hp s) (StdVec l) ;;
                Ok (mkst (hp s') (set_obj (objs s') y (Some (StdVec []))))
  | _ => copy_ctor s x y
  end.

(** std::vector::resize *)
Definition vec_resize (l : list V) (n : nat) : list V := firstn n l ++ repeat zero (n - length l).
(** allocator.hh:172-176, 252-256 (nothing) and 349-353 (Resizable) try_destructive_resize(int) *)
Definition destructive_resize (s : state) (x n : nat) : outcome state :=
  r <- get_rep s x ;;
  match r with
  | StdVec l => if n =? 0 then UB
                else Ok (mkst (hp s) (set_obj (objs s) x (Some (StdVec (dbg_init (vec_resize l n))))))
  | _ => Ok s
  end.
(** vector.hh:266-288 operator=(const Vector&) and from another Vector *)
Definition assign (s : state) (x y : nat) : outcome state :=
  n <- osize s y ;;
  s1 <- destructive_resize s x n ;;
  kx <- okind s1 x ;; ky <- okind s1 y ;; sx <- osize s1 x ;; sy <- osize s1 y ;;
  _ <- size_mismatch (size_param kx) (size_param ky) (Z.of_nat sx) (Z.of_nat sy) ;;
  for_ 0 sx (fun i st => v <- el_get st y i ;; el_set st x i v) s1.
(** x = y.slice(a,n): vector.hh:277-288 with a slice of [y] (vbase.hh:190-199) as source. The slice
    is a pointer into y's storage taken before x is resized; if x is y, an element at or past the
    new size has been destroyed by then (std::vector::resize) and reading it is UB. Only used with
    n <= size, so that resize never reallocates. *)
Definition assign_slice (s : state) (x y a n : nat) : outcome state :=
  sy <- osize s y ;;
  if sy <? a + n then Abort DSliceRange else
  s1 <- destructive_resize s x n ;;
  kx <- okind s1 x ;; sx <- osize s1 x ;;
  _ <- size_mismatch (size_param kx) Dynamic (Z.of_nat sx) (Z.of_nat n) ;;
  for_ 0 sx (fun i st => v <- el_get st y (a + i) ;; el_set st x i v) s1.
(** vector.hh:214-218 constructor from arbitrary vector *)
Definition conv_ctor (s : state) (k : kind) (x y : nat) (g : nat -> V) : outcome state :=
  n <- osize s y ;; s1 <- new_size s k x n g ;; assign s1 x y.

(** operators.hh:717-756 swap: the member swap (allocator.hh:236-240, 309-312) when both
    types are the same and have one, elementwise otherwise. *)
Definition swap_vec (s : state) (x y : nat) : outcome state :=
  rx <- get_rep s x ;; ry <- get_rep s y ;;
  match rx, ry with
  | DynHeap n p, DynHeap m q =>
      _ <- size_mismatch Dynamic Dynamic (Z.of_nat n) (Z.of_nat m) ;;
      Ok (mkst (hp s) (set_obj (set_obj (objs s) x (Some (DynHeap n q))) y (Some (DynHeap m p))))
  | StdVec l, StdVec l' =>
      Ok (mkst (hp s) (set_obj (set_obj (objs s) x (Some (StdVec l'))) y (Some (StdVec l))))
  | _, _ =>
      _ <- size_mismatch (size_param (rkind rx)) (size_param (rkind ry)) (Z.of_nat (rsize rx)) (Z.of_nat (rsize ry)) ;;
      for_ 0 (rsize rx) (fun i st => a <- el_get st x i ;; b <- el_get st y i ;;
                                     st1 <- el_set st x i b ;; el_set st1 y i a) s
  end.
(** allocator.hh:357-363 resize (Vector<Resizable> only) *)
Definition resize (s : state) (x n : nat) : outcome state :=
  r <- get_rep s x ;;
  match r with
  | StdVec l =>
      let l' := vec_resize l n in
      Ok (mkst (hp s) (set_obj (objs s) x
        (Some (StdVec (if length l <? n then firstn (length l) l' ++ dbg_init (skipn (length l) l') else l')))))
  | _ => CompileError
  end.
(** destructors: allocator.hh:90-93, 222-224 *)
Definition destroy (s : state) (x : nat) : outcome state :=
  r <- get_rep s x ;;
  h <- match r with
       | OnHeap _ p => hp_free (hp s) (Some p)
       | DynHeap _ p => hp_free (hp s) p
       | _ => Ok (hp s)
       end ;;
  Ok (mkst h (set_obj (objs s) x None)).

(** A program using owning vectors; objects are named by numbers. *)
Inductive cmd :=
| NewList (k : kind) (x : nat) (l : list V)
| NewSize (k : kind) (x n : nat) (g : nat -> V)   (* g: the arbitrary uninitialised contents *)
| Copy (x y : nat)
| Convert (k : kind) (x y : nat) (g : nat -> V)
| Move (x y : nat)
| Assign (x y : nat)
| Swap (x y : nat)
| Resize (x n : nat)
| Write (x i : nat) (v : V)
| Destroy (x : nat).
Definition step (c : cmd) (s : state) : outcome state :=
  match c with
  | NewList k x l => new_list s k x l
  | NewSize k x n g => new_size s k x n g
  | Copy x y => copy_ctor s x y
  | Convert k x y g => conv_ctor s k x y g
  | Move x y => move_ctor s x y
  | Assign x y => assign s x y
  | Swap x y => swap_vec s x y
  | Resize x n => resize s x n
  | Write x i v => el_set s x i v
  | Destroy x => destroy s x
  end.
Fixpoint run (p : list cmd) (s : state) : outcome state :=
  match p with [] => Ok s | c :: p' => s' <- step c s ;; run p' s' end.
Definition init : state := mkst [] (fun _ => None).
End Store.
Arguments cmd : clear implicits.
Arguments state : clear implicits.
Arguments rep : clear implicits.
