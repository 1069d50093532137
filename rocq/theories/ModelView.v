(** * Views: memory, vectors and matrices as strided windows onto memory.
    Model only, no proofs. *)
From Coq Require Import ZArith Bool List.
From Verif Require Import Base ModelSize.
Import ListNotations.
Open Scope Z_scope.
Open Scope outcome_scope.

(** Memory: a list of allocated arrays ("blocks"). An address is a block number and an
    element offset; an offset outside the block is undefined behaviour, even if another
    block happens to be allocated next to it. *)
Definition mem (V : Type) := list (list V).
Definition addr := (nat * Z)%type.

Definition rd {V} (m : mem V) (a : addr) : option V :=
  match nth_error m (fst a) with
  | Some blk => if 0 <=? snd a then nth_error blk (Z.to_nat (snd a)) else None
  | None => None
  end.
Fixpoint upd {A} (l : list A) (n : nat) (x : A) : list A :=
  match l, n with
  | [], _ => []
  | _ :: t, O => x :: t
  | h :: t, S n' => h :: upd t n' x
  end.
Definition wr {V} (m : mem V) (a : addr) (v : V) : mem V :=
  match nth_error m (fst a) with
  | Some blk => upd m (fst a) (upd blk (Z.to_nat (snd a)) v)
  | None => m
  end.
(** Dereferencing a pointer. *)
Definition load {V} (m : mem V) (a : addr) : outcome V :=
  match rd m a with Some v => Ok v | None => UB end.
Definition store {V} (m : mem V) (a : addr) (v : V) : outcome (mem V) :=
  match rd m a with Some _ => Ok (wr m a v) | None => UB end.

(** A vector object: internal/vbase.hh:122-243 GenericVBase with
    [vS] the template Size, [voff] = data() (element offset in its block),
    [vn] = size(), [vst] = stride(). Template strides are represented by their run-time value
    (vbase.hh:124-126; a static stride is always passed its own value, and
    Reference vectors have static stride 1, reference.hh:42-49). *)
Record vview := mkv { vS : Z; vblk : nat; voff : Z; vn : Z; vst : Z }.
(** A matrix object: internal/mbase.hh:79-249 GenericMBase with [mR],[mC] the template sizes,
    [moff] = my_data, [mr] = num_rows(), [mc] = num_cols(), [mrs] = rowstride(),
    [mcs] = colstride(). A tied stride (-2, mbase.hh:90-104) is represented by the value
    rowstride()/colstride() returns. *)
Record mview := mkm { mR : Z; mC : Z; mblk : nat; moff : Z; mr : Z; mc : Z; mrs : Z; mcs : Z }.

(** allocator.hh:371-456 VectorSlice / 468-496 SizeHolder: the size of a slice object is the
    template size unless that is Dynamic. *)
Definition slice_size (S n : Z) : Z := if S =? Dynamic then n else S.

(** ** Objects owning or wrapping memory *)
(** allocator.hh:122-364 VectorAlloc (stride 1, vbase.hh:84-116) and reference.hh:36-49 *)
Definition base_vec (S : Z) (blk : nat) (off n : Z) : vview := mkv S blk off n 1.
(** mbase.hh:258-276 RowMajor, reference.hh:52-66 Reference::RowMajor: rowstride = num_cols *)
Definition base_rowmajor (R C : Z) (blk : nat) (off r c : Z) : mview := mkm R C blk off r c c 1.
(** mbase.hh:278-296 ColMajor, reference.hh:68-80: colstride = num_rows *)
Definition base_colmajor (R C : Z) (blk : nat) (off r c : Z) : mview := mkm R C blk off r c 1 r.

(** ** Element addresses *)
(** vbase.hh:161-169 data()[i*stride()] *)
Definition vaddr (v : vview) (i : Z) : addr := (vblk v, voff v + i * vst v).
(** mbase.hh:134-144 my_data[r*rowstride() + c*colstride()] *)
Definition maddr (m : mview) (r c : Z) : addr := (mblk m, moff m + (r * mrs m + c * mcs m)).

(** debug.hh:37-51 check_index; [cb] = TOON_CHECK_BOUNDS defined. *)
Definition check_index (cb : bool) (s i : Z) : outcome unit :=
  if cb && ((i <? 0) || (s <=? i)) then Abort DIndex else Ok tt.
(** vbase.hh:161-169 operator[] read / write *)
Definition vget {V} cb (m : mem V) (v : vview) (i : Z) : outcome V :=
  _ <- check_index cb (vn v) i ;; load m (vaddr v i).
Definition vset {V} cb (m : mem V) (v : vview) (i : Z) (x : V) : outcome (mem V) :=
  _ <- check_index cb (vn v) i ;; store m (vaddr v i) x.
(** mbase.hh:134-144 operator()(r,c) read / write *)
Definition mget {V} cb (m : mem V) (a : mview) (r c : Z) : outcome V :=
  _ <- check_index cb (mr a) r ;; _ <- check_index cb (mc a) c ;; load m (maddr a r c).
Definition mset {V} cb (m : mem V) (a : mview) (r c : Z) (x : V) : outcome (mem V) :=
  _ <- check_index cb (mr a) r ;; _ <- check_index cb (mc a) c ;; store m (maddr a r c) x.

(** ** View operations *)
(** vbase.hh:177-187 slice<Start,Length>(start,length) *)
Definition vslice_t (Start Length : Z) (v : vview) (start length : Z) : outcome vview :=
  _ <- check_slice (vS v) Start Length (vn v) start length ;;
  Ok (mkv Length (vblk v) (voff v + vst v * (if is_dyn Start then start else Start))
          (slice_size Length (if is_dyn Length then length else Length)) (vst v)).
(** vbase.hh:192-200 slice<Start,Length>() *)
Definition vslice_static (Start Length : Z) (v : vview) : outcome vview :=
  _ <- check_slice_static (vS v) Start Length ;; vslice_t Start Length v Start Length.
(** vbase.hh:202-208 slice(start,length) *)
Definition vslice (v : vview) (start length : Z) : outcome vview :=
  vslice_t Dynamic Dynamic v start length.
(** vbase.hh:211-217 as_row *)
Definition as_row (v : vview) : mview :=
  mkm 1 (vS v) (vblk v) (voff v) 1 (slice_size (vS v) (vn v)) 1 (vst v).
(** vbase.hh:219-225 as_col *)
Definition as_col (v : vview) : mview :=
  mkm (vS v) 1 (vblk v) (voff v) (slice_size (vS v) (vn v)) 1 (vst v) 1.
(** vbase.hh:229-235 as_slice; 237-243 as_diagonal wraps the same window *)
Definition as_slice (v : vview) : vview :=
  mkv (vS v) (vblk v) (voff v) (slice_size (vS v) (vn v)) (vst v).

(** mbase.hh:162-170 operator[](int r). Without bounds checking a row number outside the
    matrix forms a pointer outside it: undefined behaviour. *)
Definition mrow (cb : bool) (m : mview) (r : Z) : outcome vview :=
  if (0 <=? r) && (r <? mr m)
  then Ok (mkv (mC m) (mblk m) (moff m + mrs m * r) (slice_size (mC m) (mc m)) (mcs m))
  else if cb then Abort DIndex else UB.
(** mbase.hh:174-186 slice<Rstart,Cstart,Rlength,Clength>(rs,cs,rl,cl) *)
Definition mslice_t (Rs Cs Rl Cl : Z) (m : mview) (rs cs rl cl : Z) : outcome mview :=
  _ <- check_slice (mR m) Rs Rl (mr m) rs rl ;;
  _ <- check_slice (mC m) Cs Cl (mc m) cs cl ;;
  Ok (mkm Rl Cl (mblk m)
          (moff m + mrs m * (if is_dyn Rs then rs else Rs) + mcs m * (if is_dyn Cs then cs else Cs))
          (slice_size Rl (if is_dyn Rl then rl else Rl))
          (slice_size Cl (if is_dyn Cl then cl else Cl)) (mrs m) (mcs m)).
(** mbase.hh:204-219 slice<...>() *)
Definition mslice_static (Rs Cs Rl Cl : Z) (m : mview) : outcome mview :=
  _ <- check_slice_static (mR m) Rs Rl ;; _ <- check_slice_static (mC m) Cs Cl ;;
  mslice_t Rs Cs Rl Cl m Rs Cs Rl Cl.
(** mbase.hh:221-227 slice(rs,cs,rl,cl) *)
Definition mslice (m : mview) (rs cs rl cl : Z) : outcome mview :=
  mslice_t Dynamic Dynamic Dynamic Dynamic m rs cs rl cl.
(** mbase.hh:229-235 T() *)
Definition mT (m : mview) : mview :=
  mkm (mC m) (mR m) (mblk m) (moff m) (slice_size (mC m) (mc m)) (slice_size (mR m) (mr m)) (mcs m) (mrs m).
(** mbase.hh:56-64 DiagSize: (the tests are for -1 only) *)
Definition diag_size (R C : Z) : Z :=
  if (R =? Dynamic) || (C =? Dynamic) then Dynamic else if R <? C then R else C.
(** mbase.hh:237-248 diagonal_slice *)
Definition mdiag (m : mview) : vview :=
  mkv (diag_size (mR m) (mC m)) (mblk m) (moff m)
      (slice_size (diag_size (mR m) (mC m)) (Z.min (mc m) (mr m))) (mrs m + mcs m).

(** Chains of view operations. *)
Inductive obj := OV (v : vview) | OM (m : mview).
Inductive vop :=
| Slice (start length : Z) | SliceT (Start Length start length : Z) | SliceS (Start Length : Z)
| AsRow | AsCol | AsSlice
| MSlice (rs cs rl cl : Z) | MSliceT (Rs Cs Rl Cl rs cs rl cl : Z) | MSliceS (Rs Cs Rl Cl : Z)
| Row (r : Z) | Transpose | Diag.
Definition omap {A B} (f : A -> B) (x : outcome A) : outcome B := y <- x ;; Ok (f y).
(** One operation; applying a vector operation to a matrix (or vice versa) does not compile. *)
Definition apply_op (cb : bool) (p : vop) (o : obj) : outcome obj :=
  match p, o with
  | Slice s l, OV v => omap OV (vslice v s l)
  | SliceT S0 L0 s l, OV v => omap OV (vslice_t S0 L0 v s l)
  | SliceS S0 L0, OV v => omap OV (vslice_static S0 L0 v)
  | AsRow, OV v => Ok (OM (as_row v))
  | AsCol, OV v => Ok (OM (as_col v))
  | AsSlice, OV v => Ok (OV (as_slice v))
  | MSlice rs cs rl cl, OM m => omap OM (mslice m rs cs rl cl)
  | MSliceT Rs Cs Rl Cl rs cs rl cl, OM m => omap OM (mslice_t Rs Cs Rl Cl m rs cs rl cl)
  | MSliceS Rs Cs Rl Cl, OM m => omap OM (mslice_static Rs Cs Rl Cl m)
  | Row r, OM m => omap OV (mrow cb m r)
  | Transpose, OM m => Ok (OM (mT m))
  | Diag, OM m => Ok (OV (mdiag m))
  | _, _ => CompileError
  end.
Fixpoint apply_ops (cb : bool) (ps : list vop) (o : obj) : outcome obj :=
  match ps with
  | [] => Ok o
  | p :: ps' => o' <- apply_op cb p o ;; apply_ops cb ps' o'
  end.

(** ** Assignment, compound assignment, swap *)
(** vector.hh:263-290 operator=(Vector) for a destination that is not Resizable
    (try_destructive_resize is empty, allocator.hh:171,252,397). *)
Definition vassign {V} cb (dst src : vview) (m : mem V) : outcome (mem V) :=
  _ <- size_mismatch (vS dst) (vS src) (vn dst) (vn src) ;;
  for_ 0 (Z.to_nat (vn dst)) (fun i m =>
    x <- vget cb m src (Z.of_nat i) ;; vset cb m dst (Z.of_nat i) x) m.
(** matrix.hh:164-197 operator=(Matrix) *)
Definition massign {V} cb (dst src : mview) (m : mem V) : outcome (mem V) :=
  _ <- size_mismatch (mR dst) (mR src) (mr dst) (mr src) ;;
  _ <- size_mismatch (mC dst) (mC src) (mc dst) (mc src) ;;
  for_ 0 (Z.to_nat (mr dst)) (fun r m =>
    for_ 0 (Z.to_nat (mc dst)) (fun c m =>
      x <- mget cb m src (Z.of_nat r) (Z.of_nat c) ;;
      mset cb m dst (Z.of_nat r) (Z.of_nat c) x) m) m.
(** operators.hh:719-731 Swap<V1,V2,false>::swap *)
Definition vswap {V} cb (v1 v2 : vview) (m : mem V) : outcome (mem V) :=
  _ <- size_mismatch (vS v1) (vS v2) (vn v1) (vn v2) ;;
  for_ 0 (Z.to_nat (vn v1)) (fun i m =>
    x <- vget cb m v1 (Z.of_nat i) ;;
    y <- vget cb m v2 (Z.of_nat i) ;;
    m1 <- vset cb m v1 (Z.of_nat i) y ;;
    vset cb m1 v2 (Z.of_nat i) x) m.
(** vector.hh:303-357 compound assignment v op= w, elementwise in place *)
Definition vcompound {V} (f : V -> V -> V) cb (dst src : vview) (m : mem V) : outcome (mem V) :=
  _ <- size_mismatch (vS dst) (vS src) (vn dst) (vn src) ;;
  for_ 0 (Z.to_nat (vn dst)) (fun i m =>
    x <- vget cb m dst (Z.of_nat i) ;;
    y <- vget cb m src (Z.of_nat i) ;;
    vset cb m dst (Z.of_nat i) (f x y)) m.
(** vector.hh:303-315 v /= s, v *= s (and v += Ones*s, objects.h:489-501) *)
Definition vcompound_scalar {V} (f : V -> V) cb (dst : vview) (m : mem V) : outcome (mem V) :=
  for_ 0 (Z.to_nat (vn dst)) (fun i m =>
    x <- vget cb m dst (Z.of_nat i) ;;
    vset cb m dst (Z.of_nat i) (f x)) m.
(** matrix.hh:222-268 compound assignment m op= n *)
Definition mcompound {V} (f : V -> V -> V) cb (dst src : mview) (m : mem V) : outcome (mem V) :=
  _ <- size_mismatch (mR dst) (mR src) (mr dst) (mr src) ;;
  _ <- size_mismatch (mC dst) (mC src) (mc dst) (mc src) ;;
  for_ 0 (Z.to_nat (mr dst)) (fun r m =>
    for_ 0 (Z.to_nat (mc dst)) (fun c m =>
      x <- mget cb m dst (Z.of_nat r) (Z.of_nat c) ;;
      y <- mget cb m src (Z.of_nat r) (Z.of_nat c) ;;
      mset cb m dst (Z.of_nat r) (Z.of_nat c) (f x y)) m) m.
