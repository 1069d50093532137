(** * Vectors with named elements, and read-only vectors over planar complex data.
    Model only. Memory and views are those of ModelView.v. *)
From Coq Require Import ZArith Bool List Arith.
From Verif Require Import Base ModelSize ModelView.
Import ListNotations.
Open Scope Z_scope.
Open Scope outcome_scope.

(** ** named_elements.h *)
(** Identifiers are numbers. The position of the member [x] in the list of names. *)
Fixpoint position (x : nat) (names : list nat) : option nat :=
  match names with
  | [] => None
  | y :: t => if Nat.eqb x y then Some O else match position x t with Some k => Some (S k) | None => None end
  end.
Fixpoint has_dup (names : list nat) : bool :=
  match names with [] => false | x :: t => match position x t with Some _ => true | None => has_dup t end end.
(** named_elements.h:72-104 TOON_MAKE_NAMED_ELEMENT_VECTOR(Name, names...), and an object of type
    Vector<S, Precision, StaticBase<NameAlloc>> placed at element [off] of block [blk].
    struct NameDummy { char names; } has one byte per name, so sizeof is the number of names; a repeated
    name, or none, is ill-formed C++ (lines 74-77), another size fails the static_assert of line 80. The class
    is a GenericVBase with stride 1 over my_data (lines 92, 48-66); Name<> always takes the right size (104). *)
Definition named_vector (names : list nat) (S : Z) (blk : nat) (off : Z) : outcome vview :=
  if has_dup names then CompileError
  else match names with
       | [] => CompileError
       | _ => if S =? Z.of_nat (length names) then Ok (base_vec S blk off S) else CompileError
       end.
(** v.x: named_elements.h:86-93, an anonymous struct { Precision names; } in a union with
    Precision my_data[]: members of one type follow each other without padding (line 52
    asserts the total size), so member number k has the address of my_data[k]. *)
Definition member_addr (names : list nat) (v : vview) (x : nat) : outcome addr :=
  match position x names with
  | Some k => Ok (vblk v, voff v + Z.of_nat k)
  | None => CompileError
  end.
Definition member_get {V} (m : mem V) names v x : outcome V := a <- member_addr names v x ;; load m a.
Definition member_set {V} (m : mem V) names v x (y : V) : outcome (mem V) := a <- member_addr names v x ;; store m a y.

(** ** internal/planar_complex.hh *)
Inductive prec := PDouble | PFloat.
(** planar_complex.hh:36-61 PointerToPlanarComplex: a pair of pointers, both advanced by + *)
Record pptr := mkpp { re : addr; im : addr }.
Definition aplus (a : addr) (i : Z) : addr := (fst a, snd a + i).
Definition pplus (p : pptr) (i : Z) : pptr := mkpp (aplus (re p) i) (aplus (im p) i).
(** planar_complex.hh:54-57 operator[]: a complex number by value *)
Definition pderef {V} (m : mem V) (p : pptr) (i : Z) : outcome (V * V) :=
  x <- load m (aplus (re p) i) ;; y <- load m (aplus (im p) i) ;; Ok (x, y).
(** A vector over planar data: GenericVBase<Size, complex, 1, VectorSlice<Size, ...>> *)
Record pview := mkp { pS : Z; pdata : pptr; pn : Z; pst : Z }.
(** planar_complex.hh:75-80 VLayout(p, sz = 0). The base class is declared with
    PointerToPlanarComplex<complex<double>> whatever Precision is (lines 70-73): from a
    PointerToPlanarComplex<complex<float>> there is no conversion. *)
Definition planar_new (pr : prec) (S : Z) (p : pptr) (sz : Z) : outcome pview :=
  match pr with
  | PDouble => Ok (mkp S p (slice_size S sz) 1)
  | PFloat => CompileError
  end.
(** vbase.hh:159-167 operator[] *)
Definition pget {V} (cb : bool) (m : mem V) (p : pview) (i : Z) : outcome (V * V) :=
  _ <- check_index cb (pn p) i ;; pderef m (pdata p) (i * pst p).
(** v[i] = x, and every assignment operator of Vector: ReferenceType is const complex<double>
    (planar_complex.hh:72-73), which has no assignment. *)
Definition pset {V} (cb : bool) (m : mem V) (p : pview) (i : Z) (x : V * V) : outcome (mem V) := CompileError.
(** vbase.hh:177-200 slice<Start,Length>(start,length) and slice<Start,Length>() *)
Definition pslice_t (Start Length : Z) (p : pview) (start length : Z) : outcome pview :=
  _ <- check_slice (pS p) Start Length (pn p) start length ;;
  Ok (mkp Length (pplus (pdata p) (pst p * (if is_dyn Start then start else Start)))
          (slice_size Length (if is_dyn Length then length else Length)) (pst p)).
(** The view operations: vbase.hh:192-235. as_row and as_col build a Matrix<..., Slice>, whose
    constructor wants a pointer to the elements; there is none. *)
Definition papply (q : vop) (p : pview) : outcome pview :=
  match q with
  | Slice s l => pslice_t Dynamic Dynamic p s l
  | SliceT S0 L0 s l => pslice_t S0 L0 p s l
  | SliceS S0 L0 => _ <- check_slice_static (pS p) S0 L0 ;; pslice_t S0 L0 p S0 L0
  | AsSlice => Ok (mkp (pS p) (pdata p) (slice_size (pS p) (pn p)) (pst p))
  | _ => CompileError
  end.
Fixpoint papply_all (qs : list vop) (p : pview) : outcome pview :=
  match qs with [] => Ok p | q :: t => p' <- papply q p ;; papply_all t p' end.
