(** * Sizes: template size parameters, size-mismatch tests, slice checks.
    Model only, no proofs. Default build configuration (no TOON_NDEBUG macros,
    no TOON_TEST_INTERNALS). *)
From Coq Require Import ZArith Bool.
From Verif Require Import Base.
Open Scope Z_scope.
Open Scope outcome_scope.

(** TooN.h:280 [static const int Dynamic = -1] and TooN.h:285 [Resizable = -0x7fffffff]. *)
Definition Dynamic : Z := -1.
Definition Resizable : Z := -2147483647.

(** C++ [int] (32-bit two's complement). Signed overflow is undefined behaviour. *)
Definition INT_MAX : Z := 2147483647.
Definition INT_MIN : Z := -2147483648.
Definition is_int (x : Z) : bool := (INT_MIN <=? x) && (x <=? INT_MAX).
Definition int_add (a b : Z) : outcome Z :=
  if is_int (a + b) then Ok (a + b) else UB.

(** TooN.h:296-302: SimpleSizer, specialisations in order. *)
Definition simple_sizer (i j : Z) : Z :=
  if i =? Dynamic then j            (* <Dynamic, i> (and <Dynamic,Dynamic> = -1) *)
  else i.                           (* <i, Dynamic> and the general <i, j> *)
(** TooN.h:302-305 IsStatic *)
Definition is_static (i : Z) : bool := negb (i =? Dynamic) && negb (i =? Resizable).
(** TooN.h:315-317 Sizer<i,i> *)
Definition sizer1 (i : Z) : Z := if is_static i then i else Dynamic.
(** TooN.h:308-317 Sizer<i,j>; the <i,i> specialisation is chosen when i = j. *)
Definition sizer (i j : Z) : Z :=
  if i =? j then sizer1 i else simple_sizer (sizer1 i) (sizer1 j).

(** size_mismatch.hh:33-84 SizeMismatch_ on already normalised parameters:
    equal parameters (neither Dynamic: the <Dynamic,Dynamic> specialisation is a full
    specialisation and wins) do nothing; one Dynamic: run-time compare and abort;
    two different static sizes: the primary template is undefined. *)
Definition size_mismatch_ (S1 S2 size1 size2 : Z) : outcome unit :=
  if (S1 =? Dynamic) || (S2 =? Dynamic)
  then (if size1 =? size2 then Ok tt else Abort DSizeMismatch)
  else if S1 =? S2 then Ok tt else CompileError.
(** size_mismatch.hh:100-108 SizeMismatch<Size1,Size2>::test(s1,s2) *)
Definition norm_size (S : Z) : Z :=
  if (S =? Dynamic) || (S =? Resizable) then Dynamic else S.
Definition size_mismatch (S1 S2 s1 s2 : Z) : outcome unit :=
  size_mismatch_ (norm_size S1) (norm_size S2) s1 s2.

(** slice_error.hh:33-45 BadSlice<StaticBad>::check(): only BadSlice<0> is defined. *)
Definition bad_slice (static_bad : bool) : outcome unit :=
  if static_bad then CompileError else Ok tt.
Definition is_dyn (S : Z) : bool := S =? Dynamic.
Definition is_dynr (S : Z) : bool := (S =? Dynamic) || (S =? Resizable).
(** slice_error.hh:60-67 N<Num>::n(num) *)
Definition pickN (Num num : Z) : Z := if is_dynr Num then num else Num.

(** slice_error.hh:75-82 CheckSlice<Size,Start,Length>::check() (fully static). *)
Definition check_slice_static (Size Start Length : Z) : outcome unit :=
  _ <- bad_slice (negb (is_dyn Size || (Size =? Resizable) || (0 <? Size))) ;;
  _ <- bad_slice (negb (0 <=? Start)) ;;
  _ <- bad_slice (negb (0 <=? Length)) ;;
  bad_slice (negb (is_dyn Size) && negb (Size =? Resizable) && (Size <? Start + Length)).

(** slice_error.hh:94-133 CheckSlice<Size,Start,Length>::check(size,start,length).
    The run-time sum [start+length] is evaluated in [int]. *)
Definition check_slice (Size Start Length size start length : Z) : outcome unit :=
  _ <- bad_slice (negb (is_dyn Size || (Size =? Resizable) || (0 <? Size))) ;;
  _ <- bad_slice (negb (is_dyn Start || (0 <=? Start))) ;;
  _ <- bad_slice (negb (is_dyn Length || (0 <=? Length))) ;;
  _ <- bad_slice (negb (is_dyn Size) && negb (Size =? Resizable) && negb (is_dyn Length)
                  && (Size <? Length)) ;;
  _ <- bad_slice (negb (is_dyn Start) && negb (is_dyn Size) && negb (Size =? Resizable)
                  && (Size <? Start)) ;;
  _ <- bad_slice (negb (is_dyn Size) && negb (Size =? Resizable) && negb (is_dyn Start)
                  && negb (is_dyn Length) && (Size <? Start + Length)) ;;
  if negb (is_dyn Start) && negb (Size =? Resizable) && negb (Start =? start)
  then Abort DSliceStatic
  else if negb (is_dyn Length) && negb (Size =? Resizable) && negb (Length =? length)
  then Abort DSliceStatic
  else if negb (is_dyn Size) && negb (Size =? Resizable) && negb (Size =? size)
  then Abort DSliceStatic
  else
    sum <- int_add (pickN Start start) (pickN Length length) ;;
    if (pickN Size size <? sum) || (pickN Start start <? 0) || (pickN Length length <? 0)
    then Abort DSliceRange else Ok tt.
