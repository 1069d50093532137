(** * Vectors and matrices as values, with checked element access.
    Used by all numeric modules. The memory-level behaviour of views, overlap and sizes is the
    subject of ModelView.v; here an object is its size and its elements, an access out of range
    is undefined behaviour, and the run-time size test is the one of C09. *)
From Coq Require Import Arith Bool List.
From Verif Require Import Base Alg.
Import ListNotations.
Open Scope outcome_scope.

Record vec (F : Type) := mkvec { vlen : nat; vat : nat -> F }.
Record mat (F : Type) := mkmat { mrows : nat; mcols : nat; mel : nat -> nat -> F }.
Arguments mkvec {F}. Arguments vlen {F}. Arguments vat {F}.
Arguments mkmat {F}. Arguments mrows {F}. Arguments mcols {F}. Arguments mel {F}.

Section M.
Context {F : Type} {Fo : Ops F}.

(** vbase.hh:161-169 operator[] *)
Definition vget (v : vec F) (i : nat) : outcome F := if i <? vlen v then Ok (vat v i) else UB.
Definition vset (v : vec F) (i : nat) (x : F) : outcome (vec F) :=
  if i <? vlen v then Ok (mkvec (vlen v) (fun j => if j =? i then x else vat v j)) else UB.
(** mbase.hh:134-144 operator()(r,c), and operator[](r)[c] (the same element, C04) *)
Definition mget (m : mat F) (r c : nat) : outcome F :=
  if (r <? mrows m) && (c <? mcols m) then Ok (mel m r c) else UB.
Definition mset (m : mat F) (r c : nat) (x : F) : outcome (mat F) :=
  if (r <? mrows m) && (c <? mcols m)
  then Ok (mkmat (mrows m) (mcols m) (fun i j => if (i =? r) && (j =? c) then x else mel m i j)) else UB.
(** A freshly constructed, uninitialised object. *)
Definition vnew (n : nat) : vec F := mkvec n (fun _ => junk).
Definition mnew (r c : nat) : mat F := mkmat r c (fun _ _ => junk).
(** mbase.hh:141-249 operator[], T(), diagonal_slice(), slice(); vbase.hh slice(), as_row(), as_col()
    read as values. *)
Definition row (m : mat F) (r : nat) : outcome (vec F) :=
  if r <? mrows m then Ok (mkvec (mcols m) (fun c => mel m r c)) else UB.
Definition tr (m : mat F) : mat F := mkmat (mcols m) (mrows m) (fun r c => mel m c r).
Definition diag (m : mat F) : vec F := mkvec (Nat.min (mrows m) (mcols m)) (fun i => mel m i i).
Definition as_row (v : vec F) : mat F := mkmat 1 (vlen v) (fun _ c => vat v c).
Definition as_col (v : vec F) : mat F := mkmat (vlen v) 1 (fun r _ => vat v r).

(** size_mismatch.hh:37-69 at run time; C09 shows static sizes give the same answer at compile time *)
Definition same_size (m n : nat) : outcome unit := if m =? n then Ok tt else Abort DSizeMismatch.

(** for(i..) res[i] = body(i), on a fresh vector / for(r..) for(c..) res(r,c) = body(r,c) *)
Definition vfor (n : nat) (body : nat -> outcome F) : outcome (vec F) :=
  for_ 0 n (fun i v => x <- body i ;; vset v i x) (vnew n).
Definition mfor (nr nc : nat) (body : nat -> nat -> outcome F) : outcome (mat F) :=
  for_ 0 nr (fun r m => for_ 0 nc (fun c m => x <- body r c ;; mset m r c x) m) (mnew nr nc).
(** for(i..) v[i] = body(i, v[i]) in place, and the matrix version *)
Definition vmod (body : nat -> F -> outcome F) (v : vec F) : outcome (vec F) :=
  for_ 0 (vlen v) (fun i v => a <- vget v i ;; x <- body i a ;; vset v i x) v.
Definition mmod (body : nat -> nat -> F -> outcome F) (m : mat F) : outcome (mat F) :=
  for_ 0 (mrows m) (fun r m => for_ 0 (mcols m) (fun c m => a <- mget m r c ;; x <- body r c a ;; mset m r c x) m) m.
End M.
