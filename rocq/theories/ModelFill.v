(** * Comma filling, Data initialisation and text input/output. Model only. *)
From Coq Require Import ZArith Bool List.
From Verif Require Import Base ModelSize ModelView.
Import ListNotations.
Open Scope Z_scope.
Open Scope outcome_scope.

Section Fill.
Context {V : Type}.

(** overfill_error.hh:32-43 CheckOverFill<N,Size>::check (static; also taken for Resizable, whose
    Size parameter is negative, so that every N overfills) and 45-63 (Size = -1, run time). *)
Definition check_overfill (N Size s : Z) : outcome unit :=
  if Size =? -1 then (if s <=? N then Abort DOverfill else Ok tt)
  else if Size <=? N then CompileError else Ok tt.
(** comma.hh:43-48 operator, : the (N)th value is stored in v[N]; 66-71 operator= tests N = 1. *)
Fixpoint vfill_rest (cb : bool) (v : vview) (N : Z) (xs : list V) (m : mem V) : outcome (mem V) :=
  match xs with
  | [] => (* comma.hh:38-41, 50-65: the last filler has underfill = N < size(); if it is not
             underfilled its destructor clears the flag of all its parents in turn *)
          if N <? vn v then Abort DUnderfill else Ok m
  | x :: xs' => _ <- check_overfill N (vS v) (vn v) ;;
                m' <- vset cb m v N x ;; vfill_rest cb v (N + 1) xs' m'
  end.
(** Fill(v) = x, xs...: comma.hh:66-75, 143-150 *)
Definition vfill (cb : bool) (v : vview) (x : V) (xs : list V) (m : mem V) : outcome (mem V) :=
  _ <- check_overfill 1 (vS v) (vn v) ;;
  m' <- vset cb m v 0 x ;; vfill_rest cb v 1 xs m'.

(** overfill_error.hh:66-93 CheckMOverFill<N,R,C>::check(rows*cols) *)
Definition check_moverfill (N R C s : Z) : outcome unit :=
  if (R =? -1) || (C =? -1) then (if s <=? N then Abort DOverfill else Ok tt)
  else if R * C <=? N then CompileError else Ok tt.
(** m[r][c] = p *)
Definition set_rc (cb : bool) (a : mview) (r c : Z) (x : V) (m : mem V) : outcome (mem V) :=
  row <- mrow cb a r ;; vset cb m row c x.
(** comma.hh:92-105 operator, and 107-121 destructor *)
Fixpoint mfill_rest (cb : bool) (a : mview) (N r c : Z) (xs : list V) (m : mem V) : outcome (mem V) :=
  match xs with
  | [] => if r <? mr a then Abort DUnderfill else Ok m
  | x :: xs' =>
      _ <- check_moverfill N (mR a) (mC a) (mr a * mc a) ;;
      m' <- set_rc cb a r c x m ;;
      let c' := c + 1 in
      if c' =? mc a then mfill_rest cb a (N + 1) (r + 1) 0 xs' m'
      else mfill_rest cb a (N + 1) r c' xs' m'
  end.
(** Fill(m) = x, xs...: comma.hh:124-136 *)
Definition mfill (cb : bool) (a : mview) (x : V) (xs : list V) (m : mem V) : outcome (mem V) :=
  _ <- check_moverfill 0 (mR a) (mC a) (mr a * mc a) ;;
  m' <- set_rc cb a 0 0 x m ;; mfill_rest cb a 1 0 1 xs m'.

(** data.hh:50-56 Data(...) to a Vector *)
Definition data_vec (cb : bool) (v : vview) (xs : list V) (m : mem V) : outcome (mem V) :=
  _ <- size_mismatch (vS v) (Z.of_nat (length xs)) (vn v) (Z.of_nat (length xs)) ;;
  for_ 0 (length xs) (fun i m => match nth_error xs i with
                                 | Some x => vset cb m v (Z.of_nat i) x | None => UB end) m.
(** data.hh:42-48 Data(...) to a Matrix: the loops run to the template parameters R and C. *)
Definition data_mat (cb : bool) (a : mview) (xs : list V) (m : mem V) : outcome (mem V) :=
  let RC := if mR a =? -1 then -1 else if mC a =? -1 then -1 else mR a * mC a in
  _ <- size_mismatch RC (Z.of_nat (length xs)) (mr a * mc a) (Z.of_nat (length xs)) ;;
  '(m', _) <- for_ 0 (Z.to_nat (mR a)) (fun r mn => for_ 0 (Z.to_nat (mC a)) (fun c mn =>
     let '(m, n) := mn in
     match nth_error xs n with
     | Some x => m' <- set_rc cb a (Z.of_nat r) (Z.of_nat c) x m ;; Ok (m', S n)
     | None => UB end) mn) (m, 0%nat) ;;
  Ok m'.
(** make_vector.hh: vals[0]=x1; vals[1]=x2; ... on a fresh Vector<n> *)
Fixpoint make_vec_from (cb : bool) (v : vview) (i : Z) (xs : list V) (m : mem V) : outcome (mem V) :=
  match xs with [] => Ok m | x :: xs' => m' <- vset cb m v i x ;; make_vec_from cb v (i + 1) xs' m' end.
Definition make_vector (cb : bool) (v : vview) (xs : list V) (m : mem V) : outcome (mem V) :=
  make_vec_from cb v 0 xs m.
End Fill.

(** ** Streams. Characters: blank, newline, or anything else. The text of a scalar and the
    library's scalar extraction are parameters (iostream is not modelled). *)
Section Stream.
Context {V : Type}.
Inductive char := Blank | Newline | Ch (c : nat).
Definition text := list char.
Variable show : V -> text.
(** extraction of one scalar at the first non-white character *)
Variable parse : text -> option (V * text).
(** how many blanks os.width(fw) pads in front of this element *)
Variable pad : V -> nat.

Definition is_white (c : char) : bool := match c with Ch _ => false | _ => true end.
Fixpoint skip_white (t : text) : text :=
  match t with c :: t' => if is_white c then skip_white t' else t | [] => [] end.
(** is >> x *)
Definition extract (t : text) : option (V * text) := parse (skip_white t).
(** os.width(fw); os << x *)
Definition emit (x : V) : text := repeat Blank (pad x) ++ show x.

(** operators.hh:669-678: each element followed by " " *)
Definition print_vec (cb : bool) (m : mem V) (v : vview) : outcome text :=
  for_ 0 (Z.to_nat (vn v)) (fun i t => x <- vget cb m v (Z.of_nat i) ;; Ok (t ++ emit x ++ [Blank])) [].
(** operators.hh:681-687. A failed extraction leaves the stream failed: modelled as [None]. *)
Definition read_vec (cb : bool) (v : vview) (t : text) (m : mem V) : outcome (mem V * option text) :=
  for_ 0 (Z.to_nat (vn v)) (fun i s =>
    match snd s with
    | None => Ok s
    | Some t => match extract t with
                | None => Ok (fst s, None)
                | Some (x, t') => m' <- vset cb (fst s) v (Z.of_nat i) x ;; Ok (m', Some t')
                end
    end) (m, Some t).
(** operators.hh:689-704: " " between elements, endl after each row *)
Definition print_mat (cb : bool) (m : mem V) (a : mview) : outcome text :=
  for_ 0 (Z.to_nat (mr a)) (fun i t =>
    t' <- for_ 0 (Z.to_nat (mc a)) (fun j t =>
            x <- mget cb m a (Z.of_nat i) (Z.of_nat j) ;;
            Ok (t ++ (if Nat.eqb j 0 then [] else [Blank]) ++ emit x)) t ;;
    Ok (t' ++ [Newline])) [].
(** operators.hh:706-714 *)
Definition read_mat (cb : bool) (a : mview) (t : text) (m : mem V) : outcome (mem V * option text) :=
  for_ 0 (Z.to_nat (mr a)) (fun i s => for_ 0 (Z.to_nat (mc a)) (fun j s =>
    match snd s with
    | None => Ok s
    | Some t => match extract t with
                | None => Ok (fst s, None)
                | Some (x, t') => m' <- mset cb (fst s) a (Z.of_nat i) (Z.of_nat j) x ;; Ok (m', Some t')
                end
    end) s) (m, Some t).
End Stream.
