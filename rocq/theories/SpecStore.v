(** * Value semantics of owning vectors: what a user expects, with no memory at all.
    Each live vector is a kind (its type) and a sequence of elements; an element is
    [Some v], or [None] when nobody ever gave it a value. A moved-from Dynamic vector has
    no contents. *)
From Coq Require Import List Arith Bool ZArith.
From Verif Require Import Base ModelStore.
Import ListNotations.
Open Scope nat_scope.

Section Spec.
Context {V : Type}.
Inductive content := Values (l : list (option V)) | MovedFrom (n : nat).
Definition world := nat -> option (kind * content).
Definition put (w : world) (x : nat) (c : option (kind * content)) : world :=
  fun y => if Nat.eqb x y then c else w y.
(** Stuck: an illegal program (undefined names, reading a moved-from vector, indexing out of
    range, the excluded zero-size Resizable cases). Stop: a size error the library must
    diagnose at run time or refuse to compile. *)
Inductive result := Good (w : world) | Stop | Stuck.

Definition set_nth (l : list (option V)) (i : nat) (v : option V) : list (option V) :=
  firstn i l ++ match skipn i l with [] => [] | _ :: t => v :: t end.
Definition create (w : world) (x : nat) (k : kind) (c : content) : result :=
  match w x with Some _ => Stuck | None => Good (put w x (Some (k, c))) end.
Definition fits (k : kind) (n : nat) : bool := match k with KStatic m => n =? m | _ => true end.
Definition is_res (k : kind) : bool := match k with KRes => true | _ => false end.

(** [dbg_on]: the library was compiled to overwrite uninitialised data; then assigning a
    Resizable vector to itself is excluded (see C13_self_assign_debug_refuted). *)
Definition spec_step (dbg_on : bool) (c : cmd V) (w : world) : result :=
  match c with
  | NewList k x l => if fits k (length l) then create w x k (Values (map Some l)) else
                     match w x with Some _ => Stuck | None => Stop end
  | NewSize k x n _ =>
      match k with
      | KStatic m => create w x k (Values (repeat None m))
      | KDyn => create w x k (Values (repeat None n))
      | KRes => if n =? 0 then Stuck else create w x k (Values (repeat None n))
      end
  | Copy x y =>
      match w y with
      | Some (k, Values l) => create w x k (Values l)
      | _ => Stuck end
  | Convert k x y _ =>
      match w y, w x with
      | Some (ky, Values l), None =>
          if is_res k && (length l =? 0) then Stuck
          else if fits k (length l) then create w x k (Values l) else Stop
      | _, _ => Stuck end
  | Move x y =>
      match w y, w x with
      | Some (k, Values l), None =>
          let w1 := put w x (Some (k, Values l)) in
          Good match k with
               | KStatic _ => w1
               | KDyn => put w1 y (Some (KDyn, MovedFrom (length l)))
               | KRes => put w1 y (Some (KRes, Values []))
               end
      | _, _ => Stuck end
  | Assign x y =>
      match w x, w y with
      | Some (kx, Values lx), Some (ky, Values ly) =>
          if is_res kx then
            if (length ly =? 0) || (dbg_on && (x =? y)) then Stuck
            else Good (put w x (Some (kx, Values ly)))
          else if length lx =? length ly then Good (put w x (Some (kx, Values ly))) else Stop
      | _, _ => Stuck end
  | Swap x y =>
      match w x, w y with
      | Some (kx, Values lx), Some (ky, Values ly) =>
          if (is_res kx && is_res ky) || (length lx =? length ly)
          then Good (put (put w x (Some (kx, Values ly))) y (Some (ky, Values lx))) else Stop
      | _, _ => Stuck end
  | Resize x n =>
      match w x with
      | Some (KRes, Values l) => Good (put w x (Some (KRes, Values (firstn n l ++ repeat None (n - length l)))))
      | _ => Stuck end
  | Write x i v =>
      match w x with
      | Some (k, Values l) => if i <? length l then Good (put w x (Some (k, Values (set_nth l i (Some v))))) else Stuck
      | _ => Stuck end
  | Destroy x =>
      match w x with Some _ => Good (put w x None) | None => Stuck end
  end.
Fixpoint spec_run (dbg_on : bool) (p : list (cmd V)) (w : world) : result :=
  match p with
  | [] => Good w
  | c :: p' => match spec_step dbg_on c w with Good w' => spec_run dbg_on p' w' | r => r end
  end.
Definition nothing : world := fun _ => None.
End Spec.
Arguments world : clear implicits.
Arguments content : clear implicits.
Arguments result : clear implicits.
