(** * Weighted least squares in floating point: the same calls with the signs removed, and the number of roundings an element sees. *)
From Coq Require Import Reals List.
From Verif Require Import Mat ModelWLS.
Import ListNotations.
Local Open Scope R_scope.

Definition vabs (v : vec R) : vec R := mkvec (vlen v) (fun i => Rabs (vat v i)).
Definition mabs (m : mat R) : mat R := mkmat (mrows m) (mcols m) (fun i j => Rabs (mel m i j)).
(** the call with all its data replaced by their absolute values *)
Definition op_abs (o : wop R) : wop R :=
  match o with
  | PriorS v => PriorS (Rabs v) | PriorV v => PriorV (vabs v) | PriorM m => PriorM (mabs m)
  | Meas m J w => Meas (Rabs m) (vabs J) (Rabs w) | MeasRowsW m J w => MeasRowsW (vabs m) (mabs J) (Rabs w)
  | MeasCov m J W => MeasCov (vabs m) (mabs J) (mabs W) | MeasRows m J W => MeasRows (vabs m) (mabs J) (mabs W)
  | Sparse m J i w => Sparse (Rabs m) (vabs J) i (Rabs w) | SparseRows m J i W => SparseRows (vabs m) (mabs J) i (mabs W)
  | SparseRows2 m J i K j W => SparseRows2 (vabs m) (mabs J) i (mabs K) j (mabs W)
  end.
(** roundings in the number that is added to an element, and additions to one element *)
Definition op_depth (o : wop R) : nat :=
  match o with
  | PriorS _ | PriorV _ | PriorM _ => 0
  | Meas _ _ _ | MeasRowsW _ _ _ | Sparse _ _ _ _ => 2
  | MeasCov _ J _ => 2 * mcols J
  | MeasRows _ J _ | SparseRows _ J _ _ | SparseRows2 _ J _ _ _ _ => 2 * mrows J
  end.
Definition op_adds (o : wop R) : nat := match o with MeasRowsW _ J _ => mrows J | SparseRows2 _ _ _ _ _ _ => 4 | _ => 1 end.
(** the deepest term, and one rounding for every addition *)
Definition rounds (os : list (wop R)) : nat := (fold_right Nat.max 0 (map op_depth os) + fold_right Nat.add 0 (map op_adds os))%nat.
