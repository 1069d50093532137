(** * Specification of weighted least squares: the sum of squares that the calls describe. *)
From Coq Require Import Arith List.
From Verif Require Import Base Alg Mat SpecForm ModelWLS.
Import ListNotations.

Section S.
Context {F : Type} {Fo : Ops F}.
Open Scope F_scope.
(** a.x, and the residual m - J.x of one measurement *)
Definition dotf (n : nat) (a x : nat -> F) : F := sum n (fun i => a i * x i).
(** e^T W e *)
Definition cov_energy (k : nat) (W : nat -> nat -> F) (e : nat -> F) : F := quad k W e.
(** the block vector: [J] placed at positions i0, i0+1, ... and zero elsewhere *)
Definition placed (i0 len : nat) (J : nat -> F) (r : nat) : F := if ((i0 <=? r) && (r <? i0 + len))%nat%bool then J (r - i0)%nat else 0.

(** What each call adds to the energy that is minimised, as a function of the n parameters x. *)
Definition op_energy (n : nat) (o : wop F) (x : nat -> F) : F :=
  match o with
  | PriorS v => sum n (fun i => v * (x i * x i))
  | PriorV v => sum n (fun i => vat v i * (x i * x i))
  | PriorM m => quad n (mel m) x
  | Meas m J w => let e := m - dotf n (vat J) x in w * (e * e)
  | MeasRowsW m J w => sum (mrows J) (fun k => let e := vat m k - dotf n (mel J k) x in w * (e * e))
  | MeasCov m J W => cov_energy (mcols J) (mel W) (fun k => vat m k - dotf n (fun r => mel J r k) x)
  | MeasRows m J W => cov_energy (mrows J) (mel W) (fun k => vat m k - dotf n (mel J k) x)
  | Sparse m J i w => let e := m - dotf n (placed i (vlen J) (vat J)) x in w * (e * e)
  | SparseRows m J i W => cov_energy (mrows J) (mel W) (fun k => vat m k - dotf n (placed i (mcols J) (mel J k)) x)
  | SparseRows2 m J i K j W => cov_energy (mrows J) (mel W)
       (fun k => vat m k - dotf n (fun r => placed i (mcols J) (mel J k) r + placed j (mcols K) (mel K k) r) x)
  end.
Fixpoint energy (n : nat) (os : list (wop F)) (x : nat -> F) : F :=
  match os with [] => 0 | o :: os => op_energy n o x + energy n os x end.
(** the same calls with all measured values zero: the curvature of the energy *)
Definition zero_vec (v : vec F) : vec F := mkvec (vlen v) (fun _ => 0).
Definition op_zero (o : wop F) : wop F :=
  match o with
  | Meas m J w => Meas 0 J w | MeasRowsW m J w => MeasRowsW (zero_vec m) J w
  | MeasCov m J W => MeasCov (zero_vec m) J W | MeasRows m J W => MeasRows (zero_vec m) J W
  | Sparse m J i w => Sparse 0 J i w | SparseRows m J i W => SparseRows (zero_vec m) J i W
  | SparseRows2 m J i K j W => SparseRows2 (zero_vec m) J i K j W
  | o => o
  end.
Definition curvature (n : nat) (os : list (wop F)) (d : nat -> F) : F := energy n (map op_zero os) d.

(** the arguments fit a system of size n; (inverse) covariances are symmetric *)
Definition op_ok (n : nat) (o : wop F) : Prop :=
  match o with
  | PriorS _ => True
  | PriorV v => vlen v = n
  | PriorM m => mrows m = n /\ mcols m = n /\ symmetric n (mel m)
  | Meas _ J _ => vlen J = n
  | MeasRowsW m J _ => vlen m = mrows J /\ mcols J = n
  | MeasCov m J W => mrows J = n /\ vlen m = mcols J /\ mrows W = mcols J /\ mcols W = mcols J /\ symmetric (mcols J) (mel W)
  | MeasRows m J W => mcols J = n /\ vlen m = mrows J /\ mrows W = mrows J /\ mcols W = mrows J /\ symmetric (mrows J) (mel W)
  | Sparse _ J i _ => (i + vlen J <= n)%nat
  | SparseRows m J i W => (i + mcols J <= n)%nat /\ vlen m = mrows J /\ mrows W = mrows J /\ mcols W = mrows J /\ symmetric (mrows J) (mel W)
  | SparseRows2 m J i K j W => (i + mcols J <= n)%nat /\ (j + mcols K <= n)%nat /\ mrows K = mrows J /\ vlen m = mrows J /\
      mrows W = mrows J /\ mcols W = mrows J /\ symmetric (mrows J) (mel W)
  end.
(** non-negative weights, positive semidefinite inverse covariances *)
Definition op_nonneg (n : nat) (o : wop F) : Prop :=
  match o with
  | PriorS v => fle 0 v
  | PriorV v => forall i, (i < n)%nat -> fle 0 (vat v i)
  | PriorM m => psd n (mel m)
  | Meas _ _ w | MeasRowsW _ _ w | Sparse _ _ _ w => fle 0 w
  | MeasCov _ J W => psd (mcols J) (mel W)
  | MeasRows _ J W | SparseRows _ J _ W | SparseRows2 _ J _ _ _ W => psd (mrows J) (mel W)
  end.
End S.
