(** * QR_Lapack.h over the reals. LAPACK's geqp3 and orgqr are not in the repository: geqp3 is modelled by the reference unblocked algorithm
    (dgeqp3.f, dlaqp2.f, dlarfg.f, dlarf.f; the downdated column norms are taken to be the norms they stand for), orgqr by its documented
    effect (the product of the reflectors stored below the diagonal). LAPACK's arrays are column-major, as [copy] and [Q] are. *)
From Coq Require Import Reals Arith Bool.
From Verif Require Import Base Alg Inst Mat SpecExp RSum LemGR RRect.
Open Scope outcome_scope.
Local Open Scope R_scope.

(** geqp3's array, JPVT (1-based) and TAU *)
Record qst := mkq { q_a : rmat; q_p : nat -> nat; q_t : nat -> R }.
Definition exch {X} (i j : nat) (f : nat -> X) (k : nat) : X := if (k =? i)%nat then f j else if (k =? j)%nat then f i else f k.
Definition setn {X} (f : nat -> X) (i : nat) (x : X) (k : nat) : X := if (k =? i)%nat then x else f k.
Definition swap_cols (i j : nat) (s : qst) : qst := mkq (fun r => exch i j (q_a s r)) (exch i j (q_p s)) (q_t s).
(** dgeqp3.f, "Move initial columns up front" *)
Definition geqp3_front (N : nat) (s : qst) : qst * nat :=
  (fix go k lo (s : qst) (nf : nat) := match k with O => (s, nf) | S k' =>
     if (q_p s lo =? 0)%nat then go k' (S lo) (mkq (q_a s) (setn (q_p s) lo (S lo)) (q_t s)) nf
     else if (lo =? nf)%nat then go k' (S lo) (mkq (q_a s) (setn (q_p s) lo (S lo)) (q_t s)) (S nf)
     else go k' (S lo) (mkq (fun r => exch lo nf (q_a s r)) (setn (setn (q_p s) lo (q_p s nf)) nf (S lo)) (q_t s)) (S nf) end) N O s O.
(** squared norm of rows lo .. M-1 of column c *)
Definition nrm2 (M lo : nat) (A : rmat) (c : nat) : R := Sum M (from lo (fun r => A r c * A r c)).
(** dlaqp2.f, "Determine i'th pivot column": the first column of largest norm among i .. N-1 (idamax) *)
Definition pick (M N i : nat) (A : rmat) : nat :=
  (fix go k lo best := match k with O => best | S k' => go k' (S lo) (if R_ltb (nrm2 M i A best) (nrm2 M i A lo) then lo else best) end) (N - i)%nat i i.
(** dlarfg.f on rows i .. M-1 of column i: beta, tau and what divides the rest of the column *)
Definition larfg_beta (M i : nat) (A : rmat) : R :=
  let x := nrm2 M (i + 1) A i in let a := A i i in
  if R_eqb x 0 then a else if R_ltb a 0 then sqrt (a * a + x) else - sqrt (a * a + x).
Definition larfg_tau (M i : nat) (A : rmat) : R := if R_eqb (nrm2 M (i + 1) A i) 0 then 0 else (larfg_beta M i A - A i i) / larfg_beta M i A.
Definition larfg_v (M i : nat) (A : rmat) (r : nat) : R :=
  if (r <? i)%nat then 0 else if (r =? i)%nat then 1 else if R_eqb (nrm2 M (i + 1) A i) 0 then A r i else A r i / (A i i - larfg_beta M i A).
(** dlaqp2.f: the reflector of column i, applied to the columns to its right (dlarf.f) *)
Definition house (M i : nat) (s : qst) : qst :=
  let A := q_a s in let v := larfg_v M i A in let t := larfg_tau M i A in
  mkq (fun r c => if (c =? i)%nat then (if (r <? i)%nat then A r c else if (r =? i)%nat then larfg_beta M i A else v r)
                  else if (i <? c)%nat then A r c - t * v r * Sum M (fun k => v k * A k c) else A r c)
      (q_p s) (setn (q_t s) i t).
Definition geqp3_step (M N nf i : nat) (s : qst) : qst := house M i (if (i <? nf)%nat then s else swap_cols i (pick M N i (q_a s)) s).
Fixpoint iter_up {S} (f : nat -> S -> S) (k lo : nat) (s : S) : S := match k with O => s | Datatypes.S k' => iter_up f k' (Datatypes.S lo) (f lo s) end.
Definition geqp3 (M N : nat) (A : rmat) (p : nat -> nat) : qst :=
  let '(s, nf) := geqp3_front N (mkq A p (fun _ => 0)) in iter_up (geqp3_step M N nf) (Nat.min M N) 0 s.
(** orgqr: reflector i has a unit at row i and the array below it; Q is their product *)
Definition vcol (A : rmat) (i r : nat) : R := if (r <? i)%nat then 0 else if (r =? i)%nat then 1 else A r i.
Definition refl (A : rmat) (t : nat -> R) (i : nat) : rmat := hous (vcol A i) (- t i).
Definition orgqr (K : nat) (A : rmat) (t : nat -> R) : rmat := chain K (refl A t) 0 K.

(** QR_Lapack.h:160-164 copy, Q, pivot *)
Record qrl := mkqrl { ql_copy : mat R; ql_Q : mat R; ql_pivot : vec nat }.
(** QR_Lapack.h:67-78 constructor and 101-158 compute; the workspace query changes nothing, and INFO is 0 for these arguments *)
Definition qrl_make (A : mat R) (do_pivoting : bool) : outcome qrl :=
  let M := mrows A in let N := mcols A in let K := Nat.min M N in
  p <- (if do_pivoting then Ok (mkvec N (fun _ => 0%nat)) else for_ 0 N (fun i p => vset p i (i + 1)%nat) (mkvec N (fun _ => 0%nat))) ;;
  let s := geqp3 M N (mel A) (vat p) in
  let copy := mkmat M N (q_a s) in
  let Q := mkmat K K (orgqr K (mel copy) (q_t s)) in
  copy <- for_ 1 K (fun r m => for_ 0 r (fun c m => mset m r c 0) m) copy ;;
  p <- for_ 0 N (fun i p => x <- vget p i ;; vset p i (x - 1)%nat) (mkvec N (q_p s)) ;;
  Ok (mkqrl copy Q p).
(** QR_Lapack.h:81-98 get_R, get_Q, get_P *)
Definition qrl_R (d : qrl) : mat R := ql_copy d.
Definition qrl_Q (d : qrl) : mat R := ql_Q d.
Definition qrl_P (d : qrl) : vec nat := ql_pivot d.
