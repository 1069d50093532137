(** * helpers.h: norms, project, trace, Symmetrize, extrema, isnan/isfinite. Model only.
    Scalars are those of an ordered field (exact arithmetic); the functions using sqrt are over R. *)
From Coq Require Import Arith Bool List Reals.
From Verif Require Import Base Alg Mat ModelOps Inst.
Import ListNotations.
Open Scope nat_scope.
Open Scope outcome_scope.

Section M.
Context {F : Type} {Fo : Ops F}.
(** std::max *)
Definition fmax (a b : F) : F := if fltb a b then b else a.
Definition two : F := fadd f1 f1.

(** helpers.h:65-73 inv *)
Definition inv2 (m : mat F) : outcome (mat F) :=
  a <- mget m 0 0 ;; d <- mget m 1 1 ;; c <- mget m 1 0 ;; b <- mget m 0 1 ;;
  k <- div f1 (fsub (fmul a d) (fmul c b)) ;;
  let l := [fmul d k; fmul (fopp b) k; fmul (fopp c) k; fmul a k] in
  Ok (mkmat 2 2 (fun i j => nth (i * 2 + j) l f0)).

(** helpers.h:106-109 norm_sq *)
Definition norm_sq (v : vec F) : outcome F := dot v v.
(** helpers.h:114-121 norm_1 *)
Definition norm1_vec (v : vec F) : outcome F :=
  for_ 0 (vlen v) (fun i n => x <- vget v i ;; Ok (fadd n (fabs x))) f0.
(** helpers.h:126-136 norm_inf *)
Definition norminf_vec (v : vec F) : outcome F :=
  x <- vget v 0 ;;
  for_ 1 (vlen v) (fun i n => x <- vget v i ;; Ok (fmax n (fabs x))) (fabs x).
(** helpers.h:240-249 norm_fro without the final sqrt *)
Definition sumsq_mat (m : mat F) : outcome F :=
  for_ 0 (mrows m) (fun r n => for_ 0 (mcols m) (fun c n => x <- mget m r c ;; Ok (fadd n (fmul x x))) n) f0.
(** helpers.h:254-267 norm_inf, 272-285 norm_1 of a matrix *)
Definition norminf_mat (m : mat F) : outcome F :=
  for_ 0 (mrows m) (fun r n =>
    s <- for_ 0 (mcols m) (fun c s => x <- mget m r c ;; Ok (fadd s (fabs x))) f0 ;; Ok (fmax n s)) f0.
Definition norm1_mat (m : mat F) : outcome F :=
  for_ 0 (mcols m) (fun c n =>
    s <- for_ 0 (mrows m) (fun r s => x <- mget m r c ;; Ok (fadd s (fabs x))) f0 ;; Ok (fmax n s)) f0.

(** helpers.h:182-185 project: slice(0,size-1) / v[size-1]; on an empty vector the slice has
    negative length (diagnosed, C01) *)
Definition project_vec (v : vec F) : outcome (vec F) :=
  match vlen v with
  | O => Abort DSliceRange
  | S k => x <- vget v k ;; vdivs (mkvec k (vat v)) x
  end.
(** helpers.h:193-199 unproject *)
Definition unproject_vec (v : vec F) : outcome (vec F) :=
  res <- for_ 0 (vlen v) (fun i r => x <- vget v i ;; vset r i x) (vnew (S (vlen v))) ;;
  vset res (vlen v) f1.
(** helpers.h:204-218 project of a matrix: column c of the first R-1 rows /= m[R-1][c] *)
Definition project_mat (m : mat F) : outcome (mat F) :=
  match mrows m with
  | O => Abort DSliceRange
  | S k =>
    res <- mfor k (mcols m) (fun r c => mget m r c) ;;
    for_ 0 (mcols m) (fun c res => s <- mget m k c ;;
      for_ 0 k (fun r res => x <- mget res r c ;; y <- div x s ;; mset res r c y) res) res
  end.
(** helpers.h:223-235 unproject of a matrix *)
Definition unproject_mat (m : mat F) : outcome (mat F) :=
  res <- for_ 0 (mrows m) (fun r res => for_ 0 (mcols m) (fun c res => x <- mget m r c ;; mset res r c x) res)
           (mnew (S (mrows m)) (mcols m)) ;;
  for_ 0 (mcols m) (fun c res => mset res (mrows m) c f1) res.

(** helpers.h:418-427 Symmetrize *)
Definition symmetrize (m : mat F) : outcome (mat F) :=
  _ <- same_size (mrows m) (mcols m) ;;
  for_ 0 (mrows m - 1) (fun r m => for_ (S r) (mcols m) (fun c m =>
    x <- mget m r c ;; y <- mget m c r ;; t <- div (fadd x y) two ;;
    m <- mset m r c t ;; mset m c r t) m) m.
(** helpers.h:432-438 trace *)
Definition trace (m : mat F) : outcome F :=
  _ <- same_size (mrows m) (mcols m) ;;
  for_ 0 (mrows m) (fun i t => x <- mget m i i ;; Ok (fadd t x)) f0.
(** helpers.h:444-461 cross_product_matrix *)
Definition cross_product_matrix (v : vec F) : outcome (mat F) :=
  _ <- same_size (vlen v) 3 ;;
  x <- vget v 0 ;; y <- vget v 1 ;; z <- vget v 2 ;;
  r <- mset (mnew 3 3) 0 0 f0 ;; r <- mset r 0 1 (fopp z) ;; r <- mset r 0 2 y ;;
  r <- mset r 1 0 z ;; r <- mset r 1 1 f0 ;; r <- mset r 1 2 (fopp x) ;;
  r <- mset r 2 0 (fopp y) ;; r <- mset r 2 1 x ;; mset r 2 2 f0.

(** The comparison functors std::less / std::greater of the extremum functions (740-881) *)
Definition less (a b : F) : bool := fltb a b.
Definition greater (a b : F) : bool := fltb b a.
(** helpers.h:464-474 accumulate over a vector, with accumulate_functor_vector (519-535, min_value/max_value)
    and accumulate_element_functor_vector (536-559, min_element/max_element) *)
Definition acc_vec (cmp : F -> F -> bool) (v : vec F) : outcome F :=
  if vlen v =? 0 then Ok f0 else
  x <- vget v 0 ;;
  for_ 1 (vlen v) (fun i b => x <- vget v i ;; Ok (if cmp x b then x else b)) x.
Definition acc_elem_vec (cmp : F -> F -> bool) (v : vec F) : outcome (F * nat) :=
  if vlen v =? 0 then Ok (f0, 0) else
  x <- vget v 0 ;;
  for_ 1 (vlen v) (fun i b => x <- vget v i ;; Ok (if cmp x (fst b) then (x, i) else b)) (x, 0).
(** helpers.h:476-488 accumulate over a matrix with accumulate_functor_matrix (560-576) and
    accumulate_element_functor_matrix (577-604) *)
Definition acc_mat (cmp : F -> F -> bool) (m : mat F) : outcome F :=
  if (mrows m =? 0) || (mcols m =? 0) then Ok f0 else
  x <- mget m 0 0 ;;
  for_ 0 (mrows m) (fun r b => for_ 0 (mcols m) (fun c b => x <- mget m r c ;; Ok (if cmp x b then x else b)) b) x.
Definition acc_elem_mat (cmp : F -> F -> bool) (m : mat F) : outcome (F * (nat * nat)) :=
  if (mrows m =? 0) || (mcols m =? 0) then Ok (f0, (0, 0)) else
  x <- mget m 0 0 ;;
  for_ 0 (mrows m) (fun r b => for_ 0 (mcols m) (fun c b => x <- mget m r c ;;
      Ok (if cmp x (fst b) then (x, (r, c)) else b)) b) (x, (0, 0)).
(** helpers.h:489-501 accumulate_horizontal with the functors 665-692 and 693-734. The result of
    null() in the empty case is discarded (no return), so the loops run on. The index vector has
    element type Precision in the C++; here it holds the index itself. *)
Definition acc_horizontal (cmp : F -> F -> bool) (m : mat F) : outcome (vec F * vec nat) :=
  for_ 0 (mrows m) (fun r s =>
     x <- mget m r 0 ;; b <- vset (fst s) r x ;; k <- vset (snd s) r 0 ;;
     for_ 1 (mcols m) (fun c s =>
        x <- mget m r c ;; y <- vget (fst s) r ;;
        if cmp x y then b <- vset (fst s) r x ;; k <- vset (snd s) r c ;; Ok (b, k) else Ok s) (b, k))
   (vnew (mrows m), mkvec (mrows m) (fun _ => 0)).
(** helpers.h:502-514 accumulate_vertical with the functors 605-631 and 632-664 *)
Definition acc_vertical (cmp : F -> F -> bool) (m : mat F) : outcome (vec F * vec nat) :=
  for_ 0 (mcols m) (fun c s =>
     x <- mget m 0 c ;; b <- vset (fst s) c x ;; k <- vset (snd s) c 0 ;;
     for_ 1 (mrows m) (fun r s =>
        x <- mget m r c ;; y <- vget (fst s) c ;;
        if cmp x y then b <- vset (fst s) c x ;; k <- vset (snd s) c r ;; Ok (b, k) else Ok s) (b, k))
   (vnew (mcols m), mkvec (mcols m) (fun _ => 0)).
End M.

(** ** IEEE classification: a number, an infinity or a NaN *)
Inductive ieee (F : Type) := Num (x : F) | Inf (neg : bool) | NaN.
Arguments Num {F}. Arguments Inf {F}. Arguments NaN {F}.
(** std::isfinite, std::isnan *)
Definition fp_isfinite {F} (x : ieee F) : bool := match x with Num _ => true | _ => false end.
Definition fp_isnan {F} (x : ieee F) : bool := match x with NaN => true | _ => false end.
(** a loop that may return early: None = still running *)
Definition returning {A} (n : nat) (body : nat -> outcome (option A)) (last : A) : outcome A :=
  r <- for_ 0 n (fun i s => match s with Some q => Ok (Some q) | None => body i end) None ;;
  Ok (match r with Some q => q | None => last end).
(** helpers.h:385-392, 396-403, 405-411 *)
Definition isfinite_vec {F} (v : vec (ieee F)) : outcome bool :=
  returning (vlen v) (fun i => x <- vget v i ;; Ok (if negb (fp_isfinite x) then Some false else None)) true.
Definition isnan_vec {F} (v : vec (ieee F)) : outcome bool :=
  returning (vlen v) (fun i => x <- vget v i ;; Ok (if fp_isnan x then Some true else None)) false.
Definition isnan_mat {F} (m : mat (ieee F)) : outcome bool :=
  returning (mrows m) (fun r => v <- row m r ;; b <- isnan_vec v ;; Ok (if b then Some true else None)) false.

(** ** Over the reals *)
(** helpers.h:97-101 norm, 141-144 norm_2 *)
Definition norm (v : vec R) : outcome R := d <- dot v v ;; Ok (sqrt d).
Definition norm_2 (v : vec R) : outcome R := norm v.
(** helpers.h:153-157 unit *)
Definition unit_vec (v : vec R) : outcome (vec R) := d <- dot v v ;; k <- div f1 (sqrt d) ;; vscale v k.
(** helpers.h:162-175 normalize *)
Definition normalize (v : vec R) : outcome (vec R) := d <- dot v v ;; vdiv_assign v (sqrt d).
(** helpers.h:240-249 norm_fro *)
Definition norm_fro (m : mat R) : outcome R := n <- sumsq_mat m ;; Ok (sqrt n).
