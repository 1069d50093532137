(** * SVD.h and GR_SVD.h: what is computed from a decomposition, over the reals. Model only. *)
From Coq Require Import Reals Arith Bool List.
From Verif Require Import Base Alg Mat Inst ModelOps ModelHelpers.
Open Scope outcome_scope.
Local Open Scope R_scope.

(** SVD.h:278-280 my_copy, my_diagonal, my_square *)
Record svd := mksvd { sv_copy : mat R; sv_diag : vec R; sv_square : mat R }.
(** SVD.h:38 condition_no *)
Definition svd_condition_no : R := 10 ^ 9.
(** SVD.h:166-168 is_vertical, 170 min_dim *)
Definition is_vertical (S : svd) : bool := (mcols (sv_copy S) <=? mrows (sv_copy S))%nat.
Definition min_dim (S : svd) : nat := Nat.min (mrows (sv_copy S)) (mcols (sv_copy S)).
(** SVD.h:236-244 get_U, 252-260 get_VT: views of one of the two arrays *)
Definition svd_U (S : svd) : mat R := if is_vertical S then sv_copy S else sv_square S.
Definition svd_VT (S : svd) : mat R := if is_vertical S then sv_square S else sv_copy S.
(** SVD.h:267-275 get_inv_diag *)
Definition svd_inv_diag (condition : R) (S : svd) : outcome (vec R) :=
  for_ 0 (min_dim S) (fun i inv_diag =>
    x <- vget (sv_diag S) i ;; first <- vget (sv_diag S) 0 ;;
    if R_ltb first (x * condition) then (y <- div (F:=R) 1 x ;; vset inv_diag i y) else vset inv_diag i 0) (vnew (min_dim S)).
(** SVD.h:178-185 backsub of a matrix, 191-198 of a vector, 204-208 get_pinv *)
Definition svd_backsub_mat (condition : R) (S : svd) (rhs : mat R) : outcome (mat R) :=
  d <- svd_inv_diag condition S ;; t <- mmul (tr (svd_U S)) rhs ;; t <- vmdiag d t ;; mmul (tr (svd_VT S)) t.
Definition svd_backsub_vec (condition : R) (S : svd) (rhs : vec R) : outcome (vec R) :=
  d <- svd_inv_diag condition S ;; t <- mv (tr (svd_U S)) rhs ;; t <- vdiagmult d t ;; mv (tr (svd_VT S)) t.
Definition svd_pinv (condition : R) (S : svd) : outcome (mat R) :=
  d <- svd_inv_diag condition S ;; t <- mvdiag (tr (svd_VT S)) d ;; mmul t (tr (svd_U S)).
(** SVD.h:212-218 determinant *)
Definition svd_determinant (S : svd) : outcome R :=
  x <- vget (sv_diag S) 0 ;; for_ 1 (vlen (sv_diag S)) (fun i result => y <- vget (sv_diag S) i ;; Ok (result * y)) x.
(** SVD.h:222-231 rank *)
Definition svd_rank (condition : R) (S : svd) : outcome nat :=
  first <- vget (sv_diag S) 0 ;;
  if R_eqb first 0 then Ok 0%nat
  else for_ 0 (min_dim S) (fun i result => x <- vget (sv_diag S) i ;; Ok (if negb (R_ltb first (x * condition)) then (result + 1)%nat else result)) 1%nat.

(** GR_SVD.h:132-135 vDiagonal, mU, mV *)
Record grsvd := mkgr { gr_diag : vec R; gr_U : mat R; gr_V : mat R }.
(** GR_SVD.h:465-472 get_largest_singular_value, 474-481 get_smallest_singular_value (std::max, std::min) *)
Definition gr_largest (S : grsvd) : outcome R :=
  d <- vget (gr_diag S) 0 ;; for_ 1 (vlen (gr_diag S)) (fun i d => x <- vget (gr_diag S) i ;; Ok (if R_ltb d x then x else d)) d.
Definition gr_smallest (S : grsvd) : outcome R :=
  d <- vget (gr_diag S) 0 ;; for_ 1 (vlen (gr_diag S)) (fun i d => x <- vget (gr_diag S) i ;; Ok (if R_ltb x d then x else d)) d.
(** GR_SVD.h:483-496 get_smallest_singular_value_index *)
Definition gr_smallest_index (S : grsvd) : outcome nat :=
  d <- vget (gr_diag S) 0 ;;
  r <- for_ 1 (vlen (gr_diag S)) (fun i s => x <- vget (gr_diag S) i ;; Ok (if R_ltb x (snd s) then (i, x) else s)) (0%nat, d) ;; Ok (fst r).
(** GR_SVD.h:80-86 get_inv_diag *)
Definition gr_inv_diag (condition : R) (S : grsvd) : outcome (vec R) :=
  dMax <- gr_largest S ;;
  for_ 0 (vlen (gr_diag S)) (fun i inv_diag =>
    x <- vget (gr_diag S) i ;;
    if R_ltb dMax (x * condition) then (y <- div (F:=R) 1 x ;; vset inv_diag i y) else vset inv_diag i 0) (vnew (vlen (gr_diag S))).
(** GR_SVD.h:92-99, 105-112 backsub, 115-120 get_pinv *)
Definition gr_backsub_mat (condition : R) (S : grsvd) (rhs : mat R) : outcome (mat R) :=
  d <- gr_inv_diag condition S ;; t <- mmul (tr (gr_U S)) rhs ;; t <- vmdiag d t ;; mmul (gr_V S) t.
Definition gr_backsub_vec (condition : R) (S : grsvd) (rhs : vec R) : outcome (vec R) :=
  d <- gr_inv_diag condition S ;; t <- mv (tr (gr_U S)) rhs ;; t <- vdiagmult d t ;; mv (gr_V S) t.
Definition gr_pinv (condition : R) (S : grsvd) : outcome (mat R) :=
  d <- gr_inv_diag condition S ;; t <- mvdiag (gr_V S) d ;; mmul t (tr (gr_U S)).
(** operator< of std::pair<Precision, unsigned int> *)
Definition pair_lt (a b : R * nat) : bool := R_ltb (fst a) (fst b) || (negb (R_ltb (fst b) (fst a)) && (snd a <? snd b)%nat).
(** std::sort leaves a sorted permutation; the pairs are distinct, so it is determined. Written as an insertion sort. *)
Fixpoint insert_pair (a : R * nat) (l : list (R * nat)) : list (R * nat) :=
  match l with nil => a :: nil | b :: t => if pair_lt a b then a :: b :: t else b :: insert_pair a t end.
Fixpoint sort_list (l : list (R * nat)) : list (R * nat) := match l with nil => nil | a :: t => insert_pair a (sort_list t) end.
(** GR_SVD.h:498-521 reorder, WANT_U and WANT_V: assignment to row i of the transposed view is assignment to column i *)
Definition gr_reorder (S : grsvd) : outcome grsvd :=
  let N := vlen (gr_diag S) in
  vSort <- for_ 0 N (fun i l => x <- vget (gr_diag S) i ;; Ok (l ++ (- x, i) :: nil)) nil ;;
  let vSort := sort_list vSort in
  d <- for_ 0 N (fun i d => vset d i (- fst (nth i vSort (0, 0%nat)))) (gr_diag S) ;;
  U <- for_ 0 N (fun i U => for_ 0 (mrows U) (fun r U => x <- mget (gr_U S) r (snd (nth i vSort (0, 0%nat))) ;; mset U r i x) U) (gr_U S) ;;
  V <- for_ 0 N (fun i V => for_ 0 (mrows V) (fun r V => x <- mget (gr_V S) r (snd (nth i vSort (0, 0%nat))) ;; mset V r i x) V) (gr_V S) ;;
  Ok (mkgr d U V).
