(** * Matrix exponential, square root and logarithm. Model only. Over the reals.
    Arithmetic is exact, except in the three loop tests: they compare two floating-point results for
    equality, so they are modelled by parameters
    - [added x f]: the computed value of (x + f) - x, which is 0 when f is absorbed by rounding or underflow;
    - [minus x y]: the computed value of x - y.
    The theorems say what they assume of them. [fuel] bounds the number of turns of a while loop. *)
From Coq Require Import Reals ZArith Arith Bool.
From Verif Require Import Base Alg Inst Mat ModelOps ModelObjects ModelHelpers ModelGauss.
Open Scope outcome_scope.
Local Open Scope R_scope.

Section M.
Variable added : R -> R -> R.
Variable minus : R -> R -> R.

(** helpers.h:295, 313 (result+f)-result *)
Definition grow (x f : mat R) : outcome (mat R) :=
  _ <- same_size (mrows x) (mrows f) ;; _ <- same_size (mcols x) (mcols f) ;;
  mfor (mrows x) (mcols x) (fun r c => a <- mget x r c ;; b <- mget f r c ;; Ok (added a b)).
(** helpers.h:295-299 the loop of exp_taylor *)
Fixpoint exp_loop (fuel : nat) (m result f : mat R) (k : R) : outcome (mat R) :=
  match fuel with O => OutOfFuel | S fuel =>
    d <- grow result f ;; nd <- norminf_mat d ;;
    if R_ltb 0 nd then
      result <- madd_assign result f ;;
      p <- mmul m f ;; f <- mdivs p k ;;
      exp_loop fuel m result f (k + 1)
    else Ok result
  end.
(** helpers.h:289-301 exp_taylor *)
Definition exp_taylor (fuel : nat) (m : mat R) : outcome (mat R) :=
  _ <- same_size (mrows m) (mcols m) ;;
  result <- zeros_mat (mnew (mrows m) (mcols m)) ;;
  f <- identity_eval HOne (mnew (mrows m) (mrows m)) ;;
  exp_loop fuel m result f 1.
(** C ceil *)
Definition ceil (x : R) : Z := (- Int_part (- x))%Z.
(** helpers.h:329-339 exp. log2(0) is minus infinity, whose conversion to int is undefined, and 1<<s
    overflows an int from s = 31 on. *)
Definition exp_mat (fuel : nat) (m : mat R) : outcome (mat R) :=
  _ <- same_size (mrows m) (mcols m) ;;
  nrm <- norminf_mat m ;;
  if R_eqb nrm 0 then UB else
  let s := Z.to_nat (Z.max 0 (ceil (ln nrm / ln 2))) in
  if (31 <=? s)%nat then UB else
  ms <- mdivs m (2 ^ s) ;;
  result <- exp_taylor fuel ms ;;
  for_ 0 s (fun _ r => mmul r r) result.
(** helpers.h:356-360 the loop of sqrt *)
Fixpoint sqrt_loop (fuel : nat) (id Y M : mat R) : outcome (mat R) :=
  match fuel with O => OutOfFuel | S fuel =>
    M_inv <- gaussian_elimination_mat M id ;;
    t <- madd id M_inv ;; t <- mmul Y t ;; Y <- mscale t (1 / 2) ;;
    t <- madd M M_inv ;; t <- mscale t (1 / 2) ;; t <- madd id t ;; M <- mscale_l (1 / 2) t ;;
    d <- (_ <- same_size (mrows M) (mrows M_inv) ;; _ <- same_size (mcols M) (mcols M_inv) ;;
          mfor (mrows M) (mcols M) (fun r c => a <- mget M r c ;; b <- mget M_inv r c ;; Ok (minus a b))) ;;
    nd <- norminf_mat d ;;
    if R_ltb 0 nd then sqrt_loop fuel id Y M else Ok Y
  end.
(** helpers.h:349-362 sqrt *)
Definition sqrt_mat (fuel : nat) (m : mat R) : outcome (mat R) :=
  _ <- same_size (mrows m) (mcols m) ;;
  id <- identity_eval HOne (mnew (mrows m) (mrows m)) ;;
  sqrt_loop fuel id m m.
(** helpers.h:313-317 the loop of log_taylor *)
Fixpoint log_loop (fuel : nat) (X F sum : mat R) (k : R) : outcome (mat R) :=
  match fuel with O => OutOfFuel | S fuel =>
    t <- mdivs F k ;; d <- grow sum t ;; nd <- norminf_mat d ;;
    if R_ltb 0 nd then
      t <- mdivs F k ;; sum <- madd_assign sum t ;;
      t <- mneg F ;; F <- mmul t X ;;
      log_loop fuel X F sum (k + 1)
    else Ok sum
  end.
(** helpers.h:306-319 log_taylor *)
Definition log_taylor (fuel : nat) (m : mat R) : outcome (mat R) :=
  _ <- same_size (mrows m) (mcols m) ;;
  X <- mat_minus_identity m (hscale HOne 1) ;;
  sum <- zeros_mat (mnew (mrows m) (mcols m)) ;;
  log_loop fuel X X sum 1.
(** helpers.h:375-380 the loop and the last line of log *)
Fixpoint log_scale (fuel : nat) (A : mat R) (counter : nat) : outcome (mat R) :=
  match fuel with O => OutOfFuel | S fuel' =>
    d <- mat_minus_identity A (hscale HOne 1) ;; nd <- norminf_mat d ;;
    if R_ltb (1 / 2) nd then
      A <- sqrt_mat fuel A ;; log_scale fuel' A (S counter)
    else
      l <- log_taylor fuel A ;; mscale l (2 ^ counter)
  end.
(** helpers.h:372-381 log *)
Definition log_mat (fuel : nat) (m : mat R) : outcome (mat R) := log_scale fuel m 0.
End M.
