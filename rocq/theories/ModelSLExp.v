(** * SL<N>::exp and ln with the matrix functions they call. Model only.
    [added], [minus] and [fuel] are those of ModelExp. *)
From Coq Require Import Reals.
From Verif Require Import Base Alg Inst Mat ModelOps ModelExp ModelSL.
Open Scope outcome_scope.
Section M.
Variables added minus : R -> R -> R.
(** sl.h:128-138 exp. The default-constructed result (sl.h:135) is overwritten. *)
Definition sl_exp (N fuel : nat) (v : vec R) : outcome (mat R) :=
  t <- sl_exp_matrix N v ;;
  exp_mat added fuel t.
(** sl.h:140-160 ln *)
Definition sl_ln (N fuel : nat) (M : mat R) : outcome (vec R) :=
  l <- log_mat added minus fuel M ;;
  sl_ln_vector N l.
End M.
