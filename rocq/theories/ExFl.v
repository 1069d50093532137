(** * IEEE 754 double precision satisfies the assumption on the rounding (as long as nothing overflows or underflows). *)
From Coq Require Import Reals Lra Lia ZArith.
From Flocq Require Import Core Relative.
From Verif Require Import SpecFl.
Local Open Scope R_scope.

(** round to nearest even, 53 bits of significand, unbounded exponent *)
Definition rnd64 : R -> R := round radix2 (FLX_exp 53) ZnearestE.
Lemma rnd64_rounding : rounding (/ 2 * bpow radix2 (-52)) rnd64.
Proof.
  assert (P : Prec_gt_0 53) by reflexivity.
  split; [|split].
  - cbn. lra.
  - intros x. exact (relative_error_N_FLX radix2 53 eq_refl _ x).
  - intros x. apply round_generic; [apply valid_rnd_N|]. apply generic_format_round; [apply FLX_exp_valid; exact P|apply valid_rnd_N].
Qed.
Print Assumptions rnd64_rounding.
(** three roundings of double precision *)
Lemma u64_rng : 0 <= / 2 * bpow radix2 (-52) < / 10 ^ 15 / 4.
Proof. cbn. lra. Qed.
