(** * Derivatives of reals, in eta-expanded form. *)
From Coq Require Import Reals Lra.
Local Open Scope R_scope.

Lemma D_eq f x l l' : derivable_pt_lim f x l -> l = l' -> derivable_pt_lim f x l'.
Proof. intros H <-. exact H. Qed.
Lemma D_ext f g x l : derivable_pt_lim f x l -> (forall y, f y = g y) -> derivable_pt_lim g x l.
Proof. intros H E e He. destruct (H e He) as [d Hd]. exists d. intros h Hh Hl. rewrite <- !E. apply Hd; assumption. Qed.
Lemma D_const c x : derivable_pt_lim (fun _ => c) x 0.
Proof. exact (derivable_pt_lim_const c x). Qed.
Lemma D_id x : derivable_pt_lim (fun y => y) x 1.
Proof. exact (derivable_pt_lim_id x). Qed.
Lemma D_plus f g x a b : derivable_pt_lim f x a -> derivable_pt_lim g x b -> derivable_pt_lim (fun y => f y + g y) x (a + b).
Proof. intros H K. exact (derivable_pt_lim_plus f g x a b H K). Qed.
Lemma D_minus f g x a b : derivable_pt_lim f x a -> derivable_pt_lim g x b -> derivable_pt_lim (fun y => f y - g y) x (a - b).
Proof. intros H K. exact (derivable_pt_lim_minus f g x a b H K). Qed.
Lemma D_mult f g x a b : derivable_pt_lim f x a -> derivable_pt_lim g x b -> derivable_pt_lim (fun y => f y * g y) x (a * g x + f x * b).
Proof. intros H K. exact (derivable_pt_lim_mult f g x a b H K). Qed.
Lemma D_opp f x a : derivable_pt_lim f x a -> derivable_pt_lim (fun y => - f y) x (- a).
Proof. intros H. exact (derivable_pt_lim_opp f x a H). Qed.
Lemma D_scal k f x a : derivable_pt_lim f x a -> derivable_pt_lim (fun y => k * f y) x (k * a).
Proof. intros H. exact (derivable_pt_lim_scal f k x a H). Qed.
Lemma D_div f g x a b : derivable_pt_lim f x a -> derivable_pt_lim g x b -> g x <> 0 -> derivable_pt_lim (fun y => f y / g y) x ((a * g x - b * f x) / (g x * g x)).
Proof. intros H K N. exact (derivable_pt_lim_div f g x a b H K N). Qed.
Lemma D_comp f g x a b : derivable_pt_lim f x a -> derivable_pt_lim g (f x) b -> derivable_pt_lim (fun y => g (f y)) x (b * a).
Proof. intros H K. exact (derivable_pt_lim_comp f g x a b H K). Qed.
Lemma D_ln f x a : derivable_pt_lim f x a -> 0 < f x -> derivable_pt_lim (fun y => ln (f y)) x (a / f x).
Proof. intros H P. eapply D_eq; [apply (D_comp f ln x a (/ f x) H); apply derivable_pt_lim_ln; exact P|]. field. lra. Qed.
Lemma D_sq x : derivable_pt_lim (fun y => y * y) x (2 * x).
Proof. eapply D_eq; [apply D_mult; apply D_id|cbn beta; ring]. Qed.
(** a function of |x| that is flat at 0 *)
Lemma D_abs_flat f : derivable_pt_lim f 0 0 -> derivable_pt_lim (fun y => f (Rabs y)) 0 0.
Proof.
  intros H e He. destruct (H e He) as [d Hd]. exists d. intros h Hh Hl.
  assert (Ha : Rabs h <> 0) by (apply Rabs_no_R0; exact Hh). specialize (Hd (Rabs h) Ha). rewrite Rabs_Rabsolu in Hd. specialize (Hd Hl).
  rewrite Rplus_0_l in *. rewrite Rabs_R0. rewrite Rminus_0_r in *. unfold Rdiv in *. rewrite Rabs_mult, Rabs_inv in *. rewrite Rabs_Rabsolu in Hd. exact Hd.
Qed.
(** y g(|y|) at 0 *)
Lemma D_abs_mul g : continuity_pt g 0 -> derivable_pt_lim (fun y => y * g (Rabs y)) 0 (g 0).
Proof.
  intros C e He. destruct (C e He) as (d & Hd & K). exists (mkposreal d Hd). intros h Hh Hl. cbn in Hl.
  rewrite Rplus_0_l, Rmult_0_l, Rminus_0_r. replace (h * g (Rabs h) / h) with (g (Rabs h)) by (field; exact Hh).
  apply (K (Rabs h)). split.
  - split; [exact I|]. intros E. apply (Rabs_no_R0 h Hh). symmetry. exact E.
  - unfold R_dist, dist. cbn. unfold R_dist. rewrite Rminus_0_r, Rabs_Rabsolu. exact Hl.
Qed.
