(** * irls.h: robust reweighting functions and IRLS, over the reals. Model only. *)
From Coq Require Import Reals Arith Bool List ZArith.
From Verif Require Import Base Alg Mat Inst ModelOps ModelObjects ModelChol ModelWLS.
Import ListNotations.
Open Scope outcome_scope.
Local Open Scope R_scope.

(** ::log: no finite result for arguments that are not positive *)
Definition clog (x : R) : outcome R := if R_ltb 0 x then Ok (ln x) else NonFinite.
(** A reweighting class after set_sd(x): what set_sd stores, reweight, true_scale, objective. *)
Record robust := mkrobust { set_sd : R -> R; reweight : R -> R -> outcome R; true_scale : R -> R -> outcome R; objective : R -> R -> outcome R }.
(** irls.h:43-50 *)
Definition robust1_w (sd x : R) : outcome R := div (F:=R) 1 (sd + Rabs x).
Definition RobustI : robust := mkrobust (fun x => x) robust1_w
  (fun sd x => a <- robust1_w sd x ;; Ok (a - Rabs x * a * a))
  (fun sd x => a <- robust1_w sd x ;; l <- clog (sd * a) ;; Ok (Rabs x + sd * l)).
(** irls.h:56-63 *)
Definition robust2_w (sd d : R) : outcome R := div (F:=R) 1 (sd + d * d).
Definition RobustII : robust := mkrobust (fun x => x * x) robust2_w
  (fun sd d => a <- robust2_w sd d ;; Ok (d - 2 * d * a))
  (fun sd d => e <- div (F:=R) (d * d) sd ;; l <- clog (1 + e) ;; Ok (/ 2 * l)).
(** irls.h:69-75. No state: the stored number is not used. *)
Definition ILinear : robust := mkrobust (fun _ => 0) (fun _ _ => Ok 1) (fun _ _ => Ok 1) (fun _ d => Ok (d * d)).
(** irls.h:82-99; it has no true_scale, so IRLS::add_mJ does not instantiate with it *)
Definition RobustIII : robust := mkrobust (fun x => x * x)
  (fun sd x => e <- div (F:=R) (x * x) sd ;; let d := 1 + e in div (F:=R) 1 (d * d))
  (fun _ _ => CompileError)
  (fun sd x => e <- div (F:=R) (x * x) sd ;; div (F:=R) (x * x) (2 * (1 + e))).

(** irls.h:156-158 and the base classes: sd_inlier, the WLS, my_residual, my_true_C_inv *)
Record irls := mkirls { i_sd : R; i_wls : wls R; i_res : R; i_true : mat R }.
(** irls.h:111-116 *)
Definition irls_new (sd : R) (size : nat) : outcome irls :=
  w <- wls_new size ;; t <- zeros_mat (mnew size size) ;; Ok (mkirls sd w 0 t).
(** irls.h:128-130. The constructor called is Vector(int): it sets the size of a dynamic vector (the double is truncated towards zero; a
    negative size is an invalid allocation) and nothing of a static one, and leaves the elements uninitialised ([junk]). *)
Definition trunc (x : R) : Z := if R_ltb x 0 then (- Int_part (- x))%Z else Int_part x.
Definition scaledm (dynamic : bool) (junk : nat -> R) (size : nat) (x : R) : outcome (vec R) :=
  if dynamic then (if (trunc x <? 0)%Z then UB else Ok (mkvec (Z.to_nat (trunc x)) junk)) else Ok (mkvec size junk).
(** irls.h:118-132 *)
Definition irls_add (rb : robust) (dynamic : bool) (junk : nat -> R) (m : R) (J : vec R) (s : irls) : outcome irls :=
  _ <- same_size (mrows (i_true s)) (vlen J) ;;
  scale <- reweight rb (i_sd s) m ;;
  ts <- true_scale rb (i_sd s) m ;;
  o <- objective rb (i_sd s) m ;;
  w <- wls_add m J scale (i_wls s) ;;
  v <- scaledm dynamic junk (mrows (i_true s)) (m * ts) ;;
  p <- mmul (as_col v) (as_row v) ;;
  t <- madd_assign (i_true s) p ;;
  Ok (mkirls (i_sd s) w (i_res s + o) t).
(** irls.h:134-137 operator += *)
Definition irls_join (s meas : irls) : outcome irls :=
  w <- wls_join (i_wls s) (i_wls meas) ;;
  t <- madd_assign (i_true s) (i_true meas) ;;
  Ok (mkirls (i_sd s) w (i_res s) t).
(** irls.h:145-149 clear *)
Definition irls_clear (s : irls) : outcome irls :=
  w <- wls_clear (i_wls s) ;; t <- zeros_mat (i_true s) ;; Ok (mkirls (i_sd s) w 0 t).
(** a history of add_mJ calls *)
Fixpoint irls_run (rb : robust) (dynamic : bool) (junk : nat -> R) (ms : list (R * vec R)) (s : irls) : outcome irls :=
  match ms with [] => Ok s | (m, J) :: ms => s <- irls_add rb dynamic junk m J s ;; irls_run rb dynamic junk ms s end.
