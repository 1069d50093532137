(** * functions/fadbad.h over the reals. FADBAD++ (FADBAD++/fadiff.h) is not in the repository: F<P,D> is modelled from its documentation as a
    value, the flag "depends on some variable" and D derivatives, with the rules of differentiation as its arithmetic. *)
From Coq Require Import Reals Arith Bool.
From Verif Require Import Base Alg Inst Mat ModelOps ModelLie ModelSE.
Open Scope outcome_scope.
Local Open Scope R_scope.

(** fadbad::F<P,D>: m_val, m_depend, m_diff[D] *)
Record fad := mkfad { fval : R; fdep : bool; fder : nat -> R }.
Definition fconst (c : R) : fad := mkfad c false (fun _ => 0).
(** an element of m_diff as the arithmetic uses it: a constant has none and counts as zero *)
Definition dk (x : fad) (k : nat) : R := if fdep x then fder x k else 0.
(** F::operator+, -, *, unary -, / *)
Definition fad_add (x y : fad) : fad := mkfad (fval x + fval y) (fdep x || fdep y) (fun k => dk x k + dk y k).
Definition fad_sub (x y : fad) : fad := mkfad (fval x - fval y) (fdep x || fdep y) (fun k => dk x k - dk y k).
Definition fad_mul (x y : fad) : fad := mkfad (fval x * fval y) (fdep x || fdep y) (fun k => dk x k * fval y + fval x * dk y k).
Definition fad_opp (x : fad) : fad := mkfad (- fval x) (fdep x) (fun k => - dk x k).
Definition fad_div (x y : fad) : fad := mkfad (fval x / fval y) (fdep x || fdep y) (fun k => (dk x k - fval x / fval y * dk y k) / fval y).
(** comparisons look at the values only *)
#[global] Instance FadOps : Ops fad := {
  f0 := fconst 0; f1 := fconst 1; fadd := fad_add; fmul := fad_mul; fsub := fad_sub; fopp := fad_opp;
  fdiv := fad_div; finv := fad_div (fconst 1);
  feqb x y := R_eqb (fval x) (fval y); fltb x y := R_ltb (fval x) (fval y); junk := fconst 0 }.
(** fadbad::cos, fadbad::sin *)
Definition fad_cos (x : fad) : fad := mkfad (cos (fval x)) (fdep x) (fun k => - sin (fval x) * dk x k).
Definition fad_sin (x : fad) : fad := mkfad (sin (fval x)) (fdep x) (fun k => cos (fval x) * dk x k).
(** F<P,D>::diff(k): the value becomes variable number k; k >= D writes outside m_diff *)
Definition fad_diff (D k : nat) (x : fad) : outcome fad :=
  if (k <? D)%nat then Ok (mkfad (fval x) true (fun j => if (j =? k)%nat then 1 else 0)) else UB.
(** F<P,D>::deriv(k): m_diff[k], or zero if nothing depends *)
Definition fad_deriv (D : nat) (x : fad) (k : nat) : outcome R :=
  if fdep x then (if (k <? D)%nat then Ok (fder x k) else UB) else Ok 0.
(** fadbad.h:46-49 abs *)
Definition fad_abs (x : fad) : fad := if R_ltb (fval x) 0 then fad_opp x else x.
(** fadbad.h:60-66 get_value *)
Definition get_value (v : vec fad) : outcome (vec R) :=
  for_ 0 (vlen v) (fun i r => x <- vget v i ;; vset r i (fval x)) (vnew (vlen v)).
(** fadbad.h:76-82 make_fad_vector<D>: the elements are converted, then numbered from [start] while there is room.
    fadbad.h:68-74 make_fad_vector(val, start, size) is the same with the run-time [size] for D. *)
Definition make_fad_vector (D : nat) (val : vec R) (start : nat) : outcome (vec fad) :=
  for_ 0 (vlen val) (fun i r => if (start + i <? D)%nat then x <- vget r i ;; y <- fad_diff D (start + i) x ;; vset r i y else Ok r)
    (mkvec (vlen val) (fun i => fconst (vat val i))).
(** A template argument: a static size, or Dynamic (-1) *)
Inductive tsize := Static (n : nat) | Dyn.
(** fadbad.h:84-90 get_derivative: [Vector<N,P> r;] does not compile for Dynamic (VectorAlloc<Dynamic> has no default constructor,
    allocator.hh:182-240); the loop runs over the template argument *)
Definition get_derivative (D : nat) (N : tsize) (v : vec fad) (dim : nat) : outcome (vec R) :=
  match N with
  | Dyn => CompileError
  | Static n => for_ 0 n (fun i r => x <- vget v i ;; y <- fad_deriv D x dim ;; vset r i y) (vnew n)
  end.
(** fadbad.h:92-98 get_jacobian; [held] is val[0].size(), the number of derivatives the first element holds. The result is Matrix<N,D>, whose
    constructor arguments are ignored. For F<P> the template argument is 0 whatever the number of derivatives held at run time, so DT (the template
    argument) and D (the number of derivatives) are separate. *)
Definition get_jacobian (DT D held : nat) (N : tsize) (v : vec fad) : outcome (mat R) :=
  match N with
  | Dyn => CompileError
  | Static n =>
      _ <- vget v 0 ;;
      for_ 0 held (fun i m => d <- get_derivative D N v i ;;
        for_ 0 n (fun r m => y <- vget d r ;; mset m r i y) m) (mnew n DT)
  end.
(** fadbad.h:100-107 get_derivative of a matrix with static sizes *)
Definition get_derivative_m (D : nat) (nr nc : nat) (v : mat fad) (dim : nat) : outcome (mat R) :=
  for_ 0 nr (fun r m => for_ 0 nc (fun c m => x <- mget v r c ;; y <- fad_deriv D x dim ;; mset m r c y) m) (mnew nr nc).

(** SO3<F>, SO2<F>: my_matrix; SE3<F>, SE2<F>: my_rotation, my_translation (so3.h, so2.h, se3.h, se2.h with Precision = F) *)
Record fse := mkfse { fr : mat fad; ft : vec fad }.
Definition fident (n : nat) : mat fad := mkmat n n (fun i j => fconst (if (i =? j)%nat then 1 else 0)).
(** so3.h:150-153, so2.h:107-109 operator*; se3.h:100-103, se2.h:88-90 operator* *)
Definition fse_mul (A B : fse) : outcome fse :=
  r <- mmul (fr A) (fr B) ;; x <- mv (fr A) (ft B) ;; t <- vadd (ft A) x ;; Ok (mkfse r t).
(** se3.h:282-287, se2.h:201-206 transform * point *)
Definition fse_act (A : fse) (x : vec fad) : outcome (vec fad) := y <- mv (fr A) x ;; vadd (ft A) y.
(** fadbad.h:127-145 make_fad_so3<P,D>; 109-125 is the same with the run-time size for D *)
Definition make_fad_so3 (D start : nat) : outcome (mat fad) :=
  let m := fident 3 in
  x <- mget m 2 1 ;; x <- fad_diff D start x ;; m <- mset m 2 1 x ;;
  m <- (x <- mget m 2 1 ;; mset m 1 2 (x * fconst (-1))%F) ;;
  x <- mget m 0 2 ;; x <- fad_diff D (start + 1) x ;; m <- mset m 0 2 x ;;
  m <- (x <- mget m 0 2 ;; mset m 2 0 (x * fconst (-1))%F) ;;
  x <- mget m 1 0 ;; x <- fad_diff D (start + 2) x ;; m <- mset m 1 0 x ;;
  m <- (x <- mget m 1 0 ;; mset m 0 1 (x * fconst (-1))%F) ;;
  Ok m.
(** fadbad.h:147-155 make_fad_se3 *)
Definition make_fad_se3 (D start : nat) : outcome fse :=
  r <- make_fad_so3 D (start + 3) ;; t <- make_fad_vector D (mkvec 3 (fun _ => 0)) start ;; Ok (mkfse r t).
(** so2.h:89-95 exp at F *)
Definition fso2_exp (d : fad) : mat fad :=
  let c := fad_cos d in let s := fad_sin d in
  mkmat 2 2 (fun i j => if (i =? j)%nat then c else if (j <? i)%nat then s else (- s)%F).
(** se2.h:310-344 exp at F: constants are converted, [theta_sq < 1e-8] compares values *)
Definition fse2_exp (mu : vec fad) : outcome fse :=
  _ <- same_size 3 (vlen mu) ;;
  m0 <- vget mu 0 ;; m1 <- vget mu 1 ;; theta <- vget mu 2 ;;
  let theta_sq := (theta * theta)%F in
  let c0 := (- theta * m1)%F in let c1 := (theta * m0)%F in
  let r := fso2_exp theta in
  let half := fconst (1 / 2) in
  if fltb theta_sq (fconst (1 / 10 ^ 8)) then
    Ok (mkfse r (mkvec 2 (fun i => match i with 0%nat => (m0 + half * c0)%F | _ => (m1 + half * c1)%F end)))
  else
    ' (A, B) <-
      (if fltb theta_sq (fconst (1 / 10 ^ 6)) then
         Ok ((fconst 1 - theta_sq * fconst (1 / 6) * (fconst 1 - fconst (1 / 20) * theta_sq))%F, (half - fconst (1 / 4) * fconst (1 / 6) * theta_sq)%F)
       else
         inv_theta <- div (fconst 1) theta ;;
         Ok ((mel r 1 0 * inv_theta)%F, ((fconst 1 - mel r 0 0) * (inv_theta * inv_theta))%F)) ;;
    Ok (mkfse r (mkvec 2 (fun i => match i with 0%nat => (A * m0 + B * c0)%F | _ => (A * m1 + B * c1)%F end))).
(** fadbad.h:157-165 make_fad_se2, 167-179 make_fad_so2 ([r.diff(start) = 1] sets the derivative just set to 1 to 1 again) *)
Definition make_fad_se2 (D start : nat) : outcome fse := v <- make_fad_vector D (mkvec 3 (fun _ => 0)) start ;; fse2_exp v.
Definition make_fad_so2 (D start : nat) : outcome (mat fad) := x <- fad_diff D start (fconst 0) ;; Ok (fso2_exp x).
(** the operands P of F * P products are converted to F *)
Definition lift_v (v : vec R) : vec fad := mkvec (vlen v) (fun i => fconst (vat v i)).
Definition lift_m (m : mat R) : mat fad := mkmat (mrows m) (mcols m) (fun i j => fconst (mel m i j)).
Definition m3 (m : M3) : mat R := mkmat 3 3 (fun i j => v3_at (match i with 0%nat => r0 m | 1%nat => r1 m | _ => r2 m end) j).
Definition v3 (v : V3) : vec R := mkvec 3 (v3_at v).
Definition v2_at (v : V2) (i : nat) : R := match i with 0%nat => ux v | _ => uy v end.
Definition m2 (m : M2) : mat R := mkmat 2 2 (fun i j => v2_at (match i with 0%nat => s0 m | _ => s1 m end) j).
Definition v2 (v : V2) : vec R := mkvec 2 (v2_at v).
(** fadbad.h:181-219 make_left_fad_so3, se3, so2, se2 *)
Definition make_left_fad_so3 (D : nat) (r : M3) (start : nat) : outcome (mat fad) := a <- make_fad_so3 D start ;; mmul a (lift_m (m3 r)).
Definition make_left_fad_se3 (D : nat) (t : SE3) (start : nat) : outcome fse :=
  a <- make_fad_se3 D start ;; fse_mul a (mkfse (lift_m (m3 (rot t))) (lift_v (v3 (trans t)))).
Definition make_left_fad_so2 (D : nat) (r : M2) (start : nat) : outcome (mat fad) := a <- make_fad_so2 D start ;; mmul a (lift_m (m2 r)).
Definition make_left_fad_se2 (D : nat) (t : SE2) (start : nat) : outcome fse :=
  a <- make_fad_se2 D start ;; fse_mul a (mkfse (lift_m (m2 (rot2 t))) (lift_v (v2 (trans2 t)))).
