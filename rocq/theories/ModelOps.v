(** * Elementwise and product operators on vectors and matrices. Model only.
    One scalar type (mixed precisions are in ModelObjects.v). *)
From Coq Require Import Arith Bool List.
From Verif Require Import Base Alg Mat.
Import ListNotations.
Open Scope outcome_scope.

Section M.
Context {F : Type} {Fo : Ops F}.

(** operators.hh:139-155 VPairwise::eval with Add 98-101 / 158-164 operator+ *)
Definition vadd (a b : vec F) : outcome (vec F) :=
  _ <- same_size (vlen a) (vlen b) ;;
  vfor (vlen a) (fun i => x <- vget a i ;; y <- vget b i ;; Ok (fadd x y)).
(** operators.hh:167-172 operator- *)
Definition vsub (a b : vec F) : outcome (vec F) :=
  _ <- same_size (vlen a) (vlen b) ;;
  vfor (vlen a) (fun i => x <- vget a i ;; y <- vget b i ;; Ok (fsub x y)).
(** operators.hh:175-180 diagmult(Vector,Vector) *)
Definition vdiagmult (a b : vec F) : outcome (vec F) :=
  _ <- same_size (vlen a) (vlen b) ;;
  vfor (vlen a) (fun i => x <- vget a i ;; y <- vget b i ;; Ok (fmul x y)).
(** operators.hh:501-528 Vector * scalar, Vector / scalar (ApplyScalarV) *)
Definition vscale (a : vec F) (s : F) : outcome (vec F) :=
  vfor (vlen a) (fun i => x <- vget a i ;; Ok (fmul x s)).
Definition vdivs (a : vec F) (s : F) : outcome (vec F) :=
  vfor (vlen a) (fun i => x <- vget a i ;; div x s).
(** operators.hh:530-552 scalar * Vector (ApplyScalarVL) *)
Definition vscale_l (s : F) (a : vec F) : outcome (vec F) :=
  vfor (vlen a) (fun i => x <- vget a i ;; Ok (fmul s x)).
(** operators.hh:182-198 -Vector: res = input * -1 *)
Definition vneg (a : vec F) : outcome (vec F) := vscale a (fopp f1).
(** vector.hh:303-347, 352-358 compound assignments *)
Definition vadd_assign (a b : vec F) : outcome (vec F) :=
  _ <- same_size (vlen a) (vlen b) ;; vmod (fun i x => y <- vget b i ;; Ok (fadd x y)) a.
Definition vsub_assign (a b : vec F) : outcome (vec F) :=
  _ <- same_size (vlen a) (vlen b) ;; vmod (fun i x => y <- vget b i ;; Ok (fsub x y)) a.
Definition vmul_assign (a : vec F) (s : F) : outcome (vec F) := vmod (fun _ x => Ok (fmul x s)) a.
Definition vdiv_assign (a : vec F) (s : F) : outcome (vec F) := vmod (fun _ x => div x s) a.
(** vector.hh:364-382 == and != : loop with early return ([Some b] = has returned b) *)
Definition vequal (a b : vec F) : outcome bool :=
  _ <- same_size (vlen a) (vlen b) ;;
  r <- for_ 0 (vlen a) (fun i r => match r with Some q => Ok (Some q) | None =>
         x <- vget a i ;; y <- vget b i ;; Ok (if negb (feqb x y) then Some false else None) end) None ;;
  Ok (match r with Some q => q | None => true end).
Definition vnotequal (a b : vec F) : outcome bool :=
  _ <- same_size (vlen a) (vlen b) ;;
  r <- for_ 0 (vlen a) (fun i r => match r with Some q => Ok (Some q) | None =>
         x <- vget a i ;; y <- vget b i ;; Ok (if negb (feqb x y) then Some true else None) end) None ;;
  Ok (match r with Some q => q | None => false end).
(** operators.hh:201-210 Vector * Vector *)
Definition dot (a b : vec F) : outcome F :=
  _ <- same_size (vlen a) (vlen b) ;;
  for_ 0 (vlen a) (fun i res => x <- vget a i ;; y <- vget b i ;; Ok (fadd res (fmul x y))) f0.
(** operators.hh:212-224 Vector ^ Vector, only for Vector<3> *)
Definition cross (a b : vec F) : outcome (vec F) :=
  if (vlen a =? 3) && (vlen b =? 3) then
    a0 <- vget a 0 ;; a1 <- vget a 1 ;; a2 <- vget a 2 ;;
    b0 <- vget b 0 ;; b1 <- vget b 1 ;; b2 <- vget b 2 ;;
    r <- vset (vnew 3) 0 (fsub (fmul a1 b2) (fmul a2 b1)) ;;
    r <- vset r 1 (fsub (fmul a2 b0) (fmul a0 b2)) ;;
    vset r 2 (fsub (fmul a0 b1) (fmul a1 b0))
  else CompileError.

(** operators.hh:247-283 MPairwise, operator+ and operator- on matrices *)
Definition madd (a b : mat F) : outcome (mat F) :=
  _ <- same_size (mrows a) (mrows b) ;; _ <- same_size (mcols a) (mcols b) ;;
  mfor (mrows a) (mcols a) (fun r c => x <- mget a r c ;; y <- mget b r c ;; Ok (fadd x y)).
Definition msub (a b : mat F) : outcome (mat F) :=
  _ <- same_size (mrows a) (mrows b) ;; _ <- same_size (mcols a) (mcols b) ;;
  mfor (mrows a) (mcols a) (fun r c => x <- mget a r c ;; y <- mget b r c ;; Ok (fsub x y)).
(** operators.hh:559-588 Matrix * scalar, Matrix / scalar; 590-615 scalar * Matrix *)
Definition mscale (a : mat F) (s : F) : outcome (mat F) :=
  mfor (mrows a) (mcols a) (fun r c => x <- mget a r c ;; Ok (fmul x s)).
Definition mdivs (a : mat F) (s : F) : outcome (mat F) :=
  mfor (mrows a) (mcols a) (fun r c => x <- mget a r c ;; div x s).
Definition mscale_l (s : F) (a : mat F) : outcome (mat F) :=
  mfor (mrows a) (mcols a) (fun r c => x <- mget a r c ;; Ok (fmul s x)).
(** operators.hh:285-305 -Matrix *)
Definition mneg (a : mat F) : outcome (mat F) := mscale a (fopp f1).
(** matrix.hh:200-230, 246-257 compound assignments *)
Definition madd_assign (a b : mat F) : outcome (mat F) :=
  _ <- same_size (mrows a) (mrows b) ;; _ <- same_size (mcols a) (mcols b) ;;
  mmod (fun r c x => y <- mget b r c ;; Ok (fadd x y)) a.
Definition msub_assign (a b : mat F) : outcome (mat F) :=
  _ <- same_size (mrows a) (mrows b) ;; _ <- same_size (mcols a) (mcols b) ;;
  mmod (fun r c x => y <- mget b r c ;; Ok (fsub x y)) a.
Definition mmul_assign (a : mat F) (s : F) : outcome (mat F) := mmod (fun _ _ x => Ok (fmul x s)) a.
Definition mdiv_assign (a : mat F) (s : F) : outcome (mat F) := mmod (fun _ _ x => div x s) a.
(** matrix.hh:259-283 == and != *)
Definition mequal (a b : mat F) : outcome bool :=
  _ <- same_size (mrows a) (mrows b) ;; _ <- same_size (mcols a) (mcols b) ;;
  r <- for_ 0 (mrows a) (fun r st => for_ 0 (mcols a) (fun c st => match st with Some q => Ok (Some q) | None =>
         x <- mget a r c ;; y <- mget b r c ;; Ok (if negb (feqb x y) then Some false else None) end) st) None ;;
  Ok (match r with Some q => q | None => true end).
Definition mnotequal (a b : mat F) : outcome bool :=
  _ <- same_size (mrows a) (mrows b) ;; _ <- same_size (mcols a) (mcols b) ;;
  r <- for_ 0 (mrows a) (fun r st => for_ 0 (mcols a) (fun c st => match st with Some q => Ok (Some q) | None =>
         x <- mget a r c ;; y <- mget b r c ;; Ok (if negb (feqb x y) then Some true else None) end) st) None ;;
  Ok (match r with Some q => q | None => false end).
(** operators.hh:307-345 Matrix * Matrix: res(r,c) = lhs[r] * rhs.T()[c] *)
Definition mmul (a b : mat F) : outcome (mat F) :=
  _ <- same_size (mcols a) (mrows b) ;;
  mfor (mrows a) (mcols b) (fun r c => x <- row a r ;; y <- row (tr b) c ;; dot x y).
(** operators.hh:366-392 Matrix * Vector *)
Definition mv (a : mat F) (v : vec F) : outcome (vec F) :=
  _ <- same_size (mcols a) (vlen v) ;;
  vfor (mrows a) (fun i => x <- row a i ;; dot x v).
(** operators.hh:394-418 Vector * Matrix *)
Definition vm (v : vec F) (a : mat F) : outcome (vec F) :=
  _ <- same_size (mrows a) (vlen v) ;;
  vfor (mcols a) (fun i => y <- row (tr a) i ;; dot v y).
(** operators.hh:421-447 diagmult(Matrix,Vector): column loop outside, res(r,c) = lhs(r,c)*rhs[c] *)
Definition mvdiag (a : mat F) (v : vec F) : outcome (mat F) :=
  _ <- same_size (mcols a) (vlen v) ;;
  for_ 0 (mcols a) (fun c m => t <- vget v c ;;
    for_ 0 (mrows a) (fun r m => x <- mget a r c ;; mset m r c (fmul x t)) m) (mnew (mrows a) (mcols a)).
(** operators.hh:450-477 diagmult(Vector,Matrix) *)
Definition vmdiag (v : vec F) (a : mat F) : outcome (mat F) :=
  _ <- same_size (mrows a) (vlen v) ;;
  for_ 0 (mrows a) (fun r m => t <- vget v r ;;
    for_ 0 (mcols a) (fun c m => x <- mget a r c ;; mset m r c (fmul t x)) m) (mnew (mrows a) (mcols a)).

(** ** DiagonalMatrix, represented by its vector *)
(** diagmatrix.h:77-82 eval into a matrix of [r] x [c]: m = Zeros; m.diagonal_slice() = my_vector.
    The run-time test of 79 is SizeMismatch<Size,Size>(rows,cols), made only for Dynamic Size. *)
Definition diag_eval (dynamic_size : bool) (d : vec F) (r c : nat) : outcome (mat F) :=
  _ <- (if dynamic_size then same_size r c else Ok tt) ;;
  m <- mfor r c (fun _ _ => Ok f0) ;;
  _ <- same_size (vlen (diag m)) (vlen d) ;;
  for_ 0 (vlen d) (fun i m => x <- vget d i ;; mset m i i x) m.
(** diagmatrix.h:147-150 unary minus, 152-158 inverse *)
Definition diag_neg (d : vec F) : outcome (vec F) := vneg d.
Definition diag_inverse (d : vec F) : outcome (vec F) :=
  vfor (vlen d) (fun i => x <- vget d i ;; div f1 x).
(** diagmatrix.h:162-202 products *)
Definition diag_vec (d v : vec F) : outcome (vec F) := vdiagmult d v.
Definition vec_diag (v d : vec F) : outcome (vec F) := vdiagmult v d.
Definition diag_diag (a b : vec F) : outcome (vec F) := vdiagmult a b.
Definition mat_diag (m : mat F) (d : vec F) : outcome (mat F) := mvdiag m d.
Definition diag_mat (d : vec F) (m : mat F) : outcome (mat F) := vmdiag d m.
End M.
