(** * Zeros, Ones, Identity and mixed-precision scaling. Model only. *)
From Coq Require Import Arith Bool List ZArith QArith Qcanon.
From Verif Require Import Base Alg Mat Inst.
Import ListNotations.
Open Scope nat_scope.
Open Scope outcome_scope.

Section M.
Context {F : Type} {Fo : Ops F}.

(** The number an operator object holds: the literal One type of an unscaled Ones/Identity
    (objects.h:49-73, converts to 1 in every type but nothing converts to it), or a number. *)
Inductive held := HOne | HNum (s : F).
Definition held_val (h : held) : F := match h with HOne => f1 | HNum s => s end.
(** objects.h:59-60 One*v; 677-689 s * op, op * s; 699-710 -op *)
Definition hscale (h : held) (s : F) : held := HNum (fmul (held_val h) s).
Definition hneg (h : held) : held := HNum (fmul (held_val h) (fopp f1)).

(** objects.h:131-146 Zero::eval *)
Definition zeros_vec (v : vec F) : outcome (vec F) := for_ 0 (vlen v) (fun i v => vset v i f0) v.
Definition zeros_mat (m : mat F) : outcome (mat F) :=
  for_ 0 (mrows m) (fun r m => for_ 0 (mcols m) (fun c m => mset m r c f0) m) m.
(** objects.h:148-165 notequal *)
Definition zeros_vec_ne (v : vec F) : outcome bool :=
  r <- for_ 0 (vlen v) (fun i r => match r with Some q => Ok (Some q) | None =>
         x <- vget v i ;; Ok (if negb (feqb x f0) then Some true else None) end) None ;;
  Ok (match r with Some q => q | None => false end).

(** objects.h:485-504 Scalars eval, plusequals, minusequals (vectors);
    529-551 (matrices) *)
Definition ones_vec (h : held) (v : vec F) : outcome (vec F) := for_ 0 (vlen v) (fun i v => vset v i (held_val h)) v.
Definition ones_vec_add (h : held) (v : vec F) : outcome (vec F) := vmod (fun _ x => Ok (fadd x (held_val h))) v.
Definition ones_vec_sub (h : held) (v : vec F) : outcome (vec F) := vmod (fun _ x => Ok (fsub x (held_val h))) v.
Definition ones_mat (h : held) (m : mat F) : outcome (mat F) :=
  for_ 0 (mrows m) (fun r m => for_ 0 (mcols m) (fun c m => mset m r c (held_val h)) m) m.
Definition ones_mat_add (h : held) (m : mat F) : outcome (mat F) := mmod (fun _ _ x => Ok (fadd x (held_val h))) m.
Definition ones_mat_sub (h : held) (m : mat F) : outcome (mat F) := mmod (fun _ _ x => Ok (fsub x (held_val h))) m.
(** objects.h:386-418 ScalarsVector (eval 401-408), 423-452 ScalarsMatrix (eval 432-440) *)
Definition scalars_vector (s : F) (v : vec F) (inv : bool) : outcome (vec F) :=
  vfor (vlen v) (fun i => x <- vget v i ;; Ok (if inv then fsub s x else fadd s x)).
Definition scalars_matrix (s : F) (m : mat F) (inv : bool) : outcome (mat F) :=
  mfor (mrows m) (mcols m) (fun r c => x <- mget m r c ;; Ok (if inv then fsub s x else fadd s x)).
(** objects.h:506-522 and operators.hh:621-645: v+op, op+v, v-op (rsubtract), op-v (lsubtract).
    rsubtract of a vector passes -s, an int for an unscaled Ones, to a parameter of type One:
    does not compile. *)
Definition vec_plus_ones (v : vec F) (h : held) := scalars_vector (held_val h) v false.
Definition vec_minus_ones (v : vec F) (h : held) :=
  match h with HOne => CompileError | HNum s => scalars_vector (fopp s) v false end.
Definition ones_minus_vec (h : held) (v : vec F) := scalars_vector (held_val h) v true.
(** objects.h:553-570: for matrices rsubtract uses NegType, which does compile *)
Definition mat_plus_ones (m : mat F) (h : held) := scalars_matrix (held_val h) m false.
Definition mat_minus_ones (m : mat F) (h : held) := scalars_matrix (fopp (held_val h)) m false.
Definition ones_minus_mat (h : held) (m : mat F) := scalars_matrix (held_val h) m true.

(** objects.h:295-307 Identity::eval *)
Definition identity_eval (h : held) (m : mat F) : outcome (mat F) :=
  _ <- same_size (mrows m) (mcols m) ;;
  m <- for_ 0 (mrows m) (fun r m => for_ 0 (mcols m) (fun c m => mset m r c f0) m) m ;;
  for_ 0 (mrows m) (fun r m => mset m r r (held_val h)) m.
(** objects.h:310-315 plusequals *)
Definition identity_add_assign (h : held) (m : mat F) : outcome (mat F) :=
  _ <- same_size (mrows m) (mcols m) ;;
  for_ 0 (mrows m) (fun i m => x <- mget m i i ;; mset m i i (fadd x (held_val h))) m.
(** objects.h:223-262 AddIdentity::eval *)
Definition add_identity (s : F) (m : mat F) (inv : bool) : outcome (mat F) :=
  mm <- mfor (mrows m) (mcols m) (fun r c => x <- mget m r c ;; Ok (if inv then fopp x else x)) ;;
  for_ 0 (mrows m) (fun i mm => x <- mget mm i i ;; mset mm i i (fadd x s)) mm.
(** objects.h:318-336: add, rsubtract (again -val of type int into One), lsubtract *)
Definition mat_plus_identity (m : mat F) (h : held) : outcome (mat F) :=
  _ <- same_size (mrows m) (mcols m) ;; add_identity (held_val h) m false.
Definition mat_minus_identity (m : mat F) (h : held) : outcome (mat F) :=
  match h with HOne => CompileError
  | HNum s => _ <- same_size (mrows m) (mcols m) ;; add_identity (fopp s) m false end.
Definition identity_minus_mat (h : held) (m : mat F) : outcome (mat F) :=
  _ <- same_size (mrows m) (mcols m) ;; add_identity (held_val h) m true.
End M.
Arguments held F : clear implicits.
Arguments HOne {F}.

(** ** Mixed precision: int and floating-point scalars (values rational, int overflow not modelled). *)
Inductive prec := TInt | TDouble.
(** C++ conversion to int truncates towards zero *)
Definition trunc (x : Qc) : Qc := Q2Qc (inject_Z (Z.quot (Qnum (this x)) (Zpos (Qden (this x))))).
Definition conv (t : prec) (x : Qc) : Qc := match t with TInt => trunc x | TDouble => x end.
(** the usual arithmetic conversions: type of l*r, l+r, l/r *)
Definition arith (l r : prec) : prec := match l, r with TInt, TInt => TInt | _, _ => TDouble end.
(** l / r in C++ *)
Definition tdiv (tl tr : prec) (l r : Qc) : outcome Qc :=
  if Qc_eqb r (Q2Qc 0) then (match arith tl tr with TInt => UB | TDouble => NonFinite end)
  else Ok (conv (arith tl tr) (Qcdiv l r)).
(** A numeric operator object Operator<Op<P>>: its type and value. *)
Record tnum := TNum { tty : prec; tvl : Qc }.
(** objects.h:592-595, 273-276 scale_me<Pout,Pmult>(const Pmult& m): Operator<Op<Pout>>(val*m) *)
Definition scale_me (pout pmult : prec) (o : tnum) (m : Qc) : tnum :=
  TNum pout (conv pout (conv (arith (tty o) pmult) (Qcmult (tvl o) (conv pmult m)))).
(** objects.h:677-682 l * op, 684-689 op * r *)
Definition num_times_op (l : tnum) (r : tnum) : tnum := scale_me (arith (tty l) (tty r)) (tty l) r (tvl l).
Definition op_times_num (l : tnum) (r : tnum) : tnum := scale_me (arith (tty l) (tty r)) (tty r) l (tvl r).
(** objects.h:691-696 op / r: scale_me<MultiplyType<Pl,Pr>, Pl>(static_cast<DivideType<Pl,Pr>>(1)/r) *)
Definition op_div_num (l : tnum) (r : tnum) : outcome tnum :=
  x <- tdiv (arith (tty l) (tty r)) (tty r) (Q2Qc 1) (tvl r) ;;
  Ok (scale_me (arith (tty l) (tty r)) (tty l) l x).

(** operators.hh:98-117 Multiply::op<A,B,C>(const B&, const C&): the arguments are converted to B and C *)
Definition mult_op (A B C : prec) (b c : Qc) : Qc := conv A (conv (arith B C) (Qcmult (conv B b) (conv C c))).
(** operators.hh:559-588 ApplyScalarM: m(r,c) = op<P0,P1,P2>(lhs(r,c), rhs), P1 = element type, P2 = scalar type *)
Definition t_mat_times_scalar (P1 P2 : prec) (m : mat Qc) (s : Qc) : outcome (mat Qc) :=
  mfor (mrows m) (mcols m) (fun r c => x <- mget m r c ;; Ok (mult_op (arith P1 P2) P1 P2 x s)).
(** operators.hh:590-615 ApplyScalarML: m(r,c) = op<P0,P1,P2>(lhs, rhs(r,c)) with lhs the scalar (type P2)
    and rhs(r,c) the element (type P1) *)
Definition t_scalar_times_mat (P1 P2 : prec) (s : Qc) (m : mat Qc) : outcome (mat Qc) :=
  mfor (mrows m) (mcols m) (fun r c => x <- mget m r c ;; Ok (mult_op (arith P2 P1) P1 P2 s x)).
(** operators.hh:501-552 ApplyScalarV and ApplyScalarVL (op<P0,P2,P1>(lhs, rhs[i])) *)
Definition t_vec_times_scalar (P1 P2 : prec) (v : vec Qc) (s : Qc) : outcome (vec Qc) :=
  vfor (vlen v) (fun i => x <- vget v i ;; Ok (mult_op (arith P1 P2) P1 P2 x s)).
Definition t_scalar_times_vec (P1 P2 : prec) (s : Qc) (v : vec Qc) : outcome (vec Qc) :=
  vfor (vlen v) (fun i => x <- vget v i ;; Ok (mult_op (arith P2 P1) P2 P1 s x)).
