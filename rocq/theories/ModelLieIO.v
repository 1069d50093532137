(** * Text output and input of rotations, rigid and similarity transforms and SL matrices, over the reals. Model only.
    Characters, scalar text and padding as in ModelFill.v. A stream is [Some text], or [None] once an extraction has failed; a failed extraction is
    taken to leave its target alone (so it is at the end of the stream; on malformed text C++11 stores 0). *)
From Coq Require Import Reals List Arith.
From Verif Require Import Base Alg Mat Inst ModelFill ModelLie ModelSE ModelSim ModelSL.
Import ListNotations.
Open Scope outcome_scope.
Local Open Scope R_scope.

Section M.
Variables (show : R -> text) (parse : text -> option (R * text)) (pad : R -> nat).
Notation emit := (emit show pad).
(** is >> x *)
Definition take (old : R) (s : option text) : R * option text :=
  match s with
  | None => (old, None)
  | Some t => match extract parse t with None => (old, None) | Some (x, t') => (x, Some t') end
  end.
(** internal/operators.hh:669-678 and 681-687 for Vector<3>, Vector<2> *)
Definition vec3_text (v : V3) : text := emit (vx v) ++ [Blank] ++ emit (vy v) ++ [Blank] ++ emit (vz v) ++ [Blank].
Definition vec2_text (v : V2) : text := emit (ux v) ++ [Blank] ++ emit (uy v) ++ [Blank].
Definition take3 (old : V3) (s : option text) : V3 * option text :=
  let '(x, s) := take (vx old) s in let '(y, s) := take (vy old) s in let '(z, s) := take (vz old) s in (mk3 x y z, s).
Definition take2 (old : V2) (s : option text) : V2 * option text :=
  let '(x, s) := take (ux old) s in let '(y, s) := take (uy old) s in (mk2 x y, s).
(** internal/operators.hh:689-704, one row of a matrix *)
Definition row3_text (v : V3) : text := emit (vx v) ++ [Blank] ++ emit (vy v) ++ [Blank] ++ emit (vz v) ++ [Newline].
Definition row2_text (v : V2) : text := emit (ux v) ++ [Blank] ++ emit (uy v) ++ [Newline].

(** so3.h:194-197 *)
Definition so3_text (m : M3) : text := row3_text (r0 m) ++ row3_text (r1 m) ++ row3_text (r2 m).
(** so3.h:201-205; the coerce() used is a parameter, so that it can be the exact one or the rounded one *)
Definition so3_read (coerce : M3 -> outcome M3) (old : M3) (s : option text) : outcome (M3 * option text) :=
  let '(a, s) := take3 (r0 old) s in let '(b, s) := take3 (r1 old) s in let '(c, s) := take3 (r2 old) s in
  m <- coerce (mkM a b c) ;; Ok (m, s).
(** se3.h:225-234 *)
Definition se3_line (v : V3) (t : R) : text := vec3_text v ++ emit t ++ [Newline].
Definition se3_text (T : SE3) : text :=
  se3_line (r0 (rot T)) (vx (trans T)) ++ se3_line (r1 (rot T)) (vy (trans T)) ++ se3_line (r2 (rot T)) (vz (trans T)).
(** se3.h:240-246, the loop *)
Definition se3_take (m : M3) (t : V3) (s : option text) : M3 * V3 * option text :=
  let '(a, s) := take3 (r0 m) s in let '(x, s) := take (vx t) s in
  let '(b, s) := take3 (r1 m) s in let '(y, s) := take (vy t) s in
  let '(c, s) := take3 (r2 m) s in let '(z, s) := take (vz t) s in (mkM a b c, mk3 x y z, s).
Definition se3_read (coerce : M3 -> outcome M3) (old : SE3) (s : option text) : outcome (SE3 * option text) :=
  let '(m, t, s) := se3_take (rot old) (trans old) s in m <- coerce m ;; Ok (mkSE3 m t, s).
(** sim3.h:252-261: every row of the rotation is multiplied by the scale *)
Definition sim3_text (T : SIM3) : text :=
  se3_line (scale3 (mscl T) (r0 (mrot T))) (vx (mtrans T)) ++ se3_line (scale3 (mscl T) (r1 (mrot T))) (vy (mtrans T)) ++
  se3_line (scale3 (mscl T) (r2 (mrot T))) (vz (mtrans T)).
(** sim3.h:267-274; [norm] is sqrt(v*v) (helpers.h:97-100) *)
Definition sim3_read (coerce : M3 -> outcome M3) (old : SIM3) (s : option text) : outcome (SIM3 * option text) :=
  let '(m, t, s) := se3_take (mrot old) (mtrans old) s in
  let k := (sqrt (dot3 (r0 m) (r0 m)) + sqrt (dot3 (r1 m) (r1 m)) + sqrt (dot3 (r2 m) (r2 m))) / 3 in
  m <- coerce m ;; Ok (mkSIM3 m t k, s).

(** so2.h:139-141, 146-150 *)
Definition so2_text (m : M2) : text := row2_text (s0 m) ++ row2_text (s1 m).
Definition so2_read (old : M2) (s : option text) : outcome (M2 * option text) :=
  let '(a, s) := take2 (s0 old) s in let '(b, s) := take2 (s1 old) s in m <- so2_coerce (mkM2 a b) ;; Ok (m, s).
(** se2.h:145-154, 159-164 *)
Definition se2_line (v : V2) (t : R) : text := vec2_text v ++ emit t ++ [Newline].
Definition se2_text (T : SE2) : text := se2_line (s0 (rot2 T)) (ux (trans2 T)) ++ se2_line (s1 (rot2 T)) (uy (trans2 T)).
Definition se2_take (m : M2) (t : V2) (s : option text) : M2 * V2 * option text :=
  let '(a, s) := take2 (s0 m) s in let '(x, s) := take (ux t) s in
  let '(b, s) := take2 (s1 m) s in let '(y, s) := take (uy t) s in (mkM2 a b, mk2 x y, s).
Definition se2_read (old : SE2) (s : option text) : outcome (SE2 * option text) :=
  let '(m, t, s) := se2_take (rot2 old) (trans2 old) s in m <- so2_coerce m ;; Ok (mkSE2 m t, s).
(** sim2.h:159-168, 173-179 *)
Definition sim2_text (T : SIM2) : text :=
  se2_line (scale2 (mscl2 T) (s0 (mrot2 T))) (ux (mtrans2 T)) ++ se2_line (scale2 (mscl2 T) (s1 (mrot2 T))) (uy (mtrans2 T)).
Definition sim2_read (old : SIM2) (s : option text) : outcome (SIM2 * option text) :=
  let '(m, t, s) := se2_take (mrot2 old) (mtrans2 old) s in
  let k := (sqrt (dot2 (s0 m) (s0 m)) + sqrt (dot2 (s1 m) (s1 m))) / 2 in
  m <- so2_coerce m ;; Ok (mkSIM2 m t k, s).

(** sl.h:210-214 through internal/operators.hh:689-704 *)
Definition sl_row_text (m : mat R) (i : nat) : outcome text :=
  t <- for_ 0 (mcols m) (fun j t => x <- mget m i j ;; Ok (t ++ (if Nat.eqb j 0 then [] else [Blank]) ++ emit x)) [] ;; Ok (t ++ [Newline]).
Definition sl_text (m : mat R) : outcome text := for_ 0 (mrows m) (fun i t => t' <- sl_row_text m i ;; Ok (t ++ t')) [].
(** sl.h:216-221 through internal/operators.hh:706-714 *)
Definition sl_read (N : nat) (old : mat R) (s : option text) : outcome (mat R * option text) :=
  '(m, s) <- for_ 0 (mrows old) (fun r st => for_ 0 (mcols old) (fun c st =>
     x <- mget (fst st) r c ;; let '(y, s) := take x (snd st) in m <- mset (fst st) r c y ;; Ok (m, s)) st) (old, s) ;;
  m <- sl_coerce N m ;; Ok (m, s).
End M.
