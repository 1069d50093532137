(** * GR_SVD.h: the Golub-Reinsch decomposition itself. Model only. Over the reals.
    Arithmetic is exact, except in the negligibility test: [absorbed x a] is the computed value of
    [(abs(x) + a) == a], which holds when x is too small to change a. The theorems say what they assume of it. *)
From Coq Require Import Reals Arith Bool.
From Verif Require Import Base Alg Inst Mat ModelOps ModelSVD.
Open Scope outcome_scope.
Local Open Scope R_scope.

(** GR_SVD.h:185, 220 the sign: -(f>=0?sqrt(s):-sqrt(s)) *)
Definition away (f s : R) : R := - (if R_ltb f 0 then - sqrt s else sqrt s).

(** GR_SVD.h:175-202 the reflection of column i. Returns mU, g, scale. M = mrows mU, N = mcols mU. *)
Definition left_step (i : nat) (U : mat R) : outcome (mat R * R * R) :=
  let M := mrows U in let N := mcols U in
  scale <- for_ i M (fun k a => x <- mget U k i ;; Ok (a + Rabs x)) 0 ;;
  if R_eqb scale 0 then Ok (U, 0, scale) else
  ' (U, s) <- for_ i M (fun k st =>
      x <- mget (fst st) k i ;; y <- div x scale ;; U <- mset (fst st) k i y ;; Ok (U, snd st + y * y)) (U, 0) ;;
  f <- mget U i i ;;
  let g := away f s in
  let h := f * g - s in
  U <- mset U i i (f - g) ;;
  U <- (if (i =? N - 1)%nat then Ok U else
    for_ (i + 1) N (fun j U =>
      s <- for_ i M (fun k s => a <- mget U k i ;; b <- mget U k j ;; Ok (s + a * b)) 0 ;;
      f <- div s h ;;
      for_ i M (fun k U => a <- mget U k j ;; b <- mget U k i ;; mset U k j (a + f * b)) U) U) ;;
  U <- for_ i M (fun k U => a <- mget U k i ;; mset U k i (a * scale)) U ;;
  Ok (U, g, scale).
(** GR_SVD.h:210-238 the reflection of row i, with l = i+1. Returns mU, vOffDiagonal, g, scale. *)
Definition right_step (i : nat) (U : mat R) (E : vec R) : outcome (mat R * vec R * R * R) :=
  let M := mrows U in let N := mcols U in let l := (i + 1)%nat in
  scale <- for_ l N (fun k a => x <- mget U i k ;; Ok (a + Rabs x)) 0 ;;
  if R_eqb scale 0 then Ok (U, E, 0, scale) else
  ' (U, s) <- for_ l N (fun k st =>
      x <- mget (fst st) i k ;; y <- div x scale ;; U <- mset (fst st) i k y ;; Ok (U, snd st + y * y)) (U, 0) ;;
  f <- mget U i l ;;
  let g := away f s in
  let h := f * g - s in
  U <- mset U i l (f - g) ;;
  E <- for_ l N (fun k E => a <- mget U i k ;; y <- div a h ;; vset E k y) E ;;
  U <- (if (i =? M - 1)%nat then Ok U else
    for_ l M (fun j U =>
      s <- for_ l N (fun k s => a <- mget U j k ;; b <- mget U i k ;; Ok (s + a * b)) 0 ;;
      for_ l N (fun k U => a <- mget U j k ;; b <- vget E k ;; mset U j k (a + s * b)) U) U) ;;
  U <- for_ l N (fun k U => a <- mget U i k ;; mset U i k (a * scale)) U ;;
  Ok (U, E, g, scale).
(** the variables of Bidiagonalize: mU, vDiagonal, vOffDiagonal, g, scale, anorm *)
Record bidiag := mkbd { bU : mat R; bD : vec R; bE : vec R; bg : R; bscale : R; banorm : R }.
(** GR_SVD.h:168-240 one iteration *)
Definition bidiag_step (i : nat) (b : bidiag) : outcome bidiag :=
  let M := mrows (bU b) in let N := mcols (bU b) in
  E <- vset (bE b) i (bscale b * bg b) ;;
  ' (U, g, scale) <- (if (i <? M)%nat then left_step i (bU b) else Ok (bU b, 0, 0)) ;;
  D <- vset (bD b) i (scale * g) ;;
  ' (U, E, g, scale) <- (if negb ((M <=? i)%nat || (i =? N - 1)%nat) then right_step i U E else Ok (U, E, 0, 0)) ;;
  d <- vget D i ;; e <- vget E i ;;
  Ok (mkbd U D E g scale (Rmax (banorm b) (Rabs d + Rabs e))).
(** GR_SVD.h:156-244 Bidiagonalize; vOffDiagonal has BigDim elements *)
Definition bidiagonalize (A : mat R) : outcome bidiag :=
  for_ 0 (mcols A) bidiag_step (mkbd A (vnew (mcols A)) (vnew (Nat.max (mrows A) (mcols A))) 0 0 0).
(** GR_SVD.h:258-275 one iteration of Accumulate_RHS, [g] is vOffDiagonal[i+1] *)
Definition rhs_step (U : mat R) (E : vec R) (i : nat) (st : mat R * R) : outcome (mat R * R) :=
  let N := mcols U in let l := (i + 1)%nat in let g := snd st in
  V <- (if R_eqb g 0 then Ok (fst st) else
    V <- for_ l N (fun j V => a <- mget U i j ;; b <- mget U i l ;; q <- div a b ;; x <- div q g ;; mset V j i x) (fst st) ;;
    for_ l N (fun j V =>
      s <- for_ l N (fun k s => a <- mget U i k ;; b <- mget V k j ;; Ok (s + a * b)) 0 ;;
      for_ l N (fun k V => a <- mget V k j ;; b <- mget V k i ;; mset V k j (a + s * b)) V) V) ;;
  V <- for_ l N (fun j V => V <- mset V j i 0 ;; mset V i j 0) V ;;
  V <- mset V i i 1 ;;
  g <- vget E i ;;
  Ok (V, g).
(** GR_SVD.h:246-277 Accumulate_RHS; mV starts uninitialised *)
Definition accumulate_rhs (U : mat R) (E : vec R) : outcome (mat R) :=
  let N := mcols U in
  V <- (if (N =? 0)%nat then UB else mset (mnew N N) (N - 1) (N - 1) 1) ;;
  g <- vget E (N - 1) ;;
  ' (V, _) <- for_down (N - 1) 0 (rhs_step U E) (V, g) ;;
  Ok V.
(** GR_SVD.h:286-314 one iteration of Accumulate_LHS *)
Definition lhs_step (D : vec R) (i : nat) (U : mat R) : outcome (mat R) :=
  let M := mrows U in let N := mcols U in let l := (i + 1)%nat in
  g <- vget D i ;;
  U <- (if (i =? N - 1)%nat then Ok U else for_ l N (fun j U => mset U i j 0) U) ;;
  U <- (if R_eqb g 0 then for_ i M (fun j U => mset U j i 0) U else
    inv_g <- div 1 g ;;
    U <- (if (i =? Nat.min M N - 1)%nat then Ok U else
      for_ l N (fun j U =>
        s <- for_ l M (fun k s => a <- mget U k i ;; b <- mget U k j ;; Ok (s + a * b)) 0 ;;
        p <- mget U i i ;; q <- div s p ;;
        let f := q * inv_g in
        for_ i M (fun k U => a <- mget U k j ;; b <- mget U k i ;; mset U k j (a + f * b)) U) U) ;;
    for_ i M (fun j U => a <- mget U j i ;; mset U j i (a * inv_g)) U) ;;
  a <- mget U i i ;; mset U i i (a + 1).
(** GR_SVD.h:279-316 Accumulate_LHS *)
Definition accumulate_lhs (U : mat R) (D : vec R) : outcome (mat R) :=
  for_down (Nat.min (mrows U) (mcols U)) 0 (lhs_step D) U.

(** GR_SVD.h:377-383, 427-433, 444-450 columns a and b of X rotated *)
Definition rotate (X : mat R) (a b : nat) (c s : R) : outcome (mat R) :=
  for_ 0 (mrows X) (fun j X =>
    y <- mget X j a ;; z <- mget X j b ;;
    X <- mset X j a (y * c + z * s) ;; mset X j b (- y * s + z * c)) X.

Section D.
Variable absorbed : R -> R -> bool.
(** template parameters WANT_U, WANT_V *)
Variables wantU wantV : bool.
Definition rotate_if (want : bool) (X : mat R) (a b : nat) (c s : R) : outcome (mat R) := if want then rotate X a b c s else Ok X.

(** GR_SVD.h:352-359 the search for l, downwards from k: true when it leaves for line_540. With l = 0, vDiagonal[l1] is
    outside the vector. After l = 0 the loop would end at throw(0); it never gets there. *)
Fixpoint split (D E : vec R) (anorm : R) (l : nat) : outcome (nat * bool) :=
  e <- vget E l ;;
  if absorbed e anorm then Ok (l, false) else
  match l with
  | O => UB
  | S l1 => d <- vget D l1 ;; if absorbed d anorm then Ok (l, true) else split D E anorm l1
  end.
(** GR_SVD.h:365-384 [n] more iterations from i *)
Fixpoint cancel (n i l1 : nat) (anorm : R) (U : mat R) (D E : vec R) (c s : R) : outcome (mat R * vec R * vec R) :=
  match n with O => Ok (U, D, E) | S n =>
    e <- vget E i ;;
    let f := s * e in
    E <- vset E i (e * c) ;;
    if absorbed f anorm then Ok (U, D, E) else
    g <- vget D i ;;
    let h := sqrt (f * f + g * g) in
    D <- vset D i h ;;
    c <- div g h ;;
    s <- div (- f) h ;;
    U <- rotate_if wantU U l1 i c s ;;
    cancel n (i + 1) l1 anorm U D E c s
  end.
(** the variables of the QR sweep that live from one iteration to the next *)
Record sweep := mksw { wU : mat R; wV : mat R; wD : vec R; wE : vec R; wf : R; wx : R; wc : R; ws : R }.
(** GR_SVD.h:413-450 *)
Definition sweep_step (i1 : nat) (w : sweep) : outcome sweep :=
  let i := (i1 + 1)%nat in
  g <- vget (wE w) i ;;
  y <- vget (wD w) i ;;
  let h := ws w * g in
  let g := wc w * g in
  let z := sqrt (wf w * wf w + h * h) in
  E <- vset (wE w) i1 z ;;
  c <- div (wf w) z ;;
  s <- div h z ;;
  let f := wx w * c + g * s in
  let g := - wx w * s + g * c in
  let h := y * s in
  let y := y * c in
  V <- rotate_if wantV (wV w) i1 i c s ;;
  let z := sqrt (f * f + h * h) in
  D <- vset (wD w) i1 z ;;
  ' (c, s) <- (if R_eqb z 0 then Ok (c, s) else c <- div f z ;; s <- div h z ;; Ok (c, s)) ;;
  let x := - s * g + c * y in
  let f := c * g + s * y in
  U <- rotate_if wantU (wU w) i1 i c s ;;
  Ok (mksw U V D E f x c s).
(** GR_SVD.h:399-406 the shift *)
Definition shift (D E : vec R) (l k : nat) (z : R) : outcome R :=
  x <- vget D l ;; y <- vget D (k - 1) ;; g <- vget E (k - 1) ;; h <- vget E k ;;
  f <- div ((y - z) * (y + z) + (g - h) * (g + h)) (2 * h * y) ;;
  let g := sqrt (f * f + 1) in
  let signed_g := if R_ltb f 0 then - g else g in
  q <- div y (f + signed_g) ;;
  div ((x - z) * (x + z) + h * (q - h)) x.
(** mU, mV, vDiagonal, vOffDiagonal *)
Record parts := mkparts { pU : mat R; pV : mat R; pD : vec R; pE : vec R }.
Inductive turn := Converged (z : R) | Failed | Again.
(** GR_SVD.h:345-462 Diagonalize_SubLoop; [iter] is nIterations *)
Definition subloop (anorm : R) (k iter : nat) (p : parts) : outcome (parts * turn) :=
  ' (l, cancelling) <- split (pD p) (pE p) anorm k ;;
  ' (U, D, E) <- (if cancelling then cancel (k + 1 - l) l (l - 1) anorm (pU p) (pD p) (pE p) 0 1 else Ok (pU p, pD p, pE p)) ;;
  z <- vget D k ;;
  if (l =? k)%nat then Ok (mkparts U (pV p) D E, Converged z) else
  if (iter =? 30)%nat then Ok (mkparts U (pV p) D E, Failed) else
  x <- vget D l ;;
  f <- shift D E l k z ;;
  w <- for_ l k sweep_step (mksw U (pV p) D E f x 1 1) ;;
  E <- vset (wE w) l 0 ;;
  E <- vset E k (wf w) ;;
  D <- vset (wD w) k (wx w) ;;
  Ok (mkparts (wU w) (wV w) D E, Again).
(** GR_SVD.h:327-329 the do-while loop *)
Fixpoint iterate (fuel : nat) (anorm : R) (k iter : nat) (p : parts) : outcome (parts * option R) :=
  match fuel with O => OutOfFuel | S fuel =>
    ' (p, t) <- subloop anorm k iter p ;;
    match t with Converged z => Ok (p, Some z) | Failed => Ok (p, None) | Again => iterate fuel anorm k (iter + 1) p end
  end.
(** GR_SVD.h:334-340 *)
Definition make_positive (k : nat) (z : R) (p : parts) : outcome parts :=
  if R_ltb z 0 then
    D <- vset (pD p) k (- z) ;;
    V <- (if wantV then for_ 0 (mcols (pV p)) (fun j V => a <- mget V j k ;; mset V j k (- a)) (pV p) else Ok (pV p)) ;;
    Ok (mkparts (pU p) V D (pE p))
  else Ok p.
(** GR_SVD.h:318-342 Diagonalize for k-1, ..., 0. The second result is nError. *)
Fixpoint diagonalize (fuel : nat) (anorm : R) (k : nat) (p : parts) : outcome (parts * nat) :=
  match k with
  | O => Ok (p, 0%nat)
  | S k =>
    ' (p, z) <- iterate fuel anorm k 0 p ;;
    match z with
    | None => Ok (p, k)
    | Some z => p <- make_positive k z p ;; diagonalize fuel anorm k p
    end
  end.
(** GR_SVD.h:144-154 the constructor: the decomposition and nError, which no member function exposes *)
Definition gr_construct (fuel : nat) (A : mat R) : outcome (grsvd * nat) :=
  b <- bidiagonalize A ;;
  V <- accumulate_rhs (bU b) (bE b) ;;
  U <- accumulate_lhs (bU b) (bD b) ;;
  ' (p, nError) <- diagonalize fuel (banorm b) (mcols A) (mkparts U V (bD b) (bE b)) ;;
  Ok (mkgr (pD p) (pU p) (pV p), nError).
(** GR_SVD.h:67-68 get_U, get_V: throw(0) unless wanted *)
Definition gr_get_U (S : grsvd) : outcome (mat R) := if wantU then Ok (gr_U S) else Abort DAssert.
Definition gr_get_V (S : grsvd) : outcome (mat R) := if wantV then Ok (gr_V S) else Abort DAssert.
End D.
