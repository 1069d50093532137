# Formal model of TooN in Rocq/Coq 8.16

The deliverable is `rocq/theories/`.  For each area there are
`Model*.v` (definitions only, each citing `/repo` file and lines), lemma files,
and `Prop*.v` (theorem statements, `exact lemma`, `Print Assumptions`,
non-vacuity `Example`s).

## Conventions of the model

* **Outcomes.** C++ functions return `outcome`: `Ok v`, `Abort why` (the library's own
  diagnosed `std::abort`), `UB why` (undefined behaviour: out-of-bounds access, signed
  overflow, null dereference, uninitialised read), `NonFinite` (division by zero: IEEE
  code would go on with inf/NaN) and `CompileError` (template rejected).
* **Loops** are `for_up`/`for_down` over `nat` bounds or fuel equal to the real iteration bound.
* **Element access is checked** in the model: an out-of-range access is `UB`, so every
  `= Ok _` theorem also says that the code stays in range.
* **Scalars.** Algebraic code is modelled over an arbitrary ordered field (a `Record`
  of operations plus a law record), i.e. *exact arithmetic*: floating-point rounding is
  outside these theorems.  C85-C89 instantiate the same models at *rounded* real arithmetic
  (`ModelFl.v`, every operation followed by a rounding of relative error u) and prove error bounds.  Code using sqrt/trigonometry is modelled over Coq's `R`.
* **Configuration**: default build (no `TOON_NDEBUG_*`, no `TOON_INITIALIZE_*`), bounds
  checks as a parameter where the property is about them.

## Per-property plan

| id | property | what is modelled and how it is proved |
|---|---|---|
| C01 | Slice bounds checking is sound and complete | ModelSize.v: CheckSlice as a function on template ints and run-time ints, int overflow = UB outcome. Exact characterisation by case analysis; the overflow case is a `_refuted` witness. |
| C02 | Views of views never escape the object they came from | ModelView.v: views = (block, offset, sizes, strides) over a block memory; inductive theorem over lists of view operations: each operation is an injective re-indexing. |
| C03 | Writing through a view changes exactly the aliased element | Same model, `write`; frame theorem over the whole memory. |
| C04 | View algebra | Equalities of view records / addresses. |
| C05 | Storage layout of RowMajor, ColMajor and wrapped data | Layout formulas; bijection by div/mod. |
| C06 | Assignment copies every element and nothing else | Elementwise copy loop over the memory; loop invariant with disjointness; diagnosed outcome leaves memory unobservable/unchanged. |
| C07 | Assignment between overlapping views | Same loop with overlap: proved for destination before source, `_refuted` witness for the other direction. |
| C08 | Transposing in place by assignment | `_refuted` witness; proved for symmetric contents. |
| C09 | Size agreement between operands is always enforced | SizeMismatch / Sizer as functions on template ints. |
| C10 | swap exchanges two vectors and touches nothing else | Swap loop over memory, disjoint views. |
| C11 | Owning vectors are independent values across copy, move, assign, swap, resize and destruction | ModelStore.v: heap of blocks with ownership, operation language, refinement to a map of value sequences (simulation by induction on the op list). |
| C12 | A moved-from dynamic vector remains usable | `_refuted`: witness program with UB outcome. |
| C13 | resize keeps the common prefix | Resizable storage as list; part of ModelStore.v. |
| C14 | Views of a resizable vector have its size | VectorSlice/SizeHolder size selection; `_refuted`. |
| C15 | Bounds checking mode catches exactly the bad indices | check_index in the view model with a configuration flag. |
| C16 | Comma filling of vectors | ModelFill.v: filler state machine including destruction order; induction over the value list; `_refuted` for size 1. |
| C17 | Comma filling of matrices | Same; `_refuted` for one column. |
| C18 | makeVector / Data initialisation | Data eval loops; `_refuted` for dynamic matrices. |
| C19 | Text output read back gives the same object | Token streams with whitespace; scalar printer/reader are section variables with a round-trip hypothesis, instantiated for integers. |
| C20 | Vector space operations | ModelOps.v over any ordered field; loops with checked element access. |
| C21 | Dot product | Same; Cauchy-Schwarz over any ordered field. |
| C22 | Matrix product is matrix multiplication | Same; sums. |
| C23 | diagmult and DiagonalMatrix | Same. |
| C24 | Cross product | Same, ring identities. |
| C25 | Zeros, Ones and Identity operators | ModelObjects.v. |
| C26 | Dividing a scaled operator by a number | Typed scalars (int/double); `_refuted`. |
| C27 | Identity assigned to a non-square matrix | `_refuted` from the size test. |
| C28 | Left and right scalar multiplication of matrices agree | Typed scalars; `_refuted`. |
| C29 | Vector norms and normalisation | Reals (sqrt). |
| C30 | Matrix norms | Ordered field / reals. |
| C31 | project and unproject | ModelHelpers.v. |
| C32 | trace and Symmetrize | ModelHelpers.v. |
| C33 | Minima and maxima | ModelHelpers.v, loop invariant. |
| C34 | Row-wise and column-wise extrema on every shape | ModelHelpers.v; empty-dimension witness `_refuted`. |
| C35 | isnan and isfinite | Scalars with NaN/Inf tokens. |
| C36 | Gaussian elimination solves linear systems | ModelGauss.v: loops over checked matrix, division by zero = NonFinite; invariant: the current system is equivalent to the first one for all (x,t); zero pivot gives a kernel vector. |
| C37 | Gaussian elimination with several right-hand sides | Same with matrix right-hand side. |
| C38 | Gauss-Jordan inverts | ModelGauss.v. |
| C39 | Determinant | Any ordered field; spec = Laplace expansion, shown to be the only normalised alternating multilinear function of the rows (LemDet.v, LemDetMul.v), hence equal to Leibniz' formula; invariant: det A0 = d * det(trailing block). |
| C40 | 2x2 inverse | field identity. |
| C41 | Cholesky factorises | ModelChol.v: in-place loop invariant (LemChol.v) giving L D L^T = mirrored lower triangle; uniqueness of the column equations gives `C41_lower_only`; square-root form over the reals. |
| C42 | Cholesky solves, inverts and computes determinants | ModelChol.v. |
| C43 | Cholesky rank | `_refuted` witness diag(0,1); proved: never too large (leading block nonsingular), full rank decided correctly for semidefinite input. |
| C44 | WLS computes the weighted least squares estimate | ModelWLS.v; every call adds an information matrix and vector (LemWLS, LemWLSRun), energy = quadratic function (LemWLSEnergy), Cholesky theorems give the solution. |
| C45 | WLS is independent of measurement order and grouping | Same invariant; permutation induction, append, clear. |
| C46 | QR decomposition factorises | ModelQR.v; degenerate column `_refuted`. |
| C47 | 2x2 symmetric eigen-decomposition | Reals. |
| C48 | Functions derived from an eigen-decomposition | Reals, given a decomposition. |
| C49 | Pseudo-inverse, back-substitution, determinant and reordering of an SVD | ModelSVD.v, over the reals, given a decomposition (LAPACK gesvd / the GR iteration are the hypothesis). The sign of determinant() is `_refuted`. |
| C50 | SVD rank | `_refuted`. |
| C51 | LU solves with dynamic numbers of right-hand sides | What getrf returns (the row-major view: A with columns interchanged = lower times unit upper) is the hypothesis `factorised`; trsm by its defining substitution; backsub, determinant, get_lu modelled. Theorems for all sizes and pivots; the dynamic matrix right-hand side and the documentation of get_lu are refuted. |
| C52 | SO3 forms a group acting on vectors | ModelLie.v over the reals; ring identities, entries of a rotation equal their cofactors; `C52_core_operations` ties the record operations to ModelOps.v. |
| C53 | coerce produces rotations | Gram-Schmidt step by step (LemLie.v); SO2 accepts reflections: `_refuted`. |
| C54 | Rotation from two vectors | Two orthonormal frames (LemSO3.v). |
| C55 | SO3 exponential | Rodrigues polynomial identities, Taylor bounds for sin and cos for the small-angle branches, derivative at 0 by the limit definition. |
| C56 | SO3 logarithm | Symmetric/antisymmetric parts of a rotation satisfy v v^T = (1+c)(S-cI) and S-cI has rank one; all three branches (LemSO3c.v), any threshold 0<thr<1. |
| C57 | SE3 forms a group acting on points | ModelSE.v over the reals; ring identities, homogeneous 4x4 matrices as block matrices, loops by invariant (LemSE3.v). |
| C58 | SE3 adjoint | Block products with A hat(v) A^T = hat(A v); matrix overloads by loop invariants on both passes. |
| C59 | SE3 exponential and logarithm | All operators commuting with the rotation are z1 + z2 (a x) + l aa^T: exp and ln are computed in that algebra (LemSE.v); Taylor bounds for the small branches; derivative from the limit definition. |
| C60 | SO2 and SE2 | Complex numbers on the plane; atan2 is modelled by its case definition and proved to invert (cos, sin). |
| C61 | SIM2 and SIM3 group laws | Reals; SIM3 and SIM2 as records (rotation, translation, scale); algebra on the homogeneous matrices. |
| C62 | SIM3 and SIM2 exponential and logarithm | Reals. The closed coefficients are shown to be the integrals of e^(sx), e^(sx)cos(tx), e^(sx)sin(tx); ln solves a 3x3 system by the elimination proved in C22. `_refuted` for the branch where both angle and log-scale are below 1e-6 (integer division) and for SIM2's translation. Accuracy of the Taylor branch by the mean value theorem (LemSim2.v). |
| C63 | SIM adjoint | The matrix of T G(v) T^-1 is computed and compared with the adjoint: `_refuted` for scales other than 1 and for the unset last element; `_partial` for scale 1. |
| C64 | SL generators and logarithm | Any N, lists/functions; `_refuted` for ln at N=4. |
| C65 | Golden section search | ModelOpt.v over the reals, any f : R -> R; the loop runs on fuel because itnum is never incremented (`_refuted`). Contraction over four steps gives termination away from zero. |
| C66 | Brent line search | ModelOpt.v; invariants of the loop for any f; convergence for unimodal f is `_partial` (no point evaluated twice) and `_refuted` in general. |
| C67 | Downhill simplex | ModelSimplex.v; one step characterised without loops (SpecSimplex.v), then every history of steps, restarts and parameter changes. |
| C68 | Bracketing a minimum | ModelCG.v; f : R -> option R (None = NaN). |
| C69 | Conjugate gradient bookkeeping | ModelCG.v; states reached by any number of iterate calls, any f and any gradient function. |
| C70 | Numerical derivatives | derivatives.h modelled over R (ModelDiff), with the functor's point as state and NaN as None. The Neville table is related to interpolating polynomials (SpecDiff.estimate); the loop invariant says the result is the first estimate with the smallest error among the visited samples; exactness on constant and even sequences follows. Refuted parts: the mixed differentiator does not restore its point; degree 5 can give a wrong gradient with error 0. |
| C71 | Numerical Hessian | Loop invariants over the pairs, with an arbitrary stale point: on quadratics the mixed difference does not depend on it. Cubics in three coordinates are shown wrong (C71_stale_coordinates). |
| C72 | Robust reweighting functions | Reals; `_refuted` where inconsistent. |
| C73 | Equation solvers check operand sizes | Same model; `_refuted` for the vector overload. |
| C74 | WLS checks operand sizes | Same model; `_refuted` for add_mJ. |
| C75 | SL group and coercion | Products, inverse: any field, through det_mul and Gaussian elimination. coerce: reals, Rpower as the root; `_refuted` for negative determinants and odd N. |
| C76 | IRLS accumulation | ModelIRLS.v over WLS (C44/C45) with uninitialised vectors as a parameter; induction on the history; `_refuted` for merging, the true information matrix and dynamic sizes. |
| C77 | 3x3 symmetric eigen-decomposition | ModelEig3.v over the reals (cos, sqrt, Rpower). Cardano's roots via the discriminant as a sum of squares; adjugate columns are eigenvectors and their trace bounds them from below; `_refuted` for (1,1,1), zero, small norms and one small vector. |
| C78 | Matrix exponential | ModelExp.v over the reals; the floating-point test `(x+f)-x == 0` is a parameter. Specification: entrywise limit of the partial sums (SpecExp). Tail bound, exp(2A)=exp(A)^2 and error propagation through the squarings; `_refuted` for zero and norms above 2^30. |
| C79 | Matrix square root | ModelExp.v over the reals, stopping test as a parameter; eigenvalue-wise Newton iteration for diagonalisable matrices, and the commuting-matrix fixed-point equation for all; `_refuted` for a matrix with negative eigenvalues and singular matrices. |
| C80 | Matrix logarithm | ModelExp.v over the reals; square roots (C79) until within 1/2 of the identity, then the Mercator series with its tail bound, eigenvalue by eigenvalue. |
| C81 | Golub-Reinsch SVD | ModelGR.v over the reals, the floating-point test `\|x\|+anorm==anorm` as a parameter; exact contents of the Householder bidiagonalisation (chains of reflections), then an invariant for the QR iteration: A = U B V^T up to (number of dropped elements) * tol, U and V orthogonal; `_refuted` for silent non-convergence. |
| C82 | Lapack_Cholesky decomposition | ModelLapackChol.v over the reals, LAPACK's potrf/potrs/potri as the reference unblocked algorithms on the transposed (column-major) array; loop invariant = the first j columns of the factor; positive definiteness through the L D L^T lemmas of C41; uniqueness of the factor gives independence of the lower triangle. `_refuted` for the documented triangle, for semidefinite matrices and for silent wrong answers on indefinite ones. |
| C83 | QR_Lapack decomposition | ModelQRLapack.v over the reals, geqp3 as the reference unblocked algorithm (Householder reflections with column pivoting), orgqr by its documented effect; invariant: product of the reflections so far times what is left of the matrix is A with permuted columns; norms of the remaining columns bound the diagonal. `_refuted` for get_P's documented convention and for tall matrices. |
| C84 | Automatic differentiation (functions/fadbad.h) | ModelFad.v: F<P,D> as (value, depends, derivatives) with the rules of differentiation (FADBAD++ itself is not in the repository), the generic vector/matrix models instantiated at it; SpecFad.v defines when such a number is the jet of a function of the parameters (value and partial derivatives as limits); closure under arithmetic by the derivative rules, group elements through the derivative of exp at 0 (C55, C59, C60). |
| C85 | Rounding errors of vector and matrix arithmetic are bounded for every input | ModelFl.v instantiates the generic models of operators.hh at rounded real arithmetic (FlOps rnd); SpecFl.v states the standard model of floating-point arithmetic (relative error u, representable numbers unchanged), ExFl.v shows that IEEE double with round-to-nearest (Flocq, unbounded exponent) satisfies it. Induction over the loop, with explicit error factors. |
| C86 | Cholesky decomposition is backward stable in floating point | The model of Cholesky.h (ModelChol.v) instantiated at FlOps. Loop invariant: the equations between the stored rounded numbers; the errors are moved into factors on A (backward analysis); Cauchy-Schwarz for the bound with positive pivots; for success, a vector orthogonal to the columns of L contradicts definiteness if a pivot is not positive. |
| C87 | Weighted least squares in floating point | ModelWLS.v instantiated at FlOps. The history is run three times in lockstep - in floating point, exactly, and exactly on absolute values - with the relation \|x - e\| <= ((1+u)^k - 1) a, \|e\| <= a on every element (rules for + and *); compute() composes this with C86; the gradient of the energy (C44) at mu is the residual of the perturbed normal equations. |
| C88 | Gaussian elimination in floating point | ModelGauss.v instantiated at FlOps. Loop invariant over the elimination steps with a ghost permutation and ghost multipliers: every stored number is a chain of rounded subtractions of products; backward analysis as for C86; growth by Wilkinson's induction (each step at most doubles the elements, up to rounding); at a zero pivot, a null vector of the perturbed matrix is constructed. The matrix overload is related to the vector overload by a simulation that uses no law of arithmetic. |
| C89 | Determinant in floating point | ModelGauss.v (determinant) instantiated at FlOps. The invariant of C88 extended with the running product and the parity of the ghost permutation; det of a product of triangular factors; Leibniz bound \|det\| <= n! M^n for the perturbation; the sign by continuity of the determinant along the segment from A to A+E. |
| C90 | Named elements and planar complex views | ModelNamed.v on top of the memory model of ModelView.v: members are addresses in the union, planar vectors are pairs of views. Proved from the view-chain theorems C02/C03; the planar vector is shown to be two ordinary views moving in lockstep. |
| C91 | LU decomposition from construction to results | ModelGetrf.v: dgetf2, dtrti2 and dgetri from the LAPACK reference in row-major coordinates. Loop invariant of the factorisation: interchanged A = product of the finished factors plus the unfinished block; getri by invariants over rows; composed with the C51 theorems, whose hypothesis on LAPACK becomes a lemma. |
| C92 | SL<N>: exp maps parameter vectors to matrices of determinant one, and ln back | Model SL::exp and SL::ln as the composition of the generator sum (C64's model) with the matrix exponential and logarithm (C78's and C80's models). Prove det(e^A) = e^(tr A) by scaling and squaring: det is multiplicative, det(1+X) = 1 + tr X up to second order (induction on the Laplace expansion), and (1 + t/m + O(1/m^2))^m tends to e^t; prove e^(sA) e^(tA) = e^((s+t)A) by the Cauchy product. Then C64's trace-zero theorem, C78's accuracy and C80's accuracy give the claims. |
| C93 | LU in floating point: stored factors, solutions and determinants belong to a nearby matrix | ModelGetrf (reference getf2, unblocked) and ModelLU at FlOps rnd. LemFlLU: invariant giving every stored number as a rounded recurrence; transposed onto the equations of LemFlDet2 (growth, backward error); the triangular solves through lu_solve_gen of LemFlGauss2; interchanges undone exactly. The real dgetrf is recursive or blocked: the order of its additions differs, so the constants are those of the unblocked routine. |
| C94 | Rotations in floating point: every history of an SO3 object stays near a rotation, and near the right one | ModelFlSO3: ModelLie's SO3 with a rounding after each operation, plus histories. Distances in the Frobenius norm (LemFro). LemFlSO3(b,c,d): unit, dot, cross error lemmas; coerce compared with the exact Gram-Schmidt through the skewness; exp through k-scaled exact exponential; two vectors; induction over histories. C94_two_vectors_refuted: a binary64 computation inside Flocq's FLT/FLX format. |
| C95 | Rigid transforms in floating point: every history of an SE3 object stays near a rigid motion, and near the right one | ModelFlSE3: ModelSE's SE3 with a rounding after each operation, plus histories (`motion`). The exact motion is stated by its action on points (SpecFlSE3.precisely), the exponential's translation by the swept-screw formula. LemFlSE3: error of the coefficients B, C in the three branches, cross-product errors, the length of the exact translation; then induction over histories using C94. |
| C96 | Rotations, rigid motions, similarities and SL matrices written to a stream read back | ModelLieIO: the operators << and >> of every Lie-group class over the text model of ModelFill (characters, one scalar's text, padding), with coerce() as a parameter (exact, or rounded). SpecLieIO states what is assumed of one number's text (exact, or relative error eps). PropLieIO: the position in the stream is followed entry by entry; the matrix read goes through coerce (C56, C75, C94). ExText: a six-digit decimal format meets the assumptions, with cases. |
| C97 | The logarithm of a rotation in floating point: never fails, right up to half a turn and everywhere accurate | ModelFlLn: ModelLie's so3_ln with a rounding after each operation. LemFlLn: Lipschitz constants of the rotation by a vector, asin and acos. LemFlLn2: the computed cosine and the antisymmetric part against those of the exact rotation, branches 1 and 2. LemFlLn3: the column chosen by comparing rounded squares has a large enough exact entry; the sign is right unless the rotation is within the error of half a turn. PropFlLn: forward, backward, round trips, histories (C94), double. |
| C98 | The logarithm of a rigid motion in floating point: exp undoes it and it undoes exp | ModelFlLn's fl_se3_ln: ModelSE's se3_ln with a rounding after each operation. LemFlLnSE: the inverse V^-1 as rotation by half the angle back, less a multiple of the axis, over sinc(t/2); error of each of the four combinations of series and formula, each divisor bounded away from zero. LemFlLnSE2: that inverse is the one of SpecFlSE3.carried, is bounded by 3.2 and has Lipschitz constant 20 in the rotation. PropFlLnSE: backward, forward, round trips, histories (C95), double. |
| C99 | Rotations of the plane in floating point: every history of an SO2 object stays near a rotation, the right one, and ln reads its angle | ModelFl2D: ModelLie's SO2 functions with a rounding after each operation, histories as an inductive type. SpecFl2D: what a history stands for, the error bounds. LemFl2D, PropFl2D: constructors, products, coerce (Gram-Schmidt as in C94), histories by induction. LemFlLn2D: the angle of a matrix near a rotation. PropFlSO2Ln: ln, round trips, histories, double. |
| C100 | Rigid motions of the plane in floating point: every history of an SE2 object stays near the right motion, exp and ln undo each other | ModelFl2D's SE2 functions. LemFlSE2: exp against the integral of the rotated velocity, three branches. PropFlSE2: histories by induction (span2 against reach2), points, growth with depth. LemFlLn2D: the inverse of exp's matrix is a rotation by minus half the angle over sinc(t/2), bounded by 25/12, Lipschitz 5 in the angle; ln backward, forward, round trips, histories, double. |
| C101 | Eigen-decomposition of a symmetric 2x2 matrix in floating point: accurate eigenvalues, orthonormal rows, eigenvectors of the right eigenvalue | ModelFlEig: ModelEig's eig2 with a rounding after each operation. LemFlEig: the discriminant's error is 14.1u S^2, so the root's error h has h^2 and h*gap below that; eigenvalues, trace, the normalised row, the characteristic polynomial at the computed eigenvalue, residuals. ExFlEig: one matrix of doubles computed step by step (a tie, an inexact root). PropFlEig: the theorems against C47's specification of an eigen-decomposition, double, the refutation. |
| C102 | QR.h in floating point: backward stable where the reflected columns are steep, and only there | ModelFlQR: ModelQR with a rounding after each operation (FlOps for the dot product and the division). LemFlQR: lengths, orthogonal matrices, reflections. LemFlQR2: what one iteration computes, element by element. LemFlQR3: one reflection is within 18t (t = 4((1+u)^(k+2)-1)/s^2) of an exact one. LemFlQR4: induction over the iterations with an exactly orthogonal companion. ExFlQR: two 2x2 matrices of doubles computed. PropFlQR: the theorems and two refutations. |
| C103 | Golden section search in floating point: it ends, returns the best probe, and keeps the minimum unless a probe is repeated | ModelFlGolden: ModelOpt's search with a rounding after each operation. LemFlGolden: new points stay in their interval because rounding is monotone; best value by induction over the loop; four steps shrink the width by 9/10 as long as the loop condition holds (it bounds the rounding errors by the width). PropFlGolden: best probe, termination, accuracy when no probe repeats, two refutations by computing doubles. |
| C104 | Brent's line search in floating point: it stays in the bracket, returns the best probe, and keeps the minimum unless a probe is repeated | ModelFlBrent: ModelOpt's Brent search with a rounding after each operation. PropFlBrent: every step stays in the bracket (golden steps because rounding is monotone, parabolic ones because the code tests the same rounded sum it uses), best value, memory and, while no point repeats, the minimum by induction over the loop; width from the loop condition. |
| C105 | Downhill simplex in floating point: the best value never gets worse whatever is rounded, each step is a Nelder-Mead step to rounding error | ModelFlSimplex: ModelSimplex with a rounding after each operation. LemFlSimplex: approximation after k roundings (app) closed under the operations, the loop's decisions and its sum, the step in five cases. PropFlSimplex: history by induction without any assumption on rounding, the step against SpecSimplex, finished(), collapse by computing doubles. |
| C106 | Gauss-Jordan reduction in floating point: the left block is exactly the identity, columns are reduced independently, and each column is exact on a nearby matrix | ModelGauss.v (gauss_jordan) at FlOps. LemGaussJordanFree: what one column and the last pass compute, with no law assumed of the operations (the pivot as a function of the column); identity and independence by induction over the columns. LemFlGaussJordan: each step exact on a perturbed matrix, residual by backward induction over the steps. |
| C107 | Conjugate gradient and bracketing in floating point: y is exactly f(x) and never rises, asserts fail only on a plateau, iterate never divides by zero, and bracketing gives a strict bracket unless NaN ends it | ModelFlCG.v (ModelCG with a rounding after every operation). LemFlCG: invariants of the four search loops under rounding. PropFlCG: equality with the exact model at the identity rounding, induction over the history of iterate; best probe from C104. In double a NaN-ended search gives c = b (refuted bracket). |
| C108 | Projective coordinates and the 2x2 inverse in floating point: project is correctly rounded and undoes unproject exactly; inv is the adjugate over a nearby determinant, accurate unless the determinant is lost | ModelHelpers.v (inv2, project_vec, unproject_vec) at FlOps. Direct expansion of each rounding as a factor 1+d; residual and forward bounds from these factors; a double-precision matrix with determinant 2^-104 that is refused. |
| C109 | Robust weights in floating point: each weight is positive and accurate to a few roundings, never larger for a larger error, the same for either sign, and RobustIII's is at most 1 | ModelFlIRLS.v: ModelIRLS's weights with a rounding after each operation. PropFlIRLS: equality with the exact model at the identity rounding; each rounding as a factor in [1-u, 1/(1-u)], monotonicity from that of rounding. |
| C110 | Vector and matrix norms in floating point: norm_inf of a vector is exact, norm_1, the matrix norms and norm_fro have a small relative error whatever the elements, and signs do not matter | ModelHelpers.v's norms at FlOps, ModelFlNorm.v for norm_fro. PropFlNorm: sums of non-negative terms as one factor (induction over the loop), the maximum of perturbed sums against the maximum of the sums, nested loop for norm_fro. |

## Trusted base

* Coq 8.16.1 kernel (including `vm_compute`).
* Reading of the C++ text: the tie between model and code is the citation in each definition.
* Axioms: listed per theorem by `Print Assumptions` in `Prop*.v`.  Theorems over `R` use the
  standard library's real-number axioms (`ClassicalDedekindReals.sig_forall_dec`,
  `ClassicalDedekindReals.sig_not_dec`, `functional_extensionality_dep`) and possibly
  `Classical_Prop.classic` (through `sqrt`/`Rtrigo`).  No axioms of our own.

## Not modelled

* Floating-point rounding except in C85-C89, C93-C95, C97-C110 (and where a stopping test or threshold is a parameter); overflow, underflow and NaN propagation except where stated.
* LAPACK itself: C51 and C50 use contracts; C82 and C83 use transcriptions of the reference (unblocked) algorithms.
* Code that the compiler never sees or that cannot be instantiated: the `#if 0` blocks of so3.h, se3.h and sim*.h, generated.h (it uses a FixedMatrix that no longer exists); introspection.hh and dchecktest.hh (build-time checks only).
* C++ template overload resolution (except the size/precision rules of the C01-C30 group), streams' locale/format state.
