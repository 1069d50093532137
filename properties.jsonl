{"id": "C01", "title": "Slice bounds checking is sound and complete", "statement": "v.slice(start,length), v.slice<Start,Length>(), v.slice<Start,Length>(start,length) and the matrix forms return a view exactly when 0<=start, 0<=length, start+length<=size and every static argument agrees with its run-time twin; in every other case they stop with a diagnostic or refuse to compile, and never hand out a view.", "quantifier": "all int32 sizes, starts and lengths, and all static/Dynamic/Resizable combinations of the template arguments", "why_tests_cant": "the argument space is 2^96 per template combination and the interesting points (overflowing start+length, Resizable) are isolated", "anchors": ["TooN/internal/slice_error.hh:CheckSlice", "TooN/internal/vbase.hh:GenericVBase::slice", "TooN/internal/mbase.hh:GenericMBase::slice"]}
{"id": "C02", "title": "Views of views never escape the object they came from", "statement": "Starting from any vector or matrix that owns or wraps its storage, any chain of slice, [r], T(), diagonal_slice, as_row, as_col and as_slice gives an object whose in-range elements are all elements of the original object, and two different in-range indices always denote two different elements.", "quantifier": "all sizes, both storage layouts, and view chains of any length", "why_tests_cant": "the chains are unbounded and the strides compose multiplicatively; tests sample a few depth-1 and depth-2 chains", "anchors": ["TooN/internal/mbase.hh:GenericMBase", "TooN/internal/vbase.hh:GenericVBase"]}
{"id": "C03", "title": "Writing through a view changes exactly the aliased element", "statement": "Assigning to an in-range element of a view changes the one element of the underlying object that the view's documented index mapping names, reading it back gives the written value, and every other element of every object keeps its value.", "quantifier": "all view chains, indices, values and memory contents", "why_tests_cant": "the frame condition ranges over all other memory", "anchors": ["TooN/internal/vbase.hh:GenericVBase::operator[]", "TooN/internal/mbase.hh:GenericMBase::operator()"]}
{"id": "C04", "title": "View algebra", "statement": "M.T().T() is M; M.T()[c] is column c of M; M[r][c], M(r,c) and M.T()(c,r) are the same element; slice(a,n).slice(b,m) is slice(a+b,m) whenever it is accepted; diagonal_slice()[i] is M(i,i) and has min(rows,cols) elements; v.as_row()(0,i) and v.as_col()(i,0) are v[i].", "quantifier": "all matrices, sizes, strides, offsets and in-range indices", "why_tests_cant": "identities over unbounded sizes and strides", "anchors": ["TooN/internal/mbase.hh:T,diagonal_slice,slice,operator[]", "TooN/internal/vbase.hh:as_row,as_col,slice"]}
{"id": "C05", "title": "Storage layout of RowMajor, ColMajor and wrapped data", "statement": "Element (r,c) of an R x C row-major (column-major) matrix is the (r*C+c)th ((c*R+r)th) number at get_data_ptr(); the mapping is a bijection between the in-range (r,c) pairs and 0..R*C-1, also for matrices wrapped around caller memory with wrapMatrix.", "quantifier": "all R, C and all in-range indices", "why_tests_cant": "bijectivity is a statement over all sizes and index pairs", "anchors": ["TooN/internal/mbase.hh:RowMajor,ColMajor", "TooN/internal/reference.hh:wrapMatrix,wrapVector"]}
{"id": "C06", "title": "Assignment copies every element and nothing else", "statement": "When source and destination do not overlap, a=b makes a elementwise equal to b, leaves b and all other memory unchanged; this holds for vectors and matrices through arbitrary views. If the sizes differ and the destination is not Resizable, the program stops with a diagnostic before any element is written (or does not compile).", "quantifier": "all sizes, views, contents and memory states", "why_tests_cant": "needs every pair of views and the absence of partial effects", "anchors": ["TooN/internal/vector.hh:operator=", "TooN/internal/matrix.hh:operator=", "TooN/internal/size_mismatch.hh"]}
{"id": "C07", "title": "Assignment between overlapping views", "statement": "Assigning one slice of a vector to another overlapping slice of the same vector behaves as if the source had been copied first.", "quantifier": "all vectors, all pairs of equally long slices of it", "why_tests_cant": "depends on the direction and amount of overlap; tests use disjoint slices", "anchors": ["TooN/internal/vector.hh:operator="]}
{"id": "C08", "title": "Transposing in place by assignment", "statement": "M = M.T() leaves the transpose of the old M in M for every square M.", "quantifier": "all square matrices", "why_tests_cant": "fails only for non-symmetric contents", "anchors": ["TooN/internal/matrix.hh:operator=", "TooN/internal/mbase.hh:T"]}
{"id": "C09", "title": "Size agreement between operands is always enforced", "statement": "A binary operation on operands whose (static, Dynamic or Resizable) sizes disagree never produces a value: it is a compile error if both sizes are static and a diagnosed stop otherwise; operands with equal sizes always pass. The result size is static whenever one operand size is, and equals the common size.", "quantifier": "all combinations of static, Dynamic and Resizable sizes and all run-time sizes", "why_tests_cant": "sizes are unbounded and the nine template combinations each have their own specialisation", "anchors": ["TooN/internal/size_mismatch.hh:SizeMismatch", "TooN/TooN.h:Internal::Sizer"]}
{"id": "C10", "title": "swap exchanges two vectors and touches nothing else", "statement": "swap(a,b) on equal-size non-overlapping vectors (owning or views) exchanges all elements, leaves other memory unchanged, and doing it twice restores the original memory; different sizes are diagnosed before any element changes.", "quantifier": "all sizes, views and contents", "why_tests_cant": "frame condition and involution over all memories", "anchors": ["TooN/internal/operators.hh:Swap", "TooN/internal/allocator.hh:VectorAlloc::swap"]}
{"id": "C11", "title": "Owning vectors are independent values across copy, move, assign, swap, resize and destruction", "statement": "In any program made of construction, copy, move-construction, copy-assignment, swap, resize, element writes and destruction of owning vectors, each vector always reads back the sequence that value semantics prescribes, no element access touches freed or foreign memory, nothing is freed twice and everything is freed once at the end, as long as a moved-from vector is not read.", "quantifier": "all operation sequences of any length over any number of vectors", "why_tests_cant": "unbounded histories with aliasing only visible after particular interleavings", "anchors": ["TooN/internal/allocator.hh:VectorAlloc", "TooN/internal/vector.hh"]}
{"id": "C12", "title": "A moved-from dynamic vector remains usable", "statement": "After moving out of a Vector<Dynamic> the source still is a valid vector: reading its size and elements or assigning a vector of its reported size to it is well defined.", "quantifier": "all dynamic vectors", "why_tests_cant": "undefined behaviour rarely manifests in a test run", "anchors": ["TooN/internal/allocator.hh:199"]}
{"id": "C13", "title": "resize keeps the common prefix", "statement": "Vector<Resizable>::resize(n) gives a vector of size n whose first min(n,old size) elements are unchanged; assigning a vector to a Resizable vector makes it an exact copy whatever the sizes were.", "quantifier": "all old and new sizes and contents", "why_tests_cant": "unbounded sizes", "anchors": ["TooN/internal/allocator.hh:VectorAlloc<Resizable>::resize,try_destructive_resize"]}
{"id": "C14", "title": "Views of a resizable vector have its size", "statement": "as_slice(), as_row(), as_col() and as_diagonal() of a Vector<Resizable> of n elements are objects with n elements.", "quantifier": "all n", "why_tests_cant": "the size is wrong for every n, but no test takes such a view", "anchors": ["TooN/internal/vbase.hh:as_slice,as_row,as_col", "TooN/internal/allocator.hh:VectorSlice,SizeHolder"]}
{"id": "C15", "title": "Bounds checking mode catches exactly the bad indices", "statement": "With TOON_CHECK_BOUNDS an element access through v[i], M(r,c), M[r][c] or M[pair] stops with a diagnostic if and only if an index is out of range, and never touches memory outside the object; without it every in-range access is well defined.", "quantifier": "all indices, sizes and view chains", "why_tests_cant": "the index space is unbounded", "anchors": ["TooN/internal/debug.hh:check_index", "TooN/internal/vbase.hh", "TooN/internal/mbase.hh"]}
{"id": "C16", "title": "Comma filling of vectors", "statement": "Fill(v)=a0,a1,... with exactly size() values stores value i in v[i]; with fewer or more values it is rejected (diagnosed or not compiled) and never writes outside v.", "quantifier": "all sizes >= 1 and all value lists of any length", "why_tests_cant": "the failure is at a boundary size and list lengths are unbounded", "anchors": ["TooN/internal/comma.hh:VectorFiller,VectorStartFill", "TooN/internal/overfill_error.hh"]}
{"id": "C17", "title": "Comma filling of matrices", "statement": "Fill(m)=a0,a1,... with exactly rows*cols values stores them in row-major reading order; other counts are rejected and nothing outside m is written.", "quantifier": "all row and column counts and value lists", "why_tests_cant": "fails only for single-column shapes; shapes are unbounded", "anchors": ["TooN/internal/comma.hh:MatrixFiller,MatrixStartFill"]}
{"id": "C18", "title": "makeVector / Data initialisation", "statement": "Constructing or assigning a vector or matrix from a list of n values stores the values in (row-major) order when the sizes agree and is rejected otherwise.", "quantifier": "all sizes, static and dynamic shapes, and all value lists", "why_tests_cant": "sizes are unbounded and static/dynamic shapes use different code", "anchors": ["TooN/internal/data.hh:Operator<Data>::eval"]}
{"id": "C19", "title": "Text output read back gives the same object", "statement": "Writing a vector or matrix with << and reading the text with >> into an object of the same shape reproduces every element, with the rest of the stream left for the next read, provided each scalar's text round-trips.", "quantifier": "all shapes, all contents, any text following in the stream", "why_tests_cant": "round trip over all shapes and contents", "anchors": ["TooN/internal/operators.hh:operator<<,operator>>"]}
{"id": "C20", "title": "Vector space operations", "statement": "+, -, unary -, scalar * and /, and the compound assignments act elementwise, satisfy the vector-space laws, and v+=w, v-=w, v*=s, v/=s give what v+w, v-w, v*s, v/s give; == and != are elementwise comparison and each other's negation.", "quantifier": "all sizes and all elements of an ordered field", "why_tests_cant": "laws over all sizes and values", "anchors": ["TooN/internal/operators.hh:VPairwise,ApplyScalarV,ApplyScalarVL", "TooN/internal/vector.hh"]}
{"id": "C21", "title": "Dot product", "statement": "v*w is the sum of products, is symmetric and bilinear; norm_sq(v)=v*v is non-negative and zero only for the zero vector; the Cauchy-Schwarz inequality holds.", "quantifier": "all sizes and values", "why_tests_cant": "inequalities over all values", "anchors": ["TooN/internal/operators.hh:operator*(Vector,Vector)", "TooN/helpers.h:norm_sq"]}
{"id": "C22", "title": "Matrix product is matrix multiplication", "statement": "(A*B)(r,c) is sum_k A(r,k)B(k,c); multiplication is associative and distributes over + and -; (A*B).T() equals B.T()*A.T(); Identity is neutral; A*v and v*A agree with multiplying by v.as_col() and v.as_row().", "quantifier": "all conforming shapes and values", "why_tests_cant": "laws over all shapes and values", "anchors": ["TooN/internal/operators.hh:MatrixMultiply,MatrixVectorMultiply,VectorMatrixMultiply"]}
{"id": "C23", "title": "diagmult and DiagonalMatrix", "statement": "diagmult(v,M), diagmult(M,v), diagmult(v,w) and the products and inverse of DiagonalMatrix equal the ordinary operations with the full matrix that has v on its diagonal and zeros elsewhere.", "quantifier": "all shapes and values", "why_tests_cant": "equivalence over all shapes", "anchors": ["TooN/internal/operators.hh:diagmult", "TooN/internal/diagmatrix.h"]}
{"id": "C24", "title": "Cross product", "statement": "a^b is orthogonal to a and b, anticommutative, satisfies the Lagrange and Jacobi identities, and cross_product_matrix(a) is antisymmetric with cross_product_matrix(a)*b == a^b.", "quantifier": "all 3-vectors", "why_tests_cant": "polynomial identities over all values", "anchors": ["TooN/internal/operators.hh:operator^", "TooN/helpers.h:cross_product_matrix"]}
{"id": "C25", "title": "Zeros, Ones and Identity operators", "statement": "Assigning, adding and subtracting (scaled) Zeros, Ones and Identity gives every element, respectively every diagonal element of a square matrix, the documented value and changes nothing else; a+op, op+a, a-op, op-a, a+=op agree with using the explicit constant matrix.", "quantifier": "all shapes, scales and values", "why_tests_cant": "all shapes and values", "anchors": ["TooN/internal/objects.h"]}
{"id": "C26", "title": "Dividing a scaled operator by a number", "statement": "(Ones*a)/b and (Identity*a)/b represent the constant a/b for all numeric types for which a*(1/b) is meant to be a/b, in particular (Ones*4)/2 is Ones*2.", "quantifier": "all numeric argument types and values", "why_tests_cant": "the result is silently truncated for integral arguments only", "anchors": ["TooN/internal/objects.h:691-696"]}
{"id": "C27", "title": "Identity assigned to a non-square matrix", "statement": "As documented, assigning Identity to a non-square matrix sets the leading diagonal to one and all other elements to zero.", "quantifier": "all non-square shapes", "why_tests_cant": "documented behaviour for all shapes", "anchors": ["TooN/internal/objects.h:296", "TooN/internal/objects.h:747-766"]}
{"id": "C28", "title": "Left and right scalar multiplication of matrices agree", "statement": "s*M equals M*s elementwise for every scalar and matrix element type, in particular for a floating scalar and an integer matrix.", "quantifier": "all values and the mixed precision combinations", "why_tests_cant": "only mixed-type instantiations with fractional scalars differ", "anchors": ["TooN/internal/operators.hh:585-610"]}
{"id": "C29", "title": "Vector norms and normalisation", "statement": "norm_1, norm_2/norm and norm_inf are non-negative, zero exactly on the zero vector, homogeneous, satisfy the triangle inequality and norm_inf<=norm_2<=norm_1; unit(v) and normalize(v) of a nonzero vector give a vector of norm 1 that is a positive multiple of v.", "quantifier": "all sizes >= 1 and all real vectors", "why_tests_cant": "inequalities over all vectors", "anchors": ["TooN/helpers.h:norm,norm_1,norm_inf,unit,normalize"]}
{"id": "C30", "title": "Matrix norms", "statement": "norm_inf(M) is the largest row sum and norm_1(M) the largest column sum of absolute values, norm_1(M)==norm_inf(M.T()), norm_fro(M)^2 is the sum of squares, and norm_inf is sub-multiplicative and compatible with the vector norm.", "quantifier": "all shapes and values", "why_tests_cant": "inequalities over all matrices", "anchors": ["TooN/helpers.h:norm_fro,norm_inf,norm_1"]}
{"id": "C31", "title": "project and unproject", "statement": "unproject(v) is v with a 1 appended, project(unproject(v))==v for every v, project is invariant under nonzero scaling, and the matrix versions act on each column; a zero last element gives no finite result.", "quantifier": "all sizes and values", "why_tests_cant": "all sizes and values", "anchors": ["TooN/helpers.h:project,unproject"]}
{"id": "C32", "title": "trace and Symmetrize", "statement": "trace(M) is the sum of the diagonal, trace(A*B)==trace(B*A); Symmetrize(M) makes M symmetric, equal to (M+M^T)/2, keeps the diagonal, the trace and every quadratic form x^T M x, and is idempotent; both reject non-square matrices.", "quantifier": "all sizes and values", "why_tests_cant": "all sizes; in-place update order matters", "anchors": ["TooN/helpers.h:trace,Symmetrize"]}
{"id": "C33", "title": "Minima and maxima", "statement": "min_value/max_value return an element not exceeded in the respective direction by any element; min_element/max_element also return the position of its first occurrence (row-major for matrices).", "quantifier": "all non-empty vectors and matrices", "why_tests_cant": "ties and positions over all contents", "anchors": ["TooN/helpers.h:min_value,max_value,min_element,max_element"]}
{"id": "C34", "title": "Row-wise and column-wise extrema on every shape", "statement": "The horizontal/vertical accumulators (min_value_horizontal, max_value_vertical, ...) return one correct extremum per row/column and never access memory outside the matrix, also for empty dimensions.", "quantifier": "all shapes including empty ones", "why_tests_cant": "out-of-bounds read only for empty dimensions", "anchors": ["TooN/helpers.h:accumulate_horizontal,accumulate_vertical"]}
{"id": "C35", "title": "isnan and isfinite", "statement": "isnan(v) is true iff some element is NaN; isfinite(v) is true iff no element is infinite or NaN.", "quantifier": "all sizes and all patterns of special values", "why_tests_cant": "all positions and combinations", "anchors": ["TooN/helpers.h:isfinite,isnan"]}
{"id": "C36", "title": "Gaussian elimination solves linear systems", "statement": "For every nonsingular A and every b, gaussian_elimination(A,b) returns x with A*x==b, whatever row interchanges are needed, and never divides by zero; for singular A it never returns a finite vector silently wrong: if it returns finite x then A*x==b.", "quantifier": "all sizes, all matrices and right-hand sides over an ordered field (exact arithmetic)", "why_tests_cant": "correctness for all sizes and pivot patterns", "anchors": ["TooN/gaussian_elimination.h:gaussian_elimination(Matrix,Vector)"]}
{"id": "C37", "title": "Gaussian elimination with several right-hand sides", "statement": "gaussian_elimination(A,B) for a matrix B returns X with A*X==B, i.e. each column is solved as by the vector version.", "quantifier": "all sizes, numbers of right-hand sides and values", "why_tests_cant": "all sizes and pivot patterns", "anchors": ["TooN/gaussian_elimination.h:gaussian_elimination(Matrix,Matrix)"]}
{"id": "C38", "title": "Gauss-Jordan inverts", "statement": "gauss_jordan applied to [A|I] for nonsingular A leaves the inverse of A in the right half; in general [A|B] becomes [I|X] with A*X==B.", "quantifier": "all sizes and values", "why_tests_cant": "all sizes and pivot patterns", "anchors": ["TooN/gauss_jordan.h:gauss_jordan"]}
{"id": "C39", "title": "Determinant", "statement": "determinant(A) and determinant_gaussian_elimination(A) equal the mathematical (Leibniz) determinant for every square matrix, including singular ones and ones needing row interchanges; non-square matrices are rejected.", "quantifier": "all sizes and values", "why_tests_cant": "all sizes; sign of the permutation and early exit", "anchors": ["TooN/determinant.h"]}
{"id": "C40", "title": "2x2 inverse", "statement": "inv(m)*m and m*inv(m) are the identity for every 2x2 matrix with nonzero determinant.", "quantifier": "all 2x2 matrices", "why_tests_cant": "all values", "anchors": ["TooN/helpers.h:inv"]}
{"id": "C41", "title": "Cholesky factorises", "statement": "For every symmetric matrix whose pivots are nonzero (in particular every positive definite matrix) Cholesky computes unit lower triangular L (get_unscaled_L) and diagonal D (get_D) with L*D*L^T==A, and get_L()*get_L()^T==A when D is positive; only the lower triangle of A is read.", "quantifier": "all sizes and all such matrices", "why_tests_cant": "all sizes and values; in-place caching of undivided entries", "anchors": ["TooN/Cholesky.h:do_compute,get_unscaled_L,get_D,get_L"]}
{"id": "C42", "title": "Cholesky solves, inverts and computes determinants", "statement": "backsub(b) returns x with A*x==b for vector and matrix b, get_inverse() is A^-1, determinant() is det A, mahalanobis(v) is v^T A^-1 v.", "quantifier": "all sizes, all symmetric matrices with nonzero pivots, all right-hand sides", "why_tests_cant": "all sizes and values", "anchors": ["TooN/Cholesky.h:backsub,get_inverse,determinant,mahalanobis"]}
{"id": "C43", "title": "Cholesky rank", "statement": "rank() of the decomposition is the rank of the (positive semidefinite) input.", "quantifier": "all positive semidefinite matrices", "why_tests_cant": "depends on where zero pivots occur", "anchors": ["TooN/Cholesky.h:rank,do_compute"]}
{"id": "C44", "title": "WLS computes the weighted least squares estimate", "statement": "After adding any sequence of measurements (m_i, J_i, w_i), priors and sparse or block measurements, compute() gives mu satisfying the normal equations, which for non-negative weights minimises sum w_i (m_i - J_i.mu)^2 plus the prior terms; C_inv is symmetric.", "quantifier": "all measurement sequences of any length and dimension", "why_tests_cant": "unbounded histories, all values", "anchors": ["TooN/wls.h"]}
{"id": "C45", "title": "WLS is independent of measurement order and grouping", "statement": "Permuting the measurements, adding them one by one or in blocks, or accumulating them in two WLS objects joined by += gives the same state; clear() forgets everything.", "quantifier": "all measurement sequences", "why_tests_cant": "unbounded histories", "anchors": ["TooN/wls.h:add_mJ,add_mJ_rows,add_sparse_mJ,operator+=,clear"]}
{"id": "C46", "title": "QR decomposition factorises", "statement": "get_Q() is orthogonal, get_R() is upper triangular and get_Q()*get_R() is the input (times the permutation when pivoting) for every matrix.", "quantifier": "all shapes and values", "why_tests_cant": "fails for special columns only", "anchors": ["TooN/QR.h"]}
{"id": "C47", "title": "2x2 symmetric eigen-decomposition", "statement": "SymEigen of a symmetric 2x2 matrix gives ascending eigenvalues and an orthonormal matrix V of eigenvectors with V^T diag(e) V == A.", "quantifier": "all symmetric 2x2 matrices", "why_tests_cant": "all values including diagonal and repeated eigenvalues", "anchors": ["TooN/SymEigen.h:97-134"]}
{"id": "C48", "title": "Functions derived from an eigen-decomposition", "statement": "Given a correct decomposition, get_determinant is det A, is_posdef/is_negdef decide definiteness, get_sqrtm()^2==A and get_isqrtm()^2==A^-1 for positive definite A, and backsub solves A x=b for well conditioned A.", "quantifier": "all sizes and values", "why_tests_cant": "all sizes and values", "anchors": ["TooN/SymEigen.h:425-555"]}
{"id": "C49", "title": "Pseudo-inverse, back-substitution, determinant and reordering of an SVD", "statement": "Given a decomposition A = U diag(s) V^T: get_inv_diag(condition) inverts exactly the singular values larger than max/condition and zeroes the others; get_pinv is the Moore-Penrose pseudo-inverse (all four Penrose equations) when every non-zero singular value passes that test; backsub(b) is get_pinv()*b, the shortest least-squares solution of Ax=b; determinant() of a square matrix is its determinant; GR_SVD::reorder sorts the singular values in descending order and permutes U and V consistently so that the product is unchanged.", "quantifier": "all decompositions, sizes, right-hand sides and condition numbers", "why_tests_cant": "all sizes, ranks and permutations", "anchors": ["TooN/GR_SVD.h:reorder,get_inv_diag,backsub,get_pinv,get_largest_singular_value,get_smallest_singular_value_index", "TooN/SVD.h:get_inv_diag,get_pinv,backsub,determinant"]}
{"id": "C50", "title": "SVD rank", "statement": "SVD::rank() counts the singular values that are not negligible with respect to the condition number; the n x n identity has rank n.", "quantifier": "all diagonals of singular values", "why_tests_cant": "wrong for every input but no test calls it", "anchors": ["TooN/SVD.h:222-231"]}
{"id": "C51", "title": "LU solves with dynamic numbers of right-hand sides", "statement": "Given the factors and pivots that LAPACK returns, LU::backsub(B) solves A*X==B for statically and dynamically sized B, and determinant() is det A with the sign of the row interchanges.", "quantifier": "all sizes, factors, pivot vectors and right-hand sides", "why_tests_cant": "only dynamically sized B with real row interchanges misbehaves", "anchors": ["TooN/LU.h:backsub,determinant"]}
{"id": "C52", "title": "SO3 forms a group acting on vectors", "statement": "For rotations: (A*B)*v==A*(B*v), multiplication is associative, inverse() is a two-sided inverse, products and inverses of orthonormal matrices with determinant 1 stay such, and A*=B agrees with A*B.", "quantifier": "all SO3 values and vectors", "why_tests_cant": "algebraic laws over all values", "anchors": ["TooN/so3.h"]}
{"id": "C53", "title": "coerce produces rotations", "statement": "SO3::coerce (and construction from a matrix) turns any matrix with linearly independent rows and positive determinant into a rotation by Gram-Schmidt on the rows, keeps a matrix that already is a rotation, and stops on a left-handed matrix; SO2::coerce likewise always yields a rotation.", "quantifier": "all non-degenerate matrices", "why_tests_cant": "all values", "anchors": ["TooN/so3.h:coerce", "TooN/so2.h:coerce"]}
{"id": "C54", "title": "Rotation from two vectors", "statement": "SO3(a,b) is a rotation whose application to the direction of a gives the direction of b for all nonzero non-antiparallel a, b (and by convention some rotation otherwise).", "quantifier": "all pairs of 3-vectors", "why_tests_cant": "all values, with branch on collinearity", "anchors": ["TooN/so3.h:78-98"]}
{"id": "C55", "title": "SO3 exponential", "statement": "exp(w) is a rotation about w: exp(w)*w==w, exp(-w)==exp(w).inverse(), trace 1+2cos|w|, and exp of two multiples of the same axis multiply by adding angles; the derivative at zero is the combination of the generators. Below |w|=1e-3 the code switches to Taylor polynomials: there the result must stay within 1e-17 of the rotation in each entry.", "quantifier": "all w in R^3", "why_tests_cant": "identities over all reals", "anchors": ["TooN/so3.h:exp,rodrigues_so3_exp,generator"]}
{"id": "C56", "title": "SO3 logarithm", "statement": "ln() inverts exp: exp(ln(R))==R for every rotation R, and ln(exp(w))==w for |w|<pi (with a relative error of at most 1e-17 where exp uses its Taylor branches).", "quantifier": "all rotations", "why_tests_cant": "branches near 0, pi/2 and pi; all values", "anchors": ["TooN/so3.h:ln"]}
{"id": "C57", "title": "SE3 forms a group acting on points", "statement": "(A*B)*x==A*(B*x), associativity, inverse, A*=B equals A*B, left_multiply_by equals multiplication from the left; the action on homogeneous 4-vectors and the 4x4 matrix products agree with the action on 3-vectors.", "quantifier": "all SE3 values and vectors", "why_tests_cant": "laws over all values", "anchors": ["TooN/se3.h"]}
{"id": "C58", "title": "SE3 adjoint", "statement": "adjoint is the linear map with T exp(v) T^-1 == exp(adjoint(v)) at the algebra level (T G(v) T^-1 = G(adjoint v)), is multiplicative in T, trinvadjoint is its inverse transpose, and the matrix overloads conjugate by the same map.", "quantifier": "all SE3 values and 6-vectors", "why_tests_cant": "identities over all values", "anchors": ["TooN/se3.h:adjoint,trinvadjoint,generator_field"]}
{"id": "C59", "title": "SE3 exponential and logarithm", "statement": "exp of a twist (u,w) is the screw motion: rotation by |w| about w/|w| and the translation swept by the body velocity u. It is exact for w=0 and |w|>=1e-3; below that the rotation is within 1e-17 and the translation within 4e-9|u| (|w|<1e-4) or 1e-17|u| (otherwise). exp(sv)*exp(tv)==exp((s+t)v), exp(-v)==exp(v).inverse(), exp(ln(T))==T, ln(exp(v))==v for angles below pi; the derivative of exp at 0 is the generator combination and generator_field(i,x) is generator(i)*x.", "quantifier": "all twists and transformations (group laws and inverses: rotation angle 0 or at least 2e-3)", "why_tests_cant": "all values and small-angle branches", "anchors": ["TooN/se3.h:exp,ln,generator_field"]}
{"id": "C60", "title": "SO2 and SE2", "statement": "SO2 and SE2 obey the group and action laws; SO2::exp(a)*SO2::exp(b)==SO2::exp(a+b), exp(ln(R))==R; SE2 adjoint satisfies T G(v) T^-1 = G(adjoint v).", "quantifier": "all values", "why_tests_cant": "all values", "anchors": ["TooN/so2.h", "TooN/se2.h"]}
{"id": "C61", "title": "SIM2 and SIM3 group laws", "statement": "Similarity transforms obey (A*B)*x==A*(B*x), associativity, inverse and *= consistency.", "quantifier": "all transforms with positive scale", "why_tests_cant": "all values", "anchors": ["TooN/sim2.h", "TooN/sim3.h"]}
{"id": "C62", "title": "SIM3 and SIM2 exponential and logarithm", "statement": "SIM3::exp / SIM2::exp of (u, w, s) is the transform with the rotation of w, scale e^s and, as translation, the point reached at time 1 by a point that starts at the origin with velocity e^(s x) R(w x) u; exp and ln undo each other (rotation below pi, positive scale). In particular a pure translation translates by itself and ln of the identity is zero.", "quantifier": "all algebra vectors, all transforms with positive scale", "why_tests_cant": "a continuum of inputs with four numerical branches; in one branch integer division and in SIM2 a wrong coefficient are used", "anchors": ["TooN/sim3.h:exp", "TooN/sim3.h:ln", "TooN/sim3.h:compute_rodrigues_coefficients_sim3", "TooN/sim2.h:exp", "TooN/sim2.h:ln"]}
{"id": "C63", "title": "SIM adjoint", "statement": "SIM2/SIM3 adjoint fully define the result vector and satisfy T G(v) T^-1 = G(adjoint v) including the scale component.", "quantifier": "all transforms and vectors", "why_tests_cant": "uninitialised component", "anchors": ["TooN/sim2.h:adjoint", "TooN/sim3.h:adjoint"]}
{"id": "C64", "title": "SL generators and logarithm", "statement": "SL<N>::generator(i) for 0<=i<N*N-1 are trace-free and form a basis of the trace-free matrices, and exp/ln use coordinates in that basis consistently.", "quantifier": "all N and indices, all trace-free matrices", "why_tests_cant": "all N; wrong only for N>=4", "anchors": ["TooN/sl.h:generator,ln"]}
{"id": "C65", "title": "Golden section search", "statement": "golden_section_search returns the best of all the points it evaluates; they all lie in the initial bracket and the reported value is the function's value there; for a unimodal function the result is within tol of the minimum; the search stops, and never does more than maxiterations iterations.", "quantifier": "all functions, brackets, tolerances and iteration limits", "why_tests_cant": "quantifies over all functions", "anchors": ["TooN/optimization/golden_section.h"]}
{"id": "C66", "title": "Brent line search", "statement": "brent_line_search returns the best of all the points it evaluates, all inside the bracket, with at most maxiterations evaluations; a parabolic step on a quadratic goes to its vertex; for a unimodal function, when it stops before maxiterations, the result is within tolerance of the minimum.", "quantifier": "all functions and brackets", "why_tests_cant": "quantifies over all functions", "anchors": ["TooN/optimization/brent.h"]}
{"id": "C67", "title": "Downhill simplex", "statement": "Each stored value is the function's value at its vertex after every step, the best value never increases, the best/worst/second-worst indices are right, a step is exactly the Nelder-Mead step (reflect, expand, contract or shrink) with the stated acceptance rules, and the simplex never collapses.", "quantifier": "all functions, dimensions and iteration histories", "why_tests_cant": "unbounded histories and all functions", "anchors": ["TooN/optimization/downhill_simplex.h"]}
{"id": "C68", "title": "Bracketing a minimum", "statement": "bracket_minimum_forward, when it succeeds, returns a<b<c with f(a)>f(b)<f(c) (what the line searches ask for) and the values it reports are the function's values there; zeros mean no descent down to the minimum size; it ends for every function that eventually rises.", "quantifier": "all functions and start values", "why_tests_cant": "quantifies over all functions, including plateaus and NaN", "anchors": ["TooN/optimization/conjugate_gradient.h:76-176"]}
{"id": "C69", "title": "Conjugate gradient bookkeeping", "statement": "In every reachable state minus_h is the negated search direction, y is f(x), find_next_point never increases y and never stops on a failed assertion, the direction update uses the documented Polak-Ribiere formula and never divides by zero.", "quantifier": "all functions and iteration histories", "why_tests_cant": "unbounded histories", "anchors": ["TooN/optimization/conjugate_gradient.h:322-430"]}
{"id": "C70", "title": "Numerical derivatives", "statement": "Central differences and the Ridders extrapolation are exact on quadratics (the extrapolation on polynomials up to its order), and the differentiation helpers restore the point they perturb.", "quantifier": "all polynomials of the stated degree, points and step sizes", "why_tests_cant": "exactness over all polynomials; state restoration", "anchors": ["TooN/functions/derivatives.h"]}
{"id": "C71", "title": "Numerical Hessian", "statement": "numerical_hessian of a quadratic function returns its Hessian matrix.", "quantifier": "all quadratic functions and dimensions", "why_tests_cant": "a stale perturbation only matters for specific functions and dimension >= 2", "anchors": ["TooN/functions/derivatives.h:406-470"]}
{"id": "C72", "title": "Robust reweighting functions", "statement": "For each robust function the weight, the true scale and the objective are consistent: the objective's derivative with respect to the residual is residual times reweight (times 2 where documented), and true_scale is the derivative of the weighted residual.", "quantifier": "all residuals and scale parameters", "why_tests_cant": "all values", "anchors": ["TooN/irls.h"]}
{"id": "C73", "title": "Equation solvers check operand sizes", "statement": "gaussian_elimination stops with a size-mismatch diagnostic when the matrix is not square or the right-hand side has another number of rows, for vector and matrix right-hand sides, also with Dynamic sizes.", "quantifier": "all run-time sizes", "why_tests_cant": "quantifies over all size combinations; the failing ones corrupt memory or return a plausible vector", "anchors": ["TooN/gaussian_elimination.h:43-89", "TooN/gaussian_elimination.h:105-158"]}
{"id": "C74", "title": "WLS checks operand sizes", "statement": "A measurement, prior or other WLS object whose dimension differs from the system's stops with a size-mismatch diagnostic instead of being accepted or read out of range.", "quantifier": "all run-time sizes (Dynamic)", "why_tests_cant": "The sizes are run-time values; a test samples a few combinations, and reading outside the Jacobian is undefined behaviour that tests may not notice.", "anchors": ["TooN/wls.h: WLS::add_mJ, WLS::add_prior, WLS::operator+="]}
{"id": "C75", "title": "SL group and coercion", "statement": "Products, inverses and the default of SL<N> stay matrices of determinant one, A*A.inverse() is the identity, and constructing an SL from a matrix whose determinant is not zero scales it to determinant one when some multiple of it has determinant one; a singular matrix is rejected.", "quantifier": "all N >= 1 and all N x N matrices", "why_tests_cant": "infinitely many matrices of every size", "anchors": ["TooN/sl.h:SL::inverse", "TooN/sl.h:SL::operator*", "TooN/sl.h:SL::coerce"]}
{"id": "C76", "title": "IRLS accumulation", "statement": "After any sequence of add_mJ calls an IRLS object holds the weighted least squares problem with the weights reweight(m), get_residual() is the sum of objective(m), get_true_C_inv() is determined by the measurements, operator+= of two objects gives what one object given all the measurements holds, and clear() forgets everything.", "quantifier": "all measurement sequences, sizes (static and dynamic) and reweighting classes", "why_tests_cant": "all histories; uninitialised memory can look right in a test", "anchors": ["TooN/irls.h:IRLS::add_mJ", "TooN/irls.h:IRLS::operator+=", "TooN/irls.h:IRLS::clear"]}
{"id": "C77", "title": "3x3 symmetric eigen-decomposition", "statement": "SymEigen<3> of a symmetric matrix returns its eigenvalues in ascending order and matching orthonormal eigenvectors, so that A = V^T diag(e) V, for every symmetric 3x3 matrix including the zero matrix, repeated eigenvalues and small elements.", "quantifier": "all symmetric 3x3 matrices", "why_tests_cant": "the failing matrices (repeated eigenvalue with eigenvector (1,1,1), small norm, one near-degenerate pair, zero) are measure zero or at unusual scales; random tests never hit them", "anchors": ["TooN/SymEigen.h:140-350"]}
{"id": "C78", "title": "Matrix exponential", "statement": "For every square matrix m, exp(m) returns the sum of m^k/k! up to a small multiple of the rounding unit times exp of the norm of m, the loop always ends, and matrices that are not square are rejected; in particular exp(0) is the identity.", "quantifier": "all square matrices of any size and norm, all rounding behaviours of the stopping test", "why_tests_cant": "the series is infinite and the number of terms and squarings depends on the matrix; the zero matrix and huge norms are singular points of the scaling computation", "anchors": ["TooN/helpers.h:289-327"]}
{"id": "C79", "title": "Matrix square root", "statement": "For every square matrix m that has one, sqrt(m) returns a square root Y (Y*Y = m up to the stopping tolerance), the principal one when all eigenvalues are positive; the iteration always ends for such m and matrices that are not square are rejected.", "quantifier": "all diagonalisable matrices with positive eigenvalues of any size, all stopping tolerances; and every matrix in exact arithmetic", "why_tests_cant": "convergence and correctness of the fixed point hold for every spectrum, not for sampled matrices; false fixed points exist only for special spectra", "anchors": ["TooN/helpers.h:329-347"]}
{"id": "C80", "title": "Matrix logarithm", "statement": "For every matrix m that is diagonalisable with positive eigenvalues, log(m) ends and returns the principal logarithm (whose exponential is m) with an error bounded by the stopping tolerances; singular matrices give no finite result and matrices that are not square are rejected.", "quantifier": "all diagonalisable matrices with positive eigenvalues, every size, all tolerances small enough for the conditioning", "why_tests_cant": "number of square roots, series terms and accumulated error depend on the spectrum; a bound must hold for all of them", "anchors": ["TooN/helpers.h:349-381"]}
{"id": "C81", "title": "Golub-Reinsch SVD", "statement": "Constructing GR_SVD from any M x N matrix A ends without undefined behaviour or division by zero and leaves U, V with orthonormal columns (rows, if U is wide) and non-negative singular values with U diag(s) V^T = A up to a multiple of the rounding unit times the norm of A; the singular values do not depend on WANT_U and WANT_V, and a decomposition that did not converge is not presented as one that did.", "quantifier": "all matrices of every size, every rounding behaviour of the negligibility test |x|+anorm==anorm, all four combinations of the flags", "why_tests_cant": "the QR iteration takes matrix-dependent paths (deflation, cancellation of zeros, shifts); no finite set of matrices covers them", "anchors": ["TooN/GR_SVD.h:144-462"]}
{"id": "C82", "title": "Lapack_Cholesky decomposition", "statement": "For a positive definite A, Lapack_Cholesky gives a lower triangular get_L() with positive diagonal and L L^T = A, backsub() solves A x = b (vector or matrix), mahalanobis(v) = v^T A^-1 v, determinant() = det A > 0, get_inverse() is the symmetric inverse and rank() = N; rank() = N exactly for positive definite matrices; only one triangle of A is read (documented: the lower one); positive semidefinite matrices are decomposed and their rank reported; wrong sizes are rejected and compute() forgets the previous matrix.", "quantifier": "all symmetric matrices of every size, all right-hand sides", "why_tests_cant": "definiteness and the place where the factorisation stops depend on all entries; no finite set of matrices covers every size and rank", "anchors": ["TooN/Lapack_Cholesky.h:65-179", "TooN/lapack.h"]}
{"id": "C83", "title": "QR_Lapack decomposition", "statement": "QR_Lapack of any matrix A with at least as many columns as rows gives a square orthogonal get_Q(), an upper triangular get_R() and a permutation get_P() with Q R = A P; without pivoting P is the identity; with pivoting the diagonal of R is sorted by magnitude; get_P() follows its documented convention (column i of A is column P(i) of QR); matrices with more rows than columns are not supported.", "quantifier": "all matrices of every size, with and without pivoting", "why_tests_cant": "the reflections and the pivot order depend on all entries; the permutation convention shows only for permutations that are not involutions", "anchors": ["TooN/QR_Lapack.h:57-173", "TooN/lapack.h"]}
{"id": "C84", "title": "Automatic differentiation (functions/fadbad.h)", "statement": "Computing with Vector/Matrix/SO3/SE3/SO2/SE2 of fadbad::F numbers computes the value and every partial derivative of the same computation: make_fad_vector numbers its elements from start (those that fit); make_fad_* and make_left_fad_*(T, start) stand for mu -> exp(mu) and mu -> exp(mu) T around mu = 0; get_value, get_derivative and get_jacobian read the values and partial derivatives back; the Jacobian of a transformed point is generator_field; too few derivatives are never written out of range.", "quantifier": "all sizes, numbers of derivatives, start offsets, transformations and points; every differentiable function given as operands", "why_tests_cant": "correctness is a statement about derivatives (limits) of arbitrary functions; tests compare a few numbers", "anchors": ["TooN/functions/fadbad.h:46-219", "TooN/so3.h", "TooN/se3.h", "TooN/se2.h", "TooN/so2.h"]}
{"id": "C85", "title": "Rounding errors of vector and matrix arithmetic are bounded for every input", "statement": "For float/double arithmetic in which every operation returns the exact result with a relative error of at most u (no overflow or underflow): v*w of length n differs from the exact dot product by at most ((1+u)^n - 1) sum |v_i w_i|, and is the exact product of vectors perturbed by that relative amount; every entry of A*B, A*v and v*A obeys the same bound; elementwise operators make one rounding per element; norm_sq(v) and norm(v) have relative errors (1+u)^n - 1 and (1+u)^(n+1) - 1 whatever v is; unit(v) and normalize(v) return components with relative error at most (1-u)^-(n+3) - 1 and a vector of length one up to rounding; v*w = w*v, v+w = w+v and (A*B)^T = B^T*A^T hold bit for bit.", "quantifier": "all sizes, all finite inputs, all roundings with relative error at most u (IEEE round-to-nearest double shown to be one)", "why_tests_cant": "an error bound is a statement about all inputs; tests see the errors of the inputs tried", "anchors": ["TooN/internal/operators.hh:139-477", "TooN/helpers.h:97-175"]}
{"id": "C86", "title": "Cholesky decomposition is backward stable in floating point", "statement": "In the same arithmetic: Cholesky of a square matrix always ends; when rank()==n the computed L and D are exact factors of a matrix within gamma |L||D||L|^T of A (elementwise); backsub(v) returns the exact solution of (A+E)x = v with |E| <= gamma' |L||D||L|^T, backsub(M) and get_inverse() the same per column, determinant() the determinant of L D L^T up to n-1 roundings; when D is positive, |L||D||L|^T is at most sqrt(a_ii a_jj) up to rounding; a symmetric matrix that is positive definite with a margin of (n+1) gamma relative to its diagonal always decomposes with positive D.", "quantifier": "all sizes n, all matrices and right-hand sides, all roundings with relative error at most u", "why_tests_cant": "stability holds for every matrix or not at all; the interesting matrices are the ones near breakdown that tests do not contain", "anchors": ["TooN/Cholesky.h:71-239"]}
{"id": "C87", "title": "Weighted least squares in floating point", "statement": "In the same arithmetic, for any sequence of well-sized add_mJ/add_mJ_rows/add_sparse_mJ*/add_prior calls on a WLS<n>: the accumulated matrix and vector differ from the exact ones by at most ((1+u)^k - 1) times the same sums of absolute values (k: roundings per element, counted from the calls); a mu that compute() returns solves normal equations perturbed by that and by the Cholesky backward error, so no other x lowers the weighted sum of squares by more than the stated rounding errors times its distance from mu; compute() succeeds whenever the curvature dominates the rounding errors; the order of the calls, or splitting them over two objects joined by +=, changes the accumulated matrix and vector only by these errors.", "quantifier": "all histories of calls with any data, all n, all roundings with relative error at most u", "why_tests_cant": "histories and data are unbounded, and the bound must hold for all of them", "anchors": ["TooN/wls.h:48-244", "TooN/Cholesky.h:71-160"]}
{"id": "C88", "title": "Gaussian elimination in floating point", "statement": "In the same arithmetic, gaussian_elimination(A, b) on a square system always ends, with a vector or with a division by zero. A returned x is the exact solution of (A+E)x = b, where |E| is at most gamma |L||U| for the (row-permuted) triangular factors computed with partial pivoting, hence at most gamma (1+u)^2 (2(1+u)^4)^n max|A|; its distance from the true solution is at most that times sum|A^-1| sum|x|. A division by zero is possible only if some matrix within these rounding errors of A is singular, so a well-conditioned A always gives a result. gaussian_elimination(A, B) returns, bit for bit and in any arithmetic, the columns that the vector overload returns.", "quantifier": "all sizes n, all matrices and right-hand sides, all roundings with relative error at most u; the columns statement: all scalar types", "why_tests_cant": "the error bound has to hold for every matrix, including the ill-conditioned ones; a finite sample of matrices says nothing about the worst case", "anchors": ["TooN/gaussian_elimination.h:43-158"]}
{"id": "C89", "title": "Determinant in floating point", "statement": "In the same arithmetic, determinant(A) and determinant_gaussian_elimination(A) of a square matrix always return a number d = det(A+E)(1+delta), with |E| at most gamma_n times the growth bound times max|A| elementwise and |delta| <= gamma_2n; hence an explicit bound on |d - det A|; the sign of d is that of det A unless some matrix within these rounding errors of A is singular; for a singular A, |d| is within the rounding errors of 0.", "quantifier": "all sizes n, all square matrices, all roundings with relative error at most u", "why_tests_cant": "the sign and error claims have to hold for every matrix; near-singular matrices are not found by sampling", "anchors": ["TooN/determinant.h:91-185"]}
{"id": "C90", "title": "Named elements and planar complex views", "statement": "A type made by TOON_MAKE_NAMED_ELEMENT_VECTOR compiles exactly for a non-empty list of distinct names and the matching size; member number i is element i: through any chain of slices, as_row/as_col and so on, reading or writing an element of the view is reading or writing the member with that number, a write to one changes no other member. A vector over planar complex data (arrays re and im) reads, through any chain of accepted slices, the complex number made of the same element of both arrays and never outside them; it should work for every complex precision and be writable.", "quantifier": "all name lists, all memories, all chains of view operations, all indices", "why_tests_cant": "the chains of views are unbounded; tests instantiate a few types", "anchors": ["TooN/named_elements.h:48-104", "TooN/internal/planar_complex.hh:35-84", "TooN/internal/vbase.hh:118-243"]}
{"id": "C91", "title": "LU decomposition from construction to results", "statement": "With LAPACK's reference getrf and getri written out: LU(A) of a square matrix always ends and its stored factors multiply to A with the recorded interchanges, multipliers at most 1 in size; get_info() is 0 exactly when A is nonsingular; then backsub(b) solves A x = b and get_inverse() is the two-sided inverse; for singular A backsub divides by zero and get_inverse() returns the stored factors with get_info() nonzero; determinant() is det A in both cases and equals determinant(A); compute() forgets what was decomposed before; a non-square matrix or a wrong size aborts.", "quantifier": "all sizes n, all matrices and right-hand sides over any ordered field", "why_tests_cant": "unit tests check a few matrices; correctness of the factors has to hold for every pivot order and for all singular matrices", "anchors": ["TooN/LU.h:66-221"]}
{"id": "C92", "title": "SL<N>: exp maps parameter vectors to matrices of determinant one, and ln back", "statement": "SL<N>::exp(v) approximates the exponential of the combination of the generators with coefficients v, within an explicit bound in the stopping test's tolerance and the size of v; that exponential has determinant exactly one (the determinant of a matrix exponential is the exponential of the trace), exp((s+t)v) = exp(sv) exp(tv), exp(-v) is the inverse of exp(v), and exp of the zero vector is the identity. The determinant of the returned matrix is one within an explicit bound. exp returns for every non-zero vector whose combination has norm at most 2^30. ln, N <= 3, of a diagonalisable matrix of determinant one with positive eigenvalues returns a vector whose combination is, within an explicit bound, a logarithm of the matrix.", "quantifier": "every N >= 1 (ln: N <= 3), every parameter vector, every real matrix of the stated kind, every stopping test with the stated tolerance", "why_tests_cant": "A statement about real matrix exponentials for every size and every vector; sampling cannot show the determinant identity or the error bound.", "anchors": ["TooN/sl.h: SL::exp, SL::ln, SL::generator", "TooN/helpers.h: exp, log"]}
{"id": "C93", "title": "LU in floating point: stored factors, solutions and determinants belong to a nearby matrix", "statement": "In any arithmetic whose roundings have relative error at most u (no overflow or underflow), constructing an LU of an n x n matrix A always ends, and the stored factors with the recorded interchanges are exactly the factors of A+E with E bounded by the rounding errors, the elements of A and Wilkinson's growth factor; the unit factor is bounded by (1+u)^2. get_info() is nonzero only if a matrix within that distance of A is singular. backsub(b) is non-finite exactly if get_info() is nonzero, and otherwise its result solves exactly a system with a nearby matrix; determinant() is the determinant of A+E up to a factor within n roundings of 1, with the right sign if no matrix within that distance is singular.", "quantifier": "every size n, every matrix of bounded elements, every right-hand side, every rounding function with relative error at most u", "why_tests_cant": "Rounding errors accumulate differently for each matrix and size; tests see some matrices and one tolerance.", "anchors": ["TooN/LU.h: LU::LU, compute, backsub, determinant, get_info"]}
{"id": "C94", "title": "Rotations in floating point: every history of an SO3 object stays near a rotation, and near the right one", "statement": "In any arithmetic whose roundings have relative error at most u, with sine and cosine of absolute error at most s (no overflow or underflow): SO3(w) always succeeds and is within 90u+4s+1e-16 of a true rotation about w's axis (angle off by a relative 4u at most); a product multiplies the distances from rotation by (1+3*fwd(u,3)); inverses add nothing; constructing from a matrix of positive determinant succeeds within 326u times the skewness of its rows and stops at the assertion for negative determinant; SO3(a,b) is within 102u/sin(angle) of the rotation that takes a's direction to b's and fixes their normal; coerce() brings an object that drifted by d <= 1/10 back to within 652u of a rotation without moving it by more than 62d. So for every history of constructions, products, inverses and coerce() the object is near the exact rotation the history stands for, with an explicit bound; such an object preserves lengths, has determinant near one and inverse near its transpose. (SO3(a,b) for nearly parallel double vectors whose cross product does not vanish is not a rotation, nor within 0.3 of one.)", "quantifier": "every rounding function with relative error at most u <= 1/6800, every sine and cosine of error at most s <= 1/1000, every vector, every matrix not too flat, every finite history", "why_tests_cant": "Drift accumulates over unboundedly long histories and worst cases are rare alignments of rounding errors; a test runs some histories.", "anchors": ["TooN/so3.h: SO3 constructors, coerce, exp, rodrigues_so3_exp, operator*, inverse", "TooN/helpers.h: unit"]}
{"id": "C95", "title": "Rigid transforms in floating point: every history of an SE3 object stays near a rigid motion, and near the right one", "statement": "In any arithmetic whose roundings have relative error at most u, with sine and cosine of absolute error at most s (no overflow or underflow): SE3::exp(mu) always succeeds, its rotation is as near as C94 says and its translation is within (110u + 2500s + 2e-9) times the length of the velocity part of where the exact screw motion carries the origin; for every object built from default, exp, (rotation, translation) parts, products, inverses and SO3*SE3, the rotation part is within the accumulated C94 bound, and the translation is within an accumulated bound of the translation of the exact motion it stands for, which grows by a factor (1+rotation error)(1+3((1+u)^3-1)) per operation and in proportion to the total length of the translations; transforming a point adds one more such step. In double, chains up to 1000 deep: translation error at most 1.5e-8 times that length.", "quantifier": "every rounding function with relative error at most u <= 1/6800, every sine and cosine of error at most s <= 1e-6, every vector, every finite history of operations", "why_tests_cant": "Error accumulates over unboundedly long chains of transforms, and the worst velocity for the three series branches of exp lies at no particular test value.", "anchors": ["TooN/se3.h: SE3::exp, operator*, inverse, SE3*Vector<3>, SO3*SE3", "TooN/so3.h"]}
{"id": "C96", "title": "Rotations, rigid motions, similarities and SL matrices written to a stream read back", "statement": "If the text of each number reads back exactly, then an SO2, SO3, SE2, SE3, SIM2, SIM3 or SL<N> object written with operator<< and read with operator>> into any other object is the same object (SIM2 with a negative scale comes back as the same transformation), whatever the field width, and the stream is left at the newline that ended it, so that what follows can be read. If the text has limited precision, the object read is a true rotation to working precision and within 62 times the text error of the one written. Whatever the text holds, a read that returns gives an exact rotation (real arithmetic); at the end of the stream the object is unchanged.", "quantifier": "every object, every prior value of the target, every text format, field width and precision, every stream content", "why_tests_cant": "A test writes and reads some objects; the claim is about every object, every format precision and every following text.", "anchors": ["TooN/so3.h, se3.h, sim3.h, so2.h, se2.h, sim2.h, sl.h: operator<<, operator>>", "TooN/internal/operators.hh: operator<<, operator>>"]}
{"id": "C97", "title": "The logarithm of a rotation in floating point: never fails, right up to half a turn and everywhere accurate", "statement": "With arithmetic whose results have relative error at most u, asin and acos of absolute error at most s and constants as accurate (no overflow or underflow): for every matrix within d of a rotation, SO3::ln returns a vector of length at most about pi; the exact rotation by that vector is within 16(120d+480u+2s) of the rotation; if the rotation is the one by w and w is shorter than pi by more than the error, the result is within 120d+480u+2s of w; closer to half a turn it is that near w or -w. Hence ln(exp(w)) and exp(ln(m)) give back w and m to working precision, also after any history of operations; in double, to 2e-12 for vectors up to 2.9 long.", "quantifier": "every rounding function with relative error at most u <= 1/6800, every asin/acos/sin/cos of error at most s <= 1e-3, every matrix within 1e-3 of a rotation, every history of operations", "why_tests_cant": "The function has three branches, and in the third three columns and a sign to choose from; the choices are made on rounded numbers, so the worst matrix lies next to each of the boundaries, which no finite set of tests visits.", "anchors": ["TooN/so3.h: SO3::ln, SO3::exp"]}
{"id": "C98", "title": "The logarithm of a rigid motion in floating point: exp undoes it and it undoes exp", "statement": "With arithmetic whose results have relative error at most u, sine, cosine, asin and acos of absolute error at most s, a sine that also has relative error at most s (no overflow or underflow): for every SE3 whose rotation is within d of a true rotation, SE3::ln returns a velocity whose exact screw motion has a rotation within 16 times the error of C97 of the given one and carries the origin to within (600u+30s+6e-11) times the translation's length of the given translation. If the transform is within known bounds of the screw motion by (v,w), w shorter than half a turn by more than the error, then the result is near (v,w), with a bound in proportion to the translation. Hence ln(exp(mu)) and exp(ln(T)) give back mu and T, also after any history of operations; in double, angles to 3e-12 for rotations up to 2.9, translations to 7e-9 of their length.", "quantifier": "every rounding function with relative error at most u <= 1/6800, every library sine etc. of error at most s <= 1e-6, every transform whose rotation part is within 1e-3 of a rotation, every velocity, every history of operations", "why_tests_cant": "The coefficients cancel at small angles, the code switches formulas at 1e-5 and 1e-3 on rounded angles, and the inverse of the translation's matrix is worst conditioned near half a turn; a test visits some angles.", "anchors": ["TooN/se3.h: SE3::ln, SE3::exp", "TooN/so3.h: SO3::ln, SO3::exp"]}
{"id": "C99", "title": "Rotations of the plane in floating point: every history of an SO2 object stays near a rotation, the right one, and ln reads its angle", "statement": "With arithmetic whose results have relative error at most u, sine, cosine and atan2 of absolute error at most s (no overflow or underflow): SO2(t) is within 2s of the rotation by t; a product multiplies the distances from rotation by (1+3*fwd(u,3)); inverses add nothing; an SO2 from a matrix of positive determinant is within 20212u times the skewness of its rows (plus 652u) of what exact orthonormalisation gives and within 652u of a rotation; coerce() brings an object that drifted by d <= 1/10 back to within 652u of a rotation without moving it by more than 62d. So every history is near the exact rotation it stands for, with an explicit bound. ln never fails, its result is at most pi+s, is an angle of a rotation within 2d+2s of any rotation that is within d, and is within 2d+s of the angle if that is less than pi by more than 2d; hence ln(exp(t)) and exp(ln(m)) give back t and m, also after any history. In double: ln(exp(t)) to 3e-15 for |t| <= 2.99.", "quantifier": "every rounding function with relative error at most u <= 1/6800, every sine, cosine and atan2 of error at most s, every matrix not too flat, every angle, every finite history", "why_tests_cant": "Drift accumulates over unboundedly long histories, and the angle jumps at half a turn; a test runs some histories and angles.", "anchors": ["TooN/so2.h: SO2 constructors, coerce, exp, ln, operator*, inverse", "TooN/helpers.h: unit"]}
{"id": "C100", "title": "Rigid motions of the plane in floating point: every history of an SE2 object stays near the right motion, exp and ln undo each other", "statement": "With arithmetic whose results have relative error at most u, sine, cosine and atan2 of absolute error at most s, a sine that also has relative error at most s (no overflow or underflow): SE2::exp always succeeds, its rotation is within 2s and its translation within (20u+2100s+2e-9) times the velocity of those of the exact motion; for every object built from default, exp, (rotation, translation) parts, products, inverses and SO2*SE2, rotation and translation are within accumulated bounds of those of the exact motion it stands for, in proportion to the total length of the translations; transforming a point adds one more step. SE2::ln of any object whose rotation is within 1/4 of a true one succeeds, and the exact motion by the result has a rotation within 2d+2s of the given one and carries the origin to within (50u+20s+3e-11) times the translation; it is near the velocity the object is the motion of if that turns less than half a turn. Hence ln(exp(mu)) and exp(ln(T)) give back mu and T, also after any history. In double, chains up to 1000 deep: translation error at most 1.5e-8 times the total length; round trips to 5e-9.", "quantifier": "every rounding function with relative error at most u <= 1/6800, every sine, cosine and atan2 of error at most s <= 1e-6, every velocity, every finite history of operations", "why_tests_cant": "Error accumulates over unboundedly long chains, and the worst velocity for the three branches of exp and the two of ln lies at no particular test value.", "anchors": ["TooN/se2.h: SE2::exp, SE2::ln, operator*, inverse, SE2*Vector<2>, SO2*SE2", "TooN/so2.h"]}
{"id": "C101", "title": "Eigen-decomposition of a symmetric 2x2 matrix in floating point: accurate eigenvalues, orthonormal rows, eigenvectors of the right eigenvalue", "statement": "With arithmetic and square root whose results have relative error at most u (no overflow or underflow), for every 2x2 matrix of size S (root of the sum of squares): SymEigen never fails, its rows are exactly orthogonal and of length one within 5.2u; each eigenvalue is within 2*sqrt(u)*S, and within 12u*S*S divided by their distance, of the exact one; their sum is within 5u*S of the trace; they are in ascending order if rounding is monotonic. Each row v with eigenvalue e has |Av-ev| at most 16u*S*S/|m01|+31u*S, and at most 30*sqrt(u)*S when m[1][1] <= m[0][0]. (For diagonal matrices with m[0][0] < m[1][1] one rounding error exchanges the eigenvectors: for diag(1, 2+2^-25) in double the row that belongs to 1 is (0,-1), and the result is the exact decomposition of a matrix near diag(2,1).)", "quantifier": "every rounding function with relative error at most u <= 1/6800, every 2x2 matrix, every exact eigen-decomposition of it", "why_tests_cant": "The worst matrices are nearly multiples of the identity or nearly diagonal, where the discriminant cancels; tests use round numbers, for which the arithmetic is exact.", "anchors": ["TooN/SymEigen.h: ComputeSymEigen<2>::compute, SymEigen<2>"]}
{"id": "C102", "title": "QR.h in floating point: backward stable where the reflected columns are steep, and only there", "statement": "With every operation rounded (relative error u, square root correctly rounded), QR(A) of a matrix with at most as many rows as columns gives get_R() exactly upper triangular with exact zeros, or fails by a division by zero. If at each of the steps the part below the diagonal of the column being reduced is at least s times as long as the diagonal element and that part together, the call succeeds, get_Q() is within ((1+e)^(n-1)-1) per row of an orthogonal matrix V, and V*get_R() is within that relative error of A in every column, e = 72((1+u)^(n+2)-1)/s^2; so get_Q()*get_R() is near A and the rows of get_Q() are nearly orthonormal; in double, for up to 100 rows and s = 1/100, to 2e-6. With two rows the condition is on the first column of A alone. It is needed: the sign chosen for |x| makes |x| - x_0 cancel; for the doubles 1 0; 3*2^-27 1 an element of get_Q() is about -1.25, and for 1 0; 2^-27 1 the result is not finite.", "quantifier": "every rounding with relative error at most u; every matrix size with rows <= cols, every matrix of reals that meets the condition on its columns", "why_tests_cant": "Tests use matrices with generic columns; the error grows with how nearly reduced a column already is, and rounding errors of one step feed the next.", "anchors": ["TooN/QR.h: QR, compute, pre_multiply_by_householder, get_Q, get_R"]}
{"id": "C103", "title": "Golden section search in floating point: it ends, returns the best probe, and keeps the minimum unless a probe is repeated", "statement": "With every operation rounded by a monotone rounding of relative error u <= 1/1000 (doubles: the rounding to nearest): whatever the function returns, golden_section_search returns the best of b and all the points where it called the function, with the function's value there, and never calls it outside [a, c]. It ends if the bracket does not contain zero and tol >= 100u. If the function is unimodal and no point was evaluated twice (b counting as one evaluation), the result is within 2.01*tol*max(|a|,|c|) of the minimum. (With a repeated point the minimum can be lost: for the doubles a = 1, b = 1+2^-52, c = 2 and |x-1.1| the answer is b for every tol from 2^-52 to 1/10. With tol <= 2^-54 there is a bracket on which it never ends, for every function and maxiterations.)", "quantifier": "every function of one variable, every monotone rounding of relative error at most 1/1000, every bracket, tolerance and number of steps", "why_tests_cant": "The order of the four points and the bracketing invariant have to survive every rounding in every step; when they fail it is for brackets a few roundings wide, and an endless loop is never observed.", "anchors": ["TooN/optimization/golden_section.h: golden_section_search"]}
{"id": "C104", "title": "Brent's line search in floating point: it stays in the bracket, returns the best probe, and keeps the minimum unless a probe is repeated", "statement": "With every operation rounded by a monotone rounding of relative error u <= 1/1000 (doubles: the rounding to nearest): whatever the function returns, brent_line_search calls it at most maxiterations times, never outside [a, b], and returns the best of the start point and of all those points with the function's value there; its three remembered points are always probes with their values, the returned one the best of them. If the function is unimodal, no point was evaluated twice (the start counts) and fewer than maxiterations calls were made, the result is within 2.01*tolerance*max(|a|,|b|)+1.01*epsilon of the minimum. (Without rounding, which is a rounding too, C66 shows that the condition on repeated points is needed.)", "quantifier": "every function of one variable, every monotone rounding of relative error at most 1/1000, every bracket, start, tolerance and number of iterations", "why_tests_cant": "The parabolic step divides by a difference that rounding may make tiny, zero or of the wrong sign; what it may not do is leave the bracket or lose the best value, in any iteration.", "anchors": ["TooN/optimization/brent.h: brent_line_search"]}
{"id": "C105", "title": "Downhill simplex in floating point: the best value never gets worse whatever is rounded, each step is a Nelder-Mead step to rounding error", "statement": "Whatever function of one number stands for the rounding (no accuracy assumed), for every function minimised, dimension, start, spread and history of iterate, find_next_point, restart and parameter changes: find_next_point never fails, each stored value is the function at the stored vertex, the best value is never above the function at the first start and never rises in a step or restart. If each operation has relative error at most u: a step takes the Nelder-Mead decisions on the stored values, and the reflected, contracted and expanded points are within ((1+u)^(n+8)-1) times the sizes of what they are computed from of the exact ones, shrunk vertices within (1+u)^3-1; finished() is the exact stopping test with both sides changed by at most 2n+4 roundings. (Unlike the exact simplex it can collapse: in double with one variable, start 1, spread 2^-52 and |x-1| both vertices are equal after one step.)", "quantifier": "every function of any number of variables, every rounding function, every finite history of operations", "why_tests_cant": "The optimiser runs until it is stopped; a rounding that once lost the best vertex or its value would show only in the long run, for some function.", "anchors": ["TooN/optimization/downhill_simplex.h: DownhillSimplex, find_next_point, iterate, restart, finished"]}
{"id": "C106", "title": "Gauss-Jordan reduction in floating point: the left block is exactly the identity, columns are reduced independently, and each column is exact on a nearby matrix", "statement": "In any arithmetic, rounded or not, gauss_jordan on an n x (n+q) matrix either divides by zero or leaves exactly the identity in the left block, and each augmented column of the result is bit for bit what reducing it alone (or among any others) gives. With rounded arithmetic the reduction fails exactly when at some column all computed elements on and below the diagonal are 0; otherwise each column is the exact row operations, with the largest element as pivot, on a matrix that differs from the computed one by u|m_rc| + ((1+u)^3-1)|multiplier m_pc|, and the residual b - A x of each returned column is bounded by (1+G)^n ((1+u)^2-1 + n(u + G((1+u)^3-1))) M (1 + sum |x_j|) when no multiplier exceeds G and no number M.", "quantifier": "all n, q, all matrices, all roundings with relative error at most u (or arbitrary arithmetic for the first two claims)", "why_tests_cant": "tests see a few matrices and compare with a tolerance; the exactness of the left block and the independence of columns are claims about every input and every rounding, and the residual bound is about all of them at once", "anchors": ["TooN/gauss_jordan.h:48-112 gauss_jordan"]}
{"id": "C107", "title": "Conjugate gradient and bracketing in floating point: y is exactly f(x) and never rises, asserts fail only on a plateau, iterate never divides by zero, and bracketing gives a strict bracket unless NaN ends it", "statement": "With every operation rounded (any monotone, symmetric rounding with relative error at most 1/1000) bracket_minimum_forward on a function without NaN returns either zeros or 0 <= a < b < c with f(b) <= f(a), f(b) < f(c), f(b) below the start value, and the function's own values; it ends for every function that rises from some point on. find_next_point stores exactly the value of the function at the point it stores, never above the old one, and a moved point is x - t h to two roundings per coordinate; over every history of iterate() the value never rises, a loop while(iterate) makes at most 100 n + 1 calls, and iterate never divides by zero. The asserts in find_next_point fail only when the computed function is equal at t and at 2t. When NaN ends the search c >= b, but c = b is possible in double (1, 1), where without rounding the search would run for ever: the three points are then not a bracket.", "quantifier": "all functions of any number of variables, all start points, all monotone symmetric roundings, all histories of iterate()", "why_tests_cant": "tests minimise a few functions from a few starts; that the stored value is the value at the stored point to the last bit, that it never rises and that no rounding opens a bracket are claims about every function, every rounding and every history", "anchors": ["TooN/optimization/conjugate_gradient.h:76-176 bracket_minimum_forward", "TooN/optimization/conjugate_gradient.h:214-430 ConjugateGradient"]}
{"id": "C108", "title": "Projective coordinates and the 2x2 inverse in floating point: project is correctly rounded and undoes unproject exactly; inv is the adjugate over a nearby determinant, accurate unless the determinant is lost", "statement": "With every operation rounded, project divides each coordinate with one rounding and fails exactly when the last coordinate is 0, and project(unproject(v)) is v, bit for bit, for every v. inv of a 2x2 matrix fails exactly when the two products of its determinant round to the same number; otherwise each entry is that of the adjugate over the determinant of a matrix with one rounding in each entry of the first column, to three more roundings; inv(m)*m differs from the identity by at most 2((1-u)^-3-1) times the sizes of the products summed over that determinant; and when |det| > s = u(|ad|+|bc|) it succeeds with relative error (1+s/(|det|-s))(1-u)^-3 - 1 in each entry. In double an invertible matrix (determinant 2^-104) is refused.", "quantifier": "all vectors and all 2x2 matrices, all roundings with relative error at most u", "why_tests_cant": "tests try a few well-conditioned matrices with a tolerance; the exact failure condition and error bounds in terms of the conditioning of the determinant are claims about every matrix and every rounding", "anchors": ["TooN/helpers.h:65-73 inv", "TooN/helpers.h:182-199 project, unproject"]}
{"id": "C109", "title": "Robust weights in floating point: each weight is positive and accurate to a few roundings, never larger for a larger error, the same for either sign, and RobustIII's is at most 1", "statement": "With every operation rounded and sigma > 0, reweight never divides by zero in RobustI, RobustII and RobustIII and returns a positive weight with relative error at most (1-u)^-k - 1 for k = 2, 3 and 10; RobustI's true_scale is within 2((1-u)^-7 - 1) times the weight of its exact value; RobustIII's objective (x^2 / (2 (1 + x^2/sigma^2))) has relative error at most (1-u)^-7 - 1. When rounding is monotone, an error of larger absolute value never gets a larger weight, in any of the three; the sign of the error does not matter; and if 1 rounds to itself RobustIII never returns more than 1, and exactly 1 at error 0. The logarithms of the other objectives are not modelled in floating point.", "quantifier": "all errors, all sigma > 0, all roundings with relative error at most u", "why_tests_cant": "tests evaluate the weights at a few errors; error bounds and monotonicity under rounding are claims about every pair of errors", "anchors": ["TooN/irls.h:41-66 RobustI, RobustII", "TooN/irls.h:82-103 RobustIII"]}
{"id": "C110", "title": "Vector and matrix norms in floating point: norm_inf of a vector is exact, norm_1, the matrix norms and norm_fro have a small relative error whatever the elements, and signs do not matter", "statement": "With every operation rounded (relative error at most u), norm_1 of a vector of n elements is within ((1+u)^n - 1) times its exact value, and is 0 exactly for the zero vector; norm_inf of a non-empty vector is exactly the largest absolute value; norm_inf of an R by C matrix is within ((1+u)^C - 1) times the largest absolute row sum and norm_1 within ((1+u)^R - 1) times the largest absolute column sum; norm_fro is within ((1+u)^(RC+2) - 1) times the exact value. None of them fails. Bit for bit, whatever the rounding, norm_1 of a matrix is norm_inf of its transpose and changing the sign of every element changes no norm.", "quantifier": "all vectors and matrices of every size, all roundings with relative error at most u", "why_tests_cant": "tests compare a few norms with a tolerance; error bounds in terms of the size and the bit-for-bit equalities are claims about every vector, matrix and rounding", "anchors": ["TooN/helpers.h:114-136 norm_1, norm_inf", "TooN/helpers.h:240-285 norm_fro, norm_inf, norm_1"]}
