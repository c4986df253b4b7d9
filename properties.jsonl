{"id": "C01", "title": "dense() returns the matrix a structured object stands for", "statement": "For every well-formed matrix object (Zero, Dense, Diagonal, Constant, Lower/UpperTriangular, LowRank, Woodbury, Kronecker, arbitrarily nested), B.dense(M) returns a numeric array of shape B.shape(M) whose entries are the mathematical entries of M: left*middle*right^T for LowRank, diag+lr for Woodbury, the Kronecker product for Kronecker, and so on, for every batch element with NumPy broadcasting of the factors' batch shapes.", "quantifier": "all well-formed matrices, all nestings, all batch shapes, all entries", "why_tests_cant": "nesting depth, sizes and batch shapes are unbounded; a test fixes a handful of them", "anchors": ["matrix/ops/dense.py:dense", "matrix/ops/matmul.py:matmul", "matrix/ops/algorithms/align.py:align_batch"]}
{"id": "C02", "title": "shape, shape_batch, shape_matrix and rank agree with the dense array", "statement": "B.shape(M), B.shape_batch(M), B.shape_matrix(M) and B.rank(M) never raise on a well-formed M and are exactly the shape, leading axes, last two axes and rank of B.dense(M).", "quantifier": "all well-formed matrices", "why_tests_cant": "the shapes are computed by separate code paths for every type and combine by broadcasting over unbounded nesting", "anchors": ["matrix/ops/shape.py:shape", "matrix/ops/shape_batch.py:shape_batch", "matrix/ops/shape_matrix.py:shape_matrix", "matrix/ops/rank.py:rank"]}
{"id": "C03", "title": "Addition is entrywise addition for every pair of types", "statement": "For operands with broadcast-compatible shapes (and no structured operand stretched, see C42), B.add(A, B) returns a matrix C with shape the NumPy broadcast of both shapes and dense(C) = dense(A) + dense(B), whatever the two structured types are and whatever the dispatch route is.", "quantifier": "all ordered pairs of matrix types incl. numerics and scalars, all sizes and batch shapes, all entries", "why_tests_cant": "100+ type pairs times unbounded shapes and nestings, several recursive routes", "anchors": ["matrix/ops/add.py:add", "matrix/ops/algorithms/align.py:align"]}
{"id": "C04", "title": "Multiplication is entrywise multiplication for every pair of types", "statement": "For operands with broadcast-compatible shapes under the documented side conditions, B.multiply(A, B) returns C with the broadcast shape and dense(C) = dense(A) * dense(B) entrywise, for every pair of types.", "quantifier": "all ordered pairs of matrix types incl. numerics and scalars, all sizes, batch shapes and entries", "why_tests_cant": "same as C03", "anchors": ["matrix/ops/multiply.py:multiply"]}
{"id": "C05", "title": "Matrix multiplication is the matrix product for every pair of types and transposition flags", "statement": "For operands whose inner dimensions agree, B.matmul(A, B, tr_a, tr_b) returns C of shape (rows, cols) with broadcast batch and dense(C) = op(dense(A)) @ op(dense(B)), for every pair of types and all four flag combinations.", "quantifier": "all ordered pairs of matrix types, the four transposition flags, all sizes and batch shapes, all entries", "why_tests_cant": "same as C03; the Kronecker route reshapes and picks an order by cost", "anchors": ["matrix/ops/matmul.py:matmul"]}
{"id": "C06", "title": "The three-factor product does not depend on the association chosen by cost", "statement": "B.matmul(a, b, c, tr_a, tr_b, tr_c) returns the product of the three (transposed) factors whichever of the two associations the cost comparison selects.", "quantifier": "all composable triples, all flags", "why_tests_cant": "the branch depends on all six dimensions", "anchors": ["matrix/ops/matmul.py:matmul (three arguments)"]}
{"id": "C07", "title": "Transposition is correct and involutive", "statement": "B.transpose(M) has swapped matrix shape, same batch shape, entries (i,j) equal to (j,i) of M, keeps the structured type (Lower/UpperTriangular swapped), and transposing twice gives back a matrix with the same entries.", "quantifier": "all well-formed matrices", "why_tests_cant": "nesting and sizes unbounded", "anchors": ["matrix/ops/transpose.py:transpose"]}
{"id": "C08", "title": "Negation and subtraction", "statement": "B.negative(M) has the type, shape and batch of M and negated entries; B.subtract(A, B) has entries dense(A) - dense(B).", "quantifier": "all well-formed matrices / pairs", "why_tests_cant": "nesting and type pairs unbounded", "anchors": ["matrix/ops/negative.py:negative", "matrix/ops/subtract.py:subtract"]}
{"id": "C09", "title": "Sums over rows, columns, batch axes and everything", "statement": "B.sum(M, axis) equals the sum of the dense array over that axis (positive or negative axis numbers, None for everything), without building it for structured types.", "quantifier": "all well-formed matrices and all valid axes", "why_tests_cant": "each type has four separate formulas; broadcasting of factor batches interacts with summation", "anchors": ["matrix/ops/sum.py:sum"]}
{"id": "C10", "title": "Diagonals and traces", "statement": "B.diag(M) is the vector of the entries (i,i), i < min(rows, cols), for every batch element; B.trace(M) is their sum.  For Kronecker products this needs a square right factor.", "quantifier": "all well-formed matrices", "why_tests_cant": "sizes and nesting unbounded", "anchors": ["matrix/ops/diag.py:diag", "matrix/ops/diag_extract.py:diag_extract", "matrix/ops/trace.py:trace"]}
{"id": "C11", "title": "Operations preserve structure where they promise to", "statement": "Diagonal+Diagonal, Diagonal*anything and Diagonal@Diagonal are Diagonal; Constant with Constant gives Constant; LowRank@anything (not Zero, Woodbury) is LowRank; LowRank+Diagonal is Woodbury; Kronecker@Kronecker is Kronecker; triangular@triangular of one kind keeps the kind; Zero absorbs products and is neutral for sums; more generally the classes of all sums, products and matrix products are those of the tables addt, mult, mmt.", "quantifier": "all operands of the named types", "why_tests_cant": "must hold for all values, not for the tested ones: e.g. the LowRank+LowRank result may collapse to Zero", "anchors": ["matrix/ops/add.py", "matrix/ops/multiply.py", "matrix/ops/matmul.py"]}
{"id": "C12", "title": "Triangular types never lie", "statement": "Every LowerTriangular (UpperTriangular) object produced by add, multiply, matmul, transpose, negative, broadcast, take, submatrix (increasing indices) from well-formed operands has only zeros strictly above (below) the diagonal.", "quantifier": "all well-formed operands", "why_tests_cant": "a violated invariant silently corrupts later solves and log-determinants", "anchors": ["matrix/triangular.py", "matrix/ops/add.py", "matrix/ops/multiply.py", "matrix/ops/matmul.py"]}
{"id": "C13", "title": "Dispatch is total and unambiguous", "statement": "For add, subtract, multiply, divide, matmul, matmul_diag, kron, solve, ratio, iqf and iqf_diag, every ordered pair of matrix types resolves to exactly one method: an accepting method that no other accepting method beats in specificity, or the one with the strictly largest precedence among those (no AmbiguousLookupError, no NotFoundLookupError), except that matmul has no method for TiledBlocks with Dense or TiledBlocks. cholesky_solve has a method exactly when the first operand is Diagonal, LowerTriangular or UpperTriangular or both are Kronecker, and triangular_solve exactly when the first operand is LowerTriangular or UpperTriangular; all other pairs raise NotFoundLookupError.", "quantifier": "all ordered pairs of the ten matrix types for every binary operation", "why_tests_cant": "resolution depends on the whole method table, on precedences and on redirects at import time", "anchors": ["matrix/util.py:redirect", "matrix/ops/add.py:_reverse_call", "matrix/ops/matmul.py", "matrix/ops/multiply.py", "matrix/ops/solve.py", "matrix/ops/cholesky_solve.py", "matrix/ops/triangular_solve.py", "matrix/ops/kron.py", "matrix/ops/divide.py", "matrix/ops/ratio.py"]}
{"id": "C14", "title": "ToDenseWarning discipline", "statement": "add, multiply and matmul of unstructured operands (Dense and numeric arrays) never emit a ToDenseWarning; if add or matmul of two structured matrices, or multiply of matrices of which one is structured and not Constant, returns a Dense, then a ToDenseWarning was emitted (the one exception is LowerTriangular + UpperTriangular, which is silent).", "quantifier": "all operands", "why_tests_cant": "universal negative claim", "anchors": ["matrix/util.py:ToDenseWarning", "matrix/matrix.py:structured", "matrix/ops/add.py", "matrix/ops/multiply.py"]}
{"id": "C15", "title": "Shape broadcasting is NumPy's rule", "statement": "expand_and_broadcast returns the NumPy broadcast of the shapes and raises RuntimeError exactly when they are not broadcastable; it is commutative, associative and idempotent; compatible/assert_compatible decide exactly broadcastability; broadcast additionally requires equal ranks.", "quantifier": "all shapes of all ranks, any number of arguments", "why_tests_cant": "shapes and ranks unbounded", "anchors": ["matrix/shape.py:expand_and_broadcast", "matrix/shape.py:broadcast", "matrix/shape.py:compatible"]}
{"id": "C16", "title": "broadcast_to and broadcast_batch_to are faithful", "statement": "B.broadcast_batch_to(M, *batch) keeps type, matrix shape and entries (read by broadcasting) for every broadcastable batch; B.broadcast_to(M, *shape) returns a matrix of exactly that shape with the broadcast entries.", "quantifier": "all well-formed matrices and target shapes", "why_tests_cant": "unbounded ranks", "anchors": ["matrix/ops/broadcast_batch_to.py:broadcast_batch_to", "matrix/ops/broadcast_to.py:broadcast_to"]}
{"id": "C17", "title": "Constructors validate their arguments", "statement": "LowRank(left, right, middle) succeeds exactly when all factors have rank >= 2 and the inner dimensions agree, and raises AssertionError otherwise; Diagonal, triangular and Zero/Constant constructors reject tensors of too low rank; a missing right factor means the left one and a missing middle factor means the identity.", "quantifier": "all argument combinations", "why_tests_cant": "unbounded shapes", "anchors": ["matrix/lowrank.py:LowRank", "matrix/diagonal.py:Diagonal", "matrix/triangular.py", "matrix/constant.py", "matrix/woodbury.py:Woodbury"]}
{"id": "C18", "title": "Column alignment is a valid join", "statement": "align(a, b) returns four index lists of one length; every column of a and of b is used exactly once, unmatched entries point at the zero pad column, and matched pairs are (approximately) equal columns; it terminates after at most ncols(a)+ncols(b) steps.", "quantifier": "all pairs of matrices with equal (or broadcastable) row numbers", "why_tests_cant": "loop over data-dependent sorted order", "anchors": ["matrix/ops/algorithms/align.py:align"]}
{"id": "C19", "title": "Adding low-rank matrices shares common columns and keeps the sum", "statement": "B.add(LowRank, LowRank) returns the LowRank whose outer factors are the two column sets joined along a valid alignment and whose middle is the correspondingly joined sum of the middles, or Zero if and only if the entries of that middle are on average below 1e-10 in absolute value. If columns within the tolerance of each other are equal, these factors represent the exact sum; the factor widths are at most the sum of both widths, and equal to the common width if the outer factors agree.", "quantifier": "all low-rank pairs of compatible shapes; exactness for pairs whose close columns are equal", "why_tests_cant": "data-dependent control flow", "anchors": ["matrix/ops/add.py:add(LowRank, LowRank)", "matrix/ops/algorithms/align.py:align"]}
{"id": "C20", "title": "Numerics and scalars mix with matrices", "statement": "For a scalar x, M + x, M * x, M - x, M / x act entrywise (also for x = 0, which becomes a Zero); for a numeric array of rank >= 2 they behave as with Dense.", "quantifier": "all matrices, all scalars and arrays", "why_tests_cant": "special case 0 and the promotion rules", "anchors": ["matrix/promote.py:convert", "matrix/matrix.py:AbstractMatrix"]}
{"id": "C21", "title": "Division, absolute value, square root and power are entrywise", "statement": "B.divide, B.abs, B.sqrt, B.power act entrywise on the dense entries (division by a non-zero Constant keeps structure; sqrt needs nonnegative entries; power needs a positive exponent for types with implicit zeros).", "quantifier": "all well-formed matrices", "why_tests_cant": "structured shortcuts are only valid because f(0)=0 and f(xy)=f(x)f(y)", "anchors": ["matrix/ops/divide.py", "matrix/ops/abs.py", "matrix/ops/sqrt.py", "matrix/ops/power.py"]}
{"id": "C22", "title": "take and submatrix select the named rows and columns", "statement": "B.take(M, indices_or_mask, axis) and B.submatrix(M, indices_or_mask) return the entries the same indexing returns on the dense array (for Diagonal submatrices: distinct indices).", "quantifier": "all well-formed matrices, index lists and masks, all axes", "why_tests_cant": "unbounded index lists; each type has its own shortcut", "anchors": ["matrix/ops/take.py:take", "matrix/ops/submatrix.py:submatrix"]}
{"id": "C23", "title": "kron, tile, mean, concat, reshape", "statement": "B.kron(A, B) has the entries of the Kronecker product; B.tile, B.mean, B.concat, B.reshape agree with the same operation on the dense arrays.", "quantifier": "all well-formed matrices", "why_tests_cant": "unbounded shapes", "anchors": ["matrix/ops/kron.py", "matrix/ops/tile.py", "matrix/ops/mean.py", "matrix/ops/concat.py", "matrix/ops/reshape.py"]}
{"id": "C24", "title": "block and block_diag assemble the right matrix", "statement": "B.block(rows...) and B.block_diag(blocks...) return a matrix with the entries of the grid (zeros off the block diagonal), and the structure-preserving shortcuts (all Zero, diagonal grid) give the same entries as the dense concatenation.", "quantifier": "all grids of aligned blocks", "why_tests_cant": "number of blocks unbounded", "anchors": ["matrix/ops/block.py:block", "matrix/ops/block_diag.py:block_diag"]}
{"id": "C25", "title": "Inverses", "statement": "B.inv(M) @ M = M @ B.inv(M) = identity for invertible Dense, Diagonal, Kronecker and Woodbury matrices; the Woodbury case is the matrix inversion lemma and holds whenever diag, middle and the Schur complement are invertible.", "quantifier": "all invertible matrices of the named types, all sizes", "why_tests_cant": "algebraic identity over all matrices", "anchors": ["matrix/ops/inv.py:inv", "matrix/ops/pd_inv.py:pd_inv", "matrix/ops/schur.py:schur"]}
{"id": "C26", "title": "schur and pd_schur compute the same complement", "statement": "For positive-definite middle factors B.schur(W) and B.pd_schur(W) both return inv(middle) + right^T inv(diag) left, so the shared cache attribute is sound in either order of calls.", "quantifier": "all Woodbury matrices, all call orders", "why_tests_cant": "shared mutable cache", "anchors": ["matrix/ops/schur.py", "matrix/ops/pd_schur.py"]}
{"id": "C27", "title": "Cholesky factors multiply back", "statement": "L = B.cholesky(M) satisfies L @ L^T = M for positive (semi-)definite Zero, Dense, Diagonal, Constant, LowRank (left = right), Woodbury and Kronecker matrices.", "quantifier": "all such matrices", "why_tests_cant": "algebraic identity over all matrices", "anchors": ["matrix/ops/cholesky.py:cholesky"]}
{"id": "C28", "title": "Solves", "statement": "X = B.solve(A, B) satisfies A @ X = B for invertible Diagonal, triangular, Woodbury and Dense A; B.cholesky_solve(L, B) solves (L L^T) X = B; B.triangular_solve ignores the flag and solves.", "quantifier": "all invertible A and all B with matching rows", "why_tests_cant": "algebraic identity over all matrices", "anchors": ["matrix/ops/solve.py:solve", "matrix/ops/cholesky_solve.py:cholesky_solve", "matrix/ops/triangular_solve.py:triangular_solve"]}
{"id": "C29", "title": "Log-determinants", "statement": "exp of B.logdet(M) is det(M) for positive-definite Dense, Diagonal, triangular, Kronecker and Woodbury matrices (matrix determinant lemma).", "quantifier": "all positive-definite matrices of the named types", "why_tests_cant": "algebraic identity over all sizes", "anchors": ["matrix/ops/logdet.py:logdet"]}
{"id": "C30", "title": "Quadratic forms and ratios", "statement": "B.iqf(a, b, c) = b^T a^-1 c, B.iqf_diag(a, b, c) is its diagonal, B.ratio(a, b) = trace(b^-1 a).", "quantifier": "all positive-definite a, all b, c", "why_tests_cant": "algebraic identity over all sizes and types", "anchors": ["matrix/ops/iqf.py:iqf", "matrix/ops/iqf_diag.py:iqf_diag", "matrix/ops/ratio.py:ratio"]}
{"id": "C31", "title": "Square roots", "statement": "R = B.root(M) satisfies R @ R = M (positive-definite M; Constant, Diagonal, Kronecker without densification).", "quantifier": "all such matrices", "why_tests_cant": "algebraic identity over all sizes", "anchors": ["matrix/ops/root.py:root"]}
{"id": "C32", "title": "Sampling transforms noise by a covariance factor", "statement": "B.sample(state, M, num) returns L @ noise with L L^T = M, and for Woodbury a sum of two independently drawn parts whose factors' Gram matrices add up to M; the random state is threaded through all draws (no noise block is used twice).", "quantifier": "all covariance matrices, all states", "why_tests_cant": "distributional claim reduced to an algebraic one for all inputs", "anchors": ["matrix/ops/sample.py:sample"]}
{"id": "C33", "title": "Caches are transparent", "statement": "After any history of calls (dense, cholesky, schur, pd_schur, on their own or inside other calls, on any objects), every operation returns what it would return, and raises what it would raise, on fresh objects with empty caches; for schur, pd_schur and what uses them (inv, pd_inv, solve, logdet, iqf, iqf_diag, ratio) provided B.schur and B.pd_schur have not both been used on the same object, because the two share one slot (without this proviso the claim is false).", "quantifier": "all histories of calls", "why_tests_cant": "histories unbounded", "anchors": ["matrix/ops/dense.py", "matrix/ops/cholesky.py", "matrix/ops/schur.py", "matrix/ops/pd_schur.py"]}
{"id": "C34", "title": "TiledBlocks is the concatenation of the repeated blocks", "statement": "For blocks whose lengths agree along the other matrix axis (batch axes may broadcast): B.dense(TiledBlocks) is the concatenation along axis of every block repeated rep times, B.shape agrees with it, transposition swaps the axis, casting only changes the data type, concatenating TiledBlocks along their own axis concatenates the block lists without a warning (along another axis: the dense concatenation), and block_diag puts every repeated block on the diagonal. Known exceptions, each with a counterexample theorem: B.shape also broadcasts the other matrix axis where B.dense raises, and B.dense returns a matrix object if a block is one.", "quantifier": "all block lists, repetitions, axes, batch shapes", "why_tests_cant": "unbounded lists", "anchors": ["matrix/tiledblocks.py:TiledBlocks", "matrix/ops/dense.py", "matrix/ops/shape.py", "matrix/ops/transpose.py", "matrix/ops/concat.py", "matrix/ops/block_diag.py"]}
{"id": "C35", "title": "Every operation terminates", "statement": "dense, add, multiply, matmul, sum, diag on well-formed matrices terminate: there is a bound on the recursion depth for every input (no method resolution loops forever).", "quantifier": "all well-formed matrices", "why_tests_cant": "non-termination cannot be observed by a test", "anchors": ["matrix/ops/add.py", "matrix/ops/multiply.py", "matrix/ops/matmul.py", "matrix/ops/logdet.py"]}
{"id": "C36", "title": "matmul_diag is the diagonal of the product", "statement": "B.matmul_diag(A, B, tr_a, tr_b) equals B.diag(B.matmul(A, B, tr_a, tr_b)) when the product is square.", "quantifier": "all composable pairs with square product", "why_tests_cant": "type pairs and sizes unbounded", "anchors": ["matrix/ops/matmul_diag.py:matmul_diag"]}
{"id": "C37", "title": "cast and dtype", "statement": "B.cast(dtype, M) keeps type, shape and entries and changes B.dtype to dtype; promotion of data types is commutative, associative and idempotent, so that the data type of a composite matrix does not depend on the order of its parts.", "quantifier": "all well-formed matrices and data types", "why_tests_cant": "nesting unbounded", "anchors": ["matrix/ops/cast.py:cast", "matrix/ops/dtype.py:dtype"]}
{"id": "C38", "title": "Incompatible operands raise", "statement": "If two matrices have shapes that do not broadcast (add, multiply) or inner dimensions that differ (matmul), the operation raises and never returns a value. Exceptions, each with a proof that it is one: multiply of a triangular and a constant matrix (rows and columns unchecked), of an upper- and a lower-triangular matrix (only the lengths of the diagonals are compared) and of two Kronecker products with pairwise equal factor shapes (batches unchecked).", "quantifier": "all pairs of matrices with incompatible shapes", "why_tests_cant": "universal over shapes and type pairs", "anchors": ["matrix/ops/add.py", "matrix/ops/multiply.py", "matrix/ops/matmul.py:_assert_composable"]}
{"id": "C39", "title": "Any expression evaluates like its dense version", "statement": "For every expression built from well-formed matrices with +, -, *, @, transpose, unary minus and scalar multiplication whose intermediate shapes match, the result of the structured evaluation has exactly the entries of the dense evaluation.", "quantifier": "all expression trees of any depth", "why_tests_cant": "unbounded compositions", "anchors": ["matrix/matrix.py:AbstractMatrix", "matrix/ops/add.py", "matrix/ops/multiply.py", "matrix/ops/matmul.py"]}
{"id": "C40", "title": "zeros, ones, eye, zero, one, fill_diag, uprank", "statement": "B.zeros(M), B.ones(M), B.eye(M) have the shape and data type of M and the named entries (eye: AssertionError if not square; without batch); fill_diag(x, n) is x times the identity; uprank is the identity on matrices.", "quantifier": "all matrices", "why_tests_cant": "unbounded shapes", "anchors": ["matrix/ops/zeros.py", "matrix/ops/ones.py", "matrix/ops/eye.py", "matrix/ops/fill_diag.py", "matrix/ops/one.py", "matrix/ops/zero.py", "matrix/ops/uprank.py"]}
{"id": "C41", "title": "Algebraic laws hold across types", "statement": "Commutativity of + and *, associativity of @, distributivity of @ over +, (AB)^T = B^T A^T hold entrywise for all operands of all types for which the operations are defined.", "quantifier": "all operands", "why_tests_cant": "universal over type combinations", "anchors": ["matrix/ops/add.py", "matrix/ops/multiply.py", "matrix/ops/matmul.py", "matrix/ops/transpose.py"]}
{"id": "C42", "title": "Where the library differs from the dense computation", "statement": "In each of the cases listed in DESIGN.md the operation returns a value that differs from the dense result, an object that breaks the invariant of its class, or raises although the dense result is defined: Diagonal(1x1)+Diagonal(nxn), Diagonal(1x1)*Dense(nxn), LowerTriangular(1x1)+/*, Diagonal(1x1)+LowRank, Constant(rxc)*LowRank/Kronecker(1x1), UpperTriangular*LowerTriangular rectangular, diag of a Kronecker product with non-square right factor, matmul_diag of non-square products, submatrix of a Diagonal with repeated indices and of a triangular matrix with unsorted ones, take of a Zero/Constant out of range, take from a LowRank with batched numeric factors, power 0, data type of sums and products with Zero, Kron@Kron and Kron*Kron with factors that do not match, LowRank@X with incompatible batches, the Woodbury constructor with broadcasting parts, batched LowRank+LowRank, LowRank+LowRank with a small middle, matmul of a lower and an upper triangular matrix with a transposition flag (dense although transposing first gives a triangular result), iqf_diag with rectangular triangular arguments. So the side conditions of the other properties are necessary.", "quantifier": "one witness per listed case, over every real closed field and every argsort; Constant*LowRank/Kronecker in general", "why_tests_cant": "they are counterexamples that the project's tests do not contain", "anchors": ["matrix/ops/add.py", "matrix/ops/multiply.py", "matrix/ops/diag.py", "matrix/ops/submatrix.py", "matrix/ops/power.py", "matrix/ops/matmul.py", "matrix/ops/iqf_diag.py"]}
{"id": "C43", "title": "Operators and methods of matrix objects", "statement": "For a matrix object x or y: x + y, x - y, x * y, x / y, x @ y (with the reflected method when only y is a matrix object) return, when the operands fit as in the respective operation, the matrix of the NumPy operation on the dense values in the written order; number op matrix keeps the order of subtraction. -x, x.T, x.diagonal(), x.squeeze(), x.reshape, x.flatten(), x ** n agree with NumPy on the dense value, flatten in C order; pow with a modulus raises.", "quantifier": "all operands of all types, all operators, all numbers", "why_tests_cant": "universal over operands and type pairs", "anchors": ["matrix/matrix.py:AbstractMatrix"]}
{"id": "C44", "title": "Indexing, isnan, to_numpy, isabstract", "statement": "x[item] is the indexing of the dense value with item, whatever item, and warns when x is structured; isnan marks exactly the entries of the dense value that are NaN; to_numpy is the dense value; isabstract is true iff some array inside the (nested) matrix is abstract.", "quantifier": "all matrices, all index functions on arrays, all predicates of the backend", "why_tests_cant": "universal over items and nestings", "anchors": ["matrix/matrix.py:AbstractMatrix.__getitem__", "matrix/ops/isnan.py", "matrix/ops/to_numpy.py", "matrix/ops/isabstract.py"]}
{"id": "C45", "title": "JIT: recorded decisions are replayed faithfully", "statement": "Running the sum of two low-rank matrices under B.control_flow recording gives the result without recording; replaying the record on the same operands returns the same matrix and consumes the record; replaying it on other operands returns the exact sum if the recorded permutations are permutations of the columns of the new operands that identify equal columns only and the recorded zero test was false; if it was true the result is Zero whatever the operands are (so 1 + 1 can give 0).", "quantifier": "all operands, all records", "why_tests_cant": "the second run is on arbitrary other data", "anchors": ["matrix/ops/algorithms/align.py:align", "matrix/ops/add.py:add(LowRank, LowRank)"]}
{"id": "C46", "title": "The array functions are NumPy's", "statement": "The dense reference computation with which all other properties compare is NumPy's, written with Python tuples: broadcasting aligns axes from the right; transpose swaps the last two axes; matmul sums over the inner axis with broadcast batch; sum over one (possibly negative) axis or all; take with negative indices or a mask; concat; stack and unstack; reshape keeps the C-order number of an entry, with -1 for one dimension; squeeze; tile; kron; diag_construct, diag_extract; eye, full, uprank; inv, solve, trisolve and cholesky satisfy their defining equations; shapes that do not fit raise.", "quantifier": "all arrays of all ranks and shapes, all axes and indices", "why_tests_cant": "universal over ranks, shapes and indices; this is the reference of the other properties", "anchors": ["matrix/ops/dense.py", "matrix/ops/squeeze.py", "matrix/ops/reshape.py", "matrix/ops/concat.py"]}
{"id": "C47", "title": "Data types of results", "statement": "If every array stored in the operands has its data type in a set closed under NumPy's promotion, then so has every array stored in (or returned as) the result of add, subtract, multiply, divide, matmul, matmul_diag, kron, transpose, negative, broadcast_batch_to, dense, sum, mean, trace, diag, the elementwise functions, tile, take, submatrix, reshape, squeeze, concat, block and block_diag (and, for sets which contain the floating point type of each member, inv, schur, solve, cholesky_solve, cholesky, root, pd_inv, pd_schur, logdet, iqf, iqf_diag, ratio and sample; for factorisations of Constant matrices the set has to contain float64). Hence float32 operands give float32 results, no result is wider than the promotion of the operands' data types, and none is narrower than the narrowest stored array.", "quantifier": "all operands of all types and shapes, all recursion depths, all sets of data types closed under promotion", "why_tests_cant": "universal over operands, all dispatch paths and nested factors; the middle factors and identity matrices which the library creates internally also need a data type", "anchors": ["matrix/ops/dtype.py", "matrix/ops/fill_diag.py", "matrix/ops/add.py", "matrix/ops/matmul.py", "matrix/lowrank.py", "matrix/ops/inv.py"]}
{"id": "C48", "title": "Exactly which calls warn", "statement": "Whether a call emits the ToDenseWarning is determined by the classes of its operands (for low-rank and Woodbury matrices, also by whether the middle factor is structured). For add, subtract, multiply, divide, matmul, solve and triangular_solve a table gives, for every pair of classes, the possible classes of the result and whether such a call warns. In particular a sum or matrix product with an array or a dense matrix never warns; a sum warns only if both operands are structured; an elementwise product warns exactly when it loses structure (the result is Dense although an operand is structured and none is constant). dense, diag, trace, transpose, negative, broadcast_batch_to, sum over a matrix axis or over all axes, kron, inv, schur, pd_inv and logdet never warn, and neither do quadratic forms of plain, diagonal and Woodbury matrices. reshape, squeeze, tile and concat warn exactly for structured operands (tile of Zero and Constant excepted); the elementwise functions and root warn exactly for low-rank and Woodbury matrices; sums over batch axes exactly for these and Kronecker products; submatrix exactly for Kronecker products; cholesky exactly for Woodbury matrices; block and block_diag exactly when the result is Dense; take along a matrix axis by a table, and along a batch axis never (the class is kept). Indexing and isnan warn exactly for structured matrices; matmul_diag as the elementwise product of its operands would, except that two low-rank matrices give no warning; the ratio against a Woodbury matrix exactly if the first matrix is a Kronecker product; the ratio of two Dense matrices always; samples of a matrix which is not a Kronecker product never. The diagonal of a low-rank matrix warns if its left or right factor is structured, and so does the elementwise product of two low-rank matrices.", "quantifier": "all operands whose low-rank and Kronecker factors are plain and whose middle factors are plain, diagonal or triangular; all shapes and values, all flags", "why_tests_cant": "universal over operands, shapes and all dispatch paths, including the internal calls which an operation makes on its factors", "anchors": ["matrix/ops/add.py", "matrix/ops/multiply.py", "matrix/ops/matmul.py", "matrix/ops/divide.py", "matrix/ops/sum.py", "matrix/ops/tile.py", "matrix/ops/reshape.py", "matrix/ops/squeeze.py", "matrix/ops/concat.py", "matrix/ops/take.py", "matrix/ops/submatrix.py", "matrix/ops/block.py", "matrix/ops/block_diag.py", "matrix/ops/cholesky.py", "matrix/ops/root.py", "matrix/ops/solve.py", "matrix/ops/triangular_solve.py", "matrix/util.py"]}
{"id": "C49", "title": "Texts of matrices", "statement": "str(a) of a matrix object always returns, is a single line, and is <class: batch=B, shape=(rows, columns), dtype=D> with the true batch shape, matrix shape and data type of a, followed by the rank for a low-rank matrix; two matrix objects with the same text have the same class, shape, data type and rank. repr(a) returns; it is the text of str(a) with the texts of the attributes (mat, diag, const, left and right, middle and right if they were given to the constructor, diag and lr) on lines of their own before the closing bracket, every further line of an attribute's text indented by the length of the attribute's name; so it begins and ends like str(a) and every line but the first begins with a blank. The text of tiled blocks has the axis as well, and repr shows for every block the number of repetitions and the text of the block.", "quantifier": "all well-formed matrices of all classes, nested to any depth, with all shapes and data types; any texts of the arrays", "why_tests_cant": "universal over classes, shapes, nesting and the texts of the arrays inside; injectivity quantifies over pairs of matrices", "anchors": ["matrix/util.py", "matrix/matrix.py", "matrix/constant.py", "matrix/diagonal.py", "matrix/triangular.py", "matrix/lowrank.py", "matrix/woodbury.py", "matrix/kronecker.py", "matrix/tiledblocks.py"]}
{"id": "C50", "title": "Which exceptions calls raise", "statement": "Whatever the operands, an operation either returns or fails with an exception about its shapes or indices: AssertionError, RuntimeError or ValueError (shapes that do not fit), IndexError, or RecursionError where the recursion limit is too small (for operands without scalar parts a large enough limit exists, so the core operations do not fail with it). This holds for dense, add, multiply, matmul, sum, diag, the structural operations and constructors (transpose, negative, cast, broadcast_batch_to, zeros, ones, eye, LowRank, Woodbury of a diagonal and a low-rank matrix), subtract, divide, mean, trace, matmul_diag, kron, abs/sqrt/power, tile, concat, reshape, squeeze, take, submatrix, block, block_diag and the Python operators with at least one matrix object. The linear algebra (inv, pd_inv, schur, pd_schur, cholesky, solve, triangular_solve, cholesky_solve, logdet, iqf, iqf_diag, ratio, root, sample) can also fail with LinAlgError, or because there is no method for the classes of the operands; the latter not for cholesky and root of matrices that are not built from triangular ones, for inv of dense and diagonal matrices and their Kronecker products, and for solve with a left-hand side that is not a Woodbury matrix. No call fails with an AttributeError (a method applied to an object of the wrong class) or an AmbiguousLookupError.", "quantifier": "all pairs of operands of all classes, nested to any depth, with arbitrary, also inconsistent, shapes; all flags, axes and recursion limits", "why_tests_cant": "universal over classes, nesting and shapes, including operands that no constructor accepts; a missing method or attribute shows only for the right combination", "anchors": ["matrix/ops", "matrix/shape.py", "matrix/constant.py", "matrix/lowrank.py", "matrix/woodbury.py", "matrix/promote.py"]}
{"id": "C51", "title": "Programs mixing all structure-building functions evaluate like their dense versions", "statement": "Any program built from matrix objects and arrays with +, -, *, @ (with either transpose flag), transpose, negation, scaling by a number, integer powers, abs, kron, take, submatrix, broadcast_batch_to, cast, block (2 by 2) and block_diag, nested in any way, evaluates, when its shapes and positions fit, to a well-formed matrix whose shape and whose entries are those of the same program on ordinary arrays, however the intermediate results are represented; nothing in between is given a wrong (triangular) type. Consequently the laws relating these functions hold between programs: take distributes over + and moves into the right operand of @, submatrix is take of rows and columns, the transpose of a Kronecker product or block matrix is that of the transposes, kron is additive, block matrices add and multiply blockwise, and block_diag is block with Zero matrices.", "quantifier": "all programs of any depth and size, all leaves of all matrix types, all batch shapes, all indices and masks, all values", "why_tests_cant": "the programs are an infinite family; an error would come from one function's result being a type or representation that another function mishandles", "anchors": ["matrix/ops", "matrix/ops/take.py", "matrix/ops/submatrix.py", "matrix/ops/kron.py", "matrix/ops/block.py", "matrix/ops/block_diag.py", "matrix/ops/broadcast_batch_to.py"]}
