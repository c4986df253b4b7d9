# Formal model of wesselb/matrix in Rocq (Coq 8.16)

`wesselb/matrix` is a library of *structured matrices*: Python classes
(`Zero`, `Dense`, `Diagonal`, `Constant`, `LowerTriangular`,
`UpperTriangular`, `LowRank`, `Woodbury`, `Kronecker`, `TiledBlocks`) and, for
every linear-algebra function, a set of plum methods that exploit structure.
The promise to the user is: *the result is what you would get by converting
everything to dense NumPy arrays first*.  The model follows the code method by
method; the theorems say that the promise holds for all sizes, batch shapes,
nestings, type pairs and entries -- and `C42` says where it does not.

## How to read a theorem

Three small files are the specification and do not use the operations of the
model: `Spec.v` (entries `ent`, dense array `den`, well-formedness `wf`),
`SpecLA.v` (an object as a mathcomp matrix) and `Api.v` (what a call does):

* `settles f r`: from some recursion limit on, the call `f` yields the outcome `r`.
* `returns f P`: it settles on a value with `P`.
* `raises f`: it settles on an exception (other than running out of the limit).
* `answers f P`: it returns a value with `P`, or (only for calls that compare
  low-rank columns approximately) returns a value and the ghost flag says that
  a comparison identified different columns or dropped a nonzero matrix.
* `is_value m t`: the dense NumPy computation `m` returns the array `t`.

A typical statement is `C05_matmul`: for all well-formed `a`, `b` whose inner
dimensions fit, `answers (fun o => o_matmul o a b ta tb) (fun c => wf c /\
is_value (t_matmul (den a) (den b) ta tb) (den c))`.

## Trusted base

1. **Coq's kernel** (8.16.1) with `vm_compute`.
2. **Axioms**: none.  Every `Props*.v` file ends in `Print Assumptions` for each
   theorem listed in MANIFEST.json; all print "Closed under the global context".
   mathcomp (ssreflect, algebra, zify) is used as a library of definitions and
   lemmas only; no axiom of it is used.
3. **The numeric backend** (LAB, NumPy, SciPy), which is not in /repo: `Tensor.v`
   (elementwise functions, broadcasting, matmul, sum, concat, take, reshape,
   tile, stack, ...) and `Backend.v` (inverse, Cholesky factor, solves, log-determinant,
   root) are a description of what these functions do, in exact arithmetic.
4. **Parameters**, universally quantified in the theorems that use them:
   * `F : rcfType`, the field of entries (any real closed field, e.g. the real algebraic numbers, `Inhabited.v`);
   * `argsort`, assumed only to return a permutation of the positions (C18's
     completeness theorem assumes that it sorts);
   * `log`, assumed to satisfy the functional equation of the logarithm (C29);
   * `svd`, assumed to return a singular value decomposition of the matrices it is called on (C31);
   * `randn`, an arbitrary state transformer returning arrays of the requested shape (C32);
   * the cache oracle of C33, constrained by the inductive predicate `stored`:
     its answers are those of earlier calls.
5. **The reading of plum** in `Dispatch.v`: candidates are the methods whose
   types match; the most specific ones are kept; ties are broken by precedence;
   a remaining tie is `AmbiguousLookupError`.  The tables list every method of
   the modelled functions, including the ones LAB defines for numeric arguments.
   Precedences written `proven()` in the code are increasing in order of definition.

## What is modelled

| /repo | model |
|---|---|
| matrix/shape.py, ops/shape*.py, ops/rank.py | `Shape.v`, `Mat.v`; Python order in `PyShape.v` |
| matrix/{matrix,constant,diagonal,triangular,lowrank,woodbury,kronecker}.py (constructors) | `Mat.v` (`mk_*`) |
| matrix/promote.py | `Mat.v` (`convert_num`), `Ops.v` (`to_matrix`) |
| matrix/util.py (`redirect`) | `Dispatch.v` |
| matrix/util.py (`indent`, `dtype_str`), `repr_format`, `__str__`/`__repr__` of all classes | `Repr.v` |
| ops/{transpose,negative,cast,dtype,broadcast_batch_to,zeros,ones,eye,one,zero,fill_diag,uprank,util}.py | `Mat.v` |
| ops/{dense,add,multiply,matmul,sum,diag,diag_extract,broadcast_to}.py, ops/algorithms/align.py | `Ops.v` |
| ops/{subtract,divide,mean,abs,sqrt,power,trace,matmul_diag,kron,tile,concat,reshape,squeeze,take,submatrix}.py | `Ops2.v` |
| ops/{block,block_diag}.py | `Block.v` |
| ops/{inv,pd_inv,schur,pd_schur,cholesky,cholesky_solve,triangular_solve,solve,logdet,iqf,iqf_diag,ratio,root,sample}.py | `Solve.v` |
| the caches `a.dense`, `a.cholesky`, `a.schur` | `Cache.v` |
| tiledblocks.py and all methods for `TiledBlocks` | `Tiled.v` |
| matrix/matrix.py (methods), ops/{isabstract,isnan,to_numpy}.py | `Objects.v` |
| the control-flow cache for JITs (align.py:17-22, 80-84, add.py:189-194) | `Replay.v` |

**Not modelled**: wbml's text of an array (a parameter of `Repr.v`), a NumPy array as the left operand of an operator, complex numbers, NaN and infinities, floating point rounding, the
random number generator itself, the text of warnings and errors, TiledBlocks
as blocks of TiledBlocks (the code can construct but not densify them).

## Modelling decisions and simplifications

1. **Scalars.** Entries live in `F : rcfType`.  Division by zero is 0 in the
   model (NumPy: inf/nan) and the square root of a negative number is 0 (NumPy: nan); theorems about
   `divide`, `sqrt` are faithful for nonzero divisors / nonnegative entries.
   `power` is modelled for natural exponents.
2. **Shapes** are stored innermost axis first (reverse of the Python tuple);
   `PyShape.v` proves the Python-order version equivalent.
3. **Tensors** (`Tensor.v`, `Backend.v`: LAB/NumPy, not in /repo) are specified independently, in NumPy's order, by C46; they are a data type, a shape and a total function from index lists
   to `F`.  Data types form a finite lattice; NumPy's promotion is its join (C37).  A Python number is
   neutral for promotion (`weak`), as NumPy 2 and the other backends have it.  Sums, quotients and roots of
   integers keep the data type in the model (NumPy: a wider integer, float64), so that C47 says nothing about them
   for integers; the factor of a `Constant` is float64, as NumPy 2 has it (older versions: the data type of the matrix).
4. **Matrices** are an inductive type with one constructor per class plus
   `Nm` for raw numeric arrays (of any rank).  A `Woodbury` stores its diagonal and the
   three factors of its low-rank part (the constructor enforces these classes).
5. **Recursion.** Methods call each other through plum dispatch.  Each method
   body is a non-recursive Gallina function over a record `self` of the
   operations it may call; `ops_n n` ties the knot with recursion limit `n`, and limit 0
   raises `RecursionError`.  The termination proofs (`Term*.v`, C35) give a limit from which
   on the result does not change; `Api.v` states everything for this result.
6. **Approximate comparisons** (`align`, `is_zero` in `add.py`) are modelled with their tolerance.
   A ghost flag in the log records that two columns were identified which are not equal (in all batch elements),
   or that a nonzero matrix was dropped.  Entry equalities are claimed for calls whose
   flag stays unset (`answers`); the flag is never read by the program.  `Exact.v` shows that it
   stays unset unless low-rank matrices are added.
7. **Warnings** are a flag in the log (C14, C48).  C48 covers operands whose factors are plain (arrays or Dense) and whose
   middle factors are plain, diagonal or triangular (`usual`); it does not cover
   samples of Kronecker products.
8. **Caches**: the functional model has none; `Cache.v` adds them as an oracle and C33 proves that they do not matter.
   Objects are identified by their contents.
9. LAB details read off its documentation: default axis of `take`, axes of `concat2d`, type promotion in `concat`.
10. Empty axes: well-formed objects have positive dimensions (`wf`).  Empty matrices are outside the theorems.

## Properties

| property | how proved | where |
|---|---|---|
| C01, C02, C07, C16, C37, C40 | structural recursion on the matrix | PropsCore, PropsMisc |
| C03, C04, C05, C06, C09, C10 | Hoare triples for every method body assuming those of the operations it calls, induction on the limit, termination measure | PropsCore, PropsMm, PropsSum |
| C08, C21, C23, C36 | on top of the core triples | PropsSum, PropsArith, PropsLift |
| C11, C12, C14 | result classes per dispatch route; Hoare logic on the warning flag | PropsStruct, PropsTake |
| C13 | characterisation of the resolution rule for every table; tables of all binary functions computed for all pairs of classes | PropsDispatch, PropsDispatch2 |
| C15 | induction on shapes, least-upper-bound characterisation, Python order | PropsShape |
| C17, C20 | direct | PropsMisc, PropsCore |
| C18, C19 | loop invariant of `align`; the sum of two low-rank matrices determined without the ghost flag | PropsAlign, PropsLrAdd, PropsLrSum |
| C22 | index arithmetic, structural induction | PropsTake |
| C24 | induction on lists of blocks | PropsBlock |
| C25 - C32 | matrix algebra in mathcomp (`LinAlg.v`), transferred to the model | PropsInv, PropsLA, PropsChol, PropsLogdet, PropsIqf, PropsRoot, PropsSample |
| C33 | simulation between cached and uncached evaluation over any history | PropsCache |
| C34 | induction on lists of (block, repetitions) | PropsTiled |
| C35 | well-founded measure on (operation, operands) | PropsMm |
| C38 | `never` triples (no value is returned) for every method body | PropsRaise |
| C39, C41 | induction on expressions | PropsExpr |
| C43, C44 | on top of the core triples | PropsObj |
| C45 | the recorded sum is the sum; `valid_join` of the record implies the sum identity of C19 | PropsReplay |
| C46 | reversal lemmas between the innermost-first model and Python tuples | PropsNumpy |
| C47 | a predicate on outcomes, one lemma per function: a set of data types closed under promotion is kept | Dtypes, PropsDtype, PropsDtype2 |
| C48 | predicates `W` and `sil` on outcomes (class of the result with the warnings), an invariant of all operations by induction on the recursion depth | Warn, Warn2, Warn3, PropsWarn, PropsWarn2, PropsWarn3, PropsWarn4, WarnTake |
| C49 | strings as lists of characters; `str` against an explicit format, injectivity by parsing; `repr` against an inductive relation (layout of nested attributes); trimming commutes with indenting | Repr, PropsRepr |
| C50 | a predicate on outcomes (set of exceptions, property of the value), one lemma per function, induction on the recursion depth; the lookups of all pairs of classes find bodies which fit | Errs, Errs2, PropsErrs |
| C51 | syntax trees of calls; evaluator that calls the model, independent entry semantics; induction on the program with a result invariant (well-formed, shape, entries, and three facts about the class of the result used by the side conditions) | PropsExpr2 |
| C42 | witnesses | PropsLimits, PropsLimits2 and the `_refuted`, `_unchecked` theorems |

All are `proved`.  None is left partial; side conditions that the code forces are part of the
English statement, and each is shown necessary in C42 or by a `_refuted` theorem.

## Findings (deviations from the dense semantics)

With a theorem: 1x1 structured operands being stretched (Diagonal+Diagonal, Diagonal*X,
triangular +/* X, Diagonal+LowRank); multiply(LT/UT, Constant) without shape check;
multiply(Constant, LowRank/Kronecker) ignores the bigger shape of the Constant;
multiply(UT, LT) of rectangular matrices gives a smaller Diagonal;
diag(Kronecker) with a non-square right factor; matmul_diag of non-square products;
submatrix(Diagonal) with repeated indices; submatrix(LT/UT) with unsorted indices; take(Zero/Constant) out of range;
take(LowRank) with batched numeric factors; power 0 of Zero/Diagonal/LT/UT; add/matmul with Zero do not promote the
data type; Kron@Kron and Kron*Kron raise if the factors do not match pairwise; Kron*Kron and LowRank@X with
incompatible batches return malformed objects; Woodbury's constructor accepts parts that broadcast;
add(LowRank, LowRank) is wrong for batches and for small matrices; kron(Zero, Zero), logdet(Zero), logdet(Constant)
never return; cholesky(LowRank) ignores the right factor; solve(a, Zero) returns the right-hand side unbroadcast;
broadcast_to accepts smaller shapes; block_diag(one numeric) assembles the batch; schur and pd_schur share a
cache slot; TiledBlocks: shape and dense form can differ, `dense` returns a Dense;
the replayed zero test of add(LowRank, LowRank) under a JIT is not repeated (C45);
add(UT, LT) is Dense without a warning, and ratio(Dense, Dense) warns (C48); cholesky(Constant) of float32 is float64 (C47).

matmul(LT, UT, tr_a=True) loses its triangular type; iqf_diag with rectangular LT and UT arguments is wrong (PropsLimits2).

Without a theorem of their own (empty dimensions are outside `wf`): an empty batch raises IndexError in align;
LowRank*LowRank of rank 0 raises.

## Tests against wrong programs

`seeded/LOG.jsonl`: one line per edit of the model (made in a scratch copy), with the claim it breaks and the
theorems that stopped proving.
