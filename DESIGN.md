# Formal model of MatrixLibs in Coq

MatrixLibs (`/repo`) is a header-only C++ library: function templates over
`Matrix<T,n,m> = std::array<std::array<T,m>,n>`.  This directory contains a
model of all of `/repo/matrix` and of the loops of `/repo/bench` in Coq 8.16.1 and proofs of the properties listed
in `properties.jsonl`.  `MANIFEST.json` maps each property to its theorems.

## Layout (`rocq/theories`)

| file | content |
|---|---|
| `Base.v` | outcomes (`Ok`, `Throw`, `Terminate`, `UB reason`, `OutOfFuel`), counted loops, arrays with unchecked subscripts |
| `Scalar.v` | what the templates require of an element type `T` |
| `Model.v` | one definition per C++ function, each citing file and lines |
| `CInt.v` | the C++ integer types as element type (promotion, overflow UB, wrap-around) |
| `CFloat.v` | IEEE-754 binary32/64 as element type (Flocq) |
| `Exact.v` | exact arithmetic over a mathcomp ring / field / real closed field as element type |
| `Spec.v` | the small specification vocabulary used by theorem statements |
| `RepoTests.v` | the repository's own unit tests run on the model (tests of fidelity) |
| `Bench.v` | the loops of `/repo/bench`, random draws as arguments |
| `Loops.v`, `Struct.v`, `Conv.v`, `Elim.v`, `LURec.v`, `CholRec.v`, `Preds.v`, `Order.v`, `Stat.v`, `Rearr.v` | what the loops compute, for any element type |
| `Safety.v`, `SafetyInst.v` | no out-of-bounds access, any element type |
| `ExactLemmas.v`, `Alg.v`, `Det.v`, `Inv.v`, `Pow.v`, `LU.v`, `Chol.v`, `StatExact.v`, `ConvExact.v` | exact arithmetic |
| `IntDet.v` | elimination without row exchanges, truncating witnesses of every size |
| `PropIntDet.v` | C21 from 4x4 on |
| `Median.v` | the median lies between the two middle elements |
| `PropBlockElt.v` | C109 |
| `BlockRec.v` | strassen on blocks of blocks |
| `Block.v` | the class of blocks; cutting a matrix into blocks |
| `PropFixed.v` | C108 |
| `Fixed.v` | the class of fixed point numbers; what its runs return |
| `PropModInt.v` | C107 |
| `ModInt.v` | the class of modular integers; the field of residues |
| `PropIval2.v` | C106: roots, verified solutions, points, sharpness, examples |
| `PropIval.v` | C106 |
| `Ival.v` | the class of intervals; runs that return |
| `PropIter.v` | C105 |
| `PropLong.v` | C104 |
| `Long.v` | C104: norms by rows, iterations, stochastic matrices |
| `PropDual.v` | C103 |
| `DualFact.v` | C103: lu and chol over a local ring |
| `PropDualFact.v` | C103: lu and chol |
| `DualMx.v` | C103: matrices of dual numbers, Jacobi's formula, polynomials along a line |
| `Dual.v` | C103: dual numbers, elimination and inverse over a local ring |
| `PropSemi.v` | C102: semirings, shortest routes |
| `Semiring.v` | element types that are semirings |
| `PropPerturb.v` | C101: error propagation |
| `PropComplexChol.v` | C100: chol, abs, compare on complex matrices |
| `CholField.v` | chol over a field with square roots |
| `CComplexOps.v` | division, modulus and square root of std::complex |
| `PropComplexE.v` | C99: complex matrices, exact |
| `PropComplexR.v` | C99: real, Gaussian and conjugate elements |
| `PropComplexF.v` | C99: complex products in floating point |
| `RingOps.v` | the functions that only add, subtract and multiply |
| `CComplex.v` | std::complex as an element type |
| `PropSpectral.v` | C98: eigenvalues, updates, least squares |
| `PropCount.v` | C97: powers count walks and run recurrences |
| `PropInvF.v` | C96: elements of float inverses |
| `PropTriF.v` | C96: triangular float matrices |
| `PropClass.v` | C95: structured matrices |
| `PropClassF.v` | C95: triangular and selecting float matrices |
| `PropDefinite.v` | C94: definiteness |
| `PropDefiniteF.v` | C94: what a finite float factor certifies |
| `PropDom.v` | C93: diagonally dominant matrices |
| `Program.v` | programs that call the library: syntax, evaluation, parametricity |
| `ProgSim.v` | meaning of programs over a ring, simulation |
| `PropProgram.v` | C92: whole programs |
| `PropProgramF.v` | C92: a program in a wider type and in floating point |
| `CExt.v` | floating point with wider evaluation of expressions (FLT_EVAL_METHOD 1, 2) |
| `Ext.v` | conversions between formats, double rounding, errors of wide evaluation |
| `PropExt.v` | C91: expressions evaluated in a wider format |
| `PropConvLaws.v` | C90: laws of the convolutions |
| `PropIneq.v` | C89: the statistics agree with one another |
| `Rank.v` | the k-th smallest element and the cumulative histogram |
| `PropConc.v` | C88: threads that share matrices |
| `ConcApi.v` | each API function as a program of memory accesses; it computes `Model.v` |
| `Conc.v` | threads, schedules, data races over shared memory |
| `PropPrintF.v` | C87: printing floating-point matrices |
| `CPrint.v` | what std::cout writes for a float or double |
| `PropCost.v` | C86: operation counts |
| `Cost.v` | the model with its arithmetic counted, and erasure |
| `PropRound.v` | C85: enclosures by directed rounding |
| `Round.v` | order between the rounding modes, errors in any mode |
| `CRound.v` | IEEE arithmetic in a rounding mode other than the default |
| `PropPowers.v` | C84: laws of exponents, linear systems |
| `PropBoolReach.v` | C83: reachability, and det modulo 2 |
| `PropBool.v` | C83: bool matrices as relations |
| `ParamDet.v` | relating the elimination of det step by step |
| `CBool.v` | bool as element type |
| `PropBlockExact.v` | C82: block products, determinants and inverses over a field |
| `PropBlock.v` | C82: partitioned matrices, any element type |
| `Nested.v` | completeness of the recurrences of lu and chol, for leading blocks |
| `PropFma.v` | C81 |
| `FmaSolve.v` | backward error of lu and chol with contraction |
| `FmaPoly.v` | error calculus for polynomial programs with contraction |
| `PropFma2.v` | C81, error bounds |
| `Fma.v` | facts about the fused accumulation |
| `CFma.v` | floating point with contraction to fused multiply-add |
| `PropHistoryExact.v` | C80, elements, determinant, inverse |
| `PropHistory.v` | C80, all element types |
| `PropTransExact.v` | C79, exact arithmetic |
| `PropTrans.v` | C79, all element types |
| `PropUnits.v` | C78: exact arithmetic |
| `PropSign.v` | C78: negation |
| `PropScale.v` | C78: powers of two |
| `FloatScale.v` | floating-point operations and powers of two; the scalar that flags range errors |
| `FloatSign.v` | floating-point operations and negation |
| `Graded.v` | relational proof that the library is homogeneous: degrees of results |
| `Overload.v` | overload resolution: deduction, partial ordering, the library's overload sets |
| `Sim.v`, `SimExact.v`, `IntMx.v`, `Int.v`, `IntStat.v`, `IntInv.v`, `IntInvRet.v` | integer types, by simulation of the exact run |
| `IntSqrt.v`, `IntFactor.v`, `Factor.v` | integer square roots through double; integer lu and chol; lu and chol return whatever satisfies their recurrences |
| `Strict.v`, `StrictExact.v`, `StrictFactor.v` | integers that refuse inexact operations; int, float and ordered fields track them; lu, chol and det of integer factors |
| `FloatElim.v`, `RealRing.v`, `RealDet.v` | backward error of Gaussian elimination in det; the reals as a MathComp ring; determinant from factors and row exchanges |
| `Float.v`, `FloatMx.v`, `FloatErr.v`, `FloatLU.v`, `FloatChol.v`, `FloatStat.v`, `FloatDet.v`, `FloatPoly.v` | floating-point facts and rounding error bounds |
| `BenchLemmas.v` | the benchmark loops |
| `Param.v`, `ParamInst.v`, `BoundedInt.v` | every function preserves relations between two element types; the relations used: int and float, order, absolute values, bounded integers |
| `Prop*.v` | the property theorems only: statement, `exact lemma`, `Print Assumptions`, and beside each an `Example` showing a non-trivial instance meets the hypotheses |

## Model

*Element type.*  Each definition is parametric in a record `scalar` with the
operations the templates apply to `T`.  Stored elements (`elt`) and arithmetic
expressions (`xpr`) are kept apart, so that integral promotion of narrow types
is modelled.  An operation yields an `outcome`, so overflow or division by zero
is an observable event.  Instances:

* *exact*: a ring, field, ordered field or real closed field (mathcomp).
  Division by zero is `UB DivByZero`, the square root of a negative number
  `UB BadConversion`.  Theorems about it say what the algorithm computes when
  rounding is absent; they hold for rationals, reals, finite fields...
* *complex* (`CComplex.v`): pairs over any of the other instances, with Annex G's
  recovery of infinities over the floating-point ones; used by C99 and C100.
* *integers* `intS t` for signed/unsigned widths 8..64, x86-64 data model.
* *floats* `floatS prec emax`, round to nearest even, all operations IEEE.

Theorems that do not need a particular arithmetic are stated for an arbitrary
`S : scalar`, i.e. for every element type at once.

*Outcomes.*  `throw;` with no exception in flight is `Terminate`;
`throw std::overflow_error` is `Throw OverflowError`; an out-of-range subscript
is `UB OutOfBounds`, never a default value.  Two functions are fuelled
(`det`'s pivot search, `pow`'s recursion); running out of fuel is a separate
outcome that is proved unreachable.

*Nondeterminism.*  `std::sort` is an arbitrary function argument with the
property `sorts` (Spec.v); the uninitialised array of `abs` is an arbitrary
argument; `std::ostream << T` is an arbitrary function argument.

### What is modelled

Every function template of `/repo/matrix/*.hpp`: fill, zeros, ones, eye, sum,
sub, all operators, abs, div, mult, strassen, trans, swap_rows, swap_cols,
concatenate (3 overloads), concatenateV, concatenateH, getminor, det (4
overloads), inv (4 overloads), pow, lu, isSymetric, chol, isIdentity, compare,
mean, var, stddev, median, histogram, cumulative_histogram, conv2, conv2_full,
conv2_valid, print.  From `/repo/bench`: row_major, col_major, rand_major,
setRand, and one pass of multiply, multiply_2_2_strassen, det, inv.  The
overload sets of det, inv, concatenate and the operators (`Overload.v`).

### What is not modelled

* The timing harness of `/repo/bench` (`benchmark::State`), the random engine
  (draws are arbitrary values of the distribution's range) and the build files.
  Reading the never-initialised matrices of cache.hpp is modelled as reading
  arbitrary elements; in C++ it is itself undefined.
* `constexpr` evaluation, exceptions' message texts, `noexcept`, stack size.
* Which template instantiations compile, beyond the choice of the overload
  (`Overload.v`); where a function body compiles only for some sizes or types,
  the comment on the definition says so.
* `size_t` wrap-around of loop counters (an array with 2^64 rows cannot exist);
  it is modelled where the code depends on it (conv2, mean, var, histogram).
* `median`'s `floor(size/2)` goes through `double`: exact below 2^53 elements.
* `sqrt` of a `float` is computed in `double` and rounded back; the model takes
  the binary32 square root.  Theorem `c55_sqrt_double` proves them equal.
* `-ffast-math`, NaN payloads.  Rounding modes other than
  the default are modelled separately (`CRound.v`, C85), and so is the evaluation of
  expressions in a wider format (`CExt.v`, C91; variables kept in wide registers in
  violation of the standard are not modelled).  FMA contraction is modelled separately (`CFma.v`, C81), within one
  expression only; the other float theorems assume that there is none.
* Element types other than numbers and `std::complex` (the templates would accept any class),
  except that C102 takes any class whose + and * form a semiring, and a class of costs as an instance,
  C103 takes a class of dual numbers (value and derivative) over any modelled type, C106 to C109 take
  classes of intervals, modular integers, fixed point numbers and blocks.
* The routines compilers use for division, square root and modulus of `std::complex<float>` and
  `std::complex<double>` (__divdc3, csqrt, hypot), so `chol`, `abs` and `compare` of such matrices;
  libstdc++'s generic templates for them are modelled (`CComplexOps.v`) and used in exact arithmetic.
* Threads are interleavings of single element accesses (`Conc.v`, C88); a racy
  program is undefined in C++, so its interleavings are examples of what may go
  wrong.  `std::cout` is written one `<<` at a time.

## Trusted base

* Coq's kernel (8.16.1, incl. `vm_compute`), `coqchk`.
* The reading of the C++ text into `Model.v`, `CInt.v`, `CFloat.v` (the code is
  never run here).  `RepoTests.v` checks the model against every expected value
  in `/repo/tst`.
* `Print Assumptions`, printed under every property theorem.  Theorems about
  arbitrary element types, exact arithmetic and integers are "Closed under the
  global context".  Theorems about floats that mention real numbers, and C68 to C71
  (integer square roots go through double), use the
  standard library's real-number axioms: `ClassicalDedekindReals.sig_forall_dec`,
  `ClassicalDedekindReals.sig_not_dec`,
  `FunctionalExtensionality.functional_extensionality_dep` and, through Flocq's
  real analysis, `Classical_Prop.classic`.  C72 states a determinant over the
  reals; making them a MathComp ring adds
  `ClassicalEpsilon.constructive_indefinite_description` (also standard library).
  No other axioms; none of our own.

## Properties: what is modelled and how it is proved

Method names: **loop closed form** = an induction over the loop shows that an
entrywise double loop computes the table of its body, for any `S`;
**bridge** = `mxrows` turns a mathcomp matrix into the list of rows, and the
model function run on `mxrows A` is shown equal to `Ok (mxrows (spec A))`;
**simulation** = integer run related step by step to the exact run on `Z`;
**witness** = a concrete input evaluated by `vm_compute` (for refutations only).

| id | plan |
|---|---|
| C01 | loop closed form, any S |
| C02 | loop closed form, any S |
| C03 | direct + witness |
| C04 | loop closed form, two phases; result stated with `++` and `map2 app` |
| C05 | loop closed form; second component = [A\|A] for all B; witness |
| C06 | loop invariant on the exchanged prefix; UB on out-of-range by first failing access |
| C07 | loop invariant with row/column counters; `delete` spec on lists; UB lemma for out-of-range |
| C08 | safety predicate (`never OutOfBounds / OutOfFuel`, result well-shaped) compositional over the loops, any S |
| C09 | loop closed form, any S |
| C10 | bridge to `'M_(n,m)`; laws are corollaries |
| C11 | definitional, stated as equality of outcomes |
| C12 | triple-loop invariant (partial sums) then bridge to `mulmx` |
| C13 | corollaries of C12 |
| C14 | bridge + ring; simulation for unsigned; witnesses for int and float |
| C15 | simulation modulo 2^w |
| C16 | simulation: result equals exact when Ok; magnitude bound by induction on the dot product |
| C17 | witness; sums of two 16-bit numbers fit in int |
| C18 | loop closed form; field laws |
| C19 | invariant `factor * det(original) = det(current)`, columns left of the pivot are zero below the diagonal; after a skipped column a zero diagonal entry makes both sides 0; permutation/row operation determinants from mathcomp |
| C20 | corollaries of C19 and C12 |
| C21 | simulation for n <= 3; from 4 on the run of the elimination on an identity with a 3x3 block, of any size, and on triangular matrices |
| C22 | cofactor expansion: getminor = `row' i (col' j A)`, result = `invmx`; 2x2 and 3x3 by ring |
| C23 | case analysis on n, from C19 |
| C24 | corollaries of C22 |
| C25 | induction on the fuel / binary exponent |
| C26 | computation for arbitrary S; witnesses |
| C27 | loop invariant (columns < j of L*U agree with A); uniqueness from mathcomp triangular algebra |
| C28 | leading submatrix determinants = product of pivots |
| C29 | from C27, C19 and `det_trig` |
| C30 | invariant + positivity of the pivot from the quadratic form |
| C31 | relational loop lemma (any S); invariant of C30 |
| C32 | for_ret loop rule, any S |
| C33 | list equality, integers |
| C34 | for_ret loop rule, ordered field |
| C35 | for_ret loop rule, floats; witnesses |
| C36 | loop closed form; junk overwritten |
| C37 | accumulation loop = big sum; bounds by big-sum monotonicity |
| C38 | simulation; witness |
| C39 | big-sum algebra in a real closed field |
| C40 | sorted-permutation uniqueness up to equivalence |
| C41 | map insertion invariant |
| C42 | prefix-sum invariant |
| C43 | closed form of the nine-line body; rotation of the kernel by reindexing; witness |
| C44 | arithmetic on the modelled conversions |
| C45 | closed forms of the three functions over any S |
| C46 | from C43 by ring |
| C47 | string induction; parser inverse for decimal notation |
| C48 | Flocq: x*1 = x, x*0 = +-0, sums of zeros; induction |
| C49 | Flocq commutativity; witnesses |
| C50 | relational induction on the dot product, any S with commutative xmul |
| C51 | Flocq standard model of rounding, induction on m |
| C52 | x/x = 1 in IEEE arithmetic for finite non-zero x; loop invariant |
| C53 | strict weak order of `<` on non-NaN floats; NaN counterexample for all such inputs |
| C54 | recurrence of lu as stored values (LURec.v); each is a rounded dot product; induction on the inner index |
| C55 | the same for chol (CholRec.v); innocuous double rounding (Flocq) for sqrt |
| C56 | induction on the sum; one more rounding for the division |
| C57 | squares and sums of non-negative floats; error of a sum of non-negative terms; König's identity turns the computed mean into the exact one; |√a - √b| <= √|a-b| |
| C58 | witness |
| C59 | forward error of the straight-line formulas; exact cancellation for singular 2x2; witnesses |
| C60 | each loop either returns or meets an out-of-range subscript; monotone partial sums of non-negative draws |
| C61 | relational parametricity (Param.v): the operations of int, when defined, are those of double on integers that fit |
| C62 | the same with exact integers that fail beyond 2^prec; that run is shown not to fail under the bound and to be exact by Sim.v |
| C63 | parametricity for `0 <= x <= y`; rounding is monotone |
| C64 | parametricity for `\|x\| <= y` |
| C65 | induction over the squarings of an invariant pairing a float with its exact value, a bound and a power of two it is a multiple of |
| C66 | the same invariant through the nine additions of one cell |
| C67 | the same invariant through Strassen's formulas; a witness computed in both formats |
| C68 | the standard library's binary64 operations are linked to Flocq's; rounding is monotone and k+1-2^-27 is representable, so the rounded root of a < 2^52 stays below k+1; for larger arguments the rounding error of the conversion is bounded |
| C69 | the recurrences of lu and chol (`LURec.v`, `CholRec.v`) with truncating division and C68's root |
| C70 | an element type `strictS B` that refuses every inexact or too large operation; int, float and exact arithmetic each track it operation by operation (`Strict.v`, `StrictExact.v`), so the parametricity theorems of `Param.v` transfer whole runs; the exact theorems say what the numbers are |
| C71 | the factors satisfy the recurrences of `Factor.v` on `strictS B`; the elimination of det reproduces U row by row; C70 transfers the run |
| C72 | one backward induction over the run: a finite non-zero result forces every intermediate to be finite, and the computed rows reassemble the argument within the accumulated rounding; `\det` of the reassembled matrix by permutation and triangular factors; witness |
| C73 | permutations of the row-major element list (`Rearr.v`); sums, counts and strictly sorted key lists are invariant under them; witness in double |
| C74 | inv simulated by the adjugate over Z (`IntInv.v`, for congruence modulo 2^w and for overflow-free runs), then the truncating division entry by entry; overflow-freeness under bounds (`IntInvRet.v`); witnesses by computation |
| C75 | the two middle elements bracket (x+y)/2: field order, truncating division, monotone rounding (2x is representable in the unbounded-exponent format); counting from sortedness (`Median.v`); an unsigned sum that wraps gives a value below both; witnesses by computation |
| C76 | contrapositive: x+y, x-y, x*y finite imply x, y finite, x/y finite implies x finite; through the closed forms of every operation, the lu and chol recurrences, and the factorisation of C72 for det and inv; the exceptions by computation |
| C77 | `Overload.v` models template argument deduction, partial ordering and best viable function for the library's overload sets; every call shape decided by deduction on sizes |
| C78 | `Graded.v`: a relational proof, once for all functions, that elements related at degree d give results related at the degree of dimensional analysis; instances: c^d x in a field (`PropUnits.v`), exact scaling by 2^d of floats in the normal range (`FloatScale.v`, `PropScale.v`), negation up to the sign of zeros (`FloatSign.v`, `PropSign.v`); counterexamples show that the range hypothesis and the exception for zeros are needed |
| C79 | `PropTrans.v`: results as tables of elements; a table with exchanged subscripts is the transposed table, for an arbitrary scalar; products need commuting multiplication, proved for integers and floats; counterexamples in double by computation. `PropTransExact.v`: convolution and powers via mathcomp |
| C80 | `PropHistory.v`: histories as lists of calls; by induction a history is a pair of index permutations; product laws for an arbitrary scalar. `PropHistoryExact.v`: elements (via C73), sign of the determinant (via C20) and inverse (mathcomp `xrow`/`xcol`) |
| C81 | `CFma.v` models an expression that is a product as its two factors until used, and the compiler's choice as a parameter. `Fma.v`: the fused accumulation and its error. `PropFma.v`: agreement with `floatS` by the relational interpretation (C61) in both directions; laws by induction on the accumulation; singular matrices by the exactness of the error of a product (Flocq). `FmaPoly.v`, `FmaSolve.v`, `PropFma2.v`: the error calculus of C65 for unrounded products, and the error bounds |
| C82 | `PropBlock.v` (any scalar): tables split at a row or a column; `Nested.v`: the loops of lu and chol run on a leading block inside the run on the whole matrix. `PropBlockExact.v` (any field): concatenations are mathcomp's `row_mx`/`col_mx`, then `mulmx_block`, `det_ublock` and uniqueness of the inverse |
| C83 | `CBool.v`: bool as element type (int arithmetic, stored as non-zero). `PropBool.v`: closed forms of the operations as relations, walks by induction on the fuel of pow. `PropBoolReach.v`: shortening walks (mathcomp `shortenP`); det from 4x4 on related step by step (`ParamDet.v`) to exact elimination over F_2 |
| C84 | `PropPowers.v`: pow with any sign is mathcomp's integer power in the matrix ring (`exprz`); systems by `mulmxV`, `kermx`, `mulmx1_unit` and expansion along a column |
| C85 | `CRound.v`: the element type with the mode as parameter; `Round.v`: an operation in a lower mode on a smaller exact result gives a smaller value, overflow to the largest number included; induction on the accumulation; parametricity for integers; witnesses by computation |
| C86 | `Cost.v`: the same function bodies in a monad that counts, each erased back to the model by a theorem; exact counts by a rule for sequencing and loops, `det` by a potential on the pivot column |
| C87 | `CPrint.v`: the conversion of `std::cout << x` with default flags, on integers; its digits are Flocq's rounding to radix 10 with 6 digits; a reader for decimal texts inverts the layout; witnesses by computation |
| C88 | `Conc.v`: threads as programs of single reads, writes and outputs on shared element memory, interleaved arbitrarily; `ConcApi.v`: each function body as such a program, proved to compute `Model.v`; non-interference by induction over schedules; races by constructing schedules |
| C89 | results expressed as sums over the list of elements; shift of origin (Steiner), Cauchy-Schwarz, Chebyshev; `Rank.v`: the k-th smallest element from the cumulative histogram |
| C90 | elements at integer positions (0 outside); `conv2_full` is a correlation at every integer position, so two of them commute; sums over shifted windows; convex combinations |
| C91 | `CExt.v`: elements in one format, expressions in another, conversions by rounding to nearest even; innocuous double rounding (Flocq) for single operations, errors of the wide operations are relative only, parametricity for equal formats, comparisons and integers |
| C92 | `Program.v`: syntax, evaluation and parametricity of programs; `ProgSim.v`: their meaning over a commutative ring and a simulation by induction on programs from the per-function simulations of Sim.v; instances: congruence modulo 2^w, ranges of signed types, exact rings |
| C93 | dominance survives one elimination step with margins that do not shrink, hence a lower bound on det by induction; the largest component of a solution; multipliers from a solution of U y = e_j; a quadratic form bounded below by the margins; then C22, C24, C28 and C30 |
| C94 | uniqueness of the LU factorisation of A and of its transpose gives U = D*trans(L), so the form is a sum of D_i times squares; leading blocks by congruence with an embedding; powers as congruences of A or of eye; floating point: C55 plus a bound of the form of the error |
| C95 | matrix identities over a field, descending induction for inverses of triangular matrices; floating point: a dot product with one term that is not a product with zero equals that term up to the sign of a zero, induction over the recursion of pow |
| C96 | step by step through the elimination: a step changes nothing but the signs of zeros where the row or the column of the pivot is zero; rows and columns of zeros and NaNs stay such; cofactors of a triangular matrix are triangular, with a zero on the diagonal off the diagonal; C72 for the two determinants of an element; witness |
| C97 | induction on p: powers as sums over tuples of vertices, counted as paths; partial sums of non-negative products are at most the full sum, so the bounded-integer model of C70 never stops, and C70 carries it to int and float; C15/C16 for the unsigned and the never-beyond parts; the companion matrix shifts a window |
| C98 | det, inv and the products are the mathematical ones (C12, C19, C22), the rest is linear algebra: eigenvalues as roots of char_poly and Cayley-Hamilton from mathcomp; a polynomial of degree n with n+1 given values; block determinants both ways; Pythagoras for the residual |
| C99 | std::complex as an element type over any other one, with the recovery of infinities of Annex G (libgcc's __muldc3) as a separate step; parametricity (Param.v) for real, integer and conjugate elements; for the error, induction over the accumulated parts; exact arithmetic against mathcomp's complex numbers |
| C100 | libstdc++'s division, modulus and square root on pairs (`CComplexOps.v`) shown to be those of mathcomp's complex numbers; chol re-proved over any field with square roots (`CholField.v`: loop invariant, leading minors are products of squares of the diagonal) and carried over by parametricity |
| C101 | the library's compare read as an elementwise distance (C34); sums of products, induction on the exponent, the permutation expansion, B' - B = B(A - A')B' and the largest element for inv, counting for the order statistics, Cauchy-Schwarz and Minkowski for stddev |
| C102 | a record of the laws the element type must obey; sums over an arbitrary commutative monoid, the halving of pow as a family of products, induction on the routes; for costs the least element of a set of integers, and cutting out a repeated town (pigeonhole) for the bound n - 1 |
| C103 | a class of dual numbers over any element type; the values by the relational interpretation of `Param.v`; the derivatives over F[e] with e^2 = 0: a local ring, where the pivot search finds a unit whenever the determinant is one (elimination, cofactors, lu and chol redone for such rings), and the morphism sending a polynomial to its first two coefficients; the losses by evaluation in double |
| C104 | the user's loops as iterations of model calls; row-sum norms, the inverse bound of C93 for matrices near the identity, contraction of stochastic matrices with a minorised power, a minimum argument for non-negative inverses; limits by Bernoulli's inequality in an archimedean field |
| C105 | one step by the product's error bound and no-overflow lemma (C51) and one rounding of the sum; invariant for the size and contraction for the error, by induction on the steps; the exact solution as the limit of a convergent series of reals; the cycle by evaluating two steps in double |
| C106 | one simulation from the exact run (functions that do not divide: Param.v) and one from the interval run (functions that divide, Ival.v: if the interval run returns, so does the exact one); the branches of det on == need their own invariant, a member matrix with the same determinant up to sign; the solver test by a weighted maximum norm |
| C107 | the run on residues is related to an exact run: over the integers or the rational numbers for the functions that do not divide, over the field 'F_p for those that do (Param.v; division by Fermat's little theorem); results are carried back by the ring morphism from Z; several primes by divisibility by coprime factors |
| C108 | loop invariants on runs that return (sums of quotients rounded down); whole numbers by the simulation of Sim.v with the relation a = z * 2^f; trans by the generic theorem of C79; the rest by division with remainder |
| C109 | the class runs like exact arithmetic over the ring of k x k matrices (Param.v), where the lemmas of ExactLemmas.v hold without commutativity; cutting a matrix into blocks respects + and *; induction on the depth for strassen; the determinant of four blocks over polynomials, D replaced by D + x |

## Wrong programs

`seeded/LOG.jsonl` has one line per edit of the model made in a scratch copy.
After the edit the development is rebuilt; each proof that no longer goes through
is replaced by `Admitted` in the scratch copy until everything builds.
`first_failures` are those proofs, `theorems_failed` the manifest theorems that
are among them or use one of them, `survived` the claims that were expected to
break and did not.
