{"id": "C01", "title": "trans transposes, for every shape and element type", "statement": "trans(A) of an n x m matrix returns the m x n matrix whose (i,j) element is A's (j,i) element, for any element type including floats with NaNs; consequently trans(trans(A)) is A.", "quantifier": "all sizes n, m (including 0), all element types, all contents", "why_tests_cant": "unbounded sizes and contents", "anchors": ["matrix/matrix_trans.hpp:trans"]}
{"id": "C02", "title": "fill, zeros, ones, eye have exactly the documented elements", "statement": "fill<T,i,j>(d) is the i x j matrix with every element d; zeros is fill with 0; ones<T,n,n>() is fill with 1; eye<T,n>(d) has d on the diagonal and 0 elsewhere, d defaulting to 1.", "quantifier": "all sizes, element types and fill values", "why_tests_cant": "unbounded sizes", "anchors": ["matrix/matrix_fill.hpp:fill", "matrix/matrix_zeros.hpp:zeros", "matrix/matrix_ones.hpp:ones", "matrix/matrix_eye.hpp:eye"]}
{"id": "C03", "title": "ones<a,b>() ignores its first argument", "statement": "The non-type form ones<a,b>() returns the b x b matrix of unsigned ones: the documented 'i,j matrix' shape a x b is obtained only when a = b (for a <> b the documented promise fails).", "quantifier": "all a, b", "why_tests_cant": "the only tests use a = b", "anchors": ["matrix/matrix_ones.hpp:ones"]}
{"id": "C04", "title": "concatenate / concatenateV / concatenateH join without losing, moving or duplicating an element", "statement": "Vertical concatenation yields the rows of A followed by the rows of B; horizontal concatenation yields, in each row, A's elements followed by B's; the square versions concatenateV and concatenateH agree with the general ones.", "quantifier": "all shapes, element types and contents", "why_tests_cant": "unbounded sizes and contents", "anchors": ["matrix/matrix_concatenate.hpp:concatenate", "matrix/matrix_concatenate.hpp:concatenateV", "matrix/matrix_concatenate.hpp:concatenateH"]}
{"id": "C05", "title": "concatenate of two square matrices: first component right, second component wrong", "statement": "For two n x n matrices, concatenate(A,B).first is A above B. The documented second component 'joined horizontally' is broken: .second is always [A|A], whatever B is, so it equals [A|B] only when A = B.", "quantifier": "all n, element types, A, B", "why_tests_cant": "the test only checks .first", "anchors": ["matrix/matrix_concatenate.hpp:concatenate"]}
{"id": "C06", "title": "swap_rows / swap_cols exchange exactly two rows / columns", "statement": "swap_rows(A,r1,r2) with r1,r2 in range exchanges the two rows and changes nothing else, is its own inverse and symmetric in r1,r2; same for swap_cols. With r1 = r2 it does nothing even out of range. With r1 <> r2 and one of them out of range, on a matrix with at least one column (row for swap_cols), behaviour is undefined.", "quantifier": "all shapes, contents and index pairs", "why_tests_cant": "all index pairs and sizes; undefined behaviour is invisible to a passing test", "anchors": ["matrix/matrix_swap.hpp:swap_rows", "matrix/matrix_swap.hpp:swap_cols"]}
{"id": "C07", "title": "getminor deletes exactly row i and column j", "statement": "For i,j < n, getminor(A,i,j) is A without row i and column j, all other elements kept in order (the doc comment says column i and row j: that reading fails). For n >= 2 and i >= n or j >= n the call writes outside the result: undefined behaviour.", "quantifier": "all n, all A, all i and j", "why_tests_cant": "unbounded; out-of-range calls are UB", "anchors": ["matrix/matrix_inv.hpp:getminor"]}
{"id": "C08", "title": "no API function ever reads or writes out of bounds or loops forever on well-shaped arguments", "statement": "For every element type whatsoever (even one whose arithmetic misbehaves: NaN, overflow, inexact division) and every well-shaped argument, no function except swap/getminor with bad indices, median of an empty matrix and conv2 on more than 2^31 rows/columns indexes outside an array, and the determinant's pivot search and pow's recursion terminate.", "quantifier": "all element types, sizes, contents", "why_tests_cant": "memory safety and termination must hold for every input", "anchors": ["matrix/matrix_det.hpp:det", "matrix/matrix_inv.hpp:inv", "matrix/matrix_lu.hpp:lu", "matrix/matrix_cholesky.hpp:chol", "matrix/matrix_mult.hpp:mult", "matrix/matrix_pow.hpp:pow", "matrix/matrix_conv2.hpp:conv2_full"]}
{"id": "C09", "title": "A++ and A-- leave A unchanged and return A+1 / A-1", "statement": "A++ returns the matrix A + 1 (the new value, unlike the built-in postfix operator) and does not modify A; same for A--.", "quantifier": "all shapes, element types, contents", "why_tests_cant": "must hold for every matrix", "anchors": ["matrix/matrix_sum.hpp:operator++", "matrix/matrix_sub.hpp:operator--"]}
{"id": "C10", "title": "sums and differences are elementwise and obey the group laws", "statement": "In exact arithmetic (any ring) A+B, A-B, A+s, s+A, A-s are the elementwise results for every shape; hence + is commutative and associative, zeros is neutral, (A+B)-B = A, A-A = zeros, (A+s)-s = A.", "quantifier": "all rings, shapes and matrices", "why_tests_cant": "algebraic laws over all values", "anchors": ["matrix/matrix_sum.hpp:sum", "matrix/matrix_sub.hpp:sub"]}
{"id": "C11", "title": "scalar operand order does not matter, for every element type", "statement": "s+A and A+s, and s*A and A*s, are the same computation with the same result and the same failure behaviour, bit for bit, for every element type.", "quantifier": "all element types, shapes, scalars", "why_tests_cant": "all inputs", "anchors": ["matrix/matrix_sum.hpp:operator+", "matrix/matrix_mult.hpp:operator*"]}
{"id": "C12", "title": "A*B is the matrix product and A*s the scalar multiple", "statement": "In exact arithmetic (any ring) mult of an n x m by an m x p matrix returns exactly the mathematical matrix product, and mult by a scalar the scaled matrix, for every n, m, p including 0.", "quantifier": "all rings, sizes and matrices", "why_tests_cant": "unbounded sizes and values", "anchors": ["matrix/matrix_mult.hpp:mult", "matrix/matrix_mult.hpp:operator*"]}
{"id": "C13", "title": "algebraic laws of the product", "statement": "In exact arithmetic: (A*B)*C = A*(B*C), A*(B+C) = A*B + A*C, (A+B)*C = A*C+B*C, eye*A = A = A*eye, zeros*A = zeros, (s*A)*B = s*(A*B), and trans(A*B) = trans(B)*trans(A) (commutative ring).", "quantifier": "all rings, compatible sizes and matrices", "why_tests_cant": "laws over all values", "anchors": ["matrix/matrix_mult.hpp:mult", "matrix/matrix_trans.hpp:trans", "matrix/matrix_eye.hpp:eye", "matrix/matrix_sum.hpp:sum"]}
{"id": "C14", "title": "strassen agrees with A*B", "statement": "For 2x2 matrices strassen(A,B) returns the same matrix as A*B in exact arithmetic over every ring and for 32/64-bit unsigned integers. For signed int it does not: there are A, B whose product is representable while strassen overflows (undefined behaviour); for float there are A, B where the two results differ.", "quantifier": "all 2x2 matrices", "why_tests_cant": "2^256 inputs; overflow and rounding cases", "anchors": ["matrix/matrix_strassen.hpp:strassen", "matrix/matrix_mult.hpp:mult"]}
{"id": "C15", "title": "unsigned integer matrices compute modulo 2^w", "statement": "For unsigned int and unsigned long elements, sum, difference, scalar product, matrix product, strassen, det of sizes 1..3 and conv2 never fail and every element of the result is the exact integer result reduced modulo 2^w.", "quantifier": "all sizes and contents in range", "why_tests_cant": "all values including wrap-around", "anchors": ["matrix/matrix_sum.hpp:sum", "matrix/matrix_sub.hpp:sub", "matrix/matrix_mult.hpp:mult", "matrix/matrix_strassen.hpp:strassen", "matrix/matrix_det.hpp:det", "matrix/matrix_conv2.hpp:conv2"]}
{"id": "C16", "title": "signed integer results are exact or undefined, and are exact within an explicit bound", "statement": "For int and long elements, whenever sum, difference, product, strassen or det (sizes 1..3) returns, the result is the exact integer result; and mult of n x m by m x p returns whenever |a| <= a0, |b| <= b0 and m*a0*b0 <= INT_MAX.", "quantifier": "all sizes and contents", "why_tests_cant": "all values including extreme ones", "anchors": ["matrix/matrix_sum.hpp:sum", "matrix/matrix_mult.hpp:mult", "matrix/matrix_det.hpp:det"]}
{"id": "C17", "title": "unsigned short products can be undefined", "statement": "Although unsigned short is an unsigned type, mult on Matrix<unsigned short> promotes to int and has undefined behaviour on some inputs (65535*65535); sum and difference never have.", "quantifier": "all contents (sum, difference); existence (product)", "why_tests_cant": "UB is silent", "anchors": ["matrix/matrix_mult.hpp:mult", "matrix/matrix_sum.hpp:sum"]}
{"id": "C18", "title": "division by a scalar", "statement": "In exact arithmetic A/s with s <> 0 is the elementwise quotient and (A/s)*s = A = (A*s)/s; for every element type, s == 0 terminates the program (a bare throw;) before anything is computed, rather than raising a catchable exception.", "quantifier": "all fields / element types, shapes, A, s", "why_tests_cant": "all inputs; std::terminate kills the test runner", "anchors": ["matrix/matrix_div.hpp:div", "matrix/matrix_div.hpp:operator/"]}
{"id": "C19", "title": "det is the determinant, for every size", "statement": "In exact arithmetic over any field, det(A) returns the determinant (Leibniz formula) of A, for every n >= 0 and every A, singular or not; no division by zero is ever executed.", "quantifier": "all fields, all n, all n x n matrices", "why_tests_cant": "unbounded size; every pivoting pattern", "anchors": ["matrix/matrix_det.hpp:det"]}
{"id": "C20", "title": "determinant laws", "statement": "In exact arithmetic: det(A*B) = det(A)*det(B), det(trans(A)) = det(A), det(eye) = 1, swapping two different rows or columns negates det, det(s*A) = s^n det(A).", "quantifier": "all fields, n, A, B", "why_tests_cant": "laws over all values", "anchors": ["matrix/matrix_det.hpp:det", "matrix/matrix_mult.hpp:mult", "matrix/matrix_trans.hpp:trans", "matrix/matrix_swap.hpp:swap_rows"]}
{"id": "C21", "title": "det of integer matrices is exact up to 3x3 and wrong from 4x4 on", "statement": "For int matrices of size 1..3 det returns the exact determinant whenever it returns. For every integer type and every size from 4 on there are matrices with elements 0, 1 and 2 (so nothing overflows) where det returns 2 and the determinant is 1, where it returns 0 for a matrix of determinant -1, and where it returns 2 for a singular matrix, because the elimination truncates. On upper triangular matrices without zeros on the diagonal it is exact at every size, if the products of the first diagonal elements fit the type.", "quantifier": "all int matrices n <= 3; all integer types and all sizes n >= 4", "why_tests_cant": "tests only use float", "anchors": ["matrix/matrix_det.hpp:det"]}
{"id": "C22", "title": "inv is the two-sided inverse", "statement": "In exact arithmetic over any field, for every n >= 1 and A with non-zero determinant inv(A) returns, and A*inv(A) = inv(A)*A = eye.", "quantifier": "all fields, n >= 1, invertible A", "why_tests_cant": "unbounded sizes and values", "anchors": ["matrix/matrix_inv.hpp:inv", "matrix/matrix_inv.hpp:getminor"]}
{"id": "C23", "title": "inv of a singular matrix: three different failure modes", "statement": "If det(A) = 0, inv throws std::overflow_error for n = 2, 3, but divides by zero without any check for n = 1 and calls std::terminate for n >= 4 — the documented 'error when A is zero' is not uniform. inv never returns normally on a singular matrix in exact arithmetic.", "quantifier": "all fields, n >= 1, singular A", "why_tests_cant": "termination kills the test runner; all singular matrices", "anchors": ["matrix/matrix_inv.hpp:inv", "matrix/matrix_div.hpp:div"]}
{"id": "C24", "title": "inverse laws", "statement": "In exact arithmetic: inv(inv(A)) = A, inv(A*B) = inv(B)*inv(A), inv(trans A) = trans(inv A), det(inv A)*det A = 1, and inv(eye) = eye.", "quantifier": "all fields, n >= 1, invertible A, B", "why_tests_cant": "laws over all values", "anchors": ["matrix/matrix_inv.hpp:inv", "matrix/matrix_det.hpp:det", "matrix/matrix_trans.hpp:trans"]}
{"id": "C25", "title": "pow is the matrix power", "statement": "In exact arithmetic, for every n and every 32/64-bit exponent p >= 0 pow(A,p) = A*...*A (p factors, eye for p = 0); for n >= 1, p < 0 (above the least value) and A invertible pow(A,p) = inv(A)^|p|.", "quantifier": "all fields, n, A, exponents", "why_tests_cant": "unbounded exponents and sizes", "anchors": ["matrix/matrix_pow.hpp:pow"]}
{"id": "C26", "title": "pow at the edges of the exponent type, and for inexact types", "statement": "pow(A, INT_MIN) is undefined behaviour; for an 8- or 16-bit exponent type the least value returns A^(2^(w-1)) instead of its inverse. For every element type (also float) pow(A,1) is A, pow(A,2) is A*A and pow(A,3) is (A*A)*A bit for bit.", "quantifier": "all element types, sizes and matrices; the least exponent of each width", "why_tests_cant": "edge exponents, UB", "anchors": ["matrix/matrix_pow.hpp:pow"]}
{"id": "C27", "title": "lu returns a unit lower and an upper triangular factor whose product is A", "statement": "In exact arithmetic, whenever lu(A) returns (L,U): L is lower triangular with ones on the diagonal, U is upper triangular with non-zero diagonal and L*U = A; and these are the only such matrices.", "quantifier": "all fields, n, A", "why_tests_cant": "unbounded sizes and values", "anchors": ["matrix/matrix_lu.hpp:lu"]}
{"id": "C28", "title": "lu throws exactly when a leading principal minor vanishes", "statement": "In exact arithmetic lu(A) returns if and only if every leading principal minor of A of order 1..n is non-zero (so it also throws for matrices that have an LU factorisation but are singular), and otherwise throws std::overflow_error; no other outcome is possible.", "quantifier": "all fields, n, A", "why_tests_cant": "iff over all matrices", "anchors": ["matrix/matrix_lu.hpp:lu"]}
{"id": "C29", "title": "lu and det agree", "statement": "In exact arithmetic, whenever lu(A) = (L,U) returns, det(A) is the product of U's diagonal.", "quantifier": "all fields, n, A", "why_tests_cant": "two independent algorithms, all inputs", "anchors": ["matrix/matrix_lu.hpp:lu", "matrix/matrix_det.hpp:det"]}
{"id": "C30", "title": "chol factors every symmetric positive definite matrix", "statement": "In exact real arithmetic (any real closed field), if A is symmetric and positive definite then chol(A) returns a lower triangular L with positive diagonal and L*trans(L) = A.", "quantifier": "all real closed fields, n, A", "why_tests_cant": "unbounded sizes and values", "anchors": ["matrix/matrix_cholesky.hpp:chol"]}
{"id": "C31", "title": "chol looks only at the lower triangle and never checks symmetry", "statement": "For every element type, if A and B agree on and below the diagonal then chol(A) and chol(B) have the same outcome. In exact arithmetic, whenever chol(A) returns L, L*trans(L) is the symmetric matrix with A's lower triangle; so for non-symmetric A, L*trans(L) <> A although no error is reported.", "quantifier": "all element types / real closed fields, n, A, B", "why_tests_cant": "relational property over pairs of inputs", "anchors": ["matrix/matrix_cholesky.hpp:chol", "matrix/matrix_cholesky.hpp:isSymetric"]}
{"id": "C32", "title": "isSymetric decides symmetry", "statement": "isSymetric(A) returns true iff A[i][j] == A[j][i] for all j < i (using the element type's ==; the diagonal is never inspected, so a NaN there is not noticed), for every element type; in exact arithmetic iff trans(A) = A.", "quantifier": "all element types, n, A", "why_tests_cant": "all inputs", "anchors": ["matrix/matrix_cholesky.hpp:isSymetric"]}
{"id": "C33", "title": "isIdentity decides the identity", "statement": "isIdentity(A) returns true iff A equals eye<unsigned int,n>(), i.e. iff every diagonal element is 1 and every other element 0.", "quantifier": "all n and unsigned matrices", "why_tests_cant": "all inputs", "anchors": ["matrix/matrix_utils.hpp:isIdentity"]}
{"id": "C34", "title": "compare is an exact tolerance test", "statement": "In exact ordered arithmetic compare(A,B,e) is true iff |A[i][j]-B[i][j]| <= e for all i,j; it is reflexive for e >= 0, symmetric, monotone in e, and compare(A,B,e1), compare(B,C,e2) imply compare(A,C,e1+e2).", "quantifier": "all ordered fields, shapes, A, B, C, e", "why_tests_cant": "all inputs", "anchors": ["matrix/matrix_utils.hpp:compare"]}
{"id": "C35", "title": "compare is blind to NaN, and for int to differences beyond float precision", "statement": "For float and double, compare returns true iff no element difference is strictly greater than e; in particular a matrix of NaNs compares equal to anything (the test helper accepts NaN results). For finite equal matrices and e >= 0 it returns true. For int there are matrices differing by more than e that compare equal.", "quantifier": "all float matrices; existence for int", "why_tests_cant": "NaN is what the tests' own oracle cannot see", "anchors": ["matrix/matrix_utils.hpp:compare"]}
{"id": "C36", "title": "abs is the elementwise absolute value", "statement": "abs(A) is elementwise |A| (exact ordered arithmetic): non-negative, idempotent; the uninitialised result array never leaks into the result, for every element type; for int it is exact unless some element is INT_MIN, when it is undefined.", "quantifier": "all ordered fields / element types, shapes, contents, initial memory", "why_tests_cant": "uninitialised memory, INT_MIN", "anchors": ["matrix/matrix_abs.hpp:abs"]}
{"id": "C37", "title": "mean is the arithmetic mean", "statement": "In exact arithmetic mean(A) = (sum of all elements)/(i*j) for a non-empty matrix, lies between the least and greatest element, mean(A+s) = mean(A)+s, mean(s*A) = s*mean(A); the mean of an empty matrix divides by zero.", "quantifier": "all ordered fields, shapes, A", "why_tests_cant": "all inputs", "anchors": ["matrix/matrix_mean.hpp:mean"]}
{"id": "C38", "title": "mean of int matrices with a negative sum is wrong", "statement": "For int matrices whose element sum is non-negative, mean returns the truncated mean; for negative sums the division is carried out in size_t and there is a matrix of small elements whose returned mean is larger than every element.", "quantifier": "all int matrices with non-negative representable sum; existence", "why_tests_cant": "tests only use float", "anchors": ["matrix/matrix_mean.hpp:mean"]}
{"id": "C39", "title": "var and stddev", "statement": "In exact arithmetic var(A) is the mean squared deviation from the mean, var(A) >= 0, var(A) = 0 iff all elements are equal, var(A) = mean(A^2) - mean(A)^2, var(A+s) = var(A), var(s*A) = s^2 var(A); stddev(A) >= 0 and stddev(A)^2 = var(A).", "quantifier": "all real closed fields, non-empty shapes, A", "why_tests_cant": "all inputs", "anchors": ["matrix/matrix_var.hpp:var", "matrix/matrix_stddev.hpp:stddev"]}
{"id": "C40", "title": "median is the middle order statistic", "statement": "If the elements are strictly weakly ordered by <, then for an odd number of elements median(A) is an element with at most half of the elements strictly below and at most half strictly above; for an even positive number it is (x+y)/2 with x,y the two middle elements of the sorted sequence; the result does not depend on the order of the elements nor (exact arithmetic) on the sorting algorithm. The median of an empty matrix is undefined behaviour.", "quantifier": "all element types, shapes, contents, sorting algorithms", "why_tests_cant": "all inputs and permutations", "anchors": ["matrix/matrix_median.hpp:median"]}
{"id": "C41", "title": "histogram counts exactly", "statement": "If < is a strict weak order on the elements, histogram(A) has strictly increasing keys, a key for exactly the values occurring in A, each mapped to its number of occurrences, and the counts add up to i*j (for fewer than 2^64 elements).", "quantifier": "all element types, shapes, contents", "why_tests_cant": "all inputs", "anchors": ["matrix/matrix_histogram.hpp:histogram"]}
{"id": "C42", "title": "cumulative_histogram counts elements not greater than the key", "statement": "Under the same condition cumulative_histogram(A) has the same keys, each mapped to the number of elements not greater than it; it is non-decreasing and its last value is i*j.", "quantifier": "all element types, shapes, contents", "why_tests_cant": "never tested at all; all inputs", "anchors": ["matrix/matrix_histogram.hpp:cumulative_histogram"]}
{"id": "C43", "title": "conv2 computes cross-correlation, not the documented convolution", "statement": "In exact arithmetic conv2(A,k)[r][c] is the sum over a,b in 0..2 of k[a][b]*A[r+a-1][c+b-1] with elements outside A counted as 0: the correlation, i.e. Octave's conv2(...,'same') of the kernel rotated by 180 degrees. It equals Octave's conv2 on every A iff the kernel is invariant under that rotation; the documented equality fails for other kernels.", "quantifier": "all rings, shapes, A, kernels", "why_tests_cant": "every test kernel is symmetric", "anchors": ["matrix/matrix_conv2.hpp:conv2"]}
{"id": "C44", "title": "conv2's bounds test is right exactly up to 2^31 rows and columns", "statement": "For at most 2^31 rows and columns the bounds test of conv2/conv2_full rejects exactly the positions outside A; for more, some position inside A is treated as outside, because indices are squeezed through int.", "quantifier": "all sizes and positions", "why_tests_cant": "matrices with 2^31 rows cannot be tested", "anchors": ["matrix/matrix_conv2.hpp:conv2", "matrix/matrix_conv2.hpp:conv2_full"]}
{"id": "C45", "title": "the three convolution variants agree, for every element type", "statement": "For every element type, conv2(A,k)[r][c] is bit for bit conv2_full(A,k)[r+1][c+1], and conv2_valid(A,k)[r][c] is conv2(A,k)[r+1][c+1] (square A, n >= 2), with shapes (i+2)x(j+2), i x j, (n-2)x(n-2). In exact arithmetic conv2_full is the full correlation and conv2_valid uses only positions where the kernel lies inside A.", "quantifier": "all element types, shapes, A, kernels", "why_tests_cant": "relates three functions on all inputs", "anchors": ["matrix/matrix_conv2.hpp:conv2", "matrix/matrix_conv2.hpp:conv2_full", "matrix/matrix_conv2.hpp:conv2_valid"]}
{"id": "C46", "title": "conv2 is linear in the matrix and in the kernel", "statement": "In exact commutative arithmetic conv2(A+B,k) = conv2(A,k)+conv2(B,k), conv2(s*A,k) = s*conv2(A,k), and the same in the kernel; the kernel with a single 1 in the centre is neutral.", "quantifier": "all commutative rings, shapes, A, B, k, s", "why_tests_cant": "laws over all values", "anchors": ["matrix/matrix_conv2.hpp:conv2"]}
{"id": "C47", "title": "print writes the matrix in row-major order and loses nothing", "statement": "print(A) writes each row on one line, every element followed by one space; for integer element types the printed text determines A (a parser recovers it).", "quantifier": "all shapes, contents", "why_tests_cant": "all inputs", "anchors": ["matrix/matrix_print.hpp:print"]}
{"id": "C48", "title": "float: multiplying by eye gives back every finite matrix", "statement": "For float and double, A*eye and eye*A equal A under == for every matrix of finite elements; with at least two columns, A*eye == A holds only for such matrices (0*inf = NaN).", "quantifier": "all shapes and finite contents", "why_tests_cant": "2^32 values per element, all sizes", "anchors": ["matrix/matrix_mult.hpp:mult", "matrix/matrix_eye.hpp:eye"]}
{"id": "C49", "title": "float: which algebraic laws survive rounding", "statement": "For float and double A+B and B+A are identical, A-A is all zeros for finite A, A*(+1) equals A, trans(trans A) is A; but + is not associative and (A+B)-B need not be A (witnesses).", "quantifier": "all shapes and contents; existence", "why_tests_cant": "all bit patterns", "anchors": ["matrix/matrix_sum.hpp:sum", "matrix/matrix_sub.hpp:sub", "matrix/matrix_mult.hpp:mult"]}
{"id": "C50", "title": "float: A*trans(A) passes isSymetric", "statement": "For every element type with commutative multiplication (int, unsigned, float, double) the product A*trans(A) computed by the library is exactly symmetric, so isSymetric accepts it (for float: provided no element of the product is NaN).", "quantifier": "all element types with commutative *, all shapes and contents", "why_tests_cant": "bit-level property of rounding for all inputs", "anchors": ["matrix/matrix_mult.hpp:mult", "matrix/matrix_trans.hpp:trans", "matrix/matrix_cholesky.hpp:isSymetric"]}
{"id": "C51", "title": "float: a priori error bound of the matrix product", "statement": "For float and double, if no intermediate overflows, every element of mult(A,B) differs from the exact dot product by at most ((1+u)^m - 1)*sum|a||b| plus an explicit underflow term, u the unit roundoff, m the inner dimension.", "quantifier": "all sizes and finite contents", "why_tests_cant": "rounding error over all inputs", "anchors": ["matrix/matrix_mult.hpp:mult"]}
{"id": "C52", "title": "float: lu returns an exact unit diagonal", "statement": "For float and double, whenever lu(A) returns and the pivots U[j][j] are finite, every diagonal element of L is exactly 1 and every element of L above / U below the diagonal exactly 0.", "quantifier": "all sizes and contents", "why_tests_cant": "rounding could disturb it on some input", "anchors": ["matrix/matrix_lu.hpp:lu"]}
{"id": "C53", "title": "NaN elements make median and histogram undefined", "statement": "For float and double, median and histogram of a matrix containing a NaN together with two different ordinary values are undefined behaviour (< is no strict weak order); without NaN they are always defined (non-empty matrix).", "quantifier": "all float matrices", "why_tests_cant": "UB is silent", "anchors": ["matrix/matrix_median.hpp:median", "matrix/matrix_histogram.hpp:histogram"]}
{"id": "C54", "title": "float: L*U of lu(A) is close to A", "statement": "For float and double, whenever lu(A) returns factors with finite elements, every element of the exact product L*U differs from A by at most ((1+u)^n - 1)*(|L||U|) plus an explicit underflow term, u the unit roundoff: lu is backward stable in the sense of Wilkinson, with no assumption on A.", "quantifier": "all sizes and contents", "why_tests_cant": "rounding error over all inputs", "anchors": ["matrix/matrix_lu.hpp:lu"]}
{"id": "C55", "title": "float: L*trans(L) of chol(A) is close to A", "statement": "For float and double, chol(A) always returns; whenever the returned L has finite elements its diagonal is non-negative and every element of the exact product L*trans(L) on and below the diagonal differs from A by at most ((1+u)^(n+2) - 1)*(|L||trans(L)|) plus an explicit underflow term. Taking sqrt of a float in double and rounding back gives the same element.", "quantifier": "all sizes and contents", "why_tests_cant": "rounding error over all inputs", "anchors": ["matrix/matrix_cholesky.hpp:chol"]}
{"id": "C56", "title": "float: error bound of mean", "statement": "For float and double, if the number N of elements is at most 2^prec and mean(A) is finite, it differs from the exact mean by at most ((1+u)^N - 1)*mean(|A|) plus half the smallest positive number.", "quantifier": "all sizes up to 2^prec and all contents", "why_tests_cant": "rounding error over all inputs", "anchors": ["matrix/matrix_mean.hpp:mean"]}
{"id": "C57", "title": "float: variance is never negative", "statement": "For float and double var(A) is NaN or has its sign bit clear, so stddev(A) is NaN only if var(A) is; a finite var(A) differs from the exact mean square deviation V from the computed mean by at most ((1+u)^(N+3) - 1)*V plus an underflow term. Against the variance V0 of the elements (deviation from the exact mean) the error is at most ((1+u)^(N+3) - 1)*V0 + (1+u)^(N+3)*d^2 plus an underflow term, d the error bound of the mean (C56); the standard deviation is off by at most the square root of that bound plus one rounding.", "quantifier": "all sizes and contents", "why_tests_cant": "rounding could make it negative on some input", "anchors": ["matrix/matrix_var.hpp:var", "matrix/matrix_stddev.hpp:stddev"]}
{"id": "C58", "title": "float: mean of equal elements need not be that element", "statement": "There are float and double matrices with all elements equal to x whose mean is larger than x and whose variance is positive.", "quantifier": "existence, float and double", "why_tests_cant": "a counterexample must be found and certified", "anchors": ["matrix/matrix_mean.hpp:mean", "matrix/matrix_var.hpp:var"]}
{"id": "C59", "title": "float: determinant error and reliability of the zero test of inv", "statement": "For float and double, det of 2x2 and 3x3 matrices has an explicit error bound; inv rejects every exactly singular 2x2 matrix whose products do not overflow, accepts every 2x2 and 3x3 matrix whose determinant exceeds the bound, and every element of a 2x2 or 3x3 inverse has an explicit error bound. The zero test is not reliable otherwise: an exactly singular 3x3 matrix of small integers is accepted, a singular 2x2 matrix whose products overflow is accepted, and an integer 2x2 matrix of determinant 1 is rejected.", "quantifier": "all contents; existence for the failures", "why_tests_cant": "rounding error over all inputs", "anchors": ["matrix/matrix_det.hpp:det", "matrix/matrix_inv.hpp:inv"]}
{"id": "C60", "title": "benchmarks: which loops stay inside the matrix and which overflow", "statement": "The row-order cache benchmark is in bounds for every size. The column-order one exchanges the bounds but not the subscripts, so it reads out of bounds exactly for non-square non-empty sizes, and on square sizes it visits the elements in row order. The random-order one reads out of bounds exactly when the distribution draws its upper end, which is possible for every size. setRand overwrites every element. The int multiplication benchmark returns the exact product when every element of it fits in int and is a signed overflow otherwise; Strassen's benchmark overflows when the first row sums above INT_MAX.", "quantifier": "all sizes, contents and random draws", "why_tests_cant": "random draws and uninitialised contents differ from run to run", "anchors": ["bench/cache/cache.hpp:row_major", "bench/cache/cache.hpp:col_major", "bench/cache/cache.hpp:rand_major", "bench/inc/setRand.hpp:setRand", "bench/multiply/multiply.hpp:multiply", "bench/det/det.hpp:det", "bench/inv/inv.hpp:inv"]}
{"id": "C61", "title": "int and double compute the same numbers until an int would overflow", "statement": "Take a matrix of int and its copy in double. Whenever the int version of sum, sub, scalar sum/sub/mult, abs, mult, strassen, pow (non-negative exponent), det up to 3x3, conv2, conv2_full, conv2_valid, isSymetric, isIdentity, histogram or cumulative_histogram returns, the double version returns exactly the same values. Division and det from 4x4 on are exceptions (7/2; a 4x4 matrix with int result 2 and double result 1). Holds for every signed type of at least 32 bits that fits in the significand.", "quantifier": "all sizes and contents, all such pairs of types", "why_tests_cant": "equality of two instantiations over all inputs", "anchors": ["matrix/matrix_sum.hpp:sum", "matrix/matrix_mult.hpp:mult", "matrix/matrix_strassen.hpp:strassen", "matrix/matrix_pow.hpp:pow", "matrix/matrix_det.hpp:det", "matrix/matrix_conv2.hpp:conv2", "matrix/matrix_histogram.hpp:histogram"]}
{"id": "C62", "title": "floating point is exact on small integers", "statement": "For float, double and any other binary format with prec significant bits, if the entries of A and B are integers of absolute value at most a and b, then the result is the exact integer one: sum and sub if a+b <= 2^prec, mult if m*a*b <= 2^prec, pow(A,q) if n^(q-1)*a^q <= 2^prec, strassen if 12*a*b <= 2^prec, det 2x2 if 2*a^2, det 3x3 if 6*a^3, conv2 and conv2_full if 9*a*b <= 2^prec. 2^53 + 1 shows the limit is sharp.", "quantifier": "all sizes and contents within the bounds", "why_tests_cant": "all inputs below the bound", "anchors": ["matrix/matrix_sum.hpp:sum", "matrix/matrix_sub.hpp:sub", "matrix/matrix_mult.hpp:mult", "matrix/matrix_pow.hpp:pow", "matrix/matrix_strassen.hpp:strassen", "matrix/matrix_det.hpp:det", "matrix/matrix_conv2.hpp:conv2"]}
{"id": "C63", "title": "float: larger non-negative arguments give larger results", "statement": "For float and double, if 0 <= A <= A' and 0 <= B <= B' element by element, the computed sum, product, scalar product, power and convolutions satisfy 0 <= f(A,B) <= f(A',B') element by element wherever the larger result is finite. The computed mean and sum are monotone without a condition on signs, where finite.", "quantifier": "all sizes and contents", "why_tests_cant": "rounding could reverse the order for some input", "anchors": ["matrix/matrix_sum.hpp:sum", "matrix/matrix_mult.hpp:mult", "matrix/matrix_pow.hpp:pow", "matrix/matrix_conv2.hpp:conv2", "matrix/matrix_mean.hpp:mean"]}
{"id": "C64", "title": "float: |A*B| <= |A|*|B| for the computed products", "statement": "For float and double every element of mult(A,B), sum(A,B), pow(A,p), conv2(A,k) is in absolute value at most the element of the same function computed on the absolute values, wherever the latter is finite.", "quantifier": "all sizes and contents", "why_tests_cant": "rounding could break it for some input", "anchors": ["matrix/matrix_sum.hpp:sum", "matrix/matrix_mult.hpp:mult", "matrix/matrix_pow.hpp:pow", "matrix/matrix_conv2.hpp:conv2"]}
{"id": "C65", "title": "float: error bound of powers", "statement": "For float and double and every p >= 1, every finite element of pow(A,p) differs from the exact power by at most ((1+u)^((p-1)n) - 1) times the element of |A|^p, provided the entries are multiples of 2^-t with p*t within the exponent range (so that nothing underflows); non-negative matrices are therefore raised to powers with small relative error in every element. For a single product the factor is (1+u)^n - 1, without an underflow term.", "quantifier": "all sizes, exponents and contents clear of underflow", "why_tests_cant": "rounding error over all inputs and all multiplication sequences", "anchors": ["matrix/matrix_pow.hpp:pow", "matrix/matrix_mult.hpp:mult"]}
{"id": "C66", "title": "float: error bound of convolution", "statement": "For float and double, every finite element of conv2(A,k) and conv2_full(A,k) differs from the exact correlation by at most ((1+u)^9 - 1) times the correlation of |A| with |k|, when the products do not underflow; the bound does not depend on the size of A.", "quantifier": "all sizes and contents clear of underflow", "why_tests_cant": "rounding error over all inputs", "anchors": ["matrix/matrix_conv2.hpp:conv2", "matrix/matrix_conv2.hpp:conv2_full"]}
{"id": "C67", "title": "float: strassen is accurate only relative to the largest entries", "statement": "For float and double, if the entries of A and B are at most a and b in absolute value, every finite element of strassen(A,B) differs from the exact product by at most 12((1+u)^6 - 1)ab. No bound relative to |A||B| holds: there are non-negative matrices for which mult returns a positive element exactly and strassen returns 0 for it.", "quantifier": "all contents clear of underflow; existence for the failure", "why_tests_cant": "rounding error over all inputs", "anchors": ["matrix/matrix_strassen.hpp:strassen", "matrix/matrix_mult.hpp:mult"]}
{"id": "C68", "title": "integer stddev is the integer square root of the variance", "statement": "For every integer element type, if var(A) = v with 0 <= v < 2^52, stddev(A) is the r >= 0 with r^2 <= v < (r+1)^2. For larger v (64-bit types) it is that number or one more, and one more does happen. A negative variance makes stddev undefined.", "quantifier": "all integer types, sizes, contents", "why_tests_cant": "the square root goes through double: the rounding must be right for each of 2^52 arguments", "anchors": ["matrix/matrix_stddev.hpp:stddev", "matrix/matrix_var.hpp:var"]}
{"id": "C69", "title": "integer lu and chol: how far the product is from A", "statement": "For int and long matrices of any size: when lu(A) returns (L,U), L is unit lower and U upper triangular, L*U equals A on and above the diagonal, and below it differs by less than |U[j][j]|. When chol(A) returns L, L is lower triangular with non-negative diagonal and L*trans(L) differs from the lower triangle of A by less than |L[j][j]| off the diagonal and by at most 2*L[i][i] on it, never exceeding A[i][i] while A[i][i] < 2^52. The bounds are attained.", "quantifier": "all n, all contents, signed types of 32 to 64 bits", "why_tests_cant": "truncations accumulate over n steps; the bound is for all contents", "anchors": ["matrix/matrix_lu.hpp:lu", "matrix/matrix_cholesky.hpp:chol"]}
{"id": "C70", "title": "where no rounding is needed all element types agree, and are right", "statement": "If a matrix of integers can be processed by a function so that every division comes out even, every square root is that of a square and nothing exceeds a bound B, then signed integer types with B <= MAX, float, double and every binary format with B <= 2^prec return the same numbers, for div, det (any size), inv, pow (any exponent), lu, chol, mean, var and stddev; int, float and double then also throw the same exceptions in inv, lu and chol. Those numbers are the mathematical ones: the determinant, the inverse, factors with L*U = A or L*trans(L) = A, the mean, variance and deviation.", "quantifier": "all sizes, contents and exponents", "why_tests_cant": "equality of many instantiations over all inputs", "anchors": ["matrix/matrix_div.hpp:div", "matrix/matrix_det.hpp:det", "matrix/matrix_inv.hpp:inv", "matrix/matrix_pow.hpp:pow", "matrix/matrix_lu.hpp:lu", "matrix/matrix_cholesky.hpp:chol", "matrix/matrix_mean.hpp:mean", "matrix/matrix_var.hpp:var", "matrix/matrix_stddev.hpp:stddev"]}
{"id": "C71", "title": "lu, chol and det recover integer factors exactly", "statement": "If A = L*U with L unit lower triangular, U upper triangular with non-zero diagonal, integer entries of absolute value at most a and b, and n*a*b at most the largest value of a signed integer type (2^prec for a floating-point format), then lu(A) is exactly (L, U) on that type. If A = L*trans(L), L lower triangular with positive diagonal, n*a*a within the limit, chol(A) is exactly L. From 4x4 on, det(L*U) is exactly the product of U's diagonal when also a*b^2 and b^n are within the limit.", "quantifier": "all n, all such factors, all signed integer types up to 64 bits and all binary formats", "why_tests_cant": "all integer factors", "anchors": ["matrix/matrix_lu.hpp:lu", "matrix/matrix_cholesky.hpp:chol", "matrix/matrix_det.hpp:det"]}
{"id": "C72", "title": "float: det of larger matrices is the determinant of a nearby matrix", "statement": "For float, double and every binary format and every n >= 4, a finite non-zero det(A) is, up to the n+1 roundings of the final product, exactly the determinant of A + E, where every element of E is at most ((1+u)^(n+1) - 1) times the element of |L||U| for the factors L, U the elimination computed on the reordered rows (plus an explicit underflow term). The factors can be much larger than A: there are non-singular integer matrices for which det returns 0 and inv ends the program.", "quantifier": "all n >= 4, all contents, all binary formats; existence for the failure", "why_tests_cant": "rounding error over all inputs and all pivot sequences", "anchors": ["matrix/matrix_det.hpp:det", "matrix/matrix_inv.hpp:inv"]}
{"id": "C73", "title": "statistics depend on the elements, not on their arrangement", "statement": "trans, swap_rows, swap_cols and the concatenations only move elements. Two matrices, possibly of different shapes, holding the same elements in another order have the same mean, variance and standard deviation in exact arithmetic, the same integer mean whenever both runs are defined, and the same histogram and cumulative histogram for every ordered element type in which equivalent elements are equal. In floating point the mean does depend on the arrangement: there is a 2x2 double matrix whose mean differs from that of its transpose.", "quantifier": "all shapes, contents and rearrangements; existence for the failure", "why_tests_cant": "all permutations of all contents", "anchors": ["matrix/matrix_mean.hpp:mean", "matrix/matrix_var.hpp:var", "matrix/matrix_stddev.hpp:stddev", "matrix/matrix_histogram.hpp:histogram", "matrix/matrix_histogram.hpp:cumulative_histogram", "matrix/matrix_trans.hpp:trans", "matrix/matrix_swap.hpp:swap_rows", "matrix/matrix_swap.hpp:swap_cols", "matrix/matrix_concatenate.hpp:concatenate"]}
{"id": "C74", "title": "integers: inv truncates the adjugate over the determinant", "statement": "For integer types and sizes 1 to 4, whatever inv returns is the adjugate divided by the computed determinant, each quotient truncated (for int and long without any wrap-around). For int and long it is the inverse exactly when the determinant is 1 or -1 and was computed correctly, which it always is up to 3x3. 2x2 matrices with entries up to a, 2a^2 <= MAX, and 3x3 matrices with 6a^3 <= MAX never overflow: they return, or throw std::overflow_error if singular. Unsigned types are right when the determinant is 1 modulo 2^w. Failures: a unimodular 4x4 int matrix and a 2x2 unsigned matrix of determinant -1 for which the returned matrix is not the inverse although one exists.", "quantifier": "all integer types, all matrices of sizes 1 to 4; existence for the failures", "why_tests_cant": "all values; the tests use only float", "anchors": ["matrix/matrix_inv.hpp:inv", "matrix/matrix_det.hpp:det", "matrix/matrix_div.hpp:div"]}
{"id": "C75", "title": "the median halves the elements", "statement": "At most half of the elements are less than median(A) and at most half are greater, also for an even number of elements, where the code computes (x+y)/2 of the two middle ones: in exact arithmetic always; for 8 and 16 bit integers always; for int and long whenever a value is returned (the only alternative is signed overflow); for 32 and 64 bit unsigned types exactly when x+y does not wrap around; in floating point (no NaN) whenever the result is finite, which it is for finite elements up to 2^(emax-2) in magnitude. Failures: median(3000000000, 3000000002) = 852516353 in unsigned, and two maximal floats have an infinite median greater than both.", "quantifier": "all non-empty matrices, all integer types, every precision and exponent range, every sorting algorithm", "why_tests_cant": "all values: the failures need elements in the upper half of the range, which tests do not use", "anchors": ["matrix/matrix_median.hpp:median"]}
{"id": "C76", "title": "infinities and NaNs are not lost", "statement": "In floating point an infinite or NaN element shows in the result: where a result element of +, -, *, the scalar operations, mult, strassen, pow (power >= 1) or a convolution is finite, every element it is computed from is finite; a finite mean, var or stddev means that all elements are finite; so does a finite determinant up to 3x3 and a finite non-zero one from 4x4 on, a finite 2x2 or 3x3 inverse, a finite 4x4 or larger inverse whose determinant did not overflow, and finite lu factors; finite chol factors mean a finite lower triangle. The exceptions, shown by examples: dividing by an infinity, inv of the 1x1 matrix [[inf]], and a determinant of 4x4 or larger that is 0.", "quantifier": "all sizes, all element values including infinities and NaNs, every precision and exponent range", "why_tests_cant": "one non-finite element can sit anywhere in the matrix and must be followed through every step", "anchors": ["matrix/matrix_mult.hpp:mult", "matrix/matrix_pow.hpp:pow", "matrix/matrix_conv2.hpp:conv2", "matrix/matrix_det.hpp:det", "matrix/matrix_inv.hpp:inv", "matrix/matrix_lu.hpp:lu", "matrix/matrix_cholesky.hpp:chol", "matrix/matrix_var.hpp:var"]}
{"id": "C77", "title": "which overload a call selects", "statement": "det and inv of an n x n matrix run the 1x1, 2x2 or 3x3 formula exactly for n = 1, 2, 3 and the general algorithm otherwise, and reject non-square matrices. concatenate of an a x b and a c x d matrix of the same element type stacks them if only b = d, puts them side by side if only a = c, returns the pair if all four sizes are equal, is ambiguous if the shapes are equal but not square, and matches nothing otherwise. A*B compiles exactly for equal element types and fitting inner sizes, A+B and A-B for equal shapes; a scalar operand must have exactly the element type (a double matrix times 2 is rejected); there is no scalar-A and no scalar/A. conv2 takes only 3x3 kernels, strassen only 2x2 matrices.", "quantifier": "all sizes and element types", "why_tests_cant": "tests instantiate a few sizes; a call that does not compile cannot be tested at all", "anchors": ["matrix/matrix_det.hpp:det", "matrix/matrix_inv.hpp:inv", "matrix/matrix_concatenate.hpp:concatenate", "matrix/matrix_mult.hpp:operator*", "matrix/matrix_sum.hpp:operator+", "matrix/matrix_sub.hpp:operator-", "matrix/matrix_div.hpp:operator/", "matrix/matrix_conv2.hpp:conv2", "matrix/matrix_strassen.hpp:strassen"]}
{"id": "C78", "title": "results do not depend on the unit or the sign convention", "statement": "Multiplying every element of a matrix by c multiplies the results by the power of c that dimensional analysis gives: det by c^n, inv by 1/c, pow by c^p, products and convolutions by the product of the factors, mean and stddev by c, var by c^2, chol by the root of the factor; LU keeps L and multiplies U; and calls throw or terminate for the scaled matrix exactly when they do for the original. In exact arithmetic this holds for every nonzero c (c > 0 for stddev and chol). In float and double it holds exactly, bit for bit, for powers of two as long as no operation overflows or leaves the normal range in either run, and for c = -1 always, except for the sign of zeros.", "quantifier": "all matrices, sizes, factors (exact), exponents of two without range errors (float), and all floating-point matrices for negation", "why_tests_cant": "tests compare single matrices in one unit, with tolerances", "anchors": ["matrix/matrix_det.hpp:det", "matrix/matrix_inv.hpp:inv", "matrix/matrix_pow.hpp:pow", "matrix/matrix_mult.hpp:mult", "matrix/matrix_strassen.hpp:strassen", "matrix/matrix_conv2.hpp:conv2", "matrix/matrix_lu.hpp:lu", "matrix/matrix_cholesky.hpp:chol", "matrix/matrix_mean.hpp:mean", "matrix/matrix_var.hpp:var", "matrix/matrix_stddev.hpp:stddev"]}
{"id": "C79", "title": "rows and columns are treated alike", "statement": "Transposing commutes with the library: trans of a sum, difference, scalar operation, quotient or abs is the same operation on the transposed matrices; trans(A*B) = trans(B)*trans(A) for every integer type and bit for bit in float and double; stacking becomes joining side by side, exchanging rows becomes exchanging columns, deleting row i and column j becomes deleting row j and column i; isSymetric, isIdentity and compare give the same answer; det and inv of 2x2 matrices too, bit for bit. In exact arithmetic the same holds of det, inv, pow and convolution (with the kernel transposed). In double it fails for det and inv of 3x3 matrices, for pow and for conv2.", "quantifier": "all sizes, matrices and element types (and, for the laws that need it, all types whose multiplication commutes, which all arithmetic types do)", "why_tests_cant": "a test compares a few matrices, usually of small integers, where order of operations cannot show", "anchors": ["matrix/matrix_trans.hpp:trans", "matrix/matrix_mult.hpp:mult", "matrix/matrix_sum.hpp:sum", "matrix/matrix_concatenate.hpp:concatenate", "matrix/matrix_inv.hpp:getminor", "matrix/matrix_swap.hpp:swap_rows", "matrix/matrix_swap.hpp:swap_cols", "matrix/matrix_det.hpp:det", "matrix/matrix_inv.hpp:inv", "matrix/matrix_cholesky.hpp:isSymetric", "matrix/matrix_utils.hpp:compare", "matrix/matrix_conv2.hpp:conv2"]}
{"id": "C80", "title": "any history of row and column exchanges", "statement": "swap_rows and swap_cols are the only functions that change their argument. After any sequence of calls with existing subscripts, the matrix holds A(r(i),c(j)) at (i,j) for permutations r, c that depend on the calls only; no element is lost or duplicated; the same calls in reverse order restore A; exchanges of rows and of columns do not interfere, whatever the interleaving. Exchanging rows of A and columns of B before multiplying is the same as exchanging them in A*B afterwards, for every element type and bit for bit in float. In exact arithmetic det changes sign once for every call with two different subscripts, and the inverse is that of A with the exchanges made on the other side, in the same order; if A has none both calls fail alike.", "quantifier": "all call sequences, sizes, contents and element types", "why_tests_cant": "tests make one or two calls", "anchors": ["matrix/matrix_swap.hpp:swap_rows", "matrix/matrix_swap.hpp:swap_cols", "matrix/matrix_mult.hpp:mult", "matrix/matrix_det.hpp:det", "matrix/matrix_inv.hpp:inv", "matrix/matrix_trans.hpp:trans"]}
{"id": "C81", "title": "what contraction to fused multiply-add changes", "statement": "A compiler may round a*b+c once instead of twice (GCC does where the instruction exists; the build files do not forbid it). Whatever choice it makes: sums, differences, scalar operations, mean, strassen, determinants from 4x4 and inverses from 5x5 on are bit for bit the same; multiplication by eye changes nothing, trans(A*B) equals trans(B)*trans(A) bit for bit, A*trans(A) is exactly symmetric, variances are not negative, matrices of integers give exactly the integer results, and the proved error bounds of products, powers, convolutions, determinants of 2x2 and 3x3 matrices, lu and chol hold with the same constants (C51, C54, C55, C59, C65, C66). What does not survive: without contraction a singular 2x2 matrix has determinant exactly 0 and inv throws (barring overflow); with it the determinant is the rounding error of a*d, and inv returns a meaningless matrix unless a*d is representable, even for four equal entries. If the compiler never contracts, the two models agree on every function.", "quantifier": "all binary formats, all contraction choices, all sizes and contents", "why_tests_cant": "a test runs with one compiler, one target and one set of flags", "anchors": ["matrix/matrix_mult.hpp:mult", "matrix/matrix_strassen.hpp:strassen", "matrix/matrix_det.hpp:det", "matrix/matrix_inv.hpp:inv", "matrix/matrix_var.hpp:var", "matrix/matrix_mean.hpp:mean", "matrix/matrix_conv2.hpp:conv2", "matrix/matrix_pow.hpp:pow", "matrix/matrix_eye.hpp:eye"]}
{"id": "C82", "title": "Working on a partitioned matrix is working on its parts", "statement": "Matrices built with concatenate can be worked on part by part. For every element type, sum, sub, the scalar operations and div of stacked (or side by side) matrices are the stacked results, with the same exception or undefined behaviour; the rows of mult(A, B) depend only on the corresponding rows of A and its columns on those of B; an element of conv2 depends on its 3x3 neighbourhood only; lu and chol of a leading block are the leading blocks of the factors, so lu fails on A whenever it fails on a leading block. With exact elements, mult of matrices of four blocks follows the block formula, [A|B] times [C over D] is A*C+B*D, the determinant of a block triangular matrix is the product of the determinants of its diagonal blocks, the determinant of [[A,B],[C,D]] is det(A) times det(D - C*inv(A)*B), and the inverse of a block triangular or block diagonal matrix is assembled from the inverses of the blocks.", "quantifier": "all element types (generic part) or all fields (exact part), all block sizes, all contents", "why_tests_cant": "every split point of every size and content; a test fixes one split of one matrix", "anchors": ["matrix/matrix_concatenate.hpp:concatenate", "matrix/matrix_mult.hpp:mult", "matrix/matrix_sum.hpp:sum", "matrix/matrix_conv2.hpp:conv2", "matrix/matrix_lu.hpp:lu", "matrix/matrix_cholesky.hpp:chol", "matrix/matrix_det.hpp:det", "matrix/matrix_inv.hpp:inv"]}
{"id": "C83", "title": "matrices of bool are relations; pow finds walks", "statement": "With bool elements nothing overflows or rounds: mult is the composition of relations (an element is true exactly when some k links i to j), + is union, - is symmetric difference, trans the converse; mult is associative, distributes over + and has eye as unit. conv2 is dilation by the kernel. pow(A, p) is true at (i, j) exactly when there is a walk of p steps from i to j, and pow(A + eye, p) with p >= n-1 exactly when j can be reached from i at all. median is the strict majority. Not carried over: strassen differs from mult, mean is false except for 1x1 matrices, inv is no inverse, and det means 'the integer determinant is not zero' up to 3x3 but 'the determinant modulo 2 is not zero' from 4x4 on.", "quantifier": "all bool matrices of all sizes, all exponents in range, all conforming sort functions", "why_tests_cant": "a statement about walks of every length in every graph; reachability needs a pigeonhole argument, not a sample", "anchors": ["matrix/matrix_mult.hpp:mult", "matrix/matrix_pow.hpp:pow", "matrix/matrix_sum.hpp:sum", "matrix/matrix_sub.hpp:sub", "matrix/matrix_conv2.hpp:conv2", "matrix/matrix_median.hpp:median", "matrix/matrix_mean.hpp:mean", "matrix/matrix_det.hpp:det", "matrix/matrix_strassen.hpp:strassen"]}
{"id": "C84", "title": "laws of exponents and linear systems", "statement": "With exact elements and an invertible A, for exponents of either sign that fit the exponent type: pow(A, p+q) = pow(A, p)*pow(A, q), pow(pow(A, p), q) = pow(A, p*q), inv(pow(A, p)) = pow(inv(A), p) = pow(A, -p), det(pow(A, p)) = det(A)^p, pow(A*B, p) = pow(A, p)*pow(B, p) when A*B = B*A, and pow(inv(P)*A*P, p) = inv(P)*pow(A, p)*P. inv(A)*B is the one and only solution of A*X = B; its elements are given by Cramer's rule; det(A) is zero exactly when A*X = 0 for some non-zero column X; a matrix B with A*B = eye or B*A = eye is what inv(A) returns.", "quantifier": "all fields, all sizes, all invertible matrices, all exponents p, q representable together with their sum or product", "why_tests_cant": "laws relating several calls for all exponents of both signs; squaring recursion and inversion interact", "anchors": ["matrix/matrix_pow.hpp:pow", "matrix/matrix_inv.hpp:inv", "matrix/matrix_mult.hpp:mult", "matrix/matrix_det.hpp:det"]}
{"id": "C85", "title": "rounding modes and interval enclosures", "statement": "If the program selects a rounding mode with fesetround before calling the library: sum, sub, scalar multiplication, mult, division by a finite scalar, the 1x1 inverse, the square root of chol, conv2 and mean computed rounding down are at most, and computed rounding up at least, the exact result, element by element, wherever they are numbers; so are the powers of a matrix without negative elements. The product computed in any mode lies between the two, and if both are numbers its error obeys the bound of C51 with twice the unit roundoff. Rounding down -A instead of rounding up A gives the same bounds with the opposite sign. A*eye == A and trans(A*B) = trans(B)*trans(A) hold in every mode, and where int arithmetic does not overflow the results on integer values are those integers in every mode. det of 2x2 and pow with negative elements are not enclosed.", "quantifier": "all binary formats, all modes, all sizes and all elements, special values included", "why_tests_cant": "the exact result is not representable, and the enclosure must hold for all inputs and accumulation lengths; tests run in one mode", "anchors": ["matrix/matrix_mult.hpp:mult", "matrix/matrix_sum.hpp:sum", "matrix/matrix_sub.hpp:sub", "matrix/matrix_div.hpp:div", "matrix/matrix_inv.hpp:inv", "matrix/matrix_cholesky.hpp:chol", "matrix/matrix_conv2.hpp:conv2", "matrix/matrix_mean.hpp:mean", "matrix/matrix_pow.hpp:pow", "matrix/matrix_det.hpp:det"]}
{"id": "C86", "title": "how much arithmetic a call performs", "statement": "Counting multiplications, additions and subtractions, divisions, square roots and tests against zero on elements: mult of n x m by m x p performs n*m*p multiplications and as many additions; strassen 7 multiplications and 18 additions where mult has 8 and 8; mean n*m additions and one division, var n*m multiplications, 4*n*m additions and two divisions; conv2 at most nine multiplications and additions per element; lu n(n^2-1)/2 multiplications and n(n+1)/2 divisions, chol n(n^2-1)/3 multiplications, n(n-1)/2 divisions and n square roots; pow with p > 0 log2(p) + (ones in p) - 1 products, at most 2*log2(p); with p < 0 one inverse and the products for -p, two for p = -1. det of any size stays within n(n^2-1)/3 + 2n multiplications and 2n^2 tests (cubic, not factorial), inv of n >= 4 within one determinant of size n and n^2 of size n-1. A run that throws or is undefined performs no more than these.", "quantifier": "all element types, all sizes, all elements, all exponents of every integer width", "why_tests_cant": "counts are not observable by unit tests, and the bounds quantify over all matrices, including those that steer the pivot search", "anchors": ["matrix/matrix_mult.hpp:mult", "matrix/matrix_strassen.hpp:strassen", "matrix/matrix_pow.hpp:pow", "matrix/matrix_det.hpp:det", "matrix/matrix_inv.hpp:inv", "matrix/matrix_lu.hpp:lu", "matrix/matrix_cholesky.hpp:chol", "matrix/matrix_mean.hpp:mean", "matrix/matrix_var.hpp:var", "matrix/matrix_conv2.hpp:conv2"]}
{"id": "C87", "title": "printing floating-point matrices", "statement": "print of a float or double matrix writes the texts of its elements in place, separated so that they can be told apart. The text of a finite element is a decimal number: the element rounded to six significant decimal digits, ties to even. So reading it back is within 5 parts in a million, larger elements are never printed as smaller ones, and elements with the same text differ by at most 10 parts in a million; integers of up to six digits print exactly as an int matrix does. -x prints as x with a minus sign, -0 included; infinities and NaN print as words that are no numbers. Different elements can print alike, for float and for double: a printed matrix cannot be read back exactly.", "quantifier": "all shapes, all elements of all binary formats, special values included", "why_tests_cant": "rounding to decimal depends on the exact binary value; tests look at a few numbers", "anchors": ["matrix/matrix_print.hpp:print"]}
{"id": "C88", "title": "threads that share matrices", "statement": "Any number of threads may call any functions on the same matrices as long as a matrix that some thread swaps (swap_rows, swap_cols) is used by no other thread: then no schedule contains a data race, every schedule is finite and can always be completed, and at its end each thread has returned (or thrown) and printed exactly what it does when it runs alone, its own matrices are as it leaves them alone, and all others are unchanged. Threads that only read need no separation at all. On one matrix, threads that each swap one of several disjoint pairs of rows do not race and together do what the swaps do one after another. Swapping overlapping rows, rows and columns, or rows while another thread reads the whole matrix is a race, and can lose an element. Two threads that print at once may mix their texts so that different matrices give the same output.", "quantifier": "all element types, all shapes, any number of threads and calls, all schedules of single memory accesses", "why_tests_cant": "tests see a handful of schedules; the claim is about all of them", "anchors": ["matrix/matrix_swap.hpp:swap_rows", "matrix/matrix_swap.hpp:swap_cols", "matrix/matrix_print.hpp:print", "matrix/matrix_mult.hpp:mult", "matrix/matrix_det.hpp:det", "matrix/matrix_inv.hpp:inv", "matrix/matrix_pow.hpp:pow", "matrix/matrix_median.hpp:median"]}
{"id": "C89", "title": "the statistics agree with one another", "statement": "In exact arithmetic: the mean squared distance of the elements from any number c is var(A) + (mean(A) - c)^2, so the mean is the best single value; at most var(A)/e^2 of the elements are e or more away from the mean; if all elements lie between lo and hi, var(A) <= (hi - mean)(mean - lo) <= (hi - lo)^2/4; the median has the least total absolute distance to the elements, and (mean - median)^2 <= var. The mean and variance of joined matrices are those computed from the parts' means, variances and sizes; mean and variance can be computed from the histogram. For every element type with an order, the median of an odd number N of elements is the first key of the cumulative histogram whose count exceeds N/2, and of an even number it is computed from the first keys over N/2 and over N/2 - 1.", "quantifier": "all ordered fields (cumulative histogram: all element types), all shapes with 1 to 2^64 - 1 elements, all elements", "why_tests_cant": "inequalities between results quantify over all matrices", "anchors": ["matrix/matrix_mean.hpp:mean", "matrix/matrix_var.hpp:var", "matrix/matrix_stddev.hpp:stddev", "matrix/matrix_median.hpp:median", "matrix/matrix_histogram.hpp:histogram", "matrix/matrix_histogram.hpp:cumulative_histogram", "matrix/matrix_concatenate.hpp:concatenate"]}
{"id": "C90", "title": "laws of the convolutions", "statement": "In exact arithmetic: applying conv2_full with two kernels one after the other gives the same matrix in either order, and likewise conv2_valid; the elements of conv2_full(A, k) add up to the total of A times the total of k; rows or columns of zeros joined to A on any side only join zeros to conv2_full(A, k); a kernel that is a column times a row can be applied in two passes of conv2, column then row or row then column; conv2_valid of a constant matrix is constant, the value times the total of the kernel. A kernel of non-negative weights with total 1 keeps the elements of conv2_valid between the bounds of A's elements, and those of conv2 and conv2_full if 0 lies between the bounds. conv2 itself does not allow changing the order of two kernels.", "quantifier": "all commutative rings (bounds: all ordered fields), all shapes up to 2^31, all matrices and kernels", "why_tests_cant": "laws relating results of several calls quantify over all matrices and kernels", "anchors": ["matrix/matrix_conv2.hpp:conv2", "matrix/matrix_conv2.hpp:conv2_full", "matrix/matrix_conv2.hpp:conv2_valid", "matrix/matrix_concatenate.hpp:concatenate", "matrix/matrix_zeros.hpp:zeros", "matrix/matrix_fill.hpp:fill", "matrix/matrix_mult.hpp:mult"]}
{"id": "C91", "title": "expressions evaluated in a wider format", "statement": "On targets that evaluate float or double expressions in a wider format and round where a value is stored (FLT_EVAL_METHOD 1 or 2): comparisons, ==, histograms, isSymetric and isIdentity are the same as without it; if the evaluation format has twice the precision and two bits more (float in double or x87) so are sum, sub, products and quotients with a scalar and mean of up to 2^p elements, bit for bit. Multiplying by eye changes nothing, trans(A*B) is trans(B)*trans(A) and A*trans(A) is symmetric; the error of a product is bounded; variances are not negative; the median of finite elements is finite and halves them; matrices of integers give the integers in mult, pow, det up to 3x3 and conv2 if int would not overflow. The determinant of a finite 2x2 matrix is never NaN, and exactly singular ones are rejected by inv; with twice the precision nothing else is, up to the smallest positive number. 3x3 determinants are computed in the wide format and rounded once. If the two formats are the same every function agrees with the ordinary model. Double in x87 is not bit for bit ordinary double, even in sum; products and inverses of float matrices differ from those of ordinary float.", "quantifier": "all pairs of binary formats of which the second is wider, among them float in double, float in x87 and double in x87; all shapes and elements", "why_tests_cant": "the behaviour of targets the tests are not run on; error bounds quantify over all matrices of finite numbers", "anchors": ["matrix/matrix_sum.hpp:sum", "matrix/matrix_sub.hpp:sub", "matrix/matrix_mult.hpp:mult", "matrix/matrix_div.hpp:div", "matrix/matrix_det.hpp:det", "matrix/matrix_inv.hpp:inv", "matrix/matrix_mean.hpp:mean", "matrix/matrix_var.hpp:var", "matrix/matrix_median.hpp:median", "matrix/matrix_histogram.hpp:histogram", "matrix/matrix_conv2.hpp:conv2", "matrix/matrix_pow.hpp:pow"]}
{"id": "C92", "title": "whole programs: any composition of calls in integer, exact and floating-point types", "statement": "Take any program of assignments to matrix and scalar variables, exchanges of rows and columns, and loops, whose right-hand sides nest + - * with matrices and scalars, trans, pow, strassen, the concatenations, getminor, conv2, conv2_full, det up to 3x3, element access, zeros and eye. In an unsigned type of at least 32 bits it always returns, and every variable then holds its exact integer value modulo 2^w; in a signed type of at least 32 bits it is undefined or every variable holds its exact value; in every integer type, narrow ones included, it is undefined or holds the exact value converted to the type; in exact arithmetic it computes what the formulas say. So two programs that are equal as formulas leave the same bits: unsigned matrices obey all laws of a ring, det(A*B) is det(A)*det(B), powers add, strassen is the product, a loop of multiplications is a power, whatever expressions stand for the operands. Reducing the arguments to a narrower unsigned type or reducing the results is the same; a signed program that returns gives, in any unsigned type, the same results reduced, in a wider signed type the same results, and in a floating-point format that holds the type the same numbers.", "quantifier": "all programs of that language of any length, nesting and number of iterations; all integer types; all initial values", "why_tests_cant": "a test runs one program on one state; the claim is about every composition of calls, including overflow in intermediate results", "anchors": ["matrix/matrix_sum.hpp:sum", "matrix/matrix_sub.hpp:sub", "matrix/matrix_mult.hpp:mult", "matrix/matrix_trans.hpp:trans", "matrix/matrix_pow.hpp:pow", "matrix/matrix_strassen.hpp:strassen", "matrix/matrix_concatenate.hpp:concatenate", "matrix/matrix_inv.hpp:getminor", "matrix/matrix_conv2.hpp:conv2", "matrix/matrix_det.hpp:det", "matrix/matrix_swap.hpp:swap_rows", "matrix/matrix_eye.hpp:eye", "matrix/matrix_zeros.hpp:zeros"]}
{"id": "C93", "title": "diagonally dominant matrices: every algorithm succeeds, with bounds", "statement": "For a square matrix whose diagonal elements exceed, in absolute value, the sum of the other elements of their row (or of their column), in exact arithmetic: det is not zero and has the sign of the product of the diagonal, and by rows its absolute value is at least the product of the margins; inv returns the inverse, and if every margin is at least g the absolute values of each row of it (column, for dominance by columns) sum to at most 1/g, so that inv(A)*b solves A*x = b with no component above max|b|/g; lu returns, with U dominant by rows (U[i][i] exceeds the rest of its row) in the first case and with multipliers summing to less than one in each column of L in the second; chol returns a factor with positive diagonal when the matrix is symmetric with positive diagonal. det(A - s*I) is zero only for s within the off-diagonal sum of some diagonal element. Strictness is needed: the 2x2 matrix of ones is singular and inv fails on it.", "quantifier": "all sizes, all strictly dominant matrices over any ordered field (real closed for chol)", "why_tests_cant": "a test factors a few matrices; that no matrix of the class makes lu, inv or chol fail needs a proof", "anchors": ["matrix/matrix_det.hpp:det", "matrix/matrix_inv.hpp:inv", "matrix/matrix_lu.hpp:lu", "matrix/matrix_cholesky.hpp:chol", "matrix/matrix_eye.hpp:eye", "matrix/matrix_sub.hpp:sub", "matrix/matrix_mult.hpp:mult"]}
{"id": "C94", "title": "positive definite matrices: chol, lu, det and inv agree on them", "statement": "For a symmetric matrix in exact arithmetic these are the same: x*A*trans(x) > 0 for every x other than zero; chol returns a factor with positive diagonal; lu returns and the diagonal of U is positive; det of every leading square block is positive. Then each element of the factor C of chol is L[i][j]*sqrt(U[j][j]) and U[i][j] = C[i][i]*C[j][i]; inv returns a symmetric positive definite matrix; so does pow for every exponent, negative ones included; sums, positive multiples and B*trans(B) with independent rows stay in the class; diagonal elements are positive, A[i][j]^2 < A[i][i]*A[j][j], and det lies above zero and at most at the product of the diagonal. Whatever chol returns for a symmetric matrix, the matrix is positive semidefinite, so chol never returns for an indefinite one. In floating point chol always returns; if all elements of its result are finite, x*A*trans(x) is no less than -delta*|x|^2 for every x, with an explicit delta of order n*n*u times the largest row of the factor.", "quantifier": "all sizes, all symmetric matrices over any ordered field (real closed for chol), all exponents, all vectors x; all binary formats for the last part", "why_tests_cant": "a test tries some matrices and some vectors; definiteness quantifies over all vectors", "anchors": ["matrix/matrix_cholesky.hpp:chol", "matrix/matrix_lu.hpp:lu", "matrix/matrix_det.hpp:det", "matrix/matrix_inv.hpp:inv", "matrix/matrix_pow.hpp:pow", "matrix/matrix_trans.hpp:trans", "matrix/matrix_mult.hpp:mult", "matrix/matrix_sum.hpp:sum"]}
{"id": "C95", "title": "structured matrices stay structured", "statement": "Exact arithmetic: products and powers of upper triangular matrices are upper triangular with the products and powers of the diagonals on the diagonal, det is the product of the diagonal, inv is upper triangular with the reciprocals on the diagonal, and the same for lower; the n-th and later powers of a strictly triangular matrix are zeros; if A*trans(A) is the identity then inv(A) is trans(A), det is 1 or -1, products and powers have the property, and multiplying by A keeps all inner products; a permutation of the rows of eye permutes rows from the left and columns from the right; a product of symmetric matrices is symmetric exactly if they commute, powers and inv of a symmetric matrix are symmetric; a skew matrix of odd size has det 0 and inv fails on it; pow of an idempotent matrix is the matrix, which is the identity or singular; an involution is its own inv and its powers alternate; products and powers of stochastic matrices are stochastic, and A*X stays within the range of X. Floating point: products of triangular matrices of finite elements have zeros off the triangle and one rounding on the diagonal, even if other elements overflow; powers without overflow are triangular with the powers of the 1x1 matrices of the diagonal; a matrix of zeros and ones with one 1 per row selects rows exactly.", "quantifier": "all sizes, all matrices of each class over any field (ordered for stochastic), all exponents; all binary formats", "why_tests_cant": "the classes are infinite and the claim is closure under every product and power", "anchors": ["matrix/matrix_mult.hpp:mult", "matrix/matrix_pow.hpp:pow", "matrix/matrix_det.hpp:det", "matrix/matrix_inv.hpp:inv", "matrix/matrix_trans.hpp:trans", "matrix/matrix_eye.hpp:eye", "matrix/matrix_zeros.hpp:zeros"]}
{"id": "C96", "title": "float: triangular matrices and the elements of larger inverses", "statement": "In every binary format: det of a triangular matrix with finite elements and a non-zero diagonal is the product of the diagonal, rounded in order (for every size except 3, bit for bit from 4 on), with an explicit error bound; with a zero on the diagonal, or with a row or a column of zeros, det is zero unless it is not finite. For 3x3 the products of the other elements can overflow: there is an upper triangular matrix of doubles with ones on the diagonal whose det is NaN. From 4x4 on inv of a triangular matrix has zeros on the other side wherever it is finite, its diagonal is the quotient of two rounded products, exactly 1 if the diagonal is 1; and every finite non-zero element of any inverse is one rounded quotient of two determinants, each the exact determinant of a matrix near the one it is meant for (C72).", "quantifier": "all sizes, contents and binary formats; existence for the failure", "why_tests_cant": "rounding, overflow and pivot choices over all inputs", "anchors": ["matrix/matrix_det.hpp:det", "matrix/matrix_inv.hpp:inv", "matrix/matrix_inv.hpp:getminor"]}
{"id": "C97", "title": "pow counts walks and runs linear recurrences", "statement": "The element (i,j) of pow(A,p) is the total weight of the walks of p steps from i to j, so for the adjacency matrix of a graph it is the number of such walks: over a field exactly; for unsigned types of at least 32 bits modulo 2^w; for signed types exactly whenever the numbers for up to p steps fit (in particular if D^p fits, where no vertex has more than D successors), and whenever pow returns at all, the result is the number of walks and it fits; for floating point exactly while the numbers are at most 2^prec. Multiplying a window of a sequence by pow(companion matrix,p) moves it p terms along the linear recurrence, exactly over a field and modulo 2^w for unsigned types. pow of {{1,1},{1,0}} gives the Fibonacci numbers: modulo 2^w for unsigned types, in int for exponents up to 45 and never beyond, in long long up to 91 and never beyond, in double at least up to 77 and in float at least up to 35.", "quantifier": "all graphs, sizes, exponents, recurrences and starting values, all integer types and binary formats", "why_tests_cant": "the exponents and graphs are unbounded, and where overflow starts depends on the intermediate squares and sums", "anchors": ["matrix/matrix_pow.hpp:pow", "matrix/matrix_mult.hpp:mult"]}
{"id": "C98", "title": "eigenvalues, characteristic polynomial, updates and least squares", "statement": "Where arithmetic is exact: det(eye*x-A) is zero exactly when A*v = v*x for some non-zero column v; as a function of x it is a monic polynomial of degree n, any n+1 of its values determine it, and A itself, put into that polynomial by Horner's rule with the library's calls, gives the zero matrix; it does not change under a change of basis, and is the same for A*B and B*A. det(eye+U*V) = det(eye+V*U) for all sizes, det(A+U*V) = det(A)*det(eye+V*inv(A)*U), and inv(A+U*V) is inv(A) corrected by the inverse of the small matrix (by a single division for one column and one row). trans(A)*A can be inverted exactly when A maps no non-zero column to zero, then inv(trans(A)*A)*trans(A)*b is the one and only x with the least sum of squares of A*x-b, and A*inv(trans(A)*A)*trans(A) is the orthogonal projection onto the columns of A.", "quantifier": "all sizes and contents, over any field (any ordered field for least squares)", "why_tests_cant": "universal over sizes and contents; least over all competitors", "anchors": ["matrix/matrix_det.hpp:det", "matrix/matrix_inv.hpp:inv", "matrix/matrix_mult.hpp:mult", "matrix/matrix_trans.hpp:trans", "matrix/matrix_sum.hpp:sum", "matrix/matrix_sub.hpp:sub", "matrix/matrix_eye.hpp:eye"]}
{"id": "C99", "title": "matrices of complex numbers", "statement": "With std::complex elements the sum, difference, products, strassen, transpose and the determinant up to 3x3 are those of complex matrices where arithmetic is exact; a complex product is four real products, or one real product of twice the size; isSymetric compares with the transpose, not the conjugate transpose. In std::complex<float> and std::complex<double> the real and the imaginary part of every element of a product each have the error bound of a real product of two more roundings; computing with complex numbers that are real gives the real results wherever those are finite; Gaussian integers are exact while their parts stay within 2^53 (2^24), which 2*m*a*b bounds for a product of inner size m; conjugating the operands conjugates the result, infinities and NaNs included; eye on either side changes nothing in a finite matrix; and an infinite element times an infinite or finite non-zero scalar is infinite even where the formula for the product gives NaN in both parts.", "quantifier": "all sizes and contents, exact and in any binary floating-point format, whatever sign a NaN shows", "why_tests_cant": "universal over sizes, contents, formats; infinities and NaNs have many cases", "anchors": ["matrix/matrix_type.hpp:Matrix", "matrix/matrix_mult.hpp:mult", "matrix/matrix_strassen.hpp:strassen", "matrix/matrix_sum.hpp:sum", "matrix/matrix_sub.hpp:sub", "matrix/matrix_trans.hpp:trans", "matrix/matrix_det.hpp:det", "matrix/matrix_conv2.hpp:conv2", "matrix/matrix_cholesky.hpp:isSymetric", "matrix/matrix_eye.hpp:eye"]}
{"id": "C100", "title": "chol, abs and compare on complex matrices", "statement": "With std::complex elements in exact arithmetic: what chol returns is a lower triangular L, its diagonal made of principal square roots, such that L*trans(L) is the symmetric matrix with A's lower triangle; it returns exactly when the leading principal minors of that matrix below the last are non-zero, so every symmetric complex matrix with non-zero leading minors is factored, also an indefinite one. A Hermitian matrix with an element that is not real is never factored: neither L*trans(L) nor L times its conjugate transpose is A. Where the real chol returns, the complex one returns the same factor. abs gives the moduli, and compare is true exactly when no modulus of a difference exceeds the tolerance.", "quantifier": "all sizes and contents, over every real closed field", "why_tests_cant": "unbounded sizes; that a result is never right cannot be tested", "anchors": ["matrix/matrix_cholesky.hpp:chol", "matrix/matrix_abs.hpp:abs", "matrix/matrix_utils.hpp:compare"]}
{"id": "C101", "title": "how errors of the arguments spread", "statement": "In exact arithmetic, with compare as the measure: compare(trans(A), trans(B), e) is compare(A, B, e). If compare(A, A', d) and compare(B, B', e), then A+B and A'+B', A-B and A'-B' compare within d+e, abs(A) and abs(A') within d, A*s and A'*s within d*|s|, A*B and A'*B' (also by strassen) within m*(a*e + d*b) for elements of A up to a and of B' up to b, pow(A, p) and pow(A', p) within p*(n*a)^(p-1)*d, det(A) and det(A') differ by at most n!*n*a^(n-1)*d, conv2, conv2_full and conv2_valid compare within d times the total of |k| plus 9*a times the error of the kernel. mean, median and stddev differ by at most d, and stddev(A+B) <= stddev(A) + stddev(B). If the elements of inv(A) are at most b and n^2*b*d < 1, then inv(A') is defined too and compares to inv(A) within q*b/(1-q) for q = n^2*b*d; at n^2*b*d = 1 A' may be singular. isSymetric can differ for matrices that compare within any e > 0.", "quantifier": "all sizes, contents, error sizes and exponents, over every ordered field (stddev: real closed)", "why_tests_cant": "unbounded sizes; a test perturbs a few matrices by a few amounts", "anchors": ["matrix/matrix_utils.hpp:compare", "matrix/matrix_mult.hpp:mult", "matrix/matrix_det.hpp:det", "matrix/matrix_inv.hpp:inv", "matrix/matrix_pow.hpp:pow", "matrix/matrix_conv2.hpp:conv2", "matrix/matrix_median.hpp:median", "matrix/matrix_mean.hpp:mean", "matrix/matrix_stddev.hpp:stddev"]}
{"id": "C102", "title": "user-defined element types: semirings and shortest routes", "statement": "For every element type whose + and * form a semiring, with the literals 0 and 1 as its zero and one (bool, exact numbers and user-defined classes; no subtraction, order or commutative * needed): + on matrices is commutative and associative with zeros() neutral; A*(B*C) = (A*B)*C; A*(B+C) = A*B + A*C and (A+B)*C = A*C + B*C; eye() is neutral and zeros() absorbing for *; (A*B)*s = A*(B*s) and (A*s)*t = A*(s*t); trans(A*B) = trans(B)*trans(A) if * of the elements commutes; pow(A, p+q) = pow(A, p)*pow(A, q); the element (i,j) of pow(A, p) is the sum over all routes i, k1, ..., kp = j of the products of the elements along them, in that order; conv2 and conv2_full are additive in the matrix and in the kernel. For a class of costs whose + is the cheaper one and whose * is the cost of one after the other, pow(A, p) holds the cheapest costs of the routes with exactly p legs, pow(A + eye(), p) those with at most p legs, and with p >= n-1 and no round trip of negative cost those of all routes; 'unreachable' is returned exactly where there is no route.", "quantifier": "all sizes, contents, exponents and semirings; for costs all networks, including negative legs", "why_tests_cant": "unbounded sizes and routes, arbitrary user types; a test fixes one class and a few matrices", "anchors": ["matrix/matrix_mult.hpp:mult", "matrix/matrix_sum.hpp:sum", "matrix/matrix_trans.hpp:trans", "matrix/matrix_pow.hpp:pow", "matrix/matrix_conv2.hpp:conv2", "matrix/matrix_conv2.hpp:conv2_full", "matrix/matrix_eye.hpp:eye", "matrix/matrix_zeros.hpp:zeros"]}
{"id": "C103", "title": "matrices of dual numbers (automatic differentiation)", "statement": "Take as element type a class of pairs (value, derivative) with the usual rules, compared by value. Every call that returns or throws does with the values exactly what the call on plain elements does, whatever the plain type (double, float, exact numbers). In exact arithmetic the derivatives are those of the plain call along A+tB: sum, difference, transposed, product (also strassen): A*B' + B*A', pow(A, p) for p >= 0, conv2 and conv2_full; det for n <= 3 always and for n > 3 where det(A) is not 0, as in Jacobi's formula; inv for n <= 4 where det(A) is not 0 (and n > 4 where moreover no minor is 0): -inv(A)*B*inv(A); mean: mean(B); var: twice the covariance of A and B; stddev (where positive): covariance / stddev; abs (where no element is 0): the sign times the derivative; lu: the only strictly lower dL and upper dU with L*dU + dL*U = B; chol of a positive definite A: the only lower dL with dL*trans(L) + L*trans(dL) = B. They are NOT for other matrices: for doubles, det of diag(t,1,1,1) at t = 0 comes with the derivative 0 instead of 1, and inv of the 5x5 matrix I + t*E12 at t = 0 with 0 instead of -1.", "quantifier": "all sizes, contents and directions; the values for every element type whose operations do not throw; the derivatives over every field", "why_tests_cant": "unbounded sizes; a test differentiates a few matrices, and the loss needs a pivot search that meets a zero value with a non-zero derivative", "anchors": ["matrix/matrix_det.hpp:det", "matrix/matrix_inv.hpp:inv", "matrix/matrix_mult.hpp:mult", "matrix/matrix_pow.hpp:pow", "matrix/matrix_conv2.hpp:conv2", "matrix/matrix_conv2.hpp:conv2_full", "matrix/matrix_mean.hpp:mean", "matrix/matrix_var.hpp:var", "matrix/matrix_stddev.hpp:stddev", "matrix/matrix_sum.hpp:sum", "matrix/matrix_trans.hpp:trans", "matrix/matrix_lu.hpp:lu", "matrix/matrix_cholesky.hpp:chol"]}
{"id": "C104", "title": "the long run: powers, iterations and steady states", "statement": "In exact arithmetic. If the absolute values of each row of A add up to at most c, and those of pow(A, m) to at most q, the rows of pow(A, p) add up to at most c^(p mod m) * q^(p div m); so if q < 1 (m = 1) all later powers compare equal to zeros within any e > 0. Repeating X = X + C*(b - A*X) with an approximate inverse C (rows of eye - C*A adding up to at most q < 1; for Jacobi's method C is the reciprocal of the diagonal) brings X closer to inv(A)*b by the factor q each time, and if a step changes nothing by more than d the result is within q*d/(1-q). Repeating X = X*(eye(2) - A*X) gives inv(A) within c/(1-q)*q^(2^k) after k steps. eye + A + ... + A^k is within q^(k+1)/(1-q) of inv(eye - A); without negative elements, and with some power of row sums below one, eye - A can be inverted, no element of the inverse is negative and the sums never exceed it. For a stochastic A some power of which has every element of column j at least d[j], s = the sum of the d[j] > 0: replacing a column of eye - A by ones gives a matrix inv accepts, the same row of the inverse is the one and only distribution v with v*A = v, and pow(A, p) and x*pow(A, p), for any distribution x, differ from v by at most (1-s)^(p div m), with damping A*g + (1-g)/n by at most g^p. Row sums of exactly one are not enough (eye), nor is being stochastic (the powers of {{0,1},{1,0}} alternate for ever).", "quantifier": "all sizes, all contents and starting points, all numbers of steps (exponents that fit their type)", "why_tests_cant": "statements about limits: no finite number of runs shows that the powers or the iterates converge", "anchors": ["matrix/matrix_pow.hpp:pow", "matrix/matrix_mult.hpp:mult", "matrix/matrix_inv.hpp:inv", "matrix/matrix_sum.hpp:sum", "matrix/matrix_sub.hpp:sub", "matrix/matrix_eye.hpp:eye", "matrix/matrix_utils.hpp:compare"]}
{"id": "C105", "title": "float: iterations settle down as far as rounding allows", "statement": "Repeat X = A*X + b in any binary floating-point format, where the absolute values of each row of A add up to at most q < 1 and |b| <= beta. The exact equation Y = A*Y + b has one and only one solution, with |Y| <= beta/(1-q). If a bound B for the start satisfies (1+u)*((1+u)^n*(q*B + n*h) + beta) <= B (such a B exists when (1+u)^(n+1)*q < 1) and is below the overflow threshold, then however many steps are made nothing overflows and no element exceeds B; after k steps the distance to Y is at most q^k times the first distance plus d/(1-q), where d = u*((1+u)^n*(q*B + n*h) + beta) + ((1+u)^n - 1)*q*B + n*h*(1+u)^n bounds the rounding errors of one step. If compare(X, X', eps) accepts two consecutive X, the later is within (q*eps/(1-u) + d)/(1-q) of Y; if a step changes nothing, within d/(1-q). It may never come to rest: in double, X = -0.5*X + 18.25 started at the number nearest to the solution alternates between two numbers for ever.", "quantifier": "all sizes, contents, numbers of steps and binary formats", "why_tests_cant": "an unbounded number of steps; the error after them depends on every rounding", "anchors": ["matrix/matrix_mult.hpp:mult", "matrix/matrix_sum.hpp:sum", "matrix/matrix_utils.hpp:compare"]}
{"id": "C106", "title": "matrices of intervals: enclosure, verified solutions, and what is lost", "statement": "Take as element type a class of intervals whose operations round the bounds outwards (in whatever way), whose division throws if the divisor contains 0 and whose == and < mean certainly equal and certainly less. Let the exact matrix A lie elementwise in the interval matrix M. Sums, differences, products, multiples, transposes, pow, conv2 and the determinant up to 3 x 3 always return, and what they return contains the exact result. If det, inv, lu, chol, division, mean, var or stddev return, what they return contains the exact result, and the exact matrix has what the function needs: an inverse, an LU factorisation without pivoting, a Cholesky factor. If == or isSymetric return true the exact matrices are equal or symmetric; if compare returns false some exact elements differ by more than eps. If C*b + (eye - C*A)*X, computed by the library on intervals, lies strictly inside X, then every matrix in A is invertible and the result contains the solution of every system in A, b. With exact bounds point intervals give exactly the exact results, and every bound of a product is attained. Not so: X - X is not 0; compare may return true for matrices far apart; stddev may refuse; median is not enclosed, or undefined, for overlapping intervals; and if == means possibly equal, det is wrong from 4 x 4 on.", "quantifier": "all sizes, all interval matrices and their members, every outward rounding", "why_tests_cant": "each run stands for a continuum of exact runs, which take other branches", "anchors": ["matrix/matrix_sum.hpp:sum", "matrix/matrix_sub.hpp:sub", "matrix/matrix_mult.hpp:mult", "matrix/matrix_div.hpp:div", "matrix/matrix_det.hpp:det", "matrix/matrix_inv.hpp:inv", "matrix/matrix_lu.hpp:lu", "matrix/matrix_cholesky.hpp:chol", "matrix/matrix_mean.hpp:mean", "matrix/matrix_var.hpp:var", "matrix/matrix_stddev.hpp:stddev", "matrix/matrix_median.hpp:median", "matrix/matrix_pow.hpp:pow", "matrix/matrix_conv2.hpp:conv2", "matrix/matrix_cholesky.hpp:isSymetric", "matrix/matrix_utils.hpp:compare"]}
{"id": "C107", "title": "matrices of modular integers: residues of the exact results, the determinant from several primes", "statement": "Take as element type the usual class of integers modulo p: representatives 0..p-1, a / b computed as a * b^(p-2). For every modulus, sums, differences, products, nonnegative powers, conv2 and determinants up to 3 x 3 of the residues of integer matrices are the residues of the exact results. If p is prime, det is the residue of the exact determinant for every size; if 2|det| < p the determinant itself is read off; and if an integer d has the residues det returns for distinct primes whose product exceeds twice |det| and twice |d|, then d is the determinant. If p does not divide the determinant inv returns the inverse modulo p, which is unique; multiplying by A and then by inv(A) gives back every X; negative powers are powers of the inverse. If p divides it inv throws (2 x 2, 3 x 3) or terminates (larger), but {{0}} is inverted to {{0}} silently. lu returns L*U = A modulo p, and throws exactly if p divides a leading minor; division by a number divides modulo p, and terminates if the number is 0 modulo p. Not so: mean is 0 whenever p divides the number of elements; from 4 x 4 on det is wrong for a modulus that is not prime; compare is not symmetric.", "quantifier": "all sizes, all integer matrices, every modulus, every prime, every list of distinct primes", "why_tests_cant": "the branches of det, inv and lu depend on which intermediate residues vanish, which differs from prime to prime", "anchors": ["matrix/matrix_sum.hpp:sum", "matrix/matrix_sub.hpp:sub", "matrix/matrix_mult.hpp:mult", "matrix/matrix_div.hpp:div", "matrix/matrix_det.hpp:det", "matrix/matrix_inv.hpp:inv", "matrix/matrix_lu.hpp:lu", "matrix/matrix_mean.hpp:mean", "matrix/matrix_pow.hpp:pow", "matrix/matrix_conv2.hpp:conv2", "matrix/matrix_utils.hpp:compare"]}
{"id": "C108", "title": "matrices of fixed point numbers: error in units of the last place, what stays exact, what is lost", "statement": "Take as element type the usual class of fixed point numbers with f binary places: products shifted right (rounded down), quotients of shifted numbers (rounded towards 0), and any overflow policy that refuses a number or leaves it alone. Whatever returns: sum and sub are exact; every element of a product is at most the exact one and less than the number of terms below it, in units of the last place; a product returns if the elements are small enough for the range; multiplying by eye on either side changes nothing; trans(A*B) is trans(B)*trans(A) and A*trans(A) is symmetric; whole numbers give the exact whole numbers in mult, pow, det up to 3 x 3 and conv2; mean is within one unit of the exact mean and between the least and the greatest element; var is not negative and stddev is the root of var rounded down; the determinant of a 2 x 2 matrix is less than one unit off, exactly singular 2 x 2 matrices have no inverse, and the inverse solves its equations with the computed determinant to one unit; compare is exact. Not so: an exactly singular 3 x 3 matrix may be inverted, a regular 2 x 2 matrix with small elements may be refused, (-A)*B is not -(A*B), and factors cannot be regrouped.", "quantifier": "all sizes, all matrices, every number of places, every overflow policy that does not alter numbers", "why_tests_cant": "rounding and overflow depend on every intermediate value, for every range and number of places", "anchors": ["matrix/matrix_sum.hpp:sum", "matrix/matrix_sub.hpp:sub", "matrix/matrix_mult.hpp:mult", "matrix/matrix_det.hpp:det", "matrix/matrix_inv.hpp:inv", "matrix/matrix_mean.hpp:mean", "matrix/matrix_var.hpp:var", "matrix/matrix_stddev.hpp:stddev", "matrix/matrix_pow.hpp:pow", "matrix/matrix_conv2.hpp:conv2", "matrix/matrix_utils.hpp:compare", "matrix/matrix_eye.hpp:eye", "matrix/matrix_trans.hpp:trans"]}
{"id": "C109", "title": "matrices whose elements are blocks: working on blocks, strassen all the way down, and what needs blocks that commute", "statement": "Take as element type a class that wraps a k x k matrix of the library (its + - * are the library's own, a / b is a * inv(b)); its product does not commute. In exact arithmetic sum, sub, mult, pow and eye on the matrix of blocks give the blocks of the result on the whole matrix, and so does strassen on four blocks; with the class nested r times, blocks being multiplied by strassen again, strassen multiplies matrices of order 2^(r+1) correctly. The mean is the mean of the blocks; a factor or a divisor that is a block is applied from the right. trans moves the blocks without turning them: it is the transposed matrix exactly if every block is symmetric. The determinant of four blocks is a block whose determinant is that of the whole matrix if the two lower blocks commute; if all blocks commute inv of a regular matrix is its inverse, and of a singular matrix nothing is returned. If moreover the matrix and its upper left block are regular, lu returns block triangular factors whose product is the matrix. Without that inv may refuse a permutation matrix and return an inverse of a singular matrix, and lu may return factors whose product is another matrix.", "quantifier": "all fields (the recursion: all rings), block sizes, numbers of blocks, depths and contents", "why_tests_cant": "unbounded sizes and depths of nesting; a test fixes one block size", "anchors": ["matrix/matrix_sum.hpp:sum", "matrix/matrix_sub.hpp:sub", "matrix/matrix_mult.hpp:mult", "matrix/matrix_strassen.hpp:strassen", "matrix/matrix_pow.hpp:pow", "matrix/matrix_eye.hpp:eye", "matrix/matrix_trans.hpp:trans", "matrix/matrix_mean.hpp:mean", "matrix/matrix_div.hpp:div", "matrix/matrix_det.hpp:det", "matrix/matrix_inv.hpp:inv", "matrix/matrix_lu.hpp:lu"]}
