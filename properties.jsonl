{"id": "C01", "title": "Collecting exactly N items", "statement": "Collecting an iterator that yields exactly N items into a Vector<T,N> succeeds (no panic, no undefined behaviour) in debug and release builds, and the k-th yielded item is the element at index k.", "quantifier": "every N, element type, iterator of N items, build profile", "why_tests_cant": "any N and any iterator state machine; a test fixes a few", "anchors": ["src/vector.rs: FromIterator for Vector (from_iter)"]}
{"id": "C02", "title": "Collecting too few items panics and drops what was received", "statement": "Collecting an iterator that yields k < N items panics (never returns a vector, never reads uninitialised memory), and before the panic propagates each of the k items already received is dropped exactly once, in order.", "quantifier": "every N, every k < N, every drop behaviour of the items, both profiles", "why_tests_cant": "needs every shortfall k and the exact drop history", "anchors": ["src/vector.rs: from_iter, None arm"]}
{"id": "C03", "title": "Collecting too many items", "statement": "Collecting an iterator that yields more than N items panics in a debug build; in a release build it returns the first N items in order and the surplus is dropped with the iterator, never stored.", "quantifier": "every N, every surplus, both profiles", "why_tests_cant": "the behaviour depends on the build profile and on all surplus lengths", "anchors": ["src/vector.rs: from_iter, debug_assert_eq!"]}
{"id": "C04", "title": "Collecting from an iterator that panics", "statement": "If the source iterator panics on any call of next while a Vector is being collected, the panic propagates, nothing already received is dropped twice, no uninitialised slot is touched and the source iterator itself is dropped exactly once; the items already received are leaked (not dropped).", "quantifier": "every N and every panic point", "why_tests_cant": "crash point ranges over all calls of next", "anchors": ["src/vector.rs: from_iter, NoDrop buffer"]}
{"id": "C05", "title": "generate calls the closure once per index in order", "statement": "Vector::generate(f) calls f exactly once for each index 0,1,...,N-1 in that order, threading the closure's state, and element i of the result is the i-th call's result; if a call panics, no later call is made.", "quantifier": "every N, every stateful closure", "why_tests_cant": "closures with arbitrary state and panics", "anchors": ["src/vector.rs: Vector::generate"]}
{"id": "C06", "title": "Owning iterator, consumed from the front", "statement": "For every vector and every number k of next() calls followed by dropping the iterator: the first min(k,N) elements are handed out in index order, each exactly once; after that next() returns None for ever; dropping the iterator drops exactly the elements not yet handed out, once each, in order.", "quantifier": "every N, vector, number of calls, drop behaviour", "why_tests_cant": "all consumption prefixes", "anchors": ["src/vector.rs: IntoIter::next, Drop for IntoIter"]}
{"id": "C07", "title": "Owning iterator behaves as a double-ended queue", "statement": "Under every sequence of next, next_back, nth, size_hint and len calls the owning iterator of a vector behaves as a double-ended queue of its elements: no element is handed out or dropped twice and len is the number of elements left.", "quantifier": "every history of calls", "why_tests_cant": "interleavings of two-ended consumption", "anchors": ["src/vector.rs: IntoIter::next_back, IntoIter::nth, ExactSizeIterator::len"]}
{"id": "C08", "title": "Owning iterator nth skips", "statement": "nth(n) on the owning iterator of a vector drops the n skipped elements exactly once and returns the next one, or, when fewer remain, drops what remains and returns None; it never touches memory outside the vector.", "quantifier": "every position and every n: usize", "why_tests_cant": "n ranges over all of usize", "anchors": ["src/vector.rs: IntoIter::nth"]}
{"id": "C09", "title": "Reversed owning iterator", "statement": "v.into_iter().rev() yields every element exactly once in reverse index order, then None; dropping it midway drops exactly the elements not yielded.", "quantifier": "every N, vector and stopping point", "why_tests_cant": "all stopping points", "anchors": ["src/vector.rs: IntoIter::next_back, Drop for IntoIter"]}
{"id": "C10", "title": "into_chunks is a deque of chunks", "statement": "For I > 0 dividing N, v.into_chunks::<I>() behaves under every interleaving of next, next_back, len and size_hint as a double-ended queue of the N/I consecutive length-I pieces of v, each in original order; chunks are whole, none is repeated or lost, and no call panics.", "quantifier": "every N, I, vector and history of calls", "why_tests_cant": "histories of interleaved two-ended calls", "anchors": ["src/vector.rs: Chunks::next, Chunks::next_back, Chunks::size_hint"]}
{"id": "C11", "title": "Matrix from flat vector is row-major", "statement": "Matrix::from(v) for v of length Row*Col (Col > 0) has v[i*Col + j] at (i,j), for all i, j, and never panics.", "quantifier": "every Row, Col > 0, v", "why_tests_cant": "all shapes", "anchors": ["src/matrix/mod.rs: From<Vector<T, Prod<Row, Col>>> for Matrix"]}
{"id": "C12", "title": "Vector indexing by usize", "statement": "v[i] returns the i-th element when i < N and panics otherwise (never undefined behaviour); assigning v[i] = x changes element i only.", "quantifier": "every N, v, i: usize, x", "why_tests_cant": "all indices", "anchors": ["src/vector.rs: Index<usize>, IndexMut<usize> for Vector"]}
{"id": "C13", "title": "Vector indexing by type-level index is always in bounds", "statement": "Indexing a vector with a type-level number that the compiler accepts reads/writes exactly that element and never touches memory outside the vector.", "quantifier": "every N and every accepted type-level index", "why_tests_cant": "index and length range over all types", "anchors": ["src/vector.rs: Index<UInt>, Index<U0> and IndexMut for Vector"]}
{"id": "C14", "title": "Matrix indexing", "statement": "m[(i,j)] returns entry (i,j) iff i < Row and j < Col and panics otherwise; assignment through m[(i,j)] changes that entry and no other; the four type-level forms return the same entry and are always in bounds.", "quantifier": "every shape, index pair and value", "why_tests_cant": "all shapes and indices", "anchors": ["src/matrix/mod.rs: Index/IndexMut for Matrix (all forms)"]}
{"id": "C15", "title": "Unchecked access is exact in bounds", "statement": "get_unchecked / get_unchecked_mut on vectors and matrices return the addressed element whenever the index is in bounds; out of bounds they panic in debug builds.", "quantifier": "every shape, index, profile", "why_tests_cant": "all indices", "anchors": ["src/vector.rs: get_unchecked(_mut)", "src/matrix/mod.rs: get_unchecked(_mut)"]}
{"id": "C16", "title": "Vector addition and subtraction are elementwise", "statement": "a + b and a - b have a[i] op b[i] at every i, apply the element operator once per index in increasing order, and the four by-value/by-reference forms agree.", "quantifier": "every N, operands and element operator (pure or effectful)", "why_tests_cant": "all N and element types", "anchors": ["src/vector.rs: impl_vector_arith!"]}
{"id": "C17", "title": "Compound assignment agrees with the binary operator", "statement": "a += b, a -= b, a *= s, a /= s leave a equal to a op b (resp. a op s) when the element's compound operator agrees with its binary one; if the element operator panics at index k the elements before k have been updated and those from k on are untouched. If the operator panics, the receiver (vector or matrix) keeps its shape and holds the results so far followed by its old elements from the panicking position on, and exactly the right-hand elements after that position are dropped, once each.", "quantifier": "every N, operands, panic point", "why_tests_cant": "all panic points", "anchors": ["src/vector.rs: AddAssign, SubAssign, MulAssign, DivAssign for Vector", "src/matrix/arith.rs: AddAssign, SubAssign, MulAssign<T>, DivAssign for Matrix"]}
{"id": "C18", "title": "Scalar multiplication, division and negation are elementwise", "statement": "v * s, v / s, -v (and the matrix forms m * s, m * &s, m / s, m / &s, -m) apply the element operation at every position and nowhere else.", "quantifier": "every shape, operand", "why_tests_cant": "all shapes", "anchors": ["src/vector.rs: Mul, Div, Neg for Vector", "src/matrix/arith.rs: Mul<T>, Mul<&T>, Div<T>, Div<&T>, Neg for Matrix"]}
{"id": "C19", "title": "By-value elementwise operations are panic-safe", "statement": "If the element operator panics at any position during a by-value vector or matrix operation (a + b, a - b, v * s, m * s, m / s, -v, -m), no element is dropped twice: every input element was either moved into an operator call or is dropped exactly once during unwinding; operands passed by reference are not dropped at all.", "quantifier": "every size, operands and panic point", "why_tests_cant": "crash point ranges over all operator calls", "anchors": ["src/vector.rs: impl_vector_arith!, Mul, Neg, IntoIter Drop, from_iter", "src/matrix/arith.rs: Add, Sub, Mul<T>, Div<T>, Neg"]}
{"id": "C20", "title": "Dot product", "statement": "a.dot(b) is the sum over i of a[i]*b[i]; over a commutative ring it is symmetric and bilinear, and a.dot(zero) is zero.", "quantifier": "every N and ring", "why_tests_cant": "for all vectors of all lengths", "anchors": ["src/vector.rs: Vector::dot"]}
{"id": "C21", "title": "Cross product", "statement": "Over a commutative ring a.cross(b) is orthogonal to a and b, anticommutative, bilinear, satisfies a x a = 0, the Jacobi identity and Lagrange's identity |a x b|^2 = |a|^2|b|^2 - (a.b)^2.", "quantifier": "all 3-vectors over any commutative ring", "why_tests_cant": "algebraic identities over all inputs", "anchors": ["src/vector.rs: Vector<T,U3>::cross"]}
{"id": "C22", "title": "Norm and normalisation", "statement": "Over the reals (exact arithmetic) v.norm() is the non-negative square root of the sum of squares, is zero iff v is zero, scales by |s|, satisfies the triangle inequality, and v.normalized() has norm 1 and is parallel to v when v is non-zero.", "quantifier": "all vectors over a real closed field", "why_tests_cant": "for all vectors", "anchors": ["src/vector.rs: norm, normalized"]}
{"id": "C23", "title": "Sum", "statement": "v.sum() and m.sum() add every entry exactly once, starting from zero in index (row-major) order; sum is additive.", "quantifier": "all shapes", "why_tests_cant": "all shapes", "anchors": ["src/vector.rs: Vector::sum", "src/matrix/mod.rs: Matrix::sum"]}
{"id": "C24", "title": "max and min", "statement": "For N > 0 and a total order, v.max()/v.min() (and the square-matrix forms) return an element of the container that is >= (<=) every element; among equal maxima the last is returned, among equal minima the first; they never panic.", "quantifier": "every non-empty vector / square matrix and total preorder", "why_tests_cant": "all inputs including ties", "anchors": ["src/vector.rs: max, min", "src/matrix/mod.rs: max, min"]}
{"id": "C25", "title": "max_by and min_by", "statement": "For N > 0 max_by(comp) returns the first element that no other element exceeds under comp, min_by(comp) the first that exceeds no other, for every total preorder; the comparator is called exactly N-1 times (Row*Col-1 for matrices); they never panic.", "quantifier": "every container, comparator", "why_tests_cant": "all comparators, ties", "anchors": ["src/vector.rs: max_by, min_by", "src/matrix/mod.rs: max_by, min_by"]}
{"id": "C26", "title": "Clamping", "statement": "clamped(lo,hi) with lo <= hi puts every entry in [lo,hi], leaves entries already inside unchanged, is idempotent and monotone; clamp makes the same change in place; with lo > hi every entry becomes hi.", "quantifier": "all containers, bounds, total orders", "why_tests_cant": "all inputs", "anchors": ["src/vector.rs: clamped, clamp", "src/matrix/mod.rs: clamped, clamp"]}
{"id": "C27", "title": "Equality", "statement": "Vector/Matrix equality holds iff all corresponding entries are equal; it is reflexive, symmetric and transitive whenever the element equality is.", "quantifier": "all containers", "why_tests_cant": "all inputs", "anchors": ["src/vector.rs: PartialEq", "src/matrix/mod.rs: PartialEq"]}
{"id": "C28", "title": "Eq promises reflexivity", "statement": "Every type for which Vector/Matrix implement the marker trait Eq has reflexive equality.", "quantifier": "all element types with PartialEq (the bound written on the impl)", "why_tests_cant": "quantifies over element types", "anchors": ["src/vector.rs: Eq for Vector", "src/matrix/mod.rs: Eq for Matrix"]}
{"id": "C29", "title": "Clone", "statement": "clone() calls the element's clone once per element in index (row-major) order and returns a container whose entries are those clones; with a faithful element clone the copy equals the original.", "quantifier": "all containers", "why_tests_cant": "all shapes and effects", "anchors": ["src/vector.rs: Clone for Vector", "src/matrix/mod.rs: Clone for Matrix"]}
{"id": "C30", "title": "Zero, default and bounds", "statement": "zero(), default(), min_value(), max_value() have the element's constant at every position; is_zero() is true iff every entry is zero; zero() is neutral for +.", "quantifier": "all shapes", "why_tests_cant": "all shapes", "anchors": ["src/vector.rs: Zero, Bounded, Default", "src/matrix/mod.rs: Zero, Bounded, Default"]}
{"id": "C31", "title": "Construction and dimensions", "statement": "Matrix::new(rows) has rows[i][j] at (i,j) and dim/rows/cols report the type-level dimensions, which are the actual numbers of rows and of elements in every row. Likewise Vector::new(components) holds exactly those components (as_slice, iter), and len/is_empty report the type-level length.", "quantifier": "all shapes", "why_tests_cant": "all shapes", "anchors": ["src/matrix/mod.rs: new, dim, rows, cols", "src/vector.rs: new, as_slice, iter, len, is_empty"]}
{"id": "C32", "title": "Diagonal matrices", "statement": "Matrix::diag(e) with min(Row,Col) elements has e[i] at (i,i), zero elsewhere, uses every element exactly once and never panics, for square, wide and tall shapes.", "quantifier": "all shapes", "why_tests_cant": "all shapes", "anchors": ["src/matrix/mod.rs: diag", "src/util.rs: Min, MinImpl"]}
{"id": "C33", "title": "Identity", "statement": "identity()/one() has one on the diagonal and zero elsewhere and is a left and right unit of matrix multiplication.", "quantifier": "all n, semirings and matrices", "why_tests_cant": "all matrices", "anchors": ["src/matrix/mod.rs: identity, One"]}
{"id": "C34", "title": "Matrix generate, all, any, map order", "statement": "generate and map call the closure exactly once per entry in row-major order with the right index and put the result at that entry; all/any return the conjunction/disjunction over all entries, evaluate in row-major order and stop at the first decisive entry.", "quantifier": "all shapes and stateful closures", "why_tests_cant": "stateful closures", "anchors": ["src/matrix/mod.rs: generate, all, any, map"]}
{"id": "C35", "title": "Matrix map is panic-safe", "statement": "If the closure given to Matrix::map panics at any call, every input entry was either passed to the closure once or is dropped exactly once during unwinding; none is dropped twice.", "quantifier": "all shapes and panic points", "why_tests_cant": "crash point ranges over all calls", "anchors": ["src/matrix/mod.rs: map", "src/vector.rs: IntoIter, from_iter"]}
{"id": "C36", "title": "Transpose", "statement": "transposed() has m[(i,j)] at (j,i), is an involution, distributes over + and reverses products; transpose() in place does the same to a square matrix. The columns are cloned in order, one clone per element; if a clone panics, transpose() in place leaves the matrix unchanged.", "quantifier": "all shapes, commutative rings for the product law", "why_tests_cant": "all matrices", "anchors": ["src/matrix/mod.rs: transposed, transpose", "src/matrix/iter.rs: ColsIter"]}
{"id": "C37", "title": "Matrix addition and subtraction", "statement": "m1 + m2 and m1 - m2 are entrywise in all four reference forms; over a ring they satisfy the abelian group laws with Neg and zero.", "quantifier": "all shapes", "why_tests_cant": "all matrices", "anchors": ["src/matrix/arith.rs: impl_matrix_arith!, Neg"]}
{"id": "C38", "title": "Matrix product", "statement": "(A*B)[(i,j)] is the sum over k of A[(i,k)]*B[(k,j)]; the four by-value/by-reference forms and *= agree; it never panics for panic-free element arithmetic.", "quantifier": "all shapes", "why_tests_cant": "all shapes", "anchors": ["src/matrix/arith.rs: Mul<Matrix> (4 forms), MulAssign<Matrix>"]}
{"id": "C39", "title": "Matrix product algebra", "statement": "Over any semiring matrix multiplication is associative, distributes over addition on both sides and is compatible with scalar multiplication (commutative case).", "quantifier": "all shapes and matrices", "why_tests_cant": "all matrices", "anchors": ["src/matrix/arith.rs: Mul<Matrix>, Add, Mul<T>"]}
{"id": "C40", "title": "Matrix-vector product", "statement": "(A*v)[i] is the sum over k of A[(i,k)]*v[k], by value and by reference; (A*B)*v = A*(B*v).", "quantifier": "all shapes", "why_tests_cant": "all inputs", "anchors": ["src/matrix/arith.rs: Mul<Vector>, Mul<&Vector>"]}
{"id": "C41", "title": "Power", "statement": "m.pow(e) is the e-fold product of m (identity for e = 0), for every e: usize, so pow(a+b) = pow(a)*pow(b) and pow(a*b) = pow(pow(a),b).", "quantifier": "all n, e, semirings", "why_tests_cant": "all exponents", "anchors": ["src/matrix/mod.rs: pow"]}
{"id": "C42", "title": "Fibonacci documentation claim", "statement": "(matrix![[1,1],[1,0]].pow(n) * vector![1,0])[1] and the loop in examples/fib.rs compute the n-th Fibonacci number exactly (mod 2^64 in u64 release arithmetic).", "quantifier": "all n", "why_tests_cant": "all n", "anchors": ["src/lib.rs: doc example fib", "examples/fib.rs: main"]}
{"id": "C43", "title": "Determinant over a field", "statement": "For every n >= 1 and every n x n matrix over a field, determinant() returns the mathematical (Leibniz) determinant, never panics and never divides by zero, also when a zero pivot forces the cofactor fallback.", "quantifier": "all n >= 1, fields, matrices", "why_tests_cant": "all matrices incl. singular and zero-pivot ones", "anchors": ["src/matrix/ops.rs: Determinant (U1, U2, U3, N > U3), Cofactor"]}
{"id": "C44", "title": "Small determinants need only a commutative ring", "statement": "For n = 1, 2, 3 determinant() is the Leibniz determinant over every commutative ring (so for integers and machine integers mod 2^w).", "quantifier": "all commutative rings", "why_tests_cant": "all matrices", "anchors": ["src/matrix/ops.rs: Determinant for U1, U2, U3"]}
{"id": "C45", "title": "Determinant laws", "statement": "determinant is multiplicative, invariant under transposition, 1 on the identity, zero iff the matrix is not invertible, and scales by s^n.", "quantifier": "all n >= 1, fields", "why_tests_cant": "algebraic laws", "anchors": ["src/matrix/ops.rs: Determinant"]}
{"id": "C46", "title": "Cofactor", "statement": "cofactor((i,j)) is (-1)^(i+j) times the determinant of the matrix with row i and column j removed; out-of-range indices panic for every size and profile; expanding along any row or column by cofactors gives the determinant.", "quantifier": "all n >= 2, i, j", "why_tests_cant": "all sizes, indices", "anchors": ["src/matrix/ops.rs: Cofactor (U2, U3, N > U3)"]}
{"id": "C47", "title": "Inverse for sizes 1 to 3", "statement": "For n = 1, 2, 3 over a field inverse() is Some(x) with m*x = x*m = identity iff the determinant is non-zero, None otherwise.", "quantifier": "all matrices over a field", "why_tests_cant": "all matrices", "anchors": ["src/matrix/ops.rs: Inverse for U1, U2, U3"]}
{"id": "C48", "title": "Inverse for sizes above 3 is sound", "statement": "For n >= 4 over a field, whenever inverse() returns Some(x), m*x = x*m = identity; it never panics or divides by zero; on a singular matrix it returns None.", "quantifier": "all n >= 4, matrices", "why_tests_cant": "all matrices", "anchors": ["src/matrix/ops.rs: Inverse for N > U3"]}
{"id": "C49", "title": "Inverse finds every invertible matrix", "statement": "inverse() returns Some for every invertible matrix.", "quantifier": "all n, invertible matrices over a field", "why_tests_cant": "all matrices", "anchors": ["src/matrix/ops.rs: Inverse for N > U3"]}
{"id": "C50", "title": "When inverse above size 3 succeeds", "statement": "For n >= 4 inverse() returns Some exactly when all leading principal minors of the matrix are non-zero.", "quantifier": "all n >= 4, matrices over a field", "why_tests_cant": "all matrices", "anchors": ["src/matrix/ops.rs: Inverse for N > U3"]}
{"id": "C51", "title": "Integer matrices above size 3", "statement": "The determinant of an integer matrix (truncating division) is the mathematical determinant.", "quantifier": "all integer matrices", "why_tests_cant": "all matrices; documentation only warns it may be wrong", "anchors": ["src/matrix/ops.rs: Determinant for N > U3"]}
{"id": "C52", "title": "Owned row/column iterators, items", "statement": "rows_iter()/cols_iter() yield clones of the rows/columns as a double-ended queue under every history of next, next_back, nth and last whose skips do not overflow usize; each row/column is yielded at most once and in order.", "quantifier": "all shapes, histories", "why_tests_cant": "histories", "anchors": ["src/matrix/iter.rs: RowsIter, ColsIter"]}
{"id": "C53", "title": "Owned row/column iterators, reported length", "statement": "len(), count() and size_hint() of rows_iter()/cols_iter() equal the number of rows/columns still to come after every history.", "quantifier": "all shapes, histories", "why_tests_cant": "histories", "anchors": ["src/matrix/iter.rs: RowsIter/ColsIter size_hint, count, len"]}
{"id": "C54", "title": "Borrowing row/column iterators", "statement": "rows_iter_ref(), cols_iter_ref() and the column iterators it yields behave as double-ended queues of rows, columns and entries under every history of next, next_back, len, size_hint and of nth calls that skip no further than the end.", "quantifier": "all shapes, histories", "why_tests_cant": "histories", "anchors": ["src/matrix/iter.rs: RowsIterRef, ColsIterRef, ColsIterRefInner"]}
{"id": "C55", "title": "nth past the end of matrix iterators", "statement": "After nth(n) with n past the end, matrix iterators keep returning None and len() reports 0, for every n: usize.", "quantifier": "all shapes, positions and n", "why_tests_cant": "n ranges over usize", "anchors": ["src/matrix/iter.rs: nth and len of the five iterators"]}
{"id": "C56", "title": "Conjugate", "statement": "conjugate() conjugates every entry; it is an involution, additive, multiplicative over products, and m.conjugate()+m has zero imaginary parts. And whatever clone and negation of the parts do (effects, panics): conjugate clones all entries first, row by row, then conjugates the clones in the same order, and drops the clones not reached when that panics.", "quantifier": "all shapes, commutative rings", "why_tests_cant": "all matrices", "anchors": ["src/matrix/mod.rs: conjugate"]}
{"id": "C57", "title": "Approximate equality", "statement": "relative_eq and ulps_eq of matrices hold iff they hold for every pair of corresponding entries with the same tolerances.", "quantifier": "all shapes", "why_tests_cant": "all matrices", "anchors": ["src/matrix/mod.rs: ApproxEq for Matrix"]}
{"id": "C58", "title": "Debug formatting", "statement": "{:?} of a vector prints Vector[e0, e1, ...] and of a matrix prints Matrix[row0, row1, ...] with every row printed as a list, for every shape, without panicking.", "quantifier": "all shapes", "why_tests_cant": "all shapes incl. zero rows", "anchors": ["src/vector.rs: Debug for Vector", "src/matrix/mod.rs: Debug for Matrix"]}
{"id": "C59", "title": "Display alignment", "statement": "Displaying a matrix never panics; every printed line has the same display width, column j is as wide as its widest entry line, and the number of printed lines is the sum over rows of the largest line count among that row's entries.", "quantifier": "all shapes and entry texts, any additive display width", "why_tests_cant": "all entry texts", "anchors": ["src/matrix/mod.rs: Display for Matrix"]}
{"id": "C60", "title": "Display content", "statement": "Every line of every entry's text appears in the displayed matrix in its row and column cell, centred there between spaces; nothing is lost. Lines are separated by one line break each, and there is no line break at the end except for the border of the last row.", "quantifier": "all shapes, texts", "why_tests_cant": "all texts", "anchors": ["src/matrix/mod.rs: Display for Matrix"]}
{"id": "C61", "title": "Construction macros count correctly", "statement": "vector![...] and matrix![[...],...] choose type-level dimensions equal to the number of elements / rows / elements of the first row, and matrix! accepts exactly rectangular literals.", "quantifier": "all literal lengths", "why_tests_cant": "all lengths", "anchors": ["src/macros.rs: vector!, matrix!"]}
{"id": "C62", "title": "Type-level minimum", "statement": "Min<A,B> is the smaller of A and B for all type-level naturals.", "quantifier": "all type-level naturals", "why_tests_cant": "all numbers", "anchors": ["src/util.rs: Min, MinImpl"]}
{"id": "C63", "title": "Prelude aliases", "statement": "Every prelude alias VectorNfW / MatrixNfW denotes a container of fW with dimension N.", "quantifier": "all aliases", "why_tests_cant": "finite but type-level, invisible to value tests", "anchors": ["src/prelude.rs"]}
{"id": "C64", "title": "Checked integer arithmetic is exact or panics", "statement": "In a debug build every ring operation of the crate (vector/matrix +, -, *, dot, sum, cross, matrix product, matrix-vector product, pow, determinants up to 3) on machine integers either panics or returns the exact integer result.", "quantifier": "all widths, shapes, inputs", "why_tests_cant": "overflow at any intermediate step", "anchors": ["src/vector.rs: arithmetic", "src/matrix/arith.rs: arithmetic", "src/matrix/ops.rs: determinants"]}
{"id": "C65", "title": "Release integer arithmetic is exact modulo 2^w", "statement": "In a release build the same operations on w-bit integers never panic and return the exact integer result reduced modulo 2^w.", "quantifier": "all widths, shapes, inputs", "why_tests_cant": "wrap-around at any intermediate step", "anchors": ["src/vector.rs: arithmetic", "src/matrix/arith.rs: arithmetic", "src/matrix/ops.rs: determinants"]}
{"id": "C66", "title": "Floating-point inverse is accurate on well-conditioned matrices", "statement": "For a well-conditioned matrix of f32 or f64, m * m.inverse().unwrap() is close to the identity.", "quantifier": "all well-conditioned f32 and f64 matrices", "why_tests_cant": "all matrices; no pivoting is done", "anchors": ["src/matrix/ops.rs: Inverse for N > U3"]}
{"id": "C67", "title": "Every size has exactly one implementation", "statement": "For every supported dimension 1..32 exactly one Determinant and one Inverse implementation applies, for 2..32 exactly one Cofactor implementation, none for 0, and the array behind Vector<T,UN> has length N.", "quantifier": "all supported dimensions", "why_tests_cant": "type-level dispatch", "anchors": ["src/matrix/ops.rs: impl headers", "src/vector.rs: ArrayLen, impl_arraylen!"]}
{"id": "C68", "title": "Determinant, cofactor and inverse are total and deterministic", "statement": "For every square matrix of supported size whose element operators are pure and never panic (e.g. f32/f64, including NaN and infinities), determinant, inverse and cofactor (with an in-range index) return normally with no side effect, an inverse has the shape of the matrix, and the results do not depend on build profile or word size.", "quantifier": "all sizes 1..32, all matrices, all element types with pure total operators (no algebraic laws assumed)", "why_tests_cant": "all matrices; loops index dynamically and could go out of range", "anchors": ["src/matrix/ops.rs: Determinant, Cofactor, Inverse"]}
{"id": "C69", "title": "Rounding errors of f32 and f64 vector and matrix arithmetic are bounded", "statement": "For f32 and f64 vectors and matrices of moderate entries: sum, dot, matrix product, matrix-vector product, cross product, norm and the determinants of sizes 1 to 3 return finite results whose distance from the exact real value is at most (number of roundings + 1) * EPSILON times the sum of the absolute values of the terms (the permanent of the absolute values for determinants, the norm itself for norm); each component of normalized() has relative error at most 2 (n + 2) EPSILON.", "quantifier": "both float types (precision p, largest exponent emax), all lengths up to 2^(p-3), all h, all finite entries that are zero or between 2^-h and 2^h with 2h + p <= emax (6h + p + 6 <= emax for determinants; only an upper bound for sums)", "why_tests_cant": "all inputs; worst-case rounding patterns cannot be enumerated", "anchors": ["src/vector.rs: dot, sum, norm, normalized, cross", "src/matrix/arith.rs: Mul", "src/matrix/ops.rs: Determinant"]}
{"id": "C70", "title": "Which element operations products, determinant, inverse and cofactor perform, and in which order", "statement": "For every element type, however effectful its operators (they may log, count or panic): a matrix product computes its entries row by row and each row from left to right; entry (i,j) is ((0 + a_i1*b_1j) + a_i2*b_2j) + ..., every term cloned and multiplied only when its turn comes, and the first panic ends the computation there; both factors are cloned for a right operand by value, only the left one for a right operand by reference; m*&v clones nothing and drops the unread rest of m on a panic; a *= b overwrites a only if every operation returned. dot does the same for one entry. cross, the determinant up to size 3 and the entries of the adjugate behind the inverse up to size 3 evaluate their formulas from left to right, cloning an entry when it is its turn; the inverse divides only after the determinant and all those entries are there. From size 4 the determinant clones the matrix element by element and eliminates below the diagonal column by column, row by row and element by element (x_jk.clone() - x_ik.clone() * q.clone(), q = x_ji.clone() / x_ii.clone()), looking at the pivot before every row: a zero pivot leads to the expansion along column 0 of the original matrix, each entry cloned before its cofactor is computed; otherwise it multiplies the diagonal from the top. The inverse from size 4 clears the columns of the clone and of the identity side by side, an element of the left before the same element of the right, and returns None at the first zero pivot. A cofactor clones its minor row by row; the sign is made before the minor up to size 3, after it from size 4 on. sum and norm take the elements in order.", "quantifier": "all shapes, all matrices and vectors, all element operators including panicking ones, all initial worlds", "why_tests_cant": "every panic position of every operator in every shape; evaluation order is only visible with effectful elements", "anchors": ["src/matrix/arith.rs: Mul, MulAssign", "src/vector.rs: dot", "src/vector.rs: cross, sum, norm", "src/matrix/ops.rs: Determinant, Inverse, Cofactor"]}
{"id": "C71", "title": "Number of element operations in products and pow", "statement": "An l x n times n x r product performs exactly l*n*r multiplications and l*n*r additions, plus 2*l*n*r clones if the right operand is taken by value and l*n*r if by reference; m*v performs row*col of each with two clones per term, m*&v without any clone; m.pow(e) performs floor(log2 e) + popcount(e) - 1 products.", "quantifier": "all shapes, matrices, exponents, cost weights", "why_tests_cant": "all sizes and exponents", "anchors": ["src/matrix/arith.rs: Mul", "src/matrix/mod.rs: pow"]}
{"id": "C72", "title": "Number of element operations in a determinant", "statement": "For n >= 4 over a field: if no leading principal minor of order below n vanishes, determinant() performs exactly n^2(n-1)/2 + n multiplications (and the corresponding numbers of divisions, subtractions and clones). A matrix of rank r, in contrast, needs at least n!/max(3,r+1)! multiplications (so a 32x32 zero matrix needs more than 10^34), and no matrix needs more than 5*n!.", "quantifier": "all fields, sizes, matrices, cost weights", "why_tests_cant": "all sizes and matrices; the bad case does not terminate in practice", "anchors": ["src/matrix/mod.rs: Determinant, Cofactor"]}
{"id": "C73", "title": "Number of element operations in an inverse", "statement": "For n >= 4, an inverse that is found costs exactly n divisions, 2n^3 multiplications and 2n^2(n-1) subtractions, and a refused one at most that: singular matrices do not slow inverse() down, whatever the element arithmetic.", "quantifier": "all element types, sizes, matrices, cost weights", "why_tests_cant": "all sizes and matrices", "anchors": ["src/matrix/mod.rs: Inverse"]}
{"id": "C74", "title": "Float arithmetic on small integers is exact", "statement": "For f32 and f64 vectors and matrices with integer entries, sum, dot, cross, matrix addition and subtraction, matrix product, matrix-vector product and the determinants of sizes 1 to 3 return exactly the integer result, provided the absolute values of the added terms sum to at most 2^24 (f32) or 2^53 (f64).", "quantifier": "both float types, all lengths and shapes, all integer entries within the bound", "why_tests_cant": "all shapes and entries", "anchors": ["src/vector.rs: sum, dot, cross", "src/matrix/arith.rs: Add, Sub, Mul", "src/matrix/ops.rs: Determinant"]}
{"id": "C75", "title": "Float inverses of dominant matrices of any size are accurate", "statement": "For f32 and f64 matrices of size n >= 4 that are diagonally dominant by rows (margin del, row sums of absolute values at most B, 24 n^2 epsilon B <= del), inverse() returns Some, nothing overflows, the matrix is invertible over the reals, every entry of the result is within 80 n^2 epsilon (B/del)^2 of the exact inverse, and the product with the original matrix is within 82 n^2 epsilon B^2/del of the identity, in exact arithmetic and as computed by the crate.", "quantifier": "both float types, all sizes n >= 4, all dominant matrices of finite entries", "why_tests_cant": "all sizes and matrices; accumulated rounding", "anchors": ["src/matrix/ops.rs: Inverse for N > U3"]}
{"id": "C76", "title": "Float determinants of dominant matrices of any size are accurate", "statement": "For f32 and f64 matrices of size n >= 4 that are diagonally dominant by rows (margin del, row sums of absolute values at most B, 16 n^3 epsilon B <= del, and n-fold products of numbers between del/2 and 2B stay in range), determinant() returns a finite number with the sign of the exact, non-zero determinant and with relative error at most 16 n^3 epsilon B/del.", "quantifier": "both float types, all sizes n >= 4, all dominant matrices of finite entries", "why_tests_cant": "all sizes and matrices; accumulated rounding", "anchors": ["src/matrix/ops.rs: Determinant for N > U3"]}
{"id": "C77", "title": "Integer vectors and matrices divided by a scalar", "statement": "With primitive integer elements, vector / x, matrix / x and matrix / &x return the entrywise quotients truncated towards zero, in checked and unchecked builds alike; they panic - never anything else - when x is 0 and there is an entry, or when x is -1 and an entry is the minimum of a signed type.", "quantifier": "all primitive integer types (sign and width), both overflow profiles, all sizes, all entries and divisors", "why_tests_cant": "every width, entry and divisor; panics that depend on one entry", "anchors": ["src/vector.rs: Div for Vector", "src/matrix/arith.rs: Div<T> and Div<&T> for Matrix"]}
{"id": "C78", "title": "inverse() on integer matrices", "statement": "For a matrix of primitive signed integers, inverse() returns None when the determinant is 0 and otherwise Some of the inverse over the integers if there is one.", "quantifier": "all signed integer types, both overflow profiles, all sizes, all matrices", "why_tests_cant": "division truncates: which matrices are inverted correctly depends on determinant and size", "anchors": ["src/matrix/ops.rs: Inverse for U1, U2, U3, N > U3"]}
{"id": "C79", "title": "Determinant, inverse and division of complex matrices", "statement": "For matrices of num::Complex over exact ordered-field arithmetic, determinant() returns the complex determinant, inverse() returns Some of the two-sided inverse or None (None exactly when the determinant - for n > 3, one of the leading principal minors - is 0), dividing by a non-zero complex scalar is undone by multiplying, and determinant() and inverse() commute with conjugate().", "quantifier": "all ordered fields, all sizes, all complex matrices and scalars", "why_tests_cant": "all sizes and entries; complex division and zero test composed with elimination", "anchors": ["src/matrix/ops.rs: Determinant, Inverse", "src/matrix/arith.rs: Div; src/matrix/mod.rs: conjugate"]}
{"id": "C80", "title": "Destructors that panic do not break memory safety", "statement": "If dropping an element may panic, no use of a vector's owning iterator and no collection into a vector is undefined behaviour: no element is dropped twice and no uninitialised slot is dropped; elements whose destructor has not run when the panic happens may be leaked.", "quantifier": "all element types, all (stateful) destructors that return or panic, all lengths, all iterators being collected, all iterator histories", "why_tests_cant": "any destructor of any element may be the one that panics, at any point of any history", "anchors": ["src/vector.rs: FromIterator for Vector, Drop for IntoIter, IntoIter::nth, IntoIter::count"]}
{"id": "C81", "title": "Float inverses are accurate when all leading blocks are well conditioned", "statement": "For f32 and f64 matrices of size n >= 4 with row sums of absolute values at most B, all of whose leading principal blocks are invertible over the reals with inverses of row sums at most H (720 n^2 epsilon H^5 B^6 <= 1), inverse() returns Some, nothing overflows, every entry of the result is within 90 n^2 epsilon H^4 B^4 of the exact inverse, and the product with the original matrix is within 91 n^2 epsilon H^3 B^4 of the identity, in exact arithmetic and as computed by the crate.", "quantifier": "both float types, all sizes n >= 4, all matrices of finite entries with well-conditioned leading blocks", "why_tests_cant": "all sizes and matrices; accumulated rounding; nothing pivots", "anchors": ["src/matrix/ops.rs: Inverse for N > U3"]}
{"id": "C82", "title": "Float determinants are accurate when all leading blocks are well conditioned", "statement": "For f32 and f64 matrices of size n >= 4 with row sums of absolute values at most B, all of whose leading principal blocks are invertible over the reals with inverses of row sums at most H (300 n^3 epsilon H^5 B^6 <= 1, and the product of the pivots stays in range), determinant() is finite, has the sign of the exact determinant, and its relative error is at most 300 n^3 epsilon H^5 B^6.", "quantifier": "both float types, all sizes n >= 4, all matrices of finite entries with well-conditioned leading blocks", "why_tests_cant": "all sizes and matrices; accumulated rounding; nothing pivots", "anchors": ["src/matrix/ops.rs: Determinant for N > U3"]}
{"id": "C83", "title": "User comparisons: which calls, in which order, and what a panic leaves behind", "statement": "With element types whose ==, Ord::cmp and Clone have side effects or panic: == on vectors and matrices compares corresponding elements in index (row-major) order and stops at the first unequal pair; max()/min() compare the best element so far with each further element once, in order, and clone only the winner; on matrices each row's winner is cloned and then compared with the best so far, n^2 - 1 comparisons and n clones in all, and every clone not returned is dropped exactly once, also when a comparison or clone panics at any point; clamped()/clamp() make two comparisons and one clone per element in order; if one panics, clamp() leaves the elements before it clamped and that one and all later ones unchanged; the by-value bounds are dropped exactly once. For pure comparisons these are the functions of C24, C26 and C27.", "quantifier": "all sizes, elements, worlds, comparison and clone behaviours (including where they panic)", "why_tests_cant": "arbitrary user code with side effects, panicking at any call", "anchors": ["src/vector.rs: PartialEq, max, min, clamped, clamp", "src/matrix/mod.rs: PartialEq, max, min, clamped, clamp"]}
{"id": "C84", "title": "Laws of inverse()", "statement": "Over a field with exact operations, when a.inverse() is Some(b): a * x == v exactly when x == b * v (so the inverse solves every linear system, uniquely); det(b) == 1/det(a); b.inverse() is Some(a), except that for sizes above 3 it may be None; and (a * c).inverse() is Some(c.inverse() * a.inverse()) when both exist, again except that above size 3 it may be None (both exceptions occur). At every size inverse() commutes with transposed() and, up to the reciprocal factor, with multiplication by a non-zero scalar - also in when it returns None - and maps the identity to itself.", "quantifier": "all sizes n >= 1, fields, matrices, vectors and scalars", "why_tests_cant": "algebraic identities over all matrices of all sizes over all fields", "anchors": ["src/matrix/ops.rs: Inverse, Determinant", "src/matrix/arith.rs: Mul", "src/matrix/mod.rs: transposed, identity"]}
{"id": "C85", "title": "Memory safety with arbitrary element operations", "statement": "Whatever the element type's operators, clones, comparisons, closures, formatters and iterators do - have side effects, panic at any point, disobey every algebraic or ordering law - no safe function of the crate reads or writes out of bounds, reads an uninitialised or moved-out slot, or otherwise has undefined behaviour, as long as those operations themselves do not. Every Vector<T, N> it returns has exactly N elements and every Matrix the right shape, with every element one that was passed in or that an element operation returned; a &mut receiver stays such a value even when the call panics; and a call fails to end only if an element operation (or a user's endless iterator) does. This holds for construction, indexing, all operators and compound assignments, map/all/any/clone/transpose, products and powers, det/cofactor/inverse, norm, max/min/clamp, equality, formatting, and every history of calls on the four matrix iterators and the columns they hand out. (The exceptions are separate properties: IntoIter from the back or with nth, C07/C08; the static index U0 on an empty shape, C13; panicking destructors, C80; the unsafe functions, C15; implementations of the trait ArrayLen outside the crate, C87; the public constructor of column iterators, C89.)", "quantifier": "all element types, world states and effectful, panicking or lawless element operations; all shapes and values; all histories of iterator calls", "why_tests_cant": "quantifies over every possible behaviour of user-supplied code, including a panic at every point, and undefined behaviour is not observable by tests", "anchors": ["src/vector.rs: from_iter, IntoIter, get_unchecked, index", "src/matrix/iter.rs", "src/matrix/mod.rs", "src/matrix/arith.rs", "src/matrix/ops.rs"]}
{"id": "C86", "title": "Representation independence: element types are used only through their operations", "statement": "The crate observes elements only through the element type's own operations (arithmetic, zero/one, clone, comparison, formatting, drop) and the closures and iterators the caller supplies. Hence any correspondence between two element types (and between the states of two worlds) that those operations respect is respected by every function: run on corresponding inputs, construction, access, operators, compound assignments, maps, products, powers, det, inverse, comparisons, formatting and the iterators end the same way (return, panic, or neither), with corresponding results and corresponding worlds (so effects and drops happen in the same order on both sides). Consequences: a map of element types that commutes with the ring operations commutes with matrix product, power, dot, cross and determinants up to 3x3 (and, if it also commutes with division and the zero test, with larger determinants, cofactors and inverse); matrices of wrapping k-bit integers compute exactly the integer result modulo 2^k, for products, powers and determinants up to 3x3; an instrumented element type (one that counts or logs operations) gives the same answers as the plain one.", "quantifier": "all pairs of element types, worlds and relations between them; all shapes, values, element operations, closures and iterators", "why_tests_cant": "quantifies over every pair of element types and every relation between them", "anchors": ["src/vector.rs", "src/matrix/mod.rs", "src/matrix/arith.rs", "src/matrix/ops.rs", "src/matrix/iter.rs"]}
{"id": "C87", "title": "User implementations of the public trait ArrayLen", "statement": "No safe code causes undefined behaviour, including an implementation of the public (and not unsafe) trait ArrayLen for a length type of the user's own, whatever the relation between its to_usize() and the number of elements of its Array. (This promise is broken; what is true: collecting is safe for exactly those implementations whose Array has to_usize() elements, as the crate's own 33 have; otherwise collecting to_usize() items is undefined behaviour, an owning iterator of a shorter array reads past its end and of a longer one never drops the rest, and a type-level index below to_usize() but past the array is undefined behaviour in every build, while v[i] with a usize is always bounds-checked.)", "quantifier": "all length types (to_usize, number of array elements), element types, iterators, arrays, indices, build profiles", "why_tests_cant": "quantifies over implementations the crate's authors do not control, and undefined behaviour is not observable by tests", "anchors": ["src/vector.rs: ArrayLen, from_iter, IntoIter, Index<UInt>, get_unchecked", "src/lib.rs: pub mod vector"]}
{"id": "C88", "title": "Matrices of matrices", "statement": "A matrix whose elements are themselves square matrices (Matrix<Matrix<T, P, P>, R, C>) is a block matrix: adding, subtracting, negating, multiplying (every ownership form, also *=, with a vector of blocks, and by one block), raising to a power, transposing (outer and inner), zero, identity, == and is_zero on matrices of blocks give exactly the blocks of the result of the same operation on the (R*P) x (C*P) matrix of numbers obtained by writing the blocks side by side, whenever the numbers have exact (semi)ring arithmetic.", "quantifier": "all element types with exact ring arithmetic, outer shapes, block sizes, blocks, exponents, worlds", "why_tests_cant": "quantifies over all shapes, block sizes and contents, and composes the crate's generic operators with themselves", "anchors": ["src/matrix/arith.rs: Add, Sub, Neg, Mul, MulAssign", "src/matrix/mod.rs: Zero, One, pow, transposed, map, Clone, PartialEq, identity"]}
{"id": "C89", "title": "The public constructor of column iterators", "statement": "Making an iterator over one column with the public safe function matrix::iter::ColsIterRefInner::new(&rows, j), for whatever j, and using it cannot cause undefined behaviour. (Refuted: in release builds a column index that does not exist is accepted and handing out any item reads out of bounds. True part: for an existing column the iterator is the double-ended queue of that column's entries, with debug assertions a missing column panics, and the uses with undefined behaviour are exactly those of a missing column, without debug assertions, that ask for an item while one is left.)", "quantifier": "all element types, shapes, matrices, column indices, build configurations and histories of iterator calls", "why_tests_cant": "quantifies over all column indices and histories; the bad case is undefined behaviour, which a test need not notice", "anchors": ["src/matrix/iter.rs: ColsIterRefInner::new, Iterator and DoubleEndedIterator for ColsIterRefInner"]}
{"id": "C90", "title": "Equality of column iterators", "statement": "Two iterators over a column are == exactly if their matrices are equal entry by entry (the whole matrices, not just the remaining items), they are over the same column and both their ends are at the same positions; equal iterators then answer every history of calls alike, with equal items, and stay equal.", "quantifier": "all element types and element equalities (also ones that are not reflexive), shapes, matrices, columns, positions and histories", "why_tests_cant": "quantifies over all matrices, positions and histories", "anchors": ["src/matrix/iter.rs: derive(PartialEq, Eq) for ColsIterRefInner", "src/vector.rs: PartialEq for Vector"]}
{"id": "C91", "title": "NaN is never lost", "statement": "If an operand contains a NaN, so does every result that depends on it: the sum and the norm of a vector or matrix, the dot product, the affected components of a cross product, the affected entries of a matrix product and of a matrix-vector product, positive powers, the determinant of every size the crate supports (also through the zero-pivot fallback), the cofactors outside the removed row and column, and the inverse: for n <= 3 it is Some with NaN in every entry, for n >= 4 it is None or contains a NaN. The same holds for infinities and overflow in all but the division cases, and, more generally, for any class of element values that survives the element's own operators.", "quantifier": "all f32 and f64 vectors and matrices (all values, all sizes) and all element types with a class of absorbing values", "why_tests_cant": "quantifies over all sizes, all positions of the bad value and all other entries, including those that make pivots zero", "anchors": ["src/vector.rs: Vector::sum, Vector::norm, Vector::normalized, Dot, Cross", "src/matrix/mod.rs: Mul, determinant, cofactor, inverse, num::pow"]}
{"id": "C92", "title": "A finite floating-point result is an accurate one", "statement": "Whatever the f32 or f64 operands (NaN, infinities, huge, tiny and subnormal numbers included): if a sum, inner product, entry of a matrix product or matrix-vector product, component of a cross product, Euclidean norm, or determinant of size 1 to 3 comes out finite, then all operands it depends on were finite and its distance from the exact value is at most a small multiple of epsilon times the sum of absolute values of the terms (n, n+1, n+1, n+1, 2, n+2, 7), plus a small multiple of the smallest positive number of the type for products that underflow.", "quantifier": "all f32 and f64 vectors and matrices, up to 2^21 (2^50) terms per sum", "why_tests_cant": "quantifies over all floating-point values and all sizes; overflow and underflow can happen at any intermediate step", "anchors": ["src/vector.rs: Vector::sum, Vector::norm, Dot, Cross", "src/matrix/mod.rs: Mul, determinant"]}
{"id": "C93", "title": "Inverting a multiple of the identity does not depend on its scale", "statement": "For every size n, and every f32 or f64 number c other than zero with c and 1/c finite: inverse() of c times the n x n identity matrix is Some of a matrix with 1/c, up to one rounding, on the diagonal and zeros elsewhere. More generally, at sizes 1 to 3, inverse() answers None only if the exact determinant is no larger than what rounding and underflow can do to it; and every finite entry it gives, times the exact determinant, agrees with the adjugate up to rounding and underflow, unless the computed determinant overflowed.", "quantifier": "all n, all f32 and f64 values, all diagonal matrices, all matrices of size 1 to 3", "why_tests_cant": "quantifies over all floating-point values and sizes; determinants over- and underflow only for some scales", "anchors": ["src/matrix/mod.rs: Inverse, determinant"]}
{"id": "C94", "title": "Rounding respects the order of operands and signs", "statement": "For f32 and f64, all values, infinities and NaN included: sums of vectors or matrices and the dot product do not depend on the order of the operands, the transpose of a product is the product of the transposes in the other order, and negating twice gives the operand back, all bit for bit. Flipping signs of components, of rows and of columns has the effect it has on exact numbers, bit for bit up to the signs of zeros, on sums, differences, dot, matrix, matrix-vector and cross products, norm() (which does not change), normalized(), powers, determinants, cofactors and inverses of every size; inverse() answers None for both matrices or for neither. Adding the zero matrix, or multiplying a matrix of finite entries by the identity matrix on either side, changes nothing, and such a matrix minus itself is zero.", "quantifier": "all f32 and f64 values, all sizes, all patterns of flipped rows and columns, all exponents", "why_tests_cant": "quantifies over all floating-point values, sizes and sign patterns; elimination branches on computed values", "anchors": ["src/vector.rs: Add, Sub, Neg, dot, cross, norm, normalized, sum", "src/matrix/mod.rs: Add, Sub, Neg, Mul, transposed, Determinant, Cofactor, Inverse, pow, identity, zero"]}
{"id": "C95", "title": "Rounding respects order", "statement": "For f32 and f64: the sum of a vector of non-negative components is not NaN, not negative, and at least every component; dot, matrix-vector and matrix products of non-negative finite operands are not NaN and not negative; and all of these grow (in the sense of <=) when components or entries of the operands grow, as do powers of non-negative square matrices unless they overflow. The norm of a vector of finite components is not NaN and not negative, grows with the absolute values of the components, and is at least the absolute value of every component whose square does not underflow; if there is such a component, all components of normalized() are between -1 and 1, exactly and not just up to rounding, even if the norm overflows.", "quantifier": "all f32 and f64 values, all lengths and shapes, all exponents", "why_tests_cant": "quantifies over all floating-point values, pairs of operands and sizes; rounding errors accumulate", "anchors": ["src/vector.rs: sum, dot, norm, normalized", "src/matrix/mod.rs: Mul, pow"]}
{"id": "C96", "title": "Powers of f32 and f64 matrices", "statement": "pow(e) of a square matrix of integers held in f32 or f64 is exact if no entry of a power of the matrix of absolute values, up to exponent e, exceeds 2^24 (f32) or 2^53 (f64); in particular if entries are at most B and n^(e-1) B^e does not exceed it, and the documentation's Fibonacci matrix gives F(e) exactly while F(e+1) <= 2^p. For any matrix, if no entry of the result is infinite or NaN, then every entry is within (e-1)(n+1) epsilon of the exact power relative to the power of absolute values, plus an underflow term; and no entry is infinite or NaN if 8 B^e is within the range of the type, B >= 1 bounding the row sums of absolute values.", "quantifier": "all f32 and f64 matrices, all sizes and exponents with e (n+1) <= 2^(p-3) (exactness: all exponents)", "why_tests_cant": "rounding errors accumulate over all products of all powers; the claims are about every matrix and exponent", "anchors": ["src/matrix/mod.rs: Matrix::pow", "src/matrix/arith.rs: Mul", "src/lib.rs: Fibonacci example"]}
{"id": "C97", "title": "Matrices of Complex<f32> and Complex<f64>", "statement": "conjugate negates every imaginary part and changes nothing else, bit for bit; twice, it gives back the matrix; it commutes with transposition. Conjugating the operands conjugates the result, up to the signs of zeros and in spite of rounding, overflow and NaN: sum, difference, matrix, matrix-vector and inner product, sum of components, determinant, cofactor, inverse (refused for both or neither) and power, of any size. M times its conjugate transpose is exactly Hermitian, the diagonal has zero (or NaN) imaginary and nonnegative real parts. A finite real or imaginary part of an inner or matrix product is within (n+2) epsilon of the exact one relative to the sum of the absolute values of its terms, plus an underflow term.", "quantifier": "all matrices and vectors of complex numbers with f32 or f64 parts, infinities and NaN included, all sizes (accuracy: n <= 2^(p-3))", "why_tests_cant": "the claims are about every rounding, every overflow and every size; tests compare a few exactly representable values", "anchors": ["src/matrix/mod.rs: Matrix::conjugate, transposed, determinant, inverse, pow", "src/matrix/arith.rs: Add, Sub, Mul", "src/vector/mod.rs: Vector::dot, sum"]}
{"id": "C98", "title": "Scaling by powers of two is exact", "statement": "In f32 and f64, multiplying rows by powers of two and columns by powers of two (components of a vector likewise) multiplies results by exactly the expected powers of two, with no additional rounding error, as long as nothing overflows and no product or quotient underflows: sums, differences, inner, matrix and matrix-vector products, multiplication and division by scalars, cross product, norm (and the normalised vector does not change), determinant, every cofactor, inverse (refused for both matrices or for neither; entry (i,j) scaled by the inverse powers of column i and row j), and powers. For the sum of components it is enough that both results are finite.", "quantifier": "all f32 and f64 vectors and matrices of any size, all powers of two, possibly different in every row and column, such that no operation in the two runs overflows or underflows", "why_tests_cant": "a claim about every rounding in runs of any length; a test compares a few representable values, where nothing is rounded", "anchors": ["src/matrix/ops.rs: Determinant, Inverse, Cofactor", "src/matrix/arith.rs: Add, Sub, Mul, Div", "src/matrix/mod.rs: Matrix::pow", "src/vector/mod.rs: Vector::dot, sum, cross, norm, normalized"]}
{"id": "C99", "title": "Formatter flags", "statement": "Debug passes the caller's format flags on: whatever flags are given and however std formats a slice under them, a vector prints the text Vector followed by its elements formatted as a slice, and a matrix prints Matrix[, its rows formatted as slices and separated by a comma and a blank, and ]; the first failing write ends it. So with {:#?} every row is a multi-line list with the elements (under the same flags) indented by four spaces, however the elements cut their text into writes and also when they are vectors or matrices themselves; without # the width, precision, fill and sign reach every element and nothing else. Display ignores all flags: {:.2} or {:>8} prints what {} prints.", "quantifier": "all flags, vectors and matrices of any size (matrices with at least one row in debug builds), all elements and sinks", "why_tests_cant": "all combinations of flags with all texts and all ways of cutting them into writes", "anchors": ["src/vector.rs: impl Debug for Vector", "src/matrix/mod.rs: impl Debug for Matrix, impl Display for Matrix"]}
{"id": "C100", "title": "Matrices of fractions", "statement": "With Ratio<BigInt> elements in lowest terms every operation is exact: the determinant and cofactors are those of the matrix of rational numbers, products, matrix-vector products, dot products, sums, differences and powers have the exact values, and inverse returns the exact inverse (up to 3x3 exactly when the determinant is not zero; from 4x4 exactly when every leading block is invertible, otherwise None); results are again in lowest terms, nothing panics, and a returned inverse multiplied with the original on either side is the identity as data. With Ratio<iN> in a build with overflow checks every one of these returns the same fraction or panics: never a wrong one.", "quantifier": "all sizes, all matrices of fractions in lowest terms, all integer types, all exponents", "why_tests_cant": "the tests have a few 2x2 to 4x4 matrices of fractions; the claim ranges over all fractions and sizes, and overflow depends on intermediate values", "anchors": ["src/matrix/ops.rs: determinant, cofactor, inverse", "src/matrix/ops.rs:323-337 (test_inverse with Ratio)", "src/matrix/mod.rs: Mul, Add, Sub, pow"]}
{"id": "C101", "title": "Matrices of Complex<iN>", "statement": "For matrices and vectors of complex machine integers, addition, subtraction, scalar multiplication, negation, sums, dot, cross, matrix and matrix-vector products (all ownership forms), powers, conjugates and determinants up to 3x3 compute the Gaussian-integer result: in a build with overflow checks they return exactly it or panic, without overflow checks they never panic and return it with real and imaginary part reduced modulo 2^w, whatever intermediate results overflow.", "quantifier": "all sizes, all entries, all integer types of at least two bits, both build modes, all exponents", "why_tests_cant": "overflow depends on intermediate values; 2^128 pairs of entries already for Complex<i32>", "anchors": ["src/matrix/mod.rs: Mul, Add, Sub, Neg, pow, conjugate", "src/matrix/ops.rs: determinant", "src/vector.rs: dot, cross, sum"]}
{"id": "C102", "title": "Effects of zero(), one(), bounds and is_zero", "statement": "When T::zero(), T::one(), T::min_value(), T::max_value() or is_zero of the element type have side effects or panic, zero, identity, bounds, is_zero, sums, dot, norm, all products, determinant, cofactor, inverse, diag and pow call them exactly when and as often as the source order says (zero() once per sum, when its turn comes; is_zero up to the first nonzero element, once per pivot; one() just before dividing), stop at the first panic, drop what they own then, and never have undefined behaviour or build a misshaped value.", "quantifier": "all element types with arbitrary effects and panics in these calls, all sizes, all values, both build modes", "why_tests_cant": "ranges over every behaviour of user-supplied trait methods, with a panic possible at each of unboundedly many calls", "anchors": ["src/vector.rs: Zero, Bounded, dot, norm, sum", "src/matrix/mod.rs: Zero, One, Bounded, identity, diag, sum, pow", "src/matrix/arith.rs: Mul, MulAssign", "src/matrix/ops.rs: determinant, cofactor, inverse"]}
{"id": "C103", "title": "Accounting: no leak, no double drop, no use after drop in any operation", "statement": "If each operation of the element type turns exactly the operands it owns into its result (and clone, zero, one, is_zero keep their arguments), then every operation of a vector or matrix does the same: element-wise and scalar arithmetic, sums, dot, norm, normalized, clone, zero, identity, transpose, transposed, all products, pow, determinant, cofactor and inverse at every size (also when there is no inverse) use no element that was moved or dropped, drop every element of their by-value operands, every intermediate value and every overwritten entry exactly once, leave their by-reference operands and everything else in the program alive, and leave exactly the elements of the result besides; if an element operation panics midway, nothing outside the call and nothing passed by reference has been dropped.", "quantifier": "all element types that keep the books (values may be identified individually, every operation may fail, and operations may take operands by value or by reference), all sizes, all values, all worlds, both build modes", "why_tests_cant": "a leak or double drop may appear for one size, one sign pattern of pivots or one panic point only, and unboundedly many of each exist", "anchors": ["src/vector.rs: impl_ops, Mul<U>, Div<U>, dot, norm, normalized, Sum, Clone", "src/matrix/mod.rs: transpose, transposed, pow, identity", "src/matrix/arith.rs: Mul, MulAssign, Div", "src/matrix/ops.rs: determinant, cofactor, inverse"]}
{"id": "C104", "title": "In-place operations and comparisons: nothing leaked, nothing dropped twice, entries intact after a panic", "statement": "If the element type's in-place operator uses up exactly its right operand and leaves a valid element in the place (also when it panics), and clone, comparison and equality only look at their arguments, then: a += b and a -= b use up b and leave in a exactly what it owns; a *= k, a /= k and clamp drop the by-value scalar or bounds once and every overwritten entry once; max, min, max_by, min_by and == only borrow, return one new element (or none) and drop every row maximum that was not selected; clamped drops its bounds and creates only the result. When an element operation panics midway, every entry of the edited vector or matrix still exists exactly once (no entry is moved out or dropped twice), everything outside is untouched, and for all of these but clamped no value is left undropped unless the failing element operation itself left one.", "quantifier": "all element types that keep the books, all sizes, values, worlds and panic points", "why_tests_cant": "the state left after a panic depends on which of unboundedly many element operations fails; a double drop or leak may exist for one position only", "anchors": ["src/vector.rs: impl_ops_assign, MulAssign<U>, DivAssign<U>, clamp, clamped, max, min, max_by, min_by, PartialEq", "src/matrix/arith.rs: impl_op_assign, MulAssign<T>, DivAssign<T>", "src/matrix/mod.rs: clamp, clamped, max, min, max_by, min_by, PartialEq"]}
{"id": "C105", "title": "Construction, collection, mapping and conversion: every element made or consumed exactly once", "statement": "For an element type and closures that neither lose nor duplicate values: collecting an iterator (from_iter, collect) moves the first N items into the result and drops everything else the iterator produces or still owns; too few items is a panic after which the items already taken have been dropped; when the iterator itself panics, or too many items come in a debug build, at most the slots already filled (no more than N) are leaked and nothing is dropped twice. The crate's own iterators (owning, chunked, borrowing) and map over any such iterator are sources of that kind. generate, default, min_value, max_value own exactly what their closures return; map and conjugate hand each entry to the closure exactly once and drop the rest if it panics; diag and the conversion from a vector move every element; cross, all and any only read, and still-referenced values are alive afterwards, also across panics.", "quantifier": "all lengths, item types, source iterators, closures, worlds, build profiles and panic points", "why_tests_cant": "the panic point and the number of items the source yields are unbounded; a leak or double drop may need one particular combination", "anchors": ["src/vector.rs: FromIterator, IntoIter, IntoChunks, generate, Default, Bounded, cross", "src/matrix/mod.rs: generate, diag, map, conjugate, all, any, From<Vector>, Default, Bounded"]}
{"id": "C106", "title": "Iterators keep the books through every history", "statement": "For a non-leaking element type: after any history of next, next_back, nth, len and size_hint calls on the owning iterator of a vector that stays within the histories on which it is correct (C07), and after any such history at all on the chunk iterator, each element of the vector has been handed to the caller, is still owned by the iterator, or has been dropped, exactly one of the three; dropping the iterator then is the end of exactly those it still owns. The row and column iterators of a borrowed matrix only create the clones they hand out, through any history whatever (next, next_back, nth, last, len, any skips, past the end, even when the position overflows), and leave all other values alone, also when a clone panics; no history commits undefined behaviour. The iterators over references never touch an element.", "quantifier": "all vectors, matrices, sizes, element types, histories of any length and build profiles", "why_tests_cant": "histories are unbounded sequences; a lost or duplicated element may need one particular interleaving of front and back steps and skips", "anchors": ["src/vector.rs: IntoIter, IntoChunks, Drop", "src/matrix/iter.rs: RowsIter, ColsIter, RowsIterRef, ColsIterRef, ColsIterRefInner"]}
{"id": "C107", "title": "A panic while a number is computed forgets no temporary", "statement": "For an element type whose own operations leave nothing behind when they panic: the sum of a vector or matrix, the dot product, the norm, the cross product, determinants up to size 3, the cofactors of size 2 and the inverse of size 1 borrow their operands and create exactly the value (for cross, three; for a singular inverse, none) that they return; and when any clone, constant, test or operator panics, at any point, every partial result and every clone made so far has been dropped, once, so that exactly the values that existed before still exist. Nothing is dropped twice and no value is used after it is gone.", "quantifier": "all vectors and matrices, sizes, element types, panic points and build profiles", "why_tests_cant": "an element operation may panic at any call; a leak or double drop on one unwinding path shows only with a counting element type and that very panic point", "anchors": ["src/vector.rs: Vector::dot, cross, norm, sum", "src/matrix/mod.rs: Matrix::sum", "src/matrix/ops.rs: Determinant (U1, U2, U3), Cofactor (U2), Inverse (U1)"]}
