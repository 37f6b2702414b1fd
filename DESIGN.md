# Formal model of sinkuu/rowcol in Rocq (Coq 8.16.1)

## 1. Shape of the model

`rowcol` is a generic library over an element type `T`; every interesting behaviour is a
function of (a) the element operations, (b) the closures the user passes, (c) the build profile
(debug/release), (d) the word size of `usize`.  The model keeps all four as parameters.

* `Rust.v` - outcomes `res A = Ok a | Panic | UB | Diverge`, the effect monad `M S A = S -> res A * S`
  (`S` is an arbitrary world: captured `FnMut` state, drop log, output buffer, ...; it survives a panic), the build
  configuration `cfg` (`debug : bool`; `wbits >= 16`, the width of `usize`, `W c = 2^wbits`), `usize` arithmetic
  (debug: panic on overflow; release: wrap), slices, loops, storage cells.
* `Iter.v` - Rust iterators as state machines with an explicit destructor, and the standard adapters
  the crate uses.
* `Elem.v` - records of element operations (all effectful, so they may panic, e.g. `/` by zero or
  overflow in a debug build).
* `VectorM.v`, `MatIterM.v`, `MatrixM.v`, `ArithM.v`, `OpsM.v`, `FmtM.v`, `FlagM.v`, `MetaM.v`, `CplxM.v`, `IntM.v`, `RatioM.v`, `FloatM.v`, `DropM.v`, `CmpM.v`
  - the crate, function by function, each definition citing file and lines (`CplxM`, `IntM`, `RatioM`, `FloatM`: the element
  types `num::Complex`, machine integers, IEEE floats).
* `Harness.v` - one "call a method by name" function per iterator type, so that a theorem can quantify over histories.
* `Spec*.v` - specifications that do not mention the model (deques, order of calls, sums, entries, lines of text,
  mathcomp determinants, real-number quantities).
* `*Proofs.v`, `Algebra.v`, `Sim.v`, `MxLink.v`, `MxDet.v`, `DetLoop.v`, `DetSmall.v`, `OpsPure.v`, `OpsSim.v`, `MxInt.v`, `FloatErr.v` - proofs.
* `Props*.v` - the property theorems only, each followed by `Print Assumptions` and a non-vacuity `Example Cxx_ex`
  that runs the model on a concrete non-trivial case or exhibits data meeting the hypotheses.
* `UnwindM.v` - the functions that compute one number, with the temporaries that unwinding drops (C107).
* `OwnTests.v` - a check of the model against the code, not a proof: all 27 unit tests and all documentation examples of the
  crate are run in the model (`vm_compute`, overflow checks on and off) and give the values the upstream assertions demand,
  including the `f32` determinants of size 6 (`relative_eq` with the tolerances of the approx crate), the nested `Display`
  output, `Ratio<i32>`/`Ratio<BigInt>` inverses and the `Complex<i32>` conjugate.  No theorem depends on it.

Memory: a `[T; N]` is a list of length `N`.  The two places where the crate uses uninitialised or
moved-out storage (`FromIterator::from_iter`, `IntoIter`) use lists of cells
(`Live x | Moved x | Uninit`); reading or dropping a cell that is not live, or out of bounds, is `UB`
(for `Copy` element types re-reading a moved cell is allowed and yields the duplicate).

Loops whose number of iterations is not syntactically bounded carry a `fuel` argument; running out is the separate
outcome `Diverge`, and every theorem concludes an outcome other than `Diverge` (or takes the fuel of `it.count()`,
a universally quantified parameter of `cfg`, at least the length of the surplus: C03, C04).

## 2. Properties

Refuted claims keep their full statement (`Cxx_statement`), a theorem `Cxx_refuted`, and the true part as `Cxx_..._partial`;
MANIFEST.json then says "partial" and what is missing.

| id | property | modelled | how proved | status | theorems |
|---|---|---|---|---|---|
| C01 | Collecting exactly N items | `from_iter` over an arbitrary user iterator described by the trace relation `yields` | induction on the trace; cell array invariant | proved | `C01_collect_exact` |
| C02 | Collecting too few items panics and drops what was received | same, iterator ends early; drop log | same; `drop_cells` on the initialised prefix | proved | `C02_collect_short` |
| C03 | Collecting too many items | same, iterator too long, debug `count()` and release drop | same, `drains` trace for the surplus | proved | `C03_collect_long_debug`, `C03_collect_long_release` |
| C04 | Collecting from an iterator that panics | same, `next` panics (also while counting) | same; world after unwinding compared | proved | `C04_collect_source_panics`, `C04_collect_source_panics_in_count` |
| C05 | generate calls the closure once per index in order | `Vector::generate` | equality with the specification function `in_order` for every closure | proved | `C05_generate_in_order` |
| C06 | Owning iterator, consumed from the front | `IntoIter::next`, `Drop` | induction on the number of calls | proved | `C06_into_iter_front` |
| C07 | Owning iterator behaves as a double-ended queue | `IntoIter` all methods under arbitrary histories | refuted in general; refinement to a deque by induction on the history for guarded histories | partial | `C07_refuted`, `C07_next_back_after_next_refuted`, `C07_len_refuted`, `C07_into_iter_deque_partial`, `C07_exact` |
| C08 | Owning iterator nth skips | `IntoIter::nth` | out-of-bounds case proved UB for every vector; in-bounds case by the C07 refinement | partial | `C08_nth_past_end_is_ub`, `C08_refuted`, `C08_nth_partial` |
| C09 | Reversed owning iterator | `rev()` of `IntoIter` | induction on the number of calls | proved | `C09_rev`, `C09_rev_collect` |
| C10 | into_chunks is a deque of chunks | `Chunks` all methods, over `from_iter`, `take`, `by_ref`, `rev` | refinement to a deque of pieces | proved | `C10_chunks_deque`, `C10_pieces_exist` |
| C11 | Matrix from flat vector is row-major | `From<Vector>` | C10 + entry computation | proved | `C11_from_vector` |
| C12 | Vector indexing by usize | `Index<usize>`, `IndexMut<usize>` | case analysis | proved | `C12_index`, `C12_index_set` |
| C13 | Vector indexing by type-level index is always in bounds | `Index<UInt>`, `Index<U0>` | refuted (U0 on an empty vector); proved for indices below the length | partial | `C13_accepted`, `C13_refuted`, `C13_u0_on_empty_refuted`, `C13_static_index_partial` |
| C14 | Matrix indexing | matrix `Index`/`IndexMut`, run-time and four type-level forms | case analysis on cells | proved | `C14_accepted`, `C14_index`, `C14_index_set`, `C14_static_index` |
| C15 | Unchecked access is exact in bounds | `get_unchecked(_mut)` of both | case analysis | proved | `C15_vector_unchecked`, `C15_matrix_unchecked` |
| C16 | Vector addition and subtraction are elementwise | vector `+`, `-`, four forms, effectful operators | `in_order_unwind`; corollary for pure operators | proved | `C16_elementwise_in_order`, `C16_forms_agree`, `C16_elementwise` |
| C17 | Compound assignment agrees with the binary operator | compound assignments, vector and matrix | induction on the slice, incl. where the operator panics | proved | `C17_matrix_add_assign_panic`, `C17_matrix_scale_assign_panic`, `C17_add_assign`, `C17_add_assign_panic`, `C17_scale_assign`, `C17_scale_assign_panic`, `C17_matrix_add_assign`, `C17_matrix_scale_assign` |
| C18 | Scalar multiplication, division and negation are elementwise | scalar `*`, `/`, `-`, vector and matrix | as C16 | proved | `C18_vector_scale`, `C18_vector_neg`, `C18_vector_in_order`, `C18_matrix_scale`, `C18_matrix_neg` |
| C19 | By-value elementwise operations are panic-safe | by-value operations, operator panics | `in_order_unwind`: exact world after unwinding | proved | `C19_matrix_zip_panic`, `C19_matrix_scale_panic`, `C19_zip_panic`, `C19_map_panic`, `C19_matrix_neg_panic` |
| C20 | Dot product | `dot` | fold = sum; ring laws | proved | `C20_dot`, `C20_symmetric`, `C20_bilinear`, `C20_zero` |
| C21 | Cross product | `cross` | normal form + `ring` reasoning over an arbitrary commutative ring | proved | `C21_cross`, `C21_orthogonal`, `C21_bilinear`, `C21_jacobi`, `C21_lagrange` |
| C22 | Norm and normalisation | `norm`, `normalized` over a real closed field | Cauchy-Schwarz in mathcomp | proved | `C22_norm`, `C22_zero_iff`, `C22_scale`, `C22_cauchy_schwarz`, `C22_triangle`, `C22_normalized` |
| C23 | Sum | `sum`, vector and matrix | fold in order; additivity | proved | `C23_sum_in_order`, `C23_sum`, `C23_additive` |
| C24 | max and min | `max`, `min` | induction with last-max/first-min specification | proved | `C24_vector_max_min`, `C24_matrix_max_min` |
| C25 | max_by and min_by | `max_by`, `min_by`, effectful comparators | induction; exact number of comparator calls | proved | `C25_vector_max_by`, `C25_matrix_max_by`, `C25_any_comparator` |
| C26 | Clamping | `clamp`, `clamped` | case analysis on a total preorder | proved | `C26_clamped`, `C26_matrix_clamped`, `C26_monotone`, `C26_crossed_bounds` |
| C27 | Equality | `PartialEq` | induction | proved | `C27_equality`, `C27_matrix_equality`, `C27_equivalence` |
| C28 | Eq promises reflexivity | `Eq` marker | refuted by an irreflexive element equality (NaN) | partial | `C28_refuted`, `C28_nan_refuted`, `C28_eq_partial` |
| C29 | Clone | `Clone` | `in_order` | proved | `C29_clone`, `C29_matrix_clone`, `C29_faithful` |
| C30 | Zero, default and bounds | `zero`, `default`, `min_value`, `max_value`, `is_zero` | `in_order`, entries | proved | `C30_vector_constants`, `C30_matrix_constants`, `C30_is_zero`, `C30_zero_neutral` |
| C31 | Construction and dimensions | `Matrix::new`, `dim`, `rows`, `cols` | `in_order` | proved | `C31_new`, `C31_vector` |
| C32 | Diagonal matrices | `Matrix::diag`, closure capturing an `IntoIter` | invariant on the captured iterator | proved | `C32_diag` |
| C33 | Identity | `identity`, `one` | entries; unit laws over a semiring | proved | `C33_identity`, `C33_unit` |
| C34 | Matrix generate, all, any, map order | `generate`, `map`, `all`, `any` | equality with `in_order` over the entry list | proved | `C34_generate`, `C34_map`, `C34_all_any`, `C34_entries` |
| C35 | Matrix map is panic-safe | `Matrix::map`, closure panics | `in_order_unwind`, nested | proved | `C35_map_panic` |
| C36 | Transpose | `transposed`, `transpose` | entries; algebra | proved | `C36_transposed`, `C36_transpose_in_place`, `C36_involution`, `C36_additive`, `C36_reverses_products`, `C36_effects`, `C36_transpose_in_place_effects` |
| C37 | Matrix addition and subtraction | matrix `+`, `-`, four forms | entries; group laws | proved | `C37_entrywise`, `C37_group` |
| C38 | Matrix product | matrix product, four forms and `*=` | fold = sum, entries | proved | `C38_product`, `C38_forms_agree`, `C38_mul_assign` |
| C39 | Matrix product algebra | matrix product | sum exchange over a semiring | proved | `C39_associative`, `C39_distributive`, `C39_scalar` |
| C40 | Matrix-vector product | matrix-vector product, both forms | as C38 | proved | `C40_product`, `C40_associative` |
| C41 | Power | `pow` via `num::pow` (squaring loops) | loop invariant; power laws | proved | `C41_pow`, `C41_laws` |
| C42 | Fibonacci documentation claim | doc example and examples/fib.rs | invariant with Fibonacci numbers; checked and wrapping u64 | proved | `C42_fib_checked`, `C42_fib_release`, `C42_fib_exact` |
| C43 | Determinant over a field | `determinant`, all four impls incl. elimination with cofactor fallback | invariant of the elimination loop on mathcomp matrices (`\det`) | proved | `C43_determinant`, `C43_determinant_laplace` |
| C44 | Small determinants need only a commutative ring | `determinant` sizes 1-3 | Leibniz expansion over a commutative ring | proved | `C44_small_determinants_over_rings` |
| C45 | Determinant laws | `determinant` | from C43 by mathcomp | proved | `C45_multiplicative`, `C45_transpose`, `C45_identity`, `C45_scale`, `C45_zero_iff_not_invertible` |
| C46 | Cofactor | `cofactor` | submatrix construction, Laplace expansion | proved | `C46_cofactor`, `C46_cofactor_small`, `C46_out_of_range_panics`, `C46_expansion` |
| C47 | Inverse for sizes 1 to 3 | `inverse` sizes 1-3 | adjugate formulas | proved | `C47_inverse_small` |
| C48 | Inverse for sizes above 3 is sound | `inverse` size >= 4 (Gauss-Jordan) | loop invariant: both matrices related by an invertible factor | proved | `C48_inverse_big_sound`, `C48_singular_is_none` |
| C49 | Inverse finds every invertible matrix | `inverse` | refuted for every n >= 4 and every field; true part from C47, C50 | partial | `C49_inverse_complete_partial`, `C49_refuted` |
| C50 | When inverse above size 3 succeeds | `inverse` size >= 4 | pivots are quotients of leading minors | proved | `C50_some_iff_leading_minors` |
| C51 | Integer matrices above size 3 | `determinant` on machine integers | refuted by computation; true for n <= 3 | partial | `C51_up_to_3_partial`, `C51_up_to_3_checked_partial`, `C51_refuted`, `C51_i32_refuted`, `C51_checked_any_size_partial`, `C51_unit_minors_partial`, `C51_exact_elimination_partial` |
| C52 | Owned row/column iterators, items | `RowsIter`, `ColsIter` | refinement to a lazy deque of clone actions, incl. panicking clones | proved | `C52_rows_iter_items`, `C52_cols_iter_items`, `C52_after_panic`, `C52_collected` |
| C53 | Owned row/column iterators, reported length | their `len`, `count`, `size_hint` | refuted for every shape; true part by invariant | partial | `C53_refuted`, `C53_partial`, `C53_reported_partial` |
| C54 | Borrowing row/column iterators | `RowsIterRef`, `ColsIterRef`, `ColsIterRefInner` | refinement to deques | proved | `C54_rows_iter_ref`, `C54_cols_iter_ref` |
| C55 | nth past the end of matrix iterators | `nth` past the end | refuted; true part by invariant | partial | `C55_refuted`, `C55_resurrects_refuted`, `C55_partial` |
| C56 | Conjugate | `conjugate` over `num::Complex` | entries; ring laws of complex pairs | proved | `C56_entries`, `C56_involution`, `C56_additive`, `C56_multiplicative`, `C56_plus_conjugate_is_real`, `C56_transpose`, `C56_order` |
| C57 | Approximate equality | `relative_eq`, `ulps_eq` | fold of conjunctions | proved | `C57_approx_eq` |
| C58 | Debug formatting | `Debug` of vector and matrix, arbitrary failing sinks | equality with the printing of a piece list; refuted for zero rows in debug | partial | `C58_vector`, `C58_vector_text`, `C58_matrix_partial`, `C58_matrix_text_partial`, `C58_refuted` |
| C59 | Display alignment | `Display` | layout invariant; line lengths | proved | `C59_display_layout`, `C59_display_succeeds`, `C59_byte_width` |
| C60 | Display content | `Display` | cell content specification `shows_line` | proved | `C60_display_content`, `C60_nothing_lost`, `C60_line_breaks` |
| C61 | Construction macros count correctly | `vector!`, `matrix!` | induction on the token list; `ArrayLen` table | proved | `C61_vector_count`, `C61_matrix_count`, `C61_type_addition`, `C61_accepts` |
| C62 | Type-level minimum | `Min` | case analysis | proved | `C62_min`, `C62_min_const` |
| C63 | Prelude aliases | prelude aliases | computation over the alias table | partial | `C63_matrix2f64_refuted`, `C63_refuted`, `C63_partial` |
| C64 | Checked integer arithmetic is exact or panics | ring operations on checked machine integers | simulation relation (`Sim.v`) between the integer and the exact run | proved | `C64_vector`, `C64_matrix`, `C64_product`, `C64_square` |
| C65 | Release integer arithmetic is exact modulo 2^w | the same, wrapping | simulation modulo 2^w | proved | `C65_vector`, `C65_matrix`, `C65_product`, `C65_square`, `C65_wrap` |
| C66 | Floating-point inverse is accurate on well-conditioned matrices | `inverse` on f32 and f64 (Flocq) | refuted by an evaluated f64 run for n = 4; error analysis for n <= 3 | partial | `C66_refuted`, `C66_dominant_partial`, `C66_small_partial`, `C66_leading_blocks_partial` |
| C67 | Every size has exactly one implementation | impl headers, `ArrayLen` impls | computation over the 33 sizes | proved | `C67_impls`, `C67_arraylen` |
| C68 | Determinant, cofactor and inverse are total and deterministic | `determinant`, `cofactor`, `inverse` for pure total operators | purity calculus `OpsPure.v` | proved | `C68_total`, `C68_deterministic` |
| C69 | Rounding errors of f32 and f64 vector and matrix arithmetic are bounded | `sum`, `dot`, products, `cross`, `norm`, `normalized`, small `determinant` on f32 and f64 | rounding-error calculus `FloatErr.v` over Flocq | proved | `C69_sum`, `C69_dot`, `C69_matrix_product`, `C69_matrix_vector`, `C69_cross`, `C69_norm`, `C69_normalized`, `C69_determinant` |
| C70 | Which element operations products, determinant, inverse and cofactor perform, and in which order | matrix product (four forms), `*=`, matrix-vector product (two forms), `dot`, `cross`, `sum`, `norm`, determinant, inverse and cofactor of every size, with an arbitrary state-passing element world | equality with an explicit evaluation-order function (`row_major`, `running_sum`, `eval` of expression trees), through the `gives` trace kit or by splitting on every outcome; from size 4 by commuting the loops over lists of rows with loops over index functions (`for_range_order`) | proved | `C70_matrix_product`, `C70_mul_assign`, `C70_matrix_vector`, `C70_matrix_vector_ref`, `C70_dot`, `C70_cross`, `C70_determinant`, `C70_inverse`, `C70_sums`, `C70_determinant_big`, `C70_inverse_big`, `C70_cofactor` |
| C71 | Number of element operations in products and pow | the products and `pow` with a counting element type of arbitrary weights | cost algebra `spends` (exact cost composes along bind, loops and in-order traversals) | proved | `C71_product_cost`, `C71_matrix_vector_cost`, `C71_pow_cost` |
| C72 | Number of element operations in a determinant | `determinant`, its elimination loop and the cofactor fallback, with counting elements over a mathcomp field | exact cost by loop invariants; elimination completes iff the leading minors are non-zero (block determinants kept by row operations); rank is inherited by submatrices; induction on n | proved | `C72_regular`, `C72_rank_deficient`, `C72_upper_bound` |
| C73 | Number of element operations in an inverse | Gauss-Jordan loop of `inverse` with counting elements of any arithmetic | cost algebra with early return | proved | `C73_inverse_cost` |
| C74 | Float arithmetic on small integers is exact | the same operations on f32 and f64 (Flocq) | invariant: every partial result is an integer of absolute value at most 2^p, which is representable | proved | `C74_sum`, `C74_dot`, `C74_cross`, `C74_matrix_add_sub`, `C74_matrix_product`, `C74_matrix_vector`, `C74_determinant` |
| C75 | Float inverses of dominant matrices of any size are accurate | Gauss-Jordan loop of `inverse` on f32 and f64 (Flocq) | GJReal.v: backward-error invariant (T M_k = A, T X_k = I up to rounding, T explicit) together with an invariant that keeps the rows of [M | w X] dominant; GJFloat.v: one step has entrywise error at most 15 u B; dominance gives the exact inverse (elimination without error) and bounds its distance | proved | `C75_inverse`, `C75_residual` |
| C76 | Float determinants of dominant matrices of any size are accurate | elimination loop and pivot product of `determinant` on f32 and f64 (Flocq) | RDet.v: theory of the real determinant by first-row expansion (linear and alternating in the rows, row operations, triangular matrices, relative perturbation of dominant matrices); DetReal.v: each step keeps the rows dominant and multiplies the determinant by at most (1 + 3/2 n e/del)^n; DetFloat.v: one step has entrywise error e <= 10 u B, and the pivot product n more roundings | proved | `C76_determinant` |
| C77 | Integer vectors and matrices divided by a scalar | `vscale`, `mscale`, `mscale_ref` with `int_div` (the primitive `/`) | traversal lemmas: every item returns or panics; bounds of Z.quot | proved | `C77_vector`, `C77_matrix` |
| C78 | inverse() on integer matrices | `inverse` with `int_ops` (checked and wrapping) | simulation of checked integers by Z for n <= 3, magnitude tracking for bounded entries, ring identities for adjugates of size 1-3; counterexamples by computation; for n >= 4 the Gauss-Jordan invariant over a commutative ring with division only by units (`MxInt.v`), and an exact-or-panic simulation of the whole algorithm (`OpsSim.v`) | partial | `C78_checked_any_size_partial`, `C78_exactly_partial`, `C78_otherwise_partial`, `C78_checked_partial`, `C78_bounded_partial`, `C78_units_partial`, `C78_truncates_refuted`, `C78_unimodular_refuted` |
| C79 | Determinant, inverse and division of complex matrices | `complex_ops` (num::Complex) as element type of `det`, `inverse`, `mscale`, `mconjugate` | complex R is made a Mathematical Components field (R ordered), on which `complex_ops` is shown exact; then C43, C47, C48, C50 apply; the statements use only lists of `complex R` and the Laplace determinant | proved | `C79_determinant`, `C79_conjugate_determinant`, `C79_inverse_small`, `C79_inverse_big`, `C79_divided_by_scalar`, `C79_conjugate_inverse` |
| C80 | Destructors that panic do not break memory safety | `DropM.v`: from_iter, IntoIter::nth/count/drop with a destructor that may panic, and the unwinding that follows | induction over the drop loop: the array is split into dropped and live cells; both violations shown for every panicking case, not only an instance | partial | `C80_collect_short_refuted`, `C80_nth_refuted`, `C80_refuted`, `C80_drop_partial`, `C80_drop_safe_partial`, `C80_collect_short_partial`, `C80_nth_partial`, `C80_collect_long_partial`, `C80_agrees_with_model` |
| C81 | Float inverses are accurate when all leading blocks are well conditioned | the same float model of inverse() for n > 3; `leading_inverses` in `SpecReal.v` | `GJGen.v`: the exact elimination state is written with the inverse of the leading block of order k, so multipliers and entries are bounded by H and B; a backward-error invariant (T m ~ A, T x ~ I) then gives forward errors at every step; `GJGenFloat.v`: rounding error of a step and induction over the loop | proved | `C81_inverse`, `C81_residual` |
| C82 | Float determinants are accurate when all leading blocks are well conditioned | the same float model of determinant() for n > 3 | `DetGen.v`: the elimination is embedded in a Gauss-Jordan elimination whose other rows are exact, so C81's invariant bounds every pivot against the exact pivot; the product of the exact pivots is the determinant (row operations); `DetGenFloat.v`: rounding of a step and of the final product | proved | `C82_determinant` |
| C83 | User comparisons: which calls, in which order, and what a panic leaves behind | `CmpM.v`: `==`, `max`, `min`, `clamped`, `clamp` again, with effectful comparisons and with the drops of owned temporaries and parameters | equality with explicit call sequences (`all_in_order`, `champion`, `clamp_calls`); counting by induction over rows; agreement with the pure versions | proved | `C83_equality`, `C83_matrix_equality`, `C83_equality_calls`, `C83_vector_max_min`, `C83_matrix_max_min`, `C83_matrix_max_min_counts`, `C83_clamped`, `C83_clamp_in_place`, `C83_agrees_with_pure` |
| C84 | Laws of inverse() | the same model as C40, C43-C50 | `found` characterises the matrices that inverse() inverts (det, or all leading minors); uniqueness of inverses in mathcomp matrices; minors of the transposed and scaled matrix | proved | `C84_solves`, `C84_inverse_of_inverse`, `C84_product`, `C84_transposed`, `C84_scaled`, `C84_determinant`, `C84_identity` |
| C85 | Memory safety with arbitrary element operations | every modelled function, over arbitrary `ops`, closures and iterators in the monad (Ok, Panic, UB, Diverge) | a Hoare logic `tri` (SafeProofs.v) for 'never UB, value satisfies Q, receiver invariant kept also on panic', with an invariant for iterators (`isafe`); one lemma per function (SafeLib.v, SafeRest.v) | proved | `C85_collect`, `C85_generate`, `C85_index`, `C85_vector_index`, `C85_operators`, `C85_maps`, `C85_assign`, `C85_arithmetic`, `C85_product`, `C85_determinant`, `C85_norm`, `C85_ordering`, `C85_clamp`, `C85_equality`, `C85_format`, `C85_iterators` |
| C86 | Representation independence: element types are used only through their operations | every modelled function, instantiated at two element types and two worlds | a relational logic `alike` on pairs of computations (SpecRel.v, RelProofs.v): related worlds give the same outcome kind, related values and related worlds; one lemma per function (RelLib.v, RelMat.v, RelFmt.v); homomorphisms and wrapping integers as instances where the relation is a function | proved | `C86_build`, `C86_access`, `C86_operators`, `C86_maps`, `C86_assign`, `C86_ring`, `C86_field`, `C86_comparisons`, `C86_format`, `C86_iterators`, `C86_homomorphism`, `C86_wrapping` |
| C87 | User implementations of the public trait ArrayLen | `from_iter`, `IntoIter`, indexing with the two numbers of a user's ArrayLen impl kept apart (ArrM.v); the crate's own impls as the table of MetaM.v | a counterexample; induction over the collecting loop for buffers that are too short or too long; C85 for buffers of the right size | partial | `C87_collect_partial`, `C87_refuted`, `C87_own_impls_partial`, `C87_iterate_partial`, `C87_index_partial` |
| C88 | Matrices of matrices | the crate's operators on `Matrix<T, P, P>` packaged as element operations of an outer matrix (BlockM.v) | representation independence (C86) transports the outer operation to exact arithmetic on blocks; then sums over blocks are regrouped by induction | proved | `C88_constants`, `C88_product`, `C88_mul_assign`, `C88_entrywise`, `C88_identity`, `C88_pow`, `C88_vector`, `C88_scale`, `C88_transposed`, `C88_faithful`, `C88_equality`, `C88_is_zero` |
| C89 | The public constructor of column iterators | `ColsIterRefInner::new` with its `debug_assert!` (MatIterM.v) followed by any history of calls | the cursor kit of C06/C09, with undefined behaviour in place of each item when the column is missing; induction over histories for the exact condition | partial | `C89_constructor_partial`, `C89_exact_partial`, `C89_refuted` |
| C90 | Equality of column iterators | the derived `PartialEq` of `ColsIterRefInner` (ColM.v); its derived `Debug` is not modelled (its text depends on the std version) | equality of slices is Forall2; the relational kit of C86 for the histories | proved | `C90_equal`, `C90_alike` |
| C91 | NaN is never lost | the operations of C14, C16, C17, C20, C27 and C57 over arithmetic with absorbing values | the runs are pure computations (PropsAlg, OpsPure); induction on the sums and on the elimination loop: the row that holds the bad value keeps one, and it reaches the product of the pivots or the fallback's expansion | proved | `C91_sums`, `C91_cross`, `C91_products`, `C91_pow`, `C91_determinant`, `C91_inverse`, `C91_float`, `C91_norm` |
| C92 | A finite floating-point result is an accurate one | the same operations over Flocq's binary32 and binary64 | a finite result of a Flocq operation has finite operands and is the rounding of the exact one; rounding is relative for + and -, relative plus half the smallest number for *; errors compose as (1+u)^k | proved | `C92_smallest`, `C92_sum`, `C92_dot`, `C92_matrix_product`, `C92_matrix_vector`, `C92_cross`, `C92_norm`, `C92_determinant` |
| C93 | Inverting a multiple of the identity does not depend on its scale | inverse and determinant over Flocq's binary32 and binary64 | Gauss-Jordan keeps a diagonal matrix diagonal (zeros times finite numbers are zeros, reciprocals of finite numbers are not 0 and d * (1/d) does not overflow); sizes 1 to 3 from C92's bounds; counterexamples computed | partial | `C93_diag_partial`, `C93_none_partial`, `C93_some_partial`, `C93_none_refuted`, `C93_zero_refuted`, `C93_refuted` |
| C94 | Rounding respects the order of operands and signs | all arithmetic of vector.rs and matrix/mod.rs over Flocq's binary32 and binary64 | a relation graded by a sign (y is x or -x, up to the sign of zero) that all operators respect; determinant, cofactor and inverse respect every such graded relation, by induction on size and over the elimination loops with their branches; sums over the identity pick one term | proved | `C94_commute`, `C94_vectors`, `C94_products`, `C94_cross`, `C94_norm`, `C94_determinant`, `C94_inverse`, `C94_pow`, `C94_neutral` |
| C95 | Rounding respects order | sums, products, powers, norm and normalized over Flocq's binary32 and binary64 | on non-negative numbers each operation is the exact one, rounded and capped at infinity, hence monotone; rounding keeps sums above their terms; the rounded root of a rounded square is at least the number (half-ulp argument); powers by invariance under the squaring loop, a non-finite entry once there never disappearing | proved | `C95_sum`, `C95_products`, `C95_pow`, `C95_norm`, `C95_normalized` |
| C96 | Powers of f32 and f64 matrices | `pow` (num's exponentiation by squaring, matrix product) over Flocq's binary32 and binary64 | an induction principle for exponentiation by squaring that tracks the exponents: every intermediate product is a power up to e; invariant of C74 for integers; for rounding, (1+u)^((k-1)(n+1)) and an underflow matrix whose row sums stay below B^k ((1+n^2 eta)^(k-1) - 1) | proved | `C96_exact`, `C96_entries`, `C96_fibonacci`, `C96_accurate`, `C96_finite` |
| C97 | Matrices of Complex<f32> and Complex<f64> | all operators over `complex_ops` over Flocq's binary32 and binary64 | conjugation is a relation graded by signs as in C94 (componentwise), so C94's relational proofs of determinant and inverse apply unchanged; accuracy with the kit of C92 | proved | `C97_conjugate`, `C97_arithmetic`, `C97_determinant`, `C97_inverse`, `C97_pow`, `C97_hermitian`, `C97_accurate` |
| C98 | Scaling by powers of two is exact | all operators over Flocq's binary32 and binary64, and over `careful_ops`, which panic where those overflow or underflow | a successful careful run equals, value by value, the run over real numbers rounded with unbounded exponents (C86's representation independence for determinant and inverse, simulation for the rest); there rounding commutes with powers of two, so a relation graded by integers is preserved by every operator (C94's proofs with integers for signs) | proved | `C98_small`, `C98_vectors`, `C98_products`, `C98_cross`, `C98_norm`, `C98_determinant`, `C98_inverse`, `C98_pow`, `C98_sum` |
| C99 | Formatter flags | `fmt::Formatter` as sink plus flags, `Debug` for vectors and matrices over an arbitrary slice formatter, std's `DebugList` and `PadAdapter`, `Display` (FlagM.v) | the list of writes is computed by induction on rows and elements; a PadAdapter indents independently of how the text is cut (induction on pieces) | proved | `C99_debug_any_formatter`, `C99_pretty`, `C99_flags_reach_elements`, `C99_display_ignores_flags` |
| C100 | Matrices of fractions | `Ratio` with its operators over BigInt and checked integers (RatioM.v) as element type of the modelled operations | a fraction represents a rational number (mathcomp `rat`): the relational theorems of C86 transfer the exact-field theorems C38, C41, C43, C46-C50; checked integers compute what BigInt computes or panic (simulation with panics allowed) | proved | `C100_determinant`, `C100_cofactor`, `C100_inverse_small`, `C100_inverse_big`, `C100_arith`, `C100_pow`, `C100_lowest_unique`, `C100_roundtrip` |
| C101 | Matrices of Complex<iN> | `num::Complex` over machine integers in both build modes (CplxM.v over IntM.v) | simulation: if the parts are related to integers so are complex numbers to Gaussian integers; related elements give related results for every operation | proved | `C101_vector`, `C101_matrix`, `C101_product`, `C101_square` |
| C102 | Effects of zero(), one(), bounds and is_zero | the functions that call `zero()`, `one()`, the bounds or `is_zero`, again, with these calls effectful (NumM.v); C102_agrees shows that with constants it is the model of the other files | exact sequence of calls written out with `in_order` and folds, by the `gives` kit; absence of undefined behaviour by the `tri` kit of C85 | proved | `C102_agrees`, `C102_constants`, `C102_is_zero`, `C102_sums`, `C102_matrix_product`, `C102_mul_assign`, `C102_matrix_vector`, `C102_determinant`, `C102_cofactor`, `C102_inverse`, `C102_no_ub`, `C102_no_ub_products`, `C102_no_ub_determinant`, `C102_diag`, `C102_pow` |
| C103 | Accounting: no leak, no double drop, no use after drop in any operation | the functions again, with the drops that the compiler inserts (by-value parameters, locals, temporaries, overwritten entries) as explicit steps (ScopeM.v); C103_agrees shows that without drop glue they are the functions of the other files | a multiset of live values as ghost state: the world knows which values exist; `borrows refs before after` is a separation-style triple over permutations of it, with the referenced values in the frame, also when a panic ends the call, composed by the kit of AccountProofs.v; induction on sizes and loops | proved | `C103_elementwise`, `C103_scalar`, `C103_sums`, `C103_containers`, `C103_products`, `C103_mul_assign`, `C103_matrix_vector`, `C103_pow`, `C103_determinant`, `C103_cofactor`, `C103_inverse`, `C103_agrees` |
| C104 | In-place operations and comparisons: nothing leaked, nothing dropped twice, entries intact after a panic | op-assign loops (VectorM.v, ArithM.v), scaling in place with the drop of its by-value scalar (ScopeMutM.v), comparisons and clamping (CmpM.v) | as C103, with a triple `edits` for `&mut self` methods that also holds at a panic (every value the content owns is alive, once), and `tidies`, under which a panic leaves nothing behind; induction on rows and entries (AccountMut.v) | proved | `C104_compound`, `C104_scale`, `C104_clamp`, `C104_max_min`, `C104_equality`, `C104_max_by`, `C104_clamped`, `C104_agrees` |
| C105 | Construction, collection, mapping and conversion: every element made or consumed exactly once | from_iter, into_it, ch_iter, imap, vgenerate/mgenerate, mmap, mall/many, mdiag_z, mfrom_vector, vcross; conjugate with the drop of its closure's argument (ScopeMutM.v) | an invariant `source` for arbitrary iterators, induction on the number of slots still to be filled (AccountIter.v); the rest from the order theorems (C02, C70, C102) and the triple of C103 | proved | `C105_collect`, `C105_sources`, `C105_generate`, `C105_map`, `C105_conjugate`, `C105_cross`, `C105_from_vector`, `C105_diag`, `C105_searches`, `C105_agrees` |
| C106 | Iterators keep the books through every history | the iterators' steps and histories (Harness.v: ii_step, ch_step, ri_step, ci_step, rr_step, cr_step, cin_step) | conservation along the deque of C07/C10; one-step conservation for cursors at any position, lifted to histories by induction | proved | `C106_into_iter`, `C106_chunks`, `C106_rows`, `C106_cols`, `C106_references` |
| C107 | A panic while a number is computed forgets no temporary | `UnwindM.v`: sum, dot, norm, cross, small determinants, cofactor and inverse with the drops of temporaries on the panic path | accounts are threaded exactly through each step; induction over the pulled items for fold; agreement with the plain model for destructors that do nothing | proved | `C107_sums`, `C107_cross`, `C107_small`, `C107_agrees`, `C107_panics_alike` |

## 3. Trusted base

* Coq 8.16.1's kernel, including `vm_compute`; no `native_compute`, no plugins besides the ones mathcomp's and Flocq's
  compiled libraries load (ssreflect; `lia`/`lra`/`ring`/`field`/`nra`).
* The reading of the Rust source into the model (sections 1 and 4), and the modelled behaviour of code outside the
  crate: std iterators, slices, `NoDrop`, `mem::forget`, `ptr::*`, `str::lines`, `fmt`, `num::pow`, `num::Complex`,
  integer overflow rules, IEEE-754 (Flocq's `BinarySingleNaN`, round-to-nearest-even, one NaN; `powi(2)` is one rounded
  multiplication), typenum's `Add`, `Sub`, `Compare`.
* Definitions and theorems of the Coq standard library, mathcomp (`\det`, `invmx`, ...) and Flocq.

## 4. What is modelled and what is not

Modelled: every `fn` of src/vector.rs, src/matrix/mod.rs, src/matrix/arith.rs, src/matrix/iter.rs, src/matrix/ops.rs;
src/util.rs, src/macros.rs, src/prelude.rs (as type-level data, `MetaM.v`); the documentation example of src/lib.rs and
examples/fib.rs.  The README and benches/ contain nothing to model.

Simplifications (each also noted at the definition):
* Drop glue never panics, except in `DropM.v` (C80), where destructors are arbitrary effectful functions.
* The drop log records the drops made by the crate's own unsafe code and by the iterators and adapters it builds
  (`from_iter`, `IntoIter`, `Chunks`, `zip`, `filter`, `count`).  Drops that the compiler inserts for local variables and
  by-value parameters of safe code (the operands of `A * B`, the scalar of `v * s`, the old value overwritten by `*v = ...`)
  are steps of ScopeM.v, on the path without panics, and C103 accounts for them; ScopeMutM.v and CmpM.v have those of the
  in-place operations and comparisons, also when unwinding (C104); UnwindM.v has the temporaries that unwinding drops in sums,
  dot, norm, cross, determinants to size 3, cofactors of size 2 and the inverse of size 1 (C107); the other files leave them
  out.  What unwinding drops of the locals of ScopeM.v (products, powers, larger determinants, ...) is not modelled: after a
  panic there C103 says only that nothing outside the call was touched.
* `Clone`, `PartialEq`, `Ord`, the element operators and closures are arbitrary functions; `PartialEq`/`Ord`/`is_zero`
  are pure (no side effect, no panic), except that `CmpM.v` (C83) models `==`, `max`, `min` and clamping again with effectful
  comparisons, and `NumM.v` (C102) every function that calls `zero()`, `one()`, the bounds or `is_zero` with effectful ones; everything else may have effects and panic.
* References are values; aliasing is excluded by Rust's borrow checker and not modelled.  Layout, alignment and
  `mem::uninitialized` being itself undefined behaviour for some types in today's Rust are not modelled.
* Format flags are modelled only in `FlagM.v` (C99), with the padding of std of Rust 1.29 and later.
* Trait resolution and type checking are modelled only where a property is about them (C13, C61-C63, C67); lifetimes,
  `Copy` impl bounds and `#[inline]` are not.
* Floating-point NaN payloads and x87 excess precision are not modelled; the f32 and f64 theorems are about
  binary32 and binary64 with round-to-nearest-even.

## 5. Print Assumptions

`Print Assumptions` follows every theorem.  All are `Closed under the global context` except the 76 theorems that
speak about real numbers, `C66_refuted`, `C66_small_partial`, `C69_sum`, `C69_dot`, `C69_matrix_product`,
`C69_matrix_vector`, `C69_cross`, `C69_norm`, `C69_normalized`, `C69_determinant`, the seven `C74_*`, `C75_inverse`, `C75_residual`, `C66_dominant_partial`, `C76_determinant`, `C81_inverse`, `C81_residual`, `C66_leading_blocks_partial`, `C82_determinant`, `C91_float`, `C91_norm`, the eight `C92_*`, the six `C93_*`, the nine `C94_*`, the five `C95_*`, the five `C96_*`, the seven `C97_*` and the nine `C98_*`, which list the standard library's

    ClassicalDedekindReals.sig_not_dec    ClassicalDedekindReals.sig_forall_dec
    FunctionalExtensionality.functional_extensionality_dep    Classical_Prop.classic

i.e. the axioms of `Coq.Reals`.  Nothing else is assumed.  vcheck's "library_axioms" list also shows constants that are
sealed by a module type and so look like axioms to a syntactic scan, although they have a body and `Print Assumptions`
does not report them: `Coq.ssr.ssrunder.Under_rel.*`, mathcomp's sealed definitions, `Coq.Reals.Rdefinitions.RbaseSymbolsImpl`
/`RinvImpl` constants.

## 6. Testing the theorems against wrong programs

`seeded/LOG.jsonl` has one line per mutant of the model: the definition edited, the edit, the English claim it breaks, the
theorems whose proof (or a lemma they rest on) then fails, and what was tightened.
