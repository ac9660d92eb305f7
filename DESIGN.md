# Formal model of RandBLAS in Rocq/Coq 8.16

Source: BallisticLA/RandBLAS at the pinned commit in /repo (C++20, header only).
Everything under /verif/rocq/theories is written by hand from a reading of that
source; nothing in /repo is compiled or run.  Every definition of a `*Model.v`
file cites the file and lines it models and states any simplification.

## 1. Modelling conventions

* **Outcomes.** A function returns `outcome A := Ok a | Throw | UB`.  `Throw` is a
  C++ exception (`randblas_require`, `randblas_error_if`, `std::overflow_error`...).
  `UB` is undefined behaviour: out-of-range buffer access, use of a null pointer,
  division by zero, signed overflow where modelled.  A theorem that concludes
  `f x = Ok y` therefore includes absence of out-of-bounds accesses.
* **Memory.** A buffer is a `list T`; a C pointer into it is the list together with
  an integer offset.  `rd`/`wr` return `UB` outside `[0,length)`.  A function that
  mutates through a pointer returns the new list.
* **Integers.** `int64_t` quantities are `Z`.  Overflow of index arithmetic is not
  modelled except where a property is about it (`safe_int_product`, conversions to
  `int`/32 bit inside kernels, pivots computed modulo 2^W, counters modulo 2^W).
  C++ `/` and `%` are `Z.quot`/`Z.rem` (truncation).
* **Scalars.** Linear-algebra theorems hold for every commutative semiring with a
  decidable equality test (section variables turned into explicit hypotheses).
  Floating-point rounding in the accumulation of products is thus *not* modelled
  in these theorems; C60 to C63 bound it for the sparse kernels (`fops`: IEEE operations of any
  format, every product rounded before it is added), C66 for the same kernels with any
  contraction of multiply-adds, and C65 for dense sketches.  Theorems about which cells are read or written, and about
  beta=0/alpha=0, assume no algebraic law at all, so they cover IEEE arithmetic.
  Sampling of indices through floating point is modelled with IEEE binary32 and
  binary64 (`SpecFloat` of the standard library and Flocq).
* **RNG.** Random123 is not in /repo.  A generator is an arbitrary function from a
  counter (an integer modulo 2^B) and a key to a block of words; `incr(n)` is
  addition modulo 2^B (base.hh documents the counter as "one 128-bit unsigned int").
  The transformations boxmul/uneg11 are arbitrary functions of the block for the
  structural theorems; uneg11 and boxmul are modelled bit-exactly for the range and moment
  theorems (C11, C57, C64).
* **External BLAS** (`blas::gemm/axpy/scal/copy`) are modelled by their textbook
  loops (reference BLAS semantics).  C65 replaces gemm by an arbitrary function and
  needs only a contract: exact, or in floating point any order of the operations with or
  without fused multiply-add.
* **OpenMP.** A parallel loop is a set of tasks, each a list of element updates; the
  theorems quantify over every interleaving of the tasks' updates.
* **Hash maps** (`std::unordered_map`) have an arbitrary iteration order: an oracle
  returning some permutation of the keys.
* **std::sort** is an arbitrary function returning a sorted permutation where only
  that is needed; a concrete sort is used for execution.

## 2. Files

| file | content |
|---|---|
| `Base.v` | outcomes, buffers, loops, integer ranges, lemmas |
| `Interleave.v` | interleavings of task traces |
| `Spec.v` | small independent specifications: matrices, ops, products, windows |
| `RngModel.v`, `RngWordsModel.v`, `RngWordsProofs.v` | base.hh: states as integers, states as word arrays, safe_int_product |
| `DenseModel.v`, `DenseSpec.v`, `DenseProofs*.v` | dense_skops.hh |
| `SparseSkopModel.v`, `Fy*.v`, `SamplerProofs.v`, `Sparse*.v`, `LasoProofs.v` | sparse_skops.hh, samplers of util.hh |
| `FloatModel.v`, `FloatProofs*.v`, `CdfProofs.v` | binary32/64 behaviour of uneg11, u01, cdf sampling |
| `Iso*.v` | averages over all draws (C24) |
| `Stat*.v`, `DenseFloatModel.v`, `DenseIso*.v` | probabilities over all draws, dense operators (C56, C57) |
| `LawProofs.v`, `PropsLaw.v` | distribution of indices sampled with replacement (C58) |
| `PropsExpand.v` | products against dense expansions (C59) |
| `ParamProofs.v`, `Round*.v`, `PropsRound.v` | sparse products in floating point (C60) |
| `RoundProofs4.v`, `PropsRoundSketch.v` | sketching with sparse operators in floating point (C61) |
| `RoundProofs5.v`, `PropsRoundSparse.v` | sketching sparse data with dense operators in floating point (C62) |
| `RoundSpec2.v`, `RoundProofs6.v`, `PropsRoundFinite.v` | the same products for values of any size: underflow and overflow (C63) |
| `Gemm*.v`, `BlasProofs.v`, `RoundSpec3.v`, `RoundProofs7.v`, `RoundProofs8.v`, `PropsBlas.v` | dense sketches with the BLAS as a parameter; any order of evaluation, fused multiply-add (C65) |
| `Contract*.v`, `PropsContract.v` | the sparse kernels on expressions with several possible values: fused multiply-add (C66) |
| `Norm*.v`, `PropsNorm.v`, `PropsNorm2.v`, `LogMoments.v`, `Pair*.v`, `Gauss*.v`, `PropsNorm3.v` | second moments of the Gram matrices of sparse, uniform dense and Gaussian dense operators, Chebyshev bounds for lengths, subspaces, least squares (C67, C68, C70) |
| `Gram*.v`, `PropsGram.v`, `PropsGram2.v`, `PropsGram3.v` | Gram matrices of the numbers sketch_general computes with sparse (C69) and dense operators (C71) |
| `Tail*.v`, `PropsTail*.v` | all moments of uniform entries and of Box-Muller pairs, Chernoff bounds, union bound over point sets and nets: Johnson-Lindenstrauss and subspace embeddings with exponentially small failure (C72, C73), the same for the computed numbers (C74, with sparse data C77, with sketch_symmetric and sketch_vector C78), and for sparse operators (C75, computed numbers C76, with sketch_symmetric and sketch_vector C80) |
| `OverflowModel.v`, `OverflowProofs.v`, `PropsOverflow.v` | constructors and dense sampling with range-checked int64_t arithmetic (C79) |
| `NarrowModel.v`, `PropsNarrow.v` | sampling without replacement with range-checked arithmetic in the index type (C81) |
| `PropsNarrow2.v` | conversions to narrower index types (C82), expansion of CSR matrices with very many columns (C25) |
| `Box*.v`, `PropsGauss.v` | Gaussian entries: Box-Muller in exact and IEEE arithmetic (C64) |
| `SpFmtModel.v`, `SpFmt*.v` | COO/CSR/CSC, conversions, sorting, reindexing |
| `SpmmModel.v`, `Spmm*.v` | SpMM kernels and dispatch |
| `SketchModel.v`, `Sketch*.v`, `LoopProofs.v` | skge.hh, skve.hh, sksy.hh, sparse_data/sksp.hh |
| `UtilModel.v`, `Util*.v` | util.hh |
| `OwnModel.v`, `Own*.v` | heap, allocation, ownership of all classes |
| `Props*.v` | final theorems `Cnn_...` with `Print Assumptions` and a concrete case beside each |

`properties.jsonl` is generated by `tools/mkprops.py`, `MANIFEST.json` by
`tools/mkmanifest.py` (statuses and notes in `tools/notes.py`), section 6 of this
file by `tools/mkassumptions.py`.  Suffixes: `_partial` = part of the property, the
theorem's comment and the manifest say what is missing; `_refuted` = the full
property is false of the code, with a witness.

## 3. Which code is modelled

| source | modelled | not modelled |
|---|---|---|
| base.hh | RNGState constructors, copy, assignment, ==; layout_to_strides, dims_before_op, offset_and_ldim, safe_int_product, get_dim_major | `operator<<`, `operator!=` (does not compile when instantiated), concepts |
| random_gen.hh | uneg11 (32 and 64 bit, bit exact), boxmulall, boxmul::generate, sincospi(f); Random123's boxmuller, u01 and uneg11 from their formulas | Random123's generators (Philox, Threefry): arbitrary functions; sincos and log of the C library: arbitrary functions of bounded error |
| dense_skops.hh | DenseDist, DenseSkOp, compute_next_state, fill_dense_submat_impl, fill_dense_unpacked, fill_dense, BLASFriendlyOperator, submatrix_as_blackbox | printing; bounds of `int64_t` index arithmetic outside `size_ok` |
| sparse_skops.hh | repeated_fisher_yates, isometry_scale, SparseDist, compute_next_state, SparseSkOp, laso_merge_long_axis_vector_coo_data, fill_sparse(_unpacked_nosub), coo_view_of_skop | print_sparse |
| util.hh | safe_scal, omatcopy, flip_layout, require_symmetric, symmetrize, overwrite_triangle, transpose_square, weights_to_cdf, sample_indices_iid(_uniform) | genmat printing, `RandBLAS::util::...` string helpers |
| exceptions.hh | randblas_require / randblas_error_if as `Throw` | message formatting |
| sparse_data/*_matrix.hh, base.hh, conversions.hh | all three classes, reserve, sort, reindex, transposes, to/from dense, all conversions | concepts, printing |
| sparse_data/*_spmm_impl.hh, spmm_dispatch.hh | all kernels, left_spmm, right_spmm, spmm | the public right-hand spmm (does not compile when instantiated: one argument too many) |
| skge.hh, skve.hh, sksy.hh, sparse_data/sksp.hh | lskge3, rskge3, lskges, rskges, sketch_general, sketch_vector, sketch_symmetric, lsksp3, rsksp3, sketch_sparse | |

Cross-cutting omissions: rounding is the subject of C60 to C63, C65, C66, C69, C71, C74, C76 to C78 and C80 only (the other
linear-algebra theorems hold over every commutative semiring; frame, thread and beta=0
theorems need no laws); reassociation of sums in the sparse kernels (-ffast-math);
`int64_t` overflow of index arithmetic except where a property names it (C79 for
constructors and dense sampling, C81 for sampling without replacement); the order
of destruction at program exit; compiler-specific macros; the time and memory used.

## 4. Plan per property

| id | model | proof |
|---|---|---|
| C01 C02 | `fill_dense_unpacked`, `fill_dense_submat_impl` over any generator | closed form of every cell by loop invariants; windows by arithmetic of padded offsets |
| C03 C04 | constructors, `compute_next_state` | corollaries of the closed form |
| C05 | rows as tasks of writes | general interleaving lemma (disjoint footprints) |
| C06 | `wr` with UB | loop invariants stating frame |
| C07 C08 | counters | arithmetic; injectivity of (counter, lane) |
| C09 | constructor | case analysis; refutations for the square case and Short isometry scale |
| C10 | checks | direct; refutation for negative offsets / empty windows |
| C11 | binary32 uneg11 | monotonicity and range of rounding via Flocq |
| C12 C13 C14 C15 | `repeated_fisher_yates` on scratch array | invariant: scratch array is a permutation, restored to identity; bijection by induction; counting residues |
| C16 C17 C18 C19 | `fill_sparse_unpacked_nosub`, LASO merge with hash-order oracle | on top of C12-C14, C23 |
| C20 C21 C22 C23 | samplers with IEEE values | refutations by computed witness; partial range theorems; block-usage invariant |
| C24 | averages over all word sequences read by fill_sparse | symmetry of signs, bijection of C14 and double counting; exact value for any value set; refutation for real 32-bit draws |
| C25-C32 | dense/sparse conversions, sorting | loop invariants and permutation arguments; refutations for C25 (columns from 2^31 on), C27, C32 |
| C33-C39 | kernels emit updates of C; dispatch | sum over updates = matrix product; refutation for all-nonzeros-in-first-column |
| C40-C48 | drivers on top of gemm model and SpMM | compose; refutations for C43, C48 |
| C49 C50 C54 | util loops | loop invariants |
| C51 | strict and wrapping arithmetic | arithmetic; refutation under strict semantics |
| C52 | heap of allocations with object table | invariant over all histories; refutation if the return of submatrix_as_blackbox is not elided |
| C53 | counters/keys as integers and as words | arithmetic |
| C55 | operator state machine | denotation invariant |
| C56 | averages over all word tapes | events at distinct tape positions are independent; residues counted as in C15; bijection of C14 |
| C57 | averages over all tapes of generator blocks; uneg11 and scaling by sqrt(3) in binary32/64 | distinct entries use distinct (block, lane) pairs (C08); exact second moment of the words plus rounding error bounds |
| C58 | averages over all word tapes; u01, floor(n u) and lower_bound in binary32/64 | draws read distinct tape positions (C20, C21); the drawn u is within rounding of the middle of the word's cell, cells are counted; the largest u below 1 is computed |
| C59 | the three to_dense conversions, dense_to_csr/csc, left_spmm in every format, gemm as the BLAS contract | both products are the unique buffer described by gemm_result (C33-C35, SketchProofs4); expansion entry = last stored value (C25), product entry = their sum; unit vectors exhibit the difference |
| C60 | the sparse kernels of C33-C36 with IEEE scalars (`fops`), any schedule | the kernels are parametric: a run on floats and a run on the semiring (exact value, magnitude, number of terms, degree) stay related, the relation being the error bound; the second run is computed by C33-C36; overflow and underflow are excluded by degree and count |
| C61 | `sketch_general` with a sparse operator (C42, C43) and IEEE scalars | the COO view of the operator is a sparse product, bounded by C60; the number of stored values per row is that of the sampled operator |
| C62 | `sketch_sparse` (C46) with IEEE scalars | the driver is a sparse product, bounded by C60, with the dense window as the other factor; entries of uniform operators are at least 2^-32 and at most 1 in size |
| C63 | the products and sketches of C60 to C62 with IEEE scalars | transfer theorem of C60 with another semiring: each value carries its exact value, a polynomial z -> (|x| + z) truncated at z^4 whose coefficients weigh underflow errors and whose value at 1 bounds all intermediate results, a term count, a degree and a flag "all inputs finite"; non-finite values are absorbing, so a finite result forces finite inputs |
| C64 | boxmulall (UB on index errors), Box-Muller in binary32/64 with oracles for sincos and log | closed form of the loop; roots-of-unity sums give the exact moments of the angle, an entropy-type bound on the log sum those of the radius; rounding analysis of each IEEE operation; Machin's formula for the error of the pi literals; Gram matrix with pairwise dependent lanes |
| C65 | the drivers of C40, C41, C44, C47 with an arbitrary function in place of gemm (`GemmModel.v`; equal to the earlier model for the textbook gemm) | the one call of gemm has fitting arguments that denote submat(S) and A, so its promise transfers; sums of products are interpreted in the semiring of C63, and each rounded operation, including fma, preserves the relation of C63 |
| C66 | the kernels and drivers of C63 on expressions (`ContractModel.v`) | transfer theorem of C60 from expressions to the semiring of C63: every possible value is related to the same tracked entry, fused or not (C65's lemma for fma); the kernels commute with maps of the scalars, which gives the IEEE run as one choice |
| C67 | the sampler of C24 (repeated_fisher_yates, fill_sparse) run on tapes of words | blocks of words of different columns are independent; the sign words make all products with an unpaired sign average to zero; inclusion probability of Fisher-Yates by induction over the pivots; expansion of the square into four sums; Markov, Cauchy-Schwarz |
| C68 | the sampler of C57 (fill_dense, uneg11, scaling by sqrt 3) run on tapes of blocks of words | resampling one lane of one block shows that entries are independent; covariances of products of two centred entries by cases; the mean of the entries (not exactly 0) is split off with Minkowski's inequality; the rest is shared with C67 |
| C69 | sketch_general with a SparseSkOp on floats, operator run on tapes of words | entries of the computed result by C63, mean square error of the exact sketch by C67; the error matrix is bounded by a multiple of the data (column sums of squares are vec_nnz), Cauchy-Schwarz and Minkowski move it through the Gram matrix; underflow and overflow excluded by the range of the norm; from the right the same with the transposed data |
| C70 | the sampler of C64 (fill_dense, boxmulall, u01, uneg11, sqrt; sincos and log by accuracy) run on tapes of blocks of words | moments of -ln over the grid of words by comparing sums with an antiderivative; sums of sines and cosines of multiples of the angles vanish exactly; the ideal pair has vanishing odd moments, so covariances of products of entries are as for independent ones up to the shared radius; the differences between stored and ideal values are bounded in mean fourth power and moved through with Minkowski's inequality; the rest is shared with C68 |
| C71 | sketch_general from both sides with a DenseSkOp on floats and the BLAS as a parameter, operator run on tapes of blocks of words | entries of the computed result by the entry promise of C65 and the values C68/C70 give for the stored entries (bounded by 2, 7 or 10); the error matrix is bounded by a multiple of the data and moved through the Gram matrix as in C69; the exact sketch by C68 and C70 |
| C72 | as C68 | the moments of an entry of the ideal grid are at most those of a normal variable (odd ones vanish), hence those of a row of S x too (binomial formula, independence by resampling one word); exponential moment by the series, Chernoff both ways; stored entries differ surely from the grid by eps; union bound over pairs of points and over a grid of spacing 1/(4 ceil(sqrt q)) |
| C73 | as C70 | a row of S x is a sum over Box-Muller pairs of rho*(a sin + b cos) = rho*r*cos(angle + phi); moments of the cosine by its binomial expansion and root-of-unity sums, of the radius from those of the logarithm (C70); hence all moments at most those of a normal variable with variance (1 + 3c/2)(1 + 1/q)*|x|^2; then as C72. Square operators are excluded: there a pair is spread over two rows |
| C74 | as C71 | the deviation of the computed squared norm of a combination of columns from the exactly sketched one is bounded for each draw as in C71; applied to two columns with coefficients 1, -1 (distances) and to all columns (subspaces); the exactly sketched side by C72 and C73 |
| C75 | as C67 | signs drawn one at a time: the exponential moment of the squared length is carried by a potential that is quadratic in the share of the vector each row meets (cosh u <= exp(u^2/2)); shares bounded column by column with the inclusion probabilities of C67 and a union bound over rows; point sets and subspaces by the nets of C72 |
| C76 | as C69, sketch_general from both sides | the error bound of C69 for an arbitrary combination of columns; a distance is the combination (1,-1) of two columns; the exact sketch by C75 |
| C77 | sketch_sparse, both sides, with the operators of C71 | the sum over stored entries that C63 speaks of is a sum over all entries with zeros added, and its error bound only smaller; then as C71 and C74 |
| C78 | sketch_symmetric (both sides) and sketch_vector with the operators of C71 and any BLAS of C65 | the calls reduce to those of C71 once the check for symmetry passes; one column for a vector; then as C71 and C74 |
| C79 | constructors, state formulas and dense samplers again with every int64_t operation range-checked (`ck`) | checked and unchecked runs agree step by step under a bound on the padded size; invariant on `ind` in the middle loop; witnesses where they differ. Partial: false in general, kernels not covered |
| C80 | sketch_symmetric (both sides) and sketch_vector with the Short-axis sparse operators of C69 and C76 | the calls reduce to those of C69 and C76 once the check for symmetry passes; one column for a vector; then as there |
| C81 | sampling without replacement and fill_sparse (Short axis) again, with every sum of sint_t values and every int64_t product range-checked and conversions to sint_t wrapping | up to 2^31 samples (2^63 - 1 for int64_t) the checked loop agrees step by step with the unchecked one in a type one bit wider, then C12 and C16; above, no step throws and one iteration never returns, so the loop is undefined. Partial: false in general |
| C82 | the conversions of C26, whose casts to the index type of the result wrap (`to_sint`) | the pointer array ends in the wrapped count and the wide index survives sorting (permutation) and wraps to a negative one, so the returned matrix is not well formed; exact condition: a well-formed result holds only indices below 2^(b-1), so an entry at a larger index is missing from it, and if all stored values fit the loop is the one of C26 |

## 5. Trusted base

* Coq's kernel, 8.16.1; vcheck re-checks every compiled file with coqchk.
* The axioms listed by `Print Assumptions` after each theorem in `Props*.v`, collected
  in section 6.  All belong to the standard library (classical reals, functional
  extensionality where it appears, classical logic used by Flocq's real-number lemmas).
  No axiom is declared in this development.
* The reading of the C++ source recorded in the comments of the `*Model.v` files and
  the conventions of section 1.
* Contracts of code outside /repo, which appear as explicit hypotheses or as
  textbook definitions:
  - Random123: a generator is a function of counter and key returning a block of a
    fixed number of words; `incr(n)` adds n to the counter read as one integer.
  - `std::sort` returns a sorted permutation of its input.
  - BLAS `gemm`, `axpy`, `scal`, `copy`: reference loops, with `beta == 0` not reading C.
  - `std::unordered_map`: some iteration order over the keys inserted.
  - OpenMP: iterations are distributed over threads in any way; every interleaving of
    element accesses is possible.
  - `new[]` either returns a fresh array or throws; the theorems of C52 quantify over
    which allocations fail.
  - IEEE 754 binary32/binary64, round to nearest even, no extended precision and no
    contraction (as defined by Flocq / SpecFloat).
* Averages over draws (C24 and later statistical properties) are over all sequences of
  words that the code reads, each word taking all 2^W values once: the idealised
  generator.  That Random123 behaves like it is not provable here.

## 6. Axioms per theorem (output of Print Assumptions)

Generated by tools/mkassumptions.py. Nothing outside the standard library appears.

**Closed under the global context** (184 theorems):
C01_dense_blackbox_is_window_of_filled_operator, C01_dense_window_of_full_operator, C02_dense_entry_closed_form, C03_dense_long_concatenation, C03_dense_long_concatenation_square_refuted, C04_dense_short_prefix, C05_dense_fill_schedule_independent, C06_dense_fill_footprint, C06_dense_fill_strided_footprint, C07_dense_next_state_is_fill_state, C07_dense_next_state_value, C07_dense_window_reads_only_blocks_before_next_state, C08_dense_distinct_entries_use_distinct_words, C09_dense_dist_fields_partial, C09_short_isometry_scale_refuted, C09_square_natural_layout_refuted, C10_dense_blackbox_out_of_range_rejected_partial, C10_dense_in_range_window_accepted, C10_dense_out_of_range_window_rejected_partial, C10_empty_window_refuted, C10_negative_offset_refuted, C12_sampling_more_than_population_rejected, C12_sampling_without_replacement_distinct_in_range, C13_block_depends_only_on_seed_and_index, C13_fewer_blocks_are_a_prefix, C13_two_calls_equal_one, C14_pivots_to_samples_bijection, C15_modulo_bias, C15_single_draw_bias, C16_short_axis_structure, C17_long_axis_structure, C18_next_state_is_state_after_sampling, C18_odd_block_length_refuted, C18_sample_depends_only_on_blocks_before_next_state, C19_long_concatenation, C19_short_prefix, C23_index_and_sign_sampling_state_and_lanes, C23_index_sampling_state_and_lanes, C25_csr_wide_columns_refuted, C25_dense_coo_dense, C25_dense_csc_dense, C25_dense_csr_dense_partial, C25_nan_entry_refuted, C25_zero_tolerance_identity_partial, C26_coo_to_csc_same_matrix, C26_coo_to_csr_same_matrix, C27_compressed_to_coo_refuted, C27_csc_to_coo_partial, C27_csr_to_coo_partial, C28_coo_transpose, C28_coo_transpose_flag, C28_csc_copy_independent, C28_csr_copy_independent, C28_transpose_as_csc, C28_transpose_as_csr, C28_transpose_twice, C29_reindex_coo, C29_reindex_csc, C29_reindex_csr, C30_sort_matrix, C30_sort_permutes_into_order, C30_sort_type_is_the_real_order, C31_pointer_array_counts_predecessors, C32_coo_to_csc_refuted, C32_coo_to_csr_in_bounds, C32_mismatch_is_rejected, C33_csr_product, C33_csr_transposed_partial, C33_transposed_refuted, C34_csc_product_partial, C34_csc_transposed_product, C34_first_column_refuted, C35_coo_window_product_partial, C35_first_column_refuted, C35_other_windows_refuted, C35_spmm_partial, C36_right_product, C37_alpha_zero_ignores_inputs, C37_beta_zero_ignores_output, C38_schedule_independent, C38_team_size_change_refuted, C38_thread_count_independent, C39_late_exception_refuted, C39_right_late_exception_refuted, C39_sketch_full_rejects, C39_sketch_left_rejects, C39_sketch_right_rejects, C39_spmm_accepts, C39_spmm_rejects, C40_dense_left, C40_empty_inner_dimension_refuted, C41_dense_right, C42_exact_windows_partial, C42_first_column_refuted, C42_other_windows_refuted, C42_sparse_left_partial, C42_sparse_left_whole_columns, C43_other_windows_refuted, C43_sparse_right_partial, C43_unmaterialised_applied_twice, C43_unmaterialised_refuted, C44_other_windows_refuted, C44_sketch_vector_full_partial, C44_sketch_vector_partial, C45_asymmetric_rejected, C45_other_windows_refuted, C45_symmetric_left_full_partial, C45_symmetric_left_partial, C45_symmetric_right_full_partial, C45_symmetric_right_partial, C46_left_partial, C46_overrun_refuted, C46_right_partial, C46_sketch_sparse_left_partial, C46_sketch_sparse_overrun_refuted, C46_sketch_sparse_right_partial, C47_blocks_accumulate, C48_dense_window_rejected, C48_sparse_window_not_checked, C48_sparse_window_refuted, C49_flip_layout, C49_flip_twice, C49_rejects, C50_negative_offset_refuted, C50_overwrite_rejects, C50_overwrite_triangle, C50_symmetrize, C50_symmetrize_symmetric, C50_transpose_involution, C50_transpose_square, C51_overflow_refuted, C51_product_partial, C51_wrapping, C52_bfo_copy_refuted, C52_blackbox_without_elision_refuted, C52_caller_arrays_partial, C52_freed_by_owner_partial, C52_no_leak_partial, C52_no_undefined_behaviour_partial, C52_one_owner_partial, C52_reserve_refuses, C52_reserve_refuses_values, C53_advance_adds, C53_assignment, C53_distinct_keys, C53_equality_exact, C53_incr_is_integer_addition, C53_key_constructor, C53_narrow_keys_collide, C53_other_constructors, C54_exact, C55_fresh_operator_denotes, C55_fresh_sparse_operator_denotes, C55_left_sketches_identical, C55_right_sketches_identical_partial, C55_right_sketches_refuted, C55_uses_keep_matrix, C59_compress_then_multiply, C59_product_is_product_of_expansion_partial, C59_repeated_positions_refuted, C64_pairs_of_words, C64_same_counter_and_key, C65_dense_left, C65_dense_right, C65_dense_symmetric_left, C65_dense_symmetric_right, C65_dense_vector, C65_textbook_drivers, C79_dense_entries_fit_refuted, C79_dense_entries_partial, C79_dense_operator_partial, C79_dense_window_partial, C79_sparse_dist_partial, C79_sparse_dist_refuted, C79_sparse_next_state, C79_window_check_refuted, C81_fill_partial, C81_fill_refuted, C81_sampler_partial, C81_sampler_refuted, C82_coo_to_csc_partial, C82_coo_to_csc_refuted, C82_coo_to_csr_partial, C82_coo_to_csr_refuted.

**`ClassicalDedekindReals.sig_forall_dec`, `FunctionalExtensionality.functional_extensionality_dep`** (10 theorems):
C24_short_axis, C54_exact_real, C56_sampling_without_replacement_nearly_uniform, C57_dense_long_isometry_in_expectation, C57_dense_short_isometry_refuted, C67_inner_products, C67_least_squares, C67_lengths, C67_slack, C67_subspaces.

**`ClassicalDedekindReals.sig_forall_dec`, `ClassicalDedekindReals.sig_not_dec`, `FunctionalExtensionality.functional_extensionality_dep`** (3 theorems):
C22_weights_to_cdf_exact_partial, C24_long_axis_exact, C24_long_axis_partial.

**`ClassicalDedekindReals.sig_forall_dec`, `ClassicalDedekindReals.sig_not_dec`, `Classical_Prop.classic`, `FunctionalExtensionality.functional_extensionality_dep`** (108 theorems):
C11_uniform_transformation_double, C11_uniform_transformation_float, C20_indices_in_range_64_partial, C20_indices_in_range_partial, C20_indices_in_range_refuted, C20_signs, C20_signs_64, C21_in_range_after_weights_to_cdf_partial, C21_in_range_after_weights_to_cdf_refuted, C21_in_range_when_last_entry_is_one, C21_inverts_cdf_double_partial, C21_inverts_cdf_float_partial, C21_never_zero_mass_refuted, C22_ends_at_one_refuted, C22_positive_sum_accepted_refuted, C22_weights_to_cdf_double, C22_weights_to_cdf_float, C24_long_axis_refuted, C54_float_tolerance_zero, C54_nan_refuted, C54_overflow_refuted, C57_uniform_double_nearly_isometry, C57_uniform_float_nearly_isometry, C57_uniform_wide_words_nearly_isometry, C58_cdf_indices_law_double, C58_cdf_indices_law_float, C58_last_index_drawn_partial, C58_last_index_drawn_refuted, C58_uniform_indices_law_64_partial, C58_uniform_indices_law_partial, C60_left_error_alpha_one_partial, C60_left_error_double_partial, C60_left_error_float_partial, C60_left_error_partial, C60_other_entries_refuted, C60_right_error_partial, C61_left_sketch_error_partial, C61_right_sketch_error_partial, C61_short_axis_error_double_partial, C61_short_axis_error_partial, C62_left_sparse_error_partial, C62_left_uniform_error_double_partial, C62_right_sparse_error_partial, C62_right_uniform_error_double_partial, C63_left_accurate, C63_left_finite_accurate, C63_left_sketch_accurate, C63_left_sparse_sketch_accurate, C63_right_accurate, C63_right_sketch_accurate, C63_right_sparse_sketch_accurate, C64_box_muller_float_accurate, C64_box_muller_moments, C64_gaussian_double_nearly_isometry, C64_gaussian_entries_finite_double, C64_gaussian_entries_finite_float, C64_gaussian_exact, C64_gaussian_float_nearly_isometry, C64_gaussian_wide_words_nearly_isometry, C65_any_order_accurate, C65_left_accurate, C65_promise_kept, C65_right_accurate, C66_left_contracted, C66_left_sketch_contracted, C66_left_sparse_sketch_contracted, C66_right_contracted, C66_right_sketch_contracted, C66_right_sparse_sketch_contracted, C66_uncontracted, C68_uniform_double, C68_uniform_float, C68_uniform_wide_words, C69_double, C69_float, C69_right_double, C69_right_float, C70_gaussian_double, C70_gaussian_exact, C70_gaussian_float, C70_gaussian_wide_words, C71_gaussian_double, C71_gaussian_float, C71_gaussian_wide_words, C71_uniform_double, C71_uniform_float, C71_uniform_wide_words, C72_uniform_double, C72_uniform_float, C72_uniform_wide_words, C73_gaussian_double, C73_gaussian_exact, C73_gaussian_float, C73_gaussian_wide_words, C74_gaussian_double, C74_gaussian_float, C74_gaussian_wide_words, C74_uniform_double, C74_uniform_float, C74_uniform_wide_words, C75_geometry, C75_sizes, C76_left_double, C76_left_float, C76_right_double, C76_right_float, C80_double, C80_float.

**`ClassicalDedekindReals.sig_forall_dec`, `ClassicalDedekindReals.sig_not_dec`, `Classical_Prop.classic`, `functional_extensionality_dep`** (12 theorems):
C77_gaussian_double, C77_gaussian_float, C77_gaussian_wide_words, C77_uniform_double, C77_uniform_float, C77_uniform_wide_words, C78_gaussian_double, C78_gaussian_float, C78_gaussian_wide_words, C78_uniform_double, C78_uniform_float, C78_uniform_wide_words.
