NOTES.update({
 'C01': ('proved', 'Windows are nonempty and offsets nonnegative; sizes for which the index arithmetic fits int64_t (size_ok).'),
 'C02': ('proved', 'Closed form of every cell for an arbitrary generator.'),
 'C03': ('proved', 'Wide and tall; d1+d2<m as documented. The extension to d1+d2=m is refuted.'),
 'C04': ('proved', 'Wide and tall.'),
 'C05': ('proved', 'All interleavings of the element writes of the row tasks.'),
 'C06': ('proved', ''),
 'C07': ('proved', 'Disjointness of reads is stated as independence of the generator outside the block range.'),
 'C08': ('proved', ''),
 'C09': ('partial', 'False of the code for square shapes (natural_layout) and for isometry_scale with Axis::Short: both refuted by a witness.'),
 'C10': ('partial', 'Overshooting windows are rejected; negative offsets and empty windows are not (refuted).'),
 'C12': ('proved', 'Sizes representable in the index type; k>n rejected without touching the array.'),
 'C13': ('proved', 'Block i, prefix and two-calls-equal-one.'),
 'C14': ('proved', 'One map F, computed by the code from its pivots, is a bijection.'),
 'C15': ('proved', 'Both for residues and for the index selected by the code.'),
 'C16': ('proved', 'Both orientations, owned or user buffers.'),
 'C17': ('proved', 'Any hash iteration order. Draws are assumed to lie in [0,n): see C20 for when they do.'),
 'C18': ('proved', 'Even block lengths; for odd lengths refuted. Blocks read: independence of the generator outside the range.'),
 'C19': ('proved', 'Wide and tall, equality of stored values entry by entry.'),
 'C23': ('proved', 'Both variants.'),
})
NOTES.update({
 'C11': ('proved', 'All 2^32 words in single precision, all 2^64 words in double; range, monotonicity, accuracy, (x+1)/2.'),
 'C20': ('partial', 'False of the code: refuted by a word among the 64 largest. Proved: in range iff the word is not among the 64 (32-bit) or 1535 (64-bit) largest; the sign clause is proved in full (C20_signs, C20_signs_64).'),
 'C21': ('partial', 'CDF inversion proved for float and double. In-range after weights_to_cdf and never-zero-mass are refuted by rounding (last entry < 1) and by u = 0; proved outside the 64 largest words.'),
 'C22': ('partial', 'Exact arithmetic and float/double. The claims "any positive sum is accepted" and "ends at 1 in floating point" are refuted; the exact acceptance condition and error bound are proved.'),
})
NOTES.update({
 'C25': ('partial', 'COO, CSR (at most 2^31 columns), CSC; any strides. csr_to_dense keeps column indices in an int: proved to write before the dense array whenever there is an entry in a column from 2^31 to 2^32 - 1 (column-major: any row; row-major: first row). Zero tolerance is the identity for scalars where "not big" means zero; a NaN entry is dropped (refuted witness for binary64).'),
 'C26': ('proved', 'Multiset of stored values at every position; std::sort by its contract; destination index type wide enough.'),
 'C27': ('partial', 'False of the code: both functions write positions instead of stored indices (refuted). Proved: dimensions, values, the other index, and equality when indices equal positions.'),
 'C28': ('partial', 'Everything but the independence of a copy from the memory of the original, which needs the heap model.'),
 'C29': ('proved', 'All three formats, every field restored.'),
 'C30': ('proved', 'std::sort by its contract.'),
 'C31': ('proved', ''),
 'C32': ('partial', 'coo_to_csc accepts a different number of columns (refuted: out-of-bounds write, or an invalid result); the other conversions reject every mismatch.'),
})
NOTES.update({
 'C33': ('partial', 'Full for op(A)=A (columns <= 2^31 unless row-major: int loop variable). For op(A)=A^T the CSC kernel runs: proved under its precondition, and undefined behaviour proved when all nonzeros lie in the first of several rows.'),
 'C34': ('partial', 'Full for op(A)=A^T and, for op(A)=A, with row-major B and C. Otherwise false of the code when all nonzeros lie in the first of at least two columns: out-of-bounds read proved for all such operands.'),
 'C35': ('partial', 'All windows, orders, layouts and op flags satisfying coo_safe; for every other window (alpha not 0) the call is proved to be undefined behaviour, so the condition is exact. The matrix represented by A is unchanged.'),
 'C36': ('proved', 'All formats; the condition sp_safe says that the transposed left product is defined.'),
 'C37': ('proved', 'No law on the scalars.'),
 'C38': ('proved', 'No law on the scalars, so bitwise. If the team sizes of the two parallel regions differ, rows are lost (refuted witness).'),
 'C39': ('partial', 'Sparse products and sketching: every inconsistent argument is rejected before any access. A false sort flag raises after scaling C, and rskges on an operator that may not allocate raises after updating B (refuted witnesses).'),
})

NOTES.update({
 'C40': ('proved', 'Any commutative semiring; BLAS gemm by its textbook loops. Nonempty windows if S is not materialised: an empty inner dimension is an out-of-bounds write (refuted witness).'),
 'C41': ('proved', 'As C40.'),
 'C42': ('partial', 'Full for windows made of whole columns of a Short-axis operator. Otherwise exact: the product in every window meeting sp_safe, undefined behaviour (out-of-bounds read) in every other one.'),
 'C43': ('partial', 'False of the code for an operator that is not materialised: the product is applied twice (proved for all inputs, refuted witness) and S gets materialised. Proved for materialised operators; windows outside sp_safe are proved undefined.'),
 'C44': ('partial', 'Every operator and window the drivers handle correctly (C40-C43); positive strides. For nonzero alpha all other windows of sparse operators are undefined behaviour (C44_other_windows_refuted).'),
 'C45': ('partial', 'Rejection is exact and comes before any write of B. The product is proved for windows that C40-C43 cover; for nonzero alpha all other windows of sparse operators are undefined behaviour (C45_other_windows_refuted).'),
 'C46': ('partial', 'All formats and both sides, when the sparse product is defined (C33-C35). Data whose entries are all in the first column of op(A) make the call undefined (C46_overrun_refuted).'),
 'C47': ('proved', 'Any number of blocks of any widths, dense and sparse operators, each block usable (C40, C42).'),
 'C48': ('partial', 'Dense operators: every window outside is rejected. Sparse operators: offsets are not checked (refuted); proved what is computed instead.'),
 'C55': ('partial', 'From the left: any history of fills and sketches. From the right false for operators that are not materialised (refuted, see C43); proved for materialised ones.'),
})
NOTES.update({
 'C49': ('proved', 'Any element type, both layouts; the gaps between columns are unspecified.'),
 'C50': ('partial', 'Everything but the rejection of negative offsets, which the code does not do: undefined behaviour proved for every negative offset.'),
 'C51': ('partial', 'False of the code: the product is formed before the check, so an overflow is undefined behaviour (proved for all pairs). With wrapping arithmetic the check is exact except for INT64_MIN * -1.'),
 'C53': ('proved', 'Word-level model of Random123 arrays, which also justifies reading counters as integers elsewhere. That sampling functions keep their input state is structural: states are passed by const reference and modelled as values.'),
 'C54': ('proved', 'Any scalar type; over the reals; for floating point at tolerance 0 exact for finite entries whose sum does not overflow. NaN entries and overflowing sums pass unnoticed (refuted witnesses).'),
})

NOTES.update({
 'C28': ('proved', 'Values and structure in PropsSpFmt.v; independence of a copy, in both directions and over every later program fragment, in PropsOwn.v on the heap model.'),
 'C52': ('partial', 'Proved for every program that does not copy a BLASFriendlyOperator (28 operations on all classes, any pattern of failing allocations, exceptions caught anywhere): no undefined behaviour, one owner per array, freed only by the owner destructor, nothing leaked, caller arrays never freed. False of the code for BLASFriendlyOperator, which is copyable: C52_bfo_copy_refuted (double free), C52_blackbox_without_elision_refuted (freed array returned when the compiler does not elide the copy in the return statement).'),
})

NOTES.update({
 'C24': ('partial', 'Short axis: proved for all shapes, exactly, over all sequences of words (the modulo bias plays no part). Long axis: exact value of the average for any set of values; the identity when every index is equally likely. False for the 32-bit values the code really draws (refuted witness): the largest words give index dim_major. Real scalars; the square of isometry_scale before rounding.'),
})

NOTES.update({
 'C56': ('proved', 'Joint law over all blocks; the draws are all tapes of W-bit words, each equally likely.'),
 'C57': ('proved', 'Long axis (all that is claimed): exact for standardised uncorrelated lanes; for Uniform entries the float and double operations of the code are modelled exactly and the error is bounded. Gaussian entries: C64. Short axis: false of the code, the mean is min/max times the identity (refuted for all non-square shapes).'),
 'C58': ('partial', 'Proved: independence, the distribution (within 2^-22 for 32-bit words, 2^-50 for 64-bit words, 2^-22 / 2^-21 of a double / float CDF) and the signs, with the exact probability of the out-of-range value n. False of the code and refuted for all n > 2^25: with 32-bit words the last index n-1 is never drawn (2^25 is the exact threshold).'),
 'C59': ('partial', 'Proved for matrices without repeated positions wherever the sparse product is defined, and without any further condition after compressing a dense matrix to CSR (CSC transposed). Refuted for every matrix with a position whose stored values do not add up to the last one: conversions to dense overwrite, products accumulate.'),
 'C60': ('partial', 'Proved for every IEEE format, with double and float instances, in the range given by the theorem (products of three values neither overflow nor underflow), wherever the product is defined. Products and sums are rounded separately (no fused multiply-add). Refuted for COO windows whose entries all lie in the first column: the kernel adds zero times unrelated entries of B, so an infinity there gives NaN. The theorems also give that the operand and the rest of the output buffer are kept.'),
 'C61': ('partial', 'Proved for every IEEE format, from the left for materialised and unmaterialised operators, from the right for materialised ones (C43 is why), with a double instance for the usual case (wide operator, short-axis vectors, whole columns) that assumes nothing about the random numbers. Values outside the stated range: C63. Missing: windows that the kernels do not handle (C42, C60).'),
 'C62': ('partial', 'Proved for every IEEE format, from both sides, materialised or not; for uniform operators in double precision nothing is assumed about the random numbers. Values outside the stated range are covered by C63. Missing: windows or formats that the kernels do not handle (C33 to C35); when the operator is not materialised, the sizes of the sketch must be positive (C10).'),
 'C63': ('proved', 'For every IEEE format. Where the COO kernel multiplies padding zeros with unrelated rows (C60_other_entries_refuted) only part (1) holds. Sparse operators applied from the right must be materialised (C43).'),
 'C64': ('proved', 'sincos and log are arbitrary functions of which an accuracy (at most 2^-12) is assumed; functions of that accuracy are shown to exist. Random123 boxmuller, u01 and uneg11 are external code, modelled from their documented formulas. Blocks of odd length leave the last value uninitialised (C64_pairs_of_words); Random123 has no such generator.'),
 'C65': ('proved', 'The BLAS is an arbitrary function with the arguments of gemm; the promise is a hypothesis, kept by the textbook loops, the reference BLAS with and without fused multiply-add and a backward summation (C65_promise_kept). An infinite alpha with an empty inner dimension is left open by the floating-point promise. Strassen-like algorithms do not keep it.'),
 'C66': ('proved', 'The kernels are run on expressions whose possible values are described by [gives]; hypotheses as in C63. Reassociation (-ffast-math) is not covered here; for dense sketches see C65.'),
 'C67': ('proved', 'Major axis Short, real scalars, isometry_scale the exact number. The draws are all tapes of W-bit words, each equally likely; the sampler is the model of repeated_fisher_yates run on the tape. The mean of the Gram matrix alone is C24.'),
 'C68': ('proved', 'Uniform entries, major axis Long (Short: the scale is wrong, C57). The entries are the floating-point numbers the code stores (uneg11, the cast and the scaling by sqrt(3) are modelled bit by bit); the inner products are taken in real numbers.'),
 'C69': ('proved', 'Joins C63 (the computed entries) and C67 (the distribution). The Gram matrix of the computed numbers is taken in real numbers. Contraction to fused multiply-add is not included (C66). From the right the operator must have been filled: otherwise the call accumulates twice (C43).'),
 'C70': ('proved', 'Gaussian entries, major axis Long. Box-Muller is modelled bit by bit except sincos and log, of which only the accuracy is assumed; its two values are dependent and this is accounted for. Inner products are taken in real numbers. Odd block lengths are excluded (C64).'),
 'C71': ('proved', 'Joins C65 (the computed entries, any BLAS keeping the promise) with C68 and C70 (the distribution). The Gram matrix of the computed numbers is taken in real numbers. Words of 32 and 64 bits are treated separately.'),
 'C72': ('proved', 'Strengthens C68: same operator and hypotheses, exponential instead of Chebyshev bounds. The constants (6 in the exponent, the size of the net) are not optimal. The sketch is taken in real numbers of the stored entries.'),
 'C73': ('proved', 'Strengthens C70: exponential instead of Chebyshev bounds, for non-square operators (in a square one the two values of a Box-Muller pair land in different rows of the sketch; C70 covers it). The slack is a worst case over the largest radius. C73_gaussian_exact is the same in exact arithmetic for words of any length.'),
 'C74': ('proved', 'Joins C71 (rounding of every step) with C72 and C73 (exponential bounds). Libm accuracy, the BLAS promise and ideal words are hypotheses as there; square Gaussian operators are excluded as in C73.'),
 'C75': ('proved', 'Strengthens C67 for lengths, distances, subspaces and least squares (Chernoff instead of Chebyshev). Exact real scalars and ideal words as in C67. The number of nonzeros asked for grows like 1/e^2; the literature has 1/e with a harder argument.'),
 'C76': ('proved', 'Joins C63 (rounding in the sparse products) with C75. Ideal words as in C67; no contraction to fused multiply-add (C66); from the right the operator must have been filled (C43).'),
 'C77': ('proved', 'Joins C63 (rounding in the products with sparse data) with C68, C70, C72 and C73. Ideal blocks as in C71; no contraction to fused multiply-add (C66); kernels within bounds (sp_safe, tight) as in C63.'),
 'C78': ('proved', 'Joins C65 with C68, C70, C72 and C73 as C71 and C74 do. Ideal blocks as in C71. A square operator from the right in sketch_symmetric is not covered (the statistics of C68 to C73 are about S itself when it is square, not its transpose).'),
 'C79': ('partial', 'False of the code as stated, with witnesses: SparseDist(2^62, 2^62, 1) and SparseDist(2^32, 2^32, 2^32) have valid arguments and overflow in the member initialisers; invalid arguments such as INT64_MIN overflow before the checks; a 1 x 2^62 Short-axis DenseSkOp is built but its windows past column 2^61 overflow when positions are padded to whole blocks; a window reaching past 2^63 - 1 overflows in the range check. Proved: the constructor of SparseDist exactly (when it is undefined, and that it is otherwise the modelled one); its state formula; the dense functions whenever (dim_major + L) * dim_minor < 2^63 with L the block length, for every nonempty in-range window. Not covered: overflow in the SpMM kernels and in the sparse samplers.'),
 'C80': ('proved', 'The drivers reduce to the calls of C69 and C76. Short-axis operators only (C24 shows Long-axis ones are no isometries for 32-bit draws). From the right in sketch_symmetric the operator must be tall and filled: an unfilled one is applied twice (C43). sketch_vector needs no filled operator.'),
 'C81': ('partial', 'False of the code as stated: the position of the first sample of block i is computed as sint_t offset = i * vec_nnz, and later as j + offset in sint_t. With more than 2^31 samples in all and int indices the offset wraps and memory before the arrays is written (or the sum overflows), whatever the generator, the seed and the length of the arrays; a 40000 by 100000 operator with 30000 nonzeros per column is a witness. Proved: undefined behaviour for every such size; the documented result for every size up to 2^31 (2^63 - 1 with int64_t indices), so the condition is exact.'),
 'C82': ('partial', 'False of the code as stated: column (row) indices and running counts are cast to the index type of the result, and nothing checks that they fit. Proved: for every well-formed zero-based COO matrix with 2^(b-1) or more nonzeros, or with a stored minor index of at least 2^(b-1) and below 2^b, and a b-bit result type, both conversions return normally and the result is not a well-formed matrix; and, without these restrictions, both conversions always return normally, and return a well-formed matrix with the same entries if and only if the number of nonzeros and every stored minor index are below 2^(b-1).'),
})
