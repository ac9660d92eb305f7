# Writes /verif/properties.jsonl from the table below.
import json,sys
P=[]
def p(id,title,statement,quantifier,why,anchors):
    P.append(dict(id=id,title=title,statement=statement,quantifier=quantifier,why_tests_cant=why,anchors=anchors))
D="RandBLAS/dense_skops.hh"; S="RandBLAS/sparse_skops.hh"; U="RandBLAS/util.hh"; B="RandBLAS/base.hh"
SD="RandBLAS/sparse_data/"
p("C01","Dense submatrix sampling returns a window of the one full operator",
  "For a dense distribution D and a seed state, sampling the n_rows x n_cols window at offset (ro,co) into a buffer, in row-major or column-major order, puts at (i,j) exactly the value that sampling the whole operator puts at (ro+i,co+j).",
  "every shape of D, every major axis and entry family, every seed and counter value, every in-range nonempty window, both buffer layouts",
  "a test can compare a few windows; alignment of the window with RNG blocks, padding and layout give an unbounded family of cases",
  [D+": fill_dense_unpacked, fill_dense_submat_impl, fill_dense",B+": layout_to_strides",U+": omatcopy"])
p("C02","A dense entry depends only on seed, vector length and position",
  "The (i,j) entry of a dense operator is the (c mod L)-th output of the generator at counter seed.counter + r*ceil(dim_major/L) + c/L, where (r,c) is the position of the entry in major-axis order and L is the number of words per RNG block: it does not depend on the number of major-axis vectors, on the window requested, on the buffer layout, or on previous buffer contents.",
  "every distribution, seed, entry and generator","only finitely many entries can be compared",
  [D+": fill_dense_submat_impl, fill_dense_unpacked"])
p("C03","Long-axis dense operators concatenate through next_state",
  "If S1 (d1 x m) is drawn with seed r and S2 (d2 x m) with seed S1.next_state, both Long-major with d1+d2<m, then [S1;S2] equals the (d1+d2) x m operator drawn with seed r; the transposed statement holds for tall operators.",
  "all d1,d2,m, families, seeds","infinitely many sizes, alignment-dependent",
  [D+": compute_next_state, DenseSkOp","rtd/source/tutorial/sketch_updates.rst"])
p("C04","Short-axis dense operators extend by prefix",
  "With Axis::Short and d<m, the d x m operator drawn with seed r equals the first m columns of the d x (m+k) operator drawn with the same seed (and the tall counterpart by rows).",
  "all d,m,k, families, seeds","infinitely many sizes",
  [D+": fill_dense_unpacked","rtd/source/tutorial/sketch_updates.rst"])
p("C05","Dense sampling does not depend on thread count or schedule",
  "Filling a dense buffer gives the same memory for every number of threads, every assignment of rows to threads and every interleaving of the individual element writes of different threads.",
  "all interleavings of the row tasks, all sizes","a test sees a handful of schedules",
  [D+": fill_dense_submat_impl (omp parallel for)"])
p("C06","Dense sampling writes exactly its window",
  "Sampling an n_rows x n_cols window (n_rows,n_cols>=1) performs no access outside the first n_rows*n_cols elements of the buffer, overwrites every one of them, and leaves the rest untouched; with an explicit row stride lda only the first n_scols elements of each row are written.",
  "all windows, strides, and buffer lengths at least the documented minimum","an out-of-bounds write may go unnoticed",
  [D+": fill_dense_submat_impl, fill_dense_unpacked"])
p("C07","next_state of a dense operator equals the state returned by filling it and starts a fresh part of the stream",
  "For every DenseSkOp S, the state returned by fill_dense(S.dist,buff,S.seed_state) equals S.next_state; every RNG block read while sampling any window of S has counter offset in [0,next), so operators seeded by S.next_state read disjoint blocks as long as the counter does not wrap.",
  "all distributions, seeds, windows","requires knowing all counters used",
  [D+": compute_next_state, fill_dense_submat_impl, DenseSkOp"])
p("C08","Distinct entries of a dense operator use distinct random words",
  "Two different entries (i,j) != (i',j') of one dense operator are produced from different (counter, lane) pairs provided the operator uses at most 2^(counter width) counters.",
  "all pairs of entries of all operators","quadratically many pairs at unbounded sizes",
  [D+": fill_dense_submat_impl"])
p("C09","DenseDist fields are mutually consistent and as documented",
  "dim_major*dim_minor = n_rows*n_cols, dim_major is the leading dimension of the natural layout, nonpositive dimensions are rejected, and natural_layout agrees with the table in the documentation for every shape; isometry_scale^-2 is the number of rows/columns that makes scale*S an isometry in expectation.",
  "all shapes and axes","few shapes are tested; the square case and the Short axis are not",
  [D+": DenseDist, natural_layout",B+": SketchingDistribution"])
p("C10","Out-of-range windows are rejected before anything is written",
  "Requesting a window that does not lie inside the operator raises RandBLAS::Error and leaves the buffer unchanged; in-range windows never raise.",
  "all windows, including negative and empty ones","boundary combinations are unbounded",
  [D+": fill_dense_unpacked, submatrix_as_blackbox"])
p("C11","Uniform samples stay in the closed interval [-1,1]",
  "Every single-precision value produced from a 32-bit random word by the uniform transformation lies in [-1,1], is monotone in the signed word, and u=(x+1)/2 lies in [0,1].",
  "all 2^32 words","tests sample words at random and never see the extreme 64 words",
  ["RandBLAS/random_gen.hh: uneg11",U+": uneg11_to_u01"])
p("C12","Sampling without replacement gives distinct in-range indices",
  "repeated_fisher_yates(k,n,r,...) writes r blocks of k indices; each block consists of pairwise distinct integers in [0,n); k>n is rejected.",
  "all k<=n, r, seeds and generators","random tests can miss rare collisions",
  [S+": sparse::repeated_fisher_yates, repeated_fisher_yates"])
p("C13","Sampling without replacement: block i depends only on the seed and i",
  "Block i of repeated_fisher_yates equals the single block obtained from the state whose counter is advanced by i*k; hence sampling r blocks is a prefix of sampling r'>r blocks and two consecutive calls equal one larger call.",
  "all k,n,r, seeds","depends on scratch state left by all previous blocks",
  [S+": sparse::repeated_fisher_yates"])
p("C14","Sampling without replacement is exactly uniform given uniform pivots",
  "For fixed k<=n the map from pivot choices (p_0..p_{k-1}), p_j in [0,n-j), to the ordered sample is a bijection onto the ordered k-samples without replacement from [0,n).",
  "all k<=n and all pivot sequences","statistical tests only give evidence",
  [S+": sparse::repeated_fisher_yates"])
p("C15","Pivot bias is at most one part in floor(2^W/m)",
  "Reducing a W-bit word modulo m hits every residue either floor(2^W/m) or ceil(2^W/m) times.",
  "all m in [1,2^W]","cannot enumerate words for all m",
  [S+": sparse::repeated_fisher_yates"])
p("C16","Short-axis sparse operators have exactly vec_nnz +-1 entries per short-axis vector",
  "After fill_sparse of a Short-major SparseSkOp, nnz=vec_nnz*dim_minor; all (row,col) are in range and pairwise distinct; every value is +1 or -1; each short-axis vector has exactly vec_nnz nonzeros; no array access is out of bounds.",
  "all SparseDist(Short), seeds","structure is only spot-checked",
  [S+": fill_sparse_unpacked_nosub, fill_sparse, SparseDist"])
p("C17","Long-axis sparse operators: multiplicity-weighted signed entries",
  "After fill_sparse of a Long-major SparseSkOp, each long-axis vector has distinct indices, the entry at index j has absolute value sqrt(multiplicity of j in the drawn sample) and the sign drawn with its first occurrence, multiplicities sum to vec_nnz, and dim_minor <= nnz <= vec_nnz*dim_minor, for every iteration order of the hash map used to merge duplicates.",
  "all SparseDist(Long), seeds, hash iteration orders","tests for vec_nnz>1 are commented out in the repository",
  [S+": laso_merge_long_axis_vector_coo_data, fill_sparse_unpacked_nosub"])
p("C18","next_state of a sparse operator equals the state returned by filling it",
  "For every SparseSkOp the next_state computed at construction equals the state returned by sampling, and all RNG blocks read have counter offsets below it.",
  "all SparseDist, both axes, every RNG block size (even)","alignment dependent",
  [S+": compute_next_state, fill_sparse_unpacked_nosub",U+": sample_indices_iid_uniform"])
p("C19","Sparse operators concatenate (Long) and extend by prefix (Short)",
  "The identities of C03 and C04 hold for sparse operators as matrices: [S1;S2]=S when S2 is seeded by S1.next_state (Long, d1+d2<m); S1 is the first m columns of S (Short, d<m).",
  "all sizes, seeds, hash orders","infinitely many sizes",
  [S+": fill_sparse_unpacked_nosub","rtd/source/tutorial/sketch_updates.rst"])
p("C20","Uniform index samples are in range",
  "Every index written by sample_indices_iid_uniform(n,k,...) lies in [0,n); every Rademacher sign written beside it is +1 or -1, and is +1 for exactly half of all generator words (those with the top bit clear).",
  "all n>=1, k, seeds and generator outputs","the failing words have probability 2^-25 per draw",
  [U+": sample_indices_iid_uniform",
   "RandBLAS/random_gen.hh: uneg11"])
p("C21","Index samples invert the CDF and are in range",
  "Every index s written by sample_indices_iid(n,cdf,...) satisfies cdf[s-1] < u <= cdf[s] for the drawn u, hence never an index with zero probability mass, and s lies in [0,n) whenever cdf came from weights_to_cdf.",
  "all n, nondecreasing cdf, draws","rare draws; rounding of the normalisation",
  [U+": sample_indices_iid, weights_to_cdf"])
p("C22","weights_to_cdf normalises, clips and rejects as documented",
  "weights_to_cdf raises iff some weight is below the tolerance or the clipped weights do not have a positive sum; otherwise the output is nondecreasing, in exact arithmetic equal to prefix sums of the clipped weights divided by the total, and ends at 1.",
  "all weight vectors and lengths","unbounded inputs",
  [U+": weights_to_cdf"])
p("C23","Index sampling advances the state by the number of blocks it reads",
  "sample_indices_iid and sample_indices_iid_uniform return the input state with the counter advanced by ceil(k/L) (L usable draws per RNG block), key unchanged; draw number t uses lane t mod L of block t/L; k=0 returns the input state.",
  "all k, both variants, all RNG block sizes","off-by-one at block boundaries for unbounded k",
  [U+": sample_indices_iid, sample_indices_iid_uniform"])
p("C24","Sparse operators are isometries in expectation at their isometry_scale",
  "Averaging over all equally likely draws, isometry_scale^2 * E[S^T S] (for wide S) is the identity, for Short and Long major axes.",
  "all shapes and vec_nnz","needs an exact expectation over all draws",
  [S+": isometry_scale, SparseDist",B+": SketchingDistribution"])
p("C25","Dense -> sparse -> dense round trip",
  "Converting a dense matrix to COO, CSR or CSC with tolerance tol and back yields the matrix with entries of magnitude <= tol replaced by zero; tol=0 is the identity; index arrays are in range, without duplicates, and sorted as the format requires.",
  "all matrices, both layouts, all strides with distinct addresses","unbounded shapes and sparsity patterns",
  [SD+"coo_matrix.hh: dense_to_coo, coo_to_dense",SD+"csr_matrix.hh: dense_to_csr, csr_to_dense",SD+"csc_matrix.hh: dense_to_csc, csc_to_dense"])
p("C26","COO -> CSR and COO -> CSC represent the same matrix",
  "coo_to_csr and coo_to_csc produce a structure representing the same matrix as the input, for any entry order.",
  "all zero-based COO matrices whose number of nonzeros and dimensions fit in the index type of the result (C82 is about the others)","unbounded patterns",
  [SD+"conversions.hh: coo_to_csr, coo_to_csc"])
p("C27","CSR -> COO and CSC -> COO represent the same matrix",
  "csr_to_coo and csc_to_coo produce a COO matrix representing the same matrix as the input.",
  "all CSR/CSC matrices","no test covers it; any single case shows the defect",
  [SD+"conversions.hh: csr_to_coo, csc_to_coo"])
p("C28","Transposes represent the transpose",
  "transpose_as_csr, transpose_as_csc (sharing or copying) and the COO transpose represent the transposed matrix; transposing twice gives the original representation; a copy is independent of the original's memory.",
  "all matrices","unbounded patterns",
  [SD+"conversions.hh: transpose_as_csr, transpose_as_csc",SD+"coo_matrix.hh: transpose"])
p("C29","Changing the index base twice is the identity",
  "reindex_inplace to base b shifts index arrays by the base difference, is idempotent, and going to the other base and back restores the object.",
  "all matrices","unbounded",
  [SD+"conversions.hh: reindex_inplace"])
p("C30","Sorting COO data permutes entries into the requested order",
  "sort_coo_data permutes the (row,col,val) triples, leaves them sorted in the requested order, and coo_sort_type reports an order the data is really in (CSC if in CSC order, else CSR if in CSR order, else None).",
  "all triple lists","unbounded",
  [SD+"coo_matrix.hh: coo_sort_type, sort_coo_data, increasing_by_csr, increasing_by_csc"])
p("C31","Compressed pointer arrays count predecessors",
  "Given sorted locations in [0,n), the in-place conversion yields ptr[i] = number of locations < i for 0<=i<=n, and rejects unsorted input.",
  "all sorted location lists","unbounded",
  [SD+"base.hh: sorted_nonzero_locations_to_pointer_array"])
p("C32","Conversions reject mismatched dimensions",
  "Converting between formats raises when source and destination dimensions differ and never writes out of bounds.",
  "all pairs of shapes","mismatch tests are absent",
  [SD+"conversions.hh: coo_to_csc, coo_to_csr, csc_to_coo, csr_to_coo"])
p("C33","Left sparse-times-dense with CSR",
  "left_spmm with a CSR matrix sets mat(C) = alpha*op(A)*op(mat(B)) + beta*mat(C) for all layouts and op flags, changes no other element of the buffer holding C, and makes no out-of-bounds access.",
  "all shapes, values in any commutative semiring, layouts, op flags, leading dimensions, thread counts",
  "unbounded shapes; few combinations tested",
  [SD+"spmm_dispatch.hh: left_spmm",SD+"csr_spmm_impl.hh"])
p("C34","Left sparse-times-dense with CSC",
  "Same statement as C33 for CSC matrices.",
  "as C33","a defect is triggered only by matrices whose nonzeros all lie in the first column",
  [SD+"spmm_dispatch.hh: left_spmm",SD+"csc_spmm_impl.hh"])
p("C35","Left sparse-times-dense with COO and submatrix offsets",
  "Same statement as C33 for COO matrices with a d x m window at (ro,co), for any order of the stored entries; the stored entries may be permuted but represent the same matrix afterwards.",
  "as C33 plus all windows and entry orders","as C34",
  [SD+"spmm_dispatch.hh: left_spmm",SD+"coo_spmm_impl.hh"])
p("C36","Right sparse-times-dense equals the transposed left product",
  "right_spmm sets mat(C) = alpha*op(mat(A))*op(B) + beta*mat(C) for sparse B in every format for which the transposed left product is defined.",
  "as C33","flag combinations times unbounded shapes",
  [SD+"spmm_dispatch.hh: right_spmm"])
p("C37","beta=0 ignores old output, alpha=0 ignores inputs",
  "With beta=0 the result of spmm does not depend on previous contents of C (even NaN or uninitialised); with alpha=0 the result is beta*C and neither A's values nor B are read.",
  "all inputs, for scalars without any algebraic law (so NaN included)","absence of a dependence cannot be tested",
  [SD+"spmm_dispatch.hh: left_spmm",U+": safe_scal"])
p("C38","SpMM does not depend on thread count or schedule",
  "Each kernel gives the same result for every thread count and every interleaving of element updates of different threads: no cell of C is updated by two threads.",
  "all thread counts, interleavings, shapes","finitely many schedules can be run",
  [SD+"csc_spmm_impl.hh: apply_csc_left_kib_rowmajor_1p1, apply_csc_left_jki_p11",SD+"csr_spmm_impl.hh",SD+"coo_spmm_impl.hh"])
p("C39","Rejected products leave the output untouched",
  "If spmm or sketching raises because of inconsistent dimensions, leading dimensions or index base, the output buffer is unchanged.",
  "all argument combinations","combinatorially many invalid argument sets",
  [SD+"spmm_dispatch.hh","RandBLAS/skge.hh"])
p("C40","Sketching with a dense operator from the left",
  "lskge3 sets mat(B) = alpha*op(submat(S))*op(mat(A)) + beta*mat(B) for each layout and op flags and each nonempty window, whether or not S has been materialised, assuming only the BLAS gemm contract.",
  "all shapes, windows, layouts, flags, scalars","flag/layout/window combinations are unbounded",
  ["RandBLAS/skge.hh: lskge3",D+": submatrix_as_blackbox"])
p("C41","Sketching with a dense operator from the right",
  "rskge3 sets mat(B) = alpha*op(mat(A))*op(submat(S)) + beta*mat(B) for each nonempty window, materialised or not.",
  "as C40","as C40",["RandBLAS/skge.hh: rskge3"])
p("C42","Sketching with a sparse operator from the left",
  "lskges sets mat(B) = alpha*op(submat(S))*op(mat(A)) + beta*mat(B), materialised or not; an unmaterialised S stays unmaterialised.",
  "as C40","as C40",["RandBLAS/skge.hh: lskges"])
p("C43","Sketching with a sparse operator from the right",
  "rskges sets mat(B) = alpha*op(mat(A))*op(submat(S)) + beta*mat(B), materialised or not; an unmaterialised S stays unmaterialised.",
  "as C40","tests use beta=0 or materialised operators",["RandBLAS/skge.hh: rskges"])
p("C44","sketch_vector is a matrix-vector product",
  "sketch_vector sets y = alpha*op(submat(S))*x + beta*y on the strided elements and leaves the elements between strides untouched.",
  "all strides >=1, windows, flags","unbounded",["RandBLAS/skve.hh: sketch_vector"])
p("C45","sketch_symmetric accepts exactly matrices symmetric to tolerance",
  "sketch_symmetric raises iff some pair of entries of A violates the relative tolerance, before writing B; otherwise B = alpha*submat(S)*A + beta*B (or the right-hand version).",
  "all matrices and tolerances","violations can hide in any entry",
  ["RandBLAS/sksy.hh",U+": require_symmetric"])
p("C46","sketch_sparse multiplies by the dense operator",
  "lsksp3/rsksp3 compute alpha*op(submat(S))*op(submat(A)) + beta*B and the right-hand version, for sparse A and dense S, materialised or not.",
  "as C40","as C40",[SD+"sksp.hh"])
p("C47","Sketching is additive over blocks of the operator",
  "Sketching block by block with submatrices of one operator and beta=1 accumulates to the sketch with the whole operator: rank-k updates of a sketch never need old data.",
  "all split points","unbounded",["rtd/source/tutorial/sketch_updates.rst","RandBLAS/skge.hh"])
p("C48","Out-of-range windows of sparse operators are rejected",
  "Sketching with a window of a sparse operator that does not lie inside the operator raises, as it does for dense operators.",
  "all windows","boundary combinations",
  ["RandBLAS/skge.hh: lskges, rskges",SD+"spmm_dispatch.hh"])
p("C49","flip_layout preserves the represented matrix",
  "util::flip_layout(layout_in,m,n,A,lda_in,lda_out) leaves mat(A) read in the other layout with lda_out equal to mat(A) read in layout_in with lda_in.",
  "all shapes and leading dimensions","unbounded",[U+": flip_layout, omatcopy"])
p("C50","Triangle and transpose utilities",
  "symmetrize reflects the named triangle and keeps it; overwrite_triangle changes exactly the named strict/offset triangle and rejects negative offsets; transpose_square transposes in place and is an involution; none touches memory outside the n x n window.",
  "all n, lda, triangles, offsets","unbounded",[U+": symmetrize, overwrite_triangle, transpose_square"])
p("C51","safe_int_product detects overflow",
  "safe_int_product(a,b) returns a*b when it fits in 64 bits and raises overflow_error otherwise, without undefined behaviour.",
  "all pairs of 64-bit integers","2^128 pairs",[B+": safe_int_product"])
p("C52","No leak, double free or use of freed memory by library objects",
  "For every sequence of constructions, fills, reserves, moves and destructions of library objects that own memory, each allocation is freed exactly once, by a destructor, and user-supplied arrays are never freed.",
  "all operation histories","histories are unbounded",
  [D+": DenseSkOp, BLASFriendlyOperator, submatrix_as_blackbox",S+": SparseSkOp",SD+"coo_matrix.hh",SD+"csr_matrix.hh",SD+"csc_matrix.hh","rtd/source/tutorial/memory.rst"])
p("C53","Different keys give different states; states are values",
  "RNGState(k) has counter 0 and key k (as an extended integer); k != k' gives unequal states for keys of at least 64 bits; advancing by a then b equals advancing by a+b; no sampling function changes its input state; equality is exactly equality of all words.",
  "all keys, increments","2^64 keys",[B+": RNGState"])
p("C54","Symmetric-matrix check is exact",
  "require_symmetric with tolerance tol raises iff tol>=0 and some i<j has |A_ij-A_ji| > tol*(|A_ij|+|A_ji|+1), visiting every pair in either layout and stride.",
  "all matrices","a skipped pair is invisible to most tests",[U+": require_symmetric"])
p("C55","Repeated use of an operator gives identical results",
  "An operator denotes one fixed matrix: sketching before filling, after filling, or after filling twice gives identical output and does not change what the operator denotes.",
  "all histories of fills and sketches","histories unbounded",[D+": fill_dense",S+": fill_sparse","RandBLAS/skge.hh"])
p("C56","Sampling without replacement is nearly uniform",
  "When the random words are uniform and independent, the samples without replacement written by repeated_fisher_yates are jointly distributed like independent uniform ordered samples, up to a factor (1 +- n/2^W) per drawn index, where n is the population size and W the word size.",
  "all population sizes, sample sizes, numbers of samples, all word sizes, all target samples","the probability space has 2^(W r k) elements; statistical tests see a vanishing part of it and detect only gross bias",[S+": repeated_fisher_yates"])
p("C57","Dense operators are isometries in expectation",
  "A dense operator with the Long major axis, multiplied by isometry_scale, satisfies E[S^T S] = I (wide) or E[S S^T] = I (tall) when entries are standardised; with the uniform entries that the floating-point code really produces the identity holds up to rounding (2^-18 in float).",
  "all dimensions, all layouts, all thread counts, all outputs of a generator of the stated moments; exactly the 2^32 (2^64) words for uniform entries","an expectation over all streams cannot be computed by running the code; sampling error hides errors of the scale of rounding",[D+": DenseDist::isometry_scale",D+": fill_dense","RandBLAS/random_gen.hh: uneg11"])
p("C58","Sampling with replacement: independence and distribution",
  "When the random words are uniform and independent, the k indices written by sample_indices_iid_uniform (sample_indices_iid) are independent and follow one distribution whose distribution function differs from the uniform one on {0,...,n-1} (from the given CDF) only by rounding; the optional signs are independent fair coins, independent of the indices; and every index in {0,...,n-1} can be drawn.",
  "all n, all sorted CDFs, all sample counts, all generators and states, all word sequences","the joint distribution lives on 2^(32 k) word sequences; a bias of 2^-26, or an index that is never drawn, is invisible to sampling tests",[U+": sample_indices_iid_uniform, sample_indices_iid, uneg11_to_u01"])
p("C59","Sparse products agree with products of the dense expansion",
  "Multiplying with a sparse matrix (COO, CSR, CSC) gives the same output as expanding it with coo_to_dense / csr_to_dense / csc_to_dense and calling GEMM; and compressing a dense matrix without loss and multiplying gives the dense product.",
  "all sparse matrices, formats, layouts, op flags, scalars, sizes, leading dimensions, thread counts and schedules","patterns, sizes and schedules are unbounded; tests use generators that never store a position twice",["RandBLAS/sparse_data/coo_matrix.hh: coo_to_dense","RandBLAS/sparse_data/csr_matrix.hh: csr_to_dense, dense_to_csr","RandBLAS/sparse_data/csc_matrix.hh: csc_to_dense, dense_to_csc","RandBLAS/sparse_data/spmm_dispatch.hh: left_spmm"])
p("C60","Sparse products are accurate in floating-point arithmetic",
  "With float or double scalars, every cell of the output of a product with a sparse matrix is finite and differs from the exact alpha*sum_k A_ik*B_kj + beta*C_ij by at most ((1+u)^(s+2) - 1)*(|alpha|*sum_k |A_ik|*|B_kj| + |beta|*|C_ij|), where u is half the machine epsilon and s the number of stored values in row i of op(A), as long as the values that enter the cell are of moderate size; values that do not enter the cell (entries of B that meet no stored value, the old C when beta = 0), even NaN and infinity, have no influence.",
  "all sparse matrices in the three formats, layouts, op flags, sizes, windows, scalars, thread counts and schedules; all IEEE values in the stated range","rounding depends on every bit of every input and on the order of accumulation",
  ["RandBLAS/sparse_data/csr_spmm_impl.hh","RandBLAS/sparse_data/csc_spmm_impl.hh","RandBLAS/sparse_data/coo_spmm_impl.hh","RandBLAS/sparse_data/spmm_dispatch.hh: left_spmm, right_spmm",U+": safe_scal"])
p("C61","Sketching with sparse operators is accurate in floating-point arithmetic",
  "With float or double scalars, sketching dense data with a SparseSkOp (sketch_general) gives in every cell a finite value that differs from the exact alpha*op(submat(S))*op(A) + beta*B by at most ((1+u)^(s+2) - 1)*(|alpha|*sum_k |S_ik|*|A_kj| + |beta|*|B_ij|), s being the number of stored values in row i of op(submat(S)), provided alpha, beta and the data values that meet a stored value are of moderate size; data that meets no stored value has no influence, memory outside B is kept, and the operator still denotes the same matrix. For a wide operator with short-axis vectors this holds for every seed and generator.",
  "all distributions, seeds, generators, windows, layouts, op flags, sizes, strides, scalars, thread counts and schedules; all IEEE values in the stated range","rounding depends on every bit of the data, the sampled positions, and the order of accumulation",
  ["RandBLAS/skge.hh: lskges, rskges, sketch_general",S+": fill_sparse, coo_view_of_skop","RandBLAS/sparse_data/spmm_dispatch.hh: left_spmm, right_spmm"])
p("C62","Sketching sparse data with dense operators is accurate in floating-point arithmetic",
  "With float or double scalars, sketching a sparse matrix with a DenseSkOp (sketch_sparse) gives in every cell a finite value that differs from the exact alpha*op(submat(S))*op(A) + beta*B (in the mirrored form from the right) by at most ((1+u)^(s+2) - 1)*(|alpha|*sum |S|*|A| + |beta|*|B_ij|), s being the number of stored values of A that contribute to the cell, provided alpha, beta and the contributing values are of moderate size. For a uniform operator in double precision the operator's entries are always of moderate size, so the bound holds for every seed and generator. The stored data of A and memory outside B are kept.",
  "all generators, seeds, distributions, windows, layouts, op flags, sizes, strides, scalars, sparse formats, thread counts and schedules; all IEEE values in the stated range","rounding depends on every bit of the data, the drawn entries, and the order of accumulation",
  ["RandBLAS/sparse_data/sksp.hh: lsksp3, rsksp3, sketch_sparse","RandBLAS/dense_skops.hh: submatrix_as_blackbox","RandBLAS/sparse_data/spmm_dispatch.hh: left_spmm, right_spmm"])
p("C63","Finite results are accurate, whatever the size of the values",
  "With float or double scalars and values of any size, every entry y computed by a product with a sparse matrix, by sketch_general with a SparseSkOp, or by sketch_sparse with a DenseSkOp satisfies: (1) if y is finite, then alpha, beta and all contributing values are finite, and y differs from the exact entry by at most ((1+u)^(s+2) - 1)*(|alpha|*sum |a|*|b| + |beta|*|c|) plus the underflow term (1+u)^(s+2)*t*(1 + sum (1+|alpha|+|a|+|b|)), t being half the smallest positive number and s the number of contributing stored values; (2) if all contributing values are finite and (1+u)^(s+2)*((1+|alpha|)*sum (1+|a|)*(1+|b|) + (1+|beta|)*(1+|c|)) is at most half the largest power-of-two bound, then y is finite. A zero alpha or beta hides the values it multiplies, even NaN. Sizes and values are otherwise unrestricted, wherever the kernels stay inside their arrays (C33 to C37, C42 to C46).",
  "all IEEE values, including subnormal, huge, infinite and NaN; all sparse formats, layouts, op flags, sizes, windows, thread counts and schedules","rounding, underflow and overflow depend on every bit of every input and on the order of accumulation",
  ["RandBLAS/sparse_data/csr_spmm_impl.hh","RandBLAS/sparse_data/csc_spmm_impl.hh","RandBLAS/sparse_data/coo_spmm_impl.hh","RandBLAS/sparse_data/spmm_dispatch.hh: left_spmm, right_spmm","RandBLAS/skge.hh: lskges, rskges, sketch_general","RandBLAS/sparse_data/sksp.hh: lsksp3, rsksp3, sketch_sparse"])
p("C64","Gaussian operators: Box-Muller values have the right moments and are finite",
  "When the generator's words are uniform and independent, the entries of a Gaussian DenseSkOp have mean 0, are uncorrelated (also the two values made of one pair of words) and have variance 1 up to a relative deficit below 2^-W for W-bit words, so that the scaled operator (major axis Long) is an isometry in expectation; with the float and double arithmetic of the code the mean of the Gram matrix differs from the identity by at most 2^-16 (2^-45 for 64-bit words) plus 15 times the accuracy of the C library's sincos and log. For every seed and every generator with blocks of even length every entry of every window is a finite number of magnitude at most 7 (at most 10 for 64-bit words).",
  "all shapes, windows, seeds, generators, word sequences, layouts, thread counts and schedules; all library functions of the stated accuracy","the moments are averages over 2^64 (2^128) pairs of words; NaN for one word (log of zero) or a correlation within pairs is invisible to sampling tests",
  ["RandBLAS/random_gen.hh: boxmulall, boxmul::generate, sincospi, sincospif",D+": fill_dense, DenseDist"])
p("C65","Dense sketches are right with any BLAS",
  "sketch_general, sketch_vector and sketch_symmetric with a DenseSkOp (materialised or not, any window, any combination of layouts) hand the BLAS exactly one product of the right matrices: whatever relation the BLAS's gemm guarantees between an entry of C afterwards and alpha, row i of op(A), column j of op(B), beta and the entry before, the sketch guarantees between an entry of B afterwards and alpha, row i and column j of op(submat(S)) and op(A), beta and the entry before; nothing else in B changes. In particular with float or double and a BLAS that computes each entry by rounded additions, multiplications and fused multiply-adds in any order (alpha and beta applied anywhere), every finite entry is within ((1+u)^(m+2) - 1)*(|alpha|*sum |a|*|b| + |beta|*|c|) plus the underflow term of C63 of the exact one, and every entry is finite if nothing can overflow.",
  "all BLAS implementations that keep their promise; all IEEE values; all layouts, op flags, sizes, windows, operators, thread counts and schedules","tests run with one BLAS on one machine; the result bits differ between libraries, summation orders and FMA hardware",
  ["RandBLAS/skge.hh: lskge3, rskge3, sketch_general","RandBLAS/skve.hh: sketch_vector","RandBLAS/sksy.hh: sketch_symmetric",D+": submatrix_as_blackbox"])
p("C66","Sparse products stay accurate when the compiler fuses multiply-adds",
  "The error and overflow statements of C63 for products with a sparse matrix, sketch_general with a SparseSkOp and sketch_sparse with a DenseSkOp hold for every value an entry can take when each x*y + z in the kernels is rounded either twice or once (fused multiply-add), chosen independently at every place and in every iteration; which entries are written, the operands afterwards and the number of contributing values do not depend on the choice. Choosing two roundings everywhere gives the entries C60 to C63 are about.",
  "all ways of contracting; all IEEE values; all sparse formats, layouts, op flags, sizes, windows, thread counts and schedules","a test sees the code generated by one compiler with one set of flags",
  ["RandBLAS/sparse_data/csr_spmm_impl.hh","RandBLAS/sparse_data/csc_spmm_impl.hh","RandBLAS/sparse_data/coo_spmm_impl.hh","RandBLAS/sparse_data/spmm_dispatch.hh: left_spmm, right_spmm","RandBLAS/skge.hh: lskges, rskges","RandBLAS/sparse_data/sksp.hh: sketch_sparse"])
p("C67","Sparse sketches preserve lengths, inner products, subspaces and least-squares problems",
  "Let S be a SparseSkOp with major axis Short (k nonzeros per column of a wide operator, per row of a tall one) of smaller dimension d, scaled by its isometry_scale, sampled from uniform independent W-bit words. For all vectors x, y the mean square error of <Sx,Sy> is at most v*|x|^2*|y|^2, where v = (2/d)*(1 + d/2^W)^k (the second factor accounts for the bias of word mod n, and is at most 1 + 2kd/2^W). Hence | |Sx|^2 - |x|^2 | > eps*|x|^2 with probability at most v/eps^2; with probability at least 1 - q^2*v/eps^2 the sketch keeps the squared lengths of all vectors of a given q-dimensional subspace within a factor 1 +- eps; and with the same probability every minimiser of a sketched least-squares problem whose data lie in the subspace has squared residual at most (1+eps)/(1-eps) times the smallest.",
  "all shapes, k, seeds, generators, word sizes, vectors, subspaces, least-squares problems, eps","the statements are probabilities over all sequences of words (2^(W*k*m*L) of them) for every vector of a continuum; sampling tests of a few vectors cannot bound them",
  [S+": SparseDist, isometry_scale, repeated_fisher_yates, fill_sparse"])
p("C68","Uniform dense sketches preserve lengths, inner products, subspaces and least-squares problems",
  "Let S be a DenseSkOp with Uniform entries and major axis Long of smaller dimension d and larger dimension m, scaled by its isometry_scale, filled from uniform independent words, and eps = 2^-20 (32-bit words, float or double entries) or 2^-49 (64-bit words). For all vectors x, y of m elements the mean square error of <Sx,Sy> is at most v*|x|^2*|y|^2 with v = ((1+7 eps)*sqrt(2/d) + 4 eps + 3 eps*sqrt(m/d) + eps^2*m)^2, about 2/d. Hence | |Sx|^2 - |x|^2 | > e*|x|^2 with probability at most v/e^2; with probability at least 1 - q^2*v/e^2 the sketch keeps the squared lengths of all vectors of a given q-dimensional subspace within a factor 1 +- e; and with the same probability every minimiser of a sketched least-squares problem whose data lie in the subspace has squared residual at most (1+e)/(1-e) times the smallest.",
  "all shapes, seeds, generators, thread counts and schedules, vectors, subspaces, least-squares problems, e","the statements are probabilities over all sequences of words for every vector of a continuum; a bias of 2^-20 in the entries or a reused word is invisible to sampling tests",
  [D+": DenseDist, fill_dense, fill_dense_unpacked","RandBLAS/random_gen.hh: uneg11::generate"])
p("C69","The numbers a sketch with a sparse operator computes have the Gram matrix of the data",
  "Let S be a SparseSkOp with major axis Short of smaller dimension d and larger dimension m, sampled from uniform independent words, applied from the left (filled before or by the call) to A of m by n, or, once filled, from the right to A of n by m. Let A consist of finite numbers (m <= 2^26-2 for double, 2^12-2 for float; squared Frobenius norm |A|^2 between 2^-1700 and 2^1900 for double, 2^-80 and 2^200 for float), alpha the isometry scale up to eight rounding errors and beta = 0. Then sketch_general returns for every draw, all numbers of the result Y are finite, and for every e > 0 the Frobenius norm of Y^T*Y - A^T*A (from the right: Y*Y^T - A*A^T) exceeds (e + 2*(m+12)^2*u)*|A|^2 with probability at most v/e^2, where u is the unit roundoff and v = 2/d up to the bias of the sampler. With n = 1 this bounds the change of the length of a vector.",
  "all shapes, layouts, leading dimensions, op(A), data, seeds, generators, sort functions, thread counts and schedules, e","joins rounding errors, underflow and overflow of the product with a probability over all sequences of words; a test sees one draw at a time and no bound on failure",
  ["RandBLAS/sparse_skops.hh: SparseDist, fill_sparse","RandBLAS/skge.hh: sketch_general, lskges, rskges","RandBLAS/sparse_data/spmm_dispatch.hh: left_spmm, right_spmm"])
p("C70","Gaussian dense sketches preserve lengths, inner products, subspaces and least-squares problems",
  "Let S be a DenseSkOp with Gaussian entries and major axis Long of smaller dimension d and larger dimension m, scaled by its isometry_scale, filled from uniform independent words in blocks of an even number of words. Let c = 79*2^-24 + 5 eps (32-bit words, float or double entries) or 79*2^-53 + 5 eps (64-bit words), where the sine, cosine and logarithm of the C library are accurate to eps <= 2^-12. For all vectors x, y of m elements the mean square error of <Sx,Sy> is at most v*|x|^2*|y|^2 with v = ((1+7c)*sqrt(2/d) + 200c + 7c*sqrt(m/d) + 10c^2*m)^2, about 2/d. Hence | |Sx|^2 - |x|^2 | > e*|x|^2 with probability at most v/e^2; with probability at least 1 - q^2*v/e^2 the sketch keeps the squared lengths of all vectors of a given q-dimensional subspace within a factor 1 +- e; and with the same probability every minimiser of a sketched least-squares problem whose data lie in the subspace has squared residual at most (1+e)/(1-e) times the smallest. In exact arithmetic with W-bit words c = (W+3)^2/2^(W+1) suffices.",
  "all shapes, seeds, generators, thread counts and schedules, library functions of the given accuracy, vectors, subspaces, least-squares problems, e","the two values of a Box-Muller pair share a radius and are not independent for finitely many words; whether that, or a biased tail, spoils the embedding is a statement about fourth moments over 2^64 pairs of words",
  [D+": DenseDist, fill_dense, fill_dense_unpacked","RandBLAS/random_gen.hh: boxmul::generate, boxmulall"])

p("C71","The numbers computed with dense operators keep lengths and Gram matrices, whatever BLAS is used",
  "Let S be a DenseSkOp with uniform or Gaussian entries and major axis Long, of smaller dimension d and larger dimension m, drawn from uniform independent words; it may have been filled before the call or not. sketch_general, from the left (B = alpha*op(S)*op(A)) or from the right (B = alpha*op(A)*op(S)), with the short dimension of S as the sketch dimension, alpha within eight rounding errors of the isometry scale and beta = 0, on finite data with n columns (left) or rows (right) and squared Frobenius norm F within 2^-80..2^200 (float, m <= 2^12-2) or 2^-1700..2^1900 (double, m <= 2^26-2), writes only finite numbers, touches nothing outside B, and for every e > 0 the Gram matrix of the computed numbers differs from the Gram matrix of the data by more than (e + 2w(m+12)^2*u)*F in the Frobenius norm with probability at most v/e^2; u is the unit roundoff; w = 4 and v as in C68 for uniform entries; w = 49 (100 for 64-bit words) and v as in C70 for Gaussian entries. This holds for every gemm that computes each entry in some order of additions with each multiply-add fused or not.",
  "all shapes, seeds, generators, data, leading dimensions, layouts, transposition flags, thread counts and schedules, BLAS implementations of the given kind, library functions of the given accuracy, e","the rounding of the random entries and of the BLAS enter the computed result together with the randomness; tests see a few draws with one BLAS, and the event is rare",
  ["RandBLAS/skge.hh: sketch_general, lskge3, rskge3",D+": DenseDist, DenseSkOp, fill_dense, fill_dense_unpacked, submatrix_as_blackbox","RandBLAS/random_gen.hh: boxmul::generate, uneg11::generate"])
p("C72","Uniform dense sketches keep distances, subspaces and least-squares problems except with exponentially small probability",
  "Let S be a DenseSkOp with Uniform entries and major axis Long of smaller dimension d and larger dimension m, scaled by its isometry_scale, filled from uniform independent words; eps = 2^-20 (32-bit words, float or double entries) or 2^-49 (64-bit words), slack = 3*eps*sqrt(m) + 2*eps^2*m, and 0 < e <= 1/2. For every vector x, | |Sx|^2 - |x|^2 | > (e + slack)*|x|^2 with probability at most 2*exp(-d*e^2/6). For N points (Johnson-Lindenstrauss) all squared distances are kept within a factor 1 +- (e + slack) except with probability at most N*(N-1)*exp(-d*e^2/6). For a subspace of dimension q the squared lengths of all its vectors are kept within 1 +- 2*(e + slack), and every minimiser of a sketched least-squares problem with data in the subspace has squared residual at most (1 + 2(e+slack))/(1 - 2(e+slack)) times the smallest, except with probability at most 2*(8*ceil(sqrt(q)) + 1)^q*exp(-d*e^2/6).",
  "all shapes, seeds, generators, thread counts and schedules, vectors, point sets, subspaces, least-squares problems, e","failure probabilities like 10^-10 over all sequences of words cannot be observed by sampling; the constants depend on all moments of the stored entries",
  [D+": DenseDist, fill_dense, fill_dense_unpacked","RandBLAS/random_gen.hh: uneg11::generate"])

p("C73","Gaussian dense sketches keep distances, subspaces and least-squares problems except with exponentially small probability",
  "Let S be a non-square DenseSkOp with Gaussian entries and major axis Long of smaller dimension d and larger dimension m, scaled by its isometry_scale, filled from uniform independent words by a generator of even block length. Let eps bound the errors of the platform's sincos and log (relative to 1 for sine and cosine, relative for the logarithm), c = 79/2^24 + 5*eps (32-bit words, float or double entries) or 79/2^53 + 5*eps (64-bit words), slack = 6*c + 3*w*c*sqrt(m) + w^2*c^2*m with w = 48 or 92, and 0 < e <= 1/2. For every vector x, | |Sx|^2 - |x|^2 | > (e + slack)*|x|^2 with probability at most 2*exp(-d*e^2/6). For N points all squared distances are kept within a factor 1 +- (e + slack) except with probability at most N*(N-1)*exp(-d*e^2/6). For a subspace of dimension q the squared lengths of all its vectors are kept within 1 +- 2*(e + slack), and every minimiser of a sketched least-squares problem with data in the subspace has squared residual at most (1 + 2(e+slack))/(1 - 2(e+slack)) times the smallest, except with probability at most 2*(8*ceil(sqrt(q)) + 1)^q*exp(-d*e^2/6).",
  "all non-square shapes, seeds, generators, thread counts and schedules, vectors, point sets, subspaces, least-squares problems, e, library functions of accuracy eps","failure probabilities like 10^-10 over all sequences of words cannot be observed by sampling; the constants depend on all moments of the stored values of the Box-Muller transform",
  [D+": DenseDist, fill_dense, fill_dense_unpacked","RandBLAS/random_gen.hh: boxmulall, boxmul::generate"])

p("C74","The numbers computed with dense operators keep distances, subspaces and least-squares problems except with exponentially small probability",
  "Let S be a DenseSkOp with uniform or Gaussian entries (non-square if Gaussian) and major axis Long, of smaller dimension d and larger dimension m, drawn from uniform independent words; it may have been filled before the call or not. sketch_general, from the left or from the right, with alpha within eight rounding errors of the isometry scale and beta = 0, on finite data of n columns (rows, from the right) with squared Frobenius norm F and m in the ranges of C71, computes an array of which the columns (rows) y_j satisfy the following; r = 2w(m+12)^2*u is the rounding error of C71, slack is that of C72 or C73, and 0 < e <= 1/2. Except with probability at most n(n-1)*exp(-d*e^2/6), | |y_a - y_b|^2 - |x_a - x_b|^2 | <= (e + slack)*|x_a - x_b|^2 + 2r*(|x_a|^2 + |x_b|^2) for all a, b (with |x_a|^2 + |x_b|^2 not below the smallest allowed F). If the x_j lie in a space of dimension q then, except with probability at most 2*(8*ceil(sqrt(q)) + 1)^q*exp(-d*e^2/6), every combination with coefficients z has | |Yz|^2 - |Xz|^2 | <= 2(e + slack)*|Xz|^2 + r*F*|z|^2, and whenever z1 is at least as good as z2 in the computed sketched least-squares problem, (1 - 2(e+slack))*|X z1|^2 <= (1 + 2(e+slack))*|X z2|^2 + r*F*(|z1|^2 + |z2|^2). This holds for every gemm that computes each entry in some order of additions with each multiply-add fused or not.",
  "all shapes, seeds, generators, data, leading dimensions, layouts, transposition flags, thread counts and schedules, BLAS implementations of the given kind, library functions of the given accuracy, e, subspaces","failure probabilities like 10^-10 cannot be observed by sampling, and the rounding of entries and of an unknown BLAS enters the same bound",
  ["RandBLAS/skge.hh: sketch_general, lskge3, rskge3",D+": DenseDist, DenseSkOp, fill_dense, fill_dense_unpacked, submatrix_as_blackbox","RandBLAS/random_gen.hh: boxmul::generate, uneg11::generate"])

p("C75","Sparse operators with short-axis vectors keep distances, subspaces and least-squares problems except with exponentially small probability",
  "Let S be a SparseSkOp with major axis Short, of smaller dimension d and larger dimension m, with k nonzeros in every short-axis vector, drawn from uniform independent W-bit words, and let the data be mapped by isometry_scale*S (by its transpose for a tall S). Let p = (k/d)*(1 + d/2^W)^k bound the probability that a vector meets a given row. For every 0 < e <= 1 and all omega, tau > 0 put delta = 2*exp(-e^2/(8*omega)) + d*exp(p*(exp(tau) - 1) - tau*omega*k). The squared length of any fixed vector changes by more than a factor e with probability at most delta; all squared distances between N points change by at most a factor e except with probability N(N-1)/2*delta; all squared lengths in a q-dimensional subspace by at most a factor 2e except with probability (8*ceil(sqrt(q)) + 1)^q*delta, and then a minimiser of the sketched least-squares problem satisfies (1 - 2e)*|residual|^2 <= (1 + 2e)*minimum. In particular this holds with any delta in (0,1] if d*e^2 >= 64*ln(4/delta), k*e^2 >= 16*ln(4/delta)*ln(2d/delta) and 2*k*d <= 2^W.",
  "all shapes, numbers of nonzeros, seeds, generators, vectors, point sets, subspaces, e, omega, tau, delta","failure probabilities like 10^-6 for every vector of a subspace cannot be observed by sampling; the bias of the index draws enters the bound",
  [S+": SparseDist, repeated_fisher_yates, isometry_scale, fill_sparse"])

p("C76","The numbers computed with sparse operators keep distances, subspaces and least-squares problems except with exponentially small probability",
  "Let S be a SparseSkOp with major axis Short, of smaller dimension d and larger dimension m, with k nonzeros in every short-axis vector, drawn from uniform independent W-bit words. sketch_general, from the left (S filled or not) or from the right (S filled), with alpha within eight rounding errors of the isometry scale and beta = 0, on finite data of n columns x_j (rows, from the right) with m and squared Frobenius norm F in the ranges of C69, computes an array with columns (rows) y_j. Let r = 2(m+12)^2*u, u the unit roundoff, 0 < e <= 1, and let delta be one of the failure probabilities of C75 for e. Except with probability at most n(n-1)/2*delta, | |y_a - y_b|^2 - |x_a - x_b|^2 | <= e*|x_a - x_b|^2 + 2r*(|x_a|^2 + |x_b|^2) for all a, b (with |x_a|^2 + |x_b|^2 not below the smallest allowed F). If the x_j lie in a space of dimension q then, except with probability at most (8*ceil(sqrt(q)) + 1)^q*delta, every combination with coefficients z has | |Yz|^2 - |Xz|^2 | <= 2e*|Xz|^2 + r*F*|z|^2, and whenever z1 is at least as good as z2 in the computed sketched least-squares problem, (1 - 2e)*|X z1|^2 <= (1 + 2e)*|X z2|^2 + r*F*(|z1|^2 + |z2|^2).",
  "all shapes, numbers of nonzeros, seeds, generators, data, leading dimensions, layouts, transposition flags, sort functions, thread counts and schedules, e, delta, subspaces","small failure probabilities cannot be observed by sampling, and the roundings of the sparse product enter the same bound",
  ["RandBLAS/skge.hh: sketch_general, lskges, rskges","RandBLAS/sparse_data/spmm_dispatch.hh: left_spmm, right_spmm",S+": SparseDist, repeated_fisher_yates, isometry_scale, fill_sparse"])

p("C77","The numbers sketch_sparse computes keep Gram matrices, distances, subspaces and least-squares problems",
  "Let S be a DenseSkOp with major axis Long, of smaller dimension d and larger dimension m, with uniform or (not square) Gaussian entries drawn from uniform independent words as in C71, filled or not. sketch_sparse, from the left or from the right, with alpha within eight rounding errors of the isometry scale and beta = 0, applied to a sparse matrix (COO, CSR or CSC) with finite values, at most one at every position, with m and squared Frobenius norm F in the ranges of C71, and for which the kernels stay in bounds, returns finite numbers for every draw, leaves everything else in the buffer as it was and the sparse matrix unchanged up to the order of its COO triples. Let x_j be the n columns (rows, from the right) of the data, entries that are not stored counted as zero, and y_j those of the result, r = w*2(m+12)^2*u with w = 4 (uniform), 49 or 100 (Gaussian) and u the unit roundoff. For every e > 0 the Gram matrix of the y_j differs from that of the x_j by more than (e + r)*F in the Frobenius norm with probability at most v/e^2, v as in C71. For 0 < e <= 1/2, with the slack of C74: except with probability at most n(n-1)*exp(-d*e^2/6) all squared distances are kept up to (e + slack)*|x_a - x_b|^2 + 2r*(|x_a|^2 + |x_b|^2); except with probability at most 2*(8*ceil(sqrt(q)) + 1)^q*exp(-d*e^2/6) all combinations of columns lying in a space of dimension q, and the sketched least-squares problem, are kept as in C74.",
  "all shapes, seeds, generators, sparse matrices and formats, leading dimensions, layouts, transposition flags, sort functions, thread counts and schedules, e, subspaces","small failure probabilities cannot be observed by sampling; the roundings depend on how many entries are stored where",
  ["RandBLAS/sparse_data/sksp.hh: sketch_sparse, lsksp3, rsksp3","RandBLAS/sparse_data/spmm_dispatch.hh: left_spmm, right_spmm",D+": DenseDist, DenseSkOp, fill_dense_unpacked"])

p("C78","The numbers sketch_symmetric and sketch_vector compute with dense operators keep Gram matrices, distances, least-squares problems and lengths",
  "Let S be a DenseSkOp with major axis Long, of smaller dimension d and larger dimension m, with uniform or (not square) Gaussian entries drawn from uniform independent words as in C71, filled or not; alpha within eight rounding errors of the isometry scale, beta = 0, any BLAS gemm that computes each entry in some order, with or without fused operations. sketch_symmetric from the left (S wide or square) or from the right (S tall), applied to an m by m matrix A that its check for symmetry accepts, with finite entries and sizes in the ranges of C71, returns finite numbers for every draw, leaves everything else in the buffer as it was, and keeps the Gram matrix, distances, combinations and least-squares problems of the columns (rows) of A as C71 and C74 say of sketch_general. sketch_vector, S applied as it is if wide and transposed if tall, to a vector x of m finite elements with positive strides, returns for every draw a finite vector y, leaves everything else in its buffer as it was, and with r = w*2(m+12)^2*u as in C71: | |y|^2 - |x|^2 | exceeds (e + r)*|x|^2 with probability at most v/e^2 for every e > 0, v as in C71, and exceeds (e + slack + r)*|x|^2 with probability at most 2*exp(-d*e^2/6) for 0 < e <= 1/2, slack as in C74.",
  "all shapes, seeds, generators, matrices, vectors, strides, leading dimensions, layouts, tolerances, BLAS libraries and schedules, e","small failure probabilities cannot be observed by sampling; roundings depend on the BLAS",
  ["RandBLAS/sksy.hh: sketch_symmetric","RandBLAS/skve.hh: sketch_vector","RandBLAS/skge.hh: lskge3, rskge3",D+": DenseDist, DenseSkOp, fill_dense_unpacked"])

p("C79","Building operators and sampling dense windows never overflows 64-bit arithmetic",
  "For int64_t arguments, the constructors of SparseDist, DenseDist, SparseSkOp and DenseSkOp, fill_dense, fill_dense_unpacked and submatrix_as_blackbox evaluate no int64_t sum, difference or product outside [-2^63, 2^63): valid arguments whose numbers of entries fit give the documented result, invalid ones the documented exception.",
  "all sizes, nonzero counts, windows, layouts, seeds, generators and schedules","the sizes at which an intermediate product overflows cannot be allocated in a test; the padding added to positions depends on the generator",
  [S+": SparseDist, compute_next_state",D+": compute_next_state, fill_dense_submat_impl, fill_dense_unpacked, submatrix_as_blackbox",B+": safe_int_product"])

p("C80","The numbers sketch_symmetric and sketch_vector compute with sparse operators keep Gram matrices, distances, least-squares problems and lengths",
  "Let S be a SparseSkOp with major axis Short, of smaller dimension d and larger dimension m, drawn from uniform independent words as in C69, filled or not; alpha within eight rounding errors of the isometry scale, beta = 0. sketch_symmetric from the left (S wide or square) or from the right (S tall and filled), applied to an m by m matrix A that its check for symmetry accepts, with finite entries and sizes in the ranges of C69, returns finite numbers for every draw, leaves everything else in the buffer as it was, keeps the Gram matrix of the columns (rows) of A with the probability C69 gives for sketch_general, and keeps distances and combinations of columns (so least-squares problems) with those of C76. sketch_vector, S applied as it is if wide and transposed if tall, to a vector x of m finite elements with positive strides returns a finite y, leaves everything else as it was, and | |y|^2 - |x|^2 | <= (e + round) |x|^2 except with probability at most spread / e^2, and at most any failure probability delta that C75 allows for the number of nonzeros.",
  "all shapes, seeds, generators, matrices, vectors, strides, leading dimensions, layouts, tolerances, schedules, sorts, e and delta","small failure probabilities cannot be observed by sampling; the order of summation depends on the schedule and the sort",
  ["RandBLAS/sksy.hh: sketch_symmetric","RandBLAS/skve.hh: sketch_vector","RandBLAS/skge.hh: lskges, rskges",S+": SparseSkOp, fill_sparse"])

p("C81","Sampling without replacement and sparse operators work with 32-bit indices whenever the indices fit",
  "repeated_fisher_yates(k, n, r, samples, state) with samples of type int (or int64_t), n and r at most the largest value of the type, 1 <= k <= n and room for r*k samples, writes r samples of k distinct indices from 0..n-1 and nothing else; fill_sparse of a Short-axis SparseSkOp whose index type is int (or int64_t) and whose numbers of rows and columns fit in it fills the operator with full_nnz nonzeros.",
  "all sizes, seeds, generators and arrays","the failing sizes need arrays of more than 2^31 entries",
  [S+": repeated_fisher_yates, fill_sparse_unpacked_nosub, fill_sparse, SparseSkOp"])

p("C82","Converting a COO matrix to a CSR or CSC matrix with a narrower index type gives the same matrix or an exception",
  "For a well-formed zero-based COO matrix, coo_to_csr (coo_to_csc) into an empty CSR (CSC) matrix of the same dimensions, whose index type may be narrower than that of the COO matrix, either throws or produces a well-formed matrix with the same entries.",
  "all matrices, index widths and numbers of nonzeros","the failing cases need more than 2^31 nonzeros or dimensions above 2^31",
  [SD+"conversions.hh: coo_to_csr, coo_to_csc"])

with open('/verif/properties.jsonl','w') as f:
    for x in P: f.write(json.dumps(x)+"\n")
print(len(P))
