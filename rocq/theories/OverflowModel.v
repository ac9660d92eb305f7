(** The integer arithmetic of the distributions, of the dense sampler and of the state
    formulas, with every int64_t operation checked.  In C++ an int64_t sum, difference or
    product outside [-2^63, 2^63) is undefined behaviour.  The definitions here are those
    of DenseModel.v and SparseSkopModel.v with each such operation wrapped in [ck]; tests,
    buffers, draws and loops are the same. *)
From Verif Require Import Base Spec Interleave RngModel DenseModel SparseSkopModel.

(** One int64_t operation with mathematical result [z]. *)
Definition ck (z : Z) : outcome Z := if int64 z then Ok z else UB.

(** dense_skops.hh 108-112, 176-179: the padding.  Also the two lines of
    compute_next_state. *)
Definition pad_of64 (n ctr_size : Z) : outcome Z :=
  if negb (Z.rem n ctr_size =? 0) then ck (ctr_size - Z.rem n ctr_size) else Ok 0.

(** util.hh 64-78: omatcopy with its four products and two sums checked. *)
Definition omatcopy64 {T} (m n : Z) (A : list T) (irs_a ics_a : Z) (B : list T) (irs_b ics_b : Z)
    : outcome (list T) :=
  for_ 0 m (fun i B =>
    for_ 0 n (fun j B =>
      ra <- ck (i * irs_a) ;; ca <- ck (j * ics_a) ;; pa <- ck (ra + ca) ;;
      rb <- ck (i * irs_b) ;; cb <- ck (j * ics_b) ;; pb <- ck (rb + cb) ;;
      v <- rd A pa ;; wr B pb v) B) B.

Section Dense64.
  Context {K W T : Type}.
  Variable cast : W -> T.

  (** dense_skops.hh 145-147 and 51-55.  [dst + i] is the pointer smat_row + i counted from
      the start of the buffer. *)
  Definition block_writes64 (rv : list W) (n src dst : Z) : outcome (list (Z * T)) :=
    if int_loop_ok n then
      mapM (fun i => s <- ck (i + src) ;; d <- ck (dst + i) ;;
                     v <- rd rv s ;; Ok (d, cast v)) (range 0 n)
    else UB.

  (** dense_skops.hh 138-162. *)
  Definition row_task64 (g : generator K W) (c : Z) (k : K)
      (stride first_block_start first_block_len ctr_mat_start ctr_mat_row_end
       last_block_stop lda : Z) (one_block_per_row : bool) (row : Z)
      : outcome (list (Z * T)) :=
    let ctr_size := g_len g in
    incr_from_c <- safe_int_product stride row ;;
    let c_row := incr g c incr_from_c in
    let rv := g_fun g c_row k in
    smat_row <- ck (row * lda) ;;
    w1 <- block_writes64 rv first_block_len first_block_start smat_row ;;
    if one_block_per_row then Ok w1 else
    d <- ck (ctr_mat_row_end - ctr_mat_start) ;;
    n_mid <- ck (d - 1) ;;
    if negb (int_loop_ok n_mid) then UB else
    '(c_row, ind, ws) <-
       for_ 0 n_mid
         (fun _ st =>
            let '(c_row, ind, ws) := st in
            let c_row := incr g c_row 1 in
            let rv := g_fun g c_row k in
            p <- ck (smat_row + ind) ;;
            w <- block_writes64 rv ctr_size 0 p ;;
            ind <- ck (ind + ctr_size) ;;
            Ok (c_row, ind, ws ++ w))
         (c_row, first_block_len, w1) ;;
    let c_row := incr g c_row 1 in
    let rv := g_fun g c_row k in
    p <- ck (smat_row + ind) ;;
    w <- block_writes64 rv last_block_stop 0 p ;;
    Ok (ws ++ w).

  (** dense_skops.hh 96-170. *)
  Definition fill_dense_submat_impl64 (sched : schedule T) (g : generator K W)
      (n_cols : Z) (smat : list T) (n_srows n_scols ptr : Z) (seed : rng_state K) (lda : Z)
      : outcome (list T * rng_state K) :=
    lda <- (if lda <=? 0 then Ok n_scols else req (lda >=? n_scols) ;; Ok lda) ;;
    req (n_cols >=? n_scols) ;;
    let ctr_size := g_len g in
    pad <- pad_of64 n_cols ctr_size ;;
    if n_cols =? 0 then UB else
    q <- ck (Z.quot ptr n_cols * pad) ;;
    ptr_padded <- ck (ptr + q) ;;
    let ctr_mat_start := Z.quot ptr_padded ctr_size in
    let first_block_start := Z.rem ptr_padded ctr_size in
    e <- ck (ptr_padded + n_scols) ;;
    e <- ck (e - 1) ;;
    let ctr_mat_row_end := Z.quot e ctr_size in
    last_block_stop <- ck (Z.rem e ctr_size + 1) ;;
    padded <- ck (n_cols + pad) ;;
    let ctr_inter_row_stride := Z.quot padded ctr_size in
    let one_block_per_row := ctr_mat_start =? ctr_mat_row_end in
    first_block_len <- ck ((if one_block_per_row then last_block_stop else ctr_size) - first_block_start) ;;
    let c := incr g (counter seed) ctr_mat_start in
    let k := key seed in
    tasks <- mapM (row_task64 g c k ctr_inter_row_stride first_block_start first_block_len
                     ctr_mat_start ctr_mat_row_end last_block_stop lda one_block_per_row)
                  (range 0 n_srows) ;;
    smat' <- omp_exec write_act sched tasks smat ;;
    total <- ck (n_srows * ctr_inter_row_stride) ;;
    Ok (smat', mk_state (incr g c total) k).

  (** dense_skops.hh 172-185. *)
  Definition compute_next_state64 (g : generator K W) (D : dense_dist) (st : rng_state K)
      : outcome (rng_state K) :=
    let ctr_size := g_len g in
    pad <- pad_of64 (dd_major D) ctr_size ;;
    padded <- ck (dd_major D + pad) ;;
    full_incr <- safe_int_product (Z.quot padded ctr_size) (dd_minor D) ;;
    Ok (mk_state (incr g (counter st) full_incr) (key st)).

  (** dense_skops.hh 538-581. *)
  Definition fill_dense_unpacked64 (env : dense_env K W T) (sched : schedule T) (lay : layout)
      (D : dense_dist) (n_rows n_cols ro_s co_s : Z) (buff : list T) (seed : rng_state K)
      : outcome (list T * rng_state K) :=
    re <- ck (n_rows + ro_s) ;;
    req (dd_rows D >=? re) ;;
    ce <- ck (n_cols + co_s) ;;
    req (dd_cols D >=? ce) ;;
    let nat_layout := dd_layout D in
    let ma_len := dd_major D in
    '(n_rows_, n_cols_, ptr) <-
       match nat_layout with
       | ColMajor => p <- safe_int_product co_s ma_len ;; ptr <- ck (ro_s + p) ;; Ok (n_cols, n_rows, ptr)
       | RowMajor => p <- safe_int_product ro_s ma_len ;; ptr <- ck (p + co_s) ;; Ok (n_rows, n_cols, ptr)
       end ;;
    '(buff, next_state) <-
       match dd_family D with
       | Gaussian =>
           fill_dense_submat_impl64 sched (env_gauss env) ma_len buff n_rows_ n_cols_ ptr seed 0
       | Uniform =>
           '(buff, st) <- fill_dense_submat_impl64 sched (env_unif env) ma_len buff n_rows_ n_cols_ ptr seed 0 ;;
           sz <- ck (n_rows_ * n_cols_) ;;
           buff <- scal_loop (env_scal3 env) sz buff ;;
           Ok (buff, st)
       end ;;
    size_mat <- ck (n_rows * n_cols) ;;
    if layout_eqb lay nat_layout then Ok (buff, next_state) else
    let flip_work := repeat (env_junk env) (Z.to_nat size_mat) in
    flip_work <- copy_loop size_mat buff flip_work ;;
    let '(irs_nat, ics_nat) := layout_to_strides3 nat_layout n_rows n_cols in
    let '(irs_req, ics_req) := layout_to_strides3 lay n_rows n_cols in
    buff <- omatcopy64 n_rows n_cols flip_work irs_nat ics_nat buff irs_req ics_req ;;
    Ok (buff, next_state).

  (** dense_skops.hh 418-430: the constructor DenseSkOp(dist, seed). *)
  Definition mk_dense_skop64 (env : dense_env K W T) (D : dense_dist) (seed : rng_state K)
      : outcome (dense_skop K T) :=
    next <- compute_next_state64 (env_gen env (dd_family D)) D seed ;;
    Ok {| ds_dist := D; ds_seed := seed; ds_next := next; ds_own := true;
          ds_buff := None; ds_layout := dd_layout D |}.

  (** dense_skops.hh 624-633: fill_dense(S). *)
  Definition fill_dense_skop64 (env : dense_env K W T) (sched : schedule T) (S : dense_skop K T)
      : outcome (dense_skop K T) :=
    buff <- match ds_buff S with
            | None => if ds_own S
                      then sz <- ck (dd_rows (ds_dist S) * dd_cols (ds_dist S)) ;;
                           Ok (Some (repeat (env_junk env) (Z.to_nat sz)))
                      else Ok None
            | Some b => Ok (Some b)
            end ;;
    match buff with
    | None => Throw
    | Some b =>
        '(b', _) <- fill_dense_unpacked64 env sched (ds_layout S) (ds_dist S)
                      (dd_rows (ds_dist S)) (dd_cols (ds_dist S)) 0 0 b (ds_seed S) ;;
        Ok {| ds_dist := ds_dist S; ds_seed := ds_seed S; ds_next := ds_next S;
              ds_own := ds_own S; ds_buff := Some b'; ds_layout := ds_layout S |}
    end.

  (** dense_skops.hh 652-663: submatrix_as_blackbox. *)
  Definition submatrix_as_blackbox64 (env : dense_env K W T) (sched : schedule T) (S : dense_skop K T)
      (n_rows n_cols ro_s co_s : Z) : outcome (blas_op T) :=
    re <- ck (ro_s + n_rows) ;;
    req (re <=? dd_rows (ds_dist S)) ;;
    ce <- ck (co_s + n_cols) ;;
    req (ce <=? dd_cols (ds_dist S)) ;;
    sz <- ck (n_rows * n_cols) ;;
    req (0 <=? sz) ;;
    let buff := repeat (env_junk env) (Z.to_nat sz) in
    let lay := ds_layout S in
    '(buff, _) <- fill_dense_unpacked64 env sched lay (ds_dist S) n_rows n_cols ro_s co_s buff (ds_seed S) ;;
    Ok {| bo_layout := lay; bo_rows := n_rows; bo_cols := n_cols; bo_buff := buff;
          bo_ldim := dd_major (ds_dist S) |}.
End Dense64.

(** sparse_skops.hh 200-218: the constructor of SparseDist.  The member initialisers
    (208-212) run before the four checks of the body (213-218); isometry_scale (108-114)
    multiplies in double and cannot overflow. *)
Definition mk_sparse_dist64 (n_rows n_cols vec_nnz : Z) (major_axis : axis) : outcome sparse_dist :=
  let dim_major := match major_axis with Short => Z.min n_rows n_cols | Long => Z.max n_rows n_cols end in
  total <- ck (n_rows + n_cols) ;;
  dim_minor <- ck (total - dim_major) ;;
  full_nnz <- ck (vec_nnz * dim_minor) ;;
  req (n_rows >? 0) ;;
  req (n_cols >? 0) ;;
  req (vec_nnz >? 0) ;;
  req (vec_nnz <=? dim_major) ;;
  Ok {| sd_rows := n_rows; sd_cols := n_cols; sd_axis := major_axis;
        sd_major := dim_major; sd_minor := dim_minor;
        sd_iso2 := match major_axis with Short => (1, vec_nnz) | Long => (dim_major, full_nnz) end;
        sd_vec_nnz := vec_nnz; sd_full_nnz := full_nnz |}.

(** sparse_skops.hh 243-260: compute_next_state; the ceiling as in sparse_next_state. *)
Definition sparse_next_state64 {K F T} (env : sparse_env K F T) (D : sparse_dist) (st : rng_state K)
    : outcome (rng_state K) :=
  let L := g_len (se_raw env) in
  let '(num_mavec, incrs_per_mavec) :=
    match sd_axis D with
    | Short => (Z.max (sd_rows D) (sd_cols D), sd_vec_nnz D)
    | Long => (Z.min (sd_rows D) (sd_cols D), (2 * sd_vec_nnz D + L - 1) / L)
    end in
  full_incr <- ck (num_mavec * incrs_per_mavec) ;;
  Ok (mk_state (incr (se_raw env) (counter st) full_incr) (key st)).
