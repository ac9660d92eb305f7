(** Model of RandBLAS/dense_skops.hh (and the layout helpers of base.hh). *)
From Verif Require Import Base Spec Interleave RngModel.

(** base.hh 286-292: enum class Axis. *)
Inductive axis := Short | Long.
(** dense_skops.hh 208: enum class ScalarDist. *)
Inductive family := Gaussian | Uniform.

(** A loop [for (int i = 0; i < n; ++i)] whose bound [n] is an int64_t: if the bound
    exceeds INT_MAX the increment of [i] overflows, which is undefined behaviour. *)
Definition int_loop_ok (n : Z) : bool := n <=? int_max.

(** base.hh 199-205: layout_to_strides(layout, ldim); result
    (inter_row_stride, inter_col_stride). *)
Definition layout_to_strides (l : layout) (ldim : Z) : Z * Z :=
  match l with ColMajor => (1, ldim) | RowMajor => (ldim, 1) end.

(** base.hh 207-213: layout_to_strides(layout, n_rows, n_cols). *)
Definition layout_to_strides3 (l : layout) (n_rows n_cols : Z) : Z * Z :=
  match l with ColMajor => (1, n_rows) | RowMajor => (n_cols, 1) end.

(** base.hh 220-226: dims_before_op. *)
Definition dims_before_op (m n : Z) (o : op) : Z * Z :=
  match o with NoTrans => (m, n) | Trans => (n, m) end.

(** base.hh 233-243: offset_and_ldim; result (pointer_offset, ldim). *)
Definition offset_and_ldim (l : layout) (n_rows n_cols ro_s co_s : Z) : Z * Z :=
  match l with
  | ColMajor => (ro_s + n_rows * co_s, n_rows)
  | RowMajor => (ro_s * n_cols + co_s, n_cols)
  end.

(** dense_skops.hh 187-199: natural_layout. *)
Definition natural_layout (major_axis : axis) (n_rows n_cols : Z) : layout :=
  let is_wide := n_rows <? n_cols in
  let fa_long := match major_axis with Long => true | Short => false end in
  if is_wide && fa_long then RowMajor
  else if is_wide then ColMajor
  else if fa_long then ColMajor
  else RowMajor.

(** dense_skops.hh 223-323: struct DenseDist.  [dd_iso_inv2] is the integer whose
    inverse square root is [isometry_scale] (line 315: pow(dim_minor, -0.5)). *)
Record dense_dist := {
  dd_rows : Z; dd_cols : Z; dd_axis : axis;
  dd_major : Z; dd_minor : Z; dd_iso_inv2 : Z;
  dd_family : family; dd_layout : layout }.

(** dense_skops.hh 305-321: constructor of DenseDist. *)
Definition mk_dense_dist (n_rows n_cols : Z) (fam : family) (major_axis : axis) : outcome dense_dist :=
  let dim_major := match major_axis with Long => Z.max n_rows n_cols | Short => Z.min n_rows n_cols end in
  let dim_minor := match major_axis with Long => Z.min n_rows n_cols | Short => Z.max n_rows n_cols end in
  req (n_rows >? 0) ;;
  req (n_cols >? 0) ;;
  Ok {| dd_rows := n_rows; dd_cols := n_cols; dd_axis := major_axis;
        dd_major := dim_major; dd_minor := dim_minor; dd_iso_inv2 := dim_minor;
        dd_family := fam; dd_layout := natural_layout major_axis n_rows n_cols |}.

Section Dense.
  Context {K W T : Type}.

  (** static_cast<T>(.) of lines 53 and 146. *)
  Variable cast : W -> T.

  (** Padding of a major-axis vector to a whole number of blocks:
      dense_skops.hh 109-113 and 177-180. *)
  Definition pad_of (n ctr_size : Z) : Z :=
    if negb (Z.rem n ctr_size =? 0) then ctr_size - Z.rem n ctr_size else 0.

  (** Writes [n] consecutive elements rv[src..] to positions dst.. :
      dense_skops.hh 145-147 (first block) and copy_promote 51-55. *)
  Definition block_writes (rv : list W) (n src dst : Z) : outcome (list (Z * T)) :=
    if int_loop_ok n then
      mapM (fun i => v <- rd rv (i + src) ;; Ok (dst + i, cast v)) (range 0 n)
    else UB.

  (** Body of the parallel loop over rows: dense_skops.hh 138-162.
      Returns the element writes of this row in program order. *)
  Definition row_task (g : generator K W) (c : Z) (k : K)
      (stride first_block_start first_block_len ctr_mat_start ctr_mat_row_end
       last_block_stop lda : Z) (one_block_per_row : bool) (row : Z)
      : outcome (list (Z * T)) :=
    let ctr_size := g_len g in
    incr_from_c <- safe_int_product stride row ;;
    let c_row := incr g c incr_from_c in
    let rv := g_fun g c_row k in
    w1 <- block_writes rv first_block_len first_block_start (row * lda) ;;
    if one_block_per_row then Ok w1 else
    (* middle blocks, lines 152-158; state: counter, ind, writes so far *)
    let n_mid := ctr_mat_row_end - ctr_mat_start - 1 in
    if negb (int_loop_ok n_mid) then UB else
    '(c_row, ind, ws) <-
       for_ 0 n_mid
         (fun _ st =>
            let '(c_row, ind, ws) := st in
            let c_row := incr g c_row 1 in
            let rv := g_fun g c_row k in
            w <- block_writes rv ctr_size 0 (row * lda + ind) ;;
            Ok (c_row, ind + ctr_size, ws ++ w))
         (c_row, first_block_len, w1) ;;
    (* last block, lines 160-162 *)
    let c_row := incr g c_row 1 in
    let rv := g_fun g c_row k in
    w <- block_writes rv last_block_stop 0 (row * lda + ind) ;;
    Ok (ws ++ w).

  (** dense_skops.hh 96-170: fill_dense_submat_impl.  The parallel loop 133-164 is run
      under the schedule [sched].  A write replaces the cell: [act v _ = v].
      [ptr / n_cols] with n_cols = 0 is a division by zero. *)
  Definition write_act (v _ : T) : T := v.

  Definition fill_dense_submat_impl (sched : schedule T) (g : generator K W)
      (n_cols : Z) (smat : list T) (n_srows n_scols ptr : Z) (seed : rng_state K) (lda : Z)
      : outcome (list T * rng_state K) :=
    lda <- (if lda <=? 0 then Ok n_scols else req (lda >=? n_scols) ;; Ok lda) ;;
    req (n_cols >=? n_scols) ;;
    let ctr_size := g_len g in
    let pad := pad_of n_cols ctr_size in
    if n_cols =? 0 then UB else
    let ptr_padded := ptr + Z.quot ptr n_cols * pad in
    let ctr_mat_start := Z.quot ptr_padded ctr_size in
    let first_block_start := Z.rem ptr_padded ctr_size in
    let ctr_mat_row_end := Z.quot (ptr_padded + n_scols - 1) ctr_size in
    let last_block_stop := Z.rem (ptr_padded + n_scols - 1) ctr_size + 1 in
    let ctr_inter_row_stride := Z.quot (n_cols + pad) ctr_size in
    let one_block_per_row := ctr_mat_start =? ctr_mat_row_end in
    let first_block_len :=
      (if one_block_per_row then last_block_stop else ctr_size) - first_block_start in
    let c := incr g (counter seed) ctr_mat_start in
    let k := key seed in
    tasks <- mapM (row_task g c k ctr_inter_row_stride first_block_start first_block_len
                     ctr_mat_start ctr_mat_row_end last_block_stop lda one_block_per_row)
                  (range 0 n_srows) ;;
    smat' <- omp_exec write_act sched tasks smat ;;
    Ok (smat', mk_state (incr g c (n_srows * ctr_inter_row_stride)) k).

  (** dense_skops.hh 172-185: compute_next_state. *)
  Definition compute_next_state (g : generator K W) (D : dense_dist) (st : rng_state K)
      : outcome (rng_state K) :=
    let ctr_size := g_len g in
    let pad := pad_of (dd_major D) ctr_size in
    let ctr_major_axis_stride := Z.quot (dd_major D + pad) ctr_size in
    full_incr <- safe_int_product ctr_major_axis_stride (dd_minor D) ;;
    Ok (mk_state (incr g (counter st) full_incr) (key st)).

  (** blas::scal(n, alpha, x, 1): x[i] = alpha * x[i]; [f] is multiplication by alpha. *)
  Definition scal_loop (f : T -> T) (n : Z) (b : list T) : outcome (list T) :=
    for_ 0 n (fun i b => x <- rd b i ;; wr b i (f x)) b.

  (** blas::copy(n, x, 1, y, 1). *)
  Definition copy_loop (n : Z) (x y : list T) : outcome (list T) :=
    for_ 0 n (fun i y => v <- rd x i ;; wr y i v) y.

  (** util.hh 64-78: omatcopy(m, n, A, irs_a, ics_a, B, irs_b, ics_b).  Element (i,j)
      of B is assigned element (i,j) of A. *)
  Definition omatcopy (m n : Z) (A : list T) (irs_a ics_a : Z) (B : list T) (irs_b ics_b : Z)
      : outcome (list T) :=
    for_ 0 m (fun i B =>
      for_ 0 n (fun j B => v <- rd A (i * irs_a + j * ics_a) ;;
                           wr B (i * irs_b + j * ics_b) v) B) B.

  (** dense_skops.hh 538-581: fill_dense_unpacked.  [gG] is the generator followed by
      boxmul, [gU] the one followed by uneg11, [scal3] multiplication by (T)sqrt(3),
      [junk] the contents of freshly allocated workspace (line 573). *)
  Record dense_env := {
    env_gauss : generator K W;
    env_unif : generator K W;
    env_scal3 : T -> T;
    env_junk : T }.

  Definition env_gen (env : dense_env) (f : family) : generator K W :=
    match f with Gaussian => env_gauss env | Uniform => env_unif env end.

  Definition fill_dense_unpacked (env : dense_env) (sched : schedule T) (lay : layout)
      (D : dense_dist) (n_rows n_cols ro_s co_s : Z) (buff : list T) (seed : rng_state K)
      : outcome (list T * rng_state K) :=
    req (dd_rows D >=? n_rows + ro_s) ;;
    req (dd_cols D >=? n_cols + co_s) ;;
    let nat_layout := dd_layout D in
    let ma_len := dd_major D in
    '(n_rows_, n_cols_, ptr) <-
       match nat_layout with
       | ColMajor => p <- safe_int_product co_s ma_len ;; Ok (n_cols, n_rows, ro_s + p)
       | RowMajor => p <- safe_int_product ro_s ma_len ;; Ok (n_rows, n_cols, p + co_s)
       end ;;
    '(buff, next_state) <-
       match dd_family D with
       | Gaussian =>
           fill_dense_submat_impl sched (env_gauss env) ma_len buff n_rows_ n_cols_ ptr seed 0
       | Uniform =>
           '(buff, st) <- fill_dense_submat_impl sched (env_unif env) ma_len buff n_rows_ n_cols_ ptr seed 0 ;;
           buff <- scal_loop (env_scal3 env) (n_rows_ * n_cols_) buff ;;
           Ok (buff, st)
       end ;;
    let size_mat := n_rows * n_cols in
    if layout_eqb lay nat_layout then Ok (buff, next_state) else
    let flip_work := repeat (env_junk env) (Z.to_nat size_mat) in
    flip_work <- copy_loop size_mat buff flip_work ;;
    let '(irs_nat, ics_nat) := layout_to_strides3 nat_layout n_rows n_cols in
    let '(irs_req, ics_req) := layout_to_strides3 lay n_rows n_cols in
    buff <- omatcopy n_rows n_cols flip_work irs_nat ics_nat buff irs_req ics_req ;;
    Ok (buff, next_state).

  (** dense_skops.hh 598-601: fill_dense(D, buff, seed). *)
  Definition fill_dense (env : dense_env) (sched : schedule T) (D : dense_dist)
      (buff : list T) (seed : rng_state K) : outcome (list T * rng_state K) :=
    fill_dense_unpacked env sched (dd_layout D) D (dd_rows D) (dd_cols D) 0 0 buff seed.

  (** dense_skops.hh 335-455: struct DenseSkOp.  [ds_buff = None] is the null pointer.
      The memory-management members are treated in OwnershipModel.v; here [ds_own] is
      kept because fill_dense(S) reads it. *)
  Record dense_skop := {
    ds_dist : dense_dist;
    ds_seed : rng_state K;
    ds_next : rng_state K;
    ds_own : bool;
    ds_buff : option (list T);
    ds_layout : layout }.

  (** dense_skops.hh 418-430: constructor.  The generator's block length and counter
      width are those of RNG, the same for both transformations. *)
  Definition mk_dense_skop (env : dense_env) (D : dense_dist) (seed : rng_state K)
      : outcome dense_skop :=
    next <- compute_next_state (env_gen env (dd_family D)) D seed ;;
    Ok {| ds_dist := D; ds_seed := seed; ds_next := next; ds_own := true;
          ds_buff := None; ds_layout := dd_layout D |}.

  (** dense_skops.hh 624-633: fill_dense(S). *)
  Definition fill_dense_skop (env : dense_env) (sched : schedule T) (S : dense_skop)
      : outcome dense_skop :=
    let buff := match ds_buff S with
                | None => if ds_own S
                          then Some (repeat (env_junk env) (Z.to_nat (dd_rows (ds_dist S) * dd_cols (ds_dist S))))
                          else None
                | Some b => Some b
                end in
    match buff with
    | None => Throw
    | Some b =>
        '(b', _) <- fill_dense_unpacked env sched (ds_layout S) (ds_dist S)
                      (dd_rows (ds_dist S)) (dd_cols (ds_dist S)) 0 0 b (ds_seed S) ;;
        Ok {| ds_dist := ds_dist S; ds_seed := ds_seed S; ds_next := ds_next S;
              ds_own := ds_own S; ds_buff := Some b'; ds_layout := ds_layout S |}
    end.

  (** dense_skops.hh 635-650: struct BLASFriendlyOperator (without the destructor). *)
  Record blas_op := {
    bo_layout : layout; bo_rows : Z; bo_cols : Z; bo_buff : list T; bo_ldim : Z }.

  (** dense_skops.hh 652-663: submatrix_as_blackbox. *)
  Definition submatrix_as_blackbox (env : dense_env) (sched : schedule T) (S : dense_skop)
      (n_rows n_cols ro_s co_s : Z) : outcome blas_op :=
    req (ro_s + n_rows <=? dd_rows (ds_dist S)) ;;
    req (co_s + n_cols <=? dd_cols (ds_dist S)) ;;
    (* new T[n] with n < 0 throws std::bad_array_new_length *)
    req (0 <=? n_rows * n_cols) ;;
    let buff := repeat (env_junk env) (Z.to_nat (n_rows * n_cols)) in
    let lay := ds_layout S in
    '(buff, _) <- fill_dense_unpacked env sched lay (ds_dist S) n_rows n_cols ro_s co_s buff (ds_seed S) ;;
    Ok {| bo_layout := lay; bo_rows := n_rows; bo_cols := n_cols; bo_buff := buff;
          bo_ldim := dd_major (ds_dist S) |}.
End Dense.
Arguments dense_env : clear implicits.
Arguments dense_skop : clear implicits.
Arguments blas_op : clear implicits.

(** A small executable instance used in examples: blocks of 4 words, the word in
    lane [l] of block [c] under key [k] is 4*c + l + 1000*k. *)
Definition toy_gen : generator Z Z :=
  {| g_len := 4; g_bits := 128; g_fun := fun c k => map (fun l => 4 * c + l + 1000 * k) (range 0 4) |}.
Definition toy_env : dense_env Z Z Z :=
  {| env_gauss := toy_gen; env_unif := toy_gen; env_scal3 := fun x => 3 * x; env_junk := -1 |}.
