(** Model of RandBLAS/sparse_skops.hh and of the index samplers of util.hh. *)
From Verif Require Import Base Spec RngModel DenseModel.

(** Conversion to a signed integer type of [bits] bits (C++20: two's complement). *)
Definition to_sint (bits x : Z) : Z := (x + 2 ^ (bits - 1)) mod 2 ^ bits - 2 ^ (bits - 1).
Definition sint_max (bits : Z) : Z := 2 ^ (bits - 1) - 1.

(** Write through a possibly null pointer, guarded as in lines 87-90. *)
Definition wr_opt {A} (b : option (list A)) (i : Z) (x : A) : outcome (option (list A)) :=
  match b with
  | None => Ok None
  | Some l => l' <- wr l i x ;; Ok (Some l')
  end.

(* ------------------------------------------------------------------ *)
(** * Sampling without replacement *)
Section FisherYates.
  Context {K T : Type}.
  (** [g]: raw words rng(ctr,key), nonnegative integers; [sb]: width of sint_t;
      [one], [mone]: the values 1.0 and -1.0 of type T. *)
  Variable g : generator K Z.
  Variable sb : Z.
  Variables one mone : T.

  (** Loop state: vec_work, pivots, ctr_work, idxs_major, idxs_minor, vals. *)
  Definition fy_state : Type := list Z * list Z * Z * list Z * option (list Z) * option (list T).

  (** sparse_skops.hh 76-94: one step of the shuffle. *)
  Definition fy_step (k : K) (dim_major offset i j : Z) (st : fy_state) : outcome fy_state :=
    let '(work, pivots, ctr, imaj, imin, vals) := st in
    let rv := g_fun g ctr k in
    w0 <- rd rv 0 ;;
    if dim_major - j =? 0 then UB else
    let ell := to_sint sb (j + Z.modulo w0 (dim_major - j)) in
    pivots <- wr pivots j ell ;;
    swap <- rd work ell ;;
    wj <- rd work j ;;
    work <- wr work ell wj ;;
    work <- wr work j swap ;;
    imaj <- wr imaj (j + offset) swap ;;
    w1 <- rd rv 1 ;;
    vals <- wr_opt vals (j + offset) (if Z.modulo w1 2 =? 0 then one else mone) ;;
    imin <- wr_opt imin (j + offset) i ;;
    Ok (work, pivots, incr g ctr 1, imaj, imin, vals).

  (** sparse_skops.hh 99-105: undo the swaps. *)
  Definition fy_restore (vec_nnz offset : Z) (pivots imaj : list Z) (j : Z) (work : list Z)
      : outcome (list Z) :=
    let jj := vec_nnz - j in
    swap <- rd imaj (jj + offset) ;;
    ell <- rd pivots jj ;;
    w <- rd work ell ;;
    work <- wr work jj w ;;
    wr work ell swap.

  (** sparse_skops.hh 72-105: one major-axis vector. *)
  Definition fy_vector (k : K) (ctr vec_nnz dim_major i : Z)
      (st : list Z * list Z * list Z * option (list Z) * option (list T))
      : outcome (list Z * list Z * list Z * option (list Z) * option (list T)) :=
    let '(work, pivots, imaj, imin, vals) := st in
    let offset := to_sint sb (i * vec_nnz) in
    let ctr_work := incr g ctr offset in
    if vec_nnz >? sint_max sb then UB else
    '(work, pivots, _, imaj, imin, vals) <-
       for_ 0 vec_nnz (fy_step k dim_major offset i) (work, pivots, ctr_work, imaj, imin, vals) ;;
    work <- for_ 1 (vec_nnz + 1) (fy_restore vec_nnz offset pivots imaj) work ;;
    Ok (work, pivots, imaj, imin, vals).

  (** sparse_skops.hh 52-108: sparse::repeated_fisher_yates.  Loop counters of type
      sint_t overflow when the bound exceeds the type: undefined behaviour.
      std::vector(n) with n < 0 throws. *)
  Definition repeated_fisher_yates (state : rng_state K) (vec_nnz dim_major dim_minor : Z)
      (imaj : list Z) (imin : option (list Z)) (vals : option (list T))
      : outcome (list Z * option (list Z) * option (list T) * rng_state K) :=
    if vec_nnz >? dim_major then Throw else
    req (0 <=? dim_major) ;;
    if dim_major >? sint_max sb then UB else
    let work := range 0 dim_major in
    req (0 <=? vec_nnz) ;;
    let pivots := repeat 0 (Z.to_nat vec_nnz) in
    if dim_minor >? sint_max sb then UB else
    '(_, _, imaj, imin, vals) <-
       for_ 0 dim_minor (fy_vector (key state) (counter state) vec_nnz dim_major)
            (work, pivots, imaj, imin, vals) ;;
    Ok (imaj, imin, vals, mk_state (incr g (counter state) (dim_minor * vec_nnz)) (key state)).
End FisherYates.

(** sparse_skops.hh 237-241: public repeated_fisher_yates(k, n, r, samples, state). *)
Definition fisher_yates_public {K} (g : generator K Z) (sb : Z) (k n r : Z) (samples : list Z) (state : rng_state K)
    : outcome (list Z * rng_state K) :=
  '(imaj, _, _, st) <- repeated_fisher_yates g sb tt tt state k n r samples None None ;;
  Ok (imaj, st).

(* ------------------------------------------------------------------ *)
(** * Sampling with replacement *)
Section Iid.
  Context {K F T : Type}.
  (** [g]: blocks of uneg11 values; [draw]: index computed from such a value;
      [nonneg]: the comparison rv >= 0. *)
  Variable g : generator K F.
  Variable draw : F -> outcome Z.
  Variable nonneg : F -> bool.
  Variables one mone : T.

  (** util.hh 454-474 (sample_indices_iid, [rad = None], draw by lower_bound) and
      util.hh 477-506 (sample_indices_iid_uniform, WriteRademachers iff [rad] is given).
      The two loops are identical up to the computation of the index. *)
  Definition sample_step (len_c : Z) (k : K) (i : Z)
      (st : list F * Z * Z * list Z * option (list T)) : outcome (list F * Z * Z * list Z * option (list T)) :=
    let '(rv, rv_index, ctr, samples, rad) := st in
    x <- rd rv rv_index ;;
    s <- draw x ;;
    samples <- wr samples i s ;;
    let rv_index := rv_index + 1 in
    '(rad, rv_index) <-
      match rad with
      | None => Ok (None, rv_index)
      | Some r =>
          y <- rd rv rv_index ;;
          r <- wr r i (if nonneg y then one else mone) ;;
          Ok (Some r, rv_index + 1)
      end ;;
    if rv_index =? len_c then
      let ctr := incr g ctr 1 in
      Ok (g_fun g ctr k, 0, ctr, samples, rad)
    else Ok (rv, rv_index, ctr, samples, rad).

  Definition sample_indices (k : Z) (samples : list Z) (rad : option (list T)) (state : rng_state K)
      : outcome (list Z * option (list T) * rng_state K) :=
    let len_c := match rad with None => g_len g | Some _ => 2 * (Z.quot (g_len g) 2) end in
    let rv := g_fun g (counter state) (key state) in
    '(_, rv_index, ctr, samples, rad) <-
       for_ 0 k (sample_step len_c (key state)) (rv, 0, counter state, samples, rad) ;;
    let ctr := if 0 <? rv_index then incr g ctr 1 else ctr in
    Ok (samples, rad, mk_state ctr (key state)).
End Iid.

(* ------------------------------------------------------------------ *)
(** * SparseDist and SparseSkOp *)

(** sparse_skops.hh 125-219: struct SparseDist.  [sd_iso2] is isometry_scale squared as
    a fraction (numerator, denominator): lines 108-114. *)
Record sparse_dist := {
  sd_rows : Z; sd_cols : Z; sd_axis : axis; sd_major : Z; sd_minor : Z;
  sd_iso2 : Z * Z; sd_vec_nnz : Z; sd_full_nnz : Z }.

(** sparse_skops.hh 200-218: constructor. *)
Definition mk_sparse_dist (n_rows n_cols vec_nnz : Z) (major_axis : axis) : outcome sparse_dist :=
  let dim_major := match major_axis with Short => Z.min n_rows n_cols | Long => Z.max n_rows n_cols end in
  let dim_minor := n_rows + n_cols - dim_major in
  req (n_rows >? 0) ;;
  req (n_cols >? 0) ;;
  req (vec_nnz >? 0) ;;
  req (vec_nnz <=? dim_major) ;;
  Ok {| sd_rows := n_rows; sd_cols := n_cols; sd_axis := major_axis;
        sd_major := dim_major; sd_minor := dim_minor;
        sd_iso2 := match major_axis with Short => (1, vec_nnz) | Long => (dim_major, vec_nnz * dim_minor) end;
        sd_vec_nnz := vec_nnz; sd_full_nnz := vec_nnz * dim_minor |}.

Section SparseSkop.
  Context {K F T : Type}.
  (** Everything the sampler gets from its environment: raw words, uneg11 values of the
      same RNG, width of sint_t, index computation of sample_indices_iid_uniform, sign
      test, the constants +-1 and the map (c,v) -> std::sqrt(c)*v, and the iteration
      order of std::unordered_map in major-axis vector number i. *)
  Record sparse_env := {
    se_raw : generator K Z;
    se_unif : generator K F;
    se_sb : Z;
    se_draw : Z -> F -> Z;
    se_nonneg : F -> bool;
    se_one : T; se_mone : T;
    se_sqrtmul : Z -> T -> T;
    se_order : Z -> list Z -> list Z }.

  Variable env : sparse_env.

  (** sparse_skops.hh 243-260: compute_next_state.  The ceiling of the double quotient
      vec_nnz/(len_c/2) is taken exactly (no rounding for vec_nnz < 2^53). *)
  Definition sparse_next_state (D : sparse_dist) (st : rng_state K) : rng_state K :=
    let L := g_len (se_raw env) in
    let '(num_mavec, incrs_per_mavec) :=
      match sd_axis D with
      | Short => (Z.max (sd_rows D) (sd_cols D), sd_vec_nnz D)
      | Long => (Z.min (sd_rows D) (sd_cols D), (2 * sd_vec_nnz D + L - 1) / L)
      end in
    mk_state (incr (se_raw env) (counter st) (num_mavec * incrs_per_mavec)) (key st).

  (** std::unordered_map<sint_t,T> as an association list without repeated keys, newest
      key first: counts (loc2count, exact integers) and first values (loc2scale). *)
  Definition umap (A : Type) := list (Z * A).
  Fixpoint ulookup {A} (m : umap A) (k : Z) : option A :=
    match m with [] => None | (k', v) :: m => if k' =? k then Some v else ulookup m k end.
  Fixpoint uset {A} (m : umap A) (k : Z) (v : A) : umap A :=
    match m with [] => [(k, v)] | (k', v') :: m => if k' =? k then (k, v) :: m else (k', v') :: uset m k v end.

  (** sparse_skops.hh 431-468: laso_merge_long_axis_vector_coo_data on arrays that start
      at offset [off].  Returns the arrays and loc2count.size(). *)
  Definition laso_scan (off i : Z) (lax : list Z) (vals : list T) (j : Z)
      (st : list Z * umap Z * umap T) : outcome (list Z * umap Z * umap T) :=
    let '(sax, cnt, scl) := st in
    sax <- wr sax (off + j) i ;;
    ell <- rd lax (off + j) ;;
    v <- rd vals (off + j) ;;
    match ulookup scl ell with
    | Some _ => Ok (sax, uset cnt ell (match ulookup cnt ell with Some c => c | None => 0 end + 1), scl)
    | None => Ok (sax, uset cnt ell 1, uset scl ell v)
    end.

  Definition laso_emit (off : Z) (cnt : umap Z) (scl : umap T) (ell : Z)
      (st : Z * list Z * list T) : outcome (Z * list Z * list T) :=
    let '(count, lax, vals) := st in
    match ulookup cnt ell, ulookup scl ell with
    | Some c, Some v =>
        lax <- wr lax (off + count) ell ;;
        vals <- wr vals (off + count) (se_sqrtmul env c v) ;;
        Ok (count + 1, lax, vals)
    | _, _ => UB
    end.

  Definition laso_merge (vec_nnz off i : Z) (vals : list T) (lax sax : list Z)
      : outcome (list T * list Z * list Z * Z) :=
    '(sax, cnt, scl) <- for_ 0 vec_nnz (laso_scan off i lax vals) (sax, [], []) ;;
    if zlen scl <? vec_nnz then
      '(_, lax, vals) <- foldM (laso_emit off cnt scl) (se_order env i (map fst cnt)) (0, lax, vals) ;;
      Ok (vals, lax, sax, zlen cnt)
    else Ok (vals, lax, sax, zlen cnt).

  (** Pointer arithmetic: sample_indices writes through idxs_long + off, vals + off. *)
  Definition sample_at (off n k : Z) (lax : list Z) (vals : list T) (state : rng_state K)
      : outcome (list Z * list T * rng_state K) :=
    if (off <? 0) || (zlen lax <? off) || (zlen vals <? off) then UB else
    let o := Z.to_nat off in
    '(lax', rad, st) <-
      sample_indices (se_unif env) (fun x => Ok (se_draw env n x)) (se_nonneg env) (se_one env) (se_mone env)
        k (skipn o lax) (Some (skipn o vals)) state ;;
    match rad with
    | Some vals' => Ok (firstn o lax ++ lax', firstn o vals ++ vals', st)
    | None => UB
    end.

  (** sparse_skops.hh 493-542: fill_sparse_unpacked_nosub.  Returns nnz, vals, rows, cols
      and the state. *)
  Definition fill_sparse_unpacked_nosub (D : sparse_dist) (vals : list T) (rows cols : list Z) (seed : rng_state K)
      : outcome (Z * list T * list Z * list Z * rng_state K) :=
    let rows_short := sd_rows D <=? sd_cols D in
    let idxs_short := if rows_short then rows else cols in
    let idxs_long := if rows_short then cols else rows in
    match sd_axis D with
    | Short =>
        '(idxs_short, imin, v, st) <-
          repeated_fisher_yates (se_raw env) (se_sb env) (se_one env) (se_mone env) seed
            (sd_vec_nnz D) (sd_major D) (sd_minor D) idxs_short (Some idxs_long) (Some vals) ;;
        match imin, v with
        | Some idxs_long, Some vals =>
            let '(rows, cols) := if rows_short then (idxs_short, idxs_long) else (idxs_long, idxs_short) in
            Ok (sd_vec_nnz D * sd_minor D, vals, rows, cols, st)
        | _, _ => UB
        end
    | Long =>
        '(off, vals, lax, sax, st) <-
          for_ 0 (sd_minor D)
            (fun i s =>
               let '(off, vals, lax, sax, st) := s in
               '(lax, vals, st) <- sample_at off (sd_major D) (sd_vec_nnz D) lax vals st ;;
               '(vals, lax, sax, count) <- laso_merge (sd_vec_nnz D) off i vals lax sax ;;
               Ok (off + count, vals, lax, sax, st))
            (0, vals, idxs_long, idxs_short, seed) ;;
        let '(rows, cols) := if rows_short then (sax, lax) else (lax, sax) in
        Ok (off, vals, rows, cols, st)
    end.

  (** sparse_skops.hh 267-427: struct SparseSkOp; None is the null pointer. *)
  Record sparse_skop := {
    ss_dist : sparse_dist; ss_seed : rng_state K; ss_next : rng_state K;
    ss_own : bool; ss_nnz : Z;
    ss_vals : option (list T); ss_rows : option (list Z); ss_cols : option (list Z) }.

  (** sparse_skops.hh 372-381: standard constructor. *)
  Definition mk_sparse_skop (D : sparse_dist) (seed : rng_state K) : sparse_skop :=
    {| ss_dist := D; ss_seed := seed; ss_next := sparse_next_state D seed;
       ss_own := true; ss_nnz := -1; ss_vals := None; ss_rows := None; ss_cols := None |}.

  (** sparse_skops.hh 565-580: fill_sparse(S).  [junkT], [junkZ]: contents of fresh arrays. *)
  Definition alloc {A} (own : bool) (n : Z) (junk : A) (b : option (list A)) : option (list A) :=
    match b with None => if own then Some (repeat junk (Z.to_nat n)) else None | Some l => Some l end.

  Definition fill_sparse (junkT : T) (junkZ : Z) (S : sparse_skop) : outcome sparse_skop :=
    let n := sd_full_nnz (ss_dist S) in
    let rows := alloc (ss_own S) n junkZ (ss_rows S) in
    let cols := alloc (ss_own S) n junkZ (ss_cols S) in
    let vals := alloc (ss_own S) n junkT (ss_vals S) in
    match rows, cols, vals with
    | Some rows, Some cols, Some vals =>
        '(nnz, vals, rows, cols, _) <- fill_sparse_unpacked_nosub (ss_dist S) vals rows cols (ss_seed S) ;;
        Ok {| ss_dist := ss_dist S; ss_seed := ss_seed S; ss_next := ss_next S; ss_own := ss_own S;
              ss_nnz := nnz; ss_vals := Some vals; ss_rows := Some rows; ss_cols := Some cols |}
    | _, _, _ => Throw
    end.
End SparseSkop.
Arguments sparse_env : clear implicits.
Arguments sparse_skop : clear implicits.
