(** Sampling without replacement and fill_sparse again, with every operation of the index
    type checked.  The arithmetic is that of SparseSkopModel.v; an int64_t product, or a sum
    of two values of type sint_t, outside its type is undefined behaviour; a conversion to
    sint_t wraps.  [sb] is the width of sint_t, 32 (int) or 64 (int64_t): narrower types,
    which C++ promotes to int before adding, are not meant. *)
From Verif Require Import Base Spec RngModel DenseModel SparseSkopModel OverflowModel.

(** One operation on two values of type sint_t with mathematical result [z]. *)
Definition cks (sb z : Z) : outcome Z :=
  if (- 2 ^ (sb - 1) <=? z) && (z <=? sint_max sb) then Ok z else UB.

Section FisherYates64.
  Context {K T : Type}.
  Variable g : generator K Z.
  Variable sb : Z.
  Variables one mone : T.

  (** sparse_skops.hh 75-91: one step of the shuffle.  The sum j + rv[0] % (dim_major - j) is
      an int64_t (or unsigned) sum below dim_major and cannot overflow. *)
  Definition fy_step64 (k : K) (dim_major offset i j : Z) (st : fy_state (T := T)) : outcome fy_state :=
    let '(work, pivots, ctr, imaj, imin, vals) := st in
    let rv := g_fun g ctr k in
    w0 <- rd rv 0 ;;
    if dim_major - j =? 0 then UB else
    let ell := to_sint sb (j + Z.modulo w0 (dim_major - j)) in
    pivots <- wr pivots j ell ;;
    swap <- rd work ell ;;
    wj <- rd work j ;;
    work <- wr work ell wj ;;
    work <- wr work j swap ;;
    p <- cks sb (j + offset) ;;
    imaj <- wr imaj p swap ;;
    w1 <- rd rv 1 ;;
    vals <- wr_opt vals p (if Z.modulo w1 2 =? 0 then one else mone) ;;
    imin <- wr_opt imin p i ;;
    Ok (work, pivots, incr g ctr 1, imaj, imin, vals).

  (** sparse_skops.hh 96-102: undo the swaps.  vec_nnz - j is an int64_t difference of values
      between 0 and vec_nnz and cannot overflow. *)
  Definition fy_restore64 (vec_nnz offset : Z) (pivots imaj : list Z) (j : Z) (work : list Z)
      : outcome (list Z) :=
    let jj := vec_nnz - j in
    p <- cks sb (jj + offset) ;;
    swap <- rd imaj p ;;
    ell <- rd pivots jj ;;
    w <- rd work ell ;;
    work <- wr work jj w ;;
    wr work ell swap.

  (** sparse_skops.hh 71-103: one major-axis vector.  i * vec_nnz is an int64_t product,
      converted to sint_t. *)
  Definition fy_vector64 (k : K) (ctr vec_nnz dim_major i : Z)
      (st : list Z * list Z * list Z * option (list Z) * option (list T))
      : outcome (list Z * list Z * list Z * option (list Z) * option (list T)) :=
    let '(work, pivots, imaj, imin, vals) := st in
    o <- ck (i * vec_nnz) ;;
    let offset := to_sint sb o in
    let ctr_work := incr g ctr offset in
    if vec_nnz >? sint_max sb then UB else
    '(work, pivots, _, imaj, imin, vals) <-
       for_ 0 vec_nnz (fy_step64 k dim_major offset i) (work, pivots, ctr_work, imaj, imin, vals) ;;
    work <- for_ 1 (vec_nnz + 1) (fy_restore64 vec_nnz offset pivots imaj) work ;;
    Ok (work, pivots, imaj, imin, vals).

  (** sparse_skops.hh 52-106: sparse::repeated_fisher_yates. *)
  Definition repeated_fisher_yates64 (state : rng_state K) (vec_nnz dim_major dim_minor : Z)
      (imaj : list Z) (imin : option (list Z)) (vals : option (list T))
      : outcome (list Z * option (list Z) * option (list T) * rng_state K) :=
    if vec_nnz >? dim_major then Throw else
    req (0 <=? dim_major) ;;
    if dim_major >? sint_max sb then UB else
    let work := range 0 dim_major in
    req (0 <=? vec_nnz) ;;
    let pivots := repeat 0 (Z.to_nat vec_nnz) in
    if dim_minor >? sint_max sb then UB else
    '(_, _, imaj, imin, vals) <-
       for_ 0 dim_minor (fy_vector64 (key state) (counter state) vec_nnz dim_major)
            (work, pivots, imaj, imin, vals) ;;
    total <- ck (dim_minor * vec_nnz) ;;
    Ok (imaj, imin, vals, mk_state (incr g (counter state) total) (key state)).
End FisherYates64.

(** sparse_skops.hh 236-241: public repeated_fisher_yates(k, n, r, samples, state). *)
Definition fisher_yates_public64 {K} (g : generator K Z) (sb : Z) (k n r : Z) (samples : list Z) (state : rng_state K)
    : outcome (list Z * rng_state K) :=
  '(imaj, _, _, st) <- repeated_fisher_yates64 g sb tt tt state k n r samples None None ;;
  Ok (imaj, st).

Section Fill64.
  Context {K F T : Type}.
  Variable env : sparse_env K F T.
  (** sparse_skops.hh 493-520: fill_sparse_unpacked_nosub for major axis Short.  The Long-axis
      branch computes no positions in sint_t and is left as in SparseSkopModel.v. *)
  Definition fill_sparse_unpacked_nosub64 (D : sparse_dist) (vals : list T) (rows cols : list Z) (seed : rng_state K)
      : outcome (Z * list T * list Z * list Z * rng_state K) :=
    let rows_short := sd_rows D <=? sd_cols D in
    let idxs_short := if rows_short then rows else cols in
    let idxs_long := if rows_short then cols else rows in
    match sd_axis D with
    | Short =>
        '(idxs_short, imin, v, st) <-
          repeated_fisher_yates64 (se_raw env) (se_sb env) (se_one env) (se_mone env) seed
            (sd_vec_nnz D) (sd_major D) (sd_minor D) idxs_short (Some idxs_long) (Some vals) ;;
        match imin, v with
        | Some idxs_long, Some vals =>
            let '(rows, cols) := if rows_short then (idxs_short, idxs_long) else (idxs_long, idxs_short) in
            nnz <- ck (sd_vec_nnz D * sd_minor D) ;;
            Ok (nnz, vals, rows, cols, st)
        | _, _ => UB
        end
    | Long => fill_sparse_unpacked_nosub env D vals rows cols seed
    end.
  (** sparse_skops.hh 564-580: fill_sparse(S). *)
  Definition fill_sparse64 (junkT : T) (junkZ : Z) (S : sparse_skop K T) : outcome (sparse_skop K T) :=
    let n := sd_full_nnz (ss_dist S) in
    let rows := alloc (ss_own S) n junkZ (ss_rows S) in
    let cols := alloc (ss_own S) n junkZ (ss_cols S) in
    let vals := alloc (ss_own S) n junkT (ss_vals S) in
    match rows, cols, vals with
    | Some rows, Some cols, Some vals =>
        '(nnz, vals, rows, cols, _) <- fill_sparse_unpacked_nosub64 (ss_dist S) vals rows cols (ss_seed S) ;;
        Ok {| ss_dist := ss_dist S; ss_seed := ss_seed S; ss_next := ss_next S; ss_own := ss_own S;
              ss_nnz := nnz; ss_vals := Some vals; ss_rows := Some rows; ss_cols := Some cols |}
    | _, _, _ => Throw
    end.
End Fill64.
