(** Sketching drivers: skge.hh, skve.hh, sksy.hh, sparse_data/sksp.hh. *)
From Verif Require Import Base Interleave Spec RngModel DenseModel SparseSkopModel SpFmtModel SpmmModel UtilModel.

(** A pointer into an array: the tail that starts there.  Forming a pointer outside
    [0, length] is undefined. *)
Definition tail_at {A} (b : list A) (pos : Z) : outcome (list A) :=
  if (0 <=? pos) && (pos <=? zlen b) then Ok (skipn (Z.to_nat pos) b) else UB.

Section Gemm.
  Context {T : Type}.
  Variable O : ops T.

  (** blas::gemm of BLAS++ (external; its documented contract).  Dimension and
      leading-dimension errors raise; op(A) and op(B) are not read if alpha == 0, C is not
      read if beta == 0. *)
  Definition gemm_checks (l : layout) (opA opB : op) (m n k lda ldb ldc : Z) : bool :=
    (0 <=? m) && (0 <=? n) && (0 <=? k) &&
    (let '(ra, ca) := dims_before_op m k opA in match l with ColMajor => ra <=? lda | RowMajor => ca <=? lda end) &&
    (let '(rb, cb) := dims_before_op k n opB in match l with ColMajor => rb <=? ldb | RowMajor => cb <=? ldb end) &&
    (match l with ColMajor => m <=? ldc | RowMajor => n <=? ldc end).

  Definition dot (l : layout) (opA opB : op) (k : Z) (A : list T) (lda : Z) (B : list T) (ldb i j : Z) : outcome T :=
    for_ 0 k (fun p s =>
      a <- rd A (match opA with NoTrans => addr l lda i p | Trans => addr l lda p i end) ;;
      b <- rd B (match opB with NoTrans => addr l ldb p j | Trans => addr l ldb j p end) ;;
      Ok (o_add O s (o_mul O a b))) (o_zero O).

  Definition gemm (l : layout) (opA opB : op) (m n k : Z) (alpha : T) (A : list T) (lda : Z) (B : list T) (ldb : Z)
      (beta : T) (C : list T) (ldc : Z) : outcome (list T) :=
    req (gemm_checks l opA opB m n k lda ldb ldc) ;;
    for_ 0 n (fun j C => for_ 0 m (fun i C =>
      c <- (if o_eqb O beta (o_zero O) then Ok (o_zero O)
            else x <- rd C (addr l ldc i j) ;; Ok (o_mul O beta x)) ;;
      v <- (if o_eqb O alpha (o_zero O) then Ok c
            else s <- dot l opA opB k A lda B ldb i j ;; Ok (o_add O (o_mul O alpha s) c)) ;;
      wr C (addr l ldc i j) v) C) C.
End Gemm.

Section Sketch.
  Context {K W F T : Type}.
  Variable O : ops T.
  Variable cast : W -> T.
  Variable denv : dense_env K W T.
  Variable fsched : schedule T.
  Variable senv : sparse_env K F T.
  Variable junkT : T.
  Variable junkZ : Z.
  Variable sched : schedule (list T).
  Variable ssort : (Z * Z * T -> Z * Z * T -> bool) -> list (Z * Z * T) -> list (Z * Z * T).
  (** Size of the thread team (both reads of it, see SpmmModel). *)
  Variable nt : Z.

  (** The members of a materialised DenseSkOp that the drivers read. *)
  Definition dense_view (S : dense_skop K T) (b : list T) : blas_op T :=
    {| bo_layout := ds_layout S; bo_rows := dd_rows (ds_dist S); bo_cols := dd_cols (ds_dist S);
       bo_buff := b; bo_ldim := dd_major (ds_dist S) |}.

  (** skge.hh 181-200: lskge3 once S.buff is known to be nonnull. *)
  Definition lskge3_buff (l : layout) (opS opA : op) (d n m : Z) (alpha : T) (S : blas_op T) (ro_s co_s : Z)
      (A : list T) (lda : Z) (beta : T) (B : list T) (ldb : Z) : outcome (list T) :=
    let '(rows_submat_S, cols_submat_S) := dims_before_op d m opS in
    req (bo_rows S >=? rows_submat_S + ro_s) ;;
    req (bo_cols S >=? cols_submat_S + co_s) ;;
    let '(rows_A, cols_A) := dims_before_op m n opA in
    _ <- match l with
         | ColMajor => req (lda >=? rows_A) ;; req (ldb >=? d) ;; Ok tt
         | RowMajor => req (lda >=? cols_A) ;; req (ldb >=? n) ;; Ok tt
         end ;;
    let '(pos, lds) := offset_and_ldim (bo_layout S) (bo_rows S) (bo_cols S) ro_s co_s in
    S_ptr <- tail_at (bo_buff S) pos ;;
    let opS := if layout_eqb (bo_layout S) l then opS else flip_op opS in
    gemm O l opS opA d n m alpha S_ptr lds A lda beta B ldb.

  (** skge.hh 152-200: lskge3.  DenseSkOp is not modified. *)
  Definition lskge3 (l : layout) (opS opA : op) (d n m : Z) (alpha : T) (S : dense_skop K T) (ro_s co_s : Z)
      (A : list T) (lda : Z) (beta : T) (B : list T) (ldb : Z) : outcome (list T) :=
    let '(rows_submat_S, cols_submat_S) := dims_before_op d m opS in
    match ds_buff S with
    | None =>
        submat_S <- submatrix_as_blackbox cast denv fsched S rows_submat_S cols_submat_S ro_s co_s ;;
        lskge3_buff l opS opA d n m alpha submat_S 0 0 A lda beta B ldb
    | Some b => lskge3_buff l opS opA d n m alpha (dense_view S b) ro_s co_s A lda beta B ldb
    end.

  (** skge.hh 334-353. *)
  Definition rskge3_buff (l : layout) (opA opS : op) (m d n : Z) (alpha : T) (A : list T) (lda : Z)
      (S : blas_op T) (ro_s co_s : Z) (beta : T) (B : list T) (ldb : Z) : outcome (list T) :=
    let '(rows_submat_S, cols_submat_S) := dims_before_op n d opS in
    req (bo_rows S >=? rows_submat_S + ro_s) ;;
    req (bo_cols S >=? cols_submat_S + co_s) ;;
    let '(rows_A, cols_A) := dims_before_op m n opA in
    _ <- match l with
         | ColMajor => req (lda >=? rows_A) ;; req (ldb >=? m) ;; Ok tt
         | RowMajor => req (lda >=? cols_A) ;; req (ldb >=? d) ;; Ok tt
         end ;;
    let '(pos, lds) := offset_and_ldim (bo_layout S) (bo_rows S) (bo_cols S) ro_s co_s in
    S_ptr <- tail_at (bo_buff S) pos ;;
    let opS := if layout_eqb (bo_layout S) l then opS else flip_op opS in
    gemm O l opA opS m d n alpha A lda S_ptr lds beta B ldb.

  (** skge.hh 305-353: rskge3. *)
  Definition rskge3 (l : layout) (opA opS : op) (m d n : Z) (alpha : T) (A : list T) (lda : Z)
      (S : dense_skop K T) (ro_s co_s : Z) (beta : T) (B : list T) (ldb : Z) : outcome (list T) :=
    let '(rows_submat_S, cols_submat_S) := dims_before_op n d opS in
    match ds_buff S with
    | None =>
        submat_S <- submatrix_as_blackbox cast denv fsched S rows_submat_S cols_submat_S ro_s co_s ;;
        rskge3_buff l opA opS m d n alpha A lda submat_S 0 0 beta B ldb
    | Some b => rskge3_buff l opA opS m d n alpha A lda (dense_view S b) ro_s co_s beta B ldb
    end.

  (** sparse_skops.hh 637-643: coo_view_of_skop.  The view shares the arrays of S. *)
  Definition coo_view_of_skop (S : sparse_skop K T) : outcome (sparse_skop K T * coo_matrix T) :=
    S <- (if ss_nnz S <=? 0 then fill_sparse senv junkT junkZ S else Ok S) ;;
    M <- mk_coo_expert (sd_rows (ss_dist S)) (sd_cols (ss_dist S)) (ss_nnz S) (ss_vals S) (ss_rows S) (ss_cols S) true BZero ;;
    Ok (S, M).

  (** The operator after its arrays were accessed through a COO view. *)
  Definition with_arrays (S : sparse_skop K T) (A : spmat T) : sparse_skop K T :=
    match A with
    | SpCoo M => {| ss_dist := ss_dist S; ss_seed := ss_seed S; ss_next := ss_next S; ss_own := ss_own S;
                    ss_nnz := ss_nnz S; ss_vals := co_vals M; ss_rows := co_rows M; ss_cols := co_cols M |}
    | _ => S
    end.

  (** skge.hh 486-488: the part of lskges after the test for S.nnz < 0. *)
  Definition lskges_filled (l : layout) (opS opA : op) (d n m : Z) (alpha : T) (S : sparse_skop K T) (ro_s co_s : Z)
      (A : list T) (lda : Z) (beta : T) (B : list T) (ldb : Z) : outcome (sparse_skop K T * list T) :=
    '(S1, M) <- coo_view_of_skop S ;;
    '(M, B) <- left_spmm O sched ssort nt nt l opS opA d n m alpha (SpCoo M) ro_s co_s A lda beta B ldb ;;
    Ok (with_arrays S1 M, B).

  (** skge.hh 463-489: lskges.  The recursive call is on a filled copy, for which the test
      S.nnz < 0 fails. *)
  Definition lskges (l : layout) (opS opA : op) (d n m : Z) (alpha : T) (S : sparse_skop K T) (ro_s co_s : Z)
      (A : list T) (lda : Z) (beta : T) (B : list T) (ldb : Z) : outcome (sparse_skop K T * list T) :=
    if ss_nnz S <? 0 then
      copy <- fill_sparse senv junkT junkZ (mk_sparse_skop senv (ss_dist S) (ss_seed S)) ;;
      '(_, B) <- lskges_filled l opS opA d n m alpha copy ro_s co_s A lda beta B ldb ;;
      Ok (S, B)
    else lskges_filled l opS opA d n m alpha S ro_s co_s A lda beta B ldb.

  (** skge.hh 618-622: the part of rskges after the [if]. *)
  Definition rskges_filled (l : layout) (opA opS : op) (m d n : Z) (alpha : T) (A : list T) (lda : Z)
      (S : sparse_skop K T) (ro_s co_s : Z) (beta : T) (B : list T) (ldb : Z) : outcome (sparse_skop K T * list T) :=
    '(S1, M) <- coo_view_of_skop S ;;
    '(M, B) <- right_spmm O sched ssort nt nt l opA opS m d n alpha A lda (SpCoo M) ro_s co_s beta B ldb ;;
    Ok (with_arrays S1 M, B).

  (** skge.hh 596-624: rskges.  There is no return after the recursive call, so control
      continues with the original S. *)
  Definition rskges (l : layout) (opA opS : op) (m d n : Z) (alpha : T) (A : list T) (lda : Z)
      (S : sparse_skop K T) (ro_s co_s : Z) (beta : T) (B : list T) (ldb : Z) : outcome (sparse_skop K T * list T) :=
    B <- (if ss_nnz S <? 0 then
            copy <- fill_sparse senv junkT junkZ (mk_sparse_skop senv (ss_dist S) (ss_seed S)) ;;
            '(_, B) <- rskges_filled l opA opS m d n alpha A lda copy ro_s co_s beta B ldb ;;
            Ok B
          else Ok B) ;;
    rskges_filled l opA opS m d n alpha A lda S ro_s co_s beta B ldb.

  (** sparse_data/sksp.hh 163-183: lsksp3 once S.buff is nonnull. *)
  Definition sp_dims (A : spmat T) : Z * Z :=
    match A with SpCoo M => (co_nr M, co_nc M) | SpCsr M => (cr_nr M, cr_nc M) | SpCsc M => (cc_nr M, cc_nc M) end.
  Definition lsksp3_buff (l : layout) (opS opA : op) (d n m : Z) (alpha : T) (S : blas_op T) (ro_s co_s : Z)
      (A : spmat T) (ro_a co_a : Z) (beta : T) (B : list T) (ldb : Z) : outcome (spmat T * list T) :=
    let '(rows_submat_S, cols_submat_S) := dims_before_op d m opS in
    let '(rows_submat_A, cols_submat_A) := dims_before_op m n opA in
    req (fst (sp_dims A) >=? rows_submat_A + ro_a) ;;
    req (snd (sp_dims A) >=? cols_submat_A + co_a) ;;
    req (bo_rows S >=? rows_submat_S + ro_s) ;;
    req (bo_cols S >=? cols_submat_S + co_s) ;;
    req (match l with ColMajor => ldb >=? d | RowMajor => ldb >=? n end) ;;
    let '(pos, lds) := offset_and_ldim (bo_layout S) (bo_rows S) (bo_cols S) ro_s co_s in
    S_ptr <- tail_at (bo_buff S) pos ;;
    let opS := if layout_eqb (bo_layout S) l then opS else flip_op opS in
    right_spmm O sched ssort nt nt l opS opA d n m alpha S_ptr lds A ro_a co_a beta B ldb.

  (** sparse_data/sksp.hh 132-183: lsksp3. *)
  Definition lsksp3 (l : layout) (opS opA : op) (d n m : Z) (alpha : T) (S : dense_skop K T) (ro_s co_s : Z)
      (A : spmat T) (ro_a co_a : Z) (beta : T) (B : list T) (ldb : Z) : outcome (spmat T * list T) :=
    let '(rows_submat_S, cols_submat_S) := dims_before_op d m opS in
    match ds_buff S with
    | None =>
        submat_S <- submatrix_as_blackbox cast denv fsched S rows_submat_S cols_submat_S ro_s co_s ;;
        lsksp3_buff l opS opA d n m alpha submat_S 0 0 A ro_a co_a beta B ldb
    | Some b => lsksp3_buff l opS opA d n m alpha (dense_view S b) ro_s co_s A ro_a co_a beta B ldb
    end.

  (** sparse_data/sksp.hh 307-327. *)
  Definition rsksp3_buff (l : layout) (opA opS : op) (m d n : Z) (alpha : T) (A : spmat T) (ro_a co_a : Z)
      (S : blas_op T) (ro_s co_s : Z) (beta : T) (B : list T) (ldb : Z) : outcome (spmat T * list T) :=
    let '(rows_submat_S, cols_submat_S) := dims_before_op n d opS in
    let '(rows_submat_A, cols_submat_A) := dims_before_op m n opA in
    req (fst (sp_dims A) >=? rows_submat_A + ro_a) ;;
    req (snd (sp_dims A) >=? cols_submat_A + co_a) ;;
    req (bo_rows S >=? rows_submat_S + ro_s) ;;
    req (bo_cols S >=? cols_submat_S + co_s) ;;
    req (match l with ColMajor => ldb >=? m | RowMajor => ldb >=? d end) ;;
    let '(pos, lds) := offset_and_ldim (bo_layout S) (bo_rows S) (bo_cols S) ro_s co_s in
    S_ptr <- tail_at (bo_buff S) pos ;;
    let opS := if layout_eqb (bo_layout S) l then opS else flip_op opS in
    left_spmm O sched ssort nt nt l opA opS m d n alpha A ro_a co_a S_ptr lds beta B ldb.

  (** sparse_data/sksp.hh 277-327: rsksp3. *)
  Definition rsksp3 (l : layout) (opA opS : op) (m d n : Z) (alpha : T) (A : spmat T) (ro_a co_a : Z)
      (S : dense_skop K T) (ro_s co_s : Z) (beta : T) (B : list T) (ldb : Z) : outcome (spmat T * list T) :=
    let '(rows_submat_S, cols_submat_S) := dims_before_op n d opS in
    match ds_buff S with
    | None =>
        submat_S <- submatrix_as_blackbox cast denv fsched S rows_submat_S cols_submat_S ro_s co_s ;;
        rsksp3_buff l opA opS m d n alpha A ro_a co_a submat_S 0 0 beta B ldb
    | Some b => rsksp3_buff l opA opS m d n alpha A ro_a co_a (dense_view S b) ro_s co_s beta B ldb
    end.

  (** sparse_data/sksp.hh 418-437, 520-539: sketch_sparse, both overloads. *)
  Definition sketch_sparse_left (l : layout) (opS opA : op) (d n m : Z) (alpha : T) (S : dense_skop K T) (ro_s co_s : Z)
      (A : spmat T) (beta : T) (B : list T) (ldb : Z) : outcome (spmat T * list T) :=
    lsksp3 l opS opA d n m alpha S ro_s co_s A 0 0 beta B ldb.
  Definition sketch_sparse_right (l : layout) (opA opS : op) (m d n : Z) (alpha : T) (A : spmat T)
      (S : dense_skop K T) (ro_s co_s : Z) (beta : T) (B : list T) (ldb : Z) : outcome (spmat T * list T) :=
    rsksp3 l opA opS m d n alpha A 0 0 S ro_s co_s beta B ldb.

  (** The two classes that satisfy the SketchingOperator concept. *)
  Inductive skop := SkDense (S : dense_skop K T) | SkSparse (S : sparse_skop K T).
  Definition skop_rows (S : skop) : Z := match S with SkDense D => dd_rows (ds_dist D) | SkSparse D => sd_rows (ss_dist D) end.
  Definition skop_cols (S : skop) : Z := match S with SkDense D => dd_cols (ds_dist D) | SkSparse D => sd_cols (ss_dist D) end.

  (** skge.hh 773-820, 945-989: sketch_general with a window, operator on the left / right. *)
  Definition sketch_general_left (l : layout) (opS opA : op) (d n m : Z) (alpha : T) (S : skop) (ro_s co_s : Z)
      (A : list T) (lda : Z) (beta : T) (B : list T) (ldb : Z) : outcome (skop * list T) :=
    match S with
    | SkDense D => B <- lskge3 l opS opA d n m alpha D ro_s co_s A lda beta B ldb ;; Ok (S, B)
    | SkSparse D => '(D, B) <- lskges l opS opA d n m alpha D ro_s co_s A lda beta B ldb ;; Ok (SkSparse D, B)
    end.
  Definition sketch_general_right (l : layout) (opA opS : op) (m d n : Z) (alpha : T) (A : list T) (lda : Z)
      (S : skop) (ro_s co_s : Z) (beta : T) (B : list T) (ldb : Z) : outcome (skop * list T) :=
    match S with
    | SkDense D => B <- rskge3 l opA opS m d n alpha A lda D ro_s co_s beta B ldb ;; Ok (S, B)
    | SkSparse D => '(D, B) <- rskges l opA opS m d n alpha A lda D ro_s co_s beta B ldb ;; Ok (SkSparse D, B)
    end.

  (** skge.hh 1071-1095, 1173-1197: sketch_general with the whole operator. *)
  Definition sketch_general_left_full (l : layout) (opS opA : op) (d n m : Z) (alpha : T) (S : skop)
      (A : list T) (lda : Z) (beta : T) (B : list T) (ldb : Z) : outcome (skop * list T) :=
    _ <- match opS with
         | NoTrans => req (skop_rows S =? d) ;; req (skop_cols S =? m) ;; Ok tt
         | Trans => req (skop_rows S =? m) ;; req (skop_cols S =? d) ;; Ok tt
         end ;;
    sketch_general_left l opS opA d n m alpha S 0 0 A lda beta B ldb.
  Definition sketch_general_right_full (l : layout) (opA opS : op) (m d n : Z) (alpha : T) (A : list T) (lda : Z)
      (S : skop) (beta : T) (B : list T) (ldb : Z) : outcome (skop * list T) :=
    _ <- match opS with
         | NoTrans => req (skop_rows S =? n) ;; req (skop_cols S =? d) ;; Ok tt
         | Trans => req (skop_rows S =? d) ;; req (skop_cols S =? n) ;; Ok tt
         end ;;
    sketch_general_right l opA opS m d n alpha A lda S 0 0 beta B ldb.

  (** skve.hh 140-164: sketch_vector with a window; d, m are the dimensions of the window. *)
  Definition sketch_vector (opS : op) (d m : Z) (alpha : T) (S : skop) (ro_s co_s : Z)
      (x : list T) (incx : Z) (beta : T) (y : list T) (incy : Z) : outcome (skop * list T) :=
    let '(d_, m_) := match opS with Trans => (m, d) | NoTrans => (d, m) end in
    sketch_general_left RowMajor opS NoTrans d_ 1 m_ alpha S ro_s co_s x incx beta y incy.
  (** skve.hh 232-245. *)
  Definition sketch_vector_full (opS : op) (alpha : T) (S : skop)
      (x : list T) (incx : Z) (beta : T) (y : list T) (incy : Z) : outcome (skop * list T) :=
    sketch_vector opS (skop_rows S) (skop_cols S) alpha S 0 0 x incx beta y incy.

  Variable Q : cmp_ops T.
  (** sksy.hh 158-177: B = alpha*A*S + beta*B. *)
  Definition sketch_symmetric_right (l : layout) (n d : Z) (alpha : T) (A : list T) (lda : Z) (S : skop) (ro_s co_s : Z)
      (beta : T) (B : list T) (ldb : Z) (tol : T) : outcome (skop * list T) :=
    _ <- require_symmetric O Q l A n lda tol ;;
    sketch_general_right l NoTrans NoTrans n d n alpha A lda S ro_s co_s beta B ldb.
  (** sksy.hh 293-312: B = alpha*S*A + beta*B. *)
  Definition sketch_symmetric_left (l : layout) (d n : Z) (alpha : T) (S : skop) (ro_s co_s : Z) (A : list T) (lda : Z)
      (beta : T) (B : list T) (ldb : Z) (tol : T) : outcome (skop * list T) :=
    _ <- require_symmetric O Q l A n lda tol ;;
    sketch_general_left l NoTrans NoTrans d n n alpha S ro_s co_s A lda beta B ldb.
  (** sksy.hh 406-423, 513-530: whole operator. *)
  Definition sketch_symmetric_right_full (l : layout) (alpha : T) (A : list T) (lda : Z) (S : skop)
      (beta : T) (B : list T) (ldb : Z) (tol : T) : outcome (skop * list T) :=
    let n := skop_rows S in
    let d := skop_cols S in
    _ <- require_symmetric O Q l A n lda tol ;;
    sketch_general_right l NoTrans NoTrans n d n alpha A lda S 0 0 beta B ldb.
  Definition sketch_symmetric_left_full (l : layout) (alpha : T) (S : skop) (A : list T) (lda : Z)
      (beta : T) (B : list T) (ldb : Z) (tol : T) : outcome (skop * list T) :=
    let d := skop_rows S in
    let n := skop_cols S in
    _ <- require_symmetric O Q l A n lda tol ;;
    sketch_general_left l NoTrans NoTrans d n n alpha S 0 0 A lda beta B ldb.
End Sketch.
