(** The sketching drivers with the BLAS as a parameter. *)
From Verif Require Import Base Interleave Spec RngModel DenseModel SparseSkopModel SpFmtModel SpmmModel UtilModel SketchModel.

(** Any function with the arguments of blas::gemm (external): layout, transA, transB, m, n,
    k, alpha, A, lda, B, ldb, beta, C, ldc.  The result is the array C afterwards. *)
Definition blas_gemm (T : Type) : Type :=
  layout -> op -> op -> Z -> Z -> Z -> T -> list T -> Z -> list T -> Z -> T -> list T -> Z -> outcome (list T).

Section Drivers.
  Context {K W F T : Type}.
  Variable O : ops T.
  Variable cast : W -> T.
  Variable denv : dense_env K W T.
  Variable fsched : schedule T.
  Variable senv : sparse_env K F T.
  Variable junkT : T.
  Variable junkZ : Z.
  Variable sched : schedule (list T).
  Variable ssort : (Z * Z * T -> Z * Z * T -> bool) -> list (Z * Z * T) -> list (Z * Z * T).
  Variable nt : Z.
  Variable Q : cmp_ops T.
  Variable blas : blas_gemm T.

  (** skge.hh 181-200: lskge3 once S.buff is known to be nonnull. *)
  Definition lskge3_buff_with (l : layout) (opS opA : op) (d n m : Z) (alpha : T) (S : blas_op T) (ro_s co_s : Z)
      (A : list T) (lda : Z) (beta : T) (B : list T) (ldb : Z) : outcome (list T) :=
    let '(rows_submat_S, cols_submat_S) := dims_before_op d m opS in
    req (bo_rows S >=? rows_submat_S + ro_s) ;;
    req (bo_cols S >=? cols_submat_S + co_s) ;;
    let '(rows_A, cols_A) := dims_before_op m n opA in
    _ <- match l with
         | ColMajor => req (lda >=? rows_A) ;; req (ldb >=? d) ;; Ok tt
         | RowMajor => req (lda >=? cols_A) ;; req (ldb >=? n) ;; Ok tt
         end ;;
    let '(pos, lds) := offset_and_ldim (bo_layout S) (bo_rows S) (bo_cols S) ro_s co_s in
    S_ptr <- tail_at (bo_buff S) pos ;;
    let opS := if layout_eqb (bo_layout S) l then opS else flip_op opS in
    blas l opS opA d n m alpha S_ptr lds A lda beta B ldb.
  (** skge.hh 152-200: lskge3. *)
  Definition lskge3_with (l : layout) (opS opA : op) (d n m : Z) (alpha : T) (S : dense_skop K T) (ro_s co_s : Z)
      (A : list T) (lda : Z) (beta : T) (B : list T) (ldb : Z) : outcome (list T) :=
    let '(rows_submat_S, cols_submat_S) := dims_before_op d m opS in
    match ds_buff S with
    | None =>
        submat_S <- submatrix_as_blackbox cast denv fsched S rows_submat_S cols_submat_S ro_s co_s ;;
        lskge3_buff_with l opS opA d n m alpha submat_S 0 0 A lda beta B ldb
    | Some b => lskge3_buff_with l opS opA d n m alpha (dense_view S b) ro_s co_s A lda beta B ldb
    end.
  (** skge.hh 334-353. *)
  Definition rskge3_buff_with (l : layout) (opA opS : op) (m d n : Z) (alpha : T) (A : list T) (lda : Z)
      (S : blas_op T) (ro_s co_s : Z) (beta : T) (B : list T) (ldb : Z) : outcome (list T) :=
    let '(rows_submat_S, cols_submat_S) := dims_before_op n d opS in
    req (bo_rows S >=? rows_submat_S + ro_s) ;;
    req (bo_cols S >=? cols_submat_S + co_s) ;;
    let '(rows_A, cols_A) := dims_before_op m n opA in
    _ <- match l with
         | ColMajor => req (lda >=? rows_A) ;; req (ldb >=? m) ;; Ok tt
         | RowMajor => req (lda >=? cols_A) ;; req (ldb >=? d) ;; Ok tt
         end ;;
    let '(pos, lds) := offset_and_ldim (bo_layout S) (bo_rows S) (bo_cols S) ro_s co_s in
    S_ptr <- tail_at (bo_buff S) pos ;;
    let opS := if layout_eqb (bo_layout S) l then opS else flip_op opS in
    blas l opA opS m d n alpha A lda S_ptr lds beta B ldb.
  (** skge.hh 305-353: rskge3. *)
  Definition rskge3_with (l : layout) (opA opS : op) (m d n : Z) (alpha : T) (A : list T) (lda : Z)
      (S : dense_skop K T) (ro_s co_s : Z) (beta : T) (B : list T) (ldb : Z) : outcome (list T) :=
    let '(rows_submat_S, cols_submat_S) := dims_before_op n d opS in
    match ds_buff S with
    | None =>
        submat_S <- submatrix_as_blackbox cast denv fsched S rows_submat_S cols_submat_S ro_s co_s ;;
        rskge3_buff_with l opA opS m d n alpha A lda submat_S 0 0 beta B ldb
    | Some b => rskge3_buff_with l opA opS m d n alpha A lda (dense_view S b) ro_s co_s beta B ldb
    end.

  (** skge.hh 773-820, 945-989: sketch_general with a window.  Sparse operators do not use
      gemm. *)
  Definition sketch_general_left_with (l : layout) (opS opA : op) (d n m : Z) (alpha : T) (S : @skop K T) (ro_s co_s : Z)
      (A : list T) (lda : Z) (beta : T) (B : list T) (ldb : Z) : outcome (@skop K T * list T) :=
    match S with
    | SkDense D => B <- lskge3_with l opS opA d n m alpha D ro_s co_s A lda beta B ldb ;; Ok (S, B)
    | SkSparse D => '(D, B) <- lskges O senv junkT junkZ sched ssort nt l opS opA d n m alpha D ro_s co_s A lda beta B ldb ;; Ok (SkSparse D, B)
    end.
  Definition sketch_general_right_with (l : layout) (opA opS : op) (m d n : Z) (alpha : T) (A : list T) (lda : Z)
      (S : @skop K T) (ro_s co_s : Z) (beta : T) (B : list T) (ldb : Z) : outcome (@skop K T * list T) :=
    match S with
    | SkDense D => B <- rskge3_with l opA opS m d n alpha A lda D ro_s co_s beta B ldb ;; Ok (S, B)
    | SkSparse D => '(D, B) <- rskges O senv junkT junkZ sched ssort nt l opA opS m d n alpha A lda D ro_s co_s beta B ldb ;; Ok (SkSparse D, B)
    end.
  (** skge.hh 1071-1095, 1173-1197: sketch_general with the whole operator. *)
  Definition sketch_general_left_full_with (l : layout) (opS opA : op) (d n m : Z) (alpha : T) (S : @skop K T)
      (A : list T) (lda : Z) (beta : T) (B : list T) (ldb : Z) : outcome (@skop K T * list T) :=
    _ <- match opS with
         | NoTrans => req (skop_rows S =? d) ;; req (skop_cols S =? m) ;; Ok tt
         | Trans => req (skop_rows S =? m) ;; req (skop_cols S =? d) ;; Ok tt
         end ;;
    sketch_general_left_with l opS opA d n m alpha S 0 0 A lda beta B ldb.
  Definition sketch_general_right_full_with (l : layout) (opA opS : op) (m d n : Z) (alpha : T) (A : list T) (lda : Z)
      (S : @skop K T) (beta : T) (B : list T) (ldb : Z) : outcome (@skop K T * list T) :=
    _ <- match opS with
         | NoTrans => req (skop_rows S =? n) ;; req (skop_cols S =? d) ;; Ok tt
         | Trans => req (skop_rows S =? d) ;; req (skop_cols S =? n) ;; Ok tt
         end ;;
    sketch_general_right_with l opA opS m d n alpha A lda S 0 0 beta B ldb.
  (** skve.hh 140-164: sketch_vector with a window. *)
  Definition sketch_vector_with (opS : op) (d m : Z) (alpha : T) (S : @skop K T) (ro_s co_s : Z)
      (x : list T) (incx : Z) (beta : T) (y : list T) (incy : Z) : outcome (@skop K T * list T) :=
    let '(d_, m_) := match opS with Trans => (m, d) | NoTrans => (d, m) end in
    sketch_general_left_with RowMajor opS NoTrans d_ 1 m_ alpha S ro_s co_s x incx beta y incy.
  (** sksy.hh 158-177, 293-312: sketch_symmetric with a window. *)
  Definition sketch_symmetric_right_with (l : layout) (n d : Z) (alpha : T) (A : list T) (lda : Z) (S : @skop K T) (ro_s co_s : Z)
      (beta : T) (B : list T) (ldb : Z) (tol : T) : outcome (@skop K T * list T) :=
    _ <- require_symmetric O Q l A n lda tol ;;
    sketch_general_right_with l NoTrans NoTrans n d n alpha A lda S ro_s co_s beta B ldb.
  Definition sketch_symmetric_left_with (l : layout) (d n : Z) (alpha : T) (S : @skop K T) (ro_s co_s : Z) (A : list T) (lda : Z)
      (beta : T) (B : list T) (ldb : Z) (tol : T) : outcome (@skop K T * list T) :=
    _ <- require_symmetric O Q l A n lda tol ;;
    sketch_general_left_with l NoTrans NoTrans d n n alpha S ro_s co_s A lda beta B ldb.
  (** skve.hh 232-245: sketch_vector with the whole operator. *)
  Definition sketch_vector_full_with (opS : op) (alpha : T) (S : @skop K T)
      (x : list T) (incx : Z) (beta : T) (y : list T) (incy : Z) : outcome (@skop K T * list T) :=
    sketch_vector_with opS (skop_rows S) (skop_cols S) alpha S 0 0 x incx beta y incy.
  (** sksy.hh 406-423, 513-530: sketch_symmetric with the whole operator. *)
  Definition sketch_symmetric_right_full_with (l : layout) (alpha : T) (A : list T) (lda : Z) (S : @skop K T)
      (beta : T) (B : list T) (ldb : Z) (tol : T) : outcome (@skop K T * list T) :=
    let n := skop_rows S in
    let d := skop_cols S in
    _ <- require_symmetric O Q l A n lda tol ;;
    sketch_general_right_with l NoTrans NoTrans n d n alpha A lda S 0 0 beta B ldb.
  Definition sketch_symmetric_left_full_with (l : layout) (alpha : T) (S : @skop K T) (A : list T) (lda : Z)
      (beta : T) (B : list T) (ldb : Z) (tol : T) : outcome (@skop K T * list T) :=
    let d := skop_rows S in
    let n := skop_cols S in
    _ <- require_symmetric O Q l A n lda tol ;;
    sketch_general_left_with l NoTrans NoTrans d n n alpha S 0 0 A lda beta B ldb.
End Drivers.
