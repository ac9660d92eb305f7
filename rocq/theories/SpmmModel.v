(** Sparse-times-dense products: kernels and dispatch.

    Dense inputs are read-only lists; a C++ pointer into the middle of an array is the
    corresponding tail of the list.  Index arithmetic is exact (Z): every address that
    is formed is checked against the length of its array.

    A parallel loop is a list of tasks, each the list of updates of elements of C made by
    one iteration (or one thread), executed under a schedule (Interleave.v).  An update
    (p, [a1;...;ak]) is  C[p] = (..(C[p] + a1) + ..) + ak. *)
From Verif Require Import Base Interleave Spec SparseSkopModel SpFmtModel.

(** Scalar operations used by the kernels; [o_eqb] is operator==. *)
Record ops (T : Type) := { o_add : T -> T -> T; o_mul : T -> T -> T; o_zero : T; o_one : T; o_eqb : T -> T -> bool }.
Arguments o_add {T} _. Arguments o_mul {T} _. Arguments o_zero {T} _. Arguments o_one {T} _. Arguments o_eqb {T} _.

(** base.hh 194-206: layout_to_strides, as (inter_row_stride, inter_col_stride). *)
Definition layout_to_strides (l : layout) (ld : Z) : Z * Z :=
  match l with ColMajor => (1, ld) | RowMajor => (ld, 1) end.

(** Sum of two C++ ints; overflow is undefined. *)
Definition add_int (a b : Z) : outcome Z :=
  if (- 2 ^ 31 <=? a + b) && (a + b <? 2 ^ 31) then Ok (a + b) else UB.

Inductive spmat (T : Type) := SpCoo (M : coo_matrix T) | SpCsr (M : csr_matrix T) | SpCsc (M : csc_matrix T).
Arguments SpCoo {T} M. Arguments SpCsr {T} M. Arguments SpCsc {T} M.

Section Spmm.
  Context {T : Type}.
  Variable O : ops T.
  Notation add := (o_add O). Notation mul := (o_mul O). Notation zero := (o_zero O). Notation one := (o_one O).

  Definition acc (addends : list T) (x : T) : T := fold_left add addends x.
  Definition update := (Z * list T)%type.
  Variable sched : schedule (list T).

  (** blas::scal, textbook loop from position [off]. *)
  Definition scal (n : Z) (a : T) (x : list T) (off inc : Z) : outcome (list T) :=
    for_ 0 n (fun i x => v <- rd x (off + i * inc) ;; wr x (off + i * inc) (mul a v)) x.
  (** util.hh 52-61: safe_scal on the elements x[off], x[off+inc], ... *)
  Definition safe_scal (n : Z) (a : T) (x : list T) (off inc : Z) : outcome (list T) :=
    if o_eqb O a zero
    then for_ 0 n (fun i x => wr x (off + i * inc) zero) x
    else scal n a x off inc.

  (** [vals = new T[nnz]{}; blas::axpy(nnz, alpha, A.vals, 1, vals, 1)] unless alpha == 1
      (csr_spmm_impl.hh 86-90, csc_spmm_impl.hh 107-111).  blas::axpy, textbook: y += alpha*x. *)
  Definition scaled_vals (alpha : T) (nnz : Z) (vals : option (list T)) : outcome (option (list T)) :=
    if o_eqb O alpha one then Ok vals
    else l <- mapM (fun e => v <- rdp vals e ;; Ok (add zero (mul alpha v))) (range 0 nnz) ;; Ok (Some l).

  (** blas::axpy(n, scale, &B[offb], 1, &C[offc], 1) as updates of C. *)
  Definition axpy_updates (n : Z) (scale : T) (B : list T) (offb offc : Z) : outcome (list update) :=
    mapM (fun q => b <- rd B (offb + q) ;; Ok (offc + q, [mul scale b])) (range 0 n).

  (** csr_spmm_impl.hh 47-69: apply_csr_to_vector_from_left_ik.  v = &B[offv], Av = &C[offAv];
      [int j = colidxs[ell]] keeps the low 32 bits. *)
  Definition csr_vector_ik (vals : option (list T)) (ptr idx : option (list Z)) (B : list T) (offv incv len_Av offAv incAv : Z)
      : outcome (list update) :=
    mapM (fun i =>
      lo <- rdp ptr i ;;
      hi <- rdp ptr (i + 1) ;;
      addends <- mapM (fun ell =>
        j <- rdp idx ell ;;
        Aij <- rdp vals ell ;;
        x <- rd B (offv + to_sint 32 j * incv) ;;
        Ok (mul Aij x)) (range lo hi) ;;
      Ok (offAv + i * incAv, addends)) (range 0 len_Av).

  (** csr_spmm_impl.hh 71-122: apply_csr_left_jik_p11. *)
  Definition csr_left_jik (alpha : T) (lB lC : layout) (d n m : Z) (A : csr_matrix T) (B : list T) (ldb : Z) (C : list T) (ldc : Z)
      : outcome (list T) :=
    req (base_eqb (cr_base A) BZero) ;;
    vals <- scaled_vals alpha (cr_nnz A) (cr_vals A) ;;
    req (d =? cr_nr A) ;;
    req (m =? cr_nc A) ;;
    let '(B_row, B_col) := layout_to_strides lB ldb in
    let '(C_row, C_col) := layout_to_strides lC ldc in
    tasks <- mapM (fun j => csr_vector_ik vals (cr_ptr A) (cr_idx A) B (B_col * j) B_row d (C_col * j) C_row) (range 0 n) ;;
    omp_exec acc sched tasks C.

  (** csr_spmm_impl.hh 124-158: apply_csr_left_ikb_rowmajor. *)
  Definition csr_left_ikb (alpha : T) (d n m : Z) (A : csr_matrix T) (B : list T) (ldb : Z) (C : list T) (ldc : Z)
      : outcome (list T) :=
    req (base_eqb (cr_base A) BZero) ;;
    req (d =? cr_nr A) ;;
    req (m =? cr_nc A) ;;
    tasks <- mapM (fun i =>
      lo <- rdp (cr_ptr A) i ;;
      hi <- rdp (cr_ptr A) (i + 1) ;;
      us <- mapM (fun ell =>
        v <- rdp (cr_vals A) ell ;;
        k <- rdp (cr_idx A) ell ;;
        axpy_updates n (mul alpha v) B (k * ldb) (i * ldc)) (range lo hi) ;;
      Ok (concat us)) (range 0 d) ;;
    omp_exec acc sched tasks C.

  (** csc_spmm_impl.hh 45-67: apply_csc_to_vector_from_left_ki.  The inner while loop runs
      i from its current value up to colptr[c+1]. *)
  Definition csc_vector_ki (vals : option (list T)) (idx ptr : option (list Z)) (len_v : Z) (B : list T) (offv incv offAv incAv : Z)
      : outcome (list update) :=
    '(_, us) <- for_ 0 len_v (fun c '(i, us) =>
      scale <- rd B (offv + c * incv) ;;
      hi <- rdp ptr (c + 1) ;;
      new <- mapM (fun e =>
        row <- rdp idx e ;;
        v <- rdp vals e ;;
        Ok (offAv + row * incAv, [mul v scale])) (range i hi) ;;
      Ok (Z.max i hi, us ++ new)) (0, []) ;;
    Ok us.

  (** csc_spmm_impl.hh 69-90: apply_regular_csc_to_vector_from_left_ki. *)
  Definition regular_csc_vector_ki (vals : option (list T)) (idx : option (list Z)) (col_nnz len_v : Z) (B : list T) (offv incv offAv incAv : Z)
      : outcome (list update) :=
    uss <- mapM (fun c =>
      scale <- rd B (offv + c * incv) ;;
      mapM (fun j =>
        row <- rdp idx j ;;
        v <- rdp vals j ;;
        Ok (offAv + row * incAv, [mul v scale])) (range (c * col_nnz) ((c + 1) * col_nnz))) (range 0 len_v) ;;
    Ok (concat uss).

  (** csc_spmm_impl.hh 116-118 and coo_spmm_impl.hh 123-125: fixed_nnz_per_col (compares the
      *offsets* colptr[1] and colptr[ell]). *)
  Definition fixed_nnz_per_col (m : Z) (ptr : option (list Z)) : outcome bool :=
    for_ 2 (m + 1) (fun ell b => if b : bool then p1 <- rdp ptr 1 ;; pl <- rdp ptr ell ;; Ok (p1 =? pl) else Ok false) true.

  (** The parallel loop over columns of C shared by apply_csc_left_jki_p11
      (csc_spmm_impl.hh 120-150) and apply_coo_left_jki_p11 (coo_spmm_impl.hh 131-161). *)
  Definition csc_columns (fixed : bool) (vals : option (list T)) (idx ptr : option (list Z)) (lB lC : layout) (n m : Z)
      (B : list T) (ldb : Z) (C : list T) (ldc : Z) : outcome (list T) :=
    let '(B_row, B_col) := layout_to_strides lB ldb in
    let '(C_row, C_col) := layout_to_strides lC ldc in
    tasks <- mapM (fun j =>
      if fixed then
        col_nnz <- rdp ptr 1 ;;
        regular_csc_vector_ki vals idx col_nnz m B (B_col * j) B_row (C_col * j) C_row
      else
        csc_vector_ki vals idx ptr m B (B_col * j) B_row (C_col * j) C_row) (range 0 n) ;;
    omp_exec acc sched tasks C.

  (** csc_spmm_impl.hh 92-155: apply_csc_left_jki_p11. *)
  Definition csc_left_jki (alpha : T) (lB lC : layout) (d n m : Z) (A : csc_matrix T) (B : list T) (ldb : Z) (C : list T) (ldc : Z)
      : outcome (list T) :=
    req (base_eqb (cc_base A) BZero) ;;
    vals <- scaled_vals alpha (cc_nnz A) (cc_vals A) ;;
    req (d =? cc_nr A) ;;
    req (m =? cc_nc A) ;;
    fixed <- fixed_nnz_per_col m (cc_ptr A) ;;
    csc_columns fixed vals (cc_idx A) (cc_ptr A) lB lC n m B ldb C ldc.

  (** csc_spmm_impl.hh 175-188: block_bounds for [nt1] threads.  d / num_threads is stored
      in an int (low 32 bits); the last addition is done in int64_t. *)
  Definition block_bounds (d nt1 : Z) : outcome (list Z) :=
    let block_size := to_sint 32 (d / nt1) in
    let block_size := if block_size =? 0 then 1 else block_size in
    bb <- for_ 0 nt1 (fun t bb => x <- rd bb t ;; y <- add_int x block_size ;; wr bb (t + 1) y) (repeat 0 (Z.to_nat (nt1 + 1))) ;;
    x <- rd bb nt1 ;;
    wr bb nt1 (to_sint 32 (x + d mod nt1)).

  (** csc_spmm_impl.hh 157-215: apply_csc_left_kib_rowmajor_1p1.  [nt1] threads are counted
      in the first parallel region, [nt2] run the second. *)
  Definition csc_left_kib (nt1 nt2 : Z) (alpha : T) (d n m : Z) (A : csc_matrix T) (B : list T) (ldb : Z) (C : list T) (ldc : Z)
      : outcome (list T) :=
    req (base_eqb (cc_base A) BZero) ;;
    req (d =? cc_nr A) ;;
    req (m =? cc_nc A) ;;
    bb <- block_bounds d nt1 ;;
    tasks <- mapM (fun t =>
      i_lower <- rd bb t ;;
      i_upper <- rd bb (t + 1) ;;
      us <- mapM (fun k =>
        lo <- rdp (cc_ptr A) k ;;
        hi <- rdp (cc_ptr A) (k + 1) ;;
        us <- mapM (fun ell =>
          i <- rdp (cc_idx A) ell ;;
          if (i_lower <=? i) && (i <? i_upper) then
            v <- rdp (cc_vals A) ell ;;
            axpy_updates n (mul alpha v) B (k * ldb) (i * ldc)
          else Ok []) (range lo hi) ;;
        Ok (concat us)) (range 0 m) ;;
      Ok (concat us)) (range 0 nt2) ;;
    omp_exec acc sched tasks C.

  (** coo_spmm_impl.hh 47-77: set_filtered_coo.  Returns the count and the three arrays. *)
  Definition set_filtered_coo (vals : option (list T)) (rows cols : option (list Z)) (nnz col_start col_end row_start row_end : Z)
      (new_vals : list T) (new_rows new_cols : list Z) : outcome (Z * list T * list Z * list Z) :=
    for_ 0 nnz (fun ell st =>
      let '(new_nnz, new_vals, new_rows, new_cols) := st in
      r <- rdp rows ell ;;
      c <- rdp cols ell ;;
      if (row_start <=? r) && (r <? row_end) && (col_start <=? c) && (c <? col_end) then
        v <- rdp vals ell ;;
        new_vals <- wr new_vals new_nnz v ;;
        new_rows <- wr new_rows new_nnz (r - row_start) ;;
        new_cols <- wr new_cols new_nnz (c - col_start) ;;
        Ok (new_nnz + 1, new_vals, new_rows, new_cols)
      else Ok st) (0, new_vals, new_rows, new_cols).

  Variable ssort : (Z * Z * T -> Z * Z * T -> bool) -> list (Z * Z * T) -> list (Z * Z * T).

  (** coo_spmm_impl.hh 107-162: steps 2 and 3 of apply_coo_left_jki_p11. *)
  Definition coo_left_sorted (alpha : T) (lB lC : layout) (d n m : Z) (A0 : coo_matrix T) (ro co : Z)
      (B : list T) (ldb : Z) (C : list T) (ldc : Z) : outcome (list T) :=
    let N0 := co_nnz A0 in
    '(nnz, vals, rows, cols) <-
      set_filtered_coo (co_vals A0) (co_rows A0) (co_cols A0) N0 co (co + m) ro (ro + d)
        (repeat zero (Z.to_nat N0)) (repeat 0 (Z.to_nat N0)) (repeat 0 (Z.to_nat (Z.max N0 (m + 1)))) ;;
    vals <- scal nnz alpha vals 0 1 ;;
    colptr <- pointer_array nnz cols m ;;
    fixed <- fixed_nnz_per_col m (Some colptr) ;;
    csc_columns fixed (Some vals) (Some rows) (Some colptr) lB lC n m B ldb C ldc.

  (** coo_spmm_impl.hh 80-163: apply_coo_left_jki_p11.  After the first sort the recursive
      call runs steps 2 and 3. *)
  Definition coo_left_jki (alpha : T) (lB lC : layout) (d n m : Z) (A0 : coo_matrix T) (ro co : Z)
      (B : list T) (ldb : Z) (C : list T) (ldc : Z) : outcome (coo_matrix T * list T) :=
    req (base_eqb (co_base A0) BZero) ;;
    if negb (sort_eqb (co_sort A0) SCSC) then
      let orig_sort := co_sort A0 in
      A1 <- sort_coo ssort SCSC A0 ;;
      C <- coo_left_sorted alpha lB lC d n m A1 ro co B ldb C ldc ;;
      A2 <- sort_coo ssort orig_sort A1 ;;
      Ok (A2, C)
    else
      C <- coo_left_sorted alpha lB lC d n m A0 ro co B ldb C ldc ;;
      Ok (A0, C).

  (** spmm_dispatch.hh 120-132: leading-dimension checks and C = beta*C. *)
  Definition scale_output (l : layout) (rows_B cols_B d n ldb : Z) (beta : T) (C : list T) (ldc : Z) : outcome (list T) :=
    match l with
    | ColMajor =>
        req (ldb >=? rows_B) ;; req (ldc >=? d) ;;
        for_ 0 n (fun i C => safe_scal d beta C (i * ldc) 1) C
    | RowMajor =>
        req (ldc >=? n) ;; req (ldb >=? cols_B) ;;
        for_ 0 d (fun i C => safe_scal n beta C (i * ldc) 1) C
    end.

  Definition sp_base (A : spmat T) : index_base :=
    match A with SpCoo M => co_base M | SpCsr M => cr_base M | SpCsc M => cc_base M end.

  (** spmm_dispatch.hh 88-160: left_spmm for an A that is not transposed. *)
  Definition left_spmm_notrans (nt1 nt2 : Z) (l : layout) (opB : op) (d n m : Z) (alpha : T) (A : spmat T) (ro_a co_a : Z)
      (B : list T) (ldb : Z) (beta : T) (C : list T) (ldc : Z) : outcome (spmat T * list T) :=
    req (base_eqb (sp_base A) BZero) ;;
    _ <- match A with
         | SpCoo M => req (co_nr M >=? d) ;; req (co_nc M >=? m) ;; Ok tt
         | SpCsr M => req (cr_nr M =? d) ;; req (cr_nc M =? m) ;; req (ro_a =? 0) ;; req (co_a =? 0) ;; Ok tt
         | SpCsc M => req (cc_nr M =? d) ;; req (cc_nc M =? m) ;; req (ro_a =? 0) ;; req (co_a =? 0) ;; Ok tt
         end ;;
    let '(rows_B, cols_B, lopB) := match opB with NoTrans => (m, n, l) | Trans => (n, m, flip l) end in
    C <- scale_output l rows_B cols_B d n ldb beta C ldc ;;
    if o_eqb O alpha zero then Ok (A, C) else
    match A with
    | SpCoo M => '(M, C) <- coo_left_jki alpha lopB l d n m M ro_a co_a B ldb C ldc ;; Ok (SpCoo M, C)
    | SpCsc M =>
        C <- (if layout_eqb lopB RowMajor && layout_eqb l RowMajor
              then csc_left_kib nt1 nt2 alpha d n m M B ldb C ldc
              else csc_left_jki alpha lopB l d n m M B ldb C ldc) ;;
        Ok (A, C)
    | SpCsr M =>
        C <- (if layout_eqb lopB RowMajor && layout_eqb l RowMajor
              then csr_left_ikb alpha d n m M B ldb C ldc
              else csr_left_jik alpha lopB l d n m M B ldb C ldc) ;;
        Ok (A, C)
    end.

  (** spmm_dispatch.hh 48-87: left_spmm.  The transposes share memory with A, so the COO
      arrays of A are those of the transposed view afterwards; A's own fields (its [sort]
      flag among them) are not touched. *)
  Definition left_spmm (nt1 nt2 : Z) (l : layout) (opA opB : op) (d n m : Z) (alpha : T) (A : spmat T) (ro_a co_a : Z)
      (B : list T) (ldb : Z) (beta : T) (C : list T) (ldc : Z) : outcome (spmat T * list T) :=
    match opA with
    | NoTrans => left_spmm_notrans nt1 nt2 l opB d n m alpha A ro_a co_a B ldb beta C ldc
    | Trans =>
        match A with
        | SpCoo M =>
            Mt <- coo_transpose M ;;
            '(At, C) <- left_spmm_notrans nt1 nt2 l opB d n m alpha (SpCoo Mt) co_a ro_a B ldb beta C ldc ;;
            match At with
            | SpCoo Mt =>
                Ok (SpCoo (Build_coo_matrix (co_nr M) (co_nc M) (co_own M) (co_nnz M) (co_base M)
                             (co_vals Mt) (co_cols Mt) (co_rows Mt) (co_sort M)), C)
            | _ => Ok (A, C)
            end
        | SpCsc M =>
            Mt <- transpose_as_csr zero M true ;;
            '(_, C) <- left_spmm_notrans nt1 nt2 l opB d n m alpha (SpCsr Mt) co_a ro_a B ldb beta C ldc ;;
            Ok (A, C)
        | SpCsr M =>
            Mt <- transpose_as_csc zero M true ;;
            '(_, C) <- left_spmm_notrans nt1 nt2 l opB d n m alpha (SpCsc Mt) co_a ro_a B ldb beta C ldc ;;
            Ok (A, C)
        end
    end.

  (** spmm_dispatch.hh 162-200: right_spmm. *)
  Definition right_spmm (nt1 nt2 : Z) (l : layout) (opA opB : op) (m d n : Z) (alpha : T) (A : list T) (lda : Z)
      (B : spmat T) (i_off j_off : Z) (beta : T) (C : list T) (ldc : Z) : outcome (spmat T * list T) :=
    left_spmm nt1 nt2 (flip l) (flip_op opB) opA d m n alpha B i_off j_off A lda beta C ldc.

  (** spmm_dispatch.hh 279-283: spmm with a sparse left operand. *)
  Definition spmm (nt1 nt2 : Z) (l : layout) (opA opB : op) (m n k : Z) (alpha : T) (A : spmat T)
      (B : list T) (ldb : Z) (beta : T) (C : list T) (ldc : Z) : outcome (spmat T * list T) :=
    left_spmm nt1 nt2 l opA opB m n k alpha A 0 0 B ldb beta C ldc.
End Spmm.
