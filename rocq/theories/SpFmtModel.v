(** Sparse matrix formats, dense conversions, format conversions, transposes, reindexing.

    Pointers to arrays are [option (list _)]; [None] is nullptr.  An access through
    nullptr or outside the array is undefined behaviour.  A freshly allocated array whose
    elements are not initialised has arbitrary contents ([junkT], [junkZ]). *)
From Verif Require Import Base SparseSkopModel.

Inductive index_base := BZero | BOne.            (* sparse_data/base.hh 39-46 *)
Inductive nz_sort := SCSC | SCSR | SNone.        (* coo_matrix.hh 49-59 *)

Definition base_eqb (a b : index_base) : bool :=
  match a, b with BZero, BZero | BOne, BOne => true | _, _ => false end.
Definition sort_eqb (a b : nz_sort) : bool :=
  match a, b with SCSC, SCSC | SCSR, SCSR | SNone, SNone => true | _, _ => false end.

(** Accesses through a pointer. *)
Definition rdp {A} (p : option (list A)) (i : Z) : outcome A :=
  match p with Some l => rd l i | None => UB end.
Definition wrp {A} (p : option (list A)) (i : Z) (x : A) : outcome (option (list A)) :=
  match p with Some l => l' <- wr l i x ;; Ok (Some l') | None => UB end.
Definition is_null {A} (p : option A) : bool := match p with None => true | Some _ => false end.

(** while (cond) body; the fuel is an upper bound on the number of iterations, running
    out of it is UB (so theorems also prove termination within the bound). *)
Fixpoint while_ {S} (fuel : nat) (cond : S -> outcome bool) (body : S -> outcome S) (s : S) : outcome S :=
  match fuel with
  | O => UB
  | S fuel => b <- cond s ;; if b then s' <- body s ;; while_ fuel cond body s' else Ok s
  end.

(** coo_matrix.hh 124-260: struct COOMatrix. *)
Record coo_matrix (T : Type) := {
  co_nr : Z; co_nc : Z; co_own : bool; co_nnz : Z; co_base : index_base;
  co_vals : option (list T); co_rows : option (list Z); co_cols : option (list Z); co_sort : nz_sort }.
(** csr_matrix.hh 58-172: struct CSRMatrix. *)
Record csr_matrix (T : Type) := {
  cr_nr : Z; cr_nc : Z; cr_own : bool; cr_nnz : Z; cr_base : index_base;
  cr_vals : option (list T); cr_ptr : option (list Z); cr_idx : option (list Z) }.
(** csc_matrix.hh 55-166: struct CSCMatrix. *)
Record csc_matrix (T : Type) := {
  cc_nr : Z; cc_nc : Z; cc_own : bool; cc_nnz : Z; cc_base : index_base;
  cc_vals : option (list T); cc_idx : option (list Z); cc_ptr : option (list Z) }.
Arguments co_nr {T} _. Arguments co_nc {T} _. Arguments co_own {T} _. Arguments co_nnz {T} _.
Arguments co_base {T} _. Arguments co_vals {T} _. Arguments co_rows {T} _. Arguments co_cols {T} _.
Arguments co_sort {T} _. Arguments Build_coo_matrix {T}.
Arguments cr_nr {T} _. Arguments cr_nc {T} _. Arguments cr_own {T} _. Arguments cr_nnz {T} _.
Arguments cr_base {T} _. Arguments cr_vals {T} _. Arguments cr_ptr {T} _. Arguments cr_idx {T} _.
Arguments Build_csr_matrix {T}.
Arguments cc_nr {T} _. Arguments cc_nc {T} _. Arguments cc_own {T} _. Arguments cc_nnz {T} _.
Arguments cc_base {T} _. Arguments cc_vals {T} _. Arguments cc_ptr {T} _. Arguments cc_idx {T} _.
Arguments Build_csc_matrix {T}.

(** coo_matrix.hh 62-70 and 73-81: increasing_by_csr, increasing_by_csc. *)
Definition increasing_by_csr (i0 j0 i1 j1 : Z) : bool :=
  if i0 >? i1 then false else if i0 =? i1 then j0 <=? j1 else true.
Definition increasing_by_csc (i0 j0 i1 j1 : Z) : bool :=
  if j0 >? j1 then false else if j0 =? j1 then i0 <=? i1 else true.

(** coo_matrix.hh 84-108: coo_sort_type.  The early [break] only stops reading once both
    flags are false; the state then no longer changes. *)
Definition sort_type_step (rows cols : option (list Z)) (ell : Z) (st : bool * bool) : outcome (bool * bool) :=
  let '(csc_okay, csr_okay) := st in
  if negb csc_okay && negb csr_okay then Ok st else
  i0 <- rdp rows (ell - 1) ;;
  j0 <- rdp cols (ell - 1) ;;
  i1 <- rdp rows ell ;;
  j1 <- rdp cols ell ;;
  Ok (if csc_okay then increasing_by_csc i0 j0 i1 j1 else csc_okay,
      if csr_okay then increasing_by_csr i0 j0 i1 j1 else csr_okay).
Definition coo_sort_type (nnz : Z) (rows cols : option (list Z)) : outcome nz_sort :=
  '(csc_okay, csr_okay) <- for_ 1 nnz (sort_type_step rows cols) (true, true) ;;
  Ok (if csc_okay then SCSC else if csr_okay then SCSR else SNone).

Section Formats.
  Context {T : Type}.
  Variables (zero junkT : T) (junkZ : Z).

  (** coo_matrix.hh 205-209, 217-233; csr_matrix.hh 133-137; csc_matrix.hh 129-133: constructors. *)
  Definition mk_coo (n_rows n_cols : Z) : coo_matrix T :=
    Build_coo_matrix n_rows n_cols true 0 BZero None None None SNone.
  Definition mk_coo_expert (n_rows n_cols nnz : Z) (vals : option (list T)) (rows cols : option (list Z))
      (compute_sort_type : bool) (b : index_base) : outcome (coo_matrix T) :=
    s <- (if compute_sort_type then coo_sort_type nnz rows cols else Ok SNone) ;;
    Ok (Build_coo_matrix n_rows n_cols false nnz b vals rows cols s).
  Definition mk_csr (n_rows n_cols : Z) : csr_matrix T :=
    Build_csr_matrix n_rows n_cols true 0 BZero None None None.
  Definition mk_csc (n_rows n_cols : Z) : csc_matrix T :=
    Build_csc_matrix n_rows n_cols true 0 BZero None None None.

  Definition arr {A} (x : A) (n : Z) : option (list A) := Some (repeat x (Z.to_nat n)).

  (** coo_matrix.hh 278-290: reserve_coo (elements not initialised). *)
  Definition reserve_coo (nnz : Z) (M : coo_matrix T) : outcome (coo_matrix T) :=
    req (co_own M) ;;
    req (is_null (co_vals M)) ;;
    req (is_null (co_rows M)) ;;
    req (is_null (co_cols M)) ;;
    Ok (if nnz >? 0
        then Build_coo_matrix (co_nr M) (co_nc M) (co_own M) nnz (co_base M)
               (arr junkT nnz) (arr junkZ nnz) (arr junkZ nnz) (co_sort M)
        else Build_coo_matrix (co_nr M) (co_nc M) (co_own M) nnz (co_base M) None None None (co_sort M)).

  (** csr_matrix.hh 201-213: reserve_csr (elements zero-initialised). *)
  Definition reserve_csr (nnz : Z) (M : csr_matrix T) : outcome (csr_matrix T) :=
    req (cr_own M) ;;
    req (is_null (cr_idx M)) ;;
    req (is_null (cr_vals M)) ;;
    let ptr := match cr_ptr M with None => arr 0 (cr_nr M + 1) | Some p => Some p end in
    Ok (if nnz >? 0
        then Build_csr_matrix (cr_nr M) (cr_nc M) (cr_own M) nnz (cr_base M) (arr zero nnz) ptr (arr 0 nnz)
        else Build_csr_matrix (cr_nr M) (cr_nc M) (cr_own M) nnz (cr_base M) (cr_vals M) ptr (cr_idx M)).
  (** csc_matrix.hh 195-207: reserve_csc. *)
  Definition reserve_csc (nnz : Z) (M : csc_matrix T) : outcome (csc_matrix T) :=
    req (cc_own M) ;;
    req (is_null (cc_idx M)) ;;
    req (is_null (cc_vals M)) ;;
    let ptr := match cc_ptr M with None => arr 0 (cc_nc M + 1) | Some p => Some p end in
    Ok (if nnz >? 0
        then Build_csc_matrix (cc_nr M) (cc_nc M) (cc_own M) nnz (cc_base M) (arr zero nnz) (arr 0 nnz) ptr
        else Build_csc_matrix (cc_nr M) (cc_nc M) (cc_own M) nnz (cc_base M) (cc_vals M) (cc_idx M) ptr).

  (* ---------------------------------------------------------------- *)
  (** ** Sorting *)
  Definition triple : Type := Z * Z * T.
  (** coo_matrix.hh 310-332: sort_func, for s = CSR and s = CSC. *)
  Definition lt_csr (t1 t2 : triple) : bool :=
    let '(r1, c1, _) := t1 in let '(r2, c2, _) := t2 in
    if r1 <? r2 then true else if r1 >? r2 then false else if c1 <? c2 then true else false.
  Definition lt_csc (t1 t2 : triple) : bool :=
    let '(r1, c1, _) := t1 in let '(r2, c2, _) := t2 in
    if c1 <? c2 then true else if c1 >? c2 then false else if r1 <? r2 then true else false.

  (** std::sort: any function that returns a sorted permutation (see [sort_ok] in
      SpFmtSpec.v); the order of equivalent elements is not specified by C++. *)
  Variable ssort : (triple -> triple -> bool) -> list triple -> list triple.

  (** coo_matrix.hh 293-343: sort_coo_data on arrays. *)
  Definition sort_coo_data (s : nz_sort) (nnz : Z) (vals : option (list T)) (rows cols : option (list Z))
      : outcome (option (list T) * option (list Z) * option (list Z)) :=
    if sort_eqb s SNone then Ok (vals, rows, cols) else
    curr_s <- coo_sort_type nnz rows cols ;;
    if sort_eqb curr_s s then Ok (vals, rows, cols) else
    nonzeros <- mapM (fun ell => r <- rdp rows ell ;; c <- rdp cols ell ;; v <- rdp vals ell ;; Ok (r, c, v)) (range 0 nnz) ;;
    let sorted := ssort (if sort_eqb s SCSR then lt_csr else lt_csc) nonzeros in
    for_ 0 nnz (fun ell '(vals, rows, cols) =>
      '(r, c, v) <- rd sorted ell ;;
      vals <- wrp vals ell v ;;
      rows <- wrp rows ell r ;;
      cols <- wrp cols ell c ;;
      Ok (vals, rows, cols)) (vals, rows, cols).
  (** coo_matrix.hh 346-350: sort_coo_data on a matrix. *)
  Definition sort_coo (s : nz_sort) (M : coo_matrix T) : outcome (coo_matrix T) :=
    '(vals, rows, cols) <- sort_coo_data s (co_nnz M) (co_vals M) (co_rows M) (co_cols M) ;;
    Ok (Build_coo_matrix (co_nr M) (co_nc M) (co_own M) (co_nnz M) (co_base M) vals rows cols s).

  (* ---------------------------------------------------------------- *)
  (** ** Dense <-> sparse *)
  (** [big x] is abs(x) > abs_tol. *)
  Variable big : T -> bool.

  (** sparse_data/base.hh 49-66: nnz_in_dense. *)
  Definition nnz_in_dense (n_rows n_cols sr sc : Z) (mat : list T) : outcome Z :=
    for_ 0 n_rows (fun i nnz => for_ 0 n_cols (fun j nnz =>
      x <- rd mat (i * sr + j * sc) ;; Ok (if big x then nnz + 1 else nnz)) nnz) 0.

  (** coo_matrix.hh 375-394: dense_to_coo with strides.  [sort] keeps its value. *)
  Definition dense_to_coo_str (sr sc : Z) (mat : list T) (M : coo_matrix T) : outcome (coo_matrix T) :=
    nnz <- nnz_in_dense (co_nr M) (co_nc M) sr sc mat ;;
    M <- reserve_coo nnz M ;;
    '(_, vals, rows, cols) <-
      for_ 0 (co_nr M) (fun i st => for_ 0 (co_nc M) (fun j st =>
        let '(nnz, vals, rows, cols) := st in
        val <- rd mat (i * sr + j * sc) ;;
        if big val then
          vals <- wrp vals nnz val ;;
          rows <- wrp rows nnz i ;;
          cols <- wrp cols nnz j ;;
          Ok (nnz + 1, vals, rows, cols)
        else Ok st) st) (0, co_vals M, co_rows M, co_cols M) ;;
    Ok (Build_coo_matrix (co_nr M) (co_nc M) (co_own M) (co_nnz M) (co_base M) vals rows cols (co_sort M)).
  (** coo_matrix.hh 397-403, 426-432; csr_matrix.hh 246-253, 282-289; csc_matrix.hh 237-244, 273-280:
      ColMajor uses strides (1, n_rows), RowMajor (n_cols, 1). *)
  Definition strides (colmajor : bool) (n_rows n_cols : Z) : Z * Z :=
    if colmajor then (1, n_rows) else (n_cols, 1).
  Definition dense_to_coo (colmajor : bool) (mat : list T) (M : coo_matrix T) : outcome (coo_matrix T) :=
    let '(sr, sc) := strides colmajor (co_nr M) (co_nc M) in dense_to_coo_str sr sc mat M.

  (** Zero fill shared by the three X_to_dense functions (coo_matrix.hh 408-412,
      csr_matrix.hh 229-233, csc_matrix.hh 220-224). *)
  Definition zero_fill (n_rows n_cols sr sc : Z) (mat : list T) : outcome (list T) :=
    for_ 0 n_rows (fun i mat => for_ 0 n_cols (fun j mat => wr mat (i * sr + j * sc) zero) mat) mat.

  (** coo_matrix.hh 406-423: coo_to_dense with strides. *)
  Definition coo_to_dense_str (M : coo_matrix T) (sr sc : Z) (mat : list T) : outcome (list T) :=
    mat <- zero_fill (co_nr M) (co_nc M) sr sc mat ;;
    for_ 0 (co_nnz M) (fun ell mat =>
      i <- rdp (co_rows M) ell ;;
      j <- rdp (co_cols M) ell ;;
      let '(i, j) := match co_base M with BOne => (i - 1, j - 1) | BZero => (i, j) end in
      v <- rdp (co_vals M) ell ;;
      wr mat (i * sr + j * sc) v) mat.
  Definition coo_to_dense (M : coo_matrix T) (colmajor : bool) (mat : list T) : outcome (list T) :=
    let '(sr, sc) := strides colmajor (co_nr M) (co_nc M) in coo_to_dense_str M sr sc mat.

  (** csr_matrix.hh 256-279: dense_to_csr with strides. *)
  Definition dense_to_csr_str (sr sc : Z) (mat : list T) (M : csr_matrix T) : outcome (csr_matrix T) :=
    nnz <- nnz_in_dense (cr_nr M) (cr_nc M) sr sc mat ;;
    M <- reserve_csr nnz M ;;
    ptr <- wrp (cr_ptr M) 0 0 ;;
    '(_, vals, idx, ptr) <-
      for_ 0 (cr_nr M) (fun i st =>
        '(nnz, vals, idx, ptr) <- for_ 0 (cr_nc M) (fun j st =>
          let '(nnz, vals, idx, ptr) := st in
          val <- rd mat (i * sr + j * sc) ;;
          if big val then
            vals <- wrp vals nnz val ;;
            idx <- wrp idx nnz j ;;
            Ok (nnz + 1, vals, idx, ptr)
          else Ok st) st ;;
        ptr <- wrp ptr (i + 1) nnz ;;
        Ok (nnz, vals, idx, ptr)) (0, cr_vals M, cr_idx M, ptr) ;;
    Ok (Build_csr_matrix (cr_nr M) (cr_nc M) (cr_own M) (cr_nnz M) (cr_base M) vals ptr idx).
  Definition dense_to_csr (colmajor : bool) (mat : list T) (M : csr_matrix T) : outcome (csr_matrix T) :=
    let '(sr, sc) := strides colmajor (cr_nr M) (cr_nc M) in dense_to_csr_str sr sc mat M.

  (** csr_matrix.hh 223-243: csr_to_dense with strides.  [int j = colidxs[ell]] keeps the
      low 32 bits. *)
  Definition csr_to_dense_str (M : csr_matrix T) (sr sc : Z) (mat : list T) : outcome (list T) :=
    req (base_eqb (cr_base M) BZero) ;;
    mat <- zero_fill (cr_nr M) (cr_nc M) sr sc mat ;;
    for_ 0 (cr_nr M) (fun i mat =>
      lo <- rdp (cr_ptr M) i ;;
      hi <- rdp (cr_ptr M) (i + 1) ;;
      for_ lo hi (fun ell mat =>
        j <- rdp (cr_idx M) ell ;;
        let j := to_sint 32 j in
        let j := match cr_base M with BOne => j - 1 | BZero => j end in
        v <- rdp (cr_vals M) ell ;;
        wr mat (i * sr + j * sc) v) mat) mat.
  Definition csr_to_dense (M : csr_matrix T) (colmajor : bool) (mat : list T) : outcome (list T) :=
    let '(sr, sc) := strides colmajor (cr_nr M) (cr_nc M) in csr_to_dense_str M sr sc mat.

  (** csc_matrix.hh 247-270: dense_to_csc with strides. *)
  Definition dense_to_csc_str (sr sc : Z) (mat : list T) (M : csc_matrix T) : outcome (csc_matrix T) :=
    nnz <- nnz_in_dense (cc_nr M) (cc_nc M) sr sc mat ;;
    M <- reserve_csc nnz M ;;
    ptr <- wrp (cc_ptr M) 0 0 ;;
    '(_, vals, idx, ptr) <-
      for_ 0 (cc_nc M) (fun j st =>
        '(nnz, vals, idx, ptr) <- for_ 0 (cc_nr M) (fun i st =>
          let '(nnz, vals, idx, ptr) := st in
          val <- rd mat (i * sr + j * sc) ;;
          if big val then
            vals <- wrp vals nnz val ;;
            idx <- wrp idx nnz i ;;
            Ok (nnz + 1, vals, idx, ptr)
          else Ok st) st ;;
        ptr <- wrp ptr (j + 1) nnz ;;
        Ok (nnz, vals, idx, ptr)) (0, cc_vals M, cc_idx M, ptr) ;;
    Ok (Build_csc_matrix (cc_nr M) (cc_nc M) (cc_own M) (cc_nnz M) (cc_base M) vals idx ptr).
  Definition dense_to_csc (colmajor : bool) (mat : list T) (M : csc_matrix T) : outcome (csc_matrix T) :=
    let '(sr, sc) := strides colmajor (cc_nr M) (cc_nc M) in dense_to_csc_str sr sc mat M.

  (** csc_matrix.hh 217-234: csc_to_dense with strides. *)
  Definition csc_to_dense_str (M : csc_matrix T) (sr sc : Z) (mat : list T) : outcome (list T) :=
    req (base_eqb (cc_base M) BZero) ;;
    mat <- zero_fill (cc_nr M) (cc_nc M) sr sc mat ;;
    for_ 0 (cc_nc M) (fun j mat =>
      lo <- rdp (cc_ptr M) j ;;
      hi <- rdp (cc_ptr M) (j + 1) ;;
      for_ lo hi (fun ell mat =>
        i <- rdp (cc_idx M) ell ;;
        let i := match cc_base M with BOne => i - 1 | BZero => i end in
        v <- rdp (cc_vals M) ell ;;
        wr mat (i * sr + j * sc) v) mat) mat.
  Definition csc_to_dense (M : csc_matrix T) (colmajor : bool) (mat : list T) : outcome (list T) :=
    let '(sr, sc) := strides colmajor (cc_nr M) (cc_nc M) in csc_to_dense_str M sr sc mat.

  (* ---------------------------------------------------------------- *)
  (** ** conversions.hh *)
  (** [sb]: number of bits of the destination index type sint_t2. *)
  Variable sb : Z.

  (** The loop shared by coo_to_csr (conversions.hh 92-101) and coo_to_csc (51-60): [major] are the sorted indices that
      become the pointer array of length n+1, [minor] those copied to [idx]. *)
  Definition compress (n nnz : Z) (major minor : option (list Z)) (cvals : option (list T))
      (idx ptr : option (list Z)) (vals : option (list T))
      : outcome (option (list Z) * option (list T) * option (list Z)) :=
    ptr <- wrp ptr 0 0 ;;
    '(_, idx, vals, ptr) <-
      for_ 0 n (fun j st =>
        let '(ell, idx, vals, ptr) := st in
        '(ell, idx, vals) <-
          while_ (S (Z.to_nat (nnz - ell)))
            (fun '(ell, _, _) => if ell <? nnz then c <- rdp major ell ;; Ok (c =? j) else Ok false)
            (fun '(ell, idx, vals) =>
               r <- rdp minor ell ;;
               idx <- wrp idx ell (to_sint sb r) ;;
               v <- rdp cvals ell ;;
               vals <- wrp vals ell v ;;
               Ok (ell + 1, idx, vals)) (ell, idx, vals) ;;
        ptr <- wrp ptr (j + 1) (to_sint sb ell) ;;
        Ok (ell, idx, vals, ptr)) (0, idx, vals, ptr) ;;
    Ok (idx, vals, ptr).

  (** conversions.hh 44-62: coo_to_csc.  Returns the modified COO matrix as well: its
      arrays are sorted in place.  Line 46 compares csc.n_cols with itself. *)
  Definition coo_to_csc (coo : coo_matrix T) (csc : csc_matrix T) : outcome (coo_matrix T * csc_matrix T) :=
    req (cc_nr csc =? co_nr coo) ;;
    req (cc_nc csc =? cc_nc csc) ;;
    req (base_eqb (cc_base csc) BZero) ;;
    req (base_eqb (co_base coo) BZero) ;;
    coo <- sort_coo SCSC coo ;;
    csc <- reserve_csc (co_nnz coo) csc ;;
    '(idx, vals, ptr) <- compress (co_nc coo) (co_nnz coo) (co_cols coo) (co_rows coo) (co_vals coo)
                           (cc_idx csc) (cc_ptr csc) (cc_vals csc) ;;
    Ok (coo, Build_csc_matrix (cc_nr csc) (cc_nc csc) (cc_own csc) (cc_nnz csc) (cc_base csc) vals idx ptr).

  (** conversions.hh 85-103: coo_to_csr. *)
  Definition coo_to_csr (coo : coo_matrix T) (csr : csr_matrix T) : outcome (coo_matrix T * csr_matrix T) :=
    req (cr_nr csr =? co_nr coo) ;;
    req (cr_nc csr =? co_nc coo) ;;
    req (base_eqb (cr_base csr) BZero) ;;
    req (base_eqb (co_base coo) BZero) ;;
    coo <- sort_coo SCSR coo ;;
    csr <- reserve_csr (co_nnz coo) csr ;;
    '(idx, vals, ptr) <- compress (co_nr coo) (co_nnz coo) (co_rows coo) (co_cols coo) (co_vals coo)
                           (cr_idx csr) (cr_ptr csr) (cr_vals csr) ;;
    Ok (coo, Build_csr_matrix (cr_nr csr) (cr_nc csr) (cr_own csr) (cr_nnz csr) (cr_base csr) vals ptr idx).

  (** The loop of csc_to_coo (conversions.hh 71-79) and csr_to_coo (112-120).  The value
      written to the minor array is the loop counter, a position in the index array. *)
  Definition expand (n : Z) (ptr : option (list Z)) (svals : option (list T))
      (vals : option (list T)) (minor major : option (list Z))
      : outcome (option (list T) * option (list Z) * option (list Z)) :=
    '(_, vals, minor, major) <-
      for_ 0 n (fun j st =>
        lo <- rdp ptr j ;;
        hi <- rdp ptr (j + 1) ;;
        for_ lo hi (fun i st =>
          let '(ell, vals, minor, major) := st in
          v <- rdp svals ell ;;
          vals <- wrp vals ell v ;;
          minor <- wrp minor ell (to_sint sb i) ;;
          major <- wrp major ell (to_sint sb j) ;;
          Ok (ell + 1, vals, minor, major)) st) (0, vals, minor, major) ;;
    Ok (vals, minor, major).

  (** conversions.hh 65-82: csc_to_coo. *)
  Definition csc_to_coo (csc : csc_matrix T) (coo : coo_matrix T) : outcome (coo_matrix T) :=
    req (cc_nr csc =? co_nr coo) ;;
    req (cc_nc csc =? co_nc coo) ;;
    req (base_eqb (cc_base csc) BZero) ;;
    req (base_eqb (co_base coo) BZero) ;;
    coo <- reserve_coo (cc_nnz csc) coo ;;
    '(vals, rows, cols) <- expand (cc_nc csc) (cc_ptr csc) (cc_vals csc) (co_vals coo) (co_rows coo) (co_cols coo) ;;
    Ok (Build_coo_matrix (co_nr coo) (co_nc coo) (co_own coo) (co_nnz coo) (co_base coo) vals rows cols SCSC).

  (** conversions.hh 106-123: csr_to_coo. *)
  Definition csr_to_coo (csr : csr_matrix T) (coo : coo_matrix T) : outcome (coo_matrix T) :=
    req (cr_nr csr =? co_nr coo) ;;
    req (cr_nc csr =? co_nc coo) ;;
    req (base_eqb (cr_base csr) BZero) ;;
    req (base_eqb (co_base coo) BZero) ;;
    coo <- reserve_coo (cr_nnz csr) coo ;;
    '(vals, cols, rows) <- expand (cr_nr csr) (cr_ptr csr) (cr_vals csr) (co_vals coo) (co_cols coo) (co_rows coo) ;;
    Ok (Build_coo_matrix (co_nr coo) (co_nc coo) (co_own coo) (co_nnz coo) (co_base coo) vals rows cols SCSR).

  (* ---------------------------------------------------------------- *)
  (** ** Transposes (values; sharing of memory is treated in OwnModel.v) *)
  (** Element-by-element copy of [n] elements (conversions.hh 138-139, 157-158). *)
  Definition copy_arr {A} (n : Z) (src dst : option (list A)) : outcome (option (list A)) :=
    for_ 0 n (fun i dst => x <- rdp src i ;; wrp dst i x) dst.

  (** conversions.hh 126-142: transpose_as_csr. *)
  Definition transpose_as_csr (A : csc_matrix T) (share : bool) : outcome (csr_matrix T) :=
    if share then
      Ok (Build_csr_matrix (cc_nc A) (cc_nr A) false (cc_nnz A) (cc_base A) (cc_vals A) (cc_ptr A) (cc_idx A))
    else
      let At := Build_csr_matrix (cc_nc A) (cc_nr A) true 0 (cc_base A) None None None in
      At <- reserve_csr (cc_nnz A) At ;;
      '(idx, vals) <- for_ 0 (cc_nnz A) (fun i '(idx, vals) =>
         r <- rdp (cc_idx A) i ;; idx <- wrp idx i r ;;
         v <- rdp (cc_vals A) i ;; vals <- wrp vals i v ;; Ok (idx, vals)) (cr_idx At, cr_vals At) ;;
      ptr <- copy_arr (cc_nc A + 1) (cc_ptr A) (cr_ptr At) ;;
      Ok (Build_csr_matrix (cr_nr At) (cr_nc At) (cr_own At) (cr_nnz At) (cr_base At) vals ptr idx).

  (** conversions.hh 145-161: transpose_as_csc. *)
  Definition transpose_as_csc (A : csr_matrix T) (share : bool) : outcome (csc_matrix T) :=
    if share then
      Ok (Build_csc_matrix (cr_nc A) (cr_nr A) false (cr_nnz A) (cr_base A) (cr_vals A) (cr_idx A) (cr_ptr A))
    else
      let At := Build_csc_matrix (cr_nc A) (cr_nr A) true 0 (cr_base A) None None None in
      At <- reserve_csc (cr_nnz A) At ;;
      '(idx, vals) <- for_ 0 (cr_nnz A) (fun i '(idx, vals) =>
         r <- rdp (cr_idx A) i ;; idx <- wrp idx i r ;;
         v <- rdp (cr_vals A) i ;; vals <- wrp vals i v ;; Ok (idx, vals)) (cc_idx At, cc_vals At) ;;
      ptr <- copy_arr (cr_nr A + 1) (cr_ptr A) (cc_ptr At) ;;
      Ok (Build_csc_matrix (cc_nr At) (cc_nc At) (cc_own At) (cc_nnz At) (cc_base At) vals idx ptr).

  (** coo_matrix.hh 364-372: coo::transpose. *)
  Definition coo_transpose (S : coo_matrix T) : outcome (coo_matrix T) :=
    St <- mk_coo_expert (co_nc S) (co_nr S) (co_nnz S) (co_vals S) (co_cols S) (co_rows S) false (co_base S) ;;
    Ok (Build_coo_matrix (co_nr St) (co_nc St) (co_own St) (co_nnz St) (co_base St) (co_vals St) (co_rows St) (co_cols St)
          (match co_sort S with SCSC => SCSR | SCSR => SCSC | SNone => co_sort St end)).

  (* ---------------------------------------------------------------- *)
  (** ** Reindexing *)
  (** conversions.hh 177-183: one in-place shift loop. *)
  Definition shift_arr (n d : Z) (a : option (list Z)) : outcome (option (list Z)) :=
    for_ 0 n (fun ell a => x <- rdp a ell ;; wrp a ell (x + d)) a.
  Definition shift_of (b : index_base) : Z := match b with BOne => -1 | BZero => 1 end.

  (** conversions.hh 174-186: reindex_inplace(CSC). *)
  Definition reindex_csc (A : csc_matrix T) (desired : index_base) : outcome (csc_matrix T) :=
    if base_eqb (cc_base A) desired then Ok A else
    idx <- shift_arr (cc_nnz A) (shift_of (cc_base A)) (cc_idx A) ;;
    Ok (Build_csc_matrix (cc_nr A) (cc_nc A) (cc_own A) (cc_nnz A) desired (cc_vals A) idx (cc_ptr A)).
  (** conversions.hh 189-201: reindex_inplace(CSR). *)
  Definition reindex_csr (A : csr_matrix T) (desired : index_base) : outcome (csr_matrix T) :=
    if base_eqb (cr_base A) desired then Ok A else
    idx <- shift_arr (cr_nnz A) (shift_of (cr_base A)) (cr_idx A) ;;
    Ok (Build_csr_matrix (cr_nr A) (cr_nc A) (cr_own A) (cr_nnz A) desired (cr_vals A) (cr_ptr A) idx).
  (** conversions.hh 204-220: reindex_inplace(COO).  The two in-place updates of one
      iteration touch different arrays, so they are modelled as two loops. *)
  Definition reindex_coo (A : coo_matrix T) (desired : index_base) : outcome (coo_matrix T) :=
    if base_eqb (co_base A) desired then Ok A else
    rows <- shift_arr (co_nnz A) (shift_of (co_base A)) (co_rows A) ;;
    cols <- shift_arr (co_nnz A) (shift_of (co_base A)) (co_cols A) ;;
    Ok (Build_coo_matrix (co_nr A) (co_nc A) (co_own A) (co_nnz A) desired (co_vals A) rows cols (co_sort A)).
End Formats.

(* ------------------------------------------------------------------ *)
(** sparse_data/base.hh 69-91: sorted_nonzero_locations_to_pointer_array. *)
Definition pointer_array (nnz : Z) (sorted : list Z) (last : Z) : outcome (list Z) :=
  _ <- for_ 1 nnz (fun i _ => a <- rd sorted (i - 1) ;; b <- rd sorted i ;; req (a <=? b) ;; Ok tt) tt ;;
  temp <- wr (repeat 0 (Z.to_nat (last + 1))) 0 0 ;;
  '(_, temp) <- for_ 0 last (fun i '(ell, temp) =>
    ell <- while_ (S (Z.to_nat (nnz - ell)))
      (fun ell => if ell <? nnz then x <- rd sorted ell ;; Ok (x =? i) else Ok false)
      (fun ell => Ok (ell + 1)) ell ;;
    temp <- wr temp (i + 1) ell ;;
    Ok (ell, temp)) (0, temp) ;;
  sorted <- wr sorted 0 0 ;;
  for_ 0 last (fun i sorted => x <- rd temp (i + 1) ;; wr sorted (i + 1) x) sorted.
