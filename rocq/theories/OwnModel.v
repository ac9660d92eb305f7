(** Who owns which memory: constructors, move constructors, destructors, fills, reserves,
    views and temporaries of every class of RandBLAS that holds arrays.

    Programs run on a heap of arrays ([new T[n]]) and a list of variables holding objects.
    Unlike [outcome], an exception here carries the state it leaves behind, because an
    allocation made before a throw is a leak if nobody holds it. *)
From Verif Require Import Base.

(** A pointer to the first element of an array; [None] is nullptr.  Arrays are numbered in
    order of allocation and never renumbered, so a dangling pointer stays recognisable. *)
Definition ptr : Type := option nat.
Definition is_null (p : ptr) : bool := match p with None => true | Some _ => false end.

(** Allocated by the library or by the caller. *)
Inductive maker := Lib | User.
Record block (V : Type) := mk_block { b_by : maker; b_freed : bool; b_data : list V }.
Arguments mk_block {V}. Arguments b_by {V}. Arguments b_freed {V}. Arguments b_data {V}.

Inductive kind := KDense | KBfo | KSkop | KCoo | KCsr | KCsc.

(** The members of an object that matter for memory.  One record for all classes:

    - KDense: DenseSkOp (dense_skops.hh 335-455): [o_a] is buff;
    - KBfo: BLASFriendlyOperator (dense_skops.hh 635-650): [o_a] is buff;
    - KSkop: SparseSkOp (sparse_skops.hh 266-427): vals, rows, cols; [o_full] is dist.full_nnz;
    - KCoo: COOMatrix (coo_matrix.hh 120-262): vals, rows, cols;
    - KCsr: CSRMatrix (csr_matrix.hh 60-171): vals, rowptr, colidxs;
    - KCsc: CSCMatrix (csc_matrix.hh 56-166): vals, rowidxs, colptr.

    Members that a class does not have are unused. *)
Record obj := mk_obj {
  o_kind : kind; o_own : bool; o_rows : Z; o_cols : Z; o_full : Z; o_nnz : Z;
  o_a : ptr; o_b : ptr; o_c : ptr }.

Inductive slot := Sa | Sb | Sc.
Definition get_slot (o : obj) (f : slot) : ptr := match f with Sa => o_a o | Sb => o_b o | Sc => o_c o end.
Definition set_slot (o : obj) (f : slot) (p : ptr) : obj :=
  match f with
  | Sa => mk_obj (o_kind o) (o_own o) (o_rows o) (o_cols o) (o_full o) (o_nnz o) p (o_b o) (o_c o)
  | Sb => mk_obj (o_kind o) (o_own o) (o_rows o) (o_cols o) (o_full o) (o_nnz o) (o_a o) p (o_c o)
  | Sc => mk_obj (o_kind o) (o_own o) (o_rows o) (o_cols o) (o_full o) (o_nnz o) (o_a o) (o_b o) p
  end.
Definition set_nnz (o : obj) (n : Z) : obj :=
  mk_obj (o_kind o) (o_own o) (o_rows o) (o_cols o) (o_full o) n (o_a o) (o_b o) (o_c o).

(** Number of elements the loops over an object access in each array. *)
Definition extent (o : obj) (f : slot) : Z :=
  match o_kind o, f with
  | KDense, Sa | KBfo, Sa => o_rows o * o_cols o
  | KDense, _ | KBfo, _ => 0
  | KSkop, _ => o_full o
  | KCoo, _ => o_nnz o
  | KCsr, Sb => o_rows o + 1
  | KCsc, Sc => o_cols o + 1
  | KCsr, _ | KCsc, _ => o_nnz o
  end.

Section Own.
  Context {V : Type}.
  (** Contents of uninitialised and of value-initialised elements. *)
  Variables junk zero : V.
  (** [oom n]: the n-th request for memory fails with std::bad_alloc. *)
  Variable oom : nat -> bool.
  (** Whether the compiler elides the copy in [return x;] of a local object (permitted, not
      required).  If not, a class with a move constructor is moved and one without is copied. *)
  Variable elide : bool.

  Record mem := mk_mem { heap : list (block V); requests : nat; vars : list (option obj) }.

  Inductive res (A : Type) := Val (a : A) (s : mem) | Exc (s : mem) | Undef.
  Arguments Val {A}. Arguments Exc {A}. Arguments Undef {A}.
  Definition prog (A : Type) : Type := mem -> res A.
  Definition ret {A} (a : A) : prog A := fun s => Val a s.
  Definition seq {A B} (m : prog A) (k : A -> prog B) : prog B :=
    fun s => match m s with Val a s => k a s | Exc s => Exc s | Undef => Undef end.
  Notation "x <~ m ;; k" := (seq m (fun x => k)) (at level 61, m at next level, right associativity).
  Notation "m ;;; k" := (seq m (fun _ => k)) (at level 61, right associativity).
  Definition raise {A} : prog A := fun s => Exc s.
  Definition stuck {A} : prog A := fun _ => Undef.
  (** randblas_require: exceptions.hh 115-199. *)
  Definition require (b : bool) : prog unit := if b then ret tt else raise.
  Definition when (b : bool) (m : prog unit) : prog unit := if b then m else ret tt.

  (** Variables.  Using one that does not exist, or no longer, is undefined. *)
  Definition get_obj (x : nat) : prog obj :=
    fun s => match nth_error (vars s) x with Some (Some o) => Val o s | _ => Undef end.
  Definition put_obj (x : nat) (o : obj) : prog unit :=
    fun s => match nth_error (vars s) x with
             | Some (Some _) => Val tt (mk_mem (heap s) (requests s) (set_nth (vars s) x (Some o)))
             | _ => Undef
             end.
  Definition kill (x : nat) : prog unit :=
    fun s => Val tt (mk_mem (heap s) (requests s) (set_nth (vars s) x None)).
  Definition new_obj (o : obj) : prog nat :=
    fun s => Val (length (vars s)) (mk_mem (heap s) (requests s) (vars s ++ [Some o])).

  (** new T[n]; a negative length throws std::bad_array_new_length. *)
  Definition alloc (n : Z) (v : V) : prog nat :=
    fun s =>
      if n <? 0 then Exc s else
      if oom (requests s) then Exc (mk_mem (heap s) (S (requests s)) (vars s)) else
      Val (length (heap s))
          (mk_mem (heap s ++ [mk_block Lib false (repeat v (Z.to_nat n))]) (S (requests s)) (vars s)).
  (** delete [] p.  Deleting an array twice, or one the library did not allocate, is undefined. *)
  Definition delete (p : ptr) : prog unit :=
    fun s => match p with
             | None => Val tt s
             | Some a => match nth_error (heap s) a with
                         | Some (mk_block Lib false d) => Val tt (mk_mem (set_nth (heap s) a (mk_block Lib true d)) (requests s) (vars s))
                         | _ => Undef
                         end
             end.
  (** A loop reading elements 0..n-1 of p, as one step. *)
  Definition read (p : ptr) (n : Z) : prog (list V) :=
    fun s => if n <=? 0 then Val [] s else
             match p with
             | None => Undef
             | Some a => match nth_error (heap s) a with
                         | Some (mk_block _ false d) => if n <=? zlen d then Val (firstn (Z.to_nat n) d) s else Undef
                         | _ => Undef
                         end
             end.
  (** A loop writing the elements of [l] to p[0], p[1], ..., as one step. *)
  Definition write (p : ptr) (l : list V) : prog unit :=
    fun s => match l with
             | [] => Val tt s
             | _ =>
               match p with
               | None => Undef
               | Some a => match nth_error (heap s) a with
                           | Some (mk_block by_ false d) =>
                               if zlen l <=? zlen d
                               then Val tt (mk_mem (set_nth (heap s) a (mk_block by_ false (l ++ skipn (length l) d))) (requests s) (vars s))
                               else Undef
                           | _ => Undef
                           end
               end
             end.
  (** Elements written by samplers, sorts and conversions: any contents, given by a function
      of the position.  What the contents are is the subject of the other models. *)
  Definition some_data (d : Z -> V) (n : Z) : list V := map d (range 0 n).

  (** x.f = new T[n]. *)
  Definition assign_new (x : nat) (f : slot) (n : Z) (v : V) : prog unit :=
    p <~ alloc n v ;; o <~ get_obj x ;; put_obj x (set_slot o f (Some p)).

  (** Destructors: dense_skops.hh 450-454, 645-649; sparse_skops.hh 420-426; coo_matrix.hh
      235-241; csr_matrix.hh 154-160; csc_matrix.hh 150-156. *)
  Definition destroy (x : nat) : prog unit :=
    o <~ get_obj x ;;
    when (o_own o)
      (match o_kind o with
       | KDense | KBfo => delete (o_a o)
       | KSkop => delete (o_b o) ;;; delete (o_c o) ;;; delete (o_a o)
       | KCoo => delete (o_a o) ;;; delete (o_b o) ;;; delete (o_c o)
       | KCsr => delete (o_b o) ;;; delete (o_c o) ;;; delete (o_a o)
       | KCsc => delete (o_b o) ;;; delete (o_c o) ;;; delete (o_a o)
       end) ;;;
    kill x.
  (** Run [m]; destroy the local object x on both ways out. *)
  Definition scoped {A} (x : nat) (m : prog A) : prog A :=
    fun s => match m s with
             | Val a s => match destroy x s with Val _ s => Val a s | _ => Undef end
             | Exc s => match destroy x s with Val _ s => Exc s | _ => Undef end
             | Undef => Undef
             end.

  (** Move constructors: dense_skops.hh 432-447, sparse_skops.hh 407-417, coo_matrix.hh 250-259,
      csr_matrix.hh 163-170, csc_matrix.hh 158-165.  The source keeps own_memory.
      BLASFriendlyOperator declares a destructor and no move constructor: it is copied,
      member by member (the other classes cannot be copied). *)
  Definition move (x : nat) : prog nat :=
    o <~ get_obj x ;;
    y <~ new_obj o ;;
    (match o_kind o with
     | KBfo => ret tt
     | KDense => put_obj x (set_slot o Sa None)
     | KSkop => put_obj x (set_nnz (set_slot (set_slot (set_slot o Sb None) Sc None) Sa None) (-1))
     | KCoo | KCsr | KCsc => put_obj x (set_nnz (set_slot (set_slot (set_slot o Sb None) Sc None) Sa None) 0)
     end) ;;;
    ret y.
  (** return x; for a local object x. *)
  Definition return_obj (x : nat) : prog nat :=
    if elide then ret x else y <~ move x ;; destroy x ;;; ret y.

  (** Constructors.  dense_skops.hh 414-429; sparse_skops.hh 374-404; coo_matrix.hh 196-233;
      csr_matrix.hh 133-151; csc_matrix.hh 129-148. *)
  Definition new_dense (r c : Z) : prog nat := new_obj (mk_obj KDense true r c 0 0 None None None).
  Definition new_skop (r c full : Z) : prog nat := new_obj (mk_obj KSkop true r c full (-1) None None None).
  Definition new_skop_expert (r c full nnz : Z) (vals rows cols : ptr) : prog nat :=
    new_obj (mk_obj KSkop false r c full nnz vals rows cols).
  Definition new_coo (r c : Z) : prog nat := new_obj (mk_obj KCoo true r c 0 0 None None None).
  (** The COO expert constructor reads the index arrays unless told otherwise. *)
  Definition new_coo_expert (r c nnz : Z) (vals rows cols : ptr) (sort : bool) : prog nat :=
    when sort (_ <~ read rows nnz ;; _ <~ read cols nnz ;; ret tt) ;;;
    new_obj (mk_obj KCoo false r c 0 nnz vals rows cols).
  Definition new_csr (r c : Z) : prog nat := new_obj (mk_obj KCsr true r c 0 0 None None None).
  Definition new_csr_expert (r c nnz : Z) (vals rowptr colidxs : ptr) : prog nat :=
    new_obj (mk_obj KCsr false r c 0 nnz vals rowptr colidxs).
  Definition new_csc (r c : Z) : prog nat := new_obj (mk_obj KCsc true r c 0 0 None None None).
  Definition new_csc_expert (r c nnz : Z) (vals rowidxs colptr : ptr) : prog nat :=
    new_obj (mk_obj KCsc false r c 0 nnz vals rowidxs colptr).

  (** dense_skops.hh 624-633: fill_dense(S).  S.layout is the natural layout, so
      fill_dense_unpacked (545-583) makes no temporary here. *)
  Definition fill_dense (x : nat) (d : Z -> V) : prog unit :=
    o <~ get_obj x ;;
    when (o_own o && is_null (o_a o)) (assign_new x Sa (o_rows o * o_cols o) junk) ;;;
    o <~ get_obj x ;;
    require (negb (is_null (o_a o))) ;;;
    write (o_a o) (some_data d (o_rows o * o_cols o)).

  (** sparse_skops.hh 564-581: fill_sparse(S).  The sampler writes at most full_nnz elements
      of each array (C16, C17) and then sets nnz. *)
  Definition fill_sparse (x : nat) (nnz : Z) (dv dr dc : Z -> V) : prog unit :=
    o <~ get_obj x ;;
    let full := o_full o in
    when (o_own o)
      (o <~ get_obj x ;; when (is_null (o_b o)) (assign_new x Sb full junk) ;;;
       o <~ get_obj x ;; when (is_null (o_c o)) (assign_new x Sc full junk) ;;;
       o <~ get_obj x ;; when (is_null (o_a o)) (assign_new x Sa full junk)) ;;;
    o <~ get_obj x ;;
    require (negb (is_null (o_b o))) ;;;
    require (negb (is_null (o_c o))) ;;;
    require (negb (is_null (o_a o))) ;;;
    write (o_a o) (some_data dv full) ;;;
    write (o_b o) (some_data dr full) ;;;
    write (o_c o) (some_data dc full) ;;;
    put_obj x (set_nnz o nnz).

  (** coo_matrix.hh 277-290: reserve_coo. *)
  Definition reserve_coo (nnz : Z) (x : nat) : prog unit :=
    o <~ get_obj x ;;
    require (o_own o) ;;;
    require (is_null (o_a o)) ;;;
    require (is_null (o_b o)) ;;;
    require (is_null (o_c o)) ;;;
    put_obj x (set_nnz o nnz) ;;;
    when (nnz >? 0)
      (assign_new x Sa nnz junk ;;; assign_new x Sb nnz junk ;;; assign_new x Sc nnz junk).
  (** csr_matrix.hh 200-213: reserve_csr. *)
  Definition reserve_csr (nnz : Z) (x : nat) : prog unit :=
    o <~ get_obj x ;;
    require (o_own o) ;;;
    require (is_null (o_c o)) ;;;
    require (is_null (o_a o)) ;;;
    when (is_null (o_b o)) (assign_new x Sb (o_rows o + 1) zero) ;;;
    o <~ get_obj x ;;
    put_obj x (set_nnz o nnz) ;;;
    when (nnz >? 0) (assign_new x Sc nnz zero ;;; assign_new x Sa nnz zero).
  (** csc_matrix.hh 194-207: reserve_csc. *)
  Definition reserve_csc (nnz : Z) (x : nat) : prog unit :=
    o <~ get_obj x ;;
    require (o_own o) ;;;
    require (is_null (o_b o)) ;;;
    require (is_null (o_a o)) ;;;
    when (is_null (o_c o)) (assign_new x Sc (o_cols o + 1) zero) ;;;
    o <~ get_obj x ;;
    put_obj x (set_nnz o nnz) ;;;
    when (nnz >? 0) (assign_new x Sb nnz zero ;;; assign_new x Sa nnz zero).
  (** The overload picked by the class of x. *)
  Definition reserve (nnz : Z) (x : nat) : prog unit :=
    o <~ get_obj x ;;
    match o_kind o with
    | KCoo => reserve_coo nnz x
    | KCsr => reserve_csr nnz x
    | KCsc => reserve_csc nnz x
    | _ => stuck
    end.

  (** Element accesses through an object: products, conversions to dense, printing. *)
  Definition access (x : nat) : prog unit :=
    o <~ get_obj x ;;
    _ <~ read (o_a o) (extent o Sa) ;; _ <~ read (o_b o) (extent o Sb) ;; _ <~ read (o_c o) (extent o Sc) ;; ret tt.
  (** Loops that overwrite the arrays of an object. *)
  Definition overwrite (x : nat) (dv dr dc : Z -> V) : prog unit :=
    o <~ get_obj x ;;
    write (o_a o) (some_data dv (extent o Sa)) ;;;
    write (o_b o) (some_data dr (extent o Sb)) ;;;
    write (o_c o) (some_data dc (extent o Sc)).

  (** dense_to_coo, dense_to_csr, dense_to_csc (coo_matrix.hh 375-394, csr_matrix.hh 256-279,
      csc_matrix.hh 247-270): count, reserve, fill.  The dense source is not represented. *)
  Definition dense_to_sparse (x : nat) (nnz : Z) (dv dr dc : Z -> V) : prog unit :=
    reserve nnz x ;;; overwrite x dv dr dc.
  (** conversions.hh 43-122: coo_to_csc, csc_to_coo, coo_to_csr, csr_to_coo.  [base_ok]: both
      index bases are zero.  Sorting rewrites the arrays of a COO source in place.  coo_to_csc
      compares csc.n_cols with itself (line 46) and writes coo.n_cols + 1 pointers. *)
  Definition convert (x y : nat) (base_ok : bool) (sv sr sc dv dr dc : Z -> V) : prog unit :=
    ox <~ get_obj x ;; oy <~ get_obj y ;;
    require (o_rows oy =? o_rows ox) ;;;
    require (match o_kind ox, o_kind oy with KCoo, KCsc => true | _, _ => o_cols oy =? o_cols ox end) ;;;
    require base_ok ;;;
    match o_kind ox, o_kind oy with
    | KCoo, KCsr =>
        overwrite x sv sr sc ;;; reserve_csr (o_nnz ox) y ;;; oy <~ get_obj y ;;
        write (o_b oy) (some_data dr (o_rows ox + 1)) ;;;
        write (o_c oy) (some_data dc (o_nnz ox)) ;;; write (o_a oy) (some_data dv (o_nnz ox))
    | KCoo, KCsc =>
        overwrite x sv sr sc ;;; reserve_csc (o_nnz ox) y ;;; oy <~ get_obj y ;;
        write (o_c oy) (some_data dc (o_cols ox + 1)) ;;;
        write (o_b oy) (some_data dr (o_nnz ox)) ;;; write (o_a oy) (some_data dv (o_nnz ox))
    | KCsr, KCoo | KCsc, KCoo =>
        reserve_coo (o_nnz ox) y ;;; access x ;;; overwrite y dv dr dc
    | _, _ => stuck
    end.

  (** sparse_skops.hh 637-643: coo_view_of_skop. *)
  Definition coo_view_of_skop (x : nat) (nnz : Z) (dv dr dc : Z -> V) : prog nat :=
    o <~ get_obj x ;;
    when (o_nnz o <=? 0) (fill_sparse x nnz dv dr dc) ;;;
    o <~ get_obj x ;;
    y <~ new_coo_expert (o_rows o) (o_cols o) (o_nnz o) (o_a o) (o_b o) (o_c o) true ;;
    return_obj y.
  (** coo_matrix.hh 361-372: transpose (always shares memory). *)
  Definition coo_transpose (x : nat) : prog nat :=
    o <~ get_obj x ;;
    y <~ new_coo_expert (o_cols o) (o_rows o) (o_nnz o) (o_a o) (o_c o) (o_b o) false ;;
    return_obj y.
  (** conversions.hh 124-142: transpose_as_csr. *)
  Definition transpose_as_csr (x : nat) (share : bool) : prog nat :=
    o <~ get_obj x ;;
    if share then
      y <~ new_csr_expert (o_cols o) (o_rows o) (o_nnz o) (o_a o) (o_c o) (o_b o) ;; return_obj y
    else
      y <~ new_csr (o_cols o) (o_rows o) ;;
      (fun s => match reserve_csr (o_nnz o) y s with
                | Val _ s => (t <~ get_obj y ;;
                              idx <~ read (o_b o) (o_nnz o) ;; write (o_c t) idx ;;;
                              vals <~ read (o_a o) (o_nnz o) ;; write (o_a t) vals ;;;
                              p <~ read (o_c o) (o_cols o + 1) ;; write (o_b t) p ;;;
                              return_obj y) s
                | Exc s => (destroy y ;;; raise) s
                | Undef => Undef
                end).
  (** conversions.hh 144-162: transpose_as_csc. *)
  Definition transpose_as_csc (x : nat) (share : bool) : prog nat :=
    o <~ get_obj x ;;
    if share then
      y <~ new_csc_expert (o_cols o) (o_rows o) (o_nnz o) (o_a o) (o_c o) (o_b o) ;; return_obj y
    else
      y <~ new_csc (o_cols o) (o_rows o) ;;
      (fun s => match reserve_csc (o_nnz o) y s with
                | Val _ s => (t <~ get_obj y ;;
                              idx <~ read (o_c o) (o_nnz o) ;; write (o_b t) idx ;;;
                              vals <~ read (o_a o) (o_nnz o) ;; write (o_a t) vals ;;;
                              p <~ read (o_b o) (o_rows o + 1) ;; write (o_c t) p ;;;
                              return_obj y) s
                | Exc s => (destroy y ;;; raise) s
                | Undef => Undef
                end).

  (** dense_skops.hh 652-663: submatrix_as_blackbox.  [buff] is a plain pointer until the
      object exists.  fill_dense_unpacked (529-583) checks the window again. *)
  Definition submatrix_as_blackbox (x : nat) (r c ro co : Z) (d : Z -> V) : prog nat :=
    o <~ get_obj x ;;
    require (ro + r <=? o_rows o) ;;;
    require (co + c <=? o_cols o) ;;;
    buff <~ alloc (r * c) junk ;;
    require (o_rows o >=? r + ro) ;;;
    require (o_cols o >=? c + co) ;;;
    write (Some buff) (some_data d (r * c)) ;;;
    y <~ new_obj (mk_obj KBfo true r c 0 0 (Some buff) None None) ;;
    return_obj y.

  (** skge.hh 152-200, 305-353; sparse_data/sksp.hh 132-183, 277-327: lskge3, rskge3, lsksp3,
      rsksp3: a temporary if S.buff is null.  [bad]: the rest of the call raises. *)
  Definition sketch_dense (x : nat) (r c ro co : Z) (d : Z -> V) (bad : bool) : prog unit :=
    o <~ get_obj x ;;
    if is_null (o_a o) then
      y <~ submatrix_as_blackbox x r c ro co d ;;
      scoped y (when bad raise ;;; access y)
    else
      require (o_rows o >=? r + ro) ;;; require (o_cols o >=? c + co) ;;; when bad raise ;;; access x.
  (** skge.hh 485-489, 618-623: the product with a COO view.  It may sort the view's arrays. *)
  Definition apply_view (x : nat) (nnz : Z) (dv dr dc sv sr sc : Z -> V) (bad : bool) : prog unit :=
    v <~ coo_view_of_skop x nnz dv dr dc ;;
    scoped v (when bad raise ;;; overwrite v sv sr sc).
  (** skge.hh 463-489, 596-624: lskges and rskges ([rhs]).  rskges goes on with the original
      operator after using the filled copy. *)
  Definition sketch_sparse (rhs : bool) (x : nat) (nnz : Z) (dv dr dc sv sr sc : Z -> V) (bad : bool) : prog unit :=
    o <~ get_obj x ;;
    if o_nnz o <? 0 then
      t <~ new_skop (o_rows o) (o_cols o) (o_full o) ;;
      scoped t (fill_sparse t nnz dv dr dc ;;; apply_view t nnz dv dr dc sv sr sc bad) ;;;
      when rhs (apply_view x nnz dv dr dc sv sr sc bad)
    else apply_view x nnz dv dr dc sv sr sc bad.

  (** What a program can do. *)
  Inductive cmd :=
  | UserAlloc (data : list V)
  | UserFree (a : nat)
  | NewDense (r c : Z)
  | NewSkop (r c full : Z)
  | NewSkopExpert (r c full nnz : Z) (vals rows cols : ptr)
  | NewCoo (r c : Z)
  | NewCooExpert (r c nnz : Z) (vals rows cols : ptr) (sort : bool)
  | NewCsr (r c : Z)
  | NewCsrExpert (r c nnz : Z) (vals rowptr colidxs : ptr)
  | NewCsc (r c : Z)
  | NewCscExpert (r c nnz : Z) (vals rowidxs colptr : ptr)
  | Attach (x : nat) (p : ptr)
  | FillDense (x : nat) (d : Z -> V)
  | FillSparse (x : nat) (nnz : Z) (dv dr dc : Z -> V)
  | Reserve (x : nat) (nnz : Z)
  | DenseToSparse (x : nat) (nnz : Z) (dv dr dc : Z -> V)
  | Convert (x y : nat) (base_ok : bool) (sv sr sc dv dr dc : Z -> V)
  | Access (x : nat)
  | Overwrite (x : nat) (dv dr dc : Z -> V)
  | Move (x : nat)
  | Destroy (x : nat)
  | CooView (x : nat) (nnz : Z) (dv dr dc : Z -> V)
  | CooTranspose (x : nat)
  | TransposeAsCsr (x : nat) (share : bool)
  | TransposeAsCsc (x : nat) (share : bool)
  | Blackbox (x : nat) (r c ro co : Z) (d : Z -> V)
  | SketchDense (x : nat) (r c ro co : Z) (d : Z -> V) (bad : bool)
  | SketchSparse (rhs : bool) (x : nat) (nnz : Z) (dv dr dc sv sr sc : Z -> V) (bad : bool).

  Definition drop {A} (m : prog A) : prog unit := _ <~ m ;; ret tt.
  Definition exec (c : cmd) : prog unit :=
    match c with
    (** The caller's own new[] and delete[]. *)
    | UserAlloc data => fun s => Val tt (mk_mem (heap s ++ [mk_block User false data]) (requests s) (vars s))
    | UserFree a => fun s => match nth_error (heap s) a with
                             | Some (mk_block User false d) => Val tt (mk_mem (set_nth (heap s) a (mk_block User true d)) (requests s) (vars s))
                             | _ => Undef
                             end
    | NewDense r c => drop (new_dense r c)
    | NewSkop r c full => drop (new_skop r c full)
    | NewSkopExpert r c full nnz vals rows cols => drop (new_skop_expert r c full nnz vals rows cols)
    | NewCoo r c => drop (new_coo r c)
    | NewCooExpert r c nnz vals rows cols sort => drop (new_coo_expert r c nnz vals rows cols sort)
    | NewCsr r c => drop (new_csr r c)
    | NewCsrExpert r c nnz vals rowptr colidxs => drop (new_csr_expert r c nnz vals rowptr colidxs)
    | NewCsc r c => drop (new_csc r c)
    | NewCscExpert r c nnz vals rowidxs colptr => drop (new_csc_expert r c nnz vals rowidxs colptr)
    (** The caller sets S.own_memory = false and S.buff = p (both are public). *)
    | Attach x p => o <~ get_obj x ;;
                    put_obj x (mk_obj (o_kind o) false (o_rows o) (o_cols o) (o_full o) (o_nnz o) p (o_b o) (o_c o))
    | FillDense x d => fill_dense x d
    | FillSparse x nnz dv dr dc => fill_sparse x nnz dv dr dc
    | Reserve x nnz => reserve nnz x
    | DenseToSparse x nnz dv dr dc => dense_to_sparse x nnz dv dr dc
    | Convert x y b sv sr sc dv dr dc => convert x y b sv sr sc dv dr dc
    | Access x => access x
    | Overwrite x dv dr dc => overwrite x dv dr dc
    | Move x => drop (move x)
    | Destroy x => destroy x
    | CooView x nnz dv dr dc => drop (coo_view_of_skop x nnz dv dr dc)
    | CooTranspose x => drop (coo_transpose x)
    | TransposeAsCsr x share => drop (transpose_as_csr x share)
    | TransposeAsCsc x share => drop (transpose_as_csc x share)
    | Blackbox x r c ro co d => drop (submatrix_as_blackbox x r c ro co d)
    | SketchDense x r c ro co d bad => sketch_dense x r c ro co d bad
    | SketchSparse rhs x nnz dv dr dc sv sr sc bad => sketch_sparse rhs x nnz dv dr dc sv sr sc bad
    end.
End Own.
Arguments Val {V A}. Arguments Exc {V A}. Arguments Undef {V A}.
