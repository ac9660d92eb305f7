(** Specification of sketching. *)
From Coq Require Import Permutation.
From Verif Require Import Base Interleave Spec RngModel DenseModel DenseSpec DenseProofs2 SparseSkopModel SparseSpec SparseProofs2 SpFmtModel SpFmtSpec SpmmModel SpmmSpec UtilModel SketchModel.

(** The submatrix that starts at (ro, co). *)
Definition win {T} (a : Z -> Z -> T) (ro co i j : Z) : T := a (ro + i) (co + j).
(** The rows x cols window at (ro, co) lies inside an R x C matrix and starts at one of its entries. *)
Definition in_matrix (R C rows cols ro co : Z) : Prop :=
  0 <= rows /\ 0 <= cols /\ 0 <= ro < R /\ 0 <= co < C /\ ro + rows <= R /\ co + cols <= C.

Section Denote.
  Context {K W F T : Type}.
  Variable cast : W -> T.
  Variable denv : dense_env K W T.

  (** The dense operator S denotes the matrix a: if materialised, its buffer holds a in S's
      layout; if not, a is the matrix sampled from its distribution and seed. *)
  Definition dense_denotes (S : dense_skop K T) (a : Z -> Z -> T) : Prop :=
    let D := ds_dist S in
    let R := dd_rows D in
    let C := dd_cols D in
    match ds_buff S with
    | Some b => R * C <= zlen b /\ forall i j, 0 <= i < R -> 0 <= j < C -> mat (ds_layout S) (min_ld (ds_layout S) R C) 0 b i j = Some (a i j)
    | None => valid_dist D /\ size_ok D (g_len (env_gen denv (dd_family D))) /\
              forall i j, 0 <= i < R -> 0 <= j < C -> dense_entry cast denv D (ds_seed S) i j = Some (a i j)
    end.

  (** The COO matrix whose arrays are those of S. *)
  Definition skop_coo (S : sparse_skop K T) : coo_matrix T :=
    Build_coo_matrix (sd_rows (ss_dist S)) (sd_cols (ss_dist S)) false (ss_nnz S) BZero (ss_vals S) (ss_rows S) (ss_cols S) SNone.

  Variable senv : sparse_env K F T.
  (** Distributions and seeds that can be sampled; for the Long axis the drawn indices are in range. *)
  Definition samplable (D : sparse_dist) (seed : rng_state K) : Prop :=
    wf_senv senv /\ valid_sdist D /\ sparse_size_ok senv D /\ seed_ok senv seed /\
    (sd_axis D = Long -> forall i t, 0 <= i < Z.min (sd_rows D) (sd_cols D) -> 0 <= t < sd_vec_nnz D ->
       0 <= long_index senv D seed i t < Z.max (sd_rows D) (sd_cols D)).
  (** Values at (i,j) of the sparse operator S: those stored if S is materialised, those
      sampled from its distribution and seed if not (nnz < 0). *)
  Definition sparse_at (S : sparse_skop K T) (i j : Z) : list T :=
    if ss_nnz S <? 0 then sparse_entry senv (ss_dist S) (ss_seed S) i j else coo_at (skop_coo S) i j.
  Definition sparse_valid (S : sparse_skop K T) : Prop :=
    if ss_nnz S <? 0 then samplable (ss_dist S) (ss_seed S) else 0 < ss_nnz S /\ valid_coo (skop_coo S).

  (** S' is S with its stored triples possibly in another order. *)
  Definition same_skop (S S' : sparse_skop K T) : Prop :=
    ss_dist S' = ss_dist S /\ ss_seed S' = ss_seed S /\ ss_next S' = ss_next S /\ ss_own S' = ss_own S /\ ss_nnz S' = ss_nnz S /\
    valid_coo (skop_coo S') /\ Permutation (stored (skop_coo S)) (stored (skop_coo S')).
End Denote.

(** The operator after a use that may at most reorder the triples of a materialised sparse
    operator: a dense operator and an operator that is not materialised stay as they are. *)
Definition same_op {K T} (S S' : @skop K T) : Prop :=
  match S, S' with
  | SkDense D, SkDense D' => D' = D
  | SkSparse D, SkSparse D' => if ss_nnz D <? 0 then D' = D else same_skop D D'
  | _, _ => False
  end.

(** The d x m window of op(S) at (ro, co) has one column, or at least two and not all its
    stored entries in the first one, or there is nothing to multiply with. *)
Definition spread {T} (at_ : Z -> Z -> list T) (o : op) (d n m ro co : Z) : Prop :=
  n = 0 \/ m = 1 \/ 2 <= m /\
  ((exists i k, 0 <= i < d /\ 1 <= k < m /\ op_ent o (win at_ ro co) i k <> []) \/ forall i, 0 <= i < d -> op_ent o (win at_ ro co) i 0 = []).

(** The window of the sparse matrix A that lsksp3 and rsksp3 accept. *)
Definition sp_window {T} (A : spmat T) (r c ro co : Z) : Prop :=
  ro + r <= sp_rows A /\ co + c <= sp_cols A /\ 0 <= ro /\ 0 <= co /\
  match A with SpCoo _ => True | _ => sp_rows A = r /\ sp_cols A = c /\ ro = 0 /\ co = 0 end.

Section Operators.
  Context {K W F T : Type}.
  Variable O : ops T.
  Variable cast : W -> T.
  Variable denv : dense_env K W T.
  Variable senv : sparse_env K F T.

  (** The operator S denotes the matrix a. *)
  Definition skop_denotes (S : @skop K T) (a : Z -> Z -> T) : Prop :=
    match S with
    | SkDense D => dense_denotes cast denv D a
    | SkSparse D => sparse_valid senv D /\
        forall i j, 0 <= i < sd_rows (ss_dist D) -> 0 <= j < sd_cols (ss_dist D) -> sumT O (sparse_at senv D i j) = a i j
    end.
  (** S has been materialised. *)
  Definition filled (S : @skop K T) : bool :=
    match S with SkDense D => match ds_buff D with Some _ => true | None => false end | SkSparse D => 0 <=? ss_nnz D end.
  (** The d x m window at (ro, co) of op(S) can be multiplied with a matrix of n columns:
      it lies inside S, is not empty if it must be sampled as a dense matrix, and avoids the
      shortcut of the sparse kernel (see [spread]). *)
  Definition usable (S : @skop K T) (o : op) (d n m ro co : Z) (alpha : T) : Prop :=
    in_matrix (skop_rows S) (skop_cols S) (rows_before o d m) (cols_before o d m) ro co /\
    match S with
    | SkDense D => ds_buff D = None -> 1 <= d /\ 1 <= m
    | SkSparse D => alpha = o_zero O \/ spread (sparse_at senv D) o d n m ro co
    end.

  (** S is an operator made from a distribution and a seed; a is the matrix sampled from
      them; if S has been materialised its memory holds that matrix. *)
  Definition sampled (S : @skop K T) (a : Z -> Z -> T) : Prop :=
    match S with
    | SkDense D =>
        valid_dist (ds_dist D) /\ size_ok (ds_dist D) (g_len (env_gen denv (dd_family (ds_dist D)))) /\
        (forall i j, 0 <= i < dd_rows (ds_dist D) -> 0 <= j < dd_cols (ds_dist D) ->
           dense_entry cast denv (ds_dist D) (ds_seed D) i j = Some (a i j)) /\
        match ds_buff D with None => True | Some _ => dense_denotes cast denv D a end
    | SkSparse D =>
        samplable senv (ss_dist D) (ss_seed D) /\ buffers_ok D /\
        (forall i j, 0 <= i < sd_rows (ss_dist D) -> 0 <= j < sd_cols (ss_dist D) ->
           sumT O (sparse_entry senv (ss_dist D) (ss_seed D) i j) = a i j) /\
        (ss_nnz D < 0 \/ 0 < ss_nnz D /\ valid_coo (skop_coo D) /\
           forall i j, Permutation (sparse_entry senv (ss_dist D) (ss_seed D) i j) (coo_at (skop_coo D) i j))
    end.

  (** One use of an operator: filling it, or sketching from either side, with any arguments
      for which the call returns. *)
  Inductive use : @skop K T -> @skop K T -> Prop :=
  | use_fill_dense fsched D D' :
      valid_schedule fsched -> fill_dense_skop cast denv fsched D = Ok D' -> use (SkDense D) (SkDense D')
  | use_fill_sparse junkT junkZ D D' : fill_sparse senv junkT junkZ D = Ok D' -> use (SkSparse D) (SkSparse D')
  | use_left fsched junkT junkZ sched ssort nt l opS opA d n m alpha S ro co A lda beta B ldb S' B' : sort_ok ssort ->
      sketch_general_left O cast denv fsched senv junkT junkZ sched ssort nt l opS opA d n m alpha S ro co A lda beta B ldb = Ok (S', B') -> use S S'
  | use_right fsched junkT junkZ sched ssort nt l opA opS m d n alpha A lda S ro co beta B ldb S' B' : sort_ok ssort ->
      sketch_general_right O cast denv fsched senv junkT junkZ sched ssort nt l opA opS m d n alpha A lda S ro co beta B ldb = Ok (S', B') -> use S S'.
  (** Any sequence of uses. *)
  Inductive uses : @skop K T -> @skop K T -> Prop :=
  | uses_nil S : uses S S
  | uses_cons S1 S2 S3 : use S1 S2 -> uses S2 S3 -> uses S1 S3.

  (** y becomes alpha*a*x + beta*y on the elements 0, incy, 2*incy, ...; the others keep
      their values. *)
  Definition gemv_result (d m : Z) (alpha beta : T) (a : Z -> Z -> T) (x : list T) (incx : Z) (y : list T) (incy : Z) (y' : list T) : Prop :=
    zlen y' = zlen y /\
    (forall i v, 0 <= i < d -> get y (i * incy) = Some v ->
       get y' (i * incy) = Some (o_add O (o_mul O alpha (bigsum O (fun k => o_mul O (a i k) (match get x (k * incx) with Some z => z | None => o_zero O end)) 0 m)) (o_mul O beta v))) /\
    (forall p, (forall i, 0 <= i < d -> p <> i * incy) -> get y' p = get y p).
End Operators.

(** Arguments the drivers must reject: a window that does not fit (for a sparse operator
    only its size counts, see C48) or a leading dimension that is too small.  The window of
    op(S) is d x m; the dense operands are op(A), r x c, and B, e x f. *)
Definition sketch_args_bad {K T} (S : @skop K T) (l : layout) (o : op) (d m ro co : Z) (opA : op) (r c lda e f ldb : Z) : Prop :=
  match S with
  | SkDense _ => skop_rows S < ro + rows_before o d m \/ skop_cols S < co + cols_before o d m
  | SkSparse _ => skop_rows S < rows_before o d m \/ skop_cols S < cols_before o d m
  end \/ lda < min_ld l (rows_before opA r c) (cols_before opA r c) \/ ldb < min_ld l e f.

Section Blocks.
  Context {K W F T : Type}.
  Variable O : ops T.
  Variable cast : W -> T.
  Variable denv : dense_env K W T.
  Variable fsched : schedule T.
  Variable senv : sparse_env K F T.
  Variable junkT : T.
  Variable junkZ : Z.
  Variable sched : schedule (list T).
  Variable ssort : (Z * Z * T -> Z * Z * T -> bool) -> list (Z * Z * T) -> list (Z * Z * T).
  Variable nt : Z.
  (** Sketching block by block: the inner dimension is cut into blocks of the given widths;
      block k multiplies the next columns of op(S) with the next rows of op(A) and adds to B. *)
  Fixpoint sketch_blocks (l : layout) (opS opA : op) (d n : Z) (alpha : T) (ro co : Z) (A : list T) (lda ldb : Z)
      (start : Z) (ms : list Z) (S : @skop K T) (B : list T) : outcome (@skop K T * list T) :=
    match ms with
    | [] => Ok (S, B)
    | m :: ms =>
        Ak <- tail_at A (match opA with NoTrans => addr l lda start 0 | Trans => addr l lda 0 start end) ;;
        '(S, B) <- sketch_general_left O cast denv fsched senv junkT junkZ sched ssort nt l opS opA d n m alpha S
                     (match opS with NoTrans => ro | Trans => ro + start end) (match opS with NoTrans => co + start | Trans => co end)
                     Ak lda (o_one O) B ldb ;;
        sketch_blocks l opS opA d n alpha ro co A lda ldb (start + m) ms S B
    end.
End Blocks.
(** Each block of the window of op(S) can be used. *)
Fixpoint blocks_usable {K F T} (O : ops T) (senv : sparse_env K F T) (S : @skop K T) (o : op) (d n ro co : Z) (alpha : T) (start : Z) (ms : list Z) : Prop :=
  match ms with
  | [] => True
  | m :: ms => 1 <= m /\ usable O senv S o d n m (match o with NoTrans => ro | Trans => ro + start end) (match o with NoTrans => co + start | Trans => co end) alpha /\
               blocks_usable O senv S o d n ro co alpha (start + m) ms
  end.
Definition sumZ (ms : list Z) : Z := fold_right Z.add 0 ms.

(** The window of op(S) consists of whole columns: op(S) is wide and the d rows are all of
    its rows.  Every column then holds vec_nnz entries if the major axis is the short one. *)
Definition whole_columns (D : sparse_dist) (o : op) (d ro co : Z) : Prop :=
  sd_axis D = Short /\
  if sd_rows D <=? sd_cols D then o = NoTrans /\ ro = 0 /\ d = sd_rows D else o = Trans /\ co = 0 /\ d = sd_cols D.
