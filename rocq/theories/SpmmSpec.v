(** Specification of products with sparse matrices. *)
From Coq Require Import Permutation.
From Verif Require Import Base Interleave Spec SparseSkopModel SparseSpec SpFmtModel SpFmtSpec SpmmModel.

(** Laws of a commutative semiring whose operator== decides equality. *)
Record semiring {T} (O : ops T) : Prop := {
  sr_add_assoc : forall x y z, o_add O x (o_add O y z) = o_add O (o_add O x y) z;
  sr_add_comm : forall x y, o_add O x y = o_add O y x;
  sr_add_0_l : forall x, o_add O (o_zero O) x = x;
  sr_mul_assoc : forall x y z, o_mul O x (o_mul O y z) = o_mul O (o_mul O x y) z;
  sr_mul_comm : forall x y, o_mul O x y = o_mul O y x;
  sr_mul_1_l : forall x, o_mul O (o_one O) x = x;
  sr_mul_0_l : forall x, o_mul O (o_zero O) x = o_zero O;
  sr_distr_l : forall x y z, o_mul O x (o_add O y z) = o_add O (o_mul O x y) (o_mul O x z);
  sr_eqb : forall x y, o_eqb O x y = true <-> x = y }.

Section Sums.
  Context {T : Type}.
  Variable O : ops T.
  Definition sumT (l : list T) : T := fold_right (o_add O) (o_zero O) l.
  (** Sum of f k for lo <= k < hi. *)
  Definition bigsum (f : Z -> T) (lo hi : Z) : T := sumT (map f (range lo hi)).

  (** Entry (i,j) of the matrix a sparse structure represents: the sum of the values
      stored there. *)
  Definition sp_entry (A : spmat T) (i j : Z) : T :=
    sumT (match A with SpCoo M => coo_at M i j | SpCsr M => csr_at M i j | SpCsc M => csc_at M i j end).
  Definition sp_rows (A : spmat T) : Z := match A with SpCoo M => co_nr M | SpCsr M => cr_nr M | SpCsc M => cc_nr M end.
  Definition sp_cols (A : spmat T) : Z := match A with SpCoo M => co_nc M | SpCsr M => cr_nc M | SpCsc M => cc_nc M end.

  (** mat(B)_{ij}, for an in-range entry. *)
  Definition cell (l : layout) (ld : Z) (B : list T) (i j : Z) : T :=
    match get B (addr l ld i j) with Some x => x | None => o_zero O end.
  (** The buffer holds a rows x cols matrix with leading dimension ld. *)
  Definition fits_buffer (l : layout) (ld rows cols len : Z) : Prop :=
    min_ld l rows cols <= ld /\ forall i j, 0 <= i < rows -> 0 <= j < cols -> addr l ld i j < len.

  (** C' is C with its d x n matrix replaced by alpha*(a b) + beta*mat(C), a being d x m and
      b being m x n; no other element differs. *)
  Definition gemm_result (l : layout) (d n m : Z) (alpha beta : T) (a b : Z -> Z -> T) (C : list T) (ldc : Z) (C' : list T) : Prop :=
    zlen C' = zlen C /\
    (forall i j x, 0 <= i < d -> 0 <= j < n -> get C (addr l ldc i j) = Some x ->
       get C' (addr l ldc i j) =
         Some (o_add O (o_mul O alpha (bigsum (fun k => o_mul O (a i k) (b k j)) 0 m)) (o_mul O beta x))) /\
    (forall p, (forall i j, 0 <= i < d -> 0 <= j < n -> addr l ldc i j <> p) -> get C' p = get C p).

  (** Rows and columns of B before op. *)
  Definition rows_before (o : op) (r c : Z) : Z := match o with NoTrans => r | Trans => c end.
  Definition cols_before (o : op) (r c : Z) : Z := match o with NoTrans => c | Trans => r end.
End Sums.

(** A sort flag that tells the truth (or claims nothing). *)
Definition honest_sort {T} (M : coo_matrix T) : Prop :=
  match co_sort M with
  | SCSC => ordered le_csc (co_nnz M) (arrv (co_rows M)) (arrv (co_cols M))
  | SCSR => ordered le_csr (co_nnz M) (arrv (co_rows M)) (arrv (co_cols M))
  | SNone => True
  end.

(** The stored triple lies in the d x m window at (ro, co). *)
Definition in_window {T} (ro co d m : Z) (t : Z * Z * T) : bool :=
  let '(r, c, _) := t in (ro <=? r) && (r <? ro + d) && (co <=? c) && (c <? co + m).
Definition stored {T} (M : coo_matrix T) : list (Z * Z * T) :=
  coo_triples (co_nnz M) (arrv (co_rows M)) (arrv (co_cols M)) (arrv (co_vals M)).
(** Number of stored entries in the window. *)
Definition window_count {T} (M : coo_matrix T) (ro co d m : Z) : Z := zlen (filter (in_window ro co d m) (stored M)).

(** When the column-by-column product with the window is within bounds: the kernel takes a
    shortcut if all stored entries of the window are in its first column, and then reads
    m * (number of entries) positions of arrays of length nnz. *)
Definition coo_safe {T} (M : coo_matrix T) (ro co d n m : Z) : Prop :=
  n = 0 \/ m = 1 \/ (m = 0 /\ 2 <= co_nnz M) \/
  (2 <= m /\ ((exists r c v, In (r, c, v) (stored M) /\ in_window ro (co + 1) d (m - 1) (r, c, v) = true) \/
              m * window_count M ro co d m <= co_nnz M)).

(** op(a). *)
Definition op_ent {T} (o : op) (a : Z -> Z -> T) (i j : Z) : T := match o with NoTrans => a i j | Trans => a j i end.
(** Well-formed sparse operands. *)
Definition valid_sp {T} (A : spmat T) : Prop :=
  match A with SpCoo M => valid_coo M /\ honest_sort M | SpCsr M => valid_csr M | SpCsc M => valid_csc M end.
(** A sparse operand after a product: unchanged, except that a COO matrix may list its
    triples in another order. *)
Definition same_sp {T} (A A' : spmat T) : Prop :=
  match A, A' with
  | SpCoo M, SpCoo M' =>
      co_nr M' = co_nr M /\ co_nc M' = co_nc M /\ co_own M' = co_own M /\ co_nnz M' = co_nnz M /\ co_base M' = co_base M /\
      co_sort M' = co_sort M /\ honest_sort M' /\ valid_coo M' /\ Permutation (stored M) (stored M')
  | SpCsr M, SpCsr M' => M' = M
  | SpCsc M, SpCsc M' => M' = M
  | _, _ => False
  end.
(** The d x m window at (ro, co) of op(A)'s operand is inside A; compressed formats admit
    only the whole matrix. *)
Definition window_ok {T} (A : spmat T) (d m ro co : Z) : Prop :=
  match A with
  | SpCoo M => d <= co_nr M /\ m <= co_nc M
  | _ => sp_rows A = d /\ sp_cols A = m /\ ro = 0 /\ co = 0
  end.
(** Whether the row-block kernel is chosen. *)
Definition rowwise (l : layout) (opB : op) : bool := layout_eqb l RowMajor && match opB with NoTrans => true | Trans => false end.
(** Conditions under which the kernel chosen for an untransposed operand stays in bounds:
    [csr_safe] for row-compressed, [csc_safe] for column-compressed operands.  [ptr] is the
    array of column offsets. *)
Definition csr_safe (l : layout) (opB : op) (m : Z) : Prop := rowwise l opB = true \/ m <= 2 ^ 31.
Definition csc_safe (nt : Z) (l : layout) (opB : op) (d n m nnz : Z) (ptr : option (list Z)) : Prop :=
  if rowwise l opB then 1 <= nt /\ d + nt < 2 ^ 31
  else n = 0 \/ m = 1 \/ 2 <= m /\ (nnz = 0 \/ exists p1, get (arrv ptr) 1 = Some p1 /\ p1 < nnz).
(** Conditions for op(A), d x m. *)
Definition sp_safe {T} (nt : Z) (l : layout) (opA opB : op) (d n m : Z) (A : spmat T) (ro co : Z) : Prop :=
  match A, opA with
  | SpCsr M, NoTrans => csr_safe l opB m
  | SpCsc M, Trans => csr_safe l opB m
  | SpCsc M, NoTrans => csc_safe nt l opB d n m (cc_nnz M) (cc_ptr M)
  | SpCsr M, Trans => csc_safe nt l opB d n m (cr_nnz M) (cr_ptr M)
  | SpCoo M, NoTrans => coo_safe M ro co d n m
  | SpCoo M, Trans => coo_safe (Build_coo_matrix (co_nc M) (co_nr M) false (co_nnz M) (co_base M) (co_vals M) (co_cols M) (co_rows M) (co_sort M)) co ro d n m
  end.
