(** Specification: sparse data for which the sparse kernels leave their arrays. *)
From Verif Require Import Base Spec SpFmtModel SpFmtSpec SpmmModel SpmmSpec.

(** op(A) is d x m and is multiplied with n columns.  Coordinate format: the window violates
    [coo_safe], that is, all its stored entries are in the first of at least two columns and
    m times their number exceeds the length of the arrays (or the window is degenerate).
    Compressed formats, for the column-by-column kernel: the arrays have exactly nnz
    positions and the pointer array says that all entries are in the first column (row for
    op = transpose) of at least two. *)
Definition overruns {T} (nt : Z) (l : layout) (opA opB : op) (d n m : Z) (A : spmat T) (ro co : Z) : Prop :=
  match A, opA with
  | SpCoo M, _ => ~ sp_safe nt l opA opB d n m (SpCoo M) ro co
  | SpCsr M, Trans => rowwise l opB = false /\ 1 <= n /\ 2 <= m /\ 0 < cr_nnz M /\ get (arrv (cr_ptr M)) 1 = Some (cr_nnz M) /\ zlen (arrv (cr_idx M)) = cr_nnz M
  | SpCsc M, NoTrans => rowwise l opB = false /\ 1 <= n /\ 2 <= m /\ 0 < cc_nnz M /\ get (arrv (cc_ptr M)) 1 = Some (cc_nnz M) /\ zlen (arrv (cc_idx M)) = cc_nnz M
  | _, _ => False
  end.
