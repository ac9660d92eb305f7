(** What "accurate up to rounding" means for a product with a sparse matrix. *)
From Coq Require Import ZArith Reals.
From Flocq Require Import Core BinarySingleNaN.
From Verif Require Import Base Spec SparseSkopModel DenseModel SpFmtModel SpFmtSpec UtilModel SpmmModel SpmmSpec.

(** The values stored at (i,j), in storage order. *)
Definition at_pos {T} (A : spmat T) (i j : Z) : list T :=
  match A with SpCoo M => coo_at M i j | SpCsr M => csr_at M i j | SpCsc M => csc_at M i j end.
(** The pairs (stored value at (i,k), b k j) for 0 <= k < m. *)
Definition terms {T} (a : Z -> Z -> list T) (b : Z -> Z -> T) (m i j : Z) : list (T * T) :=
  flat_map (fun k => map (fun v => (v, b k j)) (a i k)) (range 0 m).

Definition Rtotal (l : list R) : R := fold_right Rplus 0%R l.

Section Bounds.
  Context {prec emax : Z}.
  Local Notation bf := (binary_float prec emax).
  Local Open Scope R_scope.
  (** alpha * sum of v*x + beta * c over the reals, and the same with absolute values. *)
  Definition exact_cell (alpha : bf) (l : list (bf * bf)) (beta c : bf) : R :=
    B2R alpha * Rtotal (map (fun p => B2R (fst p) * B2R (snd p)) l) + B2R beta * B2R c.
  Definition size_cell (alpha : bf) (l : list (bf * bf)) (beta c : bf) : R :=
    Rabs (B2R alpha) * Rtotal (map (fun p => Rabs (B2R (fst p)) * Rabs (B2R (snd p))) l) + Rabs (B2R beta) * Rabs (B2R c).
  (** Finite, and zero or between 2^lo and 2^hi in absolute value. *)
  Definition moderate (lo hi : Z) (x : bf) : Prop :=
    is_finite x = true /\ (B2R x = 0 \/ bpow radix2 lo <= Rabs (B2R x) <= bpow radix2 hi).
  (** y is finite and within [n] relative roundings of the exact cell. *)
  Definition within (n : Z) (alpha : bf) (l : list (bf * bf)) (beta c y : bf) : Prop :=
    is_finite y = true /\
    Rabs (B2R y - exact_cell alpha l beta c) <= ((1 + bpow radix2 (- prec)) ^ Z.to_nat n - 1) * size_cell alpha l beta c.
End Bounds.

(** C' has the length of C, and the same elements outside the d x n matrix in it. *)
Definition others_kept {T} (l : layout) (d n : Z) (C : list T) (ldc : Z) (C' : list T) : Prop :=
  zlen C' = zlen C /\ forall q, (forall i j, 0 <= i < d -> 0 <= j < n -> addr l ldc i j <> q) -> get C' q = get C q.

(** The column-by-column kernel of a COO operand does not read values past the entries of
    the window: it has no entry, or one outside its first column, or at most one column. *)
Definition coo_tight {T} (M : coo_matrix T) (ro co d n m : Z) : Prop :=
  n <= 0 \/ m <= 1 \/ window_count M ro co d m = 0 \/
  exists r c v, In (r, c, v) (stored M) /\ in_window ro (co + 1) d (m - 1) (r, c, v) = true.
Definition tight {T} (A : spmat T) (opA : op) (ro co d n m : Z) : Prop :=
  match A, opA with
  | SpCoo M, NoTrans => coo_tight M ro co d n m
  | SpCoo M, Trans => coo_tight (Build_coo_matrix (co_nc M) (co_nr M) false (co_nnz M) (co_base M) (co_vals M) (co_cols M) (co_rows M) (co_sort M)) co ro d n m
  | _, _ => True
  end.
