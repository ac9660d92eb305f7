(** What a BLAS promises about gemm. *)
From Verif Require Import Base Interleave Spec RngModel DenseModel SparseSkopModel SpFmtModel SpmmModel SpmmSpec UtilModel SketchModel RoundSpec GemmModel.

Section Contract.
  Context {T : Type}.
  Variable O : ops T.
  (** Row i of a and column j of b, entry by entry. *)
  Definition row_col (a b : Z -> Z -> T) (k i j : Z) : list (T * T) := map (fun p => (a i p, b p j)) (range 0 k).
  (** [P alpha p beta c y]: what is promised of the new value y of an entry whose old value
      is c, p being the row of op(A) and the column of op(B) that belong to it. *)
  Variable P : T -> list (T * T) -> T -> T -> T -> Prop.
  (** C' is C with its d x n matrix updated as promised; no other element differs. *)
  Definition updated (l : layout) (d n m : Z) (alpha beta : T) (a b : Z -> Z -> T) (C : list T) (ldc : Z) (C' : list T) : Prop :=
    others_kept l d n C ldc C' /\
    forall i j c, 0 <= i < d -> 0 <= j < n -> get C (addr l ldc i j) = Some c ->
      exists y, get C' (addr l ldc i j) = Some y /\ P alpha (row_col a b m i j) beta c y.
  (** The promise: a call with arrays that hold matrices of the right sizes returns, and
      updates C. *)
  Definition keeps_promise (blas : blas_gemm T) : Prop :=
    forall l opA opB m n k alpha A lda B ldb beta C ldc,
      0 <= m -> 0 <= n -> 0 <= k ->
      fits_buffer l lda (rows_before opA m k) (cols_before opA m k) (zlen A) ->
      fits_buffer l ldb (rows_before opB k n) (cols_before opB k n) (zlen B) -> fits_buffer l ldc m n (zlen C) ->
      exists C', blas l opA opB m n k alpha A lda B ldb beta C ldc = Ok C' /\
        updated l m n k alpha beta (op_ent opA (cell O l lda A)) (op_ent opB (cell O l ldb B)) C ldc C'.
End Contract.
