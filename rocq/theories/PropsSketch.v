(** Final theorems about sketching: C39 (second part), C40-C48, C55.

    Hypotheses used throughout:
    - [semiring O]: scalars form a commutative semiring with decidable equality;
    - [wf_env denv] (and, inside [sparse_valid], [wf_senv senv]): what PropsDense.v and
      PropsSparse.v assume of the generators;
    - [valid_schedule]: each OpenMP loop is run in some interleaving of its tasks;
    - [sort_ok ssort]: std::sort returns a sorted permutation;
    - [skop_denotes S a], [dense_denotes S a] (SketchSpec.v): a is the matrix stored in S if
      S is materialised, the matrix sampled from its distribution and seed if not.
    gemm is the textbook product (SketchModel.v). *)
From Coq Require Import Permutation.
From Verif Require Import Base Interleave Spec RngModel DenseModel DenseSpec DenseProofs DenseProofs2 DenseProofs3 PropsDense SparseSkopModel SparseSpec SparseProofs SparseProofs2 PropsSparse
  SpFmtModel SpFmtSpec SpFmtProofs SpFmtProofs2 SpFmtProofs3 SpFmtProofs5 PropsSpFmt SpmmModel SpmmSpec SpmmProofs SpmmProofs4 SpmmProofs5 PropsSpmm
  UtilModel UtilSpec UtilProofs SketchModel SketchSpec LoopProofs SketchProofs SketchProofs2 SketchProofs3 SketchProofs4 SketchProofs5 SketchProofs6.

Section Sketching.
Context {K W F T : Type}.
Variable O : ops T.
Hypothesis L : semiring O.
Variable cast : W -> T.
Variable denv : dense_env K W T.
Variable senv : sparse_env K F T.
Hypothesis Hw : wf_env denv.
Variable fsched : schedule T.
Variables (jT : T) (jZ : Z).
Variable sched : schedule (list T).
Variable ssort : (Z * Z * T -> Z * Z * T -> bool) -> list (Z * Z * T) -> list (Z * Z * T).
Variable nt : Z.
Hypothesis Hf : valid_schedule fsched.
Hypothesis Hsched : valid_schedule sched.
Hypothesis Hsort : sort_ok ssort.

(** * C40, C41: dense operators *)
Theorem C40_dense_left : forall l opS opA d n m alpha (S : dense_skop K T) ro co A lda beta B ldb a,
  dense_denotes cast denv S a ->
  in_matrix (dd_rows (ds_dist S)) (dd_cols (ds_dist S)) (rows_before opS d m) (cols_before opS d m) ro co ->
  (ds_buff S = None -> 1 <= d /\ 1 <= m) -> 0 <= n ->
  fits_buffer l lda (rows_before opA m n) (cols_before opA m n) (zlen A) -> fits_buffer l ldb d n (zlen B) ->
  exists B', lskge3 O cast denv fsched l opS opA d n m alpha S ro co A lda beta B ldb = Ok B' /\
    gemm_result O l d n m alpha beta (op_ent opS (win a ro co)) (op_ent opA (cell O l lda A)) B ldb B'.
Proof using L Hw Hf. intros. now apply (lskge3_spec O L cast denv fsched). Qed.

Theorem C41_dense_right : forall l opA opS m d n alpha A lda (S : dense_skop K T) ro co beta B ldb a,
  dense_denotes cast denv S a ->
  in_matrix (dd_rows (ds_dist S)) (dd_cols (ds_dist S)) (rows_before opS n d) (cols_before opS n d) ro co ->
  (ds_buff S = None -> 1 <= d /\ 1 <= n) -> 0 <= m ->
  fits_buffer l lda (rows_before opA m n) (cols_before opA m n) (zlen A) -> fits_buffer l ldb m d (zlen B) ->
  exists B', rskge3 O cast denv fsched l opA opS m d n alpha A lda S ro co beta B ldb = Ok B' /\
    gemm_result O l m d n alpha beta (op_ent opA (cell O l lda A)) (op_ent opS (win a ro co)) B ldb B'.
Proof using L Hw Hf. intros. apply (rskge3_spec O L cast denv fsched); auto. intros X. match goal with H : ds_buff _ = None -> _ |- _ => apply H in X end. lia. Qed.

(** * C42: sparse operators from the left *)
(** Missing: windows of two or more columns whose entries are all in the first column
    ([spread] fails); see C42_first_column_refuted. *)
Theorem C42_sparse_left_partial : forall l opS opA d n m alpha (S : sparse_skop K T) ro co A lda beta B ldb,
  sparse_valid senv S ->
  in_matrix (sd_rows (ss_dist S)) (sd_cols (ss_dist S)) (rows_before opS d m) (cols_before opS d m) ro co -> 0 <= n ->
  alpha = o_zero O \/ spread (sparse_at senv S) opS d n m ro co ->
  fits_buffer l lda (rows_before opA m n) (cols_before opA m n) (zlen A) -> fits_buffer l ldb d n (zlen B) ->
  exists S' B', lskges O senv jT jZ sched ssort nt l opS opA d n m alpha S ro co A lda beta B ldb = Ok (S', B') /\
    (if ss_nnz S <? 0 then S' = S else same_skop S S') /\
    gemm_result O l d n m alpha beta (op_ent opS (win (fun i k => sumT O (sparse_at senv S i k)) ro co)) (op_ent opA (cell O l lda A)) B ldb B'.
Proof using L Hsched Hsort.
  intros l opS opA d n m alpha S ro co A lda beta B ldb HV (I1 & I2 & I3 & I4 & I5 & I6) Hn Hsp FA FB.
  apply lskges_spec; auto; try lia; destruct opS; cbn [rows_before cols_before] in *; lia.
Qed.

(** Complete for the usual case: wide op(S) sampled with short-axis vectors, window of whole
    columns.  Nothing is assumed about the random numbers. *)
Theorem C42_sparse_left_whole_columns : forall l opS opA d n m alpha (S : sparse_skop K T) ro co A lda beta B ldb a,
  sampled O cast denv senv (SkSparse S) a -> whole_columns (ss_dist S) opS d ro co ->
  in_matrix (sd_rows (ss_dist S)) (sd_cols (ss_dist S)) (rows_before opS d m) (cols_before opS d m) ro co -> 1 <= m -> 0 <= n ->
  fits_buffer l lda (rows_before opA m n) (cols_before opA m n) (zlen A) -> fits_buffer l ldb d n (zlen B) ->
  exists S' B', lskges O senv jT jZ sched ssort nt l opS opA d n m alpha S ro co A lda beta B ldb = Ok (S', B') /\
    (if ss_nnz S <? 0 then S' = S else same_skop S S') /\
    gemm_result O l d n m alpha beta (op_ent opS (win a ro co)) (op_ent opA (cell O l lda A)) B ldb B'.
Proof using L Hw Hf Hsched Hsort.
  intros l opS opA d n m alpha S ro co A lda beta B ldb a HS HC Hin Hm Hn FA FB.
  pose proof (whole_columns_usable O cast denv senv S a opS d n m ro co alpha HS HC Hin Hm) as HU.
  destruct (sketch_general_left_spec O L cast denv senv Hw fsched jT jZ sched ssort nt Hf Hsched Hsort l opS opA d n m alpha (SkSparse S) ro co A lda beta B ldb a) as (S' & B' & E & _ & HS' & G); auto.
  { now apply sampled_denotes. }
  cbn [sketch_general_left] in E. apply bind_Ok in E as ([D' B2] & E & E'). injection E' as <- ->. exists D', B'. cbn [same_op] in HS'. auto.
Qed.

(** The exact set of windows, for alpha <> 0.  S1 holds the arrays that are multiplied
    with: those of S if it is materialised, else those sampled into a copy.  [sp_safe] is
    [coo_safe] (SpmmSpec.v) of these arrays.  Inside the set the result is the product ... *)
Theorem C42_exact_windows_partial : forall l opS opA d n m alpha (S S1 : sparse_skop K T) ro co A lda beta B ldb,
  sparse_valid senv S ->
  in_matrix (sd_rows (ss_dist S)) (sd_cols (ss_dist S)) (rows_before opS d m) (cols_before opS d m) ro co -> 0 <= n ->
  (if ss_nnz S <? 0 then fill_sparse senv jT jZ (mk_sparse_skop senv (ss_dist S) (ss_seed S)) = Ok S1 else S1 = S) ->
  sp_safe nt l opS opA d n m (SpCoo (skop_coo S1)) ro co ->
  fits_buffer l lda (rows_before opA m n) (cols_before opA m n) (zlen A) -> fits_buffer l ldb d n (zlen B) ->
  exists S' B', lskges O senv jT jZ sched ssort nt l opS opA d n m alpha S ro co A lda beta B ldb = Ok (S', B') /\
    (if ss_nnz S <? 0 then S' = S else same_skop S S') /\
    gemm_result O l d n m alpha beta (op_ent opS (win (fun i k => sumT O (sparse_at senv S i k)) ro co)) (op_ent opA (cell O l lda A)) B ldb B'.
Proof using L Hsched Hsort.
  intros l opS opA d n m alpha S S1 ro co A lda beta B ldb HV (H1 & H2 & H3 & H4 & H5 & H6) Hn HS Hsp FA FB.
  apply (lskges_safe O L senv jT jZ sched ssort nt Hsched Hsort) with (S1 := S1); auto; destruct opS; cbn [rows_before cols_before] in *; lia.
Qed.

(** ... and outside it the call has undefined behaviour. *)
Theorem C42_other_windows_refuted : forall l opS opA d n m alpha (S S1 : sparse_skop K T) ro co A lda beta B ldb,
  sparse_valid senv S ->
  in_matrix (sd_rows (ss_dist S)) (sd_cols (ss_dist S)) (rows_before opS d m) (cols_before opS d m) ro co -> 0 <= n ->
  (if ss_nnz S <? 0 then fill_sparse senv jT jZ (mk_sparse_skop senv (ss_dist S) (ss_seed S)) = Ok S1 else S1 = S) ->
  o_eqb O alpha (o_zero O) = false -> ~ sp_safe nt l opS opA d n m (SpCoo (skop_coo S1)) ro co ->
  fits_buffer l lda (rows_before opA m n) (cols_before opA m n) (zlen A) -> fits_buffer l ldb d n (zlen B) ->
  lskges O senv jT jZ sched ssort nt l opS opA d n m alpha S ro co A lda beta B ldb = UB.
Proof using Hsort.
  intros l opS opA d n m alpha S S1 ro co A lda beta B ldb HV (H1 & H2 & H3 & H4 & H5 & H6) Hn HS Ea Hsp FA FB.
  apply (lskges_UB O senv jT jZ sched ssort nt Hsort) with (S1 := S1); auto; destruct opS; cbn [rows_before cols_before] in *; lia.
Qed.

(** * C43: sparse operators from the right *)
(** Missing: operators that have not been materialised (refuted below) and windows whose
    entries are all in one row of op(S), the first ([spread] for the transposed window). *)
Theorem C43_sparse_right_partial : forall l opA opS m d n alpha A lda (S : sparse_skop K T) ro co beta B ldb,
  0 < ss_nnz S -> valid_coo (skop_coo S) ->
  in_matrix (sd_rows (ss_dist S)) (sd_cols (ss_dist S)) (rows_before opS n d) (cols_before opS n d) ro co -> 0 <= m ->
  alpha = o_zero O \/ spread (coo_at (skop_coo S)) (flip_op opS) d m n ro co ->
  fits_buffer l lda (rows_before opA m n) (cols_before opA m n) (zlen A) -> fits_buffer l ldb m d (zlen B) ->
  exists S' B', rskges O senv jT jZ sched ssort nt l opA opS m d n alpha A lda S ro co beta B ldb = Ok (S', B') /\ same_skop S S' /\
    gemm_result O l m d n alpha beta (op_ent opA (cell O l lda A)) (op_ent opS (win (fun i k => sumT O (coo_at (skop_coo S) i k)) ro co)) B ldb B'.
Proof using L Hsched Hsort.
  intros l opA opS m d n alpha A lda S ro co beta B ldb Hz HV (I1 & I2 & I3 & I4 & I5 & I6) Hm Hsp FA FB.
  destruct (rskges_spec O L senv jT jZ sched ssort nt Hsched Hsort l opA opS m d n alpha A lda S ro co beta B ldb) as (S' & B' & E & HS & G); auto; try lia; try (destruct opS; cbn [rows_before cols_before] in *; lia).
  - unfold sparse_valid. replace (ss_nnz S <? 0) with false by lia. auto.
  - destruct Hsp as [Hsp|Hsp]; [now left|right]. eapply spread_ext; [|exact Hsp]. intros i j. unfold sparse_at. replace (ss_nnz S <? 0) with false by lia. reflexivity.
  - exists S', B'. split; [exact E|]. split; [exact HS|]. unfold sparse_at in G. replace (ss_nnz S <? 0) with false in G by lia. exact G.
Qed.

(** Windows outside that set: undefined behaviour, materialised or not. *)
Theorem C43_other_windows_refuted : forall l opA opS m d n alpha A lda (S S1 : sparse_skop K T) ro co beta B ldb,
  sparse_valid senv S ->
  in_matrix (sd_rows (ss_dist S)) (sd_cols (ss_dist S)) (rows_before opS n d) (cols_before opS n d) ro co -> 0 <= m ->
  (if ss_nnz S <? 0 then fill_sparse senv jT jZ (mk_sparse_skop senv (ss_dist S) (ss_seed S)) = Ok S1 else S1 = S) ->
  o_eqb O alpha (o_zero O) = false -> ~ sp_safe nt (flip l) (flip_op opS) opA d m n (SpCoo (skop_coo S1)) ro co ->
  fits_buffer l lda (rows_before opA m n) (cols_before opA m n) (zlen A) -> fits_buffer l ldb m d (zlen B) ->
  rskges O senv jT jZ sched ssort nt l opA opS m d n alpha A lda S ro co beta B ldb = UB.
Proof using Hsort.
  intros l opA opS m d n alpha A lda S S1 ro co beta B ldb HV (H1 & H2 & H3 & H4 & H5 & H6) Hn HS Ea Hsp FA FB.
  apply (rskges_UB O senv jT jZ sched ssort nt Hsort) with (S1 := S1); auto; destruct opS; cbn [rows_before cols_before] in *; lia.
Qed.

(** An operator that has not been materialised is applied twice: the update is performed on
    its own result.  The operator is materialised as a side effect. *)
Theorem C43_unmaterialised_applied_twice : forall l opA opS m d n alpha A lda (S : sparse_skop K T) ro co beta B ldb,
  ss_nnz S < 0 -> sparse_valid senv S -> buffers_ok S ->
  in_matrix (sd_rows (ss_dist S)) (sd_cols (ss_dist S)) (rows_before opS n d) (cols_before opS n d) ro co -> 0 <= m ->
  alpha = o_zero O \/ spread (sparse_at senv S) (flip_op opS) d m n ro co ->
  fits_buffer l lda (rows_before opA m n) (cols_before opA m n) (zlen A) -> fits_buffer l ldb m d (zlen B) ->
  let a := op_ent opA (cell O l lda A) in
  let s := op_ent opS (win (fun i k => sumT O (sparse_at senv S i k)) ro co) in
  exists S' B1 B', rskges O senv jT jZ sched ssort nt l opA opS m d n alpha A lda S ro co beta B ldb = Ok (S', B') /\
    0 < ss_nnz S' /\ (forall i j, Permutation (sparse_at senv S i j) (coo_at (skop_coo S') i j)) /\
    gemm_result O l m d n alpha beta a s B ldb B1 /\ gemm_result O l m d n alpha beta a s B1 ldb B' /\
    (beta = o_zero O -> gemm_result O l m d n alpha beta a s B ldb B').
Proof using L Hsched Hsort.
  intros l opA opS m d n alpha A lda S ro co beta B ldb Hz HV HB (I1 & I2 & I3 & I4 & I5 & I6) Hm Hsp FA FB a s.
  destruct (rskges_unfilled_spec O L senv jT jZ sched ssort nt Hsched Hsort l opA opS m d n alpha A lda S ro co beta B ldb) as (S' & B1 & B' & E & Z1 & _ & _ & _ & _ & _ & P & G1 & G2); auto; try lia; try (destruct opS; cbn [rows_before cols_before] in *; lia).
  exists S', B1, B'. do 5 (split; [assumption|]). intros Hb. subst beta. rewrite (gemm_beta0 O L l m d n alpha a s B ldb B1 B' FB G1 G2). exact G1.
Qed.

(** * C44: vectors *)
(** Missing: windows of sparse operators with all entries in the first column of op(S). *)
Theorem C44_sketch_vector_partial : forall opS d m alpha (S : @skop K T) ro co x incx beta y incy a,
  skop_denotes O cast denv senv S a -> 1 <= incx -> 1 <= incy ->
  let d_ := rows_before opS d m in let m_ := cols_before opS d m in
  usable O senv S opS d_ 1 m_ ro co alpha ->
  (forall k, 0 <= k < m_ -> k * incx < zlen x) -> (forall i, 0 <= i < d_ -> i * incy < zlen y) ->
  exists S' y', sketch_vector O cast denv fsched senv jT jZ sched ssort nt opS d m alpha S ro co x incx beta y incy = Ok (S', y') /\
    skop_denotes O cast denv senv S' a /\ same_op S S' /\
    gemv_result O d_ m_ alpha beta (op_ent opS (win a ro co)) x incx y incy y'.
Proof using L Hw Hf Hsched Hsort. intros. now apply sketch_vector_spec. Qed.

(** The overload without a window. *)
Theorem C44_sketch_vector_full_partial : forall opS alpha (S : @skop K T) x incx beta y incy a,
  skop_denotes O cast denv senv S a -> 1 <= incx -> 1 <= incy ->
  let d_ := rows_before opS (skop_rows S) (skop_cols S) in let m_ := cols_before opS (skop_rows S) (skop_cols S) in
  usable O senv S opS d_ 1 m_ 0 0 alpha ->
  (forall k, 0 <= k < m_ -> k * incx < zlen x) -> (forall i, 0 <= i < d_ -> i * incy < zlen y) ->
  exists S' y', sketch_vector_full O cast denv fsched senv jT jZ sched ssort nt opS alpha S x incx beta y incy = Ok (S', y') /\
    skop_denotes O cast denv senv S' a /\ same_op S S' /\
    gemv_result O d_ m_ alpha beta (op_ent opS a) x incx y incy y'.
Proof using L Hw Hf Hsched Hsort.
  intros. unfold sketch_vector_full. destruct (sketch_vector_spec O L cast denv senv Hw fsched jT jZ sched ssort nt Hf Hsched Hsort opS (skop_rows S) (skop_cols S) alpha S 0 0 x incx beta y incy a) as (S' & y' & E & G1 & G2 & G3); auto.
  exists S', y'. split; [exact E|]. split; [exact G1|]. split; [exact G2|]. exact G3.
Qed.

(** * C45: symmetric matrices *)
Variable Q : cmp_ops T.
Definition rejects (l : layout) (A : list T) (n lda : Z) (tol : T) : Prop :=
  o_ltb Q tol (o_zero O) = false /\ asymmetric O Q l A n lda tol.

Lemma rejected_throw l A n lda tol (X : Type) (k : unit -> outcome X) : fits_buffer l lda n n (zlen A) -> rejects l A n lda tol ->
  bind (require_symmetric O Q l A n lda tol) k = Throw.
Proof using Type. intros FA HR. apply (require_symmetric_spec O Q l A n lda tol FA) in HR. now rewrite HR. Qed.
Lemma accepted_ok l A n lda tol (X : Type) (k : unit -> outcome X) : fits_buffer l lda n n (zlen A) -> ~ rejects l A n lda tol ->
  bind (require_symmetric O Q l A n lda tol) k = k tt.
Proof using Type.
  intros FA HR. destruct (proj2 (require_symmetric_spec O Q l A n lda tol FA)) as [_ X1]. rewrite X1; [reflexivity|].
  destruct (o_ltb Q tol (o_zero O)) eqn:E; [auto|right]. intros H. apply HR. split; auto.
Qed.

(** A pair out of tolerance: an exception for every B, also the empty one, and for every
    operator and window. *)
Theorem C45_asymmetric_rejected : forall l n d alpha (S : @skop K T) ro co A lda beta B ldb tol,
  fits_buffer l lda n n (zlen A) -> rejects l A n lda tol ->
  sketch_symmetric_left O cast denv fsched senv jT jZ sched ssort nt Q l d n alpha S ro co A lda beta B ldb tol = Throw /\
  sketch_symmetric_right O cast denv fsched senv jT jZ sched ssort nt Q l n d alpha A lda S ro co beta B ldb tol = Throw /\
  (skop_cols S = n -> sketch_symmetric_left_full O cast denv fsched senv jT jZ sched ssort nt Q l alpha S A lda beta B ldb tol = Throw) /\
  (skop_rows S = n -> sketch_symmetric_right_full O cast denv fsched senv jT jZ sched ssort nt Q l alpha A lda S beta B ldb tol = Throw).
Proof using Type.
  intros l n d alpha S ro co A lda beta B ldb tol FA HR. unfold sketch_symmetric_left, sketch_symmetric_right, sketch_symmetric_left_full, sketch_symmetric_right_full.
  split; [now apply rejected_throw|]. split; [now apply rejected_throw|]. split; intros ->; now apply rejected_throw.
Qed.

(** Otherwise the product, from the left ... (missing: as in C42) *)
Theorem C45_symmetric_left_partial : forall l n d alpha (S : @skop K T) ro co A lda beta B ldb tol a,
  fits_buffer l lda n n (zlen A) -> ~ rejects l A n lda tol -> 0 <= n ->
  skop_denotes O cast denv senv S a -> usable O senv S NoTrans d n n ro co alpha -> fits_buffer l ldb d n (zlen B) ->
  exists S' B', sketch_symmetric_left O cast denv fsched senv jT jZ sched ssort nt Q l d n alpha S ro co A lda beta B ldb tol = Ok (S', B') /\
    skop_denotes O cast denv senv S' a /\ same_op S S' /\ gemm_result O l d n n alpha beta (win a ro co) (cell O l lda A) B ldb B'.
Proof using L Hw Hf Hsched Hsort.
  intros l n d alpha S ro co A lda beta B ldb tol a FA HR Hn HD HU FB. unfold sketch_symmetric_left. rewrite accepted_ok by auto.
  apply (sketch_general_left_spec O L cast denv senv Hw fsched jT jZ sched ssort nt Hf Hsched Hsort l NoTrans NoTrans d n n); auto.
Qed.
Theorem C45_symmetric_left_full_partial : forall l alpha (S : @skop K T) A lda beta B ldb tol a,
  let n := skop_cols S in let d := skop_rows S in
  fits_buffer l lda n n (zlen A) -> ~ rejects l A n lda tol -> 0 <= n ->
  skop_denotes O cast denv senv S a -> usable O senv S NoTrans d n n 0 0 alpha -> fits_buffer l ldb d n (zlen B) ->
  exists S' B', sketch_symmetric_left_full O cast denv fsched senv jT jZ sched ssort nt Q l alpha S A lda beta B ldb tol = Ok (S', B') /\
    skop_denotes O cast denv senv S' a /\ same_op S S' /\ gemm_result O l d n n alpha beta (win a 0 0) (cell O l lda A) B ldb B'.
Proof using L Hw Hf Hsched Hsort.
  intros l alpha S A lda beta B ldb tol a n d FA HR Hn HD HU FB.
  apply (C45_symmetric_left_partial l n d alpha S 0 0 A lda beta B ldb tol a); auto.
Qed.

(** ... and from the right (missing: as in C43). *)
Theorem C45_symmetric_right_partial : forall l n d alpha (S : @skop K T) ro co A lda beta B ldb tol a,
  fits_buffer l lda n n (zlen A) -> ~ rejects l A n lda tol -> 0 <= n ->
  skop_denotes O cast denv senv S a -> (forall D, S = SkSparse D -> 0 <= ss_nnz D) ->
  usable O senv S Trans d n n ro co alpha -> fits_buffer l ldb n d (zlen B) ->
  exists S' B', sketch_symmetric_right O cast denv fsched senv jT jZ sched ssort nt Q l n d alpha A lda S ro co beta B ldb tol = Ok (S', B') /\
    skop_denotes O cast denv senv S' a /\ same_op S S' /\ gemm_result O l n d n alpha beta (cell O l lda A) (win a ro co) B ldb B'.
Proof using L Hw Hf Hsched Hsort.
  intros l n d alpha S ro co A lda beta B ldb tol a FA HR Hn HD HF HU FB. unfold sketch_symmetric_right. rewrite accepted_ok by auto.
  apply (sketch_general_right_spec O L cast denv senv Hw fsched jT jZ sched ssort nt Hf Hsched Hsort l NoTrans NoTrans n d n); auto.
Qed.
Theorem C45_symmetric_right_full_partial : forall l alpha (S : @skop K T) A lda beta B ldb tol a,
  let n := skop_rows S in let d := skop_cols S in
  fits_buffer l lda n n (zlen A) -> ~ rejects l A n lda tol -> 0 <= n ->
  skop_denotes O cast denv senv S a -> (forall D, S = SkSparse D -> 0 <= ss_nnz D) ->
  usable O senv S Trans d n n 0 0 alpha -> fits_buffer l ldb n d (zlen B) ->
  exists S' B', sketch_symmetric_right_full O cast denv fsched senv jT jZ sched ssort nt Q l alpha A lda S beta B ldb tol = Ok (S', B') /\
    skop_denotes O cast denv senv S' a /\ same_op S S' /\ gemm_result O l n d n alpha beta (cell O l lda A) (win a 0 0) B ldb B'.
Proof using L Hw Hf Hsched Hsort.
  intros l alpha S A lda beta B ldb tol a n d FA HR Hn HD HF HU FB.
  apply (C45_symmetric_right_partial l n d alpha S 0 0 A lda beta B ldb tol a); auto.
Qed.

(** * C46: sparse data, dense operator *)
(** Missing: data for which the sparse kernels leave their arrays ([sp_safe], see C33-C37). *)
Theorem C46_left_partial : forall l opS opA d n m alpha (S : dense_skop K T) ro co A ro_a co_a beta B ldb a,
  dense_denotes cast denv S a ->
  in_matrix (dd_rows (ds_dist S)) (dd_cols (ds_dist S)) (rows_before opS d m) (cols_before opS d m) ro co ->
  (ds_buff S = None -> 1 <= d /\ 1 <= m) -> 0 <= n ->
  valid_sp A -> sp_base A = BZero -> sp_window A (rows_before opA m n) (cols_before opA m n) ro_a co_a ->
  alpha = o_zero O \/ sp_safe nt (flip l) (flip_op opA) (if layout_eqb (ds_layout S) l then opS else flip_op opS) n d m A ro_a co_a ->
  fits_buffer l ldb d n (zlen B) ->
  exists A' B', lsksp3 O cast denv fsched sched ssort nt l opS opA d n m alpha S ro co A ro_a co_a beta B ldb = Ok (A', B') /\ same_sp A A' /\
    gemm_result O l d n m alpha beta (op_ent opS (win a ro co)) (op_ent opA (win (sp_entry O A) ro_a co_a)) B ldb B'.
Proof using L Hw Hf Hsched Hsort. intros. now apply lsksp3_spec. Qed.

Theorem C46_right_partial : forall l opA opS m d n alpha A ro_a co_a (S : dense_skop K T) ro co beta B ldb a,
  dense_denotes cast denv S a ->
  in_matrix (dd_rows (ds_dist S)) (dd_cols (ds_dist S)) (rows_before opS n d) (cols_before opS n d) ro co ->
  (ds_buff S = None -> 1 <= n /\ 1 <= d) -> 0 <= m ->
  valid_sp A -> sp_base A = BZero -> sp_window A (rows_before opA m n) (cols_before opA m n) ro_a co_a ->
  alpha = o_zero O \/ sp_safe nt l opA (if layout_eqb (ds_layout S) l then opS else flip_op opS) m d n A ro_a co_a ->
  fits_buffer l ldb m d (zlen B) ->
  exists A' B', rsksp3 O cast denv fsched sched ssort nt l opA opS m d n alpha A ro_a co_a S ro co beta B ldb = Ok (A', B') /\ same_sp A A' /\
    gemm_result O l m d n alpha beta (op_ent opA (win (sp_entry O A) ro_a co_a)) (op_ent opS (win a ro co)) B ldb B'.
Proof using L Hw Hf Hsched Hsort. intros. now apply rsksp3_spec. Qed.

(** The public functions sketch_sparse take no offsets for A. *)
Theorem C46_sketch_sparse_left_partial : forall l opS opA d n m alpha (S : dense_skop K T) ro co A beta B ldb a,
  dense_denotes cast denv S a ->
  in_matrix (dd_rows (ds_dist S)) (dd_cols (ds_dist S)) (rows_before opS d m) (cols_before opS d m) ro co ->
  (ds_buff S = None -> 1 <= d /\ 1 <= m) -> 0 <= n ->
  valid_sp A -> sp_base A = BZero -> sp_window A (rows_before opA m n) (cols_before opA m n) 0 0 ->
  alpha = o_zero O \/ sp_safe nt (flip l) (flip_op opA) (if layout_eqb (ds_layout S) l then opS else flip_op opS) n d m A 0 0 ->
  fits_buffer l ldb d n (zlen B) ->
  exists A' B', sketch_sparse_left O cast denv fsched sched ssort nt l opS opA d n m alpha S ro co A beta B ldb = Ok (A', B') /\ same_sp A A' /\
    gemm_result O l d n m alpha beta (op_ent opS (win a ro co)) (op_ent opA (sp_entry O A)) B ldb B'.
Proof using L Hw Hf Hsched Hsort.
  intros. unfold sketch_sparse_left. change (sp_entry O A) with (win (sp_entry O A) 0 0). now apply lsksp3_spec.
Qed.
Theorem C46_sketch_sparse_right_partial : forall l opA opS m d n alpha A (S : dense_skop K T) ro co beta B ldb a,
  dense_denotes cast denv S a ->
  in_matrix (dd_rows (ds_dist S)) (dd_cols (ds_dist S)) (rows_before opS n d) (cols_before opS n d) ro co ->
  (ds_buff S = None -> 1 <= n /\ 1 <= d) -> 0 <= m ->
  valid_sp A -> sp_base A = BZero -> sp_window A (rows_before opA m n) (cols_before opA m n) 0 0 ->
  alpha = o_zero O \/ sp_safe nt l opA (if layout_eqb (ds_layout S) l then opS else flip_op opS) m d n A 0 0 ->
  fits_buffer l ldb m d (zlen B) ->
  exists A' B', sketch_sparse_right O cast denv fsched sched ssort nt l opA opS m d n alpha A S ro co beta B ldb = Ok (A', B') /\ same_sp A A' /\
    gemm_result O l m d n alpha beta (op_ent opA (sp_entry O A)) (op_ent opS (win a ro co)) B ldb B'.
Proof using L Hw Hf Hsched Hsort.
  intros. unfold sketch_sparse_right. change (sp_entry O A) with (win (sp_entry O A) 0 0). now apply rsksp3_spec.
Qed.

(** * C47: blocks *)
(** Updating B block by block gives the buffer that one sketch with the whole window gives,
    and each block call sees only its own rows of op(A). *)
Theorem C47_blocks_accumulate : forall l opS opA d n alpha ro co A lda ldb (S : @skop K T) ms B a,
  let m := sumZ ms in
  skop_denotes O cast denv senv S a -> 1 <= n ->
  blocks_usable O senv S opS d n ro co alpha 0 ms -> usable O senv S opS d n m ro co alpha ->
  fits_buffer l lda (rows_before opA m n) (cols_before opA m n) (zlen A) -> fits_buffer l ldb d n (zlen B) ->
  exists S1 S2 B', sketch_blocks O cast denv fsched senv jT jZ sched ssort nt l opS opA d n alpha ro co A lda ldb 0 ms S B = Ok (S1, B') /\
    sketch_general_left O cast denv fsched senv jT jZ sched ssort nt l opS opA d n m alpha S ro co A lda (o_one O) B ldb = Ok (S2, B') /\
    skop_denotes O cast denv senv S1 a /\ skop_denotes O cast denv senv S2 a /\
    gemm_result O l d n m alpha (o_one O) (op_ent opS (win a ro co)) (op_ent opA (cell O l lda A)) B ldb B'.
Proof using L Hw Hf Hsched Hsort.
  intros l opS opA d n alpha ro co A lda ldb S ms B a m HD Hn HB HU FA FB.
  destruct (blocks_spec O L cast denv senv Hw fsched jT jZ sched ssort nt Hf Hsched Hsort l opS opA d n alpha ro co A lda ldb a m Hn FA ms 0 S B) as (S1 & B1 & E1 & D1 & G1); auto; try lia.
  destruct (sketch_general_left_spec O L cast denv senv Hw fsched jT jZ sched ssort nt Hf Hsched Hsort l opS opA d n m alpha S ro co A lda (o_one O) B ldb a) as (S2 & B2 & E2 & D2 & _ & G2); auto; try lia.
  assert (B1 = B2) as ->.
  { eapply gemm_result_eq; [exact FB|exact G1|]. refine (gemm_ext O l d n m alpha (o_one O) _ _ _ _ B ldb B2 _ _ G2); intros; f_equal; lia. }
  exists S1, S2, B2. auto.
Qed.

(** * C39, C48: rejected arguments *)
(** Every bad argument (window outside a dense operator, window larger than a sparse
    operator, leading dimension too small) raises for all contents of A and B, in particular
    for empty ones: nothing is read or written before. *)
Theorem C39_sketch_left_rejects : forall l opS opA d n m alpha (S : @skop K T) ro co A lda beta B ldb a,
  skop_denotes O cast denv senv S a -> 1 <= d -> 1 <= m -> 0 <= ro -> 0 <= co ->
  sketch_args_bad S l opS d m ro co opA m n lda d n ldb ->
  sketch_general_left O cast denv fsched senv jT jZ sched ssort nt l opS opA d n m alpha S ro co A lda beta B ldb = Throw.
Proof using Hw Hf. intros. eapply left_rejects; eassumption. Qed.
Theorem C39_sketch_right_rejects : forall l opA opS m d n alpha A lda (S : @skop K T) ro co beta B ldb a,
  skop_denotes O cast denv senv S a -> 1 <= d -> 1 <= n -> 0 <= ro -> 0 <= co ->
  sketch_args_bad S l opS n d ro co opA m n lda m d ldb ->
  sketch_general_right O cast denv fsched senv jT jZ sched ssort nt l opA opS m d n alpha A lda S ro co beta B ldb = Throw.
Proof using Hw Hf. intros. eapply right_rejects; eassumption. Qed.
(** Overloads without a window: dimensions must be those of op(S). *)
Theorem C39_sketch_full_rejects : forall l opS opA d n m alpha (S : @skop K T) A lda beta B ldb,
  (skop_rows S <> rows_before opS d m \/ skop_cols S <> cols_before opS d m ->
   sketch_general_left_full O cast denv fsched senv jT jZ sched ssort nt l opS opA d n m alpha S A lda beta B ldb = Throw) /\
  (skop_rows S <> rows_before opS n d \/ skop_cols S <> cols_before opS n d ->
   sketch_general_right_full O cast denv fsched senv jT jZ sched ssort nt l opA opS m d n alpha A lda S beta B ldb = Throw).
Proof using Type.
  intros. split; intros H; unfold sketch_general_left_full, sketch_general_right_full; destruct opS; cbn [rows_before cols_before] in H;
    repeat match goal with |- context [require ?b] => destruct b eqn:?; cbn [require bind]; [|reflexivity] end; exfalso; lia.
Qed.

(** Dense operators reject windows that leave the operator (a special case of the above, for
    the explicit drivers). *)
Theorem C48_dense_window_rejected : forall l opS opA d n m alpha (S : dense_skop K T) ro co A lda beta B ldb a,
  dense_denotes cast denv S a -> 1 <= d -> 1 <= m -> 0 <= ro -> 0 <= co ->
  dd_rows (ds_dist S) < ro + rows_before opS d m \/ dd_cols (ds_dist S) < co + cols_before opS d m ->
  lskge3 O cast denv fsched l opS opA d n m alpha S ro co A lda beta B ldb = Throw.
Proof using Hw Hf.
  intros l opS opA d n m alpha S ro co A lda beta B ldb a HD Hd Hm Hro Hco Hb.
  unfold lskge3. rewrite dims_eq.
  apply (dense_reject_cases cast denv Hw fsched Hf S a (rows_before opS d m) (cols_before opS d m) ro co False (fun S ro co => lskge3_buff O l opS opA d n m alpha S ro co A lda beta B ldb)); auto.
  - destruct opS; cbn [rows_before cols_before]; lia.
  - intros S' ro' co' H. apply lbuff_rejects. tauto.
Qed.

(** A sparse operator accepts every offset, negative ones included, as long as the window is
    not larger than the operator: entries outside the operator count as zero. *)
Theorem C48_sparse_window_not_checked : forall l opS opA d n m alpha (S : sparse_skop K T) ro co A lda beta B ldb,
  sparse_valid senv S -> 0 <= d -> 0 <= n -> 0 <= m ->
  rows_before opS d m <= sd_rows (ss_dist S) -> cols_before opS d m <= sd_cols (ss_dist S) ->
  alpha = o_zero O \/ spread (sparse_at senv S) opS d n m ro co ->
  fits_buffer l lda (rows_before opA m n) (cols_before opA m n) (zlen A) -> fits_buffer l ldb d n (zlen B) ->
  exists S' B', lskges O senv jT jZ sched ssort nt l opS opA d n m alpha S ro co A lda beta B ldb = Ok (S', B') /\
    gemm_result O l d n m alpha beta (op_ent opS (win (fun i k => sumT O (sparse_at senv S i k)) ro co)) (op_ent opA (cell O l lda A)) B ldb B'.
Proof using L Hsched Hsort.
  intros l opS opA d n m alpha S ro co A lda beta B ldb HV Hd Hn Hm Hr Hc Hsp FA FB.
  destruct (lskges_spec O L senv jT jZ sched ssort nt Hsched Hsort l opS opA d n m alpha S ro co A lda beta B ldb) as (S' & B' & E & _ & G); auto.
  exists S', B'. auto.
Qed.

(** * C55: repeated use *)
(** Operators as constructed from a distribution and a seed denote a matrix. *)
Theorem C55_fresh_operator_denotes : forall D seed (S : dense_skop K T),
  valid_dist D -> size_ok D (g_len (env_gen denv (dd_family D))) -> mk_dense_skop denv D seed = Ok S -> exists a, sampled O cast denv senv (SkDense S) a.
Proof using Hw.
  intros D seed S HD Hs E. unfold mk_dense_skop in E. apply bind_Ok in E as (nx & _ & E). injection E as <-.
  exists (fun i j => match dense_entry cast denv D seed i j with Some x => x | None => o_zero O end).
  cbn [sampled ds_dist ds_seed ds_buff]. split; [exact HD|]. split; [exact Hs|]. split; [|exact I]. intros i j Hi Hj.
  destruct (dense_entry_Some cast denv D seed i j Hw HD) as [v ->]. reflexivity.
Qed.
Theorem C55_fresh_sparse_operator_denotes : forall D seed, samplable senv D seed ->
  exists a, sampled O cast denv senv (SkSparse (mk_sparse_skop senv D seed)) a.
Proof using Type.
  intros D seed H. exists (fun i j => sumT O (sparse_entry senv D seed i j)). cbn [sampled mk_sparse_skop ss_dist ss_seed ss_nnz].
  split; [exact H|]. split; [apply mk_buffers_ok|]. split; [auto|]. left. lia.
Qed.

(** Filling (once or several times) and sketching from either side with any arguments, in
    any order, leave the matrix an operator denotes as it is. *)
Theorem C55_uses_keep_matrix : forall (S S' : @skop K T) a, sampled O cast denv senv S a -> uses O cast denv senv S S' ->
  sampled O cast denv senv S' a /\ skop_denotes O cast denv senv S' a /\ skop_rows S' = skop_rows S /\ skop_cols S' = skop_cols S.
Proof using L Hw.
  intros S S' a HS HU. assert (sampled O cast denv senv S' a) as HS' by (eapply uses_sampled; eassumption). split; [exact HS'|]. split; [now apply sampled_denotes|].
  clear HS HS'. induction HU as [|S1 S2 S3 H1 H2 [IH1 IH2]]; [auto|]. destruct (same_dims O cast denv senv S1 S2 H1) as [E1 E2]. now rewrite IH1, IH2.
Qed.

(** Any schedule, sort, team size and contents of fresh memory may be used the second time. *)
Variable fsched2 : schedule T.
Variables (jT2 : T) (jZ2 : Z).
Variable sched2 : schedule (list T).
Variable ssort2 : (Z * Z * T -> Z * Z * T -> bool) -> list (Z * Z * T) -> list (Z * Z * T).
Variable nt2 : Z.
Hypothesis Hf2 : valid_schedule fsched2.
Hypothesis Hsched2 : valid_schedule sched2.
Hypothesis Hsort2 : sort_ok ssort2.

(** Sketching from the left before and after any sequence of uses gives the same buffer. *)
Theorem C55_left_sketches_identical : forall (S S' : @skop K T) a l opS opA d n m alpha ro co A lda beta B ldb,
  sampled O cast denv senv S a -> uses O cast denv senv S S' ->
  usable O senv S opS d n m ro co alpha -> 0 <= n ->
  fits_buffer l lda (rows_before opA m n) (cols_before opA m n) (zlen A) -> fits_buffer l ldb d n (zlen B) ->
  exists S1 S1' B', sketch_general_left O cast denv fsched senv jT jZ sched ssort nt l opS opA d n m alpha S ro co A lda beta B ldb = Ok (S1, B') /\
    sketch_general_left O cast denv fsched2 senv jT2 jZ2 sched2 ssort2 nt2 l opS opA d n m alpha S' ro co A lda beta B ldb = Ok (S1', B').
Proof using L Hw Hf Hsched Hsort Hf2 Hsched2 Hsort2.
  intros S S' a l opS opA d n m alpha ro co A lda beta B ldb HS HU Hus Hn FA FB.
  pose proof (uses_usable O cast denv senv Hw S S' a opS d n m ro co alpha HS HU Hus) as Hus'. pose proof (uses_sampled O cast denv senv Hw S S' a HS HU) as HS'.
  destruct (sketch_general_left_spec O L cast denv senv Hw fsched jT jZ sched ssort nt Hf Hsched Hsort l opS opA d n m alpha S ro co A lda beta B ldb a) as (S1 & B1 & E1 & _ & _ & G1); auto; [now apply sampled_denotes|].
  destruct (sketch_general_left_spec O L cast denv senv Hw fsched2 jT2 jZ2 sched2 ssort2 nt2 Hf2 Hsched2 Hsort2 l opS opA d n m alpha S' ro co A lda beta B ldb a) as (S2 & B2 & E2 & _ & _ & G2); auto; [now apply sampled_denotes|].
  rewrite (gemm_result_eq O l d n m alpha beta _ _ B ldb B1 B2 FB G1 G2) in E1. exists S1, S2, B2. auto.
Qed.

(** From the right.  Missing: sparse operators before they are materialised
    (C55_right_sketches_refuted). *)
Theorem C55_right_sketches_identical_partial : forall (S S' : @skop K T) a l opA opS m d n alpha A lda ro co beta B ldb,
  sampled O cast denv senv S a -> uses O cast denv senv S S' ->
  (forall D, S = SkSparse D -> 0 <= ss_nnz D) -> (forall D, S' = SkSparse D -> 0 <= ss_nnz D) ->
  usable O senv S (flip_op opS) d m n ro co alpha -> 0 <= m ->
  fits_buffer l lda (rows_before opA m n) (cols_before opA m n) (zlen A) -> fits_buffer l ldb m d (zlen B) ->
  exists S1 S1' B', sketch_general_right O cast denv fsched senv jT jZ sched ssort nt l opA opS m d n alpha A lda S ro co beta B ldb = Ok (S1, B') /\
    sketch_general_right O cast denv fsched2 senv jT2 jZ2 sched2 ssort2 nt2 l opA opS m d n alpha A lda S' ro co beta B ldb = Ok (S1', B').
Proof using L Hw Hf Hsched Hsort Hf2 Hsched2 Hsort2.
  intros S S' a l opA opS m d n alpha A lda ro co beta B ldb HS HU HF HF' Hus Hm FA FB.
  pose proof (uses_usable O cast denv senv Hw S S' a _ d m n ro co alpha HS HU Hus) as Hus'. pose proof (uses_sampled O cast denv senv Hw S S' a HS HU) as HS'.
  destruct (sketch_general_right_spec O L cast denv senv Hw fsched jT jZ sched ssort nt Hf Hsched Hsort l opA opS m d n alpha A lda S ro co beta B ldb a) as (S1 & B1 & E1 & _ & _ & G1); auto; [now apply sampled_denotes|].
  destruct (sketch_general_right_spec O L cast denv senv Hw fsched2 jT2 jZ2 sched2 ssort2 nt2 Hf2 Hsched2 Hsort2 l opA opS m d n alpha A lda S' ro co beta B ldb a) as (S2 & B2 & E2 & _ & _ & G2); auto; [now apply sampled_denotes|].
  rewrite (gemm_result_eq O l m d n alpha beta _ _ B ldb B1 B2 FB G1 G2) in E1. exists S1, S2, B2. auto.
Qed.
End Sketching.
Print Assumptions C40_dense_left.
Print Assumptions C41_dense_right.
Print Assumptions C42_sparse_left_partial.
Print Assumptions C42_sparse_left_whole_columns.
Print Assumptions C42_exact_windows_partial.
Print Assumptions C42_other_windows_refuted.
Print Assumptions C43_other_windows_refuted.
Print Assumptions C43_sparse_right_partial.
Print Assumptions C43_unmaterialised_applied_twice.
Print Assumptions C44_sketch_vector_partial.
Print Assumptions C44_sketch_vector_full_partial.
Print Assumptions C45_asymmetric_rejected.
Print Assumptions C45_symmetric_left_partial.
Print Assumptions C45_symmetric_left_full_partial.
Print Assumptions C45_symmetric_right_partial.
Print Assumptions C45_symmetric_right_full_partial.
Print Assumptions C46_left_partial.
Print Assumptions C46_right_partial.
Print Assumptions C46_sketch_sparse_left_partial.
Print Assumptions C46_sketch_sparse_right_partial.
Print Assumptions C47_blocks_accumulate.
Print Assumptions C39_sketch_left_rejects.
Print Assumptions C39_sketch_right_rejects.
Print Assumptions C39_sketch_full_rejects.
Print Assumptions C48_dense_window_rejected.
Print Assumptions C48_sparse_window_not_checked.
Print Assumptions C55_fresh_operator_denotes.
Print Assumptions C55_fresh_sparse_operator_denotes.
Print Assumptions C55_uses_keep_matrix.
Print Assumptions C55_left_sketches_identical.
Print Assumptions C55_right_sketches_identical_partial.

(* ------------------------------------------------------------------ *)
(** * Concrete operators: integers, the toy generators of PropsDense.v and PropsSparse.v *)
Definition zfs : schedule Z := rev_schedule.
Lemma zfs_valid : valid_schedule zfs. Proof. apply rev_schedule_valid. Qed.
Definition idZ : Z -> Z := fun x => x.
(** A 5 x 7 dense operator, not materialised. *)
Definition S57 : dense_skop Z Z :=
  {| ds_dist := D57; ds_seed := mk_state 10 1; ds_next := mk_state 20 1; ds_own := true; ds_buff := None; ds_layout := RowMajor |}.
Definition a57 (i j : Z) : Z := match dense_entry idZ toy_env D57 (mk_state 10 1) i j with Some x => x | None => 0 end.
Lemma D57_valid : valid_dist D57. Proof. exists 5, 7, Uniform, Long. reflexivity. Qed.
Lemma S57_sampled senv : sampled (F := Z) zops idZ toy_env senv (SkDense S57) a57.
Proof.
  cbn [sampled S57 ds_dist ds_seed ds_buff]. split; [apply D57_valid|]. split; [split; cbn; lia|]. split; [|exact I]. intros i j _ _. unfold a57.
  destruct (dense_entry_Some idZ toy_env D57 (mk_state 10 1) i j toy_env_wf D57_valid) as [v ->]. reflexivity.
Qed.
Lemma S57_denotes : dense_denotes idZ toy_env S57 a57.
Proof. exact (sampled_denotes zops zops_semiring idZ toy_env toy_senv (SkDense S57) a57 (S57_sampled toy_senv)). Qed.

(** Sparse operators r x c with k entries per vector, not materialised. *)
Definition sp_op (r c k : Z) (x : axis) (ctr ky : Z) : sparse_skop Z Z := mk_sparse_skop toy_senv (the_dist r c k x) (mk_state ctr ky).
Definition fill_of (S : sparse_skop Z Z) : sparse_skop Z Z := match fill_sparse toy_senv 7 7 S with Ok s => s | _ => S end.
Definition sp_mat (S : sparse_skop Z Z) (i j : Z) : Z := sumT zops (sparse_entry toy_senv (ss_dist S) (ss_seed S) i j).
Lemma short_samplable r c k ctr ky : mk_sparse_dist r c k Short = Ok (the_dist r c k Short) -> sparse_size_ok toy_senv (the_dist r c k Short) -> seed_ok toy_senv (mk_state ctr ky) ->
  samplable toy_senv (the_dist r c k Short) (mk_state ctr ky).
Proof.
  intros H1 H2 H3. split; [apply toy_senv_wf|]. assert (sd_rows (the_dist r c k Short) = r /\ sd_cols (the_dist r c k Short) = c /\ sd_vec_nnz (the_dist r c k Short) = k /\ sd_axis (the_dist r c k Short) = Short) as (E1 & E2 & E3 & E4).
  { revert H1. unfold mk_sparse_dist. intros H. repeat (apply bind_Ok in H as (? & _ & H)). injection H as <-. auto. }
  split; [unfold valid_sdist; rewrite E1, E2, E3, E4; exact H1|]. split; [exact H2|]. split; [exact H3|]. rewrite E4. discriminate.
Qed.
Lemma sp_op_sampled r c k x ctr ky : samplable toy_senv (the_dist r c k x) (mk_state ctr ky) -> sampled (W := Z) zops idZ toy_env toy_senv (SkSparse (sp_op r c k x ctr ky)) (sp_mat (sp_op r c k x ctr ky)).
Proof. intros H. cbn [sampled sp_op mk_sparse_skop ss_dist ss_seed ss_nnz]. split; [exact H|]. split; [apply mk_buffers_ok|]. split; [reflexivity|]. left. lia. Qed.
Lemma S34_samplable : samplable toy_senv (the_dist 3 4 2 Short) (mk_state 11 2).
Proof. apply short_samplable; [reflexivity|vm_compute; repeat split; discriminate|vm_compute; split; [discriminate|reflexivity]]. Qed.
Lemma S43_samplable : samplable toy_senv (the_dist 4 3 2 Short) (mk_state 11 2).
Proof. apply short_samplable; [reflexivity|vm_compute; repeat split; discriminate|vm_compute; split; [discriminate|reflexivity]]. Qed.
Lemma fill_of_sampled r c k x ctr ky : samplable toy_senv (the_dist r c k x) (mk_state ctr ky) ->
  sampled (W := Z) zops idZ toy_env toy_senv (SkSparse (fill_of (sp_op r c k x ctr ky))) (sp_mat (sp_op r c k x ctr ky)).
Proof.
  intros H. unfold fill_of. destruct (fill_sparse toy_senv 7 7 (sp_op r c k x ctr ky)) as [s| |] eqn:E; try (now apply sp_op_sampled).
  eapply fill_sparse_sampled; [|exact E]. now apply sp_op_sampled.
Qed.
(** The buffer a call returns. *)
Definition buf_of {X Y} (r : outcome (X * Y)) : outcome Y := bind r (fun p => Ok (snd p)).

Example C40_case :
  dense_denotes idZ toy_env S57 a57 /\ in_matrix 5 7 2 3 1 4 /\ fits_buffer ColMajor 3 3 1 (zlen [1; 10; 100]) /\ fits_buffer ColMajor 2 2 1 (zlen [5; 6]) /\
  lskge3 zops idZ toy_env zfs ColMajor NoTrans NoTrans 2 1 3 1 S57 1 4 [1; 10; 100] 3 1 [5; 6] 2 = Ok [350951; 353616] /\
  a57 1 4 + 10 * a57 1 5 + 100 * a57 1 6 + 5 = 350951 /\ a57 2 4 + 10 * a57 2 5 + 100 * a57 2 6 + 6 = 353616.
Proof.
  split; [apply S57_denotes|]. split; [unfold in_matrix; lia|]. split; [apply fits_check_ok; reflexivity|]. split; [apply fits_check_ok; reflexivity|]. vm_compute. auto.
Qed.
(** An empty inner dimension (m = 0, B should become beta*B) with an operator that is not
    materialised: the sampler writes outside the empty buffer. *)
Theorem C40_empty_inner_dimension_refuted :
  dense_denotes idZ toy_env S57 a57 /\ in_matrix 5 7 2 0 1 4 /\ fits_buffer ColMajor 3 0 1 (zlen (@nil Z)) /\ fits_buffer ColMajor 2 2 1 (zlen [5; 6]) /\
  forall sched, lskge3 zops idZ toy_env sched ColMajor NoTrans NoTrans 2 1 0 1 S57 1 4 [] 3 1 [5; 6] 2 = UB.
Proof.
  split; [apply S57_denotes|]. split; [unfold in_matrix; lia|]. split; [apply fits_check_ok; reflexivity|]. split; [apply fits_check_ok; reflexivity|]. intros. vm_compute. reflexivity.
Qed.
Print Assumptions C40_empty_inner_dimension_refuted.
Example C41_case :
  dense_denotes idZ toy_env S57 a57 /\ in_matrix 5 7 2 3 1 4 /\
  rskge3 zops idZ toy_env zfs ColMajor NoTrans NoTrans 1 3 2 1 [1; 10] 1 S57 1 4 1 [5; 6; 7] 1 = Ok [34961; 34995; 35029] /\
  a57 1 4 + 10 * a57 2 4 + 5 = 34961 /\ a57 1 5 + 10 * a57 2 5 + 6 = 34995 /\ a57 1 6 + 10 * a57 2 6 + 7 = 35029.
Proof. split; [apply S57_denotes|]. split; [unfold in_matrix; lia|]. vm_compute. auto. Qed.

Example C42_case :
  let S := sp_op 3 4 2 Short 11 2 in
  sampled (W := Z) zops idZ toy_env toy_senv (SkSparse S) (sp_mat S) /\ whole_columns (ss_dist S) NoTrans 3 0 0 /\ in_matrix 3 4 3 4 0 0 /\
  spread (sparse_at toy_senv S) NoTrans 3 1 4 0 0 /\
  lskges zops toy_senv 7 7 zsched isort 1 ColMajor NoTrans NoTrans 3 1 4 1 S 0 0 [1; 10; 100; 1000] 4 1 [5; 6; 7] 3 = Ok (S, [-1006; -1105; -93]) /\
  buf_of (lskges zops toy_senv 7 7 zsched isort 1 ColMajor NoTrans NoTrans 3 1 4 1 (fill_of S) 0 0 [1; 10; 100; 1000] 4 1 [5; 6; 7] 3) = Ok [-1006; -1105; -93] /\
  sp_mat S 0 0 + 10 * sp_mat S 0 1 + 100 * sp_mat S 0 2 + 1000 * sp_mat S 0 3 + 5 = -1006.
Proof.
  cbn zeta. split; [apply sp_op_sampled, S34_samplable|]. split; [vm_compute; auto|]. split; [unfold in_matrix; lia|].
  split; [right; right; split; [lia|]; left; exists 0, 1; split; [lia|]; split; [lia|]; vm_compute; discriminate|].
  split; [vm_compute; reflexivity|]. split; vm_compute; reflexivity.
Qed.
(** A 1 x 2 operator (Long axis, one draw per row) whose draw is index 0, applied as a whole. *)
Theorem C42_first_column_refuted :
  let S := sp_op 1 2 1 Long 10 0 in
  sampled (W := Z) zops idZ toy_env toy_senv (SkSparse S) (sp_mat S) /\ in_matrix 1 2 1 2 0 0 /\ fits_buffer ColMajor 2 2 1 (zlen [1; 10]) /\ fits_buffer ColMajor 1 1 1 (zlen [5]) /\
  (forall sched nt, lskges zops toy_senv 7 7 sched isort nt ColMajor NoTrans NoTrans 1 1 2 1 S 0 0 [1; 10] 2 1 [5] 1 = UB) /\
  (forall sched nt, lskges zops toy_senv 7 7 sched isort nt ColMajor NoTrans NoTrans 1 1 2 1 (fill_of S) 0 0 [1; 10] 2 1 [5] 1 = UB).
Proof.
  cbn zeta. split.
  - apply sp_op_sampled. split; [apply toy_senv_wf|]. split; [reflexivity|]. split; [vm_compute; repeat split; discriminate|]. split; [vm_compute; split; [discriminate|reflexivity]|].
    intros _ i t Hi Ht. change (Z.min (sd_rows (the_dist 1 2 1 Long)) (sd_cols (the_dist 1 2 1 Long))) with 1 in Hi. change (sd_vec_nnz (the_dist 1 2 1 Long)) with 1 in Ht.
    assert (i = 0) as -> by lia. assert (t = 0) as -> by lia. vm_compute. split; [discriminate|reflexivity].
  - split; [unfold in_matrix; lia|]. split; [apply fits_check_ok; reflexivity|]. split; [apply fits_check_ok; reflexivity|]. split; intros; vm_compute; reflexivity.
Qed.
Print Assumptions C42_first_column_refuted.

Example C43_case :
  let S := fill_of (sp_op 4 3 2 Short 11 2) in
  0 < ss_nnz S /\ valid_coo (skop_coo S) /\ in_matrix 4 3 4 3 0 0 /\ spread (coo_at (skop_coo S)) Trans 3 1 4 0 0 /\
  buf_of (rskges zops toy_senv 7 7 zsched isort 1 ColMajor NoTrans NoTrans 1 3 4 1 [1; 10; 100; 1000] 1 S 0 0 1 [5; 6; 7] 1) = Ok [-1006; -1105; -93].
Proof.
  cbn zeta. split; [vm_compute; reflexivity|]. split; [apply valid_coo_check; vm_compute; reflexivity|]. split; [unfold in_matrix; lia|].
  split; [right; right; split; [lia|]; left; exists 0, 1; split; [lia|]; split; [lia|]; vm_compute; discriminate|]. vm_compute. reflexivity.
Qed.
(** The same operator before it is materialised: a different result, and S is no longer
    unmaterialised afterwards. *)
Theorem C43_unmaterialised_refuted :
  let S := sp_op 4 3 2 Short 11 2 in
  sampled (W := Z) zops idZ toy_env toy_senv (SkSparse S) (sp_mat S) /\ in_matrix 4 3 4 3 0 0 /\ spread (sparse_at toy_senv S) Trans 3 1 4 0 0 /\
  exists S' B', rskges zops toy_senv 7 7 zsched isort 1 ColMajor NoTrans NoTrans 1 3 4 1 [1; 10; 100; 1000] 1 S 0 0 1 [5; 6; 7] 1 = Ok (S', B') /\
    ss_nnz S < 0 /\ 0 < ss_nnz S' /\
    ~ gemm_result zops ColMajor 1 3 4 1 1 (cell zops ColMajor 1 [1; 10; 100; 1000]) (sp_mat S) [5; 6; 7] 1 B'.
Proof.
  cbn zeta. split; [apply sp_op_sampled, S43_samplable|]. split; [unfold in_matrix; lia|].
  split; [right; right; split; [lia|]; left; exists 0, 1; split; [lia|]; split; [lia|]; vm_compute; discriminate|].
  do 2 eexists. split; [vm_compute; reflexivity|]. split; [reflexivity|]. split; [reflexivity|].
  intros (_ & H & _). specialize (H 0 0 5 ltac:(lia) ltac:(lia) eq_refl). vm_compute in H. discriminate.
Qed.
Print Assumptions C43_unmaterialised_refuted.

Example C44_case :
  buf_of (sketch_vector zops idZ toy_env zfs toy_senv 7 7 zsched isort 1 NoTrans 3 2 1 (SkSparse (sp_op 3 4 2 Short 11 2)) 0 1 [1; -9; 10] 2 3 [5; -7; 6; -7; 7] 2)
    = Ok [14; -7; 7; -7; 11] /\
  buf_of (sketch_vector zops idZ toy_env zfs toy_senv 7 7 zsched isort 1 Trans 2 3 1 (SkDense S57) 1 4 [1; -9; 10] 2 3 [5; -7; 6; -7; 7] 2)
    = Ok [34971; -7; 35007; -7; 35043] /\
  usable zops toy_senv (SkDense S57) Trans 3 1 2 1 4 1.
Proof.
  split; [vm_compute; reflexivity|]. split; [vm_compute; reflexivity|]. split; [unfold in_matrix; cbn; lia|]. intros _. lia.
Qed.

Definition zcmp : cmp_ops Z := {| o_sub := Z.sub; o_abs := Z.abs; o_ltb := Z.ltb |}.
Example C45_case :
  let S := SkSparse (sp_op 3 4 2 Short 11 2) in
  let Asym := [1; 2; 3; 4;  2; 5; 6; 7;  3; 6; 8; 9;  4; 7; 9; 10] in
  let Abad := [1; 2; 3; 4;  2; 5; 6; 7;  3; 6; 8; 9;  4; 7; -99; 10] in
  rejects zops zcmp ColMajor Abad 4 4 0 /\ ~ rejects zops zcmp ColMajor Asym 4 4 0 /\
  usable zops toy_senv S NoTrans 3 4 4 0 0 1 /\
  sketch_symmetric_left zops idZ toy_env zfs toy_senv 7 7 zsched isort 1 zcmp ColMajor 3 4 1 S 0 0 Abad 4 0 [] 3 0 = Throw /\
  buf_of (sketch_symmetric_left zops idZ toy_env zfs toy_senv 7 7 zsched isort 1 zcmp ColMajor 3 4 1 S 0 0 Asym 4 0 (repeat 0 12) 3 0)
    = Ok [-7; -10; -3; -14; -20; -6; -18; -26; -8; -21; -30; -9].
Proof.
  cbn zeta. split; [split; [reflexivity|]; exists 2, 3, (-99), 9; repeat split; (lia || reflexivity)|].
  split.
  { intros H. apply (require_symmetric_spec zops zcmp) in H; [|apply fits_check_ok; reflexivity]. vm_compute in H. discriminate. }
  split; [split; [unfold in_matrix; cbn; lia|]; right; right; right; split; [lia|]; left; exists 0, 1; split; [lia|]; split; [lia|]; vm_compute; discriminate|].
  split; vm_compute; reflexivity.
Qed.

Example C46_case :
  dense_denotes idZ toy_env S57 a57 /\ in_matrix 5 7 2 2 1 4 /\ valid_sp (SpCsr csr_ex) /\ sp_window (SpCsr csr_ex) 2 3 0 0 /\
  sp_safe 1 RowMajor Trans Trans 3 2 2 (SpCsr csr_ex) 0 0 /\
  lsksp3 zops idZ toy_env zfs zsched isort 1 ColMajor NoTrans NoTrans 2 3 2 1 S57 1 4 (SpCsr csr_ex) 0 0 1 [1; 2; 3; 4; 5; 6] 2
    = Ok (SpCsr csr_ex, [1; 2; 3; 4; 5 * a57 1 4 + 7 * a57 1 5 + 5; 5 * a57 2 4 + 7 * a57 2 5 + 6]).
Proof.
  split; [apply S57_denotes|]. split; [unfold in_matrix; lia|]. split; [apply valid_csr_check; reflexivity|]. split; [unfold sp_window; cbn; lia|].
  split; [|vm_compute; reflexivity]. unfold sp_safe, csc_safe. cbn. right. right. split; [lia|]. right. exists 1. split; [reflexivity|lia].
Qed.

Example C47_case :
  let S := SkSparse (sp_op 3 4 2 Short 11 2) in
  blocks_usable zops toy_senv S NoTrans 3 1 0 0 1 0 [2; 1; 1] /\
  sketch_blocks zops idZ toy_env zfs toy_senv 7 7 zsched isort 1 ColMajor NoTrans NoTrans 3 1 1 0 0 [1; 10; 100; 1000] 4 3 0 [2; 1; 1] S [5; 6; 7]
    = Ok (S, [-1006; -1105; -93]) /\
  sketch_general_left zops idZ toy_env zfs toy_senv 7 7 zsched isort 1 ColMajor NoTrans NoTrans 3 1 4 1 S 0 0 [1; 10; 100; 1000] 4 1 [5; 6; 7] 3
    = Ok (S, [-1006; -1105; -93]).
Proof.
  cbn zeta. split; [|split; vm_compute; reflexivity]. cbn [blocks_usable].
  split; [lia|]. split; [split; [unfold in_matrix; cbn; lia|]; right; right; right; split; [lia|]; left; exists 0, 1; split; [lia|]; split; [lia|]; vm_compute; discriminate|].
  split; [lia|]. split; [split; [unfold in_matrix; cbn; lia|]; right; right; left; reflexivity|].
  split; [lia|]. split; [split; [unfold in_matrix; cbn; lia|]; right; right; left; reflexivity|]. exact I.
Qed.

Example C39_sketch_case :
  skop_denotes (F := Z) zops idZ toy_env toy_senv (SkDense S57) a57 /\ sketch_args_bad (SkDense S57) ColMajor NoTrans 2 3 1 5 NoTrans 3 1 3 2 1 2 /\
  sketch_general_left zops idZ toy_env zfs toy_senv 7 7 zsched isort 1 ColMajor NoTrans NoTrans 2 1 3 1 (SkDense S57) 1 5 [] 3 1 [] 2 = Throw.
Proof. split; [apply S57_denotes|]. split; [left; right; cbn; lia|vm_compute; reflexivity]. Qed.
(** An operator whose owner forbade allocation (own_memory = false, null arrays): sketching
    from the right raises after B has been updated; with an empty B it is an out-of-bounds
    access. *)
Theorem C39_right_late_exception_refuted :
  let S := sp_op 4 3 2 Short 11 2 in
  let S' := {| ss_dist := ss_dist S; ss_seed := ss_seed S; ss_next := ss_next S; ss_own := false; ss_nnz := -1; ss_vals := None; ss_rows := None; ss_cols := None |} in
  sparse_valid toy_senv S' /\
  rskges zops toy_senv 7 7 zsched isort 1 ColMajor NoTrans NoTrans 1 3 4 1 [1; 10; 100; 1000] 1 S' 0 0 1 [5; 6; 7] 1 = Throw /\
  rskges zops toy_senv 7 7 zsched isort 1 ColMajor NoTrans NoTrans 1 3 4 1 [1; 10; 100; 1000] 1 S' 0 0 1 [] 1 = UB.
Proof. cbn zeta. split; [exact S43_samplable|]. split; vm_compute; reflexivity. Qed.
Print Assumptions C39_right_late_exception_refuted.

(** A 2 x 2 window at (-1, 3) of a 3 x 4 operator. *)
Theorem C48_sparse_window_refuted :
  let S := sp_op 3 4 2 Short 11 2 in
  sampled (W := Z) zops idZ toy_env toy_senv (SkSparse S) (sp_mat S) /\ ~ in_matrix 3 4 2 2 (-1) 3 /\
  (forall B, zlen B = 2 -> exists B', lskges zops toy_senv 7 7 zsched isort 1 ColMajor NoTrans NoTrans 2 1 2 1 S (-1) 3 [1; 10] 2 1 B 2 = Ok (S, B')).
Proof.
  cbn zeta. split; [apply sp_op_sampled, S34_samplable|]. split; [unfold in_matrix; lia|].
  intros B HB. destruct B as [|x [|y [|z B]]]; [discriminate|discriminate| |exfalso; unfold zlen in HB; cbn [length] in HB; lia]. eexists. vm_compute. reflexivity.
Qed.
Print Assumptions C48_sparse_window_refuted.
Example C48_case :
  let S := sp_op 3 4 2 Short 11 2 in
  spread (sparse_at toy_senv S) NoTrans 3 1 4 (-1) 1 /\
  buf_of (lskges zops toy_senv 7 7 zsched isort 1 ColMajor NoTrans NoTrans 3 1 4 1 S (-1) 1 [1; 10; 100; 1000] 4 1 [5; 6; 7] 3) = Ok [5; -95; -104].
Proof. cbn zeta. split; [|vm_compute; reflexivity]. right. right. split; [lia|]. left. exists 1, 2. split; [lia|]. split; [lia|]. vm_compute. discriminate. Qed.

(** Sketch, fill twice, sketch again. *)
Example C55_case :
  let S := sp_op 3 4 2 Short 11 2 in
  uses (W := Z) zops idZ toy_env toy_senv (SkSparse S) (SkSparse (fill_of (fill_of S))) /\
  sampled (W := Z) zops idZ toy_env toy_senv (SkSparse S) (sp_mat S) /\ usable zops toy_senv (SkSparse S) NoTrans 3 1 4 0 0 1 /\
  buf_of (lskges zops toy_senv 7 7 zsched isort 1 ColMajor NoTrans NoTrans 3 1 4 1 (fill_of (fill_of S)) 0 0 [1; 10; 100; 1000] 4 1 [5; 6; 7] 3) = Ok [-1006; -1105; -93].
Proof.
  cbn zeta. split.
  { eapply uses_cons; [apply (use_fill_sparse zops idZ toy_env toy_senv 7 7); vm_compute; reflexivity|].
    eapply uses_cons; [apply (use_fill_sparse zops idZ toy_env toy_senv 7 7); vm_compute; reflexivity|]. apply uses_nil. }
  split; [apply sp_op_sampled, S34_samplable|].
  split; [split; [unfold in_matrix; cbn; lia|]; right; right; right; split; [lia|]; left; exists 0, 1; split; [lia|]; split; [lia|]; vm_compute; discriminate|].
  vm_compute. reflexivity.
Qed.
(** From the right, before and after filling: different results. *)
Theorem C55_right_sketches_refuted :
  let S := sp_op 4 3 2 Short 11 2 in
  sampled (W := Z) zops idZ toy_env toy_senv (SkSparse S) (sp_mat S) /\
  uses (W := Z) zops idZ toy_env toy_senv (SkSparse S) (SkSparse (fill_of S)) /\
  usable zops toy_senv (SkSparse S) Trans 3 1 4 0 0 1 /\
  exists B1 B2, buf_of (sketch_general_right zops idZ toy_env zfs toy_senv 7 7 zsched isort 1 ColMajor NoTrans NoTrans 1 3 4 1 [1; 10; 100; 1000] 1 (SkSparse S) 0 0 1 [5; 6; 7] 1) = Ok B1 /\
    buf_of (sketch_general_right zops idZ toy_env zfs toy_senv 7 7 zsched isort 1 ColMajor NoTrans NoTrans 1 3 4 1 [1; 10; 100; 1000] 1 (SkSparse (fill_of S)) 0 0 1 [5; 6; 7] 1) = Ok B2 /\ B1 <> B2.
Proof.
  cbn zeta. split; [apply sp_op_sampled, S43_samplable|].
  split; [eapply uses_cons; [apply (use_fill_sparse zops idZ toy_env toy_senv 7 7); vm_compute; reflexivity|apply uses_nil]|].
  split; [split; [unfold in_matrix; cbn; lia|]; right; right; right; split; [lia|]; left; exists 0, 1; split; [lia|]; split; [lia|]; vm_compute; discriminate|].
  do 2 eexists. split; [vm_compute; reflexivity|]. split; [vm_compute; reflexivity|]. discriminate.
Qed.
Print Assumptions C55_right_sketches_refuted.
