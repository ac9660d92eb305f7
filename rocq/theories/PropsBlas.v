(** C65: sketching dense data with a dense operator through any BLAS.

    Definitions read by these statements: [lskge3_with] ... [sketch_symmetric_right_with]
    (GemmModel.v: the drivers with the BLAS as a parameter); [keeps_promise], [updated],
    [row_col] (GemmSpec.v); [computed], [evaluates], [entry_sum] (RoundSpec3.v);
    [finite_near], [surely_near] (RoundSpec2.v); [dense_denotes], [in_matrix], [win]
    (SketchSpec.v); [fits_buffer], [cell], [op_ent] (SpmmSpec.v); [others_kept] (RoundSpec.v). *)
From Coq Require Import ZArith Reals Lra Permutation.
From Flocq Require Import Core BinarySingleNaN.
From Verif Require Import Base Interleave Spec RngModel DenseModel DenseSpec SparseSkopModel SparseSpec SpFmtModel SpFmtSpec SpmmModel SpmmSpec SpmmProofs UtilModel FloatModel
  SketchModel SketchSpec SketchProofs SketchProofs2 PropsSketch RoundModel RoundSpec RoundSpec2 RoundSpec3 RoundProofs8 PropsRound PropsRoundSketch PropsRoundSparse GemmModel GemmSpec GemmProofs BlasProofs DenseFloatModel PropsSpFmt.
Local Open Scope Z_scope.

(** The model of C40, C41, C44 and C47 is the one with the textbook BLAS. *)
Theorem C65_textbook_drivers :
  forall {K W F T} (O : ops T) cast (denv : dense_env K W T) fsched (senv : sparse_env K F T) jT jZ sched ssort nt Q,
  (forall l opS opA d n m alpha S ro co A lda beta B ldb,
     sketch_general_left O cast denv fsched senv jT jZ sched ssort nt l opS opA d n m alpha S ro co A lda beta B ldb =
     sketch_general_left_with O cast denv fsched senv jT jZ sched ssort nt (gemm O) l opS opA d n m alpha S ro co A lda beta B ldb) /\
  (forall l opA opS m d n alpha A lda S ro co beta B ldb,
     sketch_general_right O cast denv fsched senv jT jZ sched ssort nt l opA opS m d n alpha A lda S ro co beta B ldb =
     sketch_general_right_with O cast denv fsched senv jT jZ sched ssort nt (gemm O) l opA opS m d n alpha A lda S ro co beta B ldb) /\
  (forall opS d m alpha S ro co x incx beta y incy,
     sketch_vector O cast denv fsched senv jT jZ sched ssort nt opS d m alpha S ro co x incx beta y incy =
     sketch_vector_with O cast denv fsched senv jT jZ sched ssort nt (gemm O) opS d m alpha S ro co x incx beta y incy) /\
  (forall l n d alpha A lda S ro co beta B ldb tol,
     sketch_symmetric_right O cast denv fsched senv jT jZ sched ssort nt Q l n d alpha A lda S ro co beta B ldb tol =
     sketch_symmetric_right_with O cast denv fsched senv jT jZ sched ssort nt Q (gemm O) l n d alpha A lda S ro co beta B ldb tol) /\
  (forall l d n alpha S ro co A lda beta B ldb tol,
     sketch_symmetric_left O cast denv fsched senv jT jZ sched ssort nt Q l d n alpha S ro co A lda beta B ldb tol =
     sketch_symmetric_left_with O cast denv fsched senv jT jZ sched ssort nt Q (gemm O) l d n alpha S ro co A lda beta B ldb tol).
Proof. intros. repeat split. Qed.
Print Assumptions C65_textbook_drivers.

(** * Whatever the BLAS promises about gemm holds for the sketch *)
Section Promise.
Context {K W F T : Type}.
Variable O : ops T.
Variable cast : W -> T.
Variable denv : dense_env K W T.
Variable fsched : schedule T.
Variable senv : sparse_env K F T.
Variables (jT : T) (jZ : Z).
Variable sched : schedule (list T).
Variable ssort : (Z * Z * T -> Z * Z * T -> bool) -> list (Z * Z * T) -> list (Z * Z * T).
Variable nt : Z.
Variable Q : cmp_ops T.
Hypothesis Hw : wf_env denv.
Hypothesis Hf : valid_schedule fsched.
Variable P : T -> list (T * T) -> T -> T -> T -> Prop.
Variable blas : blas_gemm T.
Hypothesis HB : keeps_promise O P blas.

Theorem C65_dense_left : forall l opS opA d n m alpha (S : dense_skop K T) ro co A lda beta B ldb a,
  dense_denotes cast denv S a ->
  in_matrix (dd_rows (ds_dist S)) (dd_cols (ds_dist S)) (rows_before opS d m) (cols_before opS d m) ro co ->
  (ds_buff S = None -> 1 <= d /\ 1 <= m) -> 0 <= n ->
  fits_buffer l lda (rows_before opA m n) (cols_before opA m n) (zlen A) -> fits_buffer l ldb d n (zlen B) ->
  exists B', sketch_general_left_with O cast denv fsched senv jT jZ sched ssort nt blas l opS opA d n m alpha (SkDense S) ro co A lda beta B ldb = Ok (SkDense S, B') /\
    updated P l d n m alpha beta (op_ent opS (win a ro co)) (op_ent opA (cell O l lda A)) B ldb B'.
Proof using Hw Hf HB.
  intros l opS opA d n m alpha S ro co A lda beta B ldb a HD Hin Hne Hn FA FB.
  destruct (lskge3_with_spec O cast denv fsched P blas HB l opS opA d n m alpha S ro co A lda beta B ldb a Hf Hw HD Hin Hne Hn FA FB) as (B' & E & G).
  exists B'. split; [|exact G]. cbn [sketch_general_left_with]. now rewrite E.
Qed.
Theorem C65_dense_right : forall l opA opS m d n alpha A lda (S : dense_skop K T) ro co beta B ldb a,
  dense_denotes cast denv S a ->
  in_matrix (dd_rows (ds_dist S)) (dd_cols (ds_dist S)) (rows_before opS n d) (cols_before opS n d) ro co ->
  (ds_buff S = None -> 1 <= d /\ 1 <= n) -> 0 <= m ->
  fits_buffer l lda (rows_before opA m n) (cols_before opA m n) (zlen A) -> fits_buffer l ldb m d (zlen B) ->
  exists B', sketch_general_right_with O cast denv fsched senv jT jZ sched ssort nt blas l opA opS m d n alpha A lda (SkDense S) ro co beta B ldb = Ok (SkDense S, B') /\
    updated P l m d n alpha beta (op_ent opA (cell O l lda A)) (op_ent opS (win a ro co)) B ldb B'.
Proof using Hw Hf HB.
  intros l opA opS m d n alpha A lda S ro co beta B ldb a HD Hin Hne Hm FA FB.
  destruct (rskge3_with_spec O cast denv fsched P blas HB l opA opS m d n alpha A lda S ro co beta B ldb a Hf Hw HD Hin Hne Hm FA FB) as (B' & E & G).
  exists B'. split; [|exact G]. cbn [sketch_general_right_with]. now rewrite E.
Qed.
(** y becomes alpha*op(submat(S))*x + beta*y as promised; d x m are the dimensions of
    submat(S), x and y have strides incx and incy. *)
Theorem C65_dense_vector : forall opS d m alpha (S : dense_skop K T) ro co x incx beta y incy a,
  let d' := rows_before opS d m in let m' := cols_before opS d m in
  dense_denotes cast denv S a -> in_matrix (dd_rows (ds_dist S)) (dd_cols (ds_dist S)) d m ro co ->
  (ds_buff S = None -> 1 <= d /\ 1 <= m) ->
  1 <= incx -> 1 <= incy -> (0 < m' -> (m' - 1) * incx < zlen x) -> (0 < d' -> (d' - 1) * incy < zlen y) ->
  exists y', sketch_vector_with O cast denv fsched senv jT jZ sched ssort nt blas opS d m alpha (SkDense S) ro co x incx beta y incy = Ok (SkDense S, y') /\
    zlen y' = zlen y /\ (forall q, (forall i, 0 <= i < d' -> i * incy <> q) -> get y' q = get y q) /\
    forall i c, 0 <= i < d' -> get y (i * incy) = Some c ->
      exists v, get y' (i * incy) = Some v /\
        P alpha (map (fun k => (op_ent opS (win a ro co) i k, match get x (k * incx) with Some z => z | None => o_zero O end)) (range 0 m')) beta c v.
Proof using Hw Hf HB.
  intros opS d m alpha S ro co x incx beta y incy a d' m' HD Hin Hne Hx Hy Lx Ly. unfold sketch_vector_with.
  assert (E2 : (match opS with Trans => (m, d) | NoTrans => (d, m) end) = (d', m')) by (subst d' m'; destruct opS; reflexivity). rewrite E2.
  assert (I2 : in_matrix (dd_rows (ds_dist S)) (dd_cols (ds_dist S)) (rows_before opS d' m') (cols_before opS d' m') ro co) by (subst d' m'; destruct opS; exact Hin).
  assert (N2 : ds_buff S = None -> 1 <= d' /\ 1 <= m') by (intros Hb; specialize (Hne Hb); subst d' m'; destruct opS; cbn; lia).
  destruct (C65_dense_left RowMajor opS NoTrans d' 1 m' alpha S ro co x incx beta y incy a HD I2 N2) as (y' & E & (HL & HK) & G); [lia| | |].
  - split; [cbn; lia|]. intros i j Hi Hj. cbn [rows_before cols_before] in *. assert (j = 0) by lia. subst j. cbn [addr]. clear - Hi Lx Hx. specialize (Lx ltac:(lia)). nia.
  - split; [cbn; lia|]. intros i j Hi Hj. assert (j = 0) by lia. subst j. cbn [addr]. clear - Hi Ly Hy. specialize (Ly ltac:(lia)). nia.
  - assert (AD : forall i ld, addr RowMajor ld i 0 = i * ld) by (intros; cbn [addr]; lia). exists y'. split; [exact E|]. split; [exact HL|]. split.
    + intros q Hq. apply HK. intros i j Hi Hj. assert (j = 0) by lia. subst j. rewrite AD. now apply Hq.
    + intros i c Hi Gc. destruct (G i 0 c Hi ltac:(lia)) as (v & Gv & Pv); [now rewrite AD|]. rewrite AD in Gv. exists v. split; [exact Gv|].
      unfold row_col in Pv. erewrite map_ext; [exact Pv|]. intros k. cbn [op_ent]. unfold cell. now rewrite AD.
Qed.
(** When the check for symmetry passes. *)
Theorem C65_dense_symmetric_left : forall l d n alpha (S : dense_skop K T) ro co A lda beta B ldb tol a r,
  dense_denotes cast denv S a -> in_matrix (dd_rows (ds_dist S)) (dd_cols (ds_dist S)) d n ro co ->
  (ds_buff S = None -> 1 <= d /\ 1 <= n) ->
  fits_buffer l lda n n (zlen A) -> fits_buffer l ldb d n (zlen B) ->
  sketch_symmetric_left_with O cast denv fsched senv jT jZ sched ssort nt Q blas l d n alpha (SkDense S) ro co A lda beta B ldb tol = Ok r ->
  exists B', r = (SkDense S, B') /\ updated P l d n n alpha beta (win a ro co) (cell O l lda A) B ldb B'.
Proof using Hw Hf HB.
  intros l d n alpha S ro co A lda beta B ldb tol a r HD Hin Hne FA FB E. unfold sketch_symmetric_left_with in E. apply bind_Ok in E as (u & _ & E).
  destruct (C65_dense_left l NoTrans NoTrans d n n alpha S ro co A lda beta B ldb a HD Hin Hne ltac:(destruct Hin as (_ & H & _); exact H) FA FB) as (B' & E' & G).
  rewrite E' in E. injection E as <-. exists B'. split; [reflexivity|exact G].
Qed.
Theorem C65_dense_symmetric_right : forall l n d alpha A lda (S : dense_skop K T) ro co beta B ldb tol a r,
  dense_denotes cast denv S a -> in_matrix (dd_rows (ds_dist S)) (dd_cols (ds_dist S)) n d ro co ->
  (ds_buff S = None -> 1 <= d /\ 1 <= n) ->
  fits_buffer l lda n n (zlen A) -> fits_buffer l ldb n d (zlen B) ->
  sketch_symmetric_right_with O cast denv fsched senv jT jZ sched ssort nt Q blas l n d alpha A lda (SkDense S) ro co beta B ldb tol = Ok r ->
  exists B', r = (SkDense S, B') /\ updated P l n d n alpha beta (cell O l lda A) (win a ro co) B ldb B'.
Proof using Hw Hf HB.
  intros l n d alpha A lda S ro co beta B ldb tol a r HD Hin Hne FA FB E. unfold sketch_symmetric_right_with in E. apply bind_Ok in E as (u & _ & E).
  destruct (C65_dense_right l NoTrans NoTrans n d n alpha A lda S ro co beta B ldb a HD Hin Hne ltac:(destruct Hin as (H & _); exact H) FA FB) as (B' & E' & G).
  rewrite E' in E. injection E as <-. exists B'. split; [reflexivity|exact G].
Qed.
End Promise.
Print Assumptions C65_dense_left.
Print Assumptions C65_dense_right.
Print Assumptions C65_dense_vector.
Print Assumptions C65_dense_symmetric_left.
Print Assumptions C65_dense_symmetric_right.

(** * Floating point *)
Section Accuracy.
Context {prec emax : Z} {pp : Prec_gt_0 prec} {pe : Prec_lt_emax prec emax}.
Local Notation bf := (binary_float prec emax).

(** However an entry is computed, it is accurate if it is finite, and it is finite if nothing
    can overflow. *)
Theorem C65_any_order_accurate : forall (alpha : bf) p (beta c y : bf),
  computed alpha p beta c y -> (p = [] -> is_finite alpha = true) -> finite_near alpha p beta c y /\ surely_near alpha p beta c y.
Proof. exact computed_near. Qed.

(** BLAS implementations that keep this promise: the textbook one, the reference BLAS, the
    reference BLAS with fused multiply-adds, and one that sums backwards. *)
Theorem C65_promise_kept :
  keeps_promise (fops prec emax) computed (gemm (fops prec emax)) /\
  keeps_promise (fops prec emax) computed (gemm_by reference_entry) /\
  keeps_promise (fops prec emax) computed (gemm_by reference_fma_entry) /\
  keeps_promise (fops prec emax) computed (gemm_by backward_entry).
Proof.
  split; [apply textbook_promise, textbook_computed|]. split; [apply gemm_by_promise, reference_computed|].
  split; [apply gemm_by_promise, reference_fma_computed|apply gemm_by_promise, backward_computed].
Qed.

Context {K W F : Type}.
Variable cast : W -> bf.
Variable denv : dense_env K W bf.
Variable fsched : schedule bf.
Variable senv : sparse_env K F bf.
Variables (jT : bf) (jZ : Z).
Variable sched : schedule (list bf).
Variable ssort : (Z * Z * bf -> Z * Z * bf -> bool) -> list (Z * Z * bf) -> list (Z * Z * bf).
Variable nt : Z.
Hypothesis Hw : wf_env denv.
Hypothesis Hf : valid_schedule fsched.
Variable blas : blas_gemm bf.
Hypothesis HB : keeps_promise (fops prec emax) computed blas.

Theorem C65_left_accurate : forall l opS opA d n m alpha (S : dense_skop K bf) ro co A lda beta B ldb a,
  dense_denotes cast denv S a ->
  in_matrix (dd_rows (ds_dist S)) (dd_cols (ds_dist S)) (rows_before opS d m) (cols_before opS d m) ro co ->
  (ds_buff S = None -> 1 <= d /\ 1 <= m) -> 0 <= n -> (m = 0 -> is_finite alpha = true) ->
  fits_buffer l lda (rows_before opA m n) (cols_before opA m n) (zlen A) -> fits_buffer l ldb d n (zlen B) ->
  exists B', sketch_general_left_with (fops prec emax) cast denv fsched senv jT jZ sched ssort nt blas l opS opA d n m alpha (SkDense S) ro co A lda beta B ldb = Ok (SkDense S, B') /\
    others_kept l d n B ldb B' /\
    forall i j c p, 0 <= i < d -> 0 <= j < n -> get B (addr l ldb i j) = Some c ->
    p = row_col (op_ent opS (win a ro co)) (op_ent opA (cell (fops prec emax) l lda A)) m i j ->
    exists y, get B' (addr l ldb i j) = Some y /\ finite_near alpha p beta c y /\ surely_near alpha p beta c y.
Proof using Hw Hf HB.
  intros l opS opA d n m alpha S ro co A lda beta B ldb a HD Hin Hne Hn Hm0 FA FB.
  destruct (C65_dense_left (fops prec emax) cast denv fsched senv jT jZ sched ssort nt Hw Hf computed blas HB l opS opA d n m alpha S ro co A lda beta B ldb a HD Hin Hne Hn FA FB) as (B' & E & HK & G).
  exists B'. split; [exact E|]. split; [exact HK|]. intros i j c p Hi Hj Gc ->. destruct (G i j c Hi Hj Gc) as (y & Gy & Cy). exists y. split; [exact Gy|]. apply computed_near; [exact Cy|].
  intros Hp. apply Hm0. destruct Hin as (I1 & I2 & _). assert (0 <= m) by (destruct opS; cbn [rows_before cols_before] in *; lia).
  apply (f_equal zlen) in Hp. unfold row_col in Hp. rewrite zlen_map, zlen_range in Hp by lia. cbn in Hp. lia.
Qed.
Theorem C65_right_accurate : forall l opA opS m d n alpha A lda (S : dense_skop K bf) ro co beta B ldb a,
  dense_denotes cast denv S a ->
  in_matrix (dd_rows (ds_dist S)) (dd_cols (ds_dist S)) (rows_before opS n d) (cols_before opS n d) ro co ->
  (ds_buff S = None -> 1 <= d /\ 1 <= n) -> 0 <= m -> (n = 0 -> is_finite alpha = true) ->
  fits_buffer l lda (rows_before opA m n) (cols_before opA m n) (zlen A) -> fits_buffer l ldb m d (zlen B) ->
  exists B', sketch_general_right_with (fops prec emax) cast denv fsched senv jT jZ sched ssort nt blas l opA opS m d n alpha A lda (SkDense S) ro co beta B ldb = Ok (SkDense S, B') /\
    others_kept l m d B ldb B' /\
    forall i j c p, 0 <= i < m -> 0 <= j < d -> get B (addr l ldb i j) = Some c ->
    p = row_col (op_ent opA (cell (fops prec emax) l lda A)) (op_ent opS (win a ro co)) n i j ->
    exists y, get B' (addr l ldb i j) = Some y /\ finite_near alpha p beta c y /\ surely_near alpha p beta c y.
Proof using Hw Hf HB.
  intros l opA opS m d n alpha A lda S ro co beta B ldb a HD Hin Hne Hm Hn0 FA FB.
  destruct (C65_dense_right (fops prec emax) cast denv fsched senv jT jZ sched ssort nt Hw Hf computed blas HB l opA opS m d n alpha A lda S ro co beta B ldb a HD Hin Hne Hm FA FB) as (B' & E & HK & G).
  exists B'. split; [exact E|]. split; [exact HK|]. intros i j c p Hi Hj Gc ->. destruct (G i j c Hi Hj Gc) as (y & Gy & Cy). exists y. split; [exact Gy|]. apply computed_near; [exact Cy|].
  intros Hp. apply Hn0. destruct Hin as (I1 & I2 & _). assert (0 <= n) by (destruct opS; cbn [rows_before cols_before] in *; lia).
  apply (f_equal zlen) in Hp. unfold row_col in Hp. rewrite zlen_map, zlen_range in Hp by lia. cbn in Hp. lia.
Qed.
End Accuracy.
Print Assumptions C65_any_order_accurate.
Print Assumptions C65_promise_kept.
Print Assumptions C65_left_accurate.
Print Assumptions C65_right_accurate.

(** Concrete case: rows 1-2 of the 3 x 4 uniform operator of C62 (not materialised, stored by
    rows), times a 4 x 2 matrix stored by columns, alpha = 3, beta = 1, ldb = 3.  Four BLAS
    implementations give three different results; all keep the promise. *)
Definition data : list b64 := map (fun z => div64 (of_Z64 z) (of_Z64 10)) [1; 2; 3; 4; 5; 6; 7; 8].
Definition c65_out (blas : blas_gemm b64) : option (list SpecFloat.spec_float) :=
  match sketch_general_left_with (fops 53 1024) to64 u_env seq_schedule f_senv B754_nan 0 seq_schedule isort 1 blas
    ColMajor NoTrans NoTrans 2 2 4 (of_Z64 3) (SkDense u_op) 1 0 data 4 (of_Z64 1) data 3 with Ok (_, B) => Some (map B2SF B) | _ => None end.
Definition c65_list (a b c d : SpecFloat.spec_float) : list SpecFloat.spec_float :=
  [a; b; SpecFloat.S754_finite false 5404319552844595 (-54); c; d; SpecFloat.S754_finite false 5404319552844595 (-53);
   SpecFloat.S754_finite false 6305039478318694 (-53); SpecFloat.S754_finite false 7205759403792794 (-53)].
Example C65_case :
  wf_env u_env /\ dense_denotes to64 u_env u_op u_ent /\ in_matrix 3 4 2 4 1 0 /\ fits_buffer ColMajor 4 4 2 (zlen data) /\ fits_buffer ColMajor 3 2 2 (zlen data) /\
  keeps_promise (fops 53 1024) computed (gemm_by (T := b64) reference_fma_entry) /\
  c65_out (gemm (fops 53 1024)) = Some (c65_list (SpecFloat.S754_finite true 7270430270633046 (-52)) (SpecFloat.S754_finite false 6821665287146449 (-51))
    (SpecFloat.S754_finite true 7020955219795687 (-51)) (SpecFloat.S754_finite false 7212675684641724 (-50))) /\
  c65_out (gemm_by reference_fma_entry) = Some (c65_list (SpecFloat.S754_finite true 7270430270633045 (-52)) (SpecFloat.S754_finite false 6821665287146448 (-51))
    (SpecFloat.S754_finite true 7020955219795687 (-51)) (SpecFloat.S754_finite false 7212675684641724 (-50))) /\
  c65_out (gemm_by backward_entry) = Some (c65_list (SpecFloat.S754_finite true 7270430270633046 (-52)) (SpecFloat.S754_finite false 6821665287146448 (-51))
    (SpecFloat.S754_finite true 7020955219795686 (-51)) (SpecFloat.S754_finite false 7212675684641725 (-50))).
Proof.
  split; [exact u_env_wf|]. split; [exact u_op_denotes|]. split; [unfold in_matrix; lia|].
  split; [split; [cbn; lia|intros i j Hi Hj; cbn; lia]|]. split; [split; [cbn; lia|intros i j Hi Hj; cbn; lia]|]. split; [apply C65_promise_kept|].
  split; [vm_compute; reflexivity|]. split; vm_compute; reflexivity.
Qed.
