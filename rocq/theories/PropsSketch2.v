(** Final theorems about sketching, continued: the calls outside the domains of the C44, C45
    and C46 theorems of PropsSketch.v have undefined behaviour.  The hypotheses are those of
    PropsSketch.v. *)
From Coq Require Import Permutation.
From Verif Require Import Base Interleave Spec RngModel DenseModel DenseSpec PropsDense SparseSkopModel SparseSpec SparseProofs2 PropsSparse
  SpFmtModel SpFmtSpec SpFmtProofs SpFmtProofs2 SpFmtProofs3 SpFmtProofs5 PropsSpFmt SpmmModel SpmmSpec PropsSpmm
  UtilModel UtilSpec UtilProofs SketchModel SketchSpec SketchSpec2 SketchProofs2 SketchProofs4 SketchProofs6 SketchProofs7 PropsSketch.

Section Sketching.
Context {K W F T : Type}.
Variable O : ops T.
Variable cast : W -> T.
Variable denv : dense_env K W T.
Variable senv : sparse_env K F T.
Hypothesis Hw : wf_env denv.
Variable fsched : schedule T.
Variables (jT : T) (jZ : Z).
Variable sched : schedule (list T).
Variable ssort : (Z * Z * T -> Z * Z * T -> bool) -> list (Z * Z * T) -> list (Z * Z * T).
Variable nt : Z.
Hypothesis Hf : valid_schedule fsched.
Hypothesis Hsort : sort_ok ssort.

(** The sparse operator that the call works with: S itself if materialised, a materialised
    copy otherwise. *)
Definition working (S S1 : sparse_skop K T) : Prop :=
  if ss_nnz S <? 0 then fill_sparse senv jT jZ (mk_sparse_skop senv (ss_dist S) (ss_seed S)) = Ok S1 else S1 = S.

(** * C44 *)
Theorem C44_other_windows_refuted : forall opS d m alpha (S S1 : sparse_skop K T) ro co x incx beta y incy,
  sparse_valid senv S -> working S S1 -> 1 <= incx -> 1 <= incy ->
  let d_ := rows_before opS d m in let m_ := cols_before opS d m in
  in_matrix (sd_rows (ss_dist S)) (sd_cols (ss_dist S)) d m ro co ->
  o_eqb O alpha (o_zero O) = false -> ~ sp_safe nt RowMajor opS NoTrans d_ 1 m_ (SpCoo (skop_coo S1)) ro co ->
  (forall k, 0 <= k < m_ -> k * incx < zlen x) -> (forall i, 0 <= i < d_ -> i * incy < zlen y) ->
  sketch_vector O cast denv fsched senv jT jZ sched ssort nt opS d m alpha (SkSparse S) ro co x incx beta y incy = UB.
Proof using Hsort.
  intros opS d m alpha S S1 ro co x incx beta y incy HV HS Hx Hy d_ m_ Hin Ea Hsp FX FY. unfold sketch_vector.
  replace (match opS with Trans => (m, d) | NoTrans => (d, m) end) with (d_, m_) by (unfold d_, m_; now destruct opS).
  cbn [sketch_general_left]. rewrite (C42_other_windows_refuted O senv jT jZ sched ssort nt Hsort RowMajor opS NoTrans d_ 1 m_ alpha S S1); auto; try lia.
  - unfold d_, m_. destruct opS; exact Hin.
  - now apply fits_vector.
  - now apply fits_vector.
Qed.

(** * C45 *)
Variable Q : cmp_ops T.
Theorem C45_other_windows_refuted : forall l n d alpha (S S1 : sparse_skop K T) ro co A lda beta B ldb tol,
  fits_buffer l lda n n (zlen A) -> ~ rejects O Q l A n lda tol ->
  sparse_valid senv S -> working S S1 -> o_eqb O alpha (o_zero O) = false ->
  (in_matrix (sd_rows (ss_dist S)) (sd_cols (ss_dist S)) d n ro co ->
   ~ sp_safe nt l NoTrans NoTrans d n n (SpCoo (skop_coo S1)) ro co -> fits_buffer l ldb d n (zlen B) ->
   sketch_symmetric_left O cast denv fsched senv jT jZ sched ssort nt Q l d n alpha (SkSparse S) ro co A lda beta B ldb tol = UB) /\
  (in_matrix (sd_rows (ss_dist S)) (sd_cols (ss_dist S)) n d ro co ->
   ~ sp_safe nt (flip l) Trans NoTrans d n n (SpCoo (skop_coo S1)) ro co -> fits_buffer l ldb n d (zlen B) ->
   sketch_symmetric_right O cast denv fsched senv jT jZ sched ssort nt Q l n d alpha A lda (SkSparse S) ro co beta B ldb tol = UB).
Proof using Hsort.
  intros l n d alpha S S1 ro co A lda beta B ldb tol FA HR HV HS Ea. split; intros Hin Hsp FB.
  - unfold sketch_symmetric_left. rewrite accepted_ok by auto. cbn [sketch_general_left]. pose proof Hin as (_ & Hn & _).
    rewrite (C42_other_windows_refuted O senv jT jZ sched ssort nt Hsort l NoTrans NoTrans d n n alpha S S1); auto.
  - unfold sketch_symmetric_right. rewrite accepted_ok by auto. cbn [sketch_general_right]. pose proof Hin as (Hn & _).
    rewrite (C43_other_windows_refuted O senv jT jZ sched ssort nt Hsort l NoTrans NoTrans n d n alpha A lda S S1); auto.
Qed.

(** * C46 *)
Theorem C46_overrun_refuted : forall l opS opA d n m alpha (S : dense_skop K T) ro co A ro_a co_a beta B ldb a,
  dense_denotes cast denv S a -> valid_sp A -> sp_base A = BZero -> o_eqb O alpha (o_zero O) = false ->
  (in_matrix (dd_rows (ds_dist S)) (dd_cols (ds_dist S)) (rows_before opS d m) (cols_before opS d m) ro co ->
   (ds_buff S = None -> 1 <= d /\ 1 <= m) -> 0 <= n ->
   sp_window A (rows_before opA m n) (cols_before opA m n) ro_a co_a -> fits_buffer l ldb d n (zlen B) ->
   overruns nt (flip l) (flip_op opA) (if layout_eqb (ds_layout S) l then opS else flip_op opS) n d m A ro_a co_a ->
   lsksp3 O cast denv fsched sched ssort nt l opS opA d n m alpha S ro co A ro_a co_a beta B ldb = UB) /\
  (in_matrix (dd_rows (ds_dist S)) (dd_cols (ds_dist S)) (rows_before opS m d) (cols_before opS m d) ro co ->
   (ds_buff S = None -> 1 <= m /\ 1 <= d) -> 0 <= n ->
   sp_window A (rows_before opA n m) (cols_before opA n m) ro_a co_a -> fits_buffer l ldb n d (zlen B) ->
   overruns nt l opA (if layout_eqb (ds_layout S) l then opS else flip_op opS) n d m A ro_a co_a ->
   rsksp3 O cast denv fsched sched ssort nt l opA opS n d m alpha A ro_a co_a S ro co beta B ldb = UB).
Proof using Hw Hf Hsort.
  intros l opS opA d n m alpha S ro co A ro_a co_a beta B ldb a HD HA Hb Ea. split; intros.
  - eapply lsksp3_UB; eauto.
  - eapply rsksp3_UB; eauto.
Qed.
(** The public functions, which use all of A. *)
Theorem C46_sketch_sparse_overrun_refuted : forall l opS opA d n m alpha (S : dense_skop K T) ro co A beta B ldb a,
  dense_denotes cast denv S a -> valid_sp A -> sp_base A = BZero -> o_eqb O alpha (o_zero O) = false ->
  (in_matrix (dd_rows (ds_dist S)) (dd_cols (ds_dist S)) (rows_before opS d m) (cols_before opS d m) ro co ->
   (ds_buff S = None -> 1 <= d /\ 1 <= m) -> 0 <= n ->
   sp_window A (rows_before opA m n) (cols_before opA m n) 0 0 -> fits_buffer l ldb d n (zlen B) ->
   overruns nt (flip l) (flip_op opA) (if layout_eqb (ds_layout S) l then opS else flip_op opS) n d m A 0 0 ->
   sketch_sparse_left O cast denv fsched sched ssort nt l opS opA d n m alpha S ro co A beta B ldb = UB) /\
  (in_matrix (dd_rows (ds_dist S)) (dd_cols (ds_dist S)) (rows_before opS m d) (cols_before opS m d) ro co ->
   (ds_buff S = None -> 1 <= m /\ 1 <= d) -> 0 <= n ->
   sp_window A (rows_before opA n m) (cols_before opA n m) 0 0 -> fits_buffer l ldb n d (zlen B) ->
   overruns nt l opA (if layout_eqb (ds_layout S) l then opS else flip_op opS) n d m A 0 0 ->
   sketch_sparse_right O cast denv fsched sched ssort nt l opA opS n d m alpha A S ro co beta B ldb = UB).
Proof using Hw Hf Hsort. intros. eapply C46_overrun_refuted; eauto. Qed.
End Sketching.
Print Assumptions C44_other_windows_refuted.
Print Assumptions C45_other_windows_refuted.
Print Assumptions C46_overrun_refuted.
Print Assumptions C46_sketch_sparse_overrun_refuted.

(** The 1 x 2 operator of C42_first_column_refuted, whose only entry is in the first column,
    applied to a vector and to a symmetric 2 x 2 matrix. *)
Example C44_C45_overrun_case :
  let S := sp_op 1 2 1 Long 10 0 in
  sparse_valid toy_senv S /\ working toy_senv 7 7 S (fill_of S) /\ in_matrix 1 2 1 2 0 0 /\
  ~ sp_safe 1 RowMajor NoTrans NoTrans 1 1 2 (SpCoo (skop_coo (fill_of S))) 0 0 /\
  sketch_vector zops idZ toy_env zfs toy_senv 7 7 zsched isort 1 NoTrans 1 2 1 (SkSparse S) 0 0 [1; 10] 1 1 [5] 1 = UB /\
  ~ rejects zops zcmp ColMajor [1; 2; 2; 3] 2 2 0 /\
  ~ sp_safe 1 ColMajor NoTrans NoTrans 1 2 2 (SpCoo (skop_coo (fill_of S))) 0 0 /\
  sketch_symmetric_left zops idZ toy_env zfs toy_senv 7 7 zsched isort 1 zcmp ColMajor 1 2 1 (SkSparse S) 0 0 [1; 2; 2; 3] 2 1 [5; 6] 1 0 = UB.
Proof.
  cbn zeta.
  assert (sparse_valid toy_senv (sp_op 1 2 1 Long 10 0)) as V.
  { unfold sparse_valid. replace (ss_nnz (sp_op 1 2 1 Long 10 0) <? 0) with true by reflexivity.
    split; [apply toy_senv_wf|]. split; [reflexivity|]. split; [vm_compute; repeat split; discriminate|]. split; [vm_compute; split; [discriminate|reflexivity]|].
    intros _ i t Hi Ht. change (Z.min (sd_rows (ss_dist (sp_op 1 2 1 Long 10 0))) (sd_cols (ss_dist (sp_op 1 2 1 Long 10 0)))) with 1 in Hi. change (sd_vec_nnz (ss_dist (sp_op 1 2 1 Long 10 0))) with 1 in Ht.
    assert (i = 0) as -> by lia. assert (t = 0) as -> by lia. vm_compute. split; [discriminate|reflexivity]. }
  assert (forall l opB n, 1 <= n -> ~ sp_safe 1 l NoTrans opB 1 n 2 (SpCoo (skop_coo (fill_of (sp_op 1 2 1 Long 10 0)))) 0 0) as NS.
  { intros l opB n Hn [H|[H|[H|[_ [(r & c & v & Hin & Hwin)|H]]]]]; try (clear - H Hn; lia); try (clear - H; destruct H; lia).
    - vm_compute in Hin. destruct Hin as [E|[]]. injection E as <- <- <-. discriminate.
    - vm_compute in H. now apply H. }
  split; [exact V|]. split; [vm_compute; reflexivity|]. split; [unfold in_matrix; lia|]. split; [apply NS; lia|]. split; [vm_compute; reflexivity|].
  split; [|split; [apply NS; lia|vm_compute; reflexivity]].
  intros H. apply (require_symmetric_spec zops zcmp) in H; [|apply fits_check_ok; reflexivity]. vm_compute in H. discriminate.
Qed.

(** [[4 0],[0 0]] in column-compressed and in coordinate format times a 2 x 3 window of the
    dense operator S57. *)
Example C46_overrun_case :
  let A := SpCsc (Build_csc_matrix 2 2 false 1 BZero (Some [4]) (Some [0]) (Some [0; 1; 1])) in
  let A' := SpCoo (Build_coo_matrix 2 2 false 1 BZero (Some [4]) (Some [0]) (Some [0]) SNone) in
  valid_sp A /\ valid_sp A' /\ sp_window A 2 2 0 0 /\ sp_window A' 2 2 0 0 /\ in_matrix 5 7 2 3 1 4 /\
  overruns 1 ColMajor NoTrans Trans 2 3 2 A 0 0 /\ overruns 1 ColMajor NoTrans Trans 2 3 2 A' 0 0 /\
  sketch_sparse_right zops idZ toy_env zfs zsched isort 1 ColMajor NoTrans NoTrans 2 3 2 1 A S57 1 4 0 [0; 0; 0; 0; 0; 0] 2 = UB /\
  sketch_sparse_right zops idZ toy_env zfs zsched isort 1 ColMajor NoTrans NoTrans 2 3 2 1 A' S57 1 4 0 [0; 0; 0; 0; 0; 0] 2 = UB.
Proof.
  cbn zeta. split; [apply valid_csc_check; reflexivity|]. split; [split; [apply valid_coo_check; reflexivity|exact I]|].
  split; [unfold sp_window; cbn; lia|]. split; [unfold sp_window; cbn; lia|]. split; [unfold in_matrix; lia|].
  split; [cbn; repeat split; lia|]. split; [|split; vm_compute; reflexivity].
  intros [H|[H|[H|[_ [(r & c & v & Hin & Hwin)|H]]]]]; try (clear - H; lia); try (clear - H; destruct H; lia).
  - vm_compute in Hin. destruct Hin as [E|[]]. injection E as <- <- <-. discriminate.
  - vm_compute in H. now apply H.
Qed.
