(** Sparse data and vectors: the calls outside the domain of C44, C45 and C46. *)
From Coq Require Import Permutation.
From Verif Require Import Base Interleave Spec RngModel DenseModel DenseSpec SparseSkopModel SparseSpec SparseProofs SparseProofs2 PropsSparse
  SpFmtModel SpFmtSpec SpFmtProofs SpmmModel SpmmSpec SpmmProofs SpmmProofs5 SpmmProofs6 SpmmProofs7 PropsSpmm
  SketchModel SketchSpec SketchSpec2 SketchProofs SketchProofs2 SketchProofs3 SketchProofs6.

Section Overrun.
  Context {K W T : Type} (O : ops T).
  Notation zero := (o_zero O).
  Variable cast : W -> T.
  Variable denv : dense_env K W T.
  Variable fsched : schedule T.
  Variable sched : schedule (list T).
  Variable ssort : (Z * Z * T -> Z * Z * T -> bool) -> list (Z * Z * T) -> list (Z * Z * T).
  Variable nt : Z.
  Hypothesis Hsort : sort_ok ssort.
  
  (** The sparse operand op(A), d x m, against n columns. *)
  Lemma left_overrun l opA opB d n m alpha A ro co B ldb beta C ldc :
    valid_sp A -> sp_base A = BZero -> window_ok A (rows_before opA d m) (cols_before opA d m) ro co -> 0 <= d -> 0 <= n -> 0 <= m ->
    o_eqb O alpha zero = false -> overruns nt l opA opB d n m A ro co ->
    fits_buffer l ldb (rows_before opB m n) (cols_before opB m n) (zlen B) -> fits_buffer l ldc d n (zlen C) ->
    left_spmm O sched ssort nt nt l opA opB d n m alpha A ro co B ldb beta C ldc = UB.
  Proof.
    intros HA Hb Hw Hd Hn Hm Ea HO FB FC. destruct A as [M|M|M].
    - destruct HA as [HA Hh]. destruct Hw as [W1 W2]. cbn [sp_base] in Hb. unfold overruns in HO. now apply left_coo_UB.
    - destruct Hw as (W1 & W2 & -> & ->). cbn [sp_rows sp_cols sp_base valid_sp] in *. destruct opA; cbn [overruns] in HO; [contradiction|].
      destruct HO as (E & H1 & H2 & H3 & H4 & H5). cbn [rows_before cols_before] in *. now apply C33_transposed_refuted.
    - destruct Hw as (W1 & W2 & -> & ->). cbn [sp_rows sp_cols sp_base valid_sp] in *. destruct opA; cbn [overruns] in HO; [|contradiction].
      destruct HO as (E & H1 & H2 & H3 & H4 & H5). cbn [rows_before cols_before] in *. now apply C34_first_column_refuted.
  Qed.

  Lemma lsksp3_buff_UB l opS opA d n m alpha S ro co A ro_a co_a beta B ldb a :
    operand S (rows_before opS d m) (cols_before opS d m) ro co a -> 0 <= n ->
    valid_sp A -> sp_base A = BZero -> sp_window A (rows_before opA m n) (cols_before opA m n) ro_a co_a ->
    o_eqb O alpha zero = false ->
    overruns nt (flip l) (flip_op opA) (if layout_eqb (bo_layout S) l then opS else flip_op opS) n d m A ro_a co_a ->
    fits_buffer l ldb d n (zlen B) ->
    lsksp3_buff O sched ssort nt l opS opA d n m alpha S ro co A ro_a co_a beta B ldb = UB.
  Proof.
    intros (Hin & HL & HG) Hn HA Hb Hw Ea Hov FB. unfold lsksp3_buff. rewrite !dims_eq, sp_dims_eq. cbn [fst snd].
    pose proof Hin as (I1 & I2 & I3 & I4 & I5 & I6). pose proof Hw as (W1 & W2 & W3 & W4 & _).
    assert (0 <= d /\ 0 <= m) as [Hd Hm] by (destruct opS; cbn [rows_before cols_before] in *; lia).
    replace (sp_rows A >=? rows_before opA m n + ro_a) with true by lia.
    replace (sp_cols A >=? cols_before opA m n + co_a) with true by lia.
    replace (bo_rows S >=? rows_before opS d m + ro) with true by lia.
    replace (bo_cols S >=? cols_before opS d m + co) with true by lia. rewrite !require_true. cbn [bind].
    pose proof (proj1 FB) as FB1.
    replace (match l with ColMajor => ldb >=? d | RowMajor => ldb >=? n end) with true by (destruct l; cbn [min_ld] in *; lia).
    rewrite !require_true. cbn [bind]. destruct (window_spec O _ _ _ ro co _ _ (bo_buff S) a Hin HL HG) as (t & Et & Ft & Gt).
    destruct (offset_and_ldim (bo_layout S) (bo_rows S) (bo_cols S) ro co) as [pos lds]. cbn [fst snd] in *. rewrite Et. cbn [bind].
    destruct (layout_op O (bo_layout S) l opS lds d m t Ft) as [Fo Go]. set (o' := if layout_eqb (bo_layout S) l then opS else flip_op opS) in *. clearbody o'.
    unfold right_spmm. apply left_overrun; auto.
    - rewrite flip_op_rows, flip_op_cols. now apply sp_window_ok.
    - apply fits_flip in Fo. destruct o'; exact Fo.
    - apply fits_flip in FB. exact FB.
  Qed.

  Lemma rsksp3_buff_UB l opA opS m d n alpha A ro_a co_a S ro co beta B ldb a :
    operand S (rows_before opS n d) (cols_before opS n d) ro co a -> 0 <= m ->
    valid_sp A -> sp_base A = BZero -> sp_window A (rows_before opA m n) (cols_before opA m n) ro_a co_a ->
    o_eqb O alpha zero = false ->
    overruns nt l opA (if layout_eqb (bo_layout S) l then opS else flip_op opS) m d n A ro_a co_a ->
    fits_buffer l ldb m d (zlen B) ->
    rsksp3_buff O sched ssort nt l opA opS m d n alpha A ro_a co_a S ro co beta B ldb = UB.
  Proof.
    intros (Hin & HL & HG) Hm HA Hb Hw Ea Hov FB. unfold rsksp3_buff. rewrite !dims_eq, sp_dims_eq. cbn [fst snd].
    pose proof Hin as (I1 & I2 & I3 & I4 & I5 & I6). pose proof Hw as (W1 & W2 & W3 & W4 & _).
    assert (0 <= d /\ 0 <= n) as [Hd Hn] by (destruct opS; cbn [rows_before cols_before] in *; lia).
    replace (sp_rows A >=? rows_before opA m n + ro_a) with true by lia.
    replace (sp_cols A >=? cols_before opA m n + co_a) with true by lia.
    replace (bo_rows S >=? rows_before opS n d + ro) with true by lia.
    replace (bo_cols S >=? cols_before opS n d + co) with true by lia. rewrite !require_true. cbn [bind].
    pose proof (proj1 FB) as FB1.
    replace (match l with ColMajor => ldb >=? m | RowMajor => ldb >=? d end) with true by (destruct l; cbn [min_ld] in *; lia).
    rewrite !require_true. cbn [bind]. destruct (window_spec O _ _ _ ro co _ _ (bo_buff S) a Hin HL HG) as (t & Et & Ft & Gt).
    destruct (offset_and_ldim (bo_layout S) (bo_rows S) (bo_cols S) ro co) as [pos lds]. cbn [fst snd] in *. rewrite Et. cbn [bind].
    destruct (layout_op O (bo_layout S) l opS lds n d t Ft) as [Fo Go]. set (o' := if layout_eqb (bo_layout S) l then opS else flip_op opS) in *. clearbody o'.
    apply left_overrun; auto. now apply sp_window_ok.
  Qed.

  Lemma lsksp3_UB l opS opA d n m alpha S ro co A ro_a co_a beta B ldb a :
    valid_schedule fsched -> wf_env denv -> dense_denotes cast denv S a ->
    in_matrix (dd_rows (ds_dist S)) (dd_cols (ds_dist S)) (rows_before opS d m) (cols_before opS d m) ro co ->
    (ds_buff S = None -> 1 <= d /\ 1 <= m) -> 0 <= n ->
    valid_sp A -> sp_base A = BZero -> sp_window A (rows_before opA m n) (cols_before opA m n) ro_a co_a ->
    o_eqb O alpha zero = false ->
    overruns nt (flip l) (flip_op opA) (if layout_eqb (ds_layout S) l then opS else flip_op opS) n d m A ro_a co_a ->
    fits_buffer l ldb d n (zlen B) ->
    lsksp3 O cast denv fsched sched ssort nt l opS opA d n m alpha S ro co A ro_a co_a beta B ldb = UB.
  Proof.
    intros Hs Hw HD Hin Hne Hn HA Hb Hwin Ea Hov FB. unfold lsksp3. rewrite dims_eq.
    pose proof (dense_operand cast denv fsched S a _ _ ro co Hs Hw HD Hin) as HO. destruct (ds_buff S) as [b|].
    - eapply lsksp3_buff_UB; eauto. apply HO. discriminate.
    - destruct HO as (Bk & E & HO). { intros _. specialize (Hne eq_refl). destruct opS; cbn [rows_before cols_before]; lia. }
      assert (bo_layout Bk = ds_layout S) as El.
      { clear - E. unfold submatrix_as_blackbox in E. repeat (apply bind_Ok in E as (? & _ & E)). destruct x2 as [? ?]. injection E as <-. reflexivity. }
      rewrite E. cbn [bind]. eapply lsksp3_buff_UB; eauto. now rewrite El.
  Qed.

  Lemma rsksp3_UB l opA opS m d n alpha A ro_a co_a S ro co beta B ldb a :
    valid_schedule fsched -> wf_env denv -> dense_denotes cast denv S a ->
    in_matrix (dd_rows (ds_dist S)) (dd_cols (ds_dist S)) (rows_before opS n d) (cols_before opS n d) ro co ->
    (ds_buff S = None -> 1 <= n /\ 1 <= d) -> 0 <= m ->
    valid_sp A -> sp_base A = BZero -> sp_window A (rows_before opA m n) (cols_before opA m n) ro_a co_a ->
    o_eqb O alpha zero = false ->
    overruns nt l opA (if layout_eqb (ds_layout S) l then opS else flip_op opS) m d n A ro_a co_a ->
    fits_buffer l ldb m d (zlen B) ->
    rsksp3 O cast denv fsched sched ssort nt l opA opS m d n alpha A ro_a co_a S ro co beta B ldb = UB.
  Proof.
    intros Hs Hw HD Hin Hne Hn HA Hb Hwin Ea Hov FB. unfold rsksp3. rewrite dims_eq.
    pose proof (dense_operand cast denv fsched S a _ _ ro co Hs Hw HD Hin) as HO. destruct (ds_buff S) as [b|].
    - eapply rsksp3_buff_UB; eauto. apply HO. discriminate.
    - destruct HO as (Bk & E & HO). { intros _. specialize (Hne eq_refl). destruct opS; cbn [rows_before cols_before]; lia. }
      assert (bo_layout Bk = ds_layout S) as El.
      { clear - E. unfold submatrix_as_blackbox in E. repeat (apply bind_Ok in E as (? & _ & E)). destruct x2 as [? ?]. injection E as <-. reflexivity. }
      rewrite E. cbn [bind]. eapply rsksp3_buff_UB; eauto. now rewrite El.
  Qed.
End Overrun.
