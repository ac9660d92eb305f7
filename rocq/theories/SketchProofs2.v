(** Windows of dense operators; the four drivers with dense operators. *)
From Verif Require Import Base Interleave Spec RngModel DenseModel DenseSpec DenseProofs DenseProofs2 DenseProofs3 SparseSkopModel SparseSpec SpFmtModel SpFmtSpec SpmmModel SpmmSpec SpmmProofs SpmmProofs5 PropsSpmm UtilModel SketchModel SketchSpec LoopProofs SketchProofs.

Lemma window_spec {T} (O : ops T) l R C ro co r c (b : list T) a :
  in_matrix R C r c ro co -> R * C <= zlen b ->
  (forall i j, 0 <= i < R -> 0 <= j < C -> mat l (min_ld l R C) 0 b i j = Some (a i j)) ->
  exists t, tail_at b (fst (offset_and_ldim l R C ro co)) = Ok t /\
    fits_buffer l (snd (offset_and_ldim l R C ro co)) r c (zlen t) /\
    (forall i j, 0 <= i < r -> 0 <= j < c -> cell O l (snd (offset_and_ldim l R C ro co)) t i j = win a ro co i j).
Proof.
  intros (H1 & H2 & H3 & H4 & H5 & H6) Lb G. set (pos := fst _). set (ld := snd _).
  assert (ld = min_ld l R C) as El by (subst ld; destruct l; reflexivity).
  assert (pos = addr l ld ro co) as Ep by (subst pos; rewrite El; destruct l; cbn [offset_and_ldim fst addr min_ld]; lia).
  assert (0 <= pos < zlen b) as Hp.
  { rewrite Ep, El. clear - H3 H4 Lb. destruct l; cbn [addr min_ld]; nia. }
  clearbody pos ld.
  exists (skipn (Z.to_nat pos) b). unfold tail_at. replace ((0 <=? pos) && (pos <=? zlen b)) with true by lia. split; [reflexivity|].
  assert (zlen (skipn (Z.to_nat pos) b) = zlen b - pos) as Lt. { unfold zlen in *. rewrite skipn_length. lia. }
  assert (forall i j, addr l ld (ro + i) (co + j) = addr l ld i j + pos) as Ea. { intros i j. rewrite Ep. clear. destruct l; cbn [addr]; lia. }
  split.
  - split; [rewrite El; destruct l; cbn [min_ld]; lia|]. intros i j Hi Hj. rewrite Lt.
    assert (addr l ld (ro + i) (co + j) < zlen b) as Hb; [|rewrite Ea in Hb; lia].
    rewrite El. assert (0 <= ro + i < R /\ 0 <= co + j < C) as [I1 I2] by lia. clear - I1 I2 Lb. destruct l; cbn [addr min_ld]; nia.
  - intros i j Hi Hj. unfold cell, win. rewrite get_skipn.
    + replace (addr l ld i j + Z.of_nat (Z.to_nat pos)) with (addr l ld (ro + i) (co + j)) by (rewrite Ea; lia).
      specialize (G (ro + i) (co + j) ltac:(lia) ltac:(lia)). unfold mat in G. rewrite Z.add_0_l, <- El in G. now rewrite G.
    + apply addr_nonneg; [rewrite El; destruct l; cbn [min_ld]; lia|lia|lia].
Qed.

Lemma cell_flip {T} (O : ops T) l ld (t : list T) i j : cell O (flip l) ld t i j = cell O l ld t j i.
Proof. unfold cell. replace (addr (flip l) ld i j) with (addr l ld j i) by (destruct l; cbn [addr flip]; lia). reflexivity. Qed.
(** Reading in the other layout flips op. *)
Lemma layout_op {T} (O : ops T) lS l o ld d m (t : list T) :
  fits_buffer lS ld (rows_before o d m) (cols_before o d m) (zlen t) ->
  let o' := if layout_eqb lS l then o else flip_op o in
  fits_buffer l ld (rows_before o' d m) (cols_before o' d m) (zlen t) /\
  (forall i j, op_ent o' (cell O l ld t) i j = op_ent o (cell O lS ld t) i j).
Proof.
  intros F. destruct (layout_eqb lS l) eqn:E.
  - apply layout_eqb_eq in E. subst lS. auto.
  - assert (l = flip lS) as -> by (destruct lS, l; try discriminate; reflexivity). split.
    + apply fits_flip. destruct o; exact F.
    + intros i j. destruct o; cbn [flip_op op_ent]; apply cell_flip.
Qed.

Section DenseOperand.
  Context {K W T : Type}.
  Variable O : ops T.
  Hypothesis L : semiring O.
  Variable cast : W -> T.
  Variable denv : dense_env K W T.
  Variable fsched : schedule T.
  Notation add := (o_add O). Notation mul := (o_mul O). Notation zero := (o_zero O).

  (** What the drivers with a nonnull buffer need of their operand. *)
  Definition operand (S : blas_op T) (r c ro co : Z) (a : Z -> Z -> T) : Prop :=
    in_matrix (bo_rows S) (bo_cols S) r c ro co /\ bo_rows S * bo_cols S <= zlen (bo_buff S) /\
    (forall i j, 0 <= i < bo_rows S -> 0 <= j < bo_cols S ->
      mat (bo_layout S) (min_ld (bo_layout S) (bo_rows S) (bo_cols S)) 0 (bo_buff S) i j = Some (a i j)).

  Lemma blackbox_dims sched (S : dense_skop K T) r c ro co B : submatrix_as_blackbox cast denv sched S r c ro co = Ok B -> bo_rows B = r /\ bo_cols B = c.
  Proof.
    unfold submatrix_as_blackbox. intros H. repeat (apply bind_Ok in H as (? & _ & H)). destruct x2 as [? ?]. injection H as <-. auto.
  Qed.

  (** Either branch of a driver applies the core to an operand holding the right window. *)
  Lemma dense_operand (S : dense_skop K T) a r c ro co :
    valid_schedule fsched -> wf_env denv -> dense_denotes cast denv S a -> in_matrix (dd_rows (ds_dist S)) (dd_cols (ds_dist S)) r c ro co ->
    (ds_buff S = None -> 1 <= r /\ 1 <= c) ->
    match ds_buff S with
    | Some b => operand (dense_view S b) r c ro co a
    | None => exists B, submatrix_as_blackbox cast denv fsched S r c ro co = Ok B /\ operand B r c 0 0 (win a ro co)
    end.
  Proof.
    intros Hs Hw HD Hin Hne. unfold dense_denotes in HD. destruct (ds_buff S) as [b|].
    - destruct HD as [HL HG]. split; [exact Hin|]. split; [exact HL|exact HG].
    - destruct HD as (V & Sz & HG). specialize (Hne eq_refl). destruct Hin as (H1 & H2 & H3 & H4 & H5 & H6).
      destruct (blackbox_spec cast denv fsched (ds_dist S) (ds_seed S) S r c ro co Hs Hw V Sz eq_refl eq_refl) as (B & E & _ & LB & G); try lia.
      exists B. split; [exact E|]. destruct (blackbox_dims _ _ _ _ _ _ _ E) as [E1 E2]. unfold operand. rewrite E1, E2.
      split; [unfold in_matrix; lia|]. split; [lia|]. intros i j Hi Hj. rewrite G by lia. unfold win. apply HG; lia.
  Qed.

  Lemma win_0 {A} (a : Z -> Z -> A) i j : win a 0 0 i j = a i j. Proof. unfold win. f_equal; lia. Qed.

  Lemma dims_eq o d m : dims_before_op d m o = (rows_before o d m, cols_before o d m). Proof. destruct o; reflexivity. Qed.

  Lemma lskge3_buff_spec l opS opA d n m alpha S ro co A lda beta B ldb a :
    operand S (rows_before opS d m) (cols_before opS d m) ro co a -> 0 <= n ->
    fits_buffer l lda (rows_before opA m n) (cols_before opA m n) (zlen A) -> fits_buffer l ldb d n (zlen B) ->
    exists B', lskge3_buff O l opS opA d n m alpha S ro co A lda beta B ldb = Ok B' /\
      gemm_result O l d n m alpha beta (op_ent opS (win a ro co)) (op_ent opA (cell O l lda A)) B ldb B'.
  Proof.
    intros (Hin & HL & HG) Hn FA FB. unfold lskge3_buff. rewrite !dims_eq.
    pose proof Hin as (I1 & I2 & I3 & I4 & I5 & I6).
    assert (0 <= d /\ 0 <= m) as [Hd Hm] by (destruct opS; cbn [rows_before cols_before] in *; lia).
    replace (bo_rows S >=? rows_before opS d m + ro) with true by lia.
    replace (bo_cols S >=? cols_before opS d m + co) with true by lia. rewrite !require_true. cbn [bind].
    pose proof (proj1 FA) as FA1. pose proof (proj1 FB) as FB1.
    replace (match l with ColMajor => req (lda >=? rows_before opA m n) ;; req (ldb >=? d) ;; Ok tt
             | RowMajor => req (lda >=? cols_before opA m n) ;; req (ldb >=? n) ;; Ok tt end) with (Ok tt).
    2:{ destruct l; cbn [min_ld] in *.
        - replace (lda >=? rows_before opA m n) with true by lia. replace (ldb >=? d) with true by lia. reflexivity.
        - replace (lda >=? cols_before opA m n) with true by lia. replace (ldb >=? n) with true by lia. reflexivity. }
    cbn [bind]. destruct (window_spec O _ _ _ ro co _ _ (bo_buff S) a Hin HL HG) as (t & Et & Ft & Gt).
    destruct (offset_and_ldim (bo_layout S) (bo_rows S) (bo_cols S) ro co) as [pos lds]. cbn [fst snd] in *. rewrite Et. cbn [bind].
    destruct (layout_op O (bo_layout S) l opS lds d m t Ft) as [Fo Go]. set (o' := if layout_eqb (bo_layout S) l then opS else flip_op opS) in *. clearbody o'.
    destruct (gemm_spec O L l o' opA d n m alpha t lds A lda beta B ldb Hd Hn Hm Fo FA FB) as (B' & E & G).
    exists B'. split; [exact E|]. refine (gemm_ext O l d n m alpha beta _ _ _ _ B ldb B' _ _ G); [|auto].
    intros i k Hi Hk. rewrite Go. destruct opS; cbn [op_ent rows_before cols_before] in *; apply Gt; lia.
  Qed.

  Lemma rskge3_buff_spec l opA opS m d n alpha A lda S ro co beta B ldb a :
    operand S (rows_before opS n d) (cols_before opS n d) ro co a -> 0 <= m ->
    fits_buffer l lda (rows_before opA m n) (cols_before opA m n) (zlen A) -> fits_buffer l ldb m d (zlen B) ->
    exists B', rskge3_buff O l opA opS m d n alpha A lda S ro co beta B ldb = Ok B' /\
      gemm_result O l m d n alpha beta (op_ent opA (cell O l lda A)) (op_ent opS (win a ro co)) B ldb B'.
  Proof.
    intros (Hin & HL & HG) Hm FA FB. unfold rskge3_buff. rewrite !dims_eq.
    pose proof Hin as (I1 & I2 & I3 & I4 & I5 & I6).
    assert (0 <= d /\ 0 <= n) as [Hd Hn] by (destruct opS; cbn [rows_before cols_before] in *; lia).
    replace (bo_rows S >=? rows_before opS n d + ro) with true by lia.
    replace (bo_cols S >=? cols_before opS n d + co) with true by lia. rewrite !require_true. cbn [bind].
    pose proof (proj1 FA) as FA1. pose proof (proj1 FB) as FB1.
    replace (match l with ColMajor => req (lda >=? rows_before opA m n) ;; req (ldb >=? m) ;; Ok tt
             | RowMajor => req (lda >=? cols_before opA m n) ;; req (ldb >=? d) ;; Ok tt end) with (Ok tt).
    2:{ destruct l; cbn [min_ld] in *.
        - replace (lda >=? rows_before opA m n) with true by lia. replace (ldb >=? m) with true by lia. reflexivity.
        - replace (lda >=? cols_before opA m n) with true by lia. replace (ldb >=? d) with true by lia. reflexivity. }
    cbn [bind]. destruct (window_spec O _ _ _ ro co _ _ (bo_buff S) a Hin HL HG) as (t & Et & Ft & Gt).
    destruct (offset_and_ldim (bo_layout S) (bo_rows S) (bo_cols S) ro co) as [pos lds]. cbn [fst snd] in *. rewrite Et. cbn [bind].
    destruct (layout_op O (bo_layout S) l opS lds n d t Ft) as [Fo Go]. set (o' := if layout_eqb (bo_layout S) l then opS else flip_op opS) in *. clearbody o'.
    destruct (gemm_spec O L l opA o' m d n alpha A lda t lds beta B ldb Hm Hd Hn FA Fo FB) as (B' & E & G).
    exists B'. split; [exact E|]. refine (gemm_ext O l m d n alpha beta _ _ _ _ B ldb B' _ _ G); [auto|].
    intros k j Hk Hj. rewrite Go. destruct opS; cbn [op_ent rows_before cols_before] in *; apply Gt; lia.
  Qed.

  Lemma lskge3_spec l opS opA d n m alpha S ro co A lda beta B ldb a :
    valid_schedule fsched -> wf_env denv -> dense_denotes cast denv S a ->
    in_matrix (dd_rows (ds_dist S)) (dd_cols (ds_dist S)) (rows_before opS d m) (cols_before opS d m) ro co ->
    (ds_buff S = None -> 1 <= d /\ 1 <= m) -> 0 <= n ->
    fits_buffer l lda (rows_before opA m n) (cols_before opA m n) (zlen A) -> fits_buffer l ldb d n (zlen B) ->
    exists B', lskge3 O cast denv fsched l opS opA d n m alpha S ro co A lda beta B ldb = Ok B' /\
      gemm_result O l d n m alpha beta (op_ent opS (win a ro co)) (op_ent opA (cell O l lda A)) B ldb B'.
  Proof.
    intros Hs Hw HD Hin Hne Hn FA FB. unfold lskge3. rewrite dims_eq.
    pose proof (dense_operand S a _ _ ro co Hs Hw HD Hin) as HO. destruct (ds_buff S) as [b|].
    - apply lskge3_buff_spec; auto. apply HO. discriminate.
    - destruct HO as (Bk & E & HO). { intros _. specialize (Hne eq_refl). destruct opS; cbn [rows_before cols_before]; lia. }
      rewrite E. cbn [bind]. destruct (lskge3_buff_spec l opS opA d n m alpha Bk 0 0 A lda beta B ldb (win a ro co) HO Hn FA FB) as (B' & E' & G).
      exists B'. split; [exact E'|]. refine (gemm_ext O l d n m alpha beta _ _ _ _ B ldb B' _ _ G); [|auto].
      intros i k _ _. destruct opS; cbn [op_ent]; apply win_0.
  Qed.

  Lemma rskge3_spec l opA opS m d n alpha A lda S ro co beta B ldb a :
    valid_schedule fsched -> wf_env denv -> dense_denotes cast denv S a ->
    in_matrix (dd_rows (ds_dist S)) (dd_cols (ds_dist S)) (rows_before opS n d) (cols_before opS n d) ro co ->
    (ds_buff S = None -> 1 <= n /\ 1 <= d) -> 0 <= m ->
    fits_buffer l lda (rows_before opA m n) (cols_before opA m n) (zlen A) -> fits_buffer l ldb m d (zlen B) ->
    exists B', rskge3 O cast denv fsched l opA opS m d n alpha A lda S ro co beta B ldb = Ok B' /\
      gemm_result O l m d n alpha beta (op_ent opA (cell O l lda A)) (op_ent opS (win a ro co)) B ldb B'.
  Proof.
    intros Hs Hw HD Hin Hne Hm FA FB. unfold rskge3. rewrite dims_eq.
    pose proof (dense_operand S a _ _ ro co Hs Hw HD Hin) as HO. destruct (ds_buff S) as [b|].
    - apply rskge3_buff_spec; auto. apply HO. discriminate.
    - destruct HO as (Bk & E & HO). { intros _. specialize (Hne eq_refl). destruct opS; cbn [rows_before cols_before]; lia. }
      rewrite E. cbn [bind]. destruct (rskge3_buff_spec l opA opS m d n alpha A lda Bk 0 0 beta B ldb (win a ro co) HO Hm FA FB) as (B' & E' & G).
      exists B'. split; [exact E'|]. refine (gemm_ext O l m d n alpha beta _ _ _ _ B ldb B' _ _ G); [auto|].
      intros k j _ _. destruct opS; cbn [op_ent]; apply win_0.
  Qed.

  Variable sched : schedule (list T).
  Variable ssort : (Z * Z * T -> Z * Z * T -> bool) -> list (Z * Z * T) -> list (Z * Z * T).
  Variable nt : Z.
  Hypothesis Hsched : valid_schedule sched.
  Hypothesis Hsort : sort_ok ssort.

  Lemma sp_window_ok (A : spmat T) r c ro co : sp_window A r c ro co -> window_ok A r c ro co.
  Proof. intros (H1 & H2 & H3 & H4 & H5). destruct A; cbn in *; [split; lia|auto..]. Qed.
  Lemma sp_dims_eq (A : spmat T) : sp_dims A = (sp_rows A, sp_cols A). Proof. destruct A; reflexivity. Qed.

  Lemma lsksp3_buff_spec l opS opA d n m alpha S ro co A ro_a co_a beta B ldb a :
    operand S (rows_before opS d m) (cols_before opS d m) ro co a -> 0 <= n ->
    valid_sp A -> sp_base A = BZero -> sp_window A (rows_before opA m n) (cols_before opA m n) ro_a co_a ->
    (alpha = zero \/ sp_safe nt (flip l) (flip_op opA) (if layout_eqb (bo_layout S) l then opS else flip_op opS) n d m A ro_a co_a) ->
    fits_buffer l ldb d n (zlen B) ->
    exists A' B', lsksp3_buff O sched ssort nt l opS opA d n m alpha S ro co A ro_a co_a beta B ldb = Ok (A', B') /\ same_sp A A' /\
      gemm_result O l d n m alpha beta (op_ent opS (win a ro co)) (op_ent opA (win (sp_entry O A) ro_a co_a)) B ldb B'.
  Proof.
    intros (Hin & HL & HG) Hn HA Hb Hw Hsafe FB. unfold lsksp3_buff. rewrite !dims_eq, sp_dims_eq. cbn [fst snd].
    pose proof Hin as (I1 & I2 & I3 & I4 & I5 & I6). pose proof Hw as (W1 & W2 & W3 & W4 & _).
    assert (0 <= d /\ 0 <= m) as [Hd Hm] by (destruct opS; cbn [rows_before cols_before] in *; lia).
    replace (sp_rows A >=? rows_before opA m n + ro_a) with true by lia.
    replace (sp_cols A >=? cols_before opA m n + co_a) with true by lia.
    replace (bo_rows S >=? rows_before opS d m + ro) with true by lia.
    replace (bo_cols S >=? cols_before opS d m + co) with true by lia. rewrite !require_true. cbn [bind].
    pose proof (proj1 FB) as FB1.
    replace (match l with ColMajor => ldb >=? d | RowMajor => ldb >=? n end) with true by (destruct l; cbn [min_ld] in *; lia).
    rewrite !require_true. cbn [bind]. destruct (window_spec O _ _ _ ro co _ _ (bo_buff S) a Hin HL HG) as (t & Et & Ft & Gt).
    destruct (offset_and_ldim (bo_layout S) (bo_rows S) (bo_cols S) ro co) as [pos lds]. cbn [fst snd] in *. rewrite Et. cbn [bind].
    destruct (layout_op O (bo_layout S) l opS lds d m t Ft) as [Fo Go]. set (o' := if layout_eqb (bo_layout S) l then opS else flip_op opS) in *. clearbody o'.
    destruct (C36_right_product O L sched nt ssort l o' opA d n m alpha t lds A ro_a co_a beta B ldb Hsched Hsort HA Hb Hd Hn Hm) as (A' & B' & E & HS & G); auto.
    { now apply sp_window_ok. }
    exists A', B'. split; [exact E|]. split; [exact HS|]. refine (gemm_ext O l d n m alpha beta _ _ _ _ B ldb B' _ _ G); [|auto].
    intros i k Hi Hk. rewrite Go. destruct opS; cbn [op_ent rows_before cols_before] in *; apply Gt; lia.
  Qed.

  Lemma rsksp3_buff_spec l opA opS m d n alpha A ro_a co_a S ro co beta B ldb a :
    operand S (rows_before opS n d) (cols_before opS n d) ro co a -> 0 <= m ->
    valid_sp A -> sp_base A = BZero -> sp_window A (rows_before opA m n) (cols_before opA m n) ro_a co_a ->
    (alpha = zero \/ sp_safe nt l opA (if layout_eqb (bo_layout S) l then opS else flip_op opS) m d n A ro_a co_a) ->
    fits_buffer l ldb m d (zlen B) ->
    exists A' B', rsksp3_buff O sched ssort nt l opA opS m d n alpha A ro_a co_a S ro co beta B ldb = Ok (A', B') /\ same_sp A A' /\
      gemm_result O l m d n alpha beta (op_ent opA (win (sp_entry O A) ro_a co_a)) (op_ent opS (win a ro co)) B ldb B'.
  Proof.
    intros (Hin & HL & HG) Hm HA Hb Hw Hsafe FB. unfold rsksp3_buff. rewrite !dims_eq, sp_dims_eq. cbn [fst snd].
    pose proof Hin as (I1 & I2 & I3 & I4 & I5 & I6). pose proof Hw as (W1 & W2 & W3 & W4 & _).
    assert (0 <= d /\ 0 <= n) as [Hd Hn] by (destruct opS; cbn [rows_before cols_before] in *; lia).
    replace (sp_rows A >=? rows_before opA m n + ro_a) with true by lia.
    replace (sp_cols A >=? cols_before opA m n + co_a) with true by lia.
    replace (bo_rows S >=? rows_before opS n d + ro) with true by lia.
    replace (bo_cols S >=? cols_before opS n d + co) with true by lia. rewrite !require_true. cbn [bind].
    pose proof (proj1 FB) as FB1.
    replace (match l with ColMajor => ldb >=? m | RowMajor => ldb >=? d end) with true by (destruct l; cbn [min_ld] in *; lia).
    rewrite !require_true. cbn [bind]. destruct (window_spec O _ _ _ ro co _ _ (bo_buff S) a Hin HL HG) as (t & Et & Ft & Gt).
    destruct (offset_and_ldim (bo_layout S) (bo_rows S) (bo_cols S) ro co) as [pos lds]. cbn [fst snd] in *. rewrite Et. cbn [bind].
    destruct (layout_op O (bo_layout S) l opS lds n d t Ft) as [Fo Go]. set (o' := if layout_eqb (bo_layout S) l then opS else flip_op opS) in *. clearbody o'.
    destruct (left_spec O L ssort Hsort sched nt l opA o' m d n alpha A ro_a co_a t lds beta B ldb Hsched HA Hb Hm Hd Hn) as (A' & B' & E & HS & G); auto.
    { now apply sp_window_ok. }
    exists A', B'. split; [exact E|]. split; [exact HS|]. refine (gemm_ext O l m d n alpha beta _ _ _ _ B ldb B' _ _ G); [auto|].
    intros k j Hk Hj. rewrite Go. destruct opS; cbn [op_ent rows_before cols_before] in *; apply Gt; lia.
  Qed.

  Lemma lsksp3_spec l opS opA d n m alpha S ro co A ro_a co_a beta B ldb a :
    valid_schedule fsched -> wf_env denv -> dense_denotes cast denv S a ->
    in_matrix (dd_rows (ds_dist S)) (dd_cols (ds_dist S)) (rows_before opS d m) (cols_before opS d m) ro co ->
    (ds_buff S = None -> 1 <= d /\ 1 <= m) -> 0 <= n ->
    valid_sp A -> sp_base A = BZero -> sp_window A (rows_before opA m n) (cols_before opA m n) ro_a co_a ->
    (alpha = zero \/ sp_safe nt (flip l) (flip_op opA) (if layout_eqb (ds_layout S) l then opS else flip_op opS) n d m A ro_a co_a) ->
    fits_buffer l ldb d n (zlen B) ->
    exists A' B', lsksp3 O cast denv fsched sched ssort nt l opS opA d n m alpha S ro co A ro_a co_a beta B ldb = Ok (A', B') /\ same_sp A A' /\
      gemm_result O l d n m alpha beta (op_ent opS (win a ro co)) (op_ent opA (win (sp_entry O A) ro_a co_a)) B ldb B'.
  Proof.
    intros Hs Hw HD Hin Hne Hn HA Hb Hwin Hsafe FB. unfold lsksp3. rewrite dims_eq.
    pose proof (dense_operand S a _ _ ro co Hs Hw HD Hin) as HO. destruct (ds_buff S) as [b|].
    - apply lsksp3_buff_spec; auto. apply HO. discriminate.
    - destruct HO as (Bk & E & HO). { intros _. specialize (Hne eq_refl). destruct opS; cbn [rows_before cols_before]; lia. }
      assert (bo_layout Bk = ds_layout S) as El.
      { clear - E. unfold submatrix_as_blackbox in E. repeat (apply bind_Ok in E as (? & _ & E)). destruct x2 as [? ?]. injection E as <-. reflexivity. }
      rewrite E. cbn [bind].
      destruct (lsksp3_buff_spec l opS opA d n m alpha Bk 0 0 A ro_a co_a beta B ldb (win a ro co) HO Hn HA Hb Hwin) as (A' & B' & E' & HS & G); auto.
      { now rewrite El. }
      exists A', B'. split; [exact E'|]. split; [exact HS|]. refine (gemm_ext O l d n m alpha beta _ _ _ _ B ldb B' _ _ G); [|auto].
      intros i k _ _. destruct opS; cbn [op_ent]; apply win_0.
  Qed.

  Lemma rsksp3_spec l opA opS m d n alpha A ro_a co_a S ro co beta B ldb a :
    valid_schedule fsched -> wf_env denv -> dense_denotes cast denv S a ->
    in_matrix (dd_rows (ds_dist S)) (dd_cols (ds_dist S)) (rows_before opS n d) (cols_before opS n d) ro co ->
    (ds_buff S = None -> 1 <= n /\ 1 <= d) -> 0 <= m ->
    valid_sp A -> sp_base A = BZero -> sp_window A (rows_before opA m n) (cols_before opA m n) ro_a co_a ->
    (alpha = zero \/ sp_safe nt l opA (if layout_eqb (ds_layout S) l then opS else flip_op opS) m d n A ro_a co_a) ->
    fits_buffer l ldb m d (zlen B) ->
    exists A' B', rsksp3 O cast denv fsched sched ssort nt l opA opS m d n alpha A ro_a co_a S ro co beta B ldb = Ok (A', B') /\ same_sp A A' /\
      gemm_result O l m d n alpha beta (op_ent opA (win (sp_entry O A) ro_a co_a)) (op_ent opS (win a ro co)) B ldb B'.
  Proof.
    intros Hs Hw HD Hin Hne Hm HA Hb Hwin Hsafe FB. unfold rsksp3. rewrite dims_eq.
    pose proof (dense_operand S a _ _ ro co Hs Hw HD Hin) as HO. destruct (ds_buff S) as [b|].
    - apply rsksp3_buff_spec; auto. apply HO. discriminate.
    - destruct HO as (Bk & E & HO). { intros _. specialize (Hne eq_refl). destruct opS; cbn [rows_before cols_before]; lia. }
      assert (bo_layout Bk = ds_layout S) as El.
      { clear - E. unfold submatrix_as_blackbox in E. repeat (apply bind_Ok in E as (? & _ & E)). destruct x2 as [? ?]. injection E as <-. reflexivity. }
      rewrite E. cbn [bind].
      destruct (rsksp3_buff_spec l opA opS m d n alpha A ro_a co_a Bk 0 0 beta B ldb (win a ro co) HO Hm HA Hb Hwin) as (A' & B' & E' & HS & G); auto.
      { now rewrite El. }
      exists A', B'. split; [exact E'|]. split; [exact HS|]. refine (gemm_ext O l m d n alpha beta _ _ _ _ B ldb B' _ _ G); [auto|].
      intros k j _ _. destruct opS; cbn [op_ent]; apply win_0.
  Qed.
End DenseOperand.
