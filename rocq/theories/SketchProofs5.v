(** Block-by-block sketching, operators for which no side condition is needed, rejected
    arguments. *)
From Coq Require Import Permutation.
From Verif Require Import Base Interleave Spec RngModel DenseModel DenseSpec DenseProofs DenseProofs2 DenseProofs3 SparseSkopModel SparseSpec SparseProofs SparseProofs2 PropsSparse
  SpFmtModel SpFmtSpec SpFmtProofs SpFmtProofs2 SpFmtProofs3 SpFmtProofs5 SpmmModel SpmmSpec SpmmProofs SpmmProofs4 SpmmProofs5 PropsSpmm
  UtilModel UtilSpec UtilProofs SketchModel SketchSpec LoopProofs SketchProofs SketchProofs2 SketchProofs3 SketchProofs4.

Section Blocks.
  Context {K W F T : Type}.
  Variable O : ops T.
  Hypothesis L : semiring O.
  Variable cast : W -> T.
  Variable denv : dense_env K W T.
  Variable senv : sparse_env K F T.
  Hypothesis Hw : wf_env denv.

  Lemma same_op_dims (S S' : @skop K T) : same_op S S' -> skop_rows S' = skop_rows S /\ skop_cols S' = skop_cols S.
  Proof using Type.
    destruct S as [D|D], S' as [D'|D']; cbn [same_op]; try contradiction; [intros ->; auto|]. destruct (ss_nnz D <? 0); [intros ->; auto|].
    intros (E & _). cbn [skop_rows skop_cols]. rewrite E. auto.
  Qed.

  Lemma same_op_usable (S S' : @skop K T) o d n m ro co alpha : same_op S S' -> usable O senv S o d n m ro co alpha -> usable O senv S' o d n m ro co alpha.
  Proof using Type.
    intros HS [H1 H2]. destruct (same_op_dims S S' HS) as [E1 E2]. split; [now rewrite E1, E2|]. clear H1 E1 E2.
    destruct S as [D|D], S' as [D'|D']; cbn [same_op] in HS; try contradiction; [now subst|].
    destruct (ss_nnz D <? 0) eqn:En; [now subst|]. destruct H2 as [H2|H2]; [auto|]. right.
    destruct HS as (E1 & _ & _ & _ & E5 & _ & P). apply (spread_ext (sparse_at senv D') (sparse_at senv D)); [|exact H2].
    intros i j. unfold sparse_at. rewrite E5, En. pose proof (stored_perm_at (skop_coo D) (skop_coo D') eq_refl P i j) as PP.
    split; intros X; rewrite X in PP; [symmetry in PP|]; now apply Permutation_nil in PP.
  Qed.

  Lemma same_op_blocks (S S' : @skop K T) o d n ro co alpha ms : same_op S S' -> forall start, blocks_usable O senv S o d n ro co alpha start ms -> blocks_usable O senv S' o d n ro co alpha start ms.
  Proof using Type.
    intros HS. induction ms as [|m ms IH]; intros start; cbn [blocks_usable]; [auto|]. intros (H1 & H2 & H3). split; [exact H1|]. split; [|now apply IH].
    now apply (same_op_usable S).
  Qed.

  Lemma blocks_sum_nonneg (S : @skop K T) o d n ro co alpha ms : forall start, blocks_usable O senv S o d n ro co alpha start ms -> 0 <= sumZ ms.
  Proof using Type. induction ms as [|m ms IH]; intros start; cbn [blocks_usable sumZ fold_right]; [lia|]. intros (H1 & _ & H3). apply IH in H3. unfold sumZ in H3. lia. Qed.

  Section Run.
  Variable fsched : schedule T.
  Variables (jT : T) (jZ : Z).
  Variable sched : schedule (list T).
  Variable ssort : (Z * Z * T -> Z * Z * T -> bool) -> list (Z * Z * T) -> list (Z * Z * T).
  Variable nt : Z.
  Hypothesis Hf : valid_schedule fsched.
  Hypothesis Hsched : valid_schedule sched.
  Hypothesis Hsort : sort_ok ssort.

  (** The rows start, start+1, ... of op(A). *)
  Lemma tail_rows l lda opA total n start m (A : list T) : 1 <= n -> 0 <= start -> 1 <= m -> start + m <= total ->
    fits_buffer l lda (rows_before opA total n) (cols_before opA total n) (zlen A) ->
    exists Ak, tail_at A (match opA with NoTrans => addr l lda start 0 | Trans => addr l lda 0 start end) = Ok Ak /\
      fits_buffer l lda (rows_before opA m n) (cols_before opA m n) (zlen Ak) /\
      forall k j, 0 <= k -> 0 <= j -> op_ent opA (cell O l lda Ak) k j = op_ent opA (cell O l lda A) (start + k) j.
  Proof using Type.
    intros Hn Hs Hm Ht Fit. pose proof Fit as [Fl Fa].
    set (p := match opA with NoTrans => addr l lda start 0 | Trans => addr l lda 0 start end).
    assert (0 <= lda) as Hl by (destruct l, opA; cbn [min_ld rows_before cols_before] in Fl; lia).
    assert (forall i j, addr l lda i j + p = match opA with NoTrans => addr l lda (start + i) j | Trans => addr l lda i (start + j) end) as Ea.
    { intros i j. subst p. destruct l, opA; cbn [addr]; ring. }
    assert (0 <= p < zlen A) as Hp.
    { subst p. destruct opA; cbn [rows_before cols_before] in *; split; try (apply addr_nonneg; lia); apply Fa; lia. }
    exists (skipn (Z.to_nat p) A). unfold tail_at. replace ((0 <=? p) && (p <=? zlen A)) with true by lia. split; [reflexivity|].
    assert (zlen (skipn (Z.to_nat p) A) = zlen A - p) as Ll by (unfold zlen in *; rewrite skipn_length; lia).
    split.
    - split; [destruct l, opA; cbn [min_ld rows_before cols_before] in *; lia|]. intros i j Hi Hj. rewrite Ll.
      enough (addr l lda i j + p < zlen A) by lia. rewrite Ea. destruct opA; cbn [rows_before cols_before] in *; apply Fa; lia.
    - intros k j Hk Hj. destruct opA; cbn [op_ent]; unfold cell; rewrite get_skipn by (try apply addr_nonneg; lia); rewrite Z2Nat.id by lia; rewrite Ea; reflexivity.
  Qed.

  Lemma blocks_spec l opS opA d n alpha ro co A lda ldb a total : 1 <= n ->
    fits_buffer l lda (rows_before opA total n) (cols_before opA total n) (zlen A) ->
    forall ms start S B, 0 <= start -> start + sumZ ms <= total ->
    skop_denotes O cast denv senv S a -> blocks_usable O senv S opS d n ro co alpha start ms ->
    fits_buffer l ldb d n (zlen B) ->
    exists S' B', sketch_blocks O cast denv fsched senv jT jZ sched ssort nt l opS opA d n alpha ro co A lda ldb start ms S B = Ok (S', B') /\
      skop_denotes O cast denv senv S' a /\
      gemm_result O l d n (sumZ ms) alpha (o_one O) (fun i k => op_ent opS (win a ro co) i (start + k)) (fun k j => op_ent opA (cell O l lda A) (start + k) j) B ldb B'.
  Proof using L Hw Hf Hsched Hsort.
    intros Hn FA. induction ms as [|m ms IH]; intros start S B Hs Ht HD HU FB; cbn [sketch_blocks sumZ fold_right].
    - exists S, B. split; [reflexivity|]. split; [exact HD|]. split; [reflexivity|]. split; [|auto]. intros i j x Hi Hj G. rewrite G. f_equal.
      unfold bigsum. rewrite range_nil by lia. cbn [map sumT fold_right]. rewrite (mul_0_r O L), (sr_add_0_l O L), (sr_mul_1_l O L). reflexivity.
    - cbn [blocks_usable] in HU. destruct HU as (Hm & HU & HUs). pose proof (blocks_sum_nonneg S opS d n ro co alpha ms (start + m) HUs) as Hms. cbn [sumZ fold_right] in Ht. fold (sumZ ms) in *.
      destruct (tail_rows l lda opA total n start m A) as (Ak & -> & FAk & EA); auto; try lia. cbn [bind].
      destruct (sketch_general_left_spec O L cast denv senv Hw fsched jT jZ sched ssort nt Hf Hsched Hsort l opS opA d n m alpha S
         (match opS with NoTrans => ro | Trans => ro + start end) (match opS with NoTrans => co + start | Trans => co end) Ak lda (o_one O) B ldb a) as (S1 & B1 & -> & HD1 & HS1 & G1); auto; try lia.
      cbn [bind]. destruct (IH (start + m) S1 B1) as (S2 & B2 & -> & HD2 & G2); auto; try lia.
      { now apply (same_op_blocks S). } { destruct G1 as [-> _]. exact FB. }
      exists S2, B2. split; [reflexivity|]. split; [exact HD2|]. apply (gemm_result_split O L l d n m (sumZ ms) alpha (o_one O) _ _ B ldb B1 B2); auto; try lia.
      + refine (gemm_ext O l d n m alpha (o_one O) _ _ _ _ B ldb B1 _ _ G1).
        * intros i k Hi Hk. destruct opS; cbn [op_ent]; unfold win; f_equal; lia.
        * intros k j Hk Hj. apply EA; lia.
      + refine (gemm_ext O l d n (sumZ ms) alpha (o_one O) _ _ _ _ B1 ldb B2 _ _ G2); intros; f_equal; lia.
  Qed.
  End Run.
End Blocks.

Section Short.
  Context {K W F T : Type}.
  Variable O : ops T.
  Variable cast : W -> T.
  Variable denv : dense_env K W T.
  Variable senv : sparse_env K F T.

  Lemma short_entry_nonempty D (seed : rng_state K) c : valid_sdist D -> exists s, 0 <= s < sd_major D /\ short_entry senv D seed s c <> [].
  Proof using Type.
    intros HD. destruct (valid_sdist_inv D HD) as (P1 & P2 & P3 & _). destruct (short_sample_facts senv D seed c HD) as (Ll & Nd & R).
    destruct (get_lt (short_sample senv D seed c) 0) as [s G]; [lia|]. exists s. split; [apply R; apply get_In; eauto|].
    unfold short_entry. rewrite (find_in_sample _ _ s 0 Nd Ll G). discriminate.
  Qed.

  Lemma whole_columns_spread D (seed : rng_state K) o d n m ro co : valid_sdist D -> whole_columns D o d ro co ->
    in_matrix (sd_rows D) (sd_cols D) (rows_before o d m) (cols_before o d m) ro co -> 1 <= m ->
    spread (sparse_entry senv D seed) o d n m ro co.
  Proof using Type.
    intros HD [Hs Hc] (I1 & I2 & I3 & I4 & I5 & I6) Hm. destruct (valid_sdist_inv D HD) as (P1 & P2 & P3 & P4 & P5 & P6). rewrite Hs in P5, P6.
    destruct (Z.eq_dec m 1); [right; left; auto|]. right. right. destruct (sd_rows D <=? sd_cols D) eqn:E; destruct Hc as (-> & -> & ->); cbn [rows_before cols_before] in *.
    - destruct (short_entry_nonempty D seed (co + 1) HD) as (s & Hr & Hne). split; [lia|]. left. exists s, 1. split; [lia|]. split; [lia|]. cbn [op_ent]. unfold win, sparse_entry. rewrite E, Hs.
      replace ((0 <=? co + 1) && (co + 1 <? sd_minor D)) with true by lia. exact Hne.
    - destruct (short_entry_nonempty D seed (ro + 1) HD) as (s & Hr & Hne). split; [lia|]. left. exists s, 1. split; [lia|]. split; [lia|]. cbn [op_ent]. unfold win, sparse_entry. rewrite E, Hs.
      replace ((0 <=? ro + 1) && (ro + 1 <? sd_minor D)) with true by lia. exact Hne.
  Qed.

  Lemma whole_columns_usable (D : sparse_skop K T) a o d n m ro co alpha : sampled O cast denv senv (SkSparse D) a -> whole_columns (ss_dist D) o d ro co ->
    in_matrix (sd_rows (ss_dist D)) (sd_cols (ss_dist D)) (rows_before o d m) (cols_before o d m) ro co -> 1 <= m ->
    usable O senv (SkSparse D) o d n m ro co alpha.
  Proof using Type.
    intros (HS & _ & _ & HP) Hc Hin Hm. split; [exact Hin|]. right. pose proof HS as (_ & HD & _).
    apply (spread_ext (sparse_at senv D) (sparse_entry senv (ss_dist D) (ss_seed D))); [|now apply whole_columns_spread].
    intros i j. unfold sparse_at. destruct (ss_nnz D <? 0) eqn:E; [reflexivity|]. destruct HP as [HP|(_ & _ & HP)]; [lia|]. specialize (HP i j).
    split; intros X; rewrite X in HP; [symmetry in HP|]; now apply Permutation_nil in HP.
  Qed.
End Short.

Section Reject.
  Context {K W F T : Type}.
  Variable O : ops T.
  Variable cast : W -> T.
  Variable denv : dense_env K W T.
  Variable senv : sparse_env K F T.
  Hypothesis Hw : wf_env denv.
  Variable fsched : schedule T.
  Variables (jT : T) (jZ : Z).
  Variable sched : schedule (list T).
  Variable ssort : (Z * Z * T -> Z * Z * T -> bool) -> list (Z * Z * T) -> list (Z * Z * T).
  Variable nt : Z.
  Hypothesis Hf : valid_schedule fsched.

  Ltac req_step := match goal with |- context [require ?b] => destruct b eqn:?; cbn [require bind]; [|reflexivity] end.

  Lemma lbuff_rejects l opS opA d n m alpha (S : blas_op T) ro co A lda beta B ldb :
    bo_rows S < ro + rows_before opS d m \/ bo_cols S < co + cols_before opS d m \/
    lda < min_ld l (rows_before opA m n) (cols_before opA m n) \/ ldb < min_ld l d n ->
    lskge3_buff O l opS opA d n m alpha S ro co A lda beta B ldb = Throw.
  Proof using Type. intros H. unfold lskge3_buff. rewrite !dims_eq. do 2 req_step. destruct l; cbn [min_ld] in H; do 2 req_step; exfalso; rewrite !Z.geb_le in *; lia. Qed.
  Lemma rbuff_rejects l opA opS m d n alpha A lda (S : blas_op T) ro co beta B ldb :
    bo_rows S < ro + rows_before opS n d \/ bo_cols S < co + cols_before opS n d \/
    lda < min_ld l (rows_before opA m n) (cols_before opA m n) \/ ldb < min_ld l m d ->
    rskge3_buff O l opA opS m d n alpha A lda S ro co beta B ldb = Throw.
  Proof using Type. intros H. unfold rskge3_buff. rewrite !dims_eq. do 2 req_step. destruct l; cbn [min_ld] in H; do 2 req_step; exfalso; rewrite !Z.geb_le in *; lia. Qed.

  Lemma blackbox_reject (D : dense_skop K T) r c ro co : dd_rows (ds_dist D) < ro + r \/ dd_cols (ds_dist D) < co + c ->
    submatrix_as_blackbox cast denv fsched D r c ro co = Throw.
  Proof using Type. intros H. unfold submatrix_as_blackbox. do 2 req_step. exfalso. lia. Qed.

  Lemma dense_reject_cases (D : dense_skop K T) a r c ro co (P : Prop) (f : blas_op T -> Z -> Z -> outcome (list T)) :
    dense_denotes cast denv D a -> 0 <= ro -> 0 <= co -> (ds_buff D = None -> 1 <= r /\ 1 <= c) ->
    (dd_rows (ds_dist D) < ro + r \/ dd_cols (ds_dist D) < co + c) \/ P ->
    (forall S ro co, bo_rows S < ro + r \/ bo_cols S < co + c \/ P -> f S ro co = Throw) ->
    match ds_buff D with None => S <- submatrix_as_blackbox cast denv fsched D r c ro co ;; f S 0 0 | Some b => f (dense_view D b) ro co end = Throw.
  Proof using Hw Hf.
    intros HD Hro Hco Hne Hb Hrej. destruct (ds_buff D) as [b|] eqn:Eb; [apply Hrej; cbn; tauto|]. specialize (Hne eq_refl).
    destruct (Z_lt_ge_dec (dd_rows (ds_dist D)) (ro + r)); [rewrite blackbox_reject; auto|].
    destruct (Z_lt_ge_dec (dd_cols (ds_dist D)) (co + c)); [rewrite blackbox_reject; auto|].
    destruct Hb as [Hb|HP]; [lia|]. pose proof (dense_operand cast denv fsched D a r c ro co Hf Hw HD) as DO. rewrite Eb in DO.
    destruct DO as (B & -> & _); [unfold in_matrix; lia|auto|]. cbn [bind]. apply Hrej. auto.
  Qed.

  Lemma view_base (S S1 : sparse_skop K T) M : coo_view_of_skop senv jT jZ S = Ok (S1, M) -> ss_dist S1 = ss_dist S -> co_base M = BZero /\ co_nr M = sd_rows (ss_dist S) /\ co_nc M = sd_cols (ss_dist S).
  Proof using Type.
    unfold coo_view_of_skop. intros H E. apply bind_Ok in H as (S' & _ & H). apply bind_Ok in H as (M' & H2 & H). injection H as -> ->.
    unfold mk_coo_expert in H2. apply bind_Ok in H2 as (s & _ & H2). injection H2 as <-. cbn. rewrite E. auto.
  Qed.

  Lemma left_rejects l opS opA d n m alpha (S : @skop K T) ro co A lda beta B ldb a :
    skop_denotes O cast denv senv S a -> 1 <= d -> 1 <= m -> 0 <= ro -> 0 <= co ->
    sketch_args_bad S l opS d m ro co opA m n lda d n ldb ->
    sketch_general_left O cast denv fsched senv jT jZ sched ssort nt l opS opA d n m alpha S ro co A lda beta B ldb = Throw.
  Proof using Hw Hf.
    intros HD Hd Hm Hro Hco Hb. unfold sketch_args_bad in Hb. destruct S as [D|D]; cbn [sketch_general_left skop_rows skop_cols] in *.
    - unfold lskge3. rewrite dims_eq.
      match goal with |- bind ?x _ = _ => enough (x = Throw) as -> by reflexivity end.
      apply (dense_reject_cases D a (rows_before opS d m) (cols_before opS d m) ro co
        (lda < min_ld l (rows_before opA m n) (cols_before opA m n) \/ ldb < min_ld l d n) (fun S ro co => lskge3_buff O l opS opA d n m alpha S ro co A lda beta B ldb)); auto.
      + destruct opS; cbn [rows_before cols_before]; lia.
      + intros S ro' co'. apply lbuff_rejects.
    - assert (forall Sc, 0 < ss_nnz Sc -> valid_coo (skop_coo Sc) -> ss_dist Sc = ss_dist D ->
        lskges_filled O senv jT jZ sched ssort nt l opS opA d n m alpha Sc ro co A lda beta B ldb = Throw) as X.
      { intros Sc Hz HV E. unfold lskges_filled. destruct (coo_view_spec senv jT jZ Sc Hz HV) as (M & -> & _ & _ & Mb & Mr & Mc & _). cbn [bind].
        rewrite C39_spmm_rejects; [reflexivity|]. unfold spmm_args_bad. cbn [sp_base window_ok]. rewrite Mr, Mc, E. clear - Hb. destruct Hb as [Hb|[Hb|Hb]]; [right; left; lia|right; right; left; exact Hb|right; right; right; exact Hb]. }
      match goal with |- bind ?x _ = _ => enough (x = Throw) as -> by reflexivity end.
      destruct HD as [HV _]. unfold lskges. unfold sparse_valid in HV. destruct (ss_nnz D <? 0).
      + destruct (fill_sparse_spec senv jT jZ (mk_sparse_skop senv (ss_dist D) (ss_seed D)) HV (mk_buffers_ok senv _ _)) as (Sc & -> & D1 & _ & _ & _ & Z1 & V1 & _). cbn [bind].
        rewrite X; auto.
      + apply X; tauto.
  Qed.

  Lemma min_ld_flip l opA m n : min_ld (flip l) (rows_before opA n m) (cols_before opA n m) = min_ld l (rows_before opA m n) (cols_before opA m n).
  Proof using Type. destruct l, opA; reflexivity. Qed.

  Lemma right_rejects l opA opS m d n alpha A lda (S : @skop K T) ro co beta B ldb a :
    skop_denotes O cast denv senv S a -> 1 <= d -> 1 <= n -> 0 <= ro -> 0 <= co ->
    sketch_args_bad S l opS n d ro co opA m n lda m d ldb ->
    sketch_general_right O cast denv fsched senv jT jZ sched ssort nt l opA opS m d n alpha A lda S ro co beta B ldb = Throw.
  Proof using Hw Hf.
    intros HD Hd Hn Hro Hco Hb. unfold sketch_args_bad in Hb. destruct S as [D|D]; cbn [sketch_general_right skop_rows skop_cols] in *.
    - unfold rskge3. rewrite dims_eq.
      match goal with |- bind ?x _ = _ => enough (x = Throw) as -> by reflexivity end.
      apply (dense_reject_cases D a (rows_before opS n d) (cols_before opS n d) ro co
        (lda < min_ld l (rows_before opA m n) (cols_before opA m n) \/ ldb < min_ld l m d) (fun S ro co => rskge3_buff O l opA opS m d n alpha A lda S ro co beta B ldb)); auto.
      + destruct opS; cbn [rows_before cols_before]; lia.
      + intros S ro' co'. apply rbuff_rejects.
    - assert (forall Sc, 0 < ss_nnz Sc -> valid_coo (skop_coo Sc) -> ss_dist Sc = ss_dist D ->
        rskges_filled O senv jT jZ sched ssort nt l opA opS m d n alpha A lda Sc ro co beta B ldb = Throw) as X.
      { intros Sc Hz HV E. unfold rskges_filled, right_spmm. destruct (coo_view_spec senv jT jZ Sc Hz HV) as (M & -> & _ & _ & Mb & Mr & Mc & _). cbn [bind].
        rewrite C39_spmm_rejects; [reflexivity|]. unfold spmm_args_bad. cbn [sp_base window_ok]. rewrite Mr, Mc, E, min_ld_flip. destruct (flip_op_dims opS n d) as [-> ->].
        replace (min_ld (flip l) d m) with (min_ld l m d) by (now destruct l). clear - Hb. destruct Hb as [Hb|[Hb|Hb]]; [right; left; lia|right; right; left; exact Hb|right; right; right; exact Hb]. }
      match goal with |- bind ?x _ = _ => enough (x = Throw) as -> by reflexivity end.
      destruct HD as [HV _]. unfold rskges. unfold sparse_valid in HV. destruct (ss_nnz D <? 0).
      + destruct (fill_sparse_spec senv jT jZ (mk_sparse_skop senv (ss_dist D) (ss_seed D)) HV (mk_buffers_ok senv _ _)) as (Sc & -> & D1 & _ & _ & _ & Z1 & V1 & _). cbn [bind].
        rewrite X; auto.
      + cbn [bind]. apply X; tauto.
  Qed.
End Reject.

Section Uses.
  Context {K W F T : Type}.
  Variable O : ops T.
  Variable cast : W -> T.
  Variable denv : dense_env K W T.
  Variable senv : sparse_env K F T.
  Hypothesis Hw : wf_env denv.

  (** Where a sampled sparse operator has no entry. *)
  Lemma sampled_empty (D : sparse_skop K T) a i j : sampled O cast denv senv (SkSparse D) a -> (sparse_at senv D i j = [] <-> sparse_entry senv (ss_dist D) (ss_seed D) i j = []).
  Proof using Type.
    intros (_ & _ & _ & HP). unfold sparse_at. destruct (ss_nnz D <? 0) eqn:E; [reflexivity|]. destruct HP as [HP|(_ & _ & HP)]; [lia|]. specialize (HP i j).
    split; intros X; rewrite X in HP; [symmetry in HP|]; now apply Permutation_nil in HP.
  Qed.

  (** A use keeps distribution and seed; materialised operators stay so. *)
  Definition kin (S S' : @skop K T) : Prop :=
    match S, S' with
    | SkDense D, SkDense D' => ds_dist D' = ds_dist D /\ ds_seed D' = ds_seed D /\ (ds_buff D' = None -> ds_buff D = None)
    | SkSparse D, SkSparse D' => ss_dist D' = ss_dist D /\ ss_seed D' = ss_seed D
    | _, _ => False
    end.
  Lemma kin_refl S : kin S S. Proof using Type. destruct S; cbn; auto. Qed.
  Lemma kin_trans S1 S2 S3 : kin S1 S2 -> kin S2 S3 -> kin S1 S3.
  Proof using Type. destruct S1, S2, S3; cbn; try contradiction; intros; repeat match goal with H : _ /\ _ |- _ => destruct H end; repeat split; try congruence; auto. Qed.

  Lemma fill_sparse_kin jT jZ (D D' : sparse_skop K T) : fill_sparse senv jT jZ D = Ok D' -> ss_dist D' = ss_dist D /\ ss_seed D' = ss_seed D.
  Proof using Type.
    unfold fill_sparse. intros H. repeat match type of H with (match ?x with _ => _ end) = _ => destruct x; try discriminate | bind ?x _ = _ => apply bind_Ok in H as (? & _ & H) end;
    repeat match goal with p : (_ * _)%type |- _ => destruct p end; injection H as <-; cbn; auto.
  Qed.
  Lemma view_kin jT jZ (D D' : sparse_skop K T) M : coo_view_of_skop senv jT jZ D = Ok (D', M) -> ss_dist D' = ss_dist D /\ ss_seed D' = ss_seed D.
  Proof using Type.
    unfold coo_view_of_skop. intros H. apply bind_Ok in H as (S' & H1 & H). apply bind_Ok in H as (M' & H2 & H). injection H as -> ->.
    destruct (ss_nnz D <=? 0); [now apply fill_sparse_kin in H1|]. injection H1 as ->. auto.
  Qed.
  Lemma with_arrays_kin (D : sparse_skop K T) A : ss_dist (with_arrays D A) = ss_dist D /\ ss_seed (with_arrays D A) = ss_seed D.
  Proof using Type. destruct A; cbn; auto. Qed.

  Lemma use_kin S S' : use O cast denv senv S S' -> kin S S'.
  Proof using Type.
    intros H. destruct H as [fs D D' _ H|jT jZ D D' H|fs jT jZ sched ssort nt l opS opA d n m alpha S ro co A lda beta B ldb S' B' _ H|fs jT jZ sched ssort nt l opA opS m d n alpha A lda S ro co beta B ldb S' B' _ H].
    - unfold fill_dense_skop in H. cbn [kin]. destruct (match ds_buff D with Some b => Some b | None => _ end) as [b|]; [|discriminate].
      apply bind_Ok in H as ([b' st] & _ & H). injection H as <-. cbn. repeat split. discriminate.
    - cbn [kin]. now apply fill_sparse_kin in H.
    - destruct S as [D|D]; cbn [sketch_general_left] in H.
      + apply bind_Ok in H as (? & _ & H). injection H as <- _. apply kin_refl.
      + apply bind_Ok in H as ([D1 B1] & H & E). injection E as <- _. cbn [kin]. unfold lskges in H. destruct (ss_nnz D <? 0).
        * apply bind_Ok in H as (? & _ & H). apply bind_Ok in H as ([? ?] & _ & H). injection H as <- _. auto.
        * unfold lskges_filled in H. apply bind_Ok in H as ([D2 M] & Hv & H). apply bind_Ok in H as ([M2 B2] & _ & H). injection H as <- _.
          destruct (with_arrays_kin D2 M2) as [-> ->]. now apply view_kin in Hv.
    - destruct S as [D|D]; cbn [sketch_general_right] in H.
      + apply bind_Ok in H as (? & _ & H). injection H as <- _. apply kin_refl.
      + apply bind_Ok in H as ([D1 B1] & H & E). injection E as <- _. cbn [kin]. unfold rskges in H. apply bind_Ok in H as (B0 & _ & H).
        unfold rskges_filled in H. apply bind_Ok in H as ([D2 M] & Hv & H). apply bind_Ok in H as ([M2 B2] & _ & H). injection H as <- _.
        destruct (with_arrays_kin D2 M2) as [-> ->]. now apply view_kin in Hv.
  Qed.
  Lemma uses_kin S S' : uses O cast denv senv S S' -> kin S S'.
  Proof using Type. intros H. induction H; [apply kin_refl|]. eapply kin_trans; [apply use_kin; eassumption|assumption]. Qed.

  (** What can be sketched with remains so. *)
  Lemma uses_usable S S' a o d n m ro co alpha : sampled O cast denv senv S a -> uses O cast denv senv S S' ->
    usable O senv S o d n m ro co alpha -> usable O senv S' o d n m ro co alpha.
  Proof using Hw.
    intros HS HU [H1 H2]. pose proof (uses_sampled O cast denv senv Hw S S' a HS HU) as HS'. apply uses_kin in HU.
    destruct S as [D|D], S' as [D'|D']; cbn [kin] in HU; try contradiction.
    - destruct HU as (E1 & _ & E3). split; [cbn [skop_rows skop_cols] in *; now rewrite E1|]. auto.
    - destruct HU as (E1 & E2). split; [cbn [skop_rows skop_cols] in *; now rewrite E1|]. destruct H2 as [H2|H2]; [auto|right].
      eapply spread_ext; [|exact H2]. intros i j. rewrite (sampled_empty D' a i j HS'), (sampled_empty D a i j HS), E1, E2. reflexivity.
  Qed.
End Uses.
