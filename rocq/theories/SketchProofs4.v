(** The public sketching functions, for dense and sparse operators alike. *)
From Coq Require Import Permutation.
From Verif Require Import Base Interleave Spec RngModel DenseModel DenseSpec DenseProofs DenseProofs2 DenseProofs3 SparseSkopModel SparseSpec SparseProofs SparseProofs2 PropsSparse
  SpFmtModel SpFmtSpec SpFmtProofs SpFmtProofs2 SpFmtProofs3 SpFmtProofs5 SpmmModel SpmmSpec SpmmProofs SpmmProofs4 SpmmProofs5 PropsSpmm
  UtilModel UtilSpec UtilProofs SketchModel SketchSpec LoopProofs SketchProofs SketchProofs2 SketchProofs3.

Section Gemm.
  Context {T : Type}.
  Variable O : ops T.
  Hypothesis L : semiring O.
  Notation add := (o_add O). Notation mul := (o_mul O). Notation zero := (o_zero O). Notation one := (o_one O).

  Lemma gemm_result_eq l d n m alpha beta a b C ldc C1 C2 : fits_buffer l ldc d n (zlen C) ->
    gemm_result O l d n m alpha beta a b C ldc C1 -> gemm_result O l d n m alpha beta a b C ldc C2 -> C1 = C2.
  Proof using Type.
    intros F (L1 & G1 & N1) (L2 & G2 & N2). apply list_ext_get; [congruence|]. intros p _.
    destruct (List.in_dec Z.eq_dec p (map (fun q => addr l ldc (fst q) (snd q)) (pairs 0 d (fun _ => 0) (fun _ => n)))) as [H|H].
    - apply in_map_iff in H as ([i j] & <- & H). apply in_pairs in H as [Hi Hj]. cbn [fst snd].
      destruct (get_lt C (addr l ldc i j)) as [x G]; [now apply (fits_addr l ldc d n)|]. rewrite (G1 i j x), (G2 i j x); auto.
    - assert (forall i j, 0 <= i < d -> 0 <= j < n -> addr l ldc i j <> p) as X.
      { intros i j Hi Hj E. apply H. apply in_map_iff. exists (i, j). split; [exact E|]. apply in_pairs. lia. }
      now rewrite N1, N2.
  Qed.

  Lemma gemm_beta0 l d n m alpha a b C ldc C1 C2 : fits_buffer l ldc d n (zlen C) ->
    gemm_result O l d n m alpha zero a b C ldc C1 -> gemm_result O l d n m alpha zero a b C1 ldc C2 -> C2 = C1.
  Proof using L.
    intros F R1 R2. apply (gemm_result_eq l d n m alpha zero a b C ldc); auto. destruct R1 as (L1 & G1 & N1), R2 as (L2 & G2 & N2).
    split; [congruence|]. split.
    - intros i j x Hi Hj G. destruct (get_lt C1 (addr l ldc i j)) as [y Gy]; [rewrite L1; now apply (fits_addr l ldc d n)|].
      rewrite (G2 i j y Hi Hj Gy). now rewrite !(sr_mul_0_l O L).
    - intros p Hp. now rewrite N2, N1.
  Qed.

  Lemma bigsum_split f x y : 0 <= x -> 0 <= y -> bigsum O f 0 (x + y) = add (bigsum O f 0 x) (bigsum O (fun k => f (x + k)) 0 y).
  Proof using L.
    intros Hx Hy. unfold bigsum. rewrite (range_split 0 x (x + y)) by lia. rewrite map_app, (sumT_app O L). f_equal. f_equal.
    replace (range x (x + y)) with (map (fun k => x + k) (range 0 y)).
    - rewrite map_map. reflexivity.
    - apply list_ext_get; [rewrite zlen_map, !zlen_range; lia|]. intros i Hi. rewrite zlen_map, zlen_range in Hi by lia. rewrite get_map, !get_range by lia. reflexivity.
  Qed.

  (** Products over two blocks of the inner dimension, the second with beta = 1. *)
  Lemma gemm_result_split l d n m1 m2 alpha beta a b C ldc C1 C2 : 0 <= m1 -> 0 <= m2 -> fits_buffer l ldc d n (zlen C) ->
    gemm_result O l d n m1 alpha beta a b C ldc C1 ->
    gemm_result O l d n m2 alpha one (fun i k => a i (m1 + k)) (fun k j => b (m1 + k) j) C1 ldc C2 ->
    gemm_result O l d n (m1 + m2) alpha beta a b C ldc C2.
  Proof using L.
    intros H1 H2 F (L1 & G1 & N1) (L2 & G2 & N2). split; [congruence|]. split.
    - intros i j x Hi Hj G. rewrite (G2 i j _ Hi Hj (G1 i j x Hi Hj G)). f_equal. rewrite bigsum_split by auto.
      rewrite (sr_mul_1_l O L), (sr_distr_l O L), (sr_add_assoc O L). f_equal. apply (sr_add_comm O L).
    - intros p Hp. now rewrite N2, N1.
  Qed.
End Gemm.

Section Operators.
  Context {K W F T : Type}.
  Variable O : ops T.
  Hypothesis L : semiring O.
  Variable cast : W -> T.
  Variable denv : dense_env K W T.
  Variable senv : sparse_env K F T.
  Notation add := (o_add O). Notation mul := (o_mul O). Notation zero := (o_zero O). Notation one := (o_one O).
  Hypothesis Hw : wf_env denv.

  Lemma win_in {X} (a b : Z -> Z -> X) o R C d m ro co : in_matrix R C (rows_before o d m) (cols_before o d m) ro co ->
    (forall i j, 0 <= i < R -> 0 <= j < C -> a i j = b i j) ->
    forall i k, 0 <= i < d -> 0 <= k < m -> op_ent o (win a ro co) i k = op_ent o (win b ro co) i k.
  Proof using Type. intros (H1 & H2 & H3 & H4 & H5 & H6) E i k Hi Hk. unfold win. destruct o; cbn [op_ent rows_before cols_before] in *; apply E; lia. Qed.

  Lemma same_denotes (D D' : sparse_skop K T) a : 0 < ss_nnz D -> same_skop D D' ->
    skop_denotes O cast denv senv (SkSparse D) a -> skop_denotes O cast denv senv (SkSparse D') a.
  Proof using L.
    intros Hz (E1 & E2 & E3 & E4 & E5 & V & P). cbn [skop_denotes]. unfold sparse_valid, sparse_at. rewrite E5. replace (ss_nnz D <? 0) with false by lia.
    intros [_ HA]. split; [auto|]. rewrite E1. intros i j Hi Hj. rewrite <- HA by auto. apply (sumT_perm O L). apply Permutation_sym. now apply stored_perm_at.
  Qed.

  Lemma flip_op_dims o n d : rows_before (flip_op o) d n = rows_before o n d /\ cols_before (flip_op o) d n = cols_before o n d.
  Proof using Type. destruct o; split; reflexivity. Qed.

  Lemma fits_vector inc m len : 1 <= inc -> (forall i, 0 <= i < m -> i * inc < len) -> fits_buffer RowMajor inc m 1 len.
  Proof using Type. intros H1 H2. split; [cbn [min_ld]; lia|]. intros i j Hi Hj. cbn [addr]. specialize (H2 i Hi). lia. Qed.

  Lemma gemv_of_gemm d m alpha beta (a : Z -> Z -> T) x incx y incy y' :
    gemm_result O RowMajor d 1 m alpha beta a (op_ent NoTrans (cell O RowMajor incx x)) y incy y' -> gemv_result O d m alpha beta a x incx y incy y'.
  Proof using Type.
    intros (L1 & G & N). split; [exact L1|]. split.
    - intros i v Hi Gy. specialize (G i 0 v Hi ltac:(lia)). cbn [addr op_ent] in G. rewrite Z.add_0_r in G. rewrite (G Gy). do 3 f_equal. unfold bigsum. f_equal. apply map_ext.
      intros k. f_equal. unfold cell. cbn [addr]. now rewrite Z.add_0_r.
    - intros p Hp. apply N. intros i j Hi Hj E. apply (Hp i Hi). cbn [addr] in E. lia.
  Qed.

  Section Run.
  Variable fsched : schedule T.
  Variables (jT : T) (jZ : Z).
  Variable sched : schedule (list T).
  Variable ssort : (Z * Z * T -> Z * Z * T -> bool) -> list (Z * Z * T) -> list (Z * Z * T).
  Variable nt : Z.
  Hypothesis Hf : valid_schedule fsched.
  Hypothesis Hsched : valid_schedule sched.
  Hypothesis Hsort : sort_ok ssort.



  Lemma sketch_general_left_spec l opS opA d n m alpha S ro co A lda beta B ldb a :
    skop_denotes O cast denv senv S a -> usable O senv S opS d n m ro co alpha -> 0 <= n ->
    fits_buffer l lda (rows_before opA m n) (cols_before opA m n) (zlen A) -> fits_buffer l ldb d n (zlen B) ->
    exists S' B', sketch_general_left O cast denv fsched senv jT jZ sched ssort nt l opS opA d n m alpha S ro co A lda beta B ldb = Ok (S', B') /\
      skop_denotes O cast denv senv S' a /\ same_op S S' /\
      gemm_result O l d n m alpha beta (op_ent opS (win a ro co)) (op_ent opA (cell O l lda A)) B ldb B'.
  Proof using L Hw Hf Hsched Hsort.
    intros HD [Hin Hu] Hn FA FB. destruct S as [D|D]; cbn [sketch_general_left skop_rows skop_cols] in *.
    - destruct (lskge3_spec O L cast denv fsched l opS opA d n m alpha D ro co A lda beta B ldb a) as (B' & -> & G); auto.
      cbn [bind]. exists (SkDense D), B'. cbn [same_op]. auto.
    - destruct HD as [HV HA]. pose proof Hin as (I1 & I2 & I3 & I4 & I5 & I6).
      assert (0 <= d /\ 0 <= m) as [Hd Hm] by (destruct opS; cbn [rows_before cols_before] in *; lia).
      destruct (lskges_spec O L senv jT jZ sched ssort nt Hsched Hsort l opS opA d n m alpha D ro co A lda beta B ldb) as (D' & B' & -> & HS & G); auto; try lia.
      cbn [bind]. exists (SkSparse D'), B'. split; [reflexivity|].
      assert (gemm_result O l d n m alpha beta (op_ent opS (win a ro co)) (op_ent opA (cell O l lda A)) B ldb B') as G'.
      { refine (gemm_ext O l d n m alpha beta _ _ _ _ B ldb B' _ _ G); [|auto]. eapply win_in; [exact Hin|exact HA]. }
      cbn [same_op]. destruct (ss_nnz D <? 0) eqn:En.
      + subst D'. split; [split; assumption|]. auto.
      + pose proof HV as HV'. unfold sparse_valid in HV'. rewrite En in HV'. destruct HV' as [Hz _].
        split; [apply (same_denotes D); auto; split; auto|]. auto.
  Qed.


  (** From the right: a sparse operator must have been materialised. *)
  Lemma sketch_general_right_spec l opA opS m d n alpha A lda S ro co beta B ldb a :
    skop_denotes O cast denv senv S a -> usable O senv S (flip_op opS) d m n ro co alpha -> 0 <= m ->
    (forall D, S = SkSparse D -> 0 <= ss_nnz D) ->
    fits_buffer l lda (rows_before opA m n) (cols_before opA m n) (zlen A) -> fits_buffer l ldb m d (zlen B) ->
    exists S' B', sketch_general_right O cast denv fsched senv jT jZ sched ssort nt l opA opS m d n alpha A lda S ro co beta B ldb = Ok (S', B') /\
      skop_denotes O cast denv senv S' a /\ same_op S S' /\
      gemm_result O l m d n alpha beta (op_ent opA (cell O l lda A)) (op_ent opS (win a ro co)) B ldb B'.
  Proof using L Hw Hf Hsched Hsort.
    intros HD [Hin Hu] Hm HF FA FB. destruct (flip_op_dims opS n d) as [Er Ec]. rewrite Er, Ec in Hin. destruct S as [D|D]; cbn [sketch_general_right skop_rows skop_cols] in *.
    - destruct (rskge3_spec O L cast denv fsched l opA opS m d n alpha A lda D ro co beta B ldb a) as (B' & -> & G); auto.
      { intros X. apply Hu in X. lia. }
      cbn [bind]. exists (SkDense D), B'. cbn [same_op]. auto.
    - destruct HD as [HV HA]. specialize (HF D eq_refl). pose proof Hin as (I1 & I2 & I3 & I4 & I5 & I6).
      assert (0 <= d /\ 0 <= n) as [Hd Hn] by (destruct opS; cbn [rows_before cols_before] in *; lia).
      destruct (rskges_spec O L senv jT jZ sched ssort nt Hsched Hsort l opA opS m d n alpha A lda D ro co beta B ldb) as (D' & B' & -> & HS & G); auto; try lia.
      cbn [bind]. exists (SkSparse D'), B'. split; [reflexivity|].
      assert (gemm_result O l m d n alpha beta (op_ent opA (cell O l lda A)) (op_ent opS (win a ro co)) B ldb B') as G'.
      { refine (gemm_ext O l m d n alpha beta _ _ _ _ B ldb B' _ _ G); [auto|]. eapply win_in; [exact Hin|exact HA]. }
      cbn [same_op]. pose proof HV as HV'. unfold sparse_valid in HV'. replace (ss_nnz D <? 0) with false in * by lia. destruct HV' as [Hz _].
      split; [apply (same_denotes D); auto; split; auto|]. auto.
  Qed.

  (** Vectors. *)


  Lemma sketch_vector_spec opS d m alpha S ro co x incx beta y incy a :
    skop_denotes O cast denv senv S a -> 1 <= incx -> 1 <= incy ->
    let d_ := rows_before opS d m in let m_ := cols_before opS d m in
    usable O senv S opS d_ 1 m_ ro co alpha ->
    (forall k, 0 <= k < m_ -> k * incx < zlen x) -> (forall i, 0 <= i < d_ -> i * incy < zlen y) ->
    exists S' y', sketch_vector O cast denv fsched senv jT jZ sched ssort nt opS d m alpha S ro co x incx beta y incy = Ok (S', y') /\
      skop_denotes O cast denv senv S' a /\ same_op S S' /\
      gemv_result O d_ m_ alpha beta (op_ent opS (win a ro co)) x incx y incy y'.
  Proof using L Hw Hf Hsched Hsort.
    intros HD Hx Hy d_ m_ Hu FX FY. unfold sketch_vector.
    replace (match opS with Trans => (m, d) | NoTrans => (d, m) end) with (d_, m_) by (unfold d_, m_; now destruct opS).
    destruct (sketch_general_left_spec RowMajor opS NoTrans d_ 1 m_ alpha S ro co x incx beta y incy a HD Hu) as (S' & y' & E & H1 & H2 & G); try lia.
    - now apply fits_vector.
    - now apply fits_vector.
    - exists S', y'. split; [exact E|]. do 2 (split; [assumption|]). now apply gemv_of_gemm.
  Qed.
  End Run.

  (** Histories. *)
  Lemma fill_dense_sampled fs (D D' : dense_skop K T) a : valid_schedule fs -> sampled O cast denv senv (SkDense D) a ->
    fill_dense_skop cast denv fs D = Ok D' -> sampled O cast denv senv (SkDense D') a.
  Proof using Hw.
    intros Hfs (V & Sz & HA & HB) E. pose proof (valid_dist_pos _ V) as (P1 & P2 & _). unfold fill_dense_skop in E.
    set (buff := match ds_buff D with None => if ds_own D then Some (repeat (env_junk denv) (Z.to_nat (dd_rows (ds_dist D) * dd_cols (ds_dist D)))) else None | Some b => Some b end) in E.
    assert (forall b, buff = Some b -> dd_rows (ds_dist D) * dd_cols (ds_dist D) <= zlen b) as HL.
    { intros b Hb. unfold buff in Hb. unfold dense_denotes in HB. destruct (ds_buff D) as [b0|].
      - injection Hb as <-. apply HB.
      - destruct (ds_own D); [|discriminate]. injection Hb as <-. rewrite zlen_repeat. nia. }
    destruct buff as [b|]; [|discriminate]. specialize (HL b eq_refl).
    destruct (fill_dense_unpacked_spec cast denv fs (ds_layout D) (ds_dist D) (dd_rows (ds_dist D)) (dd_cols (ds_dist D)) 0 0 b (ds_seed D)) as (b' & E' & Lb & G & _); auto; try lia.
    rewrite E' in E. cbn [bind] in E. injection E as <-. cbn [sampled ds_dist ds_seed ds_buff dense_denotes].
    split; [exact V|]. split; [exact Sz|]. split; [exact HA|]. unfold dense_denotes. cbn [ds_dist ds_buff ds_layout]. split; [lia|].
    intros i j Hi Hj. rewrite G by auto. now apply HA.
  Qed.

  Lemma fill_sparse_sampled jT jZ (D D' : sparse_skop K T) a : sampled O cast denv senv (SkSparse D) a ->
    fill_sparse senv jT jZ D = Ok D' -> sampled O cast denv senv (SkSparse D') a.
  Proof using Type.
    intros (V & HB & HA & HC) E. destruct (fill_sparse_spec senv jT jZ D V HB) as (S' & E' & D1 & D2 & D3 & D4 & Z1 & V1 & AT & B1).
    rewrite E in E'. injection E' as <-. cbn [sampled]. rewrite D1, D2. split; [exact V|]. split; [exact B1|]. split; [exact HA|]. right. split; [exact Z1|]. split; [exact V1|].
    intros i j. now rewrite AT.
  Qed.

  Lemma view_sampled jT jZ (D D1 : sparse_skop K T) M a : sampled O cast denv senv (SkSparse D) a ->
    coo_view_of_skop senv jT jZ D = Ok (D1, M) ->
    sampled O cast denv senv (SkSparse D1) a /\ 0 < ss_nnz D1 /\ co_nr M = sd_rows (ss_dist D1) /\ co_nc M = sd_cols (ss_dist D1) /\ co_nnz M = ss_nnz D1 /\ co_base M = BZero /\
    co_vals M = ss_vals D1 /\ co_rows M = ss_rows D1 /\ co_cols M = ss_cols D1 /\ coo_arrays M.
  Proof using Type.
    intros HS E. unfold coo_view_of_skop in E. apply bind_Ok in E as (D2 & E1 & E). apply bind_Ok in E as (M' & E2 & E). injection E as -> ->.
    assert (sampled O cast denv senv (SkSparse D1) a /\ 0 < ss_nnz D1) as [HS1 Hz].
    { destruct (ss_nnz D <=? 0) eqn:En.
      - split; [eapply fill_sparse_sampled; eauto|]. destruct HS as (V & HB & _). destruct (fill_sparse_spec senv jT jZ D V HB) as (S' & E' & _ & _ & _ & _ & Z1 & _).
        rewrite E1 in E'. injection E' as <-. exact Z1.
      - injection E1 as <-. split; [exact HS|]. lia. }
    unfold mk_coo_expert in E2. apply bind_Ok in E2 as (s & _ & E2). injection E2 as <-. cbn [co_nr co_nc co_nnz co_base co_vals co_rows co_cols].
    split; [exact HS1|]. split; [exact Hz|]. do 7 (split; [reflexivity|]).
    destruct HS1 as (_ & _ & _ & [HC|(_ & V & _)]); [lia|]. apply valid_coo_arrays in V. exact V.
  Qed.

  Lemma reorder_sampled (D : sparse_skop K T) M M' a : sampled O cast denv senv (SkSparse D) a -> 0 < ss_nnz D ->
    co_nr M = sd_rows (ss_dist D) -> co_nc M = sd_cols (ss_dist D) -> co_nnz M = ss_nnz D -> co_base M = BZero ->
    co_vals M = ss_vals D -> co_rows M = ss_rows D -> co_cols M = ss_cols D -> reordered M M' -> sampled O cast denv senv (SkSparse (with_arrays D (SpCoo M'))) a.
  Proof using Type.
    intros (V & HB & HA & HC) Hz E1 E2 E3 E4 E5 E6 E7 (HM & L1 & L2 & L3).
    destruct HC as [HC|(_ & VC & P)]; [lia|].
    assert (valid_coo M) as VM. { destruct VC as (? & ? & ? & ? & ? & ?). unfold valid_coo. rewrite E1, E2, E3, E4, E5, E6, E7. cbn [skop_coo co_nr co_nc co_nnz co_base co_vals co_rows co_cols] in *. auto 10. }
    pose proof (same_coo_valid M M' E4 VM HM) as VM'. destruct HM as (A1 & A2 & A3 & A4 & A5 & A6 & (B1 & B2 & B3 & B4) & PM).
    cbn [sampled with_arrays ss_dist ss_seed ss_nnz]. split; [exact V|]. split; [|split; [exact HA|right; split; [exact Hz|split]]].
    - destruct HB as (HB1 & HB2 & HB3). unfold buffers_ok in *. cbn [with_arrays ss_dist ss_own ss_vals ss_rows ss_cols].
      rewrite A4, E3 in *.
      rewrite E5 in L1. rewrite E6 in L2. rewrite E7 in L3. unfold buffer_ok in *.
      destruct (co_vals M'), (co_rows M'), (co_cols M'); cbn [arrv] in *; rewrite ?zlen_nil in *; try (change (zlen (@nil T)) with 0 in *); try (change (zlen (@nil Z)) with 0 in *); try lia.
      destruct (ss_vals D), (ss_rows D), (ss_cols D); cbn [arrv] in *; try (change (zlen (@nil T)) with 0 in *); try (change (zlen (@nil Z)) with 0 in *); lia.
    - destruct VM' as (? & ? & ? & ? & ? & ?). unfold valid_coo, skop_coo. cbn [ss_dist ss_nnz ss_vals ss_rows ss_cols co_nr co_nc co_nnz co_base co_vals co_rows co_cols].
      rewrite A1, A2, A4, A5, E1, E2, E3, E4 in *. auto 10.
    - intros i j. etransitivity; [apply P|].
      transitivity (coo_at M i j).
      + unfold coo_at, skop_coo. cbn [ss_dist ss_nnz ss_vals ss_rows ss_cols co_nr co_nc co_nnz co_base co_vals co_rows co_cols]. rewrite E3, E4, E5, E6, E7. reflexivity.
      + transitivity (coo_at M' i j); [apply stored_perm_at; assumption|]. unfold coo_at, skop_coo. cbn [ss_dist ss_nnz ss_vals ss_rows ss_cols co_nr co_nc co_nnz co_base co_vals co_rows co_cols].
        rewrite A4, A5, E3, E4. reflexivity.
  Qed.

  Lemma lfilled_sampled jT jZ sched ssort nt l opS opA d n m alpha D ro co A lda beta B ldb D' B' a : sort_ok ssort -> sampled O cast denv senv (SkSparse D) a ->
    lskges_filled O senv jT jZ sched ssort nt l opS opA d n m alpha D ro co A lda beta B ldb = Ok (D', B') -> sampled O cast denv senv (SkSparse D') a.
  Proof using Type.
    intros Hss HS E. unfold lskges_filled in E. apply bind_Ok in E as ([D1 M] & E1 & E). apply bind_Ok in E as ([A' B1] & E2 & E). injection E as <- <-.
    destruct (view_sampled _ _ _ _ _ _ HS E1) as (HS1 & Hz & F1 & F2 & F3 & F4 & F5 & F6 & F7 & F8).
    destruct (left_reorders O sched ssort Hss _ _ _ _ _ _ _ _ _ _ _ _ _ _ _ _ _ _ _ F8 E2) as (M' & -> & R). now apply (reorder_sampled D1 M).
  Qed.
  Lemma rfilled_sampled jT jZ sched ssort nt l opA opS m d n alpha A lda D ro co beta B ldb D' B' a : sort_ok ssort -> sampled O cast denv senv (SkSparse D) a ->
    rskges_filled O senv jT jZ sched ssort nt l opA opS m d n alpha A lda D ro co beta B ldb = Ok (D', B') -> sampled O cast denv senv (SkSparse D') a.
  Proof using Type.
    intros Hss HS E. unfold rskges_filled in E. apply bind_Ok in E as ([D1 M] & E1 & E). apply bind_Ok in E as ([A' B1] & E2 & E). injection E as <- <-.
    destruct (view_sampled _ _ _ _ _ _ HS E1) as (HS1 & Hz & F1 & F2 & F3 & F4 & F5 & F6 & F7 & F8).
    destruct (left_reorders O sched ssort Hss _ _ _ _ _ _ _ _ _ _ _ _ _ _ _ _ _ _ _ F8 E2) as (M' & -> & R). now apply (reorder_sampled D1 M).
  Qed.

  Lemma use_sampled S S' a : sampled O cast denv senv S a -> use O cast denv senv S S' -> sampled O cast denv senv S' a.
  Proof using Hw.
    intros HS HU. destruct HU as [fs D D' Hfs E|jT jZ D D' E|fs jT jZ sc ss nt l opS opA d n m alpha S ro co A lda beta B ldb S' B' Hss E|fs jT jZ sc ss nt l opA opS m d n alpha A lda S ro co beta B ldb S' B' Hss E].
    - eapply fill_dense_sampled; eauto.
    - eapply fill_sparse_sampled; eauto.
    - destruct S as [D|D]; cbn [sketch_general_left] in E.
      + apply bind_Ok in E as (B1 & _ & E). injection E as <- <-. exact HS.
      + apply bind_Ok in E as ([D1 B1] & E1 & E). injection E as <- <-. unfold lskges in E1. destruct (ss_nnz D <? 0).
        * apply bind_Ok in E1 as (Dc & _ & E1). apply bind_Ok in E1 as ([D2 B2] & _ & E1). injection E1 as <- <-. exact HS.
        * eapply lfilled_sampled; eauto.
    - destruct S as [D|D]; cbn [sketch_general_right] in E.
      + apply bind_Ok in E as (B1 & _ & E). injection E as <- <-. exact HS.
      + apply bind_Ok in E as ([D1 B1] & E1 & E). injection E as <- <-. unfold rskges in E1. apply bind_Ok in E1 as (B2 & _ & E1). eapply rfilled_sampled; eauto.
  Qed.
  Lemma uses_sampled S S' a : sampled O cast denv senv S a -> uses O cast denv senv S S' -> sampled O cast denv senv S' a.
  Proof using Hw. intros HS HU. induction HU as [|S1 S2 S3 H1 H2 IH]; [exact HS|]. apply IH. eapply use_sampled; eauto. Qed.

  Lemma sampled_denotes S a : sampled O cast denv senv S a -> skop_denotes O cast denv senv S a.
  Proof using L.
    destruct S as [D|D]; cbn [sampled skop_denotes].
    - intros (V & Sz & HA & HB). unfold dense_denotes in *. destruct (ds_buff D); [exact HB|auto].
    - intros (V & HB & HA & HC). unfold sparse_valid, sparse_at. destruct HC as [HC|(Hz & VC & P)].
      + replace (ss_nnz D <? 0) with true by lia. auto.
      + replace (ss_nnz D <? 0) with false by lia. split; [auto|]. intros i j Hi Hj. rewrite <- HA by auto. apply (sumT_perm O L). apply Permutation_sym, P.
  Qed.

  Lemma fill_sparse_dist jT jZ (D D' : sparse_skop K T) : fill_sparse senv jT jZ D = Ok D' -> ss_dist D' = ss_dist D.
  Proof using Type.
    unfold fill_sparse. intros E. repeat match type of E with context [match ?x with Some _ => _ | None => _ end] => destruct x; try discriminate end.
    apply bind_Ok in E as ([[[[? ?] ?] ?] ?] & _ & E). injection E as <-. reflexivity.
  Qed.
  (** Uses keep the dimensions. *)
  Lemma same_dims S S' : use O cast denv senv S S' -> skop_rows S' = skop_rows S /\ skop_cols S' = skop_cols S.
  Proof using Type.
    intros HU. destruct HU as [fs D D' Hfs E|jT jZ D D' E|fs jT jZ sc ss nt l opS opA d n m alpha S ro co A lda beta B ldb S' B' Hss E|fs jT jZ sc ss nt l opA opS m d n alpha A lda S ro co beta B ldb S' B' Hss E].
    - unfold fill_dense_skop in E. destruct (match ds_buff D with None => _ | Some b => Some b end); [|discriminate]. apply bind_Ok in E as ([b' st] & _ & E). injection E as <-. auto.
    - cbn [skop_rows skop_cols]. rewrite (fill_sparse_dist _ _ _ _ E). auto.
    - destruct S as [D|D]; cbn [sketch_general_left] in E.
      + apply bind_Ok in E as (B1 & _ & E). injection E as <- <-. auto.
      + apply bind_Ok in E as ([D1 B1] & E1 & E). injection E as <- <-. unfold lskges in E1. destruct (ss_nnz D <? 0).
        * apply bind_Ok in E1 as (Dc & _ & E1). apply bind_Ok in E1 as ([D2 B2] & _ & E1). injection E1 as <- <-. auto.
        * unfold lskges_filled, coo_view_of_skop in E1. apply bind_Ok in E1 as ([D2 M] & E1 & E2). apply bind_Ok in E2 as ([A' B2] & _ & E2). injection E2 as <- <-.
          apply bind_Ok in E1 as (D3 & E1 & E3). apply bind_Ok in E3 as (M' & _ & E3). injection E3 as -> ->.
          assert (ss_dist D2 = ss_dist D) as X.
          { destruct (ss_nnz D <=? 0); [|now injection E1 as <-]. eapply fill_sparse_dist; eauto. }
          destruct A'; cbn [with_arrays skop_rows skop_cols ss_dist]; rewrite X; auto.
    - destruct S as [D|D]; cbn [sketch_general_right] in E.
      + apply bind_Ok in E as (B1 & _ & E). injection E as <- <-. auto.
      + apply bind_Ok in E as ([D1 B1] & E1 & E). injection E as <- <-. unfold rskges in E1. apply bind_Ok in E1 as (B2 & _ & E1).
        unfold rskges_filled, coo_view_of_skop in E1. apply bind_Ok in E1 as ([D2 M] & E1 & E2). apply bind_Ok in E2 as ([A' B3] & _ & E2). injection E2 as <- <-.
        apply bind_Ok in E1 as (D3 & E1 & E3). apply bind_Ok in E3 as (M' & _ & E3). injection E3 as -> ->.
        assert (ss_dist D2 = ss_dist D) as X.
        { destruct (ss_nnz D <=? 0); [|now injection E1 as <-]. eapply fill_sparse_dist; eauto. }
        destruct A'; cbn [with_arrays skop_rows skop_cols ss_dist]; rewrite X; auto.
  Qed.
End Operators.
