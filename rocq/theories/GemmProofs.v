(** The drivers inherit what the BLAS promises. *)
From Verif Require Import Base Interleave Spec RngModel DenseModel DenseSpec DenseProofs DenseProofs2 DenseProofs3 SparseSkopModel SparseSpec SpFmtModel SpFmtSpec SpmmModel SpmmSpec SpmmProofs SpmmProofs5 UtilModel SketchModel SketchSpec LoopProofs SketchProofs SketchProofs2 RoundSpec GemmModel GemmSpec.

Lemma row_col_ext {T} (a a' b b' : Z -> Z -> T) k i j : (forall p, 0 <= p < k -> a i p = a' i p) -> (forall p, 0 <= p < k -> b p j = b' p j) -> row_col a b k i j = row_col a' b' k i j.
Proof. intros Ha Hb. unfold row_col. apply map_ext_in. intros p Hp. apply in_range in Hp. now rewrite Ha, Hb by lia. Qed.
Lemma updated_ext {T} (P : T -> list (T * T) -> T -> T -> T -> Prop) l d n m alpha beta (a a' b b' : Z -> Z -> T) C ldc C' :
  (forall i k, 0 <= i < d -> 0 <= k < m -> a i k = a' i k) -> (forall k j, 0 <= k < m -> 0 <= j < n -> b k j = b' k j) ->
  updated P l d n m alpha beta a b C ldc C' -> updated P l d n m alpha beta a' b' C ldc C'.
Proof.
  intros Ha Hb [H1 H2]. split; [exact H1|]. intros i j c Hi Hj Gc. destruct (H2 i j c Hi Hj Gc) as (y & Gy & Py). exists y. split; [exact Gy|].
  rewrite <- (row_col_ext a a' b b' m i j); auto.
Qed.

Section Drivers.
  Context {K W F T : Type}.
  Variable O : ops T.
  Variable cast : W -> T.
  Variable denv : dense_env K W T.
  Variable fsched : schedule T.
  Variable P : T -> list (T * T) -> T -> T -> T -> Prop.
  Variable blas : blas_gemm T.
  Hypothesis HB : keeps_promise O P blas.

  Lemma lskge3_buff_with_spec l opS opA d n m alpha S ro co A lda beta B ldb a :
    operand S (rows_before opS d m) (cols_before opS d m) ro co a -> 0 <= n ->
    fits_buffer l lda (rows_before opA m n) (cols_before opA m n) (zlen A) -> fits_buffer l ldb d n (zlen B) ->
    exists B', lskge3_buff_with blas l opS opA d n m alpha S ro co A lda beta B ldb = Ok B' /\
      updated P l d n m alpha beta (op_ent opS (win a ro co)) (op_ent opA (cell O l lda A)) B ldb B'.
  Proof using HB.
    intros (Hin & HL & HG) Hn FA FB. unfold lskge3_buff_with. rewrite !dims_eq.
    pose proof Hin as (I1 & I2 & I3 & I4 & I5 & I6).
    assert (0 <= d /\ 0 <= m) as [Hd Hm] by (destruct opS; cbn [rows_before cols_before] in *; lia).
    replace (bo_rows S >=? rows_before opS d m + ro) with true by lia.
    replace (bo_cols S >=? cols_before opS d m + co) with true by lia. rewrite !require_true. cbn [bind].
    pose proof (proj1 FA) as FA1. pose proof (proj1 FB) as FB1.
    replace (match l with ColMajor => req (lda >=? rows_before opA m n) ;; req (ldb >=? d) ;; Ok tt
             | RowMajor => req (lda >=? cols_before opA m n) ;; req (ldb >=? n) ;; Ok tt end) with (Ok tt).
    2:{ destruct l; cbn [min_ld] in *.
        - replace (lda >=? rows_before opA m n) with true by lia. replace (ldb >=? d) with true by lia. reflexivity.
        - replace (lda >=? cols_before opA m n) with true by lia. replace (ldb >=? n) with true by lia. reflexivity. }
    cbn [bind]. destruct (window_spec O _ _ _ ro co _ _ (bo_buff S) a Hin HL HG) as (t & Et & Ft & Gt).
    destruct (offset_and_ldim (bo_layout S) (bo_rows S) (bo_cols S) ro co) as [pos lds]. cbn [fst snd] in *. rewrite Et. cbn [bind].
    destruct (layout_op O (bo_layout S) l opS lds d m t Ft) as [Fo Go]. set (o' := if layout_eqb (bo_layout S) l then opS else flip_op opS) in *. clearbody o'.
    destruct (HB l o' opA d n m alpha t lds A lda beta B ldb Hd Hn Hm Fo FA FB) as (B' & E & G).
    exists B'. split; [exact E|]. refine (updated_ext P l d n m alpha beta _ _ _ _ B ldb B' _ _ G); [|auto].
    intros i k Hi Hk. rewrite Go. destruct opS; cbn [op_ent rows_before cols_before] in *; apply Gt; lia.
  Qed.
  Lemma rskge3_buff_with_spec l opA opS m d n alpha A lda S ro co beta B ldb a :
    operand S (rows_before opS n d) (cols_before opS n d) ro co a -> 0 <= m ->
    fits_buffer l lda (rows_before opA m n) (cols_before opA m n) (zlen A) -> fits_buffer l ldb m d (zlen B) ->
    exists B', rskge3_buff_with blas l opA opS m d n alpha A lda S ro co beta B ldb = Ok B' /\
      updated P l m d n alpha beta (op_ent opA (cell O l lda A)) (op_ent opS (win a ro co)) B ldb B'.
  Proof using HB.
    intros (Hin & HL & HG) Hm FA FB. unfold rskge3_buff_with. rewrite !dims_eq.
    pose proof Hin as (I1 & I2 & I3 & I4 & I5 & I6).
    assert (0 <= d /\ 0 <= n) as [Hd Hn] by (destruct opS; cbn [rows_before cols_before] in *; lia).
    replace (bo_rows S >=? rows_before opS n d + ro) with true by lia.
    replace (bo_cols S >=? cols_before opS n d + co) with true by lia. rewrite !require_true. cbn [bind].
    pose proof (proj1 FA) as FA1. pose proof (proj1 FB) as FB1.
    replace (match l with ColMajor => req (lda >=? rows_before opA m n) ;; req (ldb >=? m) ;; Ok tt
             | RowMajor => req (lda >=? cols_before opA m n) ;; req (ldb >=? d) ;; Ok tt end) with (Ok tt).
    2:{ destruct l; cbn [min_ld] in *.
        - replace (lda >=? rows_before opA m n) with true by lia. replace (ldb >=? m) with true by lia. reflexivity.
        - replace (lda >=? cols_before opA m n) with true by lia. replace (ldb >=? d) with true by lia. reflexivity. }
    cbn [bind]. destruct (window_spec O _ _ _ ro co _ _ (bo_buff S) a Hin HL HG) as (t & Et & Ft & Gt).
    destruct (offset_and_ldim (bo_layout S) (bo_rows S) (bo_cols S) ro co) as [pos lds]. cbn [fst snd] in *. rewrite Et. cbn [bind].
    destruct (layout_op O (bo_layout S) l opS lds n d t Ft) as [Fo Go]. set (o' := if layout_eqb (bo_layout S) l then opS else flip_op opS) in *. clearbody o'.
    destruct (HB l opA o' m d n alpha A lda t lds beta B ldb Hm Hd Hn FA Fo FB) as (B' & E & G).
    exists B'. split; [exact E|]. refine (updated_ext P l m d n alpha beta _ _ _ _ B ldb B' _ _ G); [auto|].
    intros k j Hk Hj. rewrite Go. destruct opS; cbn [op_ent rows_before cols_before] in *; apply Gt; lia.
  Qed.

  Lemma lskge3_with_spec l opS opA d n m alpha S ro co A lda beta B ldb a :
    valid_schedule fsched -> wf_env denv -> dense_denotes cast denv S a ->
    in_matrix (dd_rows (ds_dist S)) (dd_cols (ds_dist S)) (rows_before opS d m) (cols_before opS d m) ro co ->
    (ds_buff S = None -> 1 <= d /\ 1 <= m) -> 0 <= n ->
    fits_buffer l lda (rows_before opA m n) (cols_before opA m n) (zlen A) -> fits_buffer l ldb d n (zlen B) ->
    exists B', lskge3_with cast denv fsched blas l opS opA d n m alpha S ro co A lda beta B ldb = Ok B' /\
      updated P l d n m alpha beta (op_ent opS (win a ro co)) (op_ent opA (cell O l lda A)) B ldb B'.
  Proof using HB.
    intros Hs Hw HD Hin Hne Hn FA FB. unfold lskge3_with. rewrite dims_eq.
    pose proof (dense_operand cast denv fsched S a _ _ ro co Hs Hw HD Hin) as HO. destruct (ds_buff S) as [b|].
    - apply lskge3_buff_with_spec; auto. apply HO. discriminate.
    - destruct HO as (Bk & E & HO). { intros _. specialize (Hne eq_refl). destruct opS; cbn [rows_before cols_before]; lia. }
      rewrite E. cbn [bind]. destruct (lskge3_buff_with_spec l opS opA d n m alpha Bk 0 0 A lda beta B ldb (win a ro co) HO Hn FA FB) as (B' & E' & G).
      exists B'. split; [exact E'|]. refine (updated_ext P l d n m alpha beta _ _ _ _ B ldb B' _ _ G); [|auto].
      intros i k _ _. destruct opS; cbn [op_ent]; apply win_0.
  Qed.
  Lemma rskge3_with_spec l opA opS m d n alpha A lda S ro co beta B ldb a :
    valid_schedule fsched -> wf_env denv -> dense_denotes cast denv S a ->
    in_matrix (dd_rows (ds_dist S)) (dd_cols (ds_dist S)) (rows_before opS n d) (cols_before opS n d) ro co ->
    (ds_buff S = None -> 1 <= d /\ 1 <= n) -> 0 <= m ->
    fits_buffer l lda (rows_before opA m n) (cols_before opA m n) (zlen A) -> fits_buffer l ldb m d (zlen B) ->
    exists B', rskge3_with cast denv fsched blas l opA opS m d n alpha A lda S ro co beta B ldb = Ok B' /\
      updated P l m d n alpha beta (op_ent opA (cell O l lda A)) (op_ent opS (win a ro co)) B ldb B'.
  Proof using HB.
    intros Hs Hw HD Hin Hne Hm FA FB. unfold rskge3_with. rewrite dims_eq.
    pose proof (dense_operand cast denv fsched S a _ _ ro co Hs Hw HD Hin) as HO. destruct (ds_buff S) as [b|].
    - apply rskge3_buff_with_spec; auto. apply HO. discriminate.
    - destruct HO as (Bk & E & HO). { intros _. specialize (Hne eq_refl). destruct opS; cbn [rows_before cols_before]; lia. }
      rewrite E. cbn [bind]. destruct (rskge3_buff_with_spec l opA opS m d n alpha A lda Bk 0 0 beta B ldb (win a ro co) HO Hm FA FB) as (B' & E' & G).
      exists B'. split; [exact E'|]. refine (updated_ext P l m d n alpha beta _ _ _ _ B ldb B' _ _ G); [auto|].
      intros k j _ _. destruct opS; cbn [op_ent]; apply win_0.
  Qed.
End Drivers.

(** ** BLAS implementations that treat every entry on its own *)
Section Entrywise.
  Context {T : Type}.
  Variable O : ops T.
  (** Read row i of op(A) and column j of op(B). *)
  Definition read_row_col (l : layout) (opA opB : op) (k : Z) (A : list T) (lda : Z) (B : list T) (ldb i j : Z) : outcome (list (T * T)) :=
    for_ 0 k (fun p s =>
      a <- rd A (match opA with NoTrans => addr l lda i p | Trans => addr l lda p i end) ;;
      b <- rd B (match opB with NoTrans => addr l ldb p j | Trans => addr l ldb j p end) ;;
      Ok (s ++ [(a, b)])) [].
  Variable entry : T -> list (T * T) -> T -> T -> T.
  Definition gemm_by : blas_gemm T := fun l opA opB m n k alpha A lda B ldb beta C ldc =>
    req (gemm_checks l opA opB m n k lda ldb ldc) ;;
    for_ 0 n (fun j C => for_ 0 m (fun i C =>
      p <- read_row_col l opA opB k A lda B ldb i j ;;
      c <- rd C (addr l ldc i j) ;;
      wr C (addr l ldc i j) (entry alpha p beta c)) C) C.

  Lemma read_row_col_spec l opA opB m n k A lda B ldb i j :
    0 <= k -> fits_buffer l lda (rows_before opA m k) (cols_before opA m k) (zlen A) ->
    fits_buffer l ldb (rows_before opB k n) (cols_before opB k n) (zlen B) -> 0 <= i < m -> 0 <= j < n ->
    read_row_col l opA opB k A lda B ldb i j = Ok (row_col (op_ent opA (cell O l lda A)) (op_ent opB (cell O l ldb B)) k i j).
  Proof.
    intros Hk FA FB Hi Hj. unfold read_row_col.
    destruct (for_inv (fun p s => s = row_col (op_ent opA (cell O l lda A)) (op_ent opB (cell O l ldb B)) p i j) 0 k
      (fun p s => a <- rd A (match opA with NoTrans => addr l lda i p | Trans => addr l lda p i end) ;;
                  b <- rd B (match opB with NoTrans => addr l ldb p j | Trans => addr l ldb j p end) ;; Ok (s ++ [(a, b)])) []) as (s & E & ->); auto.
    intros p s Hp ->. eexists. split.
    - assert (rd A (match opA with NoTrans => addr l lda i p | Trans => addr l lda p i end) = Ok (op_ent opA (cell O l lda A) i p)) as ->.
      { destruct opA; cbn [op_ent rows_before cols_before] in *; eapply cell_rd; eauto. }
      assert (rd B (match opB with NoTrans => addr l ldb p j | Trans => addr l ldb j p end) = Ok (op_ent opB (cell O l ldb B) p j)) as ->.
      { destruct opB; cbn [op_ent rows_before cols_before] in *; eapply cell_rd; eauto. }
      reflexivity.
    - unfold row_col. rewrite range_snoc by lia. now rewrite map_app.
  Qed.
  Lemma gemm_by_promise (P : T -> list (T * T) -> T -> T -> T -> Prop) : (forall alpha p beta c, P alpha p beta c (entry alpha p beta c)) -> keeps_promise O P gemm_by.
  Proof.
    intros HP l opA opB m n k alpha A lda B ldb beta C ldc Hm Hn Hk FA FB FC. unfold gemm_by. rewrite (gemm_checks_true l opA opB m n k lda ldb ldc _ _ _ Hm Hn Hk FA FB FC). cbn [require bind].
    set (rc := row_col (op_ent opA (cell O l lda A)) (op_ent opB (cell O l ldb B)) k).
    destruct (rect_cells m n (addr l ldc) (fun i j x => entry alpha (rc i j) beta x)
      (fun i j C => p <- read_row_col l opA opB k A lda B ldb i j ;; c <- rd C (addr l ldc i j) ;; wr C (addr l ldc i j) (entry alpha p beta c)) C) as (C' & E & L1 & G & U).
    - intros i j i' j' Hi Hj Hi' Hj'. apply (addr_inj l m n); auto. apply FC.
    - intros i j Hi Hj. now apply (fits_addr l ldc m n).
    - intros i j D x Hi Hj LD GD. destruct (wr_ex D (addr l ldc i j) (entry alpha (rc i j) beta x)) as (D' & E1 & E2 & E3 & E4).
      { rewrite LD. now apply (fits_addr l ldc m n). }
      exists D'. split; [|auto]. rewrite (read_row_col_spec l opA opB m n k A lda B ldb i j) by auto. cbn [bind]. apply rd_get in GD. rewrite GD. exact E1.
    - exists C'. split; [exact E|]. split; [split; [exact L1|exact U]|]. intros i j c Hi Hj Gc. exists (entry alpha (rc i j) beta c). split; [now apply G|apply HP].
  Qed.

  (** The textbook gemm of SketchModel. *)
  Definition textbook_entry (alpha : T) (p : list (T * T)) (beta c : T) : T :=
    let c' := if o_eqb O beta (o_zero O) then o_zero O else o_mul O beta c in
    if o_eqb O alpha (o_zero O) then c' else o_add O (o_mul O alpha (fold_left (fun s r => o_add O s (o_mul O (fst r) (snd r))) p (o_zero O))) c'.
  Lemma dot_fold l opA opB m n k A lda B ldb i j :
    0 <= k -> fits_buffer l lda (rows_before opA m k) (cols_before opA m k) (zlen A) ->
    fits_buffer l ldb (rows_before opB k n) (cols_before opB k n) (zlen B) -> 0 <= i < m -> 0 <= j < n ->
    dot O l opA opB k A lda B ldb i j = Ok (fold_left (fun s r => o_add O s (o_mul O (fst r) (snd r))) (row_col (op_ent opA (cell O l lda A)) (op_ent opB (cell O l ldb B)) k i j) (o_zero O)).
  Proof.
    intros Hk FA FB Hi Hj. unfold dot.
    destruct (for_inv (fun p s => s = fold_left (fun s r => o_add O s (o_mul O (fst r) (snd r))) (row_col (op_ent opA (cell O l lda A)) (op_ent opB (cell O l ldb B)) p i j) (o_zero O)) 0 k
      (fun p s => a <- rd A (match opA with NoTrans => addr l lda i p | Trans => addr l lda p i end) ;;
                  b <- rd B (match opB with NoTrans => addr l ldb p j | Trans => addr l ldb j p end) ;; Ok (o_add O s (o_mul O a b))) (o_zero O)) as (s & E & ->); auto.
    intros p s Hp ->. eexists. split.
    - assert (rd A (match opA with NoTrans => addr l lda i p | Trans => addr l lda p i end) = Ok (op_ent opA (cell O l lda A) i p)) as ->.
      { destruct opA; cbn [op_ent rows_before cols_before] in *; eapply cell_rd; eauto. }
      assert (rd B (match opB with NoTrans => addr l ldb p j | Trans => addr l ldb j p end) = Ok (op_ent opB (cell O l ldb B) p j)) as ->.
      { destruct opB; cbn [op_ent rows_before cols_before] in *; eapply cell_rd; eauto. }
      reflexivity.
    - unfold row_col. rewrite range_snoc by lia. now rewrite map_app, fold_left_app.
  Qed.
  Lemma textbook_promise (P : T -> list (T * T) -> T -> T -> T -> Prop) : (forall alpha p beta c, P alpha p beta c (textbook_entry alpha p beta c)) -> keeps_promise O P (gemm O).
  Proof.
    intros HP l opA opB m n k alpha A lda B ldb beta C ldc Hm Hn Hk FA FB FC. unfold gemm. rewrite (gemm_checks_true l opA opB m n k lda ldb ldc _ _ _ Hm Hn Hk FA FB FC). cbn [require bind].
    set (rc := row_col (op_ent opA (cell O l lda A)) (op_ent opB (cell O l ldb B)) k).
    destruct (rect_cells m n (addr l ldc) (fun i j x => textbook_entry alpha (rc i j) beta x)
      (fun i j C => c <- (if o_eqb O beta (o_zero O) then Ok (o_zero O) else x <- rd C (addr l ldc i j) ;; Ok (o_mul O beta x)) ;;
        v <- (if o_eqb O alpha (o_zero O) then Ok c else s <- dot O l opA opB k A lda B ldb i j ;; Ok (o_add O (o_mul O alpha s) c)) ;;
        wr C (addr l ldc i j) v) C) as (C' & E & L1 & G & U).
    - intros i j i' j' Hi Hj Hi' Hj'. apply (addr_inj l m n); auto. apply FC.
    - intros i j Hi Hj. now apply (fits_addr l ldc m n).
    - intros i j D x Hi Hj LD GD. destruct (wr_ex D (addr l ldc i j) (textbook_entry alpha (rc i j) beta x)) as (D' & E1 & E2 & E3 & E4).
      { rewrite LD. now apply (fits_addr l ldc m n). }
      exists D'. split; [|auto]. rewrite (dot_fold l opA opB m n k A lda B ldb i j) by auto. fold rc. apply rd_get in GD. rewrite GD. cbn [bind]. unfold textbook_entry in E1.
      destruct (o_eqb O beta (o_zero O)); cbn [bind]; destruct (o_eqb O alpha (o_zero O)); exact E1.
    - exists C'. split; [exact E|]. split; [split; [exact L1|exact U]|]. intros i j c Hi Hj Gc. exists (textbook_entry alpha (rc i j) beta c). split; [now apply G|apply HP].
  Qed.
End Entrywise.
