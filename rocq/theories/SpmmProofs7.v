(** The coordinate-format kernel outside [coo_safe]: out-of-bounds reads for every input. *)
From Coq Require Import Permutation.
From Verif Require Import Base Interleave Spec SparseSkopModel SparseSpec SparseProofs SpFmtModel SpFmtSpec SpFmtProofs SpFmtProofs2 SpFmtProofs3 SpFmtProofs4 SpFmtProofs5 SpmmModel SpmmSpec SpmmProofs SpmmProofs2 SpmmProofs3 SpmmProofs4 SpmmProofs5 SpmmProofs6.

Lemma mapM_UB_first {A B} (f : A -> outcome B) l : (forall a, In a l -> (exists b, f a = Ok b) \/ f a = UB) -> (exists a, In a l /\ f a = UB) -> mapM f l = UB.
Proof.
  induction l as [|x l IH]; intros H [a [Ha Hu]]; [destruct Ha|]. cbn [mapM]. destruct (H x (or_introl eq_refl)) as [[b E]|E]; [|now rewrite E].
  rewrite E. cbn [bind]. rewrite IH; [reflexivity|intros; apply H; now right|]. destruct Ha as [->|Ha]; [congruence|eauto].
Qed.

Section CooUB.
  Context {T : Type}.
  Variable O : ops T.
  Notation mul := (o_mul O). Notation zero := (o_zero O).

  (** The kernel for a fixed number k of entries per column, reading past the arrays. *)
  Lemma regular_UB (vals : option (list T)) idx k m (B : list T) offv incv offAv incAv N0 :
    0 <= k -> 0 <= N0 -> zlen (arrv idx) = N0 -> zlen (arrv vals) = N0 -> N0 < m * k ->
    (forall c, 0 <= c < m -> exists x, rd B (offv + c * incv) = Ok x) ->
    regular_csc_vector_ki O vals idx k m B offv incv offAv incAv = UB.
  Proof.
    intros Hk HN Li Lv Hbig HB. unfold regular_csc_vector_ki.
    assert (R : forall (s : T) j, 0 <= j ->
      (exists b, (row <- rdp idx j ;; v <- rdp vals j ;; Ok (offAv + row * incAv, [mul v s])) = Ok b /\ j < N0) \/
      ((row <- rdp idx j ;; v <- rdp vals j ;; Ok (offAv + row * incAv, [mul v s])) = UB /\ N0 <= j)).
    { intros s j Hj. destruct (Z.lt_ge_cases j N0) as [H|H]; [left|right].
      - rewrite rdp_pf by lia. cbn [bind]. rewrite (rdp_vf O) by lia. cbn [bind]. eauto.
      - rewrite (rdp_UB idx) by lia. auto. }
    match goal with |- context [mapM ?f (range 0 m)] => rewrite (mapM_UB_first f) end; [reflexivity| |].
    - intros c Hc. apply in_range in Hc. destruct (HB c Hc) as [x ->]. cbn [bind].
      destruct (Z.le_gt_cases ((c + 1) * k) N0) as [H|H].
      + left. rewrite (mapM_Ok _ (fun j => (offAv + pf idx j * incAv, [mul (vf O vals j) x]))); [eauto|].
        intros j Hj. apply in_range in Hj. assert (0 <= j) by nia. rewrite rdp_pf by lia. cbn [bind]. rewrite (rdp_vf O) by lia. reflexivity.
      + right. apply mapM_UB_first.
        * intros j Hj. apply in_range in Hj. destruct (R x j ltac:(nia)) as [(b & E & _)|[E _]]; rewrite E; eauto.
        * exists ((c + 1) * k - 1). split; [apply in_range; nia|]. destruct (R x ((c + 1) * k - 1) ltac:(nia)) as [(b & E & X)|[E _]]; [nia|exact E].
    - assert (0 < m) by nia. exists (m - 1). split; [apply in_range; lia|]. destruct (HB (m - 1) ltac:(lia)) as [x ->]. cbn [bind].
      replace (m - 1 + 1) with m by lia. apply mapM_UB_first.
      + intros j Hj. apply in_range in Hj. destruct (R x j ltac:(nia)) as [(b & E & _)|[E _]]; rewrite E; eauto.
      + exists (m * k - 1). split; [apply in_range; nia|]. destruct (R x (m * k - 1) ltac:(nia)) as [(b & E & X)|[E _]]; [nia|exact E].
  Qed.

  Lemma coo_left_sorted_UB sched alpha lB lC d n m M ro co B ldb C ldc :
    coo_arrays M -> co_base M = BZero -> nondecreasing (co_nnz M) (arrv (co_cols M)) ->
    0 <= n -> 0 <= m -> ~ coo_safe M ro co d n m -> fits_buffer lB ldb m n (zlen B) ->
    coo_left_sorted O sched alpha lB lC d n m M ro co B ldb C ldc = UB.
  Proof.
    intros (Hn & Lv & Lr & Lc) Hb Hnd Hn0 Hm Hsafe FB. unfold coo_left_sorted.
    destruct (set_filtered_spec (co_vals M) (co_rows M) (co_cols M) (co_nnz M) m d ro co
       (repeat zero (Z.to_nat (co_nnz M))) (repeat 0 (Z.to_nat (co_nnz M))) (repeat 0 (Z.to_nat (Z.max (co_nnz M) (m + 1)))))
      as (k & v1 & r1 & c1 & -> & Hk & L1 & L2 & L3 & Hpad & Htr); try (rewrite ?zlen_repeat; lia).
    cbn [bind]. rewrite zlen_repeat in L1. rewrite zlen_repeat in L2. rewrite zlen_repeat in L3. rewrite Z2Nat.id in L1, L2, L3 by lia.
    fold (stored M) in Htr. set (N0 := co_nnz M) in *.
    assert (Hcount : k = window_count M ro co d m).
    { unfold window_count. rewrite <- (zlen_map (shift3 ro co)), <- Htr. symmetry. apply zlen_coo_triples; lia. }
    assert (Hent : forall e r c v, 0 <= e < k -> get r1 e = Some r -> get c1 e = Some c -> get v1 e = Some v ->
       0 <= r < d /\ 0 <= c < m /\ In (r + ro, c + co, v) (stored M)).
    { intros e r c v He Gr Gc Gv.
      assert (G : get (coo_triples k r1 c1 v1) e = Some (r, c, v)) by (apply get_coo_triples; auto; lia).
      rewrite Htr, get_map in G. destruct (get (filter (in_window ro co d m) (stored M)) e) as [[[r0 c0] v0]|] eqn:E; [|discriminate].
      cbn in G. injection G as <- <- <-. assert (In (r0, c0, v0) (filter (in_window ro co d m) (stored M))) as Hin by (apply get_In; eauto).
      apply filter_In in Hin as [Hin W]. cbn in W. rewrite !andb_true_iff, !Z.leb_le, !Z.ltb_lt in W. split; [lia|]. split; [lia|].
      replace (r0 - ro + ro) with r0 by lia. replace (c0 - co + co) with c0 by lia. exact Hin. }
    assert (Hc1 : forall e c, 0 <= e < k -> get c1 e = Some c -> 0 <= c < m).
    { intros e c He Gc. destruct (get_lt r1 e ltac:(lia)) as [r Gr]. destruct (get_lt v1 e ltac:(lia)) as [v Gv]. specialize (Hent e r c v He Gr Gc Gv). lia. }
    assert (Hnd1 : nondecreasing k c1).
    { assert (Ho : ord (fun x y : Z * Z * T => snd (fst x) <= snd (fst y)) (coo_triples k r1 c1 v1)).
      { rewrite Htr. apply ord_map. intros p q x y Hp Gx Gy.
        assert (Ho : ord (fun x y : Z * Z * T => snd (fst x) <= snd (fst y)) (filter (in_window ro co d m) (stored M))).
        { apply ord_filter. intros p' q' [[ra ca] va] [[rb cb] vb] Hp' Ga Gb. unfold stored in Ga, Gb. fold N0 in Ga, Gb.
          pose proof (get_Some_lt _ _ _ Ga) as Ba. pose proof (get_Some_lt _ _ _ Gb) as Bb. rewrite zlen_coo_triples in Ba, Bb by lia.
          apply get_coo_triples in Ga; [|lia..]. apply get_coo_triples in Gb; [|lia..]. cbn.
          apply (Hnd p' q'); try lia; try apply Ga; apply Gb. }
        specialize (Ho p q x y Hp Gx Gy). destruct x as [[rx cx] vx], y as [[ry cy] vy]. cbn in *. lia. }
      intros p q x y Hp Hq Gx Gy. destruct (get_lt r1 p ltac:(lia)) as [rp Gp]. destruct (get_lt r1 q ltac:(lia)) as [rq Gq].
      destruct (get_lt v1 p ltac:(lia)) as [vp Gvp]. destruct (get_lt v1 q ltac:(lia)) as [vq Gvq].
      apply (Ho p q (rp, x, vp) (rq, y, vq) Hp); apply get_coo_triples; auto; lia. }
    destruct (scal_spec O k alpha v1 0) as (v2 & -> & Lv2 & _ & _); [lia..|]. cbn [bind].
    destruct (pointer_array_spec k c1 m) as [(_ & l' & -> & Ll & Gl & Gx)|[Hbad _]]; [lia..|exact Hc1| |contradiction]. cbn [bind].
    destruct (fixed_spec m (Some l')) as (fx & -> & Hfx). { cbn [arrv]. lia. }
    cbn [bind].
    assert (Cut : forall c, 0 <= count_below k c1 c <= k /\ cut k c1 c (count_below k c1 c)) by (intros; apply cut_count_below; [lia|exact Hnd1]).
    unfold coo_safe in Hsafe. fold N0 in Hsafe. rewrite <- Hcount in Hsafe.
    assert (n <> 0 /\ m <> 1 /\ ~ (m = 0 /\ 2 <= N0)) as (N1 & N2 & N3) by tauto.
    unfold csc_columns. pose proof (addr_strides lB ldb) as SB.
    destruct (layout_to_strides lB ldb) as [Br Bc]. destruct (layout_to_strides lC ldc) as [Cr Cc].
    rewrite (range_cons 0 n) by lia.
    match goal with |- context [mapM ?f (0 :: ?l)] => assert (Hf : f 0 = UB); [|change (0 :: l) with ([] ++ 0 :: l); rewrite (mapM_UB f [] 0 l); [reflexivity|intros a []|exact Hf]] end.
    destruct (Z.eq_dec m 0) as [->|Nm].
    - replace fx with true by (symmetry; apply Hfx; intros; lia). rewrite (rdp_UB (Some l')); [reflexivity|]. cbn [arrv]. lia.
    - assert (Hcol : forall e c, 0 <= e < k -> get c1 e = Some c -> c = 0).
      { intros e c He Gc. destruct (get_lt r1 e ltac:(lia)) as [r Gr]. destruct (get_lt v1 e ltac:(lia)) as [v Gv].
        pose proof (Hent e r c v He Gr Gc Gv) as (R1 & R2 & Hin). destruct (Z.eq_dec c 0) as [|Nc]; [assumption|]. exfalso. apply Hsafe.
        right. right. right. split; [lia|]. left. exists (r + ro), (c + co), v. split; [exact Hin|]. cbn. rewrite !andb_true_iff, !Z.leb_le, !Z.ltb_lt. lia. }
      assert (Pc : forall c, 1 <= c <= m -> pf (Some l') c = k).
      { intros c Hc. unfold pf. cbn [arrv]. rewrite Gl by lia. destruct (Cut c) as [B0 C0]. apply (cut_all k c1 c); auto; [lia|].
        intros e x He G. specialize (Hcol e x He G). lia. }
      replace fx with true by (symmetry; apply Hfx; intros c Hc; rewrite !Pc by lia; reflexivity).
      rewrite rdp_pf by (cbn [arrv]; lia). cbn [bind]. rewrite Pc by lia.
      assert (Big : N0 < m * k).
      { destruct (Z.le_gt_cases (m * k) N0) as [Hle|Hgt]; [|exact Hgt]. exfalso. apply Hsafe. right. right. right. split; [lia|]. right. exact Hle. }
      apply regular_UB with (N0 := N0); cbn [arrv]; try lia.
      intros c Hc. rewrite (SB c 0). rewrite (rd_cell O lB ldb B m n) by (auto; lia). eauto.
  Qed.

  Variable ssort : (Z * Z * T -> Z * Z * T -> bool) -> list (Z * Z * T) -> list (Z * Z * T).
  Hypothesis Hsort : sort_ok ssort.
  Lemma coo_left_jki_UB sched alpha lB lC d n m M ro co B ldb C ldc :
    coo_arrays M -> honest_sort M -> co_base M = BZero -> 0 <= n -> 0 <= m -> ~ coo_safe M ro co d n m -> fits_buffer lB ldb m n (zlen B) ->
    coo_left_jki O sched ssort alpha lB lC d n m M ro co B ldb C ldc = UB.
  Proof using Hsort.
    intros HA Hh Hb Hn0 Hm Hsafe FB. unfold coo_left_jki. rewrite Hb. cbn [base_eqb]. rewrite require_true. cbn [bind].
    destruct (sort_eqb (co_sort M) SCSC) eqn:Es; cbn [negb].
    - assert (Hsc : co_sort M = SCSC) by (destruct (co_sort M); try discriminate; reflexivity).
      assert (Hnd : nondecreasing (co_nnz M) (arrv (co_cols M))).
      { unfold honest_sort in Hh. rewrite Hsc in Hh. destruct HA as (_ & _ & Lr & _). now apply (ordered_csc_cols (co_nnz M) (arrv (co_rows M))). }
      rewrite coo_left_sorted_UB; auto.
    - destruct (sort_coo_spec ssort Hsort SCSC M ltac:(discriminate) HA) as (M1 & -> & A1 & A2 & A3 & A4 & A5 & A6 & HA1 & P1 & O1). cbn [bind].
      change (le_of SCSC) with le_csc in O1. rewrite <- A4 in O1.
      assert (St1 : Permutation (stored M1) (stored M)) by (unfold stored; rewrite A4; apply Permutation_sym; exact P1).
      assert (Hnd : nondecreasing (co_nnz M1) (arrv (co_cols M1))).
      { destruct HA1 as (_ & _ & Lr & _). now apply (ordered_csc_cols (co_nnz M1) (arrv (co_rows M1))). }
      rewrite coo_left_sorted_UB; auto; [congruence|]. intros Hs1. apply Hsafe.
      unfold coo_safe, window_count in *. rewrite A4 in Hs1.
      assert (Ew : zlen (filter (in_window ro co d m) (stored M)) = zlen (filter (in_window ro co d m) (stored M1))).
      { unfold zlen. f_equal. apply Permutation_length. apply Permutation_sym. now apply Permutation_filter. }
      rewrite Ew. destruct Hs1 as [H|[H|[H|[H [(r & c & v & Hin & W)|H']]]]]; auto 10.
      right. right. right. split; [exact H|]. left. exists r, c, v. split; [|exact W]. eapply Permutation_in; eauto.
  Qed.

  Lemma left_coo_UB sched nt l opA opB d n m alpha (A : coo_matrix T) ro co B ldb beta C ldc :
    valid_coo A -> honest_sort A -> co_base A = BZero -> 0 <= d -> 0 <= n -> 0 <= m ->
    rows_before opA d m <= co_nr A -> cols_before opA d m <= co_nc A ->
    o_eqb O alpha zero = false -> ~ sp_safe nt l opA opB d n m (SpCoo A) ro co ->
    fits_buffer l ldb (rows_before opB m n) (cols_before opB m n) (zlen B) -> fits_buffer l ldc d n (zlen C) ->
    left_spmm O sched ssort nt nt l opA opB d n m alpha (SpCoo A) ro co B ldb beta C ldc = UB.
  Proof using Hsort.
    intros HA Hh Hb Hd Hn Hm Wr Wc Ea Hsafe FB FC.
    assert (Main : forall (A : coo_matrix T) ro co, coo_arrays A -> honest_sort A -> co_base A = BZero -> d <= co_nr A -> m <= co_nc A -> ~ coo_safe A ro co d n m ->
      left_spmm_notrans O sched ssort nt nt l opB d n m alpha (SpCoo A) ro co B ldb beta C ldc = UB).
    { clear - Hsort Hd Hn Hm Ea FB FC. intros A ro co HA Hh Hb Wr Wc Hsafe.
      unfold left_spmm_notrans. cbn [sp_base]. rewrite Hb. cbn [base_eqb]. rewrite require_true. cbn [bind].
      replace (co_nr A >=? d) with true by lia. replace (co_nc A >=? m) with true by lia. rewrite !require_true. cbn [bind].
      set (lopB := match opB with NoTrans => l | Trans => flip l end).
      replace (match opB with NoTrans => (m, n, l) | Trans => (n, m, flip l) end) with (rows_before opB m n, cols_before opB m n, lopB) by (now destruct opB).
      destruct (scale_output_spec O l (rows_before opB m n) (cols_before opB m n) d n ldb beta C ldc ltac:(lia) ltac:(lia) (proj1 FB) FC) as (C1 & -> & HC1). cbn [bind].
      rewrite Ea. rewrite coo_left_jki_UB; auto. unfold lopB. destruct opB; [exact FB|apply fits_flip; exact FB]. }
    destruct opA; cbn [left_spmm].
    - apply Main; auto. now apply valid_coo_arrays.
    - rewrite coo_transpose_eq. cbn [bind].
      assert (Hh' : honest_sort (coo_t A)).
      { unfold honest_sort in *. cbn [coo_t co_sort co_nnz co_rows co_cols]. destruct (co_sort A); [apply ordered_flip|apply ordered_flip|]; exact Hh. }
      rewrite (Main (coo_t A) co ro); auto.
      destruct (valid_coo_arrays A HA) as (V1 & V2 & V3 & V4). unfold coo_arrays. cbn [coo_t co_nnz co_rows co_cols co_vals]. auto.
  Qed.
End CooUB.
