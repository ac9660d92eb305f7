(** Conversion of COO matrices to CSR and CSC matrices with a narrower index type (C82), and expansion of CSR
    matrices with very many columns (C25). *)
From Coq Require Import Permutation.
From Verif Require Import Base Spec SparseSkopModel SpFmtModel SpFmtSpec SparseSpec SparseProofs SpFmtProofs SpFmtProofs2 SpFmtProofs3 SpFmtProofs4 SpFmtProofs5 PropsSpFmt FyProofs PropsNarrow.

Lemma to_sint_range sb x : 1 < sb -> - 2 ^ (sb - 1) <= to_sint sb x < 2 ^ (sb - 1).
Proof.
  intros H. unfold to_sint. assert (E : 2 ^ sb = 2 * 2 ^ (sb - 1)) by (rewrite <- Z.pow_succ_r by lia; f_equal; lia).
  assert (0 < 2 ^ (sb - 1)) by (apply Z.pow_pos_nonneg; lia). pose proof (Z.mod_pos_bound (x + 2 ^ (sb - 1)) (2 ^ sb)). lia.
Qed.
Lemma to_sint_neg sb x : 1 < sb -> 2 ^ (sb - 1) <= x < 2 ^ sb -> to_sint sb x < 0.
Proof.
  intros H Hx. unfold to_sint. assert (E : 2 ^ sb = 2 * 2 ^ (sb - 1)) by (rewrite <- Z.pow_succ_r by lia; f_equal; lia).
  assert (0 < 2 ^ (sb - 1)) by (apply Z.pow_pos_nonneg; lia).
  replace (x + 2 ^ (sb - 1)) with (x - 2 ^ (sb - 1) + 1 * 2 ^ sb) by lia. rewrite Z.mod_add by lia. rewrite Z.mod_small by lia. lia.
Qed.

(** The counts or the indices do not fit in [sb] bits: nnz is too large, or one of the first nnz
    indices is (indices of twice the size and more, which can wrap to small ones, left aside). *)
Definition too_wide (sb nnz : Z) (idx : list Z) : Prop :=
  2 ^ (sb - 1) <= nnz \/ exists e x, 0 <= e < nnz /\ get idx e = Some x /\ 2 ^ (sb - 1) <= x < 2 ^ sb.

Section Compress.
  Context {T : Type}.
  Variables (sb n m nnz : Z) (major minor : option (list Z)) (cvals : option (list T)).
  Hypothesis Hsb : 1 < sb.
  Hypothesis Hn : 0 <= n.
  Hypothesis Hnnz : 0 <= nnz.
  Hypothesis Imaj : idx_ok nnz n 0 (arrv major).
  Hypothesis Imin : idx_ok nnz m 0 (arrv minor).
  Hypothesis Lval : nnz <= zlen (arrv cvals).
  Hypothesis Sorted : nondecreasing nnz (arrv major).

  Lemma compress_bad idx ptr vals : too_wide sb nnz (arrv minor) ->
    zlen (arrv idx) = nnz -> zlen (arrv vals) = nnz -> n + 1 <= zlen (arrv ptr) ->
    exists idx' vals' ptr', compress sb n nnz major minor cvals idx ptr vals = Ok (idx', vals', ptr') /\
      ~ (idx_ok nnz m 0 (arrv idx') /\ ptr_ok n nnz (arrv ptr')).
  Proof.
    intros Hw Li Lv Lp. destruct Imaj as [Lmaj Hmaj]. destruct Imin as [Lmin Hmin].
    destruct (compress_spec sb n nnz major minor cvals Hn Hnnz Lmaj Lmin Lval idx ptr vals Li Lv Lp)
      as (idx' & vals' & ptr' & pos & E & Li' & Lv' & Lp' & C & P0 & Hpos).
    assert (P2 : 0 < 2 ^ (sb - 1)) by (apply Z.pow_pos_nonneg; lia).
    assert (Hsrt : srt nnz major). { split; [exact Sorted|]. intros e x He G. specialize (Hmaj e x He G). lia. }
    destruct (Hpos n ltac:(lia)) as (B & Cu & Gn). specialize (Cu Hsrt).
    assert (Pn : pos n = nnz).
    { apply (cut_all nnz (arrv major) n); auto. intros e x He G. specialize (Hmaj e x He G). lia. }
    rewrite Pn in C, Gn. exists idx', vals', ptr'. split; [exact E|]. intros [Vi (_ & _ & Vn & _)].
    assert (N1 : 0 < nnz). { destruct Hw as [Hw|(e & x & He & _)]; lia. }
    assert (n <> 0). { intros ->. destruct (get_lt (arrv major) 0 ltac:(lia)) as [x G]. specialize (Hmaj 0 x ltac:(lia) G). lia. }
    replace (n =? 0) with false in Gn by lia. rewrite Vn in Gn. injection Gn as Gn. pose proof (to_sint_range sb nnz Hsb) as R.
    destruct Hw as [Hw|(e & x & He & Gx & Hx)]; [lia|].
    destruct (C e He) as [Gi _]. rewrite Gx in Gi. cbn [option_map] in Gi. destruct Vi as [_ Vi]. specialize (Vi e _ He Gi). pose proof (to_sint_neg sb x Hsb Hx). lia.
  Qed.
End Compress.

(** A wide index survives sorting. *)
Lemma too_wide_triples {T} sb nnz rows cols (vals : list T) rows' cols' vals' :
  0 <= nnz -> nnz <= zlen rows -> nnz <= zlen cols -> nnz <= zlen vals -> nnz <= zlen rows' -> nnz <= zlen cols' -> nnz <= zlen vals' ->
  Permutation (coo_triples nnz rows cols vals) (coo_triples nnz rows' cols' vals') ->
  (too_wide sb nnz rows -> too_wide sb nnz rows') /\ (too_wide sb nnz cols -> too_wide sb nnz cols').
Proof.
  intros Hn Lr Lc Lv Lr' Lc' Lv' P.
  assert (H : forall e r c, 0 <= e < nnz -> get rows e = Some r -> get cols e = Some c -> exists e', 0 <= e' < nnz /\ get rows' e' = Some r /\ get cols' e' = Some c).
  { intros e r c He Gr Gc. destruct (get_lt vals e ltac:(lia)) as [v Gv].
    assert (Hin : In (r, c, v) (coo_triples nnz rows' cols' vals')).
    { apply (Permutation_in _ P). apply get_In. exists e. apply get_coo_triples; auto. }
    apply get_In in Hin as [e' G]. pose proof (get_Some_lt _ _ _ G) as B. rewrite zlen_coo_triples in B by lia.
    apply get_coo_triples in G as (G1 & G2 & _); auto. exists e'. auto. }
  split; (intros [W|(e & x & He & G & Hx)]; [now left|right]).
  - destruct (get_lt cols e ltac:(lia)) as [c Gc]. destruct (H e x c He G Gc) as (e' & B & G1 & _). exists e', x. auto.
  - destruct (get_lt rows e ltac:(lia)) as [r Gr]. destruct (H e r x He Gr G) as (e' & B & _ & G1). exists e', x. auto.
Qed.

(** The count and the stored indices fit in [sb] bits. *)
Definition stored_fit (sb nnz : Z) (idx : list Z) : Prop :=
  nnz < 2 ^ (sb - 1) /\ forall e x, 0 <= e < nnz -> get idx e = Some x -> x < 2 ^ (sb - 1).

(** The loop with whatever fits or not: valid with the right slices exactly when everything stored fits. *)
Lemma compress_exact {T} sb n m nnz major minor (cvals : option (list T)) idx ptr vals :
  1 < sb -> 0 <= n -> 0 <= nnz -> idx_ok nnz n 0 (arrv major) -> idx_ok nnz m 0 (arrv minor) -> nnz <= zlen (arrv cvals) ->
  nondecreasing nnz (arrv major) -> zlen (arrv idx) = nnz -> zlen (arrv vals) = nnz -> n + 1 <= zlen (arrv ptr) ->
  exists idx' vals' ptr', compress sb n nnz major minor cvals idx ptr vals = Ok (idx', vals', ptr') /\ nnz <= zlen (arrv vals') /\
    ((idx_ok nnz m 0 (arrv idx') /\ ptr_ok n nnz (arrv ptr') /\
      forall i j, 0 <= i < n -> Permutation (slice_values (arrv ptr') (arrv idx') (arrv vals') i j) (coo_values nnz (arrv major) (arrv minor) (arrv cvals) i j))
     <-> stored_fit sb nnz (arrv minor)).
Proof.
  intros Hsb Hn Hnnz Imaj Imin Lval Hs Li Lv Lp. pose proof Imaj as [Lmaj Hmaj]. pose proof Imin as [Lmin Hmin].
  assert (P2 : 0 < 2 ^ (sb - 1)) by (apply Z.pow_pos_nonneg; lia).
  destruct (compress_spec sb n nnz major minor cvals Hn Hnnz Lmaj Lmin Lval idx ptr vals Li Lv Lp)
    as (idx' & vals' & ptr' & pos & E & Li' & Lv' & Lp' & C & P0 & Hpos).
  exists idx', vals', ptr'. split; [exact E|]. split; [lia|].
  assert (Hsrt : srt nnz major). { split; [exact Hs|]. intros e x He G. specialize (Hmaj e x He G). lia. }
  destruct (Hpos n ltac:(lia)) as (B & Cu & Gn). specialize (Cu Hsrt).
  assert (Pn : pos n = nnz). { apply (cut_all nnz (arrv major) n); auto. intros e x He G. specialize (Hmaj e x He G). lia. }
  rewrite Pn in C, Gn. split.
  - intros (Vi & (_ & Vp0 & Vn & Vm) & Sl). split.
    + destruct (Z.eq_dec nnz 0) as [->|Hz]; [exact P2|]. assert (n <> 0). { intros ->. destruct (get_lt (arrv major) 0 ltac:(lia)) as [x G]. specialize (Hmaj 0 x ltac:(lia) G). lia. }
      replace (n =? 0) with false in Gn by lia. rewrite Vn in Gn. injection Gn as Gn. pose proof (to_sint_range sb nnz Hsb). lia.
    + intros e x He Gx. destruct (get_lt (arrv major) e ltac:(lia)) as [r Gr]. destruct (get_lt (arrv cvals) e ltac:(lia)) as [v Gv].
      pose proof (Hmaj e r He Gr) as Hr. rewrite Z.add_0_r in Hr.
      assert (Hin : In v (slice_values (arrv ptr') (arrv idx') (arrv vals') r x)).
      { apply (Permutation_in _ (Permutation_sym (Sl r x Hr))). apply in_flat_map. exists e. split; [apply in_range; lia|]. rewrite Gr, Gx, Gv, !Z.eqb_refl. now left. }
      unfold slice_values in Hin. destruct (get (arrv ptr') r) as [lo|] eqn:Glo; [|destruct Hin]. destruct (get (arrv ptr') (r + 1)) as [hi|] eqn:Ghi; [|destruct Hin].
      apply in_flat_map in Hin as (e' & He' & Hin). apply in_range in He'.
      destruct (get (arrv idx') e') as [y|] eqn:Gy; [|destruct Hin]. destruct (get (arrv vals') e'); [|destruct Hin]. destruct (Z.eqb_spec y x) as [->|]; [|destruct Hin].
      pose proof (get_Some_lt _ _ _ Gy) as By. assert (e' < nnz) by lia.
      destruct (C e' ltac:(lia)) as [Gi _]. rewrite Gy in Gi. destruct (get (arrv minor) e') as [z|]; [|discriminate]. cbn [option_map] in Gi. injection Gi as ->. apply to_sint_range. exact Hsb.
  - intros [F1 F2].
    assert (Im : idx_ok nnz (Z.min m (2 ^ (sb - 1))) 0 (arrv minor)).
    { split; [exact Lmin|]. intros e x He G. specialize (F2 e x He G). specialize (Hmin e x He G). lia. }
    destruct (compress_valid sb n (Z.min m (2 ^ (sb - 1))) nnz major minor cvals Hsb Hn Hnnz (conj F1 (Z.le_min_r _ _)) Imaj Im Lval Hs idx ptr vals Li Lv Lp)
      as (i2 & v2 & p2 & E2 & _ & D2 & D3 & D4). rewrite E in E2. injection E2 as <- <- <-. split; [|split; [exact D3|]].
    + destruct D2 as [L2 D2]. split; [exact L2|]. intros e x He G. specialize (D2 e x He G). lia.
    + intros i j Hi. rewrite D4 by exact Hi. apply Permutation_refl.
Qed.

Lemma stored_fit_triples {T} sb nnz rows cols (vals : list T) rows' cols' vals' :
  0 <= nnz -> nnz <= zlen rows -> nnz <= zlen cols -> nnz <= zlen vals -> nnz <= zlen rows' -> nnz <= zlen cols' -> nnz <= zlen vals' ->
  Permutation (coo_triples nnz rows cols vals) (coo_triples nnz rows' cols' vals') ->
  (stored_fit sb nnz rows -> stored_fit sb nnz rows') /\ (stored_fit sb nnz cols -> stored_fit sb nnz cols').
Proof.
  intros Hn Lr Lc Lv Lr' Lc' Lv' P.
  assert (H : forall e r c, 0 <= e < nnz -> get rows' e = Some r -> get cols' e = Some c -> exists e', 0 <= e' < nnz /\ get rows e' = Some r /\ get cols e' = Some c).
  { intros e r c He Gr Gc. destruct (get_lt vals' e ltac:(lia)) as [v Gv].
    assert (Hin : In (r, c, v) (coo_triples nnz rows cols vals)).
    { apply (Permutation_in _ (Permutation_sym P)). apply get_In. exists e. apply get_coo_triples; auto. }
    apply get_In in Hin as [e' G]. pose proof (get_Some_lt _ _ _ G) as B. rewrite zlen_coo_triples in B by lia.
    apply get_coo_triples in G as (G1 & G2 & _); auto. exists e'. auto. }
  split; (intros [W F]; split; [exact W|]; intros e x He G).
  - destruct (get_lt cols' e ltac:(lia)) as [c Gc]. destruct (H e x c He G Gc) as (e' & B & G1 & _). eauto.
  - destruct (get_lt rows' e ltac:(lia)) as [r Gr]. destruct (H e r x He Gr G) as (e' & B & _ & G1). eauto.
Qed.

(* ------------------------------------------------------------------ *)
(** * C82 *)
(** When the count or a column index does not fit, coo_to_csr reports nothing and returns a matrix that is not a CSR matrix. *)
Theorem C82_coo_to_csr_refuted : forall {T} (zero : T) ssort sb (M : coo_matrix T),
  sort_ok ssort -> 1 < sb -> valid_coo M -> co_base M = BZero -> too_wide sb (co_nnz M) (arrv (co_cols M)) ->
  exists M' R, coo_to_csr zero ssort sb M (mk_csr (co_nr M) (co_nc M)) = Ok (M', R) /\
    cr_nr R = co_nr M /\ cr_nc R = co_nc M /\ cr_nnz R = co_nnz M /\ ~ valid_csr R.
Proof.
  intros T zero ssort sb M Hs Hsb V Hb Hw. pose proof V as (Hr & Hc & Hn & Lv & Ir & Ic). unfold coo_to_csr.
  cbn [mk_csr cr_nr cr_nc cr_base]. rewrite !Z.eqb_refl, Hb. cbn [base_eqb]. rewrite !require_true. cbn [bind].
  destruct (sort_coo_spec ssort Hs SCSR M ltac:(discriminate) (valid_coo_arrays M V)) as (M1 & -> & A1 & A2 & A3 & A4 & A5 & A6 & (B1 & B2 & B3 & B4) & P & O).
  cbn [bind]. rewrite A4 in *. change (le_of SCSR) with le_csr in O. rewrite Hb in *. cbn [off] in *.
  destruct (reserve_csr_fresh zero (co_nr M) (co_nc M) (co_nnz M) Hr Hn) as (R1 & E1 & C1 & C2 & C3 & C4 & C5 & C6 & C7 & C8).
  rewrite E1. cbn [bind]. rewrite A1.
  destruct (triples_idx_ok _ _ _ _ _ _ _ _ _ Hn Ir Ic Lv B3 B4 B2 P) as [Ir' Ic'].
  destruct (too_wide_triples sb _ _ _ _ _ _ _ Hn (proj1 Ir) (proj1 Ic) Lv B3 B4 B2 P) as [_ Tw].
  destruct (compress_bad sb (co_nr M) (co_nc M) (co_nnz M) (co_rows M1) (co_cols M1) (co_vals M1) Hsb Hr Hn Ir' Ic' B2
      (ordered_csr_rows _ _ _ B4 O) (cr_idx R1) (cr_ptr R1) (cr_vals R1) (Tw Hw) C7 C6 ltac:(lia)) as (idx & vals & ptr & -> & Bad).
  cbn [bind]. eexists _, _. split; [reflexivity|]. cbn [cr_nr cr_nc cr_nnz]. rewrite C1, C2, C4. repeat (split; [reflexivity|]).
  unfold valid_csr. cbn [cr_nr cr_nc cr_nnz cr_vals cr_idx cr_ptr cr_base]. rewrite ?C1, ?C2, ?C4, C5. cbn [off]. intros (_ & _ & _ & _ & V1 & V2). exact (Bad (conj V1 V2)).
Qed.
Print Assumptions C82_coo_to_csr_refuted.

(** The same for coo_to_csc and row indices. *)
Theorem C82_coo_to_csc_refuted : forall {T} (zero : T) ssort sb (M : coo_matrix T),
  sort_ok ssort -> 1 < sb -> valid_coo M -> co_base M = BZero -> too_wide sb (co_nnz M) (arrv (co_rows M)) ->
  exists M' R, coo_to_csc zero ssort sb M (mk_csc (co_nr M) (co_nc M)) = Ok (M', R) /\
    cc_nr R = co_nr M /\ cc_nc R = co_nc M /\ cc_nnz R = co_nnz M /\ ~ valid_csc R.
Proof.
  intros T zero ssort sb M Hs Hsb V Hb Hw. pose proof V as (Hr & Hc & Hn & Lv & Ir & Ic). unfold coo_to_csc.
  cbn [mk_csc cc_nr cc_nc cc_base]. rewrite !Z.eqb_refl, Hb. cbn [base_eqb]. rewrite !require_true. cbn [bind].
  destruct (sort_coo_spec ssort Hs SCSC M ltac:(discriminate) (valid_coo_arrays M V)) as (M1 & -> & A1 & A2 & A3 & A4 & A5 & A6 & (B1 & B2 & B3 & B4) & P & O).
  cbn [bind]. rewrite A4 in *. change (le_of SCSC) with le_csc in O. rewrite Hb in *. cbn [off] in *.
  destruct (reserve_csc_fresh zero (co_nr M) (co_nc M) (co_nnz M) Hc Hn) as (R1 & E1 & C1 & C2 & C3 & C4 & C5 & C6 & C7 & C8).
  rewrite E1. cbn [bind]. rewrite A2.
  destruct (triples_idx_ok _ _ _ _ _ _ _ _ _ Hn Ir Ic Lv B3 B4 B2 P) as [Ir' Ic'].
  destruct (too_wide_triples sb _ _ _ _ _ _ _ Hn (proj1 Ir) (proj1 Ic) Lv B3 B4 B2 P) as [Tw _].
  destruct (compress_bad sb (co_nc M) (co_nr M) (co_nnz M) (co_cols M1) (co_rows M1) (co_vals M1) Hsb Hc Hn Ic' Ir' B2
      (ordered_csc_cols _ _ _ B3 O) (cc_idx R1) (cc_ptr R1) (cc_vals R1) (Tw Hw) C7 C6 ltac:(lia)) as (idx & vals & ptr & -> & Bad).
  cbn [bind]. eexists _, _. split; [reflexivity|]. cbn [cc_nr cc_nc cc_nnz]. rewrite C1, C2, C4. repeat (split; [reflexivity|]).
  unfold valid_csc. cbn [cc_nr cc_nc cc_nnz cc_vals cc_idx cc_ptr cc_base]. rewrite ?C1, ?C2, ?C4, C5. cbn [off]. intros (_ & _ & _ & _ & V1 & V2). exact (Bad (conj V1 V2)).
Qed.
Print Assumptions C82_coo_to_csc_refuted.

(** coo_to_csr always returns, and returns the same matrix exactly when the number of nonzeros and the stored column indices fit. *)
Theorem C82_coo_to_csr_partial : forall {T} (zero : T) ssort sb (M : coo_matrix T),
  sort_ok ssort -> 1 < sb -> valid_coo M -> co_base M = BZero ->
  exists M' R, coo_to_csr zero ssort sb M (mk_csr (co_nr M) (co_nc M)) = Ok (M', R) /\
    ((valid_csr R /\ forall i j, 0 <= i < co_nr M -> Permutation (csr_at R i j) (coo_at M i j)) <->
     (co_nnz M < 2 ^ (sb - 1) /\ forall e c, 0 <= e < co_nnz M -> get (arrv (co_cols M)) e = Some c -> c < 2 ^ (sb - 1))).
Proof.
  intros T zero ssort sb M Hs Hsb V Hb. pose proof V as (Hr & Hc & Hn & Lv & Ir & Ic). unfold coo_to_csr.
  cbn [mk_csr cr_nr cr_nc cr_base]. rewrite !Z.eqb_refl, Hb. cbn [base_eqb]. rewrite !require_true. cbn [bind].
  destruct (sort_coo_spec ssort Hs SCSR M ltac:(discriminate) (valid_coo_arrays M V)) as (M1 & -> & A1 & A2 & A3 & A4 & A5 & A6 & (B1 & B2 & B3 & B4) & P & O).
  cbn [bind]. rewrite A4 in *. change (le_of SCSR) with le_csr in O. rewrite Hb in *. cbn [off] in *.
  destruct (reserve_csr_fresh zero (co_nr M) (co_nc M) (co_nnz M) Hr Hn) as (R1 & E1 & C1 & C2 & C3 & C4 & C5 & C6 & C7 & C8).
  rewrite E1. cbn [bind]. rewrite A1.
  destruct (triples_idx_ok _ _ _ _ _ _ _ _ _ Hn Ir Ic Lv B3 B4 B2 P) as [Ir' Ic'].
  destruct (stored_fit_triples sb _ _ _ _ _ _ _ Hn (proj1 Ir) (proj1 Ic) Lv B3 B4 B2 P) as [_ S1].
  destruct (stored_fit_triples sb _ _ _ _ _ _ _ Hn B3 B4 B2 (proj1 Ir) (proj1 Ic) Lv (Permutation_sym P)) as [_ S2].
  destruct (compress_exact sb (co_nr M) (co_nc M) (co_nnz M) (co_rows M1) (co_cols M1) (co_vals M1) (cr_idx R1) (cr_ptr R1) (cr_vals R1) Hsb Hr Hn Ir' Ic' B2
      (ordered_csr_rows _ _ _ B4 O) C7 C6 ltac:(lia)) as (idx & vals & ptr & -> & Lv' & X).
  cbn [bind]. eexists _, _. split; [reflexivity|].
  unfold valid_csr, csr_at, coo_at. cbn [cr_nr cr_nc cr_nnz cr_vals cr_idx cr_ptr cr_base]. rewrite C1, C2, C4, C5, Hb. cbn [off].
  pose proof (fun i j => coo_values_perm _ _ _ _ _ _ _ _ i j P) as Q.
  split.
  - intros ((_ & _ & _ & _ & V1 & V2) & Sl). apply S2, X. split; [exact V1|]. split; [exact V2|]. intros i j Hi. specialize (Sl i j Hi). rewrite !Z.add_0_r in Sl.
    exact (Permutation_trans Sl (Q i j)).
  - intros F. destruct (proj2 X (S1 F)) as (V1 & V2 & Sl). split; [auto 10|]. intros i j Hi. rewrite !Z.add_0_r. exact (Permutation_trans (Sl i j Hi) (Permutation_sym (Q i j))).
Qed.
Print Assumptions C82_coo_to_csr_partial.

(** The same for coo_to_csc and the stored row indices. *)
Theorem C82_coo_to_csc_partial : forall {T} (zero : T) ssort sb (M : coo_matrix T),
  sort_ok ssort -> 1 < sb -> valid_coo M -> co_base M = BZero ->
  exists M' R, coo_to_csc zero ssort sb M (mk_csc (co_nr M) (co_nc M)) = Ok (M', R) /\
    ((valid_csc R /\ forall i j, 0 <= j < co_nc M -> Permutation (csc_at R i j) (coo_at M i j)) <->
     (co_nnz M < 2 ^ (sb - 1) /\ forall e r, 0 <= e < co_nnz M -> get (arrv (co_rows M)) e = Some r -> r < 2 ^ (sb - 1))).
Proof.
  intros T zero ssort sb M Hs Hsb V Hb. pose proof V as (Hr & Hc & Hn & Lv & Ir & Ic). unfold coo_to_csc.
  cbn [mk_csc cc_nr cc_nc cc_base]. rewrite !Z.eqb_refl, Hb. cbn [base_eqb]. rewrite !require_true. cbn [bind].
  destruct (sort_coo_spec ssort Hs SCSC M ltac:(discriminate) (valid_coo_arrays M V)) as (M1 & -> & A1 & A2 & A3 & A4 & A5 & A6 & (B1 & B2 & B3 & B4) & P & O).
  cbn [bind]. rewrite A4 in *. change (le_of SCSC) with le_csc in O. rewrite Hb in *. cbn [off] in *.
  destruct (reserve_csc_fresh zero (co_nr M) (co_nc M) (co_nnz M) Hc Hn) as (R1 & E1 & C1 & C2 & C3 & C4 & C5 & C6 & C7 & C8).
  rewrite E1. cbn [bind]. rewrite A2.
  destruct (triples_idx_ok _ _ _ _ _ _ _ _ _ Hn Ir Ic Lv B3 B4 B2 P) as [Ir' Ic'].
  destruct (stored_fit_triples sb _ _ _ _ _ _ _ Hn (proj1 Ir) (proj1 Ic) Lv B3 B4 B2 P) as [S1 _].
  destruct (stored_fit_triples sb _ _ _ _ _ _ _ Hn B3 B4 B2 (proj1 Ir) (proj1 Ic) Lv (Permutation_sym P)) as [S2 _].
  destruct (compress_exact sb (co_nc M) (co_nr M) (co_nnz M) (co_cols M1) (co_rows M1) (co_vals M1) (cc_idx R1) (cc_ptr R1) (cc_vals R1) Hsb Hc Hn Ic' Ir' B2
      (ordered_csc_cols _ _ _ B3 O) C7 C6 ltac:(lia)) as (idx & vals & ptr & -> & Lv' & X).
  cbn [bind]. eexists _, _. split; [reflexivity|].
  unfold valid_csc, csc_at, coo_at. cbn [cc_nr cc_nc cc_nnz cc_vals cc_idx cc_ptr cc_base]. rewrite C1, C2, C4, C5, Hb. cbn [off].
  pose proof (fun i j => coo_values_perm _ _ _ _ _ _ _ _ i j P) as Q.
  split.
  - intros ((_ & _ & _ & _ & V1 & V2) & Sl). apply S2, X. split; [exact V1|]. split; [exact V2|]. intros j i Hj. specialize (Sl i j Hj). rewrite !Z.add_0_r in Sl.
    rewrite coo_values_swap. exact (Permutation_trans Sl (Q i j)).
  - intros F. destruct (proj2 X (S1 F)) as (V1 & V2 & Sl). split; [auto 10|]. intros i j Hj. rewrite !Z.add_0_r. specialize (Sl j i Hj). rewrite coo_values_swap in Sl. exact (Permutation_trans Sl (Permutation_sym (Q i j))).
Qed.
Print Assumptions C82_coo_to_csc_partial.

(** A 1 by 3*10^9 matrix with one entry in the last column and 2^31 + 1 copies of the entry (0,0) of a 1 by 1 matrix are both too
    wide for int.  The first, run: the stored column is negative; with int64_t it is right. *)
Definition wide_coo : coo_matrix Z := Build_coo_matrix 1 3000000000 false 1 BZero (Some [5]) (Some [0]) (Some [2999999999]) SNone.
Example C82_case :
  valid_coo wide_coo /\ too_wide 32 (co_nnz wide_coo) (arrv (co_cols wide_coo)) /\
  (exists M', coo_to_csr 0 isort 32 wide_coo (mk_csr 1 3000000000) = Ok (M', Build_csr_matrix 1 3000000000 true 1 BZero (Some [5]) (Some [0; 1]) (Some [-1294967297]))) /\
  (exists M', coo_to_csr 0 isort 64 wide_coo (mk_csr 1 3000000000) = Ok (M', Build_csr_matrix 1 3000000000 true 1 BZero (Some [5]) (Some [0; 1]) (Some [2999999999]))) /\
  let big := Build_coo_matrix 1 1 false (2 ^ 31 + 1) BZero (Some (repeat 5 (Z.to_nat (2 ^ 31 + 1)))) (Some (repeat 0 (Z.to_nat (2 ^ 31 + 1)))) (Some (repeat 0 (Z.to_nat (2 ^ 31 + 1)))) SNone in
  valid_coo big /\ too_wide 32 (co_nnz big) (arrv (co_cols big)).
Proof.
  split; [apply valid_coo_check; reflexivity|]. split; [right; exists 0, 2999999999; repeat split; cbn; lia|]. do 2 (split; [eexists; vm_compute; reflexivity|]).
  intros big. split; [|left; cbn; lia].
  assert (L : forall x : Z, zlen (repeat x (Z.to_nat (2 ^ 31 + 1))) = 2 ^ 31 + 1) by (intros; rewrite zlen_repeat; lia).
  assert (G : forall e y, get (repeat 0 (Z.to_nat (2 ^ 31 + 1))) e = Some y -> y = 0).
  { intros e y H. assert (In y (repeat 0 (Z.to_nat (2 ^ 31 + 1)))) as HI by (apply get_In; eauto). apply repeat_spec in HI. exact HI. }
  unfold valid_coo, big. cbn [co_nr co_nc co_nnz co_vals co_rows co_cols co_base arrv off].
  split; [lia|]. split; [lia|]. split; [lia|]. split; [rewrite L; lia|].
  split; (split; [rewrite L; lia|]; intros e y He H; apply G in H; lia).
Qed.

(* ------------------------------------------------------------------ *)
(** * C25: the bound on the number of columns is needed *)
Lemma foldM_each {A S} (f : A -> S -> outcome S) l s s' a : foldM f l s = Ok s' -> In a l -> exists t t', f a t = Ok t'.
Proof.
  revert s. induction l as [|b l IH]; intros s E Hin; [destruct Hin|]. cbn [foldM] in E. destruct (f b s) as [t| |] eqn:Eb; [|discriminate..]. cbn [bind] in E.
  destruct Hin as [->|Hin]; [eauto|]. exact (IH t E Hin).
Qed.
Lemma nt_rdp {A} (p : option (list A)) i : nothrow (rdp p i).
Proof. destruct p; cbn [rdp]; [apply nt_rd|apply nt_ub]. Qed.
Lemma get_rd {A} (l : list A) i x : get l i = Some x -> rd l i = Ok x.
Proof. unfold get, rd. destruct (i <? 0); [discriminate|]. now intros ->. Qed.
Lemma get_rdp {A} (p : option (list A)) i x : get (arrv p) i = Some x -> rdp p i = Ok x.
Proof. destruct p as [l|]; cbn [rdp arrv]; [apply get_rd|]. unfold get. destruct (i <? 0); [discriminate|]. destruct (Z.to_nat i); discriminate. Qed.

(** csr_to_dense with any CSR matrix that has an entry in a column from 2^31 to 2^32 - 1 writes before the start of the dense
    array, whatever that array: in column-major layout for an entry in any row, in row-major layout for an entry of the first row. *)
Theorem C25_csr_wide_columns_refuted : forall {T} (zero : T) (M : csr_matrix T) (colmajor : bool) i j (out : list T),
  cr_base M = BZero -> 0 <= i < cr_nr M -> 2 ^ 31 <= j < 2 ^ 32 -> csr_at M i j <> [] -> colmajor = true \/ i = 0 ->
  csr_to_dense zero M colmajor out = UB.
Proof.
  intros T zero M cm i j out Hb Hi Hj Hne Hc.
  assert (NT : nothrow (csr_to_dense zero M cm out)).
  { unfold csr_to_dense, csr_to_dense_str, zero_fill. destruct (strides _ _ _). rewrite Hb. cbn [base_eqb]. rewrite require_true. cbn [bind].
    repeat first [apply nt_rdp|apply nt_wr|apply nt_for; intros|apply nt_bind; [|intros]]. }
  destruct (csr_to_dense zero M cm out) as [o| |] eqn:E; [exfalso|now destruct NT|reflexivity].
  unfold csr_at, slice_values in Hne. rewrite Hb in Hne. cbn [off] in Hne. rewrite Z.add_0_r in Hne.
  destruct (get (arrv (cr_ptr M)) i) as [lo|] eqn:Glo; [|congruence]. destruct (get (arrv (cr_ptr M)) (i + 1)) as [hi|] eqn:Ghi; [|congruence].
  match type of Hne with flat_map ?f ?l <> [] => assert (HI : exists v, In v (flat_map f l)) by (destruct (flat_map f l) as [|v q]; [congruence|exists v; now left]) end.
  destruct HI as [v HI]. apply in_flat_map in HI as (e & He & HI).
  destruct (get (arrv (cr_idx M)) e) as [j'|] eqn:Gj; [|destruct HI]. destruct (get (arrv (cr_vals M)) e) as [v'|] eqn:Gv; [|destruct HI].
  destruct (Z.eqb_spec j' j) as [->|]; [|destruct HI].
  unfold csr_to_dense, csr_to_dense_str in E. destruct (strides cm (cr_nr M) (cr_nc M)) as [sr sc] eqn:Es. rewrite Hb in E. cbn [base_eqb] in E. rewrite require_true in E. cbn [bind] in E.
  destruct (zero_fill zero (cr_nr M) (cr_nc M) sr sc out) as [m0| |]; [|discriminate..]. cbn [bind] in E.
  apply (foldM_each _ _ _ _ i) in E as (t & t' & E); [|apply in_range; lia]. rewrite (get_rdp _ _ _ Glo), (get_rdp _ _ _ Ghi) in E. cbn [bind] in E.
  apply (foldM_each _ _ _ _ e) in E as (u & u' & E); [|exact He]. rewrite (get_rdp _ _ _ Gj), (get_rdp _ _ _ Gv) in E. cbn [bind] in E.
  pose proof (to_sint_neg 32 j ltac:(lia) Hj) as Neg. unfold wr in E.
  replace (i * sr + to_sint 32 j * sc <? 0) with true in E; [discriminate|]. symmetry. apply Z.ltb_lt.
  unfold strides in Es. destruct cm; injection Es as <- <-; [nia|]. destruct Hc as [Hc| ->]; [discriminate|lia].
Qed.
Print Assumptions C25_csr_wide_columns_refuted.

(** The matrix of C82_case after conversion with int64_t indices. *)
Example C25_wide_case :
  let M := Build_csr_matrix 1 3000000000 true 1 BZero (Some [5]) (Some [0; 1]) (Some [2999999999]) in
  valid_csr M /\ csr_at M 0 2999999999 = [5] /\ 0 <= 0 < cr_nr M /\ 2 ^ 31 <= 2999999999 < 2 ^ 32.
Proof.
  split; [|repeat split; vm_compute; congruence].
  unfold valid_csr. cbn [cr_nr cr_nc cr_nnz cr_vals cr_idx cr_ptr cr_base arrv off]. unfold idx_ok, ptr_ok. repeat (split; [first [reflexivity|lia|cbn; lia]|]).
  split; [split; [cbn; lia|]|].
  - intros e x He G. assert (e = 0) as -> by lia. cbn in G. injection G as <-. lia.
  - repeat (split; [first [reflexivity|cbn; lia]|]). intros i a b Hi. assert (i = 0) as -> by lia. cbn. intros G1 G2. injection G1 as <-. injection G2 as <-. lia.
Qed.
