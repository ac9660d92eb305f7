(** Conversions between sparse formats, transposes and reindexing. *)
From Coq Require Import Permutation.
From Verif Require Import Base Spec SparseSkopModel SparseSpec SparseProofs SpFmtModel SpFmtSpec SpFmtProofs SpFmtProofs2 SpFmtProofs3 SpFmtProofs4.

(** Permuting the triples keeps indices in range. *)
Lemma triples_idx_ok {T} nnz nr nc rows cols (vals : list T) rows' cols' vals' :
  0 <= nnz -> idx_ok nnz nr 0 rows -> idx_ok nnz nc 0 cols -> nnz <= zlen vals ->
  nnz <= zlen rows' -> nnz <= zlen cols' -> nnz <= zlen vals' ->
  Permutation (coo_triples nnz rows cols vals) (coo_triples nnz rows' cols' vals') ->
  idx_ok nnz nr 0 rows' /\ idx_ok nnz nc 0 cols'.
Proof.
  intros Hn [Lr Hr] [Lc Hc] Lv Lr' Lc' Lv' P.
  assert (H : forall e r c, 0 <= e < nnz -> get rows' e = Some r -> get cols' e = Some c -> 0 <= r < nr + 0 /\ 0 <= c < nc + 0).
  { intros e r c He Gr Gc. destruct (get_lt vals' e ltac:(lia)) as [v Gv].
    assert (Hin : In (r, c, v) (coo_triples nnz rows cols vals)).
    { apply (Permutation_in _ (Permutation_sym P)). apply get_In. exists e. apply get_coo_triples; auto. }
    apply get_In in Hin as [e' G]. pose proof (get_Some_lt _ _ _ G) as B. rewrite zlen_coo_triples in B by lia.
    apply get_coo_triples in G as (G1 & G2 & _); auto. split; [apply (Hr e')|apply (Hc e')]; auto. }
  split; (split; [assumption|]); intros e x He G.
  - destruct (get_lt cols' e ltac:(lia)) as [c Gc]. now apply (H e x c).
  - destruct (get_lt rows' e ltac:(lia)) as [r Gr]. now apply (H e r x).
Qed.

Section Conv.
  Context {T : Type}.
  Variables (zero junkT : T) (junkZ : Z).
  Variable ssort : (Z * Z * T -> Z * Z * T -> bool) -> list (Z * Z * T) -> list (Z * Z * T).
  Hypothesis Hsort : sort_ok ssort.

  (** Entries in the arrays but no requirement on the indices. *)
  Definition coo_arrays (M : coo_matrix T) : Prop :=
    0 <= co_nnz M /\ co_nnz M <= zlen (arrv (co_vals M)) /\ co_nnz M <= zlen (arrv (co_rows M)) /\ co_nnz M <= zlen (arrv (co_cols M)).

  Lemma valid_coo_arrays M : valid_coo M -> coo_arrays M.
  Proof. intros (? & ? & ? & ? & [? _] & [? _]). repeat split; assumption. Qed.

  Lemma sort_coo_spec s M : s <> SNone -> coo_arrays M ->
    exists M', sort_coo ssort s M = Ok M' /\
      co_nr M' = co_nr M /\ co_nc M' = co_nc M /\ co_own M' = co_own M /\ co_nnz M' = co_nnz M /\ co_base M' = co_base M /\ co_sort M' = s /\
      coo_arrays M' /\
      Permutation (coo_triples (co_nnz M) (arrv (co_rows M)) (arrv (co_cols M)) (arrv (co_vals M)))
                  (coo_triples (co_nnz M) (arrv (co_rows M')) (arrv (co_cols M')) (arrv (co_vals M'))) /\
      ordered (le_of s) (co_nnz M) (arrv (co_rows M')) (arrv (co_cols M')).
  Proof.
    intros Hs (Hn & Lv & Lr & Lc). unfold sort_coo.
    destruct (sort_coo_data_spec ssort Hsort s (co_nnz M) (co_vals M) (co_rows M) (co_cols M) Hs Hn Lv Lr Lc)
      as (v & r & c & -> & L1 & L2 & L3 & P & O & _). cbn [bind]. eexists. split; [reflexivity|].
    cbn [co_nr co_nc co_own co_nnz co_base co_sort co_vals co_rows co_cols]. repeat (split; [reflexivity|]).
    split; [|auto]. unfold coo_arrays. cbn [co_nnz co_vals co_rows co_cols]. lia.
  Qed.

  Lemma ordered_csr_rows nnz rows cols : nnz <= zlen cols -> ordered le_csr nnz rows cols -> nondecreasing nnz rows.
  Proof.
    intros L H p q x y Hp Hq Gx Gy. destruct (get_lt cols p ltac:(lia)) as [a Ga]. destruct (get_lt cols q ltac:(lia)) as [b Gb].
    destruct (H p q x a y b Hp Hq Gx Ga Gy Gb) as [Hlt|[He _]]; cbn in *; lia.
  Qed.
  Lemma ordered_csc_cols nnz rows cols : nnz <= zlen rows -> ordered le_csc nnz rows cols -> nondecreasing nnz cols.
  Proof.
    intros L H p q x y Hp Hq Gx Gy. destruct (get_lt rows p ltac:(lia)) as [a Ga]. destruct (get_lt rows q ltac:(lia)) as [b Gb].
    destruct (H p q a x b y Hp Hq Ga Gx Gb Gy) as [Hlt|[He _]]; cbn in *; lia.
  Qed.

  Lemma reserve_csr_fresh nr nc nnz : 0 <= nr -> 0 <= nnz ->
    exists M, reserve_csr zero nnz (mk_csr nr nc) = Ok M /\ cr_nr M = nr /\ cr_nc M = nc /\ cr_own M = true /\ cr_nnz M = nnz /\ cr_base M = BZero /\
      zlen (arrv (cr_vals M)) = nnz /\ zlen (arrv (cr_idx M)) = nnz /\ zlen (arrv (cr_ptr M)) = nr + 1.
  Proof.
    intros Hr Hn. unfold reserve_csr, mk_csr. cbn [cr_own cr_vals cr_ptr cr_idx is_null cr_nr cr_nc cr_base]. rewrite !require_true. cbn [bind].
    destruct (Z.gtb_spec nnz 0); (eexists; split; [reflexivity|]); cbn [cr_nr cr_nc cr_own cr_nnz cr_base cr_vals cr_idx cr_ptr].
    - rewrite !zlen_arr by lia. auto 10.
    - rewrite zlen_arr by lia. assert (nnz = 0) by lia. subst. auto 10.
  Qed.
  Lemma reserve_csc_fresh nr nc nnz : 0 <= nc -> 0 <= nnz ->
    exists M, reserve_csc zero nnz (mk_csc nr nc) = Ok M /\ cc_nr M = nr /\ cc_nc M = nc /\ cc_own M = true /\ cc_nnz M = nnz /\ cc_base M = BZero /\
      zlen (arrv (cc_vals M)) = nnz /\ zlen (arrv (cc_idx M)) = nnz /\ zlen (arrv (cc_ptr M)) = nc + 1.
  Proof.
    intros Hr Hn. unfold reserve_csc, mk_csc. cbn [cc_own cc_vals cc_ptr cc_idx is_null cc_nr cc_nc cc_base]. rewrite !require_true. cbn [bind].
    destruct (Z.gtb_spec nnz 0); (eexists; split; [reflexivity|]); cbn [cc_nr cc_nc cc_own cc_nnz cc_base cc_vals cc_idx cc_ptr].
    - rewrite !zlen_arr by lia. auto 10.
    - rewrite zlen_arr by lia. assert (nnz = 0) by lia. subst. auto 10.
  Qed.
  Lemma reserve_coo_fresh nr nc nnz : 0 <= nnz ->
    exists M, reserve_coo junkT junkZ nnz (mk_coo nr nc) = Ok M /\ co_nr M = nr /\ co_nc M = nc /\ co_own M = true /\ co_nnz M = nnz /\ co_base M = BZero /\
      zlen (arrv (co_vals M)) = nnz /\ zlen (arrv (co_rows M)) = nnz /\ zlen (arrv (co_cols M)) = nnz.
  Proof.
    intros Hn. unfold reserve_coo, mk_coo. cbn [co_own co_vals co_rows co_cols is_null co_nr co_nc co_base]. rewrite !require_true. cbn [bind].
    destruct (Z.gtb_spec nnz 0); (eexists; split; [reflexivity|]); cbn [co_nr co_nc co_own co_nnz co_base co_vals co_rows co_cols].
    - rewrite !zlen_arr by lia. auto 10.
    - assert (nnz = 0) by lia. subst. auto 10.
  Qed.

  Definition fits (sb : Z) (nnz dim : Z) : Prop := 1 < sb /\ nnz < 2 ^ (sb - 1) /\ dim <= 2 ^ (sb - 1).

  Theorem coo_to_csr_spec sb (M : coo_matrix T) :
    valid_coo M -> co_base M = BZero -> fits sb (co_nnz M) (co_nc M) ->
    exists M' R, coo_to_csr zero ssort sb M (mk_csr (co_nr M) (co_nc M)) = Ok (M', R) /\
      cr_nr R = co_nr M /\ cr_nc R = co_nc M /\ cr_own R = true /\ cr_nnz R = co_nnz M /\ cr_base R = BZero /\ valid_csr R /\
      (forall i j, 0 <= i < co_nr M -> Permutation (csr_at R i j) (coo_at M i j)) /\
      co_nr M' = co_nr M /\ co_nc M' = co_nc M /\ co_nnz M' = co_nnz M /\ co_base M' = BZero /\ valid_coo M' /\
      (forall i j, Permutation (coo_at M' i j) (coo_at M i j)).
  Proof.
    intros V Hb (Hsb & Hf1 & Hf2). pose proof V as (Hr & Hc & Hn & Lv & Ir & Ic). unfold coo_to_csr.
    cbn [mk_csr cr_nr cr_nc cr_base]. rewrite !Z.eqb_refl, Hb. cbn [base_eqb]. rewrite !require_true. cbn [bind].
    destruct (sort_coo_spec SCSR M ltac:(discriminate) (valid_coo_arrays M V)) as (M1 & -> & A1 & A2 & A3 & A4 & A5 & A6 & (B1 & B2 & B3 & B4) & P & O).
    cbn [bind]. rewrite A4 in *. change (le_of SCSR) with le_csr in O. rewrite Hb in *. cbn [off] in *.
    destruct (reserve_csr_fresh (co_nr M) (co_nc M) (co_nnz M) Hr Hn) as (R1 & E1 & C1 & C2 & C3 & C4 & C5 & C6 & C7 & C8).
    rewrite E1. cbn [bind]. rewrite A1.
    destruct (triples_idx_ok _ _ _ _ _ _ _ _ _ Hn Ir Ic Lv B3 B4 B2 P) as [Ir' Ic'].
    destruct (compress_valid sb (co_nr M) (co_nc M) (co_nnz M) (co_rows M1) (co_cols M1) (co_vals M1) Hsb Hr Hn (conj Hf1 Hf2) Ir' Ic' B2
        (ordered_csr_rows _ _ _ B4 O) (cr_idx R1) (cr_ptr R1) (cr_vals R1) C7 C6 ltac:(lia)) as (idx & vals & ptr & -> & D1 & D2 & D3 & D4).
    cbn [bind]. eexists _, _. split; [reflexivity|].
    cbn [cr_nr cr_nc cr_own cr_nnz cr_base]. rewrite C1, C2, C3, C4, C5. repeat (split; [reflexivity|]). split.
    { unfold valid_csr. cbn [cr_nr cr_nc cr_nnz cr_vals cr_idx cr_ptr cr_base off]. rewrite ?C1, ?C2, ?C4, ?C5. cbn [off]. auto 10. }
    split.
    { intros i j Hi. unfold csr_at, coo_at. cbn [cr_ptr cr_idx cr_vals cr_base]. rewrite ?C5, Hb. cbn [off]. rewrite !Z.add_0_r.
      rewrite D4 by exact Hi. apply coo_values_perm. now apply Permutation_sym. }
    rewrite A1, A2, A4, A5. repeat (split; [reflexivity|]). split.
    { unfold valid_coo. rewrite A1, A2, A4, A5, ?Hb. cbn [off]. auto 10. }
    intros i j. unfold coo_at. rewrite A4, A5, Hb. apply coo_values_perm. now apply Permutation_sym.
  Qed.

  Theorem coo_to_csc_spec sb (M : coo_matrix T) :
    valid_coo M -> co_base M = BZero -> fits sb (co_nnz M) (co_nr M) ->
    exists M' R, coo_to_csc zero ssort sb M (mk_csc (co_nr M) (co_nc M)) = Ok (M', R) /\
      cc_nr R = co_nr M /\ cc_nc R = co_nc M /\ cc_own R = true /\ cc_nnz R = co_nnz M /\ cc_base R = BZero /\ valid_csc R /\
      (forall i j, 0 <= j < co_nc M -> Permutation (csc_at R i j) (coo_at M i j)) /\
      co_nr M' = co_nr M /\ co_nc M' = co_nc M /\ co_nnz M' = co_nnz M /\ co_base M' = BZero /\ valid_coo M' /\
      (forall i j, Permutation (coo_at M' i j) (coo_at M i j)).
  Proof.
    intros V Hb (Hsb & Hf1 & Hf2). pose proof V as (Hr & Hc & Hn & Lv & Ir & Ic). unfold coo_to_csc.
    cbn [mk_csc cc_nr cc_nc cc_base]. rewrite !Z.eqb_refl, Hb. cbn [base_eqb]. rewrite !require_true. cbn [bind].
    destruct (sort_coo_spec SCSC M ltac:(discriminate) (valid_coo_arrays M V)) as (M1 & -> & A1 & A2 & A3 & A4 & A5 & A6 & (B1 & B2 & B3 & B4) & P & O).
    cbn [bind]. rewrite A4 in *. change (le_of SCSC) with le_csc in O. rewrite Hb in *. cbn [off] in *.
    destruct (reserve_csc_fresh (co_nr M) (co_nc M) (co_nnz M) Hc Hn) as (R1 & E1 & C1 & C2 & C3 & C4 & C5 & C6 & C7 & C8).
    rewrite E1. cbn [bind]. rewrite A2.
    destruct (triples_idx_ok _ _ _ _ _ _ _ _ _ Hn Ir Ic Lv B3 B4 B2 P) as [Ir' Ic'].
    destruct (compress_valid sb (co_nc M) (co_nr M) (co_nnz M) (co_cols M1) (co_rows M1) (co_vals M1) Hsb Hc Hn (conj Hf1 Hf2) Ic' Ir' B2
        (ordered_csc_cols _ _ _ B3 O) (cc_idx R1) (cc_ptr R1) (cc_vals R1) C7 C6 ltac:(lia)) as (idx & vals & ptr & -> & D1 & D2 & D3 & D4).
    cbn [bind]. eexists _, _. split; [reflexivity|].
    cbn [cc_nr cc_nc cc_own cc_nnz cc_base]. rewrite C1, C2, C3, C4, C5. repeat (split; [reflexivity|]). split.
    { unfold valid_csc. cbn [cc_nr cc_nc cc_nnz cc_vals cc_idx cc_ptr cc_base off]. rewrite ?C1, ?C2, ?C4, ?C5. cbn [off]. auto 10. }
    split.
    { intros i j Hj. unfold csc_at, coo_at. cbn [cc_ptr cc_idx cc_vals cc_base]. rewrite ?C5, Hb. cbn [off]. rewrite !Z.add_0_r.
      rewrite D4 by exact Hj. rewrite coo_values_swap. apply coo_values_perm. now apply Permutation_sym. }
    rewrite A1, A2, A4, A5. repeat (split; [reflexivity|]). split.
    { unfold valid_coo. rewrite A1, A2, A4, A5, ?Hb. cbn [off]. auto 10. }
    intros i j. unfold coo_at. rewrite A4, A5, Hb. apply coo_values_perm. now apply Permutation_sym.
  Qed.

  (** No access outside the arrays, whatever indices the COO matrix contains. *)
  Theorem coo_to_csr_total sb (M : coo_matrix T) nr nc :
    coo_arrays M -> 0 <= nr ->
    (exists M' R, coo_to_csr zero ssort sb M (mk_csr nr nc) = Ok (M', R) /\ nr = co_nr M /\ nc = co_nc M /\ co_base M = BZero) \/
    (coo_to_csr zero ssort sb M (mk_csr nr nc) = Throw /\ ~ (nr = co_nr M /\ nc = co_nc M /\ co_base M = BZero)).
  Proof.
    intros A Hr. unfold coo_to_csr. cbn [mk_csr cr_nr cr_nc cr_base].
    destruct (Z.eqb_spec nr (co_nr M)) as [E1|E1]; [|right; split; [reflexivity|tauto]]. rewrite require_true. cbn [bind].
    destruct (Z.eqb_spec nc (co_nc M)) as [E2|E2]; [|right; split; [reflexivity|tauto]]. rewrite require_true. cbn [bind base_eqb].
    rewrite require_true. cbn [bind].
    destruct (base_eqb (co_base M) BZero) eqn:Eb; [|right; split; [reflexivity|intros (_ & _ & Hb); rewrite Hb in Eb; discriminate]].
    assert (Hb : co_base M = BZero) by (destruct (co_base M); [reflexivity|discriminate]).
    rewrite require_true. cbn [bind]. left.
    destruct (sort_coo_spec SCSR M ltac:(discriminate) A) as (M1 & -> & A1 & A2 & A3 & A4 & A5 & A6 & (B1 & B2 & B3 & B4) & _).
    cbn [bind]. destruct (reserve_csr_fresh nr nc (co_nnz M1) Hr B1) as (R1 & E & C1 & C2 & C3 & C4 & C5 & C6 & C7 & C8).
    rewrite E. cbn [bind].
    destruct (compress_spec sb (co_nr M1) (co_nnz M1) (co_rows M1) (co_cols M1) (co_vals M1) ltac:(lia) B1 B3 B4 B2 (cr_idx R1) (cr_ptr R1) (cr_vals R1))
      as (idx & vals & ptr & pos & -> & _); try lia. cbn [bind]. eauto 10.
  Qed.

  (* -------------------------------------------------------------- *)
  (** ** compressed -> COO *)
  Lemma expand_spec sb n nnz (ptr : option (list Z)) (svals vals : option (list T)) minor major :
    1 < sb -> nnz < 2 ^ (sb - 1) -> n <= 2 ^ (sb - 1) -> 0 <= n -> ptr_ok n nnz (arrv ptr) -> nnz <= zlen (arrv svals) ->
    zlen (arrv vals) = nnz -> zlen (arrv minor) = nnz -> zlen (arrv major) = nnz ->
    exists vals' minor' major', expand sb n ptr svals vals minor major = Ok (vals', minor', major') /\
      zlen (arrv vals') = nnz /\ zlen (arrv minor') = nnz /\ zlen (arrv major') = nnz /\
      (forall e, 0 <= e < nnz -> get (arrv vals') e = get (arrv svals) e /\ get (arrv minor') e = Some e) /\
      (forall i lo hi e, 0 <= i < n -> get (arrv ptr) i = Some lo -> get (arrv ptr) (i + 1) = Some hi -> lo <= e < hi -> get (arrv major') e = Some i).
  Proof.
    intros Hsb Hf1 Hf2 Hn Hp Ls Lv Lm LM. pose proof Hp as (Lp & P0 & Pn & Hm). unfold expand.
    set (f := fun (j : Z) (st : Z * option (list T) * option (list Z) * option (list Z)) => _).
    destruct (for_inv (fun j (st : Z * option (list T) * option (list Z) * option (list Z)) => let '(ell, vals', minor', major') := st in
       get (arrv ptr) j = Some ell /\ zlen (arrv vals') = nnz /\ zlen (arrv minor') = nnz /\ zlen (arrv major') = nnz /\
       (forall e, 0 <= e < ell -> get (arrv vals') e = get (arrv svals) e /\ get (arrv minor') e = Some e) /\
       (forall i lo hi e, 0 <= i < j -> get (arrv ptr) i = Some lo -> get (arrv ptr) (i + 1) = Some hi -> lo <= e < hi -> get (arrv major') e = Some i))
      0 n f (0, vals, minor, major)) as ([[[ell v1] m1] M1] & E & Gl & L1 & L2 & L3 & H1 & H2).
    - exact Hn.
    - repeat (split; [assumption|]). split; intros; lia.
    - intros j [[[ell v1] m1] M1] Hj (Gl & L1 & L2 & L3 & H1 & H2). unfold f.
      destruct (slice_bounds n nnz _ j Hp Hj) as (lo & hi & Glo & Ghi & B1 & B2).
      rewrite Gl in Glo. inversion Glo; subst lo. rewrite (rdp_get _ _ _ Gl), (rdp_get _ _ _ Ghi). cbn [bind].
      destruct (for_inv (fun k (st : Z * option (list T) * option (list Z) * option (list Z)) => let '(ell', vals', minor', major') := st in
       ell' = k /\ zlen (arrv vals') = nnz /\ zlen (arrv minor') = nnz /\ zlen (arrv major') = nnz /\
       (forall e, 0 <= e < k -> get (arrv vals') e = get (arrv svals) e /\ get (arrv minor') e = Some e) /\
       (forall e, ell <= e < k -> get (arrv major') e = Some j) /\ (forall e, e < ell -> get (arrv major') e = get (arrv M1) e))
        ell hi (fun i st =>
          let '(ell, vals, minor, major) := st in
          v <- rdp svals ell ;;
          vals <- wrp vals ell v ;;
          minor <- wrp minor ell (to_sint sb i) ;;
          major <- wrp major ell (to_sint sb j) ;;
          Ok (ell + 1, vals, minor, major)) (ell, v1, m1, M1)) as ([[[ell2 v2] m2] M2] & E2 & -> & K1 & K2 & K3 & K4 & K5 & K6).
      + lia.
      + split; [reflexivity|]. repeat (split; [assumption|]). split; intros; [lia|reflexivity].
      + intros k [[[ell2 v2] m2] M2] Hk (-> & K1 & K2 & K3 & K4 & K5 & K6).
        destruct (rdp_ex svals k ltac:(lia)) as (v & -> & Gv). cbn [bind].
        destruct (wrp_ex v2 k v) as (v3 & -> & N1 & N2 & N3); [lia|]. cbn [bind].
        destruct (wrp_ex m2 k (to_sint sb k)) as (m3 & -> & N4 & N5 & N6); [lia|]. cbn [bind].
        destruct (wrp_ex M2 k (to_sint sb j)) as (M3 & -> & N7 & N8 & N9); [lia|]. cbn [bind].
        eexists. split; [reflexivity|]. cbn beta iota. rewrite to_sint_id in N5, N8 by lia. split; [reflexivity|]. repeat (split; [lia|]).
        split; [|split].
        * intros e He. destruct (Z.eq_dec e k) as [->|Hne]; [rewrite N2, N5, Gv; auto|]. rewrite N3, N6 by exact Hne. apply K4. lia.
        * intros e He. destruct (Z.eq_dec e k) as [->|Hne]; [exact N8|]. rewrite N9 by exact Hne. apply K5. lia.
        * intros e He. rewrite N9 by lia. apply K6. lia.
      + eexists. split; [exact E2|]. cbn beta iota. split; [exact Ghi|]. repeat (split; [assumption|]).
        intros i lo hi' e Hi G1 G2 He. destruct (Z.eq_dec i j) as [->|Hne].
        * rewrite Gl in G1. rewrite Ghi in G2. inversion G1; inversion G2; subst. apply K5. lia.
        * rewrite K6; [apply (H2 i lo hi'); auto; lia|].
          pose proof (ptr_mono n nnz (arrv ptr) (i + 1) (j - (i + 1)) hi' ell Hp ltac:(lia) ltac:(lia) ltac:(lia) G2) as Hle.
          replace (i + 1 + (j - (i + 1))) with j in Hle by lia. specialize (Hle Gl). lia.
    - rewrite E. cbn [bind]. rewrite Pn in Gl. inversion Gl; subst ell. exists v1, m1, M1. auto 10.
  Qed.

  Theorem csr_to_coo_spec sb (A : csr_matrix T) :
    valid_csr A -> cr_base A = BZero -> fits sb (cr_nnz A) (cr_nr A) ->
    exists M, csr_to_coo junkT junkZ sb A (mk_coo (cr_nr A) (cr_nc A)) = Ok M /\
      co_nr M = cr_nr A /\ co_nc M = cr_nc A /\ co_nnz M = cr_nnz A /\ co_base M = BZero /\ co_sort M = SCSR /\
      zlen (arrv (co_rows M)) = cr_nnz A /\ zlen (arrv (co_cols M)) = cr_nnz A /\ zlen (arrv (co_vals M)) = cr_nnz A /\
      (forall e, 0 <= e < cr_nnz A -> get (arrv (co_vals M)) e = get (arrv (cr_vals A)) e /\ get (arrv (co_cols M)) e = Some e) /\
      (forall i lo hi e, 0 <= i < cr_nr A -> get (arrv (cr_ptr A)) i = Some lo -> get (arrv (cr_ptr A)) (i + 1) = Some hi -> lo <= e < hi ->
         get (arrv (co_rows M)) e = Some i).
  Proof.
    intros (Hr & Hc & Hn & Lv & Hi & Hp) Hb (Hsb & Hf1 & Hf2). unfold csr_to_coo. cbn [mk_coo co_nr co_nc co_base].
    rewrite !Z.eqb_refl, Hb. cbn [base_eqb]. rewrite !require_true. cbn [bind].
    destruct (reserve_coo_fresh (cr_nr A) (cr_nc A) (cr_nnz A) Hn) as (M1 & E & C1 & C2 & C3 & C4 & C5 & C6 & C7 & C8).
    rewrite E. cbn [bind].
    destruct (expand_spec sb (cr_nr A) (cr_nnz A) (cr_ptr A) (cr_vals A) (co_vals M1) (co_cols M1) (co_rows M1) Hsb Hf1 Hf2 Hr Hp Lv C6 C8 C7)
      as (v & m & j & -> & D1 & D2 & D3 & D4 & D5). cbn [bind]. eexists. split; [reflexivity|].
    cbn [co_nr co_nc co_nnz co_base co_sort co_rows co_cols co_vals]. auto 12.
  Qed.

  Theorem csc_to_coo_spec sb (A : csc_matrix T) :
    valid_csc A -> cc_base A = BZero -> fits sb (cc_nnz A) (cc_nc A) ->
    exists M, csc_to_coo junkT junkZ sb A (mk_coo (cc_nr A) (cc_nc A)) = Ok M /\
      co_nr M = cc_nr A /\ co_nc M = cc_nc A /\ co_nnz M = cc_nnz A /\ co_base M = BZero /\ co_sort M = SCSC /\
      zlen (arrv (co_rows M)) = cc_nnz A /\ zlen (arrv (co_cols M)) = cc_nnz A /\ zlen (arrv (co_vals M)) = cc_nnz A /\
      (forall e, 0 <= e < cc_nnz A -> get (arrv (co_vals M)) e = get (arrv (cc_vals A)) e /\ get (arrv (co_rows M)) e = Some e) /\
      (forall i lo hi e, 0 <= i < cc_nc A -> get (arrv (cc_ptr A)) i = Some lo -> get (arrv (cc_ptr A)) (i + 1) = Some hi -> lo <= e < hi ->
         get (arrv (co_cols M)) e = Some i).
  Proof.
    intros (Hr & Hc & Hn & Lv & Hi & Hp) Hb (Hsb & Hf1 & Hf2). unfold csc_to_coo. cbn [mk_coo co_nr co_nc co_base].
    rewrite !Z.eqb_refl, Hb. cbn [base_eqb]. rewrite !require_true. cbn [bind].
    destruct (reserve_coo_fresh (cc_nr A) (cc_nc A) (cc_nnz A) Hn) as (M1 & E & C1 & C2 & C3 & C4 & C5 & C6 & C7 & C8).
    rewrite E. cbn [bind].
    destruct (expand_spec sb (cc_nc A) (cc_nnz A) (cc_ptr A) (cc_vals A) (co_vals M1) (co_rows M1) (co_cols M1) Hsb Hf1 Hf2 Hc Hp Lv C6 C7 C8)
      as (v & m & j & -> & D1 & D2 & D3 & D4 & D5). cbn [bind]. eexists. split; [reflexivity|].
    cbn [co_nr co_nc co_nnz co_base co_sort co_rows co_cols co_vals]. auto 12.
  Qed.

  (** Stored entries of a compressed structure as triples with their slice. *)
  Lemma csx_coo_values n nnz ptr idx (vals : list T) major vals' i j :
    ptr_ok n nnz ptr -> nnz <= zlen idx -> nnz <= zlen vals ->
    (forall e, 0 <= e < nnz -> get vals' e = get vals e) ->
    (forall i lo hi e, 0 <= i < n -> get ptr i = Some lo -> get ptr (i + 1) = Some hi -> lo <= e < hi -> get major e = Some i) ->
    zlen major = nnz -> 0 <= i < n ->
    coo_values nnz major idx vals' i j = slice_values ptr idx vals i j.
  Proof.
    intros Hp Li Lv Hv HM LM Hi. symmetry. 
    destruct (slice_bounds n nnz ptr i Hp Hi) as (lo & hi & Gl & Gh & B1 & B2). unfold slice_values. rewrite Gl, Gh.
    assert (Hother : forall e, 0 <= e < nnz -> ~ (lo <= e < hi) -> forall x, get major e = Some x -> x <> i).
    { intros e He Hne x G ->.
      assert (Hex : exists i' lo' hi', 0 <= i' < n /\ get ptr i' = Some lo' /\ get ptr (i' + 1) = Some hi' /\ lo' <= e < hi').
      { clear - Hp He. destruct Hp as (Lp & P0 & Pn & Hm).
        assert (Gen : forall d, 0 <= d -> d <= n -> forall b, get ptr d = Some b -> e < b ->
          exists i' lo' hi', 0 <= i' < n /\ get ptr i' = Some lo' /\ get ptr (i' + 1) = Some hi' /\ lo' <= e < hi').
        { intros d Hd. pattern d. apply natlike_ind; [| |exact Hd].
          - intros _ b G Hb. rewrite P0 in G. inversion G. lia.
          - intros x Hx IH Hle b G Hb. destruct (get_lt ptr x) as [a Ga]; [lia|].
            destruct (Z.lt_ge_cases e a).
            + apply (IH ltac:(lia) a); auto.
            + exists x, a, b. rewrite Z.add_1_r. auto with zarith. }
        destruct (Z.le_gt_cases 0 n) as [H0|H0].
        - apply (Gen n H0 ltac:(lia) nnz Pn). lia.
        - apply get_Some_lt in Pn. lia. }
      destruct Hex as (i' & lo' & hi' & Hi' & G1 & G2 & He').
      rewrite (HM i' lo' hi' e Hi' G1 G2 He') in G. inversion G; subst i'. rewrite G1 in Gl. rewrite G2 in Gh. inversion Gl; inversion Gh; subst. tauto. }
    unfold coo_values. rewrite (range_split 0 lo nnz), (range_split lo hi nnz) by lia. rewrite !flat_map_app.
    rewrite (flat_map_nil _ (range 0 lo)), (flat_map_nil _ (range hi nnz)); [cbn [app]; rewrite app_nil_r| |].
    - apply flat_map_ext_in. intros e He. apply in_range in He. rewrite (HM i lo hi e Hi Gl Gh He), Hv by lia.
      destruct (get idx e), (get vals e); try reflexivity. rewrite Z.eqb_refl. reflexivity.
    - intros e He. apply in_range in He. destruct (get_lt major e ltac:(lia)) as [x G]. rewrite G.
      pose proof (Hother e ltac:(lia) ltac:(lia) x G). destruct (get idx e), (get vals' e); try reflexivity.
      destruct (Z.eqb_spec x i); [congruence|reflexivity].
    - intros e He. apply in_range in He. destruct (get_lt major e ltac:(lia)) as [x G]. rewrite G.
      pose proof (Hother e ltac:(lia) ltac:(lia) x G). destruct (get idx e), (get vals' e); try reflexivity.
      destruct (Z.eqb_spec x i); [congruence|reflexivity].
  Qed.

  (* -------------------------------------------------------------- *)
  (** ** Copies *)
  Lemma copy_arr_spec {A} n (src dst : option (list A)) : 0 <= n -> n <= zlen (arrv src) -> n <= zlen (arrv dst) ->
    exists dst', copy_arr n src dst = Ok dst' /\ zlen (arrv dst') = zlen (arrv dst) /\
      (forall e, 0 <= e < n -> get (arrv dst') e = get (arrv src) e).
  Proof.
    intros Hn Ls Ld. unfold copy_arr.
    destruct (for_inv (fun k (d : option (list A)) => zlen (arrv d) = zlen (arrv dst) /\ forall e, 0 <= e < k -> get (arrv d) e = get (arrv src) e)
       0 n (fun i dst => x <- rdp src i ;; wrp dst i x) dst) as (d & E & L & H).
    - exact Hn.
    - split; [reflexivity|]. intros; lia.
    - intros k d Hk [L H]. destruct (rdp_ex src k ltac:(lia)) as (x & -> & G). cbn [bind].
      destruct (wrp_ex d k x) as (d' & -> & L' & G' & N'); [lia|]. eexists. split; [reflexivity|]. split; [lia|].
      intros e He. destruct (Z.eq_dec e k) as [->|Hne]; [congruence|]. rewrite N' by exact Hne. apply H. lia.
    - exists d. auto.
  Qed.

  Lemma copy2_spec n (si di : option (list Z)) (sv dv : option (list T)) :
    0 <= n -> n <= zlen (arrv si) -> n <= zlen (arrv sv) -> n <= zlen (arrv di) -> n <= zlen (arrv dv) ->
    exists di' dv', for_ 0 n (fun i '(idx, vals) =>
         r <- rdp si i ;; idx <- wrp idx i r ;;
         v <- rdp sv i ;; vals <- wrp vals i v ;; Ok (idx, vals)) (di, dv) = Ok (di', dv') /\
      zlen (arrv di') = zlen (arrv di) /\ zlen (arrv dv') = zlen (arrv dv) /\
      (forall e, 0 <= e < n -> get (arrv di') e = get (arrv si) e /\ get (arrv dv') e = get (arrv sv) e).
  Proof.
    intros Hn L1 L2 L3 L4.
    destruct (for_inv (fun k (d : option (list Z) * option (list T)) => zlen (arrv (fst d)) = zlen (arrv di) /\ zlen (arrv (snd d)) = zlen (arrv dv) /\
         forall e, 0 <= e < k -> get (arrv (fst d)) e = get (arrv si) e /\ get (arrv (snd d)) e = get (arrv sv) e)
       0 n (fun i '(idx, vals) =>
         r <- rdp si i ;; idx <- wrp idx i r ;;
         v <- rdp sv i ;; vals <- wrp vals i v ;; Ok (idx, vals)) (di, dv)) as ([a b] & E & La & Lb & H).
    - exact Hn.
    - repeat (split; [reflexivity|]). intros; lia.
    - intros k [a b] Hk (La & Lb & H). cbn [fst snd] in *.
      destruct (rdp_ex si k ltac:(lia)) as (x & -> & G). cbn [bind]. destruct (wrp_ex a k x) as (a' & -> & A1 & A2 & A3); [lia|]. cbn [bind].
      destruct (rdp_ex sv k ltac:(lia)) as (v & -> & G'). cbn [bind]. destruct (wrp_ex b k v) as (b' & -> & B1 & B2 & B3); [lia|]. cbn [bind].
      eexists. split; [reflexivity|]. cbn [fst snd]. split; [lia|]. split; [lia|].
      intros e He. destruct (Z.eq_dec e k) as [->|Hne]; [split; congruence|]. rewrite A3, B3 by exact Hne. apply H. lia.
    - exists a, b. auto.
  Qed.

  Lemma slice_values_ext ptr idx (vals : list T) ptr' idx' vals' n nnz i j :
    ptr_ok n nnz ptr -> 0 <= i < n ->
    (forall e, 0 <= e < n + 1 -> get ptr' e = get ptr e) -> (forall e, 0 <= e < nnz -> get idx' e = get idx e /\ get vals' e = get vals e) ->
    slice_values ptr' idx' vals' i j = slice_values ptr idx vals i j.
  Proof.
    intros Hp Hi H1 H2. unfold slice_values. rewrite !H1 by lia.
    destruct (slice_bounds n nnz ptr i Hp Hi) as (lo & hi & -> & -> & B1 & B2).
    apply flat_map_ext_in. intros e He. apply in_range in He. destruct (H2 e ltac:(lia)) as [-> ->]. reflexivity.
  Qed.

  Lemma shift_arr_spec n d a : 0 <= n -> n <= zlen (arrv a) ->
    exists a', shift_arr n d a = Ok a' /\ zlen (arrv a') = zlen (arrv a) /\ (is_null a' = is_null a) /\
      (forall e, 0 <= e < n -> get (arrv a') e = option_map (fun x => x + d) (get (arrv a) e)) /\
      (forall e, n <= e -> get (arrv a') e = get (arrv a) e).
  Proof.
    intros Hn L. unfold shift_arr.
    destruct (for_inv (fun k (b : option (list Z)) => zlen (arrv b) = zlen (arrv a) /\ is_null b = is_null a /\
         (forall e, 0 <= e < k -> get (arrv b) e = option_map (fun x => x + d) (get (arrv a) e)) /\ (forall e, k <= e -> get (arrv b) e = get (arrv a) e))
       0 n (fun ell a => x <- rdp a ell ;; wrp a ell (x + d)) a) as (b & E & H).
    - exact Hn.
    - repeat (split; [reflexivity|]). split; intros; [lia|reflexivity].
    - intros k b Hk (Lb & Nb & H1 & H2). destruct (rdp_ex b k ltac:(lia)) as (x & -> & G). cbn [bind].
      destruct (wrp_ex b k (x + d)) as (b' & E' & B1 & B2 & B3); [lia|]. exists b'. split; [exact E'|]. split; [lia|]. split.
      { rewrite <- Nb. destruct b as [lb|]; cbn [wrp] in E'; [|discriminate]. apply bind_Ok in E' as (z & _ & Ez). inversion Ez. reflexivity. }
      split.
      + intros e He. destruct (Z.eq_dec e k) as [->|Hne].
        * rewrite B2. rewrite H2 in G by lia. rewrite G. reflexivity.
        * rewrite B3 by exact Hne. apply H1. lia.
      + intros e He. rewrite B3 by lia. apply H2. lia.
    - exists b. tauto.
  Qed.
End Conv.
