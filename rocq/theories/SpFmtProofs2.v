(** Dense to sparse: the resulting structures. *)
From Coq Require Import Permutation.
From Verif Require Import Base Spec SparseSkopModel SparseSpec SparseProofs SpFmtModel SpFmtSpec SpFmtProofs.

Lemma flat_map_filter {A B} (p : A -> bool) (g : A -> list B) l :
  flat_map g (filter p l) = flat_map (fun x => if p x then g x else []) l.
Proof. induction l as [|x l IH]; cbn [filter flat_map]; [reflexivity|]. destruct (p x); cbn [flat_map app]; now rewrite IH. Qed.

Lemma flat_map_mid {A B} (a r b : list A) (h : Z -> list B) (g : A -> list B) :
  (forall t x, get (a ++ r ++ b) t = Some x -> h t = g x) ->
  flat_map h (range (zlen a) (zlen a + zlen r)) = flat_map g r.
Proof.
  intros H. replace (range (zlen a) (zlen a + zlen r)) with (map (fun t => t + zlen a) (range 0 (zlen r)))
    by (rewrite map_range_shift; f_equal; lia).
  rewrite flat_map_map. apply flat_map_range. intros t x G. apply H.
  pose proof (get_Some_lt _ _ _ G). rewrite get_app_r by lia. rewrite get_app_l by lia. rewrite <- G. f_equal. lia.
Qed.

Lemma zlen_arr {A} (x : A) n : 0 <= n -> zlen (arrv (arr x n)) = n.
Proof. intros H. cbn [arrv arr]. rewrite zlen_repeat. lia. Qed.

Lemma holds_nil {T} (val : Z -> Z -> T) l : holds val [] l.
Proof. intros t c G. apply get_Some_lt in G. unfold zlen in G. cbn in G. lia. Qed.
Lemma holdsi_nil f l : holdsi f [] l.
Proof. intros t c G. apply get_Some_lt in G. unfold zlen in G. cbn in G. lia. Qed.
Lemma in_kept {T} big (val : Z -> Z -> T) l c : In c (kept big val l) <-> In c l /\ big (val (fst c) (snd c)) = true.
Proof. apply filter_In. Qed.

Section ToSparse2.
  Context {T : Type}.
  Variables (zero junkT : T) (junkZ : Z) (big : T -> bool) (val : Z -> Z -> T).
  Variables (mat : list T) (nr nc sr sc : Z).
  Hypothesis Hnr : 0 <= nr.
  Hypothesis Hnc : 0 <= nc.
  Hypothesis Hmat : forall i j, 0 <= i < nr -> 0 <= j < nc -> get mat (i * sr + j * sc) = Some (val i j).

  Notation kept := (kept big val).
  Notation holds := (holds val).

  Theorem dense_to_coo_spec :
    exists M, dense_to_coo_str junkT junkZ big sr sc mat (mk_coo nr nc) = Ok M /\
      co_nr M = nr /\ co_nc M = nc /\ co_own M = true /\ co_base M = BZero /\ co_nnz M = zlen (kept (cells nr nc)) /\
      valid_coo M /\
      ordered lt_rm (co_nnz M) (arrv (co_rows M)) (arrv (co_cols M)) /\
      forall i j, 0 <= i < nr -> 0 <= j < nc -> coo_at M i j = if big (val i j) then [val i j] else [].
  Proof.
    unfold dense_to_coo_str. cbn [mk_coo co_nr co_nc].
    rewrite (nnz_in_dense_spec big val mat nr nc sr sc Hmat). cbn [bind].
    set (K := kept (cells nr nc)). set (N := zlen K).
    assert (HN : 0 <= N) by apply zlen_nonneg.
    unfold reserve_coo. cbn [mk_coo co_own co_vals co_rows co_cols is_null]. rewrite !require_true. cbn [bind].
    set (M1 := if N >? 0 then _ else _).
    assert (HM1 : co_nr M1 = nr /\ co_nc M1 = nc /\ co_own M1 = true /\ co_base M1 = BZero /\ co_nnz M1 = N /\
              zlen (arrv (co_vals M1)) = N /\ zlen (arrv (co_rows M1)) = N /\ zlen (arrv (co_cols M1)) = N).
    { unfold M1. destruct (Z.gtb_spec N 0); cbn [co_nr co_nc co_own co_base co_nnz co_vals co_rows co_cols mk_coo].
      - rewrite !zlen_arr by lia. auto 10.
      - assert (EN : N = 0) by lia. cbn [arrv]. rewrite EN. auto 10. }
    destruct HM1 as (E1 & E2 & E3 & E4 & E5 & Lv & Lr & Lc). rewrite E1, E2.
    assert (EF : for_ 0 nr (fun i st => for_ 0 nc (fun j st =>
        let '(nnz, vals, rows, cols) := st in
        val <- rd mat (i * sr + j * sc) ;;
        if big val then
          vals <- wrp vals nnz val ;;
          rows <- wrp rows nnz i ;;
          cols <- wrp cols nnz j ;;
          Ok (nnz + 1, vals, rows, cols)
        else Ok st) st) (0, co_vals M1, co_rows M1, co_cols M1)
      = foldM (coo_step big mat sr sc) (cells nr nc) (0, co_vals M1, co_rows M1, co_cols M1)).
    { rewrite (for_cells nr nc (fun i j st => coo_step big mat sr sc (i, j) st)).
      apply foldM_ext. intros [i j] s _. reflexivity. }
    rewrite EF. clear EF.
    destruct (coo_pass big val mat nr nc sr sc Hmat N (cells nr nc) [] (co_vals M1) (co_rows M1) (co_cols M1))
      as (vals & rows & cols & E & Lv' & Lr' & Lc' & Hv & Hr & Hc); auto using holds_nil, holdsi_nil.
    { intros [i j] Hin. now apply in_cells in Hin. }
    { cbn [app]. fold K N. lia. }
    rewrite zlen_nil in E. rewrite E. cbn [bind app] in *. fold K in Hv, Hr, Hc.
    eexists. split; [reflexivity|]. cbn [co_nr co_nc co_own co_base co_nnz co_vals co_rows co_cols]. rewrite ?E1, ?E2, ?E3, ?E4, ?E5.
    repeat (split; [reflexivity|]).
    assert (HK : forall t, 0 <= t < N -> exists c, get K t = Some c /\ 0 <= fst c < nr /\ 0 <= snd c < nc).
    { intros t Ht. destruct (get_lt K t Ht) as [c G]. exists c. split; [exact G|].
      assert (In c K) by (apply get_In; eauto). apply in_kept in H as [H _]. destruct c. now apply in_cells in H. }
    split; [|split].
    - unfold valid_coo, idx_ok. cbn [co_nr co_nc co_nnz co_vals co_rows co_cols co_base off].
      split; [lia|]. split; [lia|]. split; [lia|]. split; [lia|].
      split; (split; [lia|]); intros e x He G; destruct (HK e He) as (c & Gc & B1 & B2).
      + rewrite (Hr e c Gc) in G. inversion G. lia.
      + rewrite (Hc e c Gc) in G. inversion G. lia.
    - intros p q r1 c1 r2 c2 Hp Hq G1 G2 G3 G4. destruct (HK p ltac:(lia)) as (a & Ga & _). destruct (HK q ltac:(lia)) as (b & Gb & _).
      rewrite (Hr p a Ga) in G1. rewrite (Hc p a Ga) in G2. rewrite (Hr q b Gb) in G3. rewrite (Hc q b Gb) in G4.
      inversion G1; inversion G2; inversion G3; inversion G4.
      rewrite <- !surjective_pairing. apply (increasing_filter lt_rm (keep big val) _ (increasing_rows nr nc Hnr) p q); auto.
    - intros i j Hi Hj. unfold coo_at, coo_values. cbn [co_nnz co_rows co_cols co_vals co_base]. cbn [off]. rewrite !Z.add_0_r.
      rewrite (flat_map_range K _ (fun c => if (fst c =? i) && (snd c =? j) then [val (fst c) (snd c)] else [])).
      2:{ intros t c G. rewrite (Hr t c G), (Hc t c G), (Hv t c G). reflexivity. }
      unfold K. unfold SpFmtProofs.kept. rewrite flat_map_filter. rewrite (flat_map_one _ _ (i, j)).
      + unfold keep. cbn [fst snd]. rewrite !Z.eqb_refl. reflexivity.
      + apply (increasing_NoDup lt_rm); [|now apply increasing_rows]. intros x [?|[? ?]]; lia.
      + now apply in_cells.
      + intros [a b] _ Hne. destruct (keep big val (a, b)); [|reflexivity]. cbn [fst snd].
        destruct (Z.eqb_spec a i), (Z.eqb_spec b j); cbn [andb]; try reflexivity. exfalso. apply Hne. congruence.
  Qed.

End ToSparse2.

Section Slices.
  Context {T : Type}.
  Variables (big : T -> bool) (val : Z -> Z -> T).
  Variables (mat : list T) (nr nc sr sc : Z).
  Hypothesis Hmat : forall i j, 0 <= i < nr -> 0 <= j < nc -> get mat (i * sr + j * sc) = Some (val i j).
  Notation kept := (kept big val).
  Notation holds := (holds val).

  (** Compressed formats: [slice i] lists the cells of slice i in order, [f] the stored index. *)
  Variables (n m : Z) (slice : Z -> list (Z * Z)) (f : Z * Z -> Z).
  Hypothesis Hn : 0 <= n.
  Hypothesis Hslice : forall i c, 0 <= i < n -> In c (slice i) -> 0 <= fst c < nr /\ 0 <= snd c < nc /\ 0 <= f c < m.

  Definition upto (i : Z) : list (Z * Z) := kept (flat_map slice (range 0 i)).

  Lemma upto_snoc i : 0 <= i -> upto (i + 1) = upto i ++ kept (slice i).
  Proof.
    intros Hi. unfold upto. rewrite range_snoc by lia. rewrite flat_map_app. cbn [flat_map]. rewrite app_nil_r.
    apply kept_app.
  Qed.

  Lemma upto_split i : 0 <= i < n -> exists r, upto n = upto i ++ kept (slice i) ++ r.
  Proof.
    intros Hi. exists (kept (flat_map slice (range (i + 1) n))). rewrite app_assoc, <- upto_snoc by lia.
    unfold upto. rewrite <- kept_app, <- flat_map_app. rewrite <- range_split by lia. reflexivity.
  Qed.

  Lemma upto_le i : 0 <= i <= n -> zlen (upto i) <= zlen (upto n).
  Proof.
    intros Hi. destruct (Z.eq_dec i n) as [->|]; [lia|].
    destruct (upto_split i) as [r ->]; [lia|]. rewrite zlen_app. pose proof (zlen_nonneg (kept (slice i) ++ r)). lia.
  Qed.

  Lemma csx_build vals idx ptr :
    zlen (arrv vals) = zlen (upto n) -> zlen (arrv idx) = zlen (upto n) -> zlen (arrv ptr) = n + 1 ->
    get (arrv ptr) 0 = Some 0 ->
    exists vals' idx' ptr',
      for_ 0 n (fun i st =>
        '(nnz, vals, idx, ptr) <- foldM (csx_step big mat sr sc f) (slice i) st ;;
        ptr <- wrp ptr (i + 1) nnz ;;
        Ok (nnz, vals, idx, ptr)) (0, vals, idx, ptr) = Ok (zlen (upto n), vals', idx', ptr') /\
      zlen (arrv vals') = zlen (upto n) /\ zlen (arrv idx') = zlen (upto n) /\ zlen (arrv ptr') = n + 1 /\
      holds (upto n) (arrv vals') /\ holdsi f (upto n) (arrv idx') /\
      forall i, 0 <= i <= n -> get (arrv ptr') i = Some (zlen (upto i)).
  Proof.
    intros Lv Li Lp P0.
    destruct (for_inv (fun i (st : Z * option (list T) * option (list Z) * option (list Z)) =>
       let '(nnz, vals, idx, ptr) := st in
       nnz = zlen (upto i) /\ zlen (arrv vals) = zlen (upto n) /\ zlen (arrv idx) = zlen (upto n) /\ zlen (arrv ptr) = n + 1 /\
       holds (upto i) (arrv vals) /\ holdsi f (upto i) (arrv idx) /\
       forall k, 0 <= k <= i -> get (arrv ptr) k = Some (zlen (upto k))) 0 n (fun i st =>
        '(nnz, vals, idx, ptr) <- foldM (csx_step big mat sr sc f) (slice i) st ;;
        ptr <- wrp ptr (i + 1) nnz ;;
        Ok (nnz, vals, idx, ptr)) (0, vals, idx, ptr)) as ([[[nnz' vals'] idx'] ptr'] & E & I).
    - lia.
    - replace (upto 0) with (@nil (Z * Z)) by reflexivity.
      repeat split; auto using holds_nil, holdsi_nil.
      intros k Hk. assert (k = 0) by lia. subst. exact P0.
    - intros i [[[nnz1 vals1] idx1] ptr1] Hi (-> & Lv1 & Li1 & Lp1 & Hv1 & Hi1 & Hp1).
      destruct (csx_pass big val mat nr nc sr sc Hmat f ptr1 (zlen (upto n)) (slice i) (upto i) vals1 idx1)
        as (v2 & i2 & E2 & L2 & L3 & Hv2 & Hi2); auto.
      { intros c Hc. destruct (Hslice i c Hi Hc) as (? & ? & ?). auto. }
      { rewrite <- upto_snoc by lia. apply upto_le. lia. }
      rewrite E2. cbn [bind].
      destruct (wrp_ex ptr1 (i + 1) (zlen (upto i ++ kept (slice i)))) as (p2 & -> & L4 & G & N); [lia|].
      cbn [bind]. eexists. split; [reflexivity|]. cbn beta iota. rewrite upto_snoc by lia.
      repeat split; auto; try lia.
      intros k Hk. destruct (Z.eq_dec k (i + 1)) as [->|Hne].
      + rewrite G. rewrite upto_snoc by lia. reflexivity.
      + rewrite N by exact Hne. apply Hp1. lia.
    - destruct I as (-> & ?). eexists _, _, _. split; [exact E|]. tauto.
  Qed.

  Hypothesis Hinc : forall i, 0 <= i < n -> increasing (fun a b => f a < f b) (slice i).

  Lemma csx_structure vals idx ptr :
    zlen idx = zlen (upto n) -> zlen ptr = n + 1 ->
    holds (upto n) vals -> holdsi f (upto n) idx ->
    (forall i, 0 <= i <= n -> get ptr i = Some (zlen (upto i))) ->
    idx_ok (zlen (upto n)) m 0 idx /\ ptr_ok n (zlen (upto n)) ptr /\ slices_increasing n ptr idx /\
    forall i j, 0 <= i < n ->
      slice_values ptr idx vals i j =
      flat_map (fun c => if big (val (fst c) (snd c)) then if f c =? j then [val (fst c) (snd c)] else [] else []) (slice i).
  Proof.
    intros Li Lp Hv Hi Hp. split; [|split; [|split]].
    - split; [lia|]. intros e x He G. destruct (get_lt (upto n) e He) as [c Gc].
      rewrite (Hi e c Gc) in G. inversion G; subst x.
      assert (Hin : In c (upto n)) by (apply get_In; eauto). unfold upto in Hin. apply in_kept in Hin as [Hin _].
      apply in_flat_map in Hin as (i & Hir & Hin). apply in_range in Hir. destruct (Hslice i c Hir Hin) as (? & ? & ?). lia.
    - split; [lia|]. split; [apply (Hp 0); lia|]. split; [apply Hp; lia|].
      intros i a b Hir Ga Gb. rewrite Hp in Ga, Gb by lia. inversion Ga; inversion Gb.
      rewrite upto_snoc, zlen_app by lia. pose proof (zlen_nonneg (kept (slice i))). lia.
    - intros i lo hi p q x y Hir Ga Gb Hpq Hq Gx Gy. rewrite Hp in Ga, Gb by lia. inversion Ga; inversion Gb; subst; clear Ga Gb.
      rewrite upto_snoc, zlen_app in Hq by lia. destruct (upto_split i Hir) as [r Er].
      assert (Hget : forall t, zlen (upto i) <= t < zlen (upto i) + zlen (kept (slice i)) ->
                exists c, get (kept (slice i)) (t - zlen (upto i)) = Some c /\ get idx t = Some (f c)).
      { intros t Ht. destruct (get_lt (kept (slice i)) (t - zlen (upto i)) ltac:(lia)) as [c Gc]. exists c. split; [exact Gc|].
        apply (Hi t c). rewrite Er. rewrite get_app_r by lia. rewrite get_app_l by lia. exact Gc. }
      destruct (Hget p ltac:(lia)) as (c1 & G1 & F1). destruct (Hget q ltac:(lia)) as (c2 & G2 & F2).
      rewrite F1 in Gx. rewrite F2 in Gy. inversion Gx; inversion Gy.
      apply (increasing_filter _ (keep big val) _ (Hinc i Hir) (p - zlen (upto i)) (q - zlen (upto i))); auto. lia.
    - intros i j Hir. unfold slice_values. rewrite !Hp by lia. rewrite upto_snoc, zlen_app by lia.
      destruct (upto_split i Hir) as [r Er].
      rewrite (flat_map_mid (upto i) (kept (slice i)) r _ (fun c => if f c =? j then [val (fst c) (snd c)] else [])).
      + unfold SpFmtProofs.kept. rewrite flat_map_filter. reflexivity.
      + rewrite <- Er. intros t c G. rewrite (Hi t c G), (Hv t c G). reflexivity.
  Qed.
End Slices.

Section ToSparse3.
  Context {T : Type}.
  Variables (zero : T) (big : T -> bool) (val : Z -> Z -> T).
  Variables (mat : list T) (nr nc sr sc : Z).
  Hypothesis Hnr : 0 <= nr.
  Hypothesis Hnc : 0 <= nc.
  Hypothesis Hmat : forall i j, 0 <= i < nr -> 0 <= j < nc -> get mat (i * sr + j * sc) = Some (val i j).

  Definition rowc (i : Z) : list (Z * Z) := map (pair i) (range 0 nc).
  Definition colc (j : Z) : list (Z * Z) := map (fun i => (i, j)) (range 0 nr).

  (** Both traversals keep the same number of entries. *)
  Lemma kept_rows_cols : zlen (kept big val (flat_map colc (range 0 nc))) = zlen (kept big val (cells nr nc)).
  Proof.
    assert (P : Permutation (flat_map colc (range 0 nc)) (cells nr nc)).
    { apply NoDup_Permutation.
      - apply (NoDup_map_inv (fun c => (snd c, fst c))).
        replace (map (fun c : Z * Z => (snd c, fst c)) (flat_map colc (range 0 nc))) with (cells nc nr).
        + apply (increasing_NoDup lt_rm); [|now apply increasing_rows]. intros x [?|[? ?]]; lia.
        + unfold cells, colc. rewrite !flat_map_concat_map, concat_map, map_map. f_equal. apply map_ext. intros j.
          rewrite map_map. reflexivity.
      - apply (increasing_NoDup lt_rm); [|now apply increasing_rows]. intros x [?|[? ?]]; lia.
      - intros [i j]. rewrite in_cells, in_flat_map. unfold colc. split.
        + intros (x & Hx & H). apply in_map_iff in H as (y & E & Hy). inversion E; subst. apply in_range in Hx, Hy. auto.
        + intros [Hi Hj]. exists j. split; [now apply in_range|]. apply in_map_iff. exists i. split; [reflexivity|now apply in_range]. }
    unfold zlen, kept. f_equal. apply Permutation_length. clear - P.
    induction P; cbn [filter].
    - constructor.
    - destruct (keep big val x); auto.
    - destruct (keep big val x), (keep big val y); auto. constructor.
    - eapply perm_trans; eauto.
  Qed.

  Theorem dense_to_csr_spec :
    exists M, dense_to_csr_str zero big sr sc mat (mk_csr nr nc) = Ok M /\
      cr_nr M = nr /\ cr_nc M = nc /\ cr_own M = true /\ cr_base M = BZero /\ cr_nnz M = zlen (kept big val (cells nr nc)) /\
      valid_csr M /\ slices_increasing nr (arrv (cr_ptr M)) (arrv (cr_idx M)) /\
      forall i j, 0 <= i < nr -> 0 <= j < nc -> csr_at M i j = if big (val i j) then [val i j] else [].
  Proof.
    unfold dense_to_csr_str. cbn [mk_csr cr_nr cr_nc].
    rewrite (nnz_in_dense_spec big val mat nr nc sr sc Hmat). cbn [bind].
    set (K := kept big val (cells nr nc)). set (N := zlen K).
    assert (HN : 0 <= N) by apply zlen_nonneg.
    unfold reserve_csr. cbn [mk_csr cr_own cr_vals cr_ptr cr_idx is_null cr_nr cr_nc cr_base]. rewrite !require_true. cbn [bind].
    set (M1 := if N >? 0 then _ else _).
    assert (HM1 : cr_nr M1 = nr /\ cr_nc M1 = nc /\ cr_own M1 = true /\ cr_base M1 = BZero /\ cr_nnz M1 = N /\
              zlen (arrv (cr_vals M1)) = N /\ zlen (arrv (cr_idx M1)) = N /\ cr_ptr M1 = arr 0 (nr + 1)).
    { unfold M1. destruct (Z.gtb_spec N 0); cbn [cr_nr cr_nc cr_own cr_base cr_nnz cr_vals cr_ptr cr_idx].
      - rewrite !zlen_arr by lia. auto 10.
      - assert (EN : N = 0) by lia. cbn [arrv]. rewrite EN. auto 10. }
    destruct HM1 as (E1 & E2 & E3 & E4 & E5 & Lv & Li & Ep). rewrite E1, E2, E3, E4, E5, Ep. clearbody M1.
    destruct (wrp_ex (arr 0 (nr + 1)) 0 0) as (p1 & E & Lp & G & _); [rewrite zlen_arr; lia|]. rewrite E. cbn [bind].
    rewrite zlen_arr in Lp by lia.
    assert (EF : forall st, for_ 0 nr (fun i st =>
        '(nnz, vals, idx, ptr) <- for_ 0 nc (fun j st =>
          let '(nnz, vals, idx, ptr) := st in
          val <- rd mat (i * sr + j * sc) ;;
          if big val then
            vals <- wrp vals nnz val ;;
            idx <- wrp idx nnz j ;;
            Ok (nnz + 1, vals, idx, ptr)
          else Ok st) st ;;
        ptr <- wrp ptr (i + 1) nnz ;;
        Ok (nnz, vals, idx, ptr)) st =
      for_ 0 nr (fun i st =>
        '(nnz, vals, idx, ptr) <- foldM (csx_step big mat sr sc snd) (rowc i) st ;;
        ptr <- wrp ptr (i + 1) nnz ;;
        Ok (nnz, vals, idx, ptr)) st).
    { intros st. apply for_ext. intros i s _. unfold rowc. rewrite foldM_map. reflexivity. }
    rewrite EF. clear EF.
    assert (Hs : forall i c, 0 <= i < nr -> In c (rowc i) -> 0 <= fst c < nr /\ 0 <= snd c < nc /\ 0 <= snd c < nc).
    { intros i c Hi Hc. apply in_map_iff in Hc as (j & <- & Hj). apply in_range in Hj. cbn. lia. }
    assert (EK : upto big val rowc nr = K) by reflexivity.
    destruct (csx_build big val mat nr nc sr sc Hmat nr nc rowc snd Hnr Hs (cr_vals M1) (cr_idx M1) p1)
      as (vals & idx & ptr & Eb & Lv' & Li' & Lp' & Hv & Hi & Hp); rewrite ?EK; auto.
    rewrite Eb. cbn [bind]. rewrite EK in *. eexists. split; [reflexivity|].
    cbn [cr_nr cr_nc cr_own cr_base cr_nnz cr_vals cr_ptr cr_idx]. repeat (split; [reflexivity|]).
    destruct (csx_structure big val mat nr nc sr sc Hmat nr nc rowc snd Hnr Hs) with (vals := arrv vals) (idx := arrv idx) (ptr := arrv ptr)
      as (S1 & S2 & S3 & S4); rewrite ?EK; auto.
    { intros i Hi'. apply (increasing_map Z.lt); [|apply increasing_range]. cbn. auto. }
    rewrite EK in *. split; [|split; [exact S3|]].
    - unfold valid_csr. cbn. repeat (split; [lia|]). split; [exact S1|exact S2].
    - intros i j Hir Hj. unfold csr_at. cbn [cr_ptr cr_idx cr_vals cr_base off]. rewrite Z.add_0_r, S4 by exact Hir.
      unfold rowc. rewrite flat_map_map. rewrite (flat_map_one _ _ j); [|apply NoDup_range|now apply in_range|].
      + cbn [fst snd]. rewrite Z.eqb_refl. reflexivity.
      + intros j' _ Hne. cbn [fst snd]. destruct (big _); [|reflexivity]. destruct (Z.eqb_spec j' j); [congruence|reflexivity].
  Qed.

  Theorem dense_to_csc_spec :
    exists M, dense_to_csc_str zero big sr sc mat (mk_csc nr nc) = Ok M /\
      cc_nr M = nr /\ cc_nc M = nc /\ cc_own M = true /\ cc_base M = BZero /\ cc_nnz M = zlen (kept big val (cells nr nc)) /\
      valid_csc M /\ slices_increasing nc (arrv (cc_ptr M)) (arrv (cc_idx M)) /\
      forall i j, 0 <= i < nr -> 0 <= j < nc -> csc_at M i j = if big (val i j) then [val i j] else [].
  Proof.
    unfold dense_to_csc_str. cbn [mk_csc cc_nr cc_nc].
    rewrite (nnz_in_dense_spec big val mat nr nc sr sc Hmat). cbn [bind].
    set (K := kept big val (flat_map colc (range 0 nc))).
    rewrite <- kept_rows_cols. fold K. set (N := zlen K).
    assert (HN : 0 <= N) by apply zlen_nonneg.
    unfold reserve_csc. cbn [mk_csc cc_own cc_vals cc_ptr cc_idx is_null cc_nr cc_nc cc_base]. rewrite !require_true. cbn [bind].
    set (M1 := if N >? 0 then _ else _).
    assert (HM1 : cc_nr M1 = nr /\ cc_nc M1 = nc /\ cc_own M1 = true /\ cc_base M1 = BZero /\ cc_nnz M1 = N /\
              zlen (arrv (cc_vals M1)) = N /\ zlen (arrv (cc_idx M1)) = N /\ cc_ptr M1 = arr 0 (nc + 1)).
    { unfold M1. destruct (Z.gtb_spec N 0); cbn [cc_nr cc_nc cc_own cc_base cc_nnz cc_vals cc_ptr cc_idx].
      - rewrite !zlen_arr by lia. auto 10.
      - assert (EN : N = 0) by lia. cbn [arrv]. rewrite EN. auto 10. }
    destruct HM1 as (E1 & E2 & E3 & E4 & E5 & Lv & Li & Ep). rewrite E1, E2, E3, E4, E5, Ep. clearbody M1.
    destruct (wrp_ex (arr 0 (nc + 1)) 0 0) as (p1 & E & Lp & G & _); [rewrite zlen_arr; lia|]. rewrite E. cbn [bind].
    rewrite zlen_arr in Lp by lia.
    assert (EF : forall st, for_ 0 nc (fun j st =>
        '(nnz, vals, idx, ptr) <- for_ 0 nr (fun i st =>
          let '(nnz, vals, idx, ptr) := st in
          val <- rd mat (i * sr + j * sc) ;;
          if big val then
            vals <- wrp vals nnz val ;;
            idx <- wrp idx nnz i ;;
            Ok (nnz + 1, vals, idx, ptr)
          else Ok st) st ;;
        ptr <- wrp ptr (j + 1) nnz ;;
        Ok (nnz, vals, idx, ptr)) st =
      for_ 0 nc (fun j st =>
        '(nnz, vals, idx, ptr) <- foldM (csx_step big mat sr sc fst) (colc j) st ;;
        ptr <- wrp ptr (j + 1) nnz ;;
        Ok (nnz, vals, idx, ptr)) st).
    { intros st. apply for_ext. intros i s _. unfold colc. rewrite foldM_map. reflexivity. }
    rewrite EF. clear EF.
    assert (Hs : forall i c, 0 <= i < nc -> In c (colc i) -> 0 <= fst c < nr /\ 0 <= snd c < nc /\ 0 <= fst c < nr).
    { intros i c Hi Hc. apply in_map_iff in Hc as (j & <- & Hj). apply in_range in Hj. cbn. lia. }
    assert (EK : upto big val colc nc = K) by reflexivity.
    destruct (csx_build big val mat nr nc sr sc Hmat nc nr colc fst Hnc Hs (cc_vals M1) (cc_idx M1) p1)
      as (vals & idx & ptr & Eb & Lv' & Li' & Lp' & Hv & Hi & Hp); rewrite ?EK; auto.
    rewrite Eb. cbn [bind]. rewrite EK in *. eexists. split; [reflexivity|].
    cbn [cc_nr cc_nc cc_own cc_base cc_nnz cc_vals cc_ptr cc_idx]. repeat (split; [reflexivity|]).
    destruct (csx_structure big val mat nr nc sr sc Hmat nc nr colc fst Hnc Hs) with (vals := arrv vals) (idx := arrv idx) (ptr := arrv ptr)
      as (S1 & S2 & S3 & S4); rewrite ?EK; auto.
    { intros i Hi'. apply (increasing_map Z.lt); [|apply increasing_range]. cbn. auto. }
    rewrite EK in *. split; [|split; [exact S3|]].
    - unfold valid_csc. cbn. repeat (split; [lia|]). split; [exact S1|exact S2].
    - intros i j Hir Hj. unfold csc_at. cbn [cc_ptr cc_idx cc_vals cc_base off]. rewrite Z.add_0_r, S4 by exact Hj.
      unfold colc. rewrite flat_map_map. rewrite (flat_map_one _ _ i); [|apply NoDup_range|now apply in_range|].
      + cbn [fst snd]. rewrite Z.eqb_refl. reflexivity.
      + intros j' _ Hne. cbn [fst snd]. destruct (big _); [|reflexivity]. destruct (Z.eqb_spec j' i); [congruence|reflexivity].
  Qed.
End ToSparse3.
