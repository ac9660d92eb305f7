(** Sketching with sparse operators. *)
From Coq Require Import Permutation.
From Verif Require Import Base Interleave Spec RngModel DenseModel DenseSpec SparseSkopModel SparseSpec SparseProofs SparseProofs2 PropsSparse SpFmtModel SpFmtSpec SpFmtProofs SpFmtProofs2 SpFmtProofs3 SpFmtProofs5
  SpmmModel SpmmSpec SpmmProofs SpmmProofs4 SpmmProofs5 PropsSpmm UtilModel SketchModel SketchSpec LoopProofs SketchProofs SketchProofs2.

Section SparseOperand.
  Context {K F T : Type}.
  Variable senv : sparse_env K F T.
  Variables (jT : T) (jZ : Z).

  (** What filling does. *)
  Lemma fill_sparse_spec (S : sparse_skop K T) :
    samplable senv (ss_dist S) (ss_seed S) -> buffers_ok S ->
    exists S', fill_sparse senv jT jZ S = Ok S' /\
      ss_dist S' = ss_dist S /\ ss_seed S' = ss_seed S /\ ss_next S' = ss_next S /\ ss_own S' = ss_own S /\
      0 < ss_nnz S' /\ valid_coo (skop_coo S') /\ (forall i j, coo_at (skop_coo S') i j = sparse_entry senv (ss_dist S) (ss_seed S) i j) /\ buffers_ok S'.
  Proof.
    intros (Hw & HD & Hsz & Hseed & Hdr) (B1 & B2 & B3).
    destruct (valid_sdist_inv (ss_dist S) HD) as (P1 & P2 & P3 & P4 & P5 & P6).
    destruct (alloc_ok _ _ jZ _ B1) as [rows0 [Ar Lr]]. destruct (alloc_ok _ _ jZ _ B2) as [cols0 [Ac Lc]]. destruct (alloc_ok _ _ jT _ B3) as [vals0 [Av Lv]].
    destruct (fill_values senv Hw (ss_dist S) (ss_seed S) vals0 rows0 cols0 Hseed HD Hsz Lv Lr Lc) as (nnz & v & r & c & E & Lv' & Lr' & Lc' & Hn & G).
    assert (fill_sparse senv jT jZ S = Ok {| ss_dist := ss_dist S; ss_seed := ss_seed S; ss_next := ss_next S; ss_own := ss_own S;
              ss_nnz := nnz; ss_vals := Some v; ss_rows := Some r; ss_cols := Some c |}) as EF.
    { unfold fill_sparse. rewrite Ar, Ac, Av, E. reflexivity. }
    assert (forall p, 0 <= p < nnz -> exists x y, get r p = Some x /\ get c p = Some y /\ 0 <= x < sd_rows (ss_dist S) /\ 0 <= y < sd_cols (ss_dist S)) as Hidx.
    { destruct (sd_axis (ss_dist S)) eqn:Hax.
      - destruct (C16_short_axis_structure senv (ss_dist S) (ss_seed S) jT jZ S Hw HD Hsz Hax eq_refl eq_refl) as (S' & rr & cc & vv & E' & R1 & R2 & R3 & _ & I & _); [repeat split; assumption|].
        rewrite EF in E'. injection E' as <-. cbn [ss_rows ss_cols ss_nnz] in *. injection R1 as <-. injection R2 as <-.
        intros p Hp. destruct (I p Hp) as (x & y & z & G1 & G2 & _ & G4 & G5 & _). exists x, y. auto.
      - destruct (C17_long_axis_structure senv (ss_dist S) (ss_seed S) jT jZ S Hw HD Hsz Hax Hseed eq_refl eq_refl) as (S' & rr & cc & vv & E' & R1 & R2 & R3 & _ & I & _); [repeat split; assumption|auto|].
        rewrite EF in E'. injection E' as <-. cbn [ss_rows ss_cols ss_nnz] in *. injection R1 as <-. injection R2 as <-. exact I. }
    eexists. split; [exact EF|]. cbn [ss_dist ss_seed ss_next ss_own ss_nnz]. do 4 (split; [reflexivity|]).
    assert (0 < sd_minor (ss_dist S)) as Hmin. { destruct (sd_axis (ss_dist S)); lia. }
    split; [lia|]. split; [|split].
    - unfold valid_coo, skop_coo. cbn [ss_dist ss_nnz ss_vals ss_rows ss_cols co_nr co_nc co_nnz co_base co_vals co_rows co_cols arrv off].
      do 4 (split; [lia|]). split; (split; [lia|]); intros e x He Hx; destruct (Hidx e He) as (x' & y' & G1 & G2 & R1 & R2).
      + rewrite G1 in Hx. injection Hx as <-. lia.
      + rewrite G2 in Hx. injection Hx as <-. lia.
    - intros i j. unfold coo_at, skop_coo. cbn [ss_dist ss_nnz ss_vals ss_rows ss_cols co_nr co_nc co_nnz co_base co_vals co_rows co_cols arrv off].
      rewrite !Z.add_0_r. apply G.
    - unfold buffers_ok, buffer_ok. cbn [ss_dist ss_own ss_rows ss_cols ss_vals]. lia.
  Qed.

  Lemma mk_buffers_ok D seed : buffers_ok (mk_sparse_skop senv D seed : sparse_skop K T).
  Proof. unfold buffers_ok, buffer_ok. cbn. auto. Qed.

  (** The COO view. *)
  Lemma coo_view_spec (S : sparse_skop K T) : 0 < ss_nnz S -> valid_coo (skop_coo S) ->
    exists M, coo_view_of_skop senv jT jZ S = Ok (S, M) /\ valid_coo M /\ honest_sort M /\ co_base M = BZero /\
      co_nr M = sd_rows (ss_dist S) /\ co_nc M = sd_cols (ss_dist S) /\ co_nnz M = ss_nnz S /\ stored M = stored (skop_coo S) /\
      (forall i j, coo_at M i j = coo_at (skop_coo S) i j).
  Proof.
    intros Hn HV. unfold coo_view_of_skop. replace (ss_nnz S <=? 0) with false by lia. cbn [bind]. unfold mk_coo_expert.
    pose proof HV as (V1 & V2 & V3 & V4 & [V5 _] & [V6 _]). cbn [skop_coo co_nr co_nc co_nnz co_base co_vals co_rows co_cols] in V1, V2, V3, V4, V5, V6.
    destruct (coo_sort_type_spec (ss_nnz S) (ss_rows S) (ss_cols S) V5 V6) as (s & E & H1 & H2). rewrite E. cbn [bind].
    eexists. split; [reflexivity|]. split; [exact HV|]. split.
    - unfold honest_sort. cbn [co_sort co_nnz co_rows co_cols]. destruct s; [now apply H1|now apply H2|exact I].
    - repeat split.
  Qed.
End SparseOperand.

Lemma coo_values_stored {T} nnz rows cols (vals : list T) r c : coo_values nnz rows cols vals r c <> [] ->
  exists v, In (r, c, v) (coo_triples nnz rows cols vals).
Proof.
  unfold coo_values, coo_triples. intros H. destruct (flat_map _ (range 0 nnz)) as [|v l] eqn:E in H; [congruence|].
  exists v. assert (In v (v :: l)) as Hv by now left. rewrite <- E in Hv. apply in_flat_map in Hv as (p & Hp & Hv).
  apply in_flat_map. exists p. split; [exact Hp|]. destruct (get rows p) as [r'|]; [|contradiction]. destruct (get cols p) as [c'|]; [|contradiction].
  destruct (get vals p) as [w|]; [|contradiction]. destruct ((r' =? r) && (c' =? c)) eqn:Eq; [|contradiction].
  destruct Hv as [->|[]]. apply andb_true_iff in Eq as [E1 E2]. apply Z.eqb_eq in E1, E2. subst. now left.
Qed.

Lemma stored_coo_values {T} nnz rows cols (vals : list T) r c v : In (r, c, v) (coo_triples nnz rows cols vals) -> coo_values nnz rows cols vals r c <> [].
Proof.
  unfold coo_values, coo_triples. intros H E. apply in_flat_map in H as (p & Hp & H).
  destruct (get rows p) as [r'|] eqn:E1; [|contradiction]. destruct (get cols p) as [c'|] eqn:E2; [|contradiction]. destruct (get vals p) as [w|] eqn:E3; [|contradiction].
  destruct H as [H|[]]. injection H as -> -> ->.
  assert (In v (flat_map (fun p => match get rows p, get cols p, get vals p with Some r', Some c', Some v => if (r' =? r) && (c' =? c) then [v] else [] | _, _, _ => [] end) (range 0 nnz))) as X.
  { apply in_flat_map. exists p. split; [exact Hp|]. rewrite E1, E2, E3, !Z.eqb_refl. now left. }
  rewrite E in X. exact X.
Qed.

(** The same for the rows and columns exchanged. *)
Lemma in_stored_swap {T} (M : coo_matrix T) b c e s r k v :
  In (k, r, v) (stored (Build_coo_matrix b c false (co_nnz M) e (co_vals M) (co_cols M) (co_rows M) s)) <-> In (r, k, v) (stored M).
Proof.
  unfold stored. cbn [co_nnz co_rows co_cols co_vals]. unfold coo_triples. rewrite !in_flat_map. split; intros (p & Hp & H); exists p; (split; [exact Hp|]);
  destruct (get (arrv (co_rows M)) p), (get (arrv (co_cols M)) p), (get (arrv (co_vals M)) p); try contradiction; destruct H as [H|[]]; injection H as -> -> ->; now left.
Qed.

Lemma spread_coo_safe {T} d n m (M : coo_matrix T) ro co : 0 <= co_nnz M ->
  n = 0 \/ m = 1 \/ 2 <= m /\ ((exists r c v, 0 <= r < d /\ 1 <= c < m /\ In (ro + r, co + c, v) (stored M)) \/ forall r v, 0 <= r < d -> ~ In (ro + r, co, v) (stored M)) ->
  coo_safe M ro co d n m.
Proof.
  intros Hz [H|[H|[Hm H]]]; [now left|now (right; left)|]. right. right. right. split; [exact Hm|].
  destruct (existsb (in_window ro (co + 1) d (m - 1)) (stored M)) eqn:E.
  - left. apply existsb_exists in E as ([[r c] v] & H1 & H2). exists r, c, v. auto.
  - destruct H as [(r & c & v & Hr & Hc & H)|H].
    + left. exists (ro + r), (co + c), v. split; [exact H|]. unfold in_window. lia.
    + right. unfold window_count. rewrite PropsSparse.filter_none.
      * unfold zlen. cbn [length]. lia.
      * intros [[r c] v] Hin. destruct (in_window ro co d m (r, c, v)) eqn:Ew; [exfalso|reflexivity]. unfold in_window in Ew.
        destruct (Z.eq_dec c co) as [->|Hne].
        -- apply (H (r - ro) v); [lia|]. now replace (ro + (r - ro)) with r by lia.
        -- assert (existsb (in_window ro (co + 1) d (m - 1)) (stored M) = true) as X; [|congruence]. apply existsb_exists. exists (r, c, v). split; [exact Hin|]. unfold in_window. lia.
Qed.

Lemma spread_safe {T} nt l opA opB d n m (M : coo_matrix T) ro co :
  0 <= d -> 0 <= co_nnz M -> co_base M = BZero -> spread (coo_at M) opA d n m ro co -> sp_safe nt l opA opB d n m (SpCoo M) ro co.
Proof.
  intros Hd Hz Hb H.
  assert (forall i j, coo_at M i j <> [] <-> exists v, In (i, j, v) (stored M)) as X.
  { intros i j. unfold coo_at, stored. rewrite Hb. cbn [off]. rewrite !Z.add_0_r. split; [apply coo_values_stored|]. intros [v Hv]. eapply stored_coo_values, Hv. }
  destruct opA; cbn [sp_safe op_ent] in *; apply spread_coo_safe; auto; destruct H as [H|[H|[Hm H]]]; auto; right; right; (split; [exact Hm|]);
    (destruct H as [(i & k & Hi & Hk & H)|H]; [left; unfold win in H; apply X in H as [v H]|right; intros r v Hr Hin]).
  - exists i, k, v. auto.
  - specialize (H r Hr). cbn [op_ent] in H. unfold win in H. apply (proj2 (X (ro + r) co)); [eauto|]. now rewrite Z.add_0_r in H.
  - exists i, k, v. split; [exact Hi|]. split; [exact Hk|]. now apply in_stored_swap.
  - apply in_stored_swap in Hin. specialize (H r Hr). cbn [op_ent] in H. unfold win in H. apply (proj2 (X ro (co + r))); [eauto|]. now rewrite Z.add_0_r in H.
Qed.

Lemma stored_perm_at {T} (M M' : coo_matrix T) : co_base M' = co_base M -> Permutation (stored M) (stored M') -> forall i j, Permutation (coo_at M i j) (coo_at M' i j).
Proof.
  intros Hb P i j. unfold coo_at, coo_values. rewrite Hb.
  assert (forall (X : coo_matrix T) r c, flat_map (fun p => match get (arrv (co_rows X)) p, get (arrv (co_cols X)) p, get (arrv (co_vals X)) p with
     | Some r', Some c', Some v => if (r' =? r) && (c' =? c) then [v] else [] | _, _, _ => [] end) (range 0 (co_nnz X)) =
     flat_map (fun t => let '(r', c', v) := t in if (r' =? r) && (c' =? c) then [v] else []) (stored X)) as H.
  { intros X r c. unfold stored, coo_triples. induction (range 0 (co_nnz X)) as [|p ps IH]; [reflexivity|]. cbn [flat_map]. rewrite flat_map_app, <- IH. f_equal.
    destruct (get (arrv (co_rows X)) p), (get (arrv (co_cols X)) p), (get (arrv (co_vals X)) p); try reflexivity. cbn [flat_map]. now rewrite app_nil_r. }
  rewrite !H. now apply Permutation_flat_map.
Qed.

Lemma spread_ext {T} (at1 at2 : Z -> Z -> list T) o d n m ro co : (forall i j, at1 i j = [] <-> at2 i j = []) -> spread at2 o d n m ro co -> spread at1 o d n m ro co.
Proof.
  intros E [H|[H|[Hm [(i & k & Hi & Hk & H)|H]]]]; [now left|now (right; left)| |]; right; right; (split; [exact Hm|]).
  - left. exists i, k. split; [exact Hi|]. split; [exact Hk|]. intros X. apply H. destruct o; cbn [op_ent] in *; unfold win in *; now apply E.
  - right. intros i Hi. specialize (H i Hi). destruct o; cbn [op_ent] in *; unfold win in *; now apply E.
Qed.

Section SparseDrivers.
  Context {K F T : Type}.
  Variable O : ops T.
  Hypothesis L : semiring O.
  Variable senv : sparse_env K F T.
  Variables (jT : T) (jZ : Z).
  Variable sched : schedule (list T).
  Variable ssort : (Z * Z * T -> Z * Z * T -> bool) -> list (Z * Z * T) -> list (Z * Z * T).
  Variable nt : Z.
  Hypothesis Hsched : valid_schedule sched.
  Hypothesis Hsort : sort_ok ssort.
  Notation add := (o_add O). Notation mul := (o_mul O). Notation zero := (o_zero O).

  Lemma with_arrays_same (S : sparse_skop K T) M M' : co_nr M = sd_rows (ss_dist S) -> co_nc M = sd_cols (ss_dist S) -> co_nnz M = ss_nnz S -> co_base M = BZero ->
    stored M = stored (skop_coo S) -> same_sp (SpCoo M) (SpCoo M') -> same_skop S (with_arrays S (SpCoo M')).
  Proof using Type.
    intros E1 E2 E3 E4 E5 (A1 & A2 & A3 & A4 & A5 & A6 & A7 & A8 & P). unfold same_skop. cbn [with_arrays ss_dist ss_seed ss_next ss_own ss_nnz].
    do 5 (split; [reflexivity|]). unfold skop_coo. cbn [ss_dist ss_nnz ss_vals ss_rows ss_cols]. split.
    - destruct A8 as (V1 & V2 & V3 & V4 & V5 & V6). unfold valid_coo. cbn [co_nr co_nc co_nnz co_base co_vals co_rows co_cols].
      rewrite A1, E1 in *. rewrite A2, E2 in *. rewrite A4, E3 in *. rewrite A5, E4 in *. auto 10.
    - rewrite E5 in P. unfold stored in *. cbn [co_nnz co_rows co_cols co_vals skop_coo] in *. rewrite A4, E3 in P. exact P.
  Qed.

  Lemma lskges_filled_spec l opS opA d n m alpha S ro co A lda beta B ldb :
    0 < ss_nnz S -> valid_coo (skop_coo S) -> 0 <= d -> 0 <= n -> 0 <= m ->
    rows_before opS d m <= sd_rows (ss_dist S) -> cols_before opS d m <= sd_cols (ss_dist S) ->
    (alpha = zero \/ spread (coo_at (skop_coo S)) opS d n m ro co) ->
    fits_buffer l lda (rows_before opA m n) (cols_before opA m n) (zlen A) -> fits_buffer l ldb d n (zlen B) ->
    exists S' B', lskges_filled O senv jT jZ sched ssort nt l opS opA d n m alpha S ro co A lda beta B ldb = Ok (S', B') /\ same_skop S S' /\
      gemm_result O l d n m alpha beta (op_ent opS (win (fun i k => sumT O (coo_at (skop_coo S) i k)) ro co)) (op_ent opA (cell O l lda A)) B ldb B'.
  Proof using L Hsched Hsort.
    intros Hz HV Hd Hn Hm Hr Hc Hsp FA FB. unfold lskges_filled.
    destruct (coo_view_spec senv jT jZ S Hz HV) as (M & E & VM & HM & BM & NR & NC & NZ & ST & AT). rewrite E. cbn [bind].
    destruct (left_spec O L ssort Hsort sched nt l opS opA d n m alpha (SpCoo M) ro co A lda beta B ldb Hsched) as (A' & B' & E' & HS & HG); auto.
    - split; assumption.
    - cbn [window_ok]. rewrite NR, NC. auto.
    - destruct Hsp as [Hsp|Hsp]; [now left|right]. apply spread_safe; [auto|rewrite NZ; lia|auto|]. eapply spread_ext; [|exact Hsp]. intros i j. now rewrite AT.
    - rewrite E'. cbn [bind]. destruct A' as [M'|?|?]; try contradiction.
      exists (with_arrays S (SpCoo M')), B'. split; [reflexivity|]. split; [now apply (with_arrays_same S M)|].
      refine (gemm_ext O l d n m alpha beta _ _ _ _ B ldb B' _ _ HG); [|auto]. intros i k _ _. unfold sp_entry. destruct opS; cbn [op_ent]; unfold win; now rewrite AT.
  Qed.

  Lemma rskges_filled_spec l opA opS m d n alpha A lda S ro co beta B ldb :
    0 < ss_nnz S -> valid_coo (skop_coo S) -> 0 <= d -> 0 <= n -> 0 <= m ->
    rows_before opS n d <= sd_rows (ss_dist S) -> cols_before opS n d <= sd_cols (ss_dist S) ->
    (alpha = zero \/ spread (coo_at (skop_coo S)) (flip_op opS) d m n ro co) ->
    fits_buffer l lda (rows_before opA m n) (cols_before opA m n) (zlen A) -> fits_buffer l ldb m d (zlen B) ->
    exists S' B', rskges_filled O senv jT jZ sched ssort nt l opA opS m d n alpha A lda S ro co beta B ldb = Ok (S', B') /\ same_skop S S' /\
      gemm_result O l m d n alpha beta (op_ent opA (cell O l lda A)) (op_ent opS (win (fun i k => sumT O (coo_at (skop_coo S) i k)) ro co)) B ldb B'.
  Proof using L Hsched Hsort.
    intros Hz HV Hd Hn Hm Hr Hc Hsp FA FB. unfold rskges_filled.
    destruct (coo_view_spec senv jT jZ S Hz HV) as (M & E & VM & HM & BM & NR & NC & NZ & ST & AT). rewrite E. cbn [bind].
    destruct (C36_right_product O L sched nt ssort l opA opS m d n alpha A lda (SpCoo M) ro co beta B ldb Hsched Hsort) as (A' & B' & E' & HS & HG); auto.
    - split; assumption.
    - cbn [window_ok]. rewrite NR, NC. auto.
    - destruct Hsp as [Hsp|Hsp]; [now left|right]. apply spread_safe; [auto|rewrite NZ; lia|auto|]. eapply spread_ext; [|exact Hsp]. intros i j. now rewrite AT.
    - rewrite E'. cbn [bind]. destruct A' as [M'|?|?]; try contradiction.
      exists (with_arrays S (SpCoo M')), B'. split; [reflexivity|]. split; [now apply (with_arrays_same S M)|].
      refine (gemm_ext O l m d n alpha beta _ _ _ _ B ldb B' _ _ HG); [auto|]. intros i k _ _. unfold sp_entry. destruct opS; cbn [op_ent]; unfold win; now rewrite AT.
  Qed.

  (** lskges, materialised or not. *)
  Lemma lskges_spec l opS opA d n m alpha S ro co A lda beta B ldb :
    sparse_valid senv S -> 0 <= d -> 0 <= n -> 0 <= m ->
    rows_before opS d m <= sd_rows (ss_dist S) -> cols_before opS d m <= sd_cols (ss_dist S) ->
    (alpha = zero \/ spread (sparse_at senv S) opS d n m ro co) ->
    fits_buffer l lda (rows_before opA m n) (cols_before opA m n) (zlen A) -> fits_buffer l ldb d n (zlen B) ->
    exists S' B', lskges O senv jT jZ sched ssort nt l opS opA d n m alpha S ro co A lda beta B ldb = Ok (S', B') /\
      (if ss_nnz S <? 0 then S' = S else same_skop S S') /\
      gemm_result O l d n m alpha beta (op_ent opS (win (fun i k => sumT O (sparse_at senv S i k)) ro co)) (op_ent opA (cell O l lda A)) B ldb B'.
  Proof using L Hsched Hsort.
    intros HV Hd Hn Hm Hr Hc Hsp FA FB. unfold lskges, sparse_valid, sparse_at in *. destruct (ss_nnz S <? 0) eqn:En.
    - destruct (fill_sparse_spec senv jT jZ (mk_sparse_skop senv (ss_dist S) (ss_seed S)) HV (mk_buffers_ok senv _ _)) as (Sc & E & D1 & D2 & _ & _ & Z1 & V1 & AT & _).
      rewrite E. cbn [bind mk_sparse_skop ss_dist ss_seed] in *.
      destruct (lskges_filled_spec l opS opA d n m alpha Sc ro co A lda beta B ldb Z1 V1 Hd Hn Hm) as (S' & B' & E' & _ & G); auto; try (now rewrite D1).
      + destruct Hsp as [Hsp|Hsp]; [now left|right]. eapply spread_ext; [|exact Hsp]. intros i j. now rewrite AT.
      + rewrite E'. cbn [bind]. exists S, B'. split; [reflexivity|]. split; [reflexivity|].
        refine (gemm_ext O l d n m alpha beta _ _ _ _ B ldb B' _ _ G); [|auto]. intros i k _ _. destruct opS; cbn [op_ent]; unfold win; now rewrite AT.
    - destruct HV as [Hz HV]. now apply lskges_filled_spec.
  Qed.


  (** rskges: materialised. *)
  Lemma rskges_spec l opA opS m d n alpha A lda S ro co beta B ldb :
    0 <= ss_nnz S -> sparse_valid senv S -> 0 <= d -> 0 <= n -> 0 <= m ->
    rows_before opS n d <= sd_rows (ss_dist S) -> cols_before opS n d <= sd_cols (ss_dist S) ->
    (alpha = zero \/ spread (sparse_at senv S) (flip_op opS) d m n ro co) ->
    fits_buffer l lda (rows_before opA m n) (cols_before opA m n) (zlen A) -> fits_buffer l ldb m d (zlen B) ->
    exists S' B', rskges O senv jT jZ sched ssort nt l opA opS m d n alpha A lda S ro co beta B ldb = Ok (S', B') /\ same_skop S S' /\
      gemm_result O l m d n alpha beta (op_ent opA (cell O l lda A)) (op_ent opS (win (fun i k => sumT O (sparse_at senv S i k)) ro co)) B ldb B'.
  Proof using L Hsched Hsort.
    intros Hz HV Hd Hn Hm Hr Hc Hsp FA FB. unfold rskges, sparse_valid, sparse_at in *. replace (ss_nnz S <? 0) with false in * by lia. cbn [bind].
    destruct HV as [Hz' HV]. now apply rskges_filled_spec.
  Qed.

  (** rskges: not materialised.  The product is applied twice and S is materialised. *)
  Lemma rskges_unfilled_spec l opA opS m d n alpha A lda S ro co beta B ldb :
    ss_nnz S < 0 -> sparse_valid senv S -> buffers_ok S -> 0 <= d -> 0 <= n -> 0 <= m ->
    rows_before opS n d <= sd_rows (ss_dist S) -> cols_before opS n d <= sd_cols (ss_dist S) ->
    (alpha = zero \/ spread (sparse_at senv S) (flip_op opS) d m n ro co) ->
    fits_buffer l lda (rows_before opA m n) (cols_before opA m n) (zlen A) -> fits_buffer l ldb m d (zlen B) ->
    exists S' B1 B', rskges O senv jT jZ sched ssort nt l opA opS m d n alpha A lda S ro co beta B ldb = Ok (S', B') /\
      0 < ss_nnz S' /\ ss_dist S' = ss_dist S /\ ss_seed S' = ss_seed S /\ ss_next S' = ss_next S /\ ss_own S' = ss_own S /\
      valid_coo (skop_coo S') /\ (forall i j, Permutation (sparse_at senv S i j) (coo_at (skop_coo S') i j)) /\
      let a := op_ent opA (cell O l lda A) in
      let b := op_ent opS (win (fun i k => sumT O (sparse_at senv S i k)) ro co) in
      gemm_result O l m d n alpha beta a b B ldb B1 /\ gemm_result O l m d n alpha beta a b B1 ldb B'.
  Proof using L Hsched Hsort.
    intros Hz HV HB Hd Hn Hm Hr Hc Hsp FA FB. unfold rskges, sparse_valid, sparse_at in *. replace (ss_nnz S <? 0) with true in * by lia.
    destruct (fill_sparse_spec senv jT jZ (mk_sparse_skop senv (ss_dist S) (ss_seed S)) HV (mk_buffers_ok senv _ _)) as (Sc & E & D1 & D2 & _ & _ & Z1 & V1 & AT & _).
    rewrite E. cbn [bind mk_sparse_skop ss_dist ss_seed] in *.
    destruct (rskges_filled_spec l opA opS m d n alpha A lda Sc ro co beta B ldb Z1 V1 Hd Hn Hm) as (S1 & B1 & E1 & _ & G1); auto; try (now rewrite D1).
    { destruct Hsp as [Hsp|Hsp]; [now left|right]. eapply spread_ext; [|exact Hsp]. intros i j. now rewrite AT. }
    rewrite E1. cbn [bind].
    destruct (fill_sparse_spec senv jT jZ S HV HB) as (S2 & E2 & D1' & D2' & D3' & D4' & Z2 & V2 & AT2 & _).
    assert (rskges_filled O senv jT jZ sched ssort nt l opA opS m d n alpha A lda S ro co beta B1 ldb =
            rskges_filled O senv jT jZ sched ssort nt l opA opS m d n alpha A lda S2 ro co beta B1 ldb) as ->.
    { unfold rskges_filled, coo_view_of_skop. replace (ss_nnz S <=? 0) with true by lia. replace (ss_nnz S2 <=? 0) with false by lia. rewrite E2. reflexivity. }
    destruct (rskges_filled_spec l opA opS m d n alpha A lda S2 ro co beta B1 ldb Z2 V2 Hd Hn Hm) as (S3 & B2 & E3 & (Q1 & Q2 & Q3 & Q4 & Q5 & Q6 & Q7) & G2); auto; try (now rewrite D1').
    { destruct Hsp as [Hsp|Hsp]; [now left|right]. eapply spread_ext; [|exact Hsp]. intros i j. now rewrite AT2. }
    { destruct G1 as [-> _]. exact FB. }
    exists S3, B1, B2. split; [exact E3|]. split; [lia|]. do 4 (split; [congruence|]). split; [exact Q6|]. split.
    - intros i j. rewrite <- AT2. apply stored_perm_at; [reflexivity|exact Q7].
    - cbn zeta. split.
      + refine (gemm_ext O l m d n alpha beta _ _ _ _ B ldb B1 _ _ G1); [auto|]. intros i k _ _. destruct opS; cbn [op_ent]; unfold win; now rewrite AT.
      + refine (gemm_ext O l m d n alpha beta _ _ _ _ B1 ldb B2 _ _ G2); [auto|]. intros i k _ _. destruct opS; cbn [op_ent]; unfold win; now rewrite AT2.
  Qed.
End SparseDrivers.

(** Whatever the arguments of a product, the sparse operand is only reordered. *)
Section Reorder.
  Context {T : Type}.
  Variable O : ops T.
  Variable sched : schedule (list T).
  Variable ssort : (Z * Z * T -> Z * Z * T -> bool) -> list (Z * Z * T) -> list (Z * Z * T).
  Hypothesis Hsort : sort_ok ssort.

  Definition reordered (M M' : coo_matrix T) : Prop :=
    same_coo M M' /\ zlen (arrv (co_vals M')) = zlen (arrv (co_vals M)) /\ zlen (arrv (co_rows M')) = zlen (arrv (co_rows M)) /\ zlen (arrv (co_cols M')) = zlen (arrv (co_cols M)).
  Lemma reordered_refl M : coo_arrays M -> reordered M M.
  Proof. intros H. unfold reordered, same_coo. auto 20. Qed.

  Lemma sort_reorders s M M' : coo_arrays M -> sort_coo ssort s M = Ok M' ->
    co_nr M' = co_nr M /\ co_nc M' = co_nc M /\ co_own M' = co_own M /\ co_nnz M' = co_nnz M /\ co_base M' = co_base M /\ co_sort M' = s /\
    coo_arrays M' /\ Permutation (stored M) (stored M') /\
    zlen (arrv (co_vals M')) = zlen (arrv (co_vals M)) /\ zlen (arrv (co_rows M')) = zlen (arrv (co_rows M)) /\ zlen (arrv (co_cols M')) = zlen (arrv (co_cols M)).
  Proof.
    intros HA E. pose proof HA as (Hn & Lv & Lr & Lc). unfold sort_coo in E. destruct s.
    1,2: match type of E with context [sort_coo_data ssort ?s _ _ _ _] =>
      destruct (sort_coo_data_spec ssort Hsort s (co_nnz M) (co_vals M) (co_rows M) (co_cols M) ltac:(discriminate) Hn Lv Lr Lc) as (v & r & c & E' & L1 & L2 & L3 & P & _) end;
      rewrite E' in E; cbn [bind] in E; injection E as <-; unfold coo_arrays, stored; cbn [co_nr co_nc co_own co_nnz co_base co_sort co_vals co_rows co_cols]; do 6 (split; [reflexivity|]);
      split; [lia|auto].
    unfold sort_coo_data in E. cbn [sort_eqb bind] in E. injection E as <-. unfold coo_arrays, stored. cbn [co_nr co_nc co_own co_nnz co_base co_sort co_vals co_rows co_cols]. auto 20.
  Qed.

  Lemma coo_left_jki_reorders alpha lB lC d n m M ro co B ldb C ldc M' C' : coo_arrays M ->
    coo_left_jki O sched ssort alpha lB lC d n m M ro co B ldb C ldc = Ok (M', C') -> reordered M M'.
  Proof.
    intros HA E. unfold coo_left_jki in E. apply bind_Ok in E as (u & _ & E). destruct (negb _).
    - apply bind_Ok in E as (M1 & E1 & E). apply bind_Ok in E as (C1 & _ & E). apply bind_Ok in E as (M2 & E2 & E). injection E as <- <-.
      destruct (sort_reorders _ _ _ HA E1) as (A1 & A2 & A3 & A4 & A5 & A6 & A7 & A8 & A9 & A10 & A11).
      destruct (sort_reorders _ _ _ A7 E2) as (B1 & B2 & B3 & B4 & B5 & B6 & B7 & B8 & B9 & B10 & B11).
      unfold reordered, same_coo. split; [|repeat split; congruence]. do 6 (split; [congruence|]). split; [exact B7|]. now transitivity (stored M1).
    - apply bind_Ok in E as (C1 & _ & E). injection E as <- <-. now apply reordered_refl.
  Qed.

  Lemma left_notrans_reorders n1 n2 l opB d n m alpha M ro co B ldb beta C ldc A' C' : coo_arrays M ->
    left_spmm_notrans O sched ssort n1 n2 l opB d n m alpha (SpCoo M) ro co B ldb beta C ldc = Ok (A', C') -> exists M', A' = SpCoo M' /\ reordered M M'.
  Proof.
    intros HA E. unfold left_spmm_notrans in E. apply bind_Ok in E as (u & _ & E). apply bind_Ok in E as (u1 & _ & E).
    destruct (match opB with NoTrans => (m, n, l) | Trans => (n, m, flip l) end) as [[rB cB] lo].
    apply bind_Ok in E as (C1 & _ & E). destruct (o_eqb O alpha (o_zero O)).
    - injection E as <- <-. exists M. split; [reflexivity|now apply reordered_refl].
    - apply bind_Ok in E as ([M' C2] & E & E'). injection E' as <- <-. exists M'. split; [reflexivity|]. eapply coo_left_jki_reorders; eauto.
  Qed.

  Lemma stored_swap (X : coo_matrix T) b c d e s : stored (Build_coo_matrix b c d (co_nnz X) e (co_vals X) (co_cols X) (co_rows X) s) = map (fun t => let '(r, c, v) := t in (c, r, v)) (stored X).
  Proof.
    unfold stored, coo_triples. cbn [co_nnz co_rows co_cols co_vals]. induction (range 0 (co_nnz X)) as [|p ps IH]; [reflexivity|]. cbn [flat_map]. rewrite map_app, <- IH. f_equal.
    destruct (get (arrv (co_rows X)) p), (get (arrv (co_cols X)) p), (get (arrv (co_vals X)) p); reflexivity.
  Qed.

  Lemma left_reorders n1 n2 l opA opB d n m alpha M ro co B ldb beta C ldc A' C' : coo_arrays M ->
    left_spmm O sched ssort n1 n2 l opA opB d n m alpha (SpCoo M) ro co B ldb beta C ldc = Ok (A', C') -> exists M', A' = SpCoo M' /\ reordered M M'.
  Proof.
    intros HA E. destruct opA; [eapply left_notrans_reorders; eauto|]. cbn [left_spmm] in E.
    apply bind_Ok in E as (Mt & Et & E). apply bind_Ok in E as ([At C1] & E1 & E).
    unfold coo_transpose, mk_coo_expert in Et. cbn [bind] in Et. injection Et as <-. cbn [co_nr co_nc co_own co_nnz co_base co_vals co_rows co_cols co_sort] in E1.
    apply left_notrans_reorders in E1 as (M' & -> & ((A1 & A2 & A3 & A4 & A5 & A6 & A7 & A8) & L1 & L2 & L3)).
    2:{ destruct HA as (? & ? & ? & ?). unfold coo_arrays. cbn [co_nnz co_vals co_rows co_cols]. auto. }
    injection E as <- <-. eexists. split; [reflexivity|]. cbn [co_nr co_nc co_own co_nnz co_base co_vals co_rows co_cols co_sort] in *.
    unfold reordered, same_coo. cbn [co_nr co_nc co_own co_nnz co_base co_vals co_rows co_cols co_sort]. split; [|repeat split; congruence]. do 6 (split; [reflexivity|]).
    split; [unfold coo_arrays in *; cbn [co_nnz co_vals co_rows co_cols]; lia|].
    assert (stored (Build_coo_matrix (co_nr M) (co_nc M) (co_own M) (co_nnz M) (co_base M) (co_vals M') (co_cols M') (co_rows M') (co_sort M)) =
            map (fun t => let '(r, c, v) := t in (c, r, v)) (stored M')) as ->. { rewrite <- A4. apply stored_swap. }
    assert (stored M = map (fun t => let '(r, c, v) := t in (c, r, v)) (map (fun t => let '(r, c, v) := t in (c, r, v)) (stored M))) as ->.
    { rewrite map_map. rewrite <- (map_id (stored M)) at 1. apply map_ext. now intros [[? ?] ?]. }
    apply Permutation_map. rewrite <- (stored_swap M (co_nc M) (co_nr M) false (co_base M) (match co_sort M with SCSC => SCSR | SCSR => SCSC | SNone => SNone end)). exact A8.
  Qed.
End Reorder.
