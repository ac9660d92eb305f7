(** Sparse operators: the calls outside the windows of C42 and C43 are undefined. *)
From Coq Require Import Permutation.
From Verif Require Import Base Interleave Spec RngModel DenseModel SparseSkopModel SparseSpec SparseProofs SparseProofs2 PropsSparse
  SpFmtModel SpFmtSpec SpFmtProofs SpmmModel SpmmSpec SpmmProofs SpmmProofs5 SpmmProofs6 SpmmProofs7 PropsSpmm
  SketchModel SketchSpec SketchProofs2 SketchProofs3.

Lemma flip_op_rows o d m : rows_before (flip_op o) d m = rows_before o m d.
Proof. now destruct o. Qed.
Lemma flip_op_cols o d m : cols_before (flip_op o) d m = cols_before o m d.
Proof. now destruct o. Qed.

(** [sp_safe] only depends on the stored triples and their number. *)
Lemma sp_safe_stored {T} nt l opA opB d n m (M M' : coo_matrix T) ro co :
  co_nnz M = co_nnz M' -> stored M = stored M' ->
  sp_safe nt l opA opB d n m (SpCoo M) ro co <-> sp_safe nt l opA opB d n m (SpCoo M') ro co.
Proof.
  intros Hz Hs.
  assert (forall (X Y : coo_matrix T) a b, co_nnz X = co_nnz Y -> stored X = stored Y -> coo_safe X a b d n m -> coo_safe Y a b d n m) as G.
  { intros X Y a b E1 E2. unfold coo_safe, window_count. now rewrite E1, E2. }
  assert (forall (X Y : coo_matrix T) r c z z' b b' s s', co_nnz X = co_nnz Y -> stored X = stored Y ->
     stored (Build_coo_matrix r c z (co_nnz X) b (co_vals X) (co_cols X) (co_rows X) s) = stored (Build_coo_matrix r c z' (co_nnz Y) b' (co_vals Y) (co_cols Y) (co_rows Y) s')) as Sw.
  { intros X Y r c z z' b b' s s' E1 E2. unfold stored. cbn [co_nnz co_rows co_cols co_vals].
    assert (forall (Q : coo_matrix T) z0, coo_triples z0 (arrv (co_cols Q)) (arrv (co_rows Q)) (arrv (co_vals Q)) = map (fun t => let '(i, j, v) := t in (j, i, v)) (coo_triples z0 (arrv (co_rows Q)) (arrv (co_cols Q)) (arrv (co_vals Q)))) as H.
    { intros Q z0. unfold coo_triples. induction (range 0 z0) as [|p ps IH]; [reflexivity|]. cbn [flat_map]. rewrite map_app, <- IH. f_equal.
      destruct (get (arrv (co_rows Q)) p), (get (arrv (co_cols Q)) p), (get (arrv (co_vals Q)) p); reflexivity. }
    unfold stored in E2. now rewrite !H, E2. }
  destruct opA; cbn [sp_safe].
  - split; apply G; auto.
  - split; apply G; cbn [co_nnz]; auto.
    + transitivity (stored (Build_coo_matrix (co_nc M) (co_nr M) false (co_nnz M') (co_base M) (co_vals M') (co_cols M') (co_rows M') (co_sort M))); [now apply Sw|reflexivity].
    + transitivity (stored (Build_coo_matrix (co_nc M') (co_nr M') false (co_nnz M) (co_base M') (co_vals M) (co_cols M) (co_rows M) (co_sort M'))); [now apply Sw|reflexivity].
Qed.

Section SparseUB.
  Context {K F T : Type}.
  Variable O : ops T.
  Variable senv : sparse_env K F T.
  Variables (jT : T) (jZ : Z).
  Variable sched : schedule (list T).
  Variable ssort : (Z * Z * T -> Z * Z * T -> bool) -> list (Z * Z * T) -> list (Z * Z * T).
  Variable nt : Z.
  Hypothesis Hsort : sort_ok ssort.
  Notation zero := (o_zero O).

  Lemma lskges_filled_UB l opS opA d n m alpha S ro co A lda beta B ldb :
    0 < ss_nnz S -> valid_coo (skop_coo S) -> 0 <= d -> 0 <= n -> 0 <= m ->
    rows_before opS d m <= sd_rows (ss_dist S) -> cols_before opS d m <= sd_cols (ss_dist S) ->
    o_eqb O alpha zero = false -> ~ sp_safe nt l opS opA d n m (SpCoo (skop_coo S)) ro co ->
    fits_buffer l lda (rows_before opA m n) (cols_before opA m n) (zlen A) -> fits_buffer l ldb d n (zlen B) ->
    lskges_filled O senv jT jZ sched ssort nt l opS opA d n m alpha S ro co A lda beta B ldb = UB.
  Proof using Hsort.
    intros Hz HV Hd Hn Hm Hr Hc Ea Hsp FA FB. unfold lskges_filled.
    destruct (coo_view_spec senv jT jZ S Hz HV) as (M & E & VM & HM & BM & NR & NC & NZ & ST & AT). rewrite E. cbn [bind].
    rewrite (left_coo_UB O ssort Hsort); auto; [now rewrite NR|now rewrite NC|].
    intros Hs. apply Hsp. revert Hs. apply sp_safe_stored; symmetry; [exact NZ|exact ST].
  Qed.

  Lemma rskges_filled_UB l opA opS m d n alpha A lda S ro co beta B ldb :
    0 < ss_nnz S -> valid_coo (skop_coo S) -> 0 <= d -> 0 <= n -> 0 <= m ->
    rows_before opS n d <= sd_rows (ss_dist S) -> cols_before opS n d <= sd_cols (ss_dist S) ->
    o_eqb O alpha zero = false -> ~ sp_safe nt (flip l) (flip_op opS) opA d m n (SpCoo (skop_coo S)) ro co ->
    fits_buffer l lda (rows_before opA m n) (cols_before opA m n) (zlen A) -> fits_buffer l ldb m d (zlen B) ->
    rskges_filled O senv jT jZ sched ssort nt l opA opS m d n alpha A lda S ro co beta B ldb = UB.
  Proof using Hsort.
    intros Hz HV Hd Hn Hm Hr Hc Ea Hsp FA FB. unfold rskges_filled.
    destruct (coo_view_spec senv jT jZ S Hz HV) as (M & E & VM & HM & BM & NR & NC & NZ & ST & AT). rewrite E. cbn [bind]. unfold right_spmm.
    rewrite (left_coo_UB O ssort Hsort); auto.
    - now rewrite flip_op_rows, NR.
    - now rewrite flip_op_cols, NC.
    - intros Hs. apply Hsp. revert Hs. apply sp_safe_stored; symmetry; [exact NZ|exact ST].
    - apply fits_flip. destruct opA; exact FA.
    - now apply fits_flip.
  Qed.

  (** The arrays that the product uses: those of S if it is materialised, those sampled
      into a copy if not. *)
  Lemma lskges_UB l opS opA d n m alpha S S1 ro co A lda beta B ldb :
    sparse_valid senv S -> 0 <= d -> 0 <= n -> 0 <= m ->
    rows_before opS d m <= sd_rows (ss_dist S) -> cols_before opS d m <= sd_cols (ss_dist S) ->
    (if ss_nnz S <? 0 then fill_sparse senv jT jZ (mk_sparse_skop senv (ss_dist S) (ss_seed S)) = Ok S1 else S1 = S) ->
    o_eqb O alpha zero = false -> ~ sp_safe nt l opS opA d n m (SpCoo (skop_coo S1)) ro co ->
    fits_buffer l lda (rows_before opA m n) (cols_before opA m n) (zlen A) -> fits_buffer l ldb d n (zlen B) ->
    lskges O senv jT jZ sched ssort nt l opS opA d n m alpha S ro co A lda beta B ldb = UB.
  Proof using Hsort.
    intros HV Hd Hn Hm Hr Hc HS Ea Hsp FA FB. unfold lskges, sparse_valid in *. destruct (ss_nnz S <? 0) eqn:En.
    - destruct (fill_sparse_spec senv jT jZ (mk_sparse_skop senv (ss_dist S) (ss_seed S)) HV (mk_buffers_ok senv _ _)) as (Sc & E & D1 & D2 & _ & _ & Z1 & V1 & AT & _).
      rewrite E in HS. injection HS as <-. rewrite E. cbn [bind mk_sparse_skop ss_dist ss_seed] in *.
      rewrite lskges_filled_UB; auto; now rewrite D1.
    - subst S1. destruct HV as [Hz HV]. now apply lskges_filled_UB.
  Qed.

  Lemma rskges_UB l opA opS m d n alpha A lda S S1 ro co beta B ldb :
    sparse_valid senv S -> 0 <= d -> 0 <= n -> 0 <= m ->
    rows_before opS n d <= sd_rows (ss_dist S) -> cols_before opS n d <= sd_cols (ss_dist S) ->
    (if ss_nnz S <? 0 then fill_sparse senv jT jZ (mk_sparse_skop senv (ss_dist S) (ss_seed S)) = Ok S1 else S1 = S) ->
    o_eqb O alpha zero = false -> ~ sp_safe nt (flip l) (flip_op opS) opA d m n (SpCoo (skop_coo S1)) ro co ->
    fits_buffer l lda (rows_before opA m n) (cols_before opA m n) (zlen A) -> fits_buffer l ldb m d (zlen B) ->
    rskges O senv jT jZ sched ssort nt l opA opS m d n alpha A lda S ro co beta B ldb = UB.
  Proof using Hsort.
    intros HV Hd Hn Hm Hr Hc HS Ea Hsp FA FB. unfold rskges, sparse_valid in *. destruct (ss_nnz S <? 0) eqn:En.
    - destruct (fill_sparse_spec senv jT jZ (mk_sparse_skop senv (ss_dist S) (ss_seed S)) HV (mk_buffers_ok senv _ _)) as (Sc & E & D1 & D2 & _ & _ & Z1 & V1 & AT & _).
      rewrite E in HS. injection HS as <-. rewrite E. cbn [bind mk_sparse_skop ss_dist ss_seed] in *.
      rewrite rskges_filled_UB; auto; now rewrite D1.
    - subst S1. cbn [bind]. destruct HV as [Hz HV]. now apply rskges_filled_UB.
  Qed.
End SparseUB.

(** The windows in which the product is right, in the same terms. *)
Section SparseSafe.
  Context {K F T : Type}.
  Variable O : ops T.
  Hypothesis L : semiring O.
  Variable senv : sparse_env K F T.
  Variables (jT : T) (jZ : Z).
  Variable sched : schedule (list T).
  Variable ssort : (Z * Z * T -> Z * Z * T -> bool) -> list (Z * Z * T) -> list (Z * Z * T).
  Variable nt : Z.
  Hypothesis Hsched : valid_schedule sched.
  Hypothesis Hsort : sort_ok ssort.
  Notation zero := (o_zero O).

  Lemma lskges_filled_safe l opS opA d n m alpha S ro co A lda beta B ldb :
    0 < ss_nnz S -> valid_coo (skop_coo S) -> 0 <= d -> 0 <= n -> 0 <= m ->
    rows_before opS d m <= sd_rows (ss_dist S) -> cols_before opS d m <= sd_cols (ss_dist S) ->
    sp_safe nt l opS opA d n m (SpCoo (skop_coo S)) ro co ->
    fits_buffer l lda (rows_before opA m n) (cols_before opA m n) (zlen A) -> fits_buffer l ldb d n (zlen B) ->
    exists S' B', lskges_filled O senv jT jZ sched ssort nt l opS opA d n m alpha S ro co A lda beta B ldb = Ok (S', B') /\ same_skop S S' /\
      gemm_result O l d n m alpha beta (op_ent opS (win (fun i k => sumT O (coo_at (skop_coo S) i k)) ro co)) (op_ent opA (cell O l lda A)) B ldb B'.
  Proof using L Hsched Hsort.
    intros Hz HV Hd Hn Hm Hr Hc Hsp FA FB. unfold lskges_filled.
    destruct (coo_view_spec senv jT jZ S Hz HV) as (M & E & VM & HM & BM & NR & NC & NZ & ST & AT). rewrite E. cbn [bind].
    destruct (left_spec O L ssort Hsort sched nt l opS opA d n m alpha (SpCoo M) ro co A lda beta B ldb Hsched) as (A' & B' & E' & HS & HG); auto.
    - split; assumption.
    - cbn [window_ok]. rewrite NR, NC. auto.
    - right. revert Hsp. now apply sp_safe_stored.
    - rewrite E'. cbn [bind]. destruct A' as [M'|?|?]; try contradiction.
      exists (with_arrays S (SpCoo M')), B'. split; [reflexivity|]. split; [now apply (with_arrays_same S M)|].
      refine (gemm_ext O l d n m alpha beta _ _ _ _ B ldb B' _ _ HG); [|auto]. intros i k _ _. unfold sp_entry. destruct opS; cbn [op_ent]; unfold win; now rewrite AT.
  Qed.

  Lemma lskges_safe l opS opA d n m alpha S S1 ro co A lda beta B ldb :
    sparse_valid senv S -> 0 <= d -> 0 <= n -> 0 <= m ->
    rows_before opS d m <= sd_rows (ss_dist S) -> cols_before opS d m <= sd_cols (ss_dist S) ->
    (if ss_nnz S <? 0 then fill_sparse senv jT jZ (mk_sparse_skop senv (ss_dist S) (ss_seed S)) = Ok S1 else S1 = S) ->
    sp_safe nt l opS opA d n m (SpCoo (skop_coo S1)) ro co ->
    fits_buffer l lda (rows_before opA m n) (cols_before opA m n) (zlen A) -> fits_buffer l ldb d n (zlen B) ->
    exists S' B', lskges O senv jT jZ sched ssort nt l opS opA d n m alpha S ro co A lda beta B ldb = Ok (S', B') /\
      (if ss_nnz S <? 0 then S' = S else same_skop S S') /\
      gemm_result O l d n m alpha beta (op_ent opS (win (fun i k => sumT O (sparse_at senv S i k)) ro co)) (op_ent opA (cell O l lda A)) B ldb B'.
  Proof using L Hsched Hsort.
    intros HV Hd Hn Hm Hr Hc HS Hsp FA FB. unfold lskges, sparse_valid, sparse_at in *. destruct (ss_nnz S <? 0) eqn:En.
    - destruct (fill_sparse_spec senv jT jZ (mk_sparse_skop senv (ss_dist S) (ss_seed S)) HV (mk_buffers_ok senv _ _)) as (Sc & E & D1 & D2 & _ & _ & Z1 & V1 & AT & _).
      rewrite E in HS. injection HS as <-. rewrite E. cbn [bind mk_sparse_skop ss_dist ss_seed] in *.
      destruct (lskges_filled_safe l opS opA d n m alpha Sc ro co A lda beta B ldb Z1 V1 Hd Hn Hm) as (S' & B' & E' & _ & G); auto; try (now rewrite D1).
      rewrite E'. cbn [bind]. exists S, B'. split; [reflexivity|]. split; [reflexivity|].
      refine (gemm_ext O l d n m alpha beta _ _ _ _ B ldb B' _ _ G); [|auto]. intros i k _ _. destruct opS; cbn [op_ent]; unfold win; now rewrite AT.
    - subst S1. destruct HV as [Hz HV]. now apply lskges_filled_safe.
  Qed.
End SparseSafe.
