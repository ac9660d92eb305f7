(** Sketching with sparse operators in floating-point arithmetic. *)
From Coq Require Import ZArith Reals Lra Psatz Permutation.
From Flocq Require Import Core BinarySingleNaN.
From Verif Require Import Base Interleave Spec RngModel DenseModel DenseSpec SparseSkopModel SparseSpec SpFmtModel SpFmtSpec SpFmtProofs SpmmModel SpmmSpec SpmmProofs SpmmProofs2 SpmmProofs5
  SketchModel SketchSpec SketchProofs SketchProofs3 SketchProofs5 SketchProofs6 RoundModel RoundSpec RoundProofs RoundProofs2 RoundProofs3.
Local Open Scope Z_scope.

Lemma spread_coo_tight {T} d n m (M : coo_matrix T) ro co : 0 <= co_nnz M ->
  n = 0 \/ m = 1 \/ 2 <= m /\ ((exists r c v, 0 <= r < d /\ 1 <= c < m /\ In (ro + r, co + c, v) (stored M)) \/ forall r v, 0 <= r < d -> ~ In (ro + r, co, v) (stored M)) ->
  coo_tight M ro co d n m.
Proof.
  intros Hz [H|[H|[Hm H]]]; [left; lia|right; left; lia|]. right. right.
  destruct (existsb (in_window ro (co + 1) d (m - 1)) (stored M)) eqn:E.
  - right. apply existsb_exists in E as ([[r c] v] & H1 & H2). exists r, c, v. auto.
  - destruct H as [(r & c & v & Hr & Hc & H)|H].
    + right. exists (ro + r), (co + c), v. split; [exact H|]. unfold in_window. lia.
    + left. unfold window_count. rewrite PropsSparse.filter_none; [reflexivity|].
      intros [[r c] v] Hin. destruct (in_window ro co d m (r, c, v)) eqn:Ew; [exfalso|reflexivity]. unfold in_window in Ew.
      destruct (Z.eq_dec c co) as [->|Hne].
      * apply (H (r - ro) v); [lia|]. now replace (ro + (r - ro)) with r by lia.
      * assert (existsb (in_window ro (co + 1) d (m - 1)) (stored M) = true) as X; [|congruence]. apply existsb_exists. exists (r, c, v). split; [exact Hin|]. unfold in_window. lia.
Qed.
Lemma spread_tight {T} opA d n m (M : coo_matrix T) ro co :
  0 <= d -> 0 <= co_nnz M -> co_base M = BZero -> spread (coo_at M) opA d n m ro co -> tight (SpCoo M) opA ro co d n m.
Proof.
  intros Hd Hz Hb H.
  assert (forall i j, coo_at M i j <> [] <-> exists v, In (i, j, v) (stored M)) as X.
  { intros i j. unfold coo_at, stored. rewrite Hb. cbn [off]. rewrite !Z.add_0_r. split; [apply coo_values_stored|]. intros [v Hv]. eapply stored_coo_values, Hv. }
  destruct opA; cbn [tight op_ent] in *; apply spread_coo_tight; auto; destruct H as [H|[H|[Hm H]]]; auto; right; right; (split; [exact Hm|]);
    (destruct H as [(i & k & Hi & Hk & H)|H]; [left; unfold win in H; apply X in H as [v H]|right; intros r v Hr Hin]).
  - exists i, k, v. auto.
  - specialize (H r Hr). cbn [op_ent] in H. unfold win in H. apply (proj2 (X (ro + r) co)); [eauto|]. now rewrite Z.add_0_r in H.
  - exists i, k, v. split; [exact Hi|]. split; [exact Hk|]. now apply in_stored_swap.
  - apply in_stored_swap in Hin. specialize (H r Hr). cbn [op_ent] in H. unfold win in H. apply (proj2 (X ro (co + r))); [eauto|]. now rewrite Z.add_0_r in H.
Qed.

Lemma terms_ext {T} (a a1 : Z -> Z -> list T) b m i j : (forall k, 0 <= k < m -> a i k = a1 i k) -> terms a b m i j = terms a1 b m i j.
Proof. intros H. unfold terms. rewrite !flat_map_concat_map. f_equal. apply map_ext_in. intros k Hk. apply in_range in Hk. now rewrite H. Qed.

Section Sketch.
  Context {bf : Type} {O : ops bf}.
  Context {Kt F : Type}.
  Variable senv : sparse_env Kt F bf.
  Variables (jT : bf) (jZ : Z).
  Variable sched : schedule (list bf).
  Variable ssort : (Z * Z * bf -> Z * Z * bf -> bool) -> list (Z * Z * bf) -> list (Z * Z * bf).
  Variable nt : Z.
  (** What is known of a product with the COO matrix M. *)
  Variable P : Z -> bf -> list (bf * bf) -> bf -> bf -> bf -> Prop.
  Variable ok : bf -> list (bf * bf) -> bf -> bf -> Prop.
  Variables (alpha beta : bf).
  (** alpha counts as zero. *)
  Variable Za : Prop.
  Definition good (l : layout) (d n m : Z) (a : Z -> Z -> list bf) (b : Z -> Z -> bf) (B : list bf) (ldb : Z) (B' : list bf) : Prop :=
    others_kept l d n B ldb B' /\
    forall i j c p, 0 <= i < d -> 0 <= j < n -> get B (addr l ldb i j) = Some c -> p = terms a b m i j -> ok alpha p beta c ->
      exists y, get B' (addr l ldb i j) = Some y /\ P (zlen p) alpha p beta c y.
  Hypothesis Hleft : forall l opA opB d n m (M : coo_matrix bf) ro co B ldb C ldc,
    valid_coo M -> honest_sort M -> co_base M = BZero -> 0 <= d -> 0 <= n -> 0 <= m -> rows_before opA d m <= co_nr M -> cols_before opA d m <= co_nc M ->
    (Za \/ sp_safe nt l opA opB d n m (SpCoo M) ro co /\ tight (SpCoo M) opA ro co d n m) ->
    fits_buffer l ldb (rows_before opB m n) (cols_before opB m n) (zlen B) -> fits_buffer l ldc d n (zlen C) ->
    exists M' C', left_spmm O sched ssort nt nt l opA opB d n m alpha (SpCoo M) ro co B ldb beta C ldc = Ok (SpCoo M', C') /\ same_sp (SpCoo M) (SpCoo M') /\
      good l d n m (op_ent opA (fun i k => coo_at M (ro + i) (co + k))) (op_ent opB (cell O l ldb B)) C ldc C'.

  Lemma good_ext l d n m a a1 b B ldb B' : (forall i k, 0 <= i < d -> 0 <= k < m -> a i k = a1 i k) -> good l d n m a b B ldb B' -> good l d n m a1 b B ldb B'.
  Proof using Type.
    intros H [G1 G2]. split; [exact G1|]. intros i j c p Hi Hj Gc Ep. apply (G2 i j c p Hi Hj Gc). rewrite Ep. symmetry. apply terms_ext. intros k Hk. now apply H.
  Qed.

  Lemma lskges_filled_good l opS opA d n m (S : sparse_skop Kt bf) ro co A lda B ldb :
    0 < ss_nnz S -> valid_coo (skop_coo S) -> 0 <= d -> 0 <= n -> 0 <= m ->
    rows_before opS d m <= sd_rows (ss_dist S) -> cols_before opS d m <= sd_cols (ss_dist S) ->
    (Za \/ spread (coo_at (skop_coo S)) opS d n m ro co) ->
    fits_buffer l lda (rows_before opA m n) (cols_before opA m n) (zlen A) -> fits_buffer l ldb d n (zlen B) ->
    exists S' B', lskges_filled O senv jT jZ sched ssort nt l opS opA d n m alpha S ro co A lda beta B ldb = Ok (S', B') /\ same_skop S S' /\
      good l d n m (op_ent opS (win (coo_at (skop_coo S)) ro co)) (op_ent opA (cell O l lda A)) B ldb B'.
  Proof using Hleft.
    intros Hz HV Hd Hn Hm Hr Hc Hsp FA FB. unfold lskges_filled.
    destruct (coo_view_spec senv jT jZ S Hz HV) as (M & E & VM & HM & BM & NR & NC & NZ & ST & AT). rewrite E. cbn [bind].
    destruct (Hleft l opS opA d n m M ro co A lda B ldb) as (M' & B' & E' & HS & HG); auto; [now rewrite NR|now rewrite NC| |].
    - destruct Hsp as [Hsp|Hsp]; [now left|right].
      assert (Hsp' : spread (coo_at M) opS d n m ro co) by (eapply spread_ext; [|exact Hsp]; intros i j; now rewrite AT).
      split; [apply spread_safe|apply spread_tight]; auto; rewrite NZ; lia.
    - rewrite E'. cbn [bind]. exists (with_arrays S (SpCoo M')), B'. split; [reflexivity|]. split; [now apply (with_arrays_same S M)|].
      refine (good_ext l d n m _ _ _ B ldb B' _ HG). intros i k _ _. destruct opS; cbn [op_ent]; unfold win; now rewrite AT.
  Qed.
  Lemma lskges_good l opS opA d n m (S : sparse_skop Kt bf) ro co A lda B ldb :
    sparse_valid senv S -> 0 <= d -> 0 <= n -> 0 <= m ->
    rows_before opS d m <= sd_rows (ss_dist S) -> cols_before opS d m <= sd_cols (ss_dist S) ->
    (Za \/ spread (sparse_at senv S) opS d n m ro co) ->
    fits_buffer l lda (rows_before opA m n) (cols_before opA m n) (zlen A) -> fits_buffer l ldb d n (zlen B) ->
    exists S' B', lskges O senv jT jZ sched ssort nt l opS opA d n m alpha S ro co A lda beta B ldb = Ok (S', B') /\
      (if ss_nnz S <? 0 then S' = S else same_skop S S') /\
      good l d n m (op_ent opS (win (sparse_at senv S) ro co)) (op_ent opA (cell O l lda A)) B ldb B'.
  Proof using Hleft.
    intros HV Hd Hn Hm Hr Hc Hsp FA FB. unfold lskges, sparse_valid, sparse_at in *. destruct (ss_nnz S <? 0) eqn:En.
    - destruct (fill_sparse_spec senv jT jZ (mk_sparse_skop senv (ss_dist S) (ss_seed S)) HV (mk_buffers_ok senv _ _)) as (Sc & E & D1 & D2 & _ & _ & Z1 & V1 & AT & _).
      rewrite E. cbn [bind mk_sparse_skop ss_dist ss_seed] in *.
      destruct (lskges_filled_good l opS opA d n m Sc ro co A lda B ldb Z1 V1 Hd Hn Hm) as (S' & B' & E' & _ & G); auto; try (now rewrite D1).
      + destruct Hsp as [Hsp|Hsp]; [now left|right]. eapply spread_ext; [|exact Hsp]. intros i j. now rewrite AT.
      + rewrite E'. cbn [bind]. exists S, B'. split; [reflexivity|]. split; [reflexivity|].
        refine (good_ext l d n m _ _ _ B ldb B' _ G). intros i k _ _. destruct opS; cbn [op_ent]; unfold win; now rewrite AT.
    - destruct HV as [Hz HV]. now apply lskges_filled_good.
  Qed.
  Lemma rskges_good l opA opS m d n A lda (S : sparse_skop Kt bf) ro co B ldb :
    0 < ss_nnz S -> valid_coo (skop_coo S) -> 0 <= d -> 0 <= n -> 0 <= m ->
    rows_before opS n d <= sd_rows (ss_dist S) -> cols_before opS n d <= sd_cols (ss_dist S) ->
    (Za \/ spread (coo_at (skop_coo S)) (flip_op opS) d m n ro co) ->
    fits_buffer l lda (rows_before opA m n) (cols_before opA m n) (zlen A) -> fits_buffer l ldb m d (zlen B) ->
    exists S' B', rskges O senv jT jZ sched ssort nt l opA opS m d n alpha A lda S ro co beta B ldb = Ok (S', B') /\ same_skop S S' /\
      good (flip l) d m n (op_ent (flip_op opS) (win (coo_at (skop_coo S)) ro co)) (op_ent opA (cell O (flip l) lda A)) B ldb B'.
  Proof using Hleft.
    intros Hz HV Hd Hn Hm Hr Hc Hsp FA FB. unfold rskges. replace (ss_nnz S <? 0) with false by lia. unfold rskges_filled.
    destruct (coo_view_spec senv jT jZ S Hz HV) as (M & E & VM & HM & BM & NR & NC & NZ & ST & AT). rewrite E. cbn [bind]. unfold right_spmm.
    destruct (Hleft (flip l) (flip_op opS) opA d m n M ro co A lda B ldb) as (M' & B' & E' & HS & HG); auto.
    - now rewrite flip_op_rows, NR.
    - now rewrite flip_op_cols, NC.
    - destruct Hsp as [Hsp|Hsp]; [now left|right].
      assert (Hsp' : spread (coo_at M) (flip_op opS) d m n ro co) by (eapply spread_ext; [|exact Hsp]; intros i j; now rewrite AT).
      split; [apply spread_safe|apply spread_tight]; auto; rewrite NZ; lia.
    - apply fits_flip. destruct opA; exact FA.
    - now apply fits_flip.
    - rewrite E'. cbn [bind]. exists (with_arrays S (SpCoo M')), B'. split; [reflexivity|]. split; [now apply (with_arrays_same S M)|].
      refine (good_ext (flip l) d m n _ _ _ B ldb B' _ HG). intros i k _ _. destruct opS; cbn [op_ent flip_op]; unfold win; now rewrite AT.
  Qed.
End Sketch.
