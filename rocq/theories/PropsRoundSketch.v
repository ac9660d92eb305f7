(** C61: sketching with a sparse operator in floating-point arithmetic.

    Definitions read by these statements: those listed in PropsRound.v; [sketch_general_left],
    [sketch_general_right] (SketchModel.v); [sparse_valid], [sparse_at], [samplable], [spread],
    [in_matrix], [win], [same_skop], [whole_columns] (SketchSpec.v); [sparse_entry] (SparseSpec.v). *)
From Coq Require Import ZArith Reals Lra Permutation.
From Flocq Require Import Core BinarySingleNaN.
From Verif Require Import Base Interleave Spec RngModel DenseModel DenseSpec SparseSkopModel SparseSpec SparseProofs PropsSparse SpFmtModel SpFmtSpec PropsSpFmt SpmmModel SpmmSpec SpmmProofs2 SpmmProofs5 PropsSpmm FloatModel FloatProofs2
  SketchModel SketchSpec SketchProofs SketchProofs3 SketchProofs5 SketchProofs6 RoundModel RoundSpec RoundProofs3 PropsRound RoundProofs4.

Section Any.
Context {prec emax : Z} {pp : Prec_gt_0 prec} {pe : Prec_lt_emax prec emax}.
Local Notation bf := (binary_float prec emax).
Context {Kt W F : Type}.
(** Word-to-scalar cast and sampler of dense operators: not used for sparse ones. *)
Variables (cast : W -> bf) (denv : dense_env Kt W bf) (fsched : schedule bf).
Variable senv : sparse_env Kt F bf.
Variables (jT : bf) (jZ : Z).
Variable sched : schedule (list bf).
Variable ssort : (Z * Z * bf -> Z * Z * bf -> bool) -> list (Z * Z * bf) -> list (Z * Z * bf).
Variable nt : Z.
Hypothesis Hsched : valid_schedule sched.
Hypothesis Hsort : sort_ok ssort.
Variables lo hi K : Z.
Hypothesis R1 : lo <= prec - 1.
Hypothesis R2 : 3 * (prec - 1 - lo) <= emax + prec - 3.
Hypothesis R3 : 0 <= hi.
Hypothesis R4 : 3 * hi + K + 2 <= emax.
Hypothesis R5 : 0 <= K.
Hypothesis R6 : 2 ^ K + 3 <= 2 ^ (prec - 1).
Local Notation O := (fops prec emax).

Let P (z : Z) (alpha : bf) (p : list (bf * bf)) (beta c y : bf) : Prop := within (z + 2) alpha p beta c y.
Let ok (alpha : bf) (p : list (bf * bf)) (beta c : bf) : Prop := (B2R alpha <> 0%R -> in_range_terms lo hi K p) /\ (B2R beta <> 0%R -> moderate lo hi c).
Lemma left_good (alpha beta : bf) : moderate lo hi alpha -> moderate lo hi beta -> forall l opA opB d n m (M : coo_matrix bf) ro co B ldb C ldc,
    valid_coo M -> honest_sort M -> co_base M = BZero -> 0 <= d -> 0 <= n -> 0 <= m -> rows_before opA d m <= co_nr M -> cols_before opA d m <= co_nc M ->
    (B2R alpha = 0%R \/ sp_safe nt l opA opB d n m (SpCoo M) ro co /\ tight (SpCoo M) opA ro co d n m) ->
    fits_buffer l ldb (rows_before opB m n) (cols_before opB m n) (zlen B) -> fits_buffer l ldc d n (zlen C) ->
    exists M' C', left_spmm O sched ssort nt nt l opA opB d n m alpha (SpCoo M) ro co B ldb beta C ldc = Ok (SpCoo M', C') /\ same_sp (SpCoo M) (SpCoo M') /\
      good P ok alpha beta l d n m (op_ent opA (fun i k => coo_at M (ro + i) (co + k))) (op_ent opB (cell O l ldb B)) C ldc C'.
Proof.
  intros Ma Mb l opA opB d n m M ro co B ldb C ldc HV Hh Hb Hd Hn Hm Hr Hc Hs FB FC.
  destruct (C60_left_error_partial prec emax pp pe lo hi K R1 R2 R3 R4 R5 R6 sched nt ssort l opA opB d n m alpha (SpCoo M) ro co B ldb beta C ldc) as (A' & C' & E & SA & Lc & G); auto.
  { split; assumption. } { split; assumption. }
  destruct A' as [M'| |]; try contradiction. exists M', C'. split; [exact E|]. split; [exact SA|]. split; [exact Lc|].
  intros i j c p Hi Hj Gc Ep [K1 K2]. apply (G i j c p Hi Hj Gc); auto.
Qed.

(** B (d x n) = alpha*op(submat(S))*op(A) + beta*B with a sparse operator S, materialised or
    not: every cell of B is finite and within (number of stored values in the row of
    op(submat(S))) + 2 roundings of the exact value; the rest of the buffer is kept, and S is
    kept up to the order of its triples.
    Partial: values outside [2^lo, 2^hi]; windows that are not [spread] (C42, C60). *)
Theorem C61_left_sketch_error_partial : forall l opS opA d n m (alpha : bf) (S : sparse_skop Kt bf) ro co A lda beta B ldb,
  sparse_valid senv S ->
  in_matrix (sd_rows (ss_dist S)) (sd_cols (ss_dist S)) (rows_before opS d m) (cols_before opS d m) ro co -> 0 <= n ->
  B2R alpha = 0%R \/ spread (sparse_at senv S) opS d n m ro co ->
  fits_buffer l lda (rows_before opA m n) (cols_before opA m n) (zlen A) -> fits_buffer l ldb d n (zlen B) ->
  moderate lo hi alpha -> moderate lo hi beta ->
  exists S' B', sketch_general_left O cast denv fsched senv jT jZ sched ssort nt l opS opA d n m alpha (SkSparse S) ro co A lda beta B ldb = Ok (SkSparse S', B') /\
    (if ss_nnz S <? 0 then S' = S else same_skop S S') /\ others_kept l d n B ldb B' /\
    forall i j c p, 0 <= i < d -> 0 <= j < n -> get B (addr l ldb i j) = Some c ->
    p = terms (op_ent opS (win (sparse_at senv S) ro co)) (op_ent opA (cell O l lda A)) m i j ->
    (B2R alpha <> 0%R -> in_range_terms lo hi K p) -> (B2R beta <> 0%R -> moderate lo hi c) ->
    exists y, get B' (addr l ldb i j) = Some y /\ within (zlen p + 2) alpha p beta c y.
Proof.
  intros l opS opA d n m alpha S ro co A lda beta B ldb HV (I1 & I2 & I3 & I4 & I5 & I6) Hn Hsp FA FB Ma Mb.
  destruct (lskges_good senv jT jZ sched ssort nt P ok alpha beta (B2R alpha = 0%R) (left_good alpha beta Ma Mb) l opS opA d n m S ro co A lda B ldb) as (S' & B' & E & HS & [G1 G2]); auto;
    try (destruct opS; cbn [rows_before cols_before] in *; lia).
  exists S', B'. cbn [sketch_general_left]. rewrite E. cbn [bind]. split; [reflexivity|]. split; [exact HS|]. split; [exact G1|].
  intros i j c p Hi Hj Gc Ep K1 K2. apply (G2 i j c p Hi Hj Gc Ep). split; assumption.
Qed.

(** From the right: B (m x d) = alpha*op(A)*op(submat(S)) + beta*B.
    Partial: also operators that have not been materialised (C43). *)
Theorem C61_right_sketch_error_partial : forall l opA opS m d n (alpha : bf) A lda (S : sparse_skop Kt bf) ro co beta B ldb,
  0 < ss_nnz S -> valid_coo (skop_coo S) ->
  in_matrix (sd_rows (ss_dist S)) (sd_cols (ss_dist S)) (rows_before opS n d) (cols_before opS n d) ro co -> 0 <= m ->
  B2R alpha = 0%R \/ spread (coo_at (skop_coo S)) (flip_op opS) d m n ro co ->
  fits_buffer l lda (rows_before opA m n) (cols_before opA m n) (zlen A) -> fits_buffer l ldb m d (zlen B) ->
  moderate lo hi alpha -> moderate lo hi beta ->
  exists S' B', sketch_general_right O cast denv fsched senv jT jZ sched ssort nt l opA opS m d n alpha A lda (SkSparse S) ro co beta B ldb = Ok (SkSparse S', B') /\
    same_skop S S' /\ others_kept l m d B ldb B' /\
    forall i j c p, 0 <= i < m -> 0 <= j < d -> get B (addr l ldb i j) = Some c ->
    p = terms (fun j k => op_ent opS (win (coo_at (skop_coo S)) ro co) k j) (fun k i => op_ent opA (cell O l lda A) i k) n j i ->
    (B2R alpha <> 0%R -> in_range_terms lo hi K p) -> (B2R beta <> 0%R -> moderate lo hi c) ->
    exists y, get B' (addr l ldb i j) = Some y /\ within (zlen p + 2) alpha p beta c y.
Proof.
  intros l opA opS m d n alpha A lda S ro co beta B ldb Hz HV (I1 & I2 & I3 & I4 & I5 & I6) Hm Hsp FA FB Ma Mb.
  destruct (rskges_good senv jT jZ sched ssort nt P ok alpha beta (B2R alpha = 0%R) (left_good alpha beta Ma Mb) l opA opS m d n A lda S ro co B ldb) as (S' & B' & E & HS & [[G0 G1] G2]); auto;
    try (destruct opS; cbn [rows_before cols_before] in *; lia).
  exists S', B'. cbn [sketch_general_right]. rewrite E. cbn [bind]. split; [reflexivity|]. split; [exact HS|].
  split. { split; [exact G0|]. intros q Hq. apply G1. intros i j Hi Hj. rewrite addr_flip. now apply Hq. }
  intros i j c p Hi Hj Gc Ep K1 K2. rewrite <- addr_flip in Gc |- *. apply (G2 j i c p Hj Hi Gc); [|split; assumption]. rewrite Ep.
  unfold terms. rewrite !flat_map_concat_map. f_equal. apply map_ext. intros k.
  replace (op_ent opA (cell O (flip l) lda A) k i) with (op_ent opA (cell O l lda A) i k); [destruct opS; reflexivity|].
  destruct opA; cbn [op_ent]; unfold cell; now rewrite addr_flip.
Qed.

(** The usual case: op(S) wide, sampled with short-axis vectors, a window of whole columns.
    The entries of op(S) are signs, so assumptions are needed only on alpha, beta, and the
    values of A and B that enter the cell.  Nothing is assumed about the random numbers. *)
Theorem C61_short_axis_error_partial : forall l opS opA d n m (alpha : bf) (S : sparse_skop Kt bf) ro co A lda beta B ldb,
  is_finite (se_one senv) = true -> B2R (se_one senv) = 1%R -> is_finite (se_mone senv) = true -> B2R (se_mone senv) = (-1)%R ->
  samplable senv (ss_dist S) (ss_seed S) ->
  ss_nnz S < 0 \/ (0 < ss_nnz S /\ valid_coo (skop_coo S) /\ forall i j, Permutation (sparse_entry senv (ss_dist S) (ss_seed S) i j) (coo_at (skop_coo S) i j)) ->
  whole_columns (ss_dist S) opS d ro co ->
  in_matrix (sd_rows (ss_dist S)) (sd_cols (ss_dist S)) (rows_before opS d m) (cols_before opS d m) ro co -> 1 <= m < 2 ^ K -> 0 <= n ->
  fits_buffer l lda (rows_before opA m n) (cols_before opA m n) (zlen A) -> fits_buffer l ldb d n (zlen B) ->
  moderate lo hi alpha -> moderate lo hi beta -> lo <= 0 ->
  exists S' B', sketch_general_left O cast denv fsched senv jT jZ sched ssort nt l opS opA d n m alpha (SkSparse S) ro co A lda beta B ldb = Ok (SkSparse S', B') /\
    (if ss_nnz S <? 0 then S' = S else same_skop S S') /\ others_kept l d n B ldb B' /\
    forall i j c p, 0 <= i < d -> 0 <= j < n -> get B (addr l ldb i j) = Some c ->
    p = terms (op_ent opS (win (sparse_entry senv (ss_dist S) (ss_seed S)) ro co)) (op_ent opA (cell O l lda A)) m i j ->
    (B2R alpha <> 0%R -> forall k, 0 <= k < m -> op_ent opS (win (sparse_entry senv (ss_dist S) (ss_seed S)) ro co) i k <> [] -> moderate lo hi (op_ent opA (cell O l lda A) k j)) ->
    (B2R beta <> 0%R -> moderate lo hi c) ->
    zlen p <= m /\ exists y, get B' (addr l ldb i j) = Some y /\ within (zlen p + 2) alpha p beta c y.
Proof.
  intros l opS opA d n m alpha S ro co A lda beta B ldb F1 V1 F2 V2 HS HM HC Hin [Hm HmK] Hn FA FB Ma Mb Hlo.
  assert (HD : valid_sdist (ss_dist S)) by apply HS.
  assert (Hax : sd_axis (ss_dist S) = Short) by apply HC.
  assert (Sgn : forall i j, (length (sparse_entry senv (ss_dist S) (ss_seed S) i j) <= 1)%nat /\ forall v, In v (sparse_entry senv (ss_dist S) (ss_seed S) i j) -> moderate lo hi v).
  { intros i j. unfold sparse_entry. rewrite Hax. destruct (if sd_rows (ss_dist S) <=? sd_cols (ss_dist S) then (i, j) else (j, i)) as [s g].
    destruct (_ && _); [|split; [cbn; lia|intros v []]]. unfold short_entry. destruct (find _ _) as [t|]; [|split; [cbn; lia|intros v []]].
    split; [cbn; lia|]. intros v [<-|[]]. unfold short_sign. destruct (_ =? 0); (split; [assumption|right]); [rewrite V1, Rabs_R1|rewrite V2; replace (Rabs (-1)) with 1%R by (rewrite Rabs_left; lra)];
    change 1%R with (bpow radix2 0); split; apply bpow_le; lia. }
  assert (EQ : forall i j, sparse_at senv S i j = sparse_entry senv (ss_dist S) (ss_seed S) i j).
  { intros i j. unfold sparse_at. destruct HM as [HM|(HM & _ & Pm)]; [now replace (ss_nnz S <? 0) with true by lia|]. replace (ss_nnz S <? 0) with false by lia.
    specialize (Pm i j). destruct (Sgn i j) as [Ln _]. destruct (sparse_entry senv (ss_dist S) (ss_seed S) i j) as [|v [|? ?]]; [now apply Permutation_nil in Pm|now apply Permutation_length_1_inv in Pm|cbn in Ln; lia]. }
  destruct (C61_left_sketch_error_partial l opS opA d n m alpha S ro co A lda beta B ldb) as (S' & B' & E & HS' & HO & G); auto.
  { unfold sparse_valid. destruct HM as [HM|(HM & HV & _)]; [now replace (ss_nnz S <? 0) with true by lia|]. replace (ss_nnz S <? 0) with false by lia. auto. }
  { right. apply (spread_ext (sparse_at senv S) (sparse_entry senv (ss_dist S) (ss_seed S))); [intros i j; now rewrite EQ|]. now apply whole_columns_spread. }
  exists S', B'. split; [exact E|]. split; [exact HS'|]. split; [exact HO|]. intros i j c p Hi Hj Gc Ep Hx Hc.
  assert (EW : forall i k, op_ent opS (win (sparse_at senv S) ro co) i k = op_ent opS (win (sparse_entry senv (ss_dist S) (ss_seed S)) ro co) i k) by (intros; destruct opS; cbn [op_ent]; unfold win; apply EQ).
  assert (Lp : zlen p <= m).
  { rewrite Ep. unfold terms. assert (X : forall r, (forall k, In k r -> (length (op_ent opS (win (sparse_entry senv (ss_dist S) (ss_seed S)) ro co) i k) <= 1)%nat) ->
      (length (flat_map (fun k => map (fun v => (v, op_ent opA (cell O l lda A) k j)) (op_ent opS (win (sparse_entry senv (ss_dist S) (ss_seed S)) ro co) i k)) r) <= length r)%nat).
    { induction r as [|k r IH]; intros Hr; [reflexivity|]. cbn [flat_map length]. rewrite app_length, map_length. specialize (IH (fun k0 h => Hr k0 (or_intror h))). specialize (Hr k (or_introl eq_refl)). lia. }
    specialize (X (range 0 m)). unfold zlen. pose proof (zlen_range 0 m ltac:(lia)) as Lr. unfold zlen in Lr.
    enough (Z.of_nat (length (range 0 m)) = m) by (specialize (X ltac:(intros k _; destruct opS; cbn [op_ent]; unfold win; apply Sgn)); lia). lia. }
  split; [exact Lp|]. apply (G i j c p Hi Hj Gc).
  - rewrite Ep. symmetry. apply terms_ext. intros k _. apply EW.
  - intros Na. split; [lia|]. intros v x Hv. rewrite Ep in Hv. unfold terms in Hv. apply in_flat_map in Hv as (k & Hk & Hv). apply in_range in Hk.
    apply in_map_iff in Hv as (w & Ew & Hw). apply pair_equal_spec in Ew as [<- <-]. split.
    + destruct opS; cbn [op_ent] in Hw; unfold win in Hw; eapply Sgn; exact Hw.
    + apply Hx; auto. intros N. rewrite N in Hw. exact Hw.
  - exact Hc.
Qed.
End Any.

Print Assumptions C61_left_sketch_error_partial.
Print Assumptions C61_right_sketch_error_partial.
Print Assumptions C61_short_axis_error_partial.

(** double, with the usual environment restrictions: every value of A and B that enters a cell
    is zero or between 2^-306 and 2^324 in absolute value, and m < 2^50. *)
Theorem C61_short_axis_error_double_partial : forall Kt W F (cast : W -> b64) (denv : dense_env Kt W b64) fsched (senv : sparse_env Kt F b64) jT jZ sched ssort nt l opS opA d n m alpha (S : sparse_skop Kt b64) ro co A lda beta B ldb,
  valid_schedule sched -> sort_ok ssort ->
  B2SF (se_one senv) = SpecFloat.S754_finite false (2 ^ 52) (-52) -> B2SF (se_mone senv) = SpecFloat.S754_finite true (2 ^ 52) (-52) ->
  samplable senv (ss_dist S) (ss_seed S) ->
  ss_nnz S < 0 \/ (0 < ss_nnz S /\ valid_coo (skop_coo S) /\ forall i j, Permutation (sparse_entry senv (ss_dist S) (ss_seed S) i j) (coo_at (skop_coo S) i j)) ->
  whole_columns (ss_dist S) opS d ro co ->
  in_matrix (sd_rows (ss_dist S)) (sd_cols (ss_dist S)) (rows_before opS d m) (cols_before opS d m) ro co -> 1 <= m < 2 ^ 50 -> 0 <= n ->
  fits_buffer l lda (rows_before opA m n) (cols_before opA m n) (zlen A) -> fits_buffer l ldb d n (zlen B) ->
  moderate (-306) 324 alpha -> moderate (-306) 324 beta ->
  exists S' B', sketch_general_left (fops 53 1024) cast denv fsched senv jT jZ sched ssort nt l opS opA d n m alpha (SkSparse S) ro co A lda beta B ldb = Ok (SkSparse S', B') /\
    (if ss_nnz S <? 0 then S' = S else same_skop S S') /\ others_kept l d n B ldb B' /\
    forall i j c p, 0 <= i < d -> 0 <= j < n -> get B (addr l ldb i j) = Some c ->
    p = terms (op_ent opS (win (sparse_entry senv (ss_dist S) (ss_seed S)) ro co)) (op_ent opA (cell (fops 53 1024) l lda A)) m i j ->
    (B2R alpha <> 0%R -> forall k, 0 <= k < m -> op_ent opS (win (sparse_entry senv (ss_dist S) (ss_seed S)) ro co) i k <> [] -> moderate (-306) 324 (op_ent opA (cell (fops 53 1024) l lda A) k j)) ->
    (B2R beta <> 0%R -> moderate (-306) 324 c) ->
    zlen p <= m /\ exists y, get B' (addr l ldb i j) = Some y /\ within (zlen p + 2) alpha p beta c y.
Proof.
  intros Kt W F cast denv fsched senv jT jZ sched ssort nt l opS opA d n m alpha S ro co A lda beta B ldb Hs Hss E1 E2 HS HM HC Hin Hm Hn FA FB Ma Mb.
  apply (@C61_short_axis_error_partial 53 1024 prec64 emax64 Kt W F cast denv fsched senv jT jZ sched ssort nt Hs Hss (-306) 324 50); try assumption; try (vm_compute; congruence).
  - apply fin_SF. now rewrite E1.
  - rewrite (B2R_SF _ _ E1). unfold SF2R, F2R. cbn. lra.
  - apply fin_SF. now rewrite E2.
  - rewrite (B2R_SF _ _ E2). unfold SF2R, F2R. cbn. lra.
Qed.
Print Assumptions C61_short_axis_error_double_partial.

(** Concrete case: the 3 x 4 operator of C42_case, with entries of type double, applied to
    (0.1, 0.1, 0.3, 0.1) with alpha = 2 and beta = 0 over NaNs. *)
Definition mone64 : b64 := @B754_finite 53 1024 true 4503599627370496 (-52) eq_refl.
Definition f_senv : sparse_env Z Z b64 :=
  {| se_raw := se_raw toy_senv; se_unif := se_unif toy_senv; se_sb := se_sb toy_senv; se_draw := se_draw toy_senv; se_nonneg := se_nonneg toy_senv;
     se_one := one64; se_mone := mone64; se_sqrtmul := fun _ v => v; se_order := se_order toy_senv |}.
Definition f_op : sparse_skop Z b64 := mk_sparse_skop f_senv (the_dist 3 4 2 Short) (mk_state 11 2).
Definition v34 : list b64 := [tenth; tenth; div64 (of_Z64 3) (of_Z64 10); tenth].
Lemma f_senv_wf : wf_senv f_senv.
Proof. destruct toy_senv_wf. constructor; cbn [f_senv se_raw se_unif se_sb se_draw se_nonneg se_one se_mone se_sqrtmul se_order]; auto. Qed.

Definition sk_numbers {X} (o : outcome (X * list b64)) : option (list SpecFloat.spec_float) := match o with Ok (_, C) => Some (map B2SF C) | _ => None end.

Example C61_case :
  samplable f_senv (ss_dist f_op) (ss_seed f_op) /\ ss_nnz f_op < 0 /\ whole_columns (ss_dist f_op) NoTrans 3 0 0 /\ in_matrix 3 4 3 4 0 0 /\
  fits_buffer ColMajor 4 4 1 (zlen v34) /\ fits_buffer ColMajor 3 3 1 3 /\ moderate (-306) 324 (of_Z64 2) /\ (forall x, In x v34 -> moderate (-306) 324 x) /\
  map (fun k => map B2SF (sparse_entry f_senv (ss_dist f_op) (ss_seed f_op) 0 k)) (range 0 4) = [[B2SF mone64]; [B2SF mone64]; []; [B2SF mone64]] /\
  forall cast denv fsched, sk_numbers (sketch_general_left (W := unit) (fops 53 1024) cast denv fsched f_senv one64 0 seq_schedule isort 1
     ColMajor NoTrans NoTrans 3 1 4 (of_Z64 2) (SkSparse f_op) 0 0 v34 4 (of_Z64 0) [B754_nan; B754_nan; B754_nan] 3) =
    Some [SpecFloat.S754_finite true 5404319552844596 (-53); SpecFloat.S754_finite true 5404319552844595 (-52); SpecFloat.S754_finite true 5404319552844595 (-53)].
Proof.
  split. { split; [exact f_senv_wf|]. split; [reflexivity|]. split; [vm_compute; repeat split; discriminate|]. split; [vm_compute; split; [discriminate|reflexivity]|]. intros H. discriminate H. }
  split; [reflexivity|]. split; [vm_compute; auto|]. split; [unfold in_matrix; lia|].
  split; [split; [cbn; lia|intros i j Hi Hj; cbn; lia]|]. split; [split; [cbn; lia|intros i j Hi Hj; cbn; lia]|].
  split; [moderate_tac|]. split. { intros x [<-|[<-|[<-|[<-|[]]]]]; moderate_tac. }
  split; [vm_compute; reflexivity|]. intros. vm_compute. reflexivity.
Qed.
