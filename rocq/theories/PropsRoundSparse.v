(** C62: sketching sparse data with a dense operator in floating-point arithmetic.

    Definitions read by these statements: those listed in PropsRound.v;
    [sketch_sparse_left], [sketch_sparse_right] (SketchModel.v); [dense_denotes], [in_matrix],
    [win], [sp_window] (SketchSpec.v); [dense_entry] (DenseSpec.v); [unif32] (FloatModel.v) and
    [scal3_64] (DenseFloatModel.v) for uniform entries. *)
From Coq Require Import ZArith Reals Lra Permutation.
From Flocq Require Import Core BinarySingleNaN.
From Verif Require Import Base Interleave Spec RngModel DenseModel DenseSpec SparseSkopModel SparseSpec PropsSparse SpFmtModel SpFmtSpec PropsSpFmt SpmmModel SpmmSpec SpmmProofs2 SpmmProofs5 PropsSpmm FloatModel FloatProofs2 DenseFloatModel
  SketchModel SketchSpec SketchProofs SketchProofs2 PropsSketch RoundModel RoundSpec RoundProofs3 PropsRound RoundProofs4 PropsRoundSketch RoundProofs5 DenseProofs2 DenseProofs3.

Section Any.
Context {prec emax : Z} {pp : Prec_gt_0 prec} {pe : Prec_lt_emax prec emax}.
Local Notation bf := (binary_float prec emax).
Context {Kt W : Type}.
Variables (cast : W -> bf) (denv : dense_env Kt W bf) (fsched : schedule bf).
Variable sched : schedule (list bf).
Variable ssort : (Z * Z * bf -> Z * Z * bf -> bool) -> list (Z * Z * bf) -> list (Z * Z * bf).
Variable nt : Z.
Hypothesis Hw : wf_env denv.
Hypothesis Hf : valid_schedule fsched.
Hypothesis Hsched : valid_schedule sched.
Hypothesis Hsort : sort_ok ssort.
Variables lo hi K : Z.
Hypothesis R1 : lo <= prec - 1.
Hypothesis R2 : 3 * (prec - 1 - lo) <= emax + prec - 3.
Hypothesis R3 : 0 <= hi.
Hypothesis R4 : 3 * hi + K + 2 <= emax.
Hypothesis R5 : 0 <= K.
Hypothesis R6 : 2 ^ K + 3 <= 2 ^ (prec - 1).
Local Notation O := (fops prec emax).

Let P (alpha beta : bf) (p : list (bf * bf)) (c y : bf) : Prop := within (zlen p + 2) alpha p beta c y.
Let ok (alpha beta : bf) (p : list (bf * bf)) (c : bf) : Prop := (B2R alpha <> 0%R -> in_range_terms lo hi K p) /\ (B2R beta <> 0%R -> moderate lo hi c).
Let Sf l opA opB d n m (A : spmat bf) ro co : Prop := sp_safe nt l opA opB d n m A ro co /\ tight A opA ro co d n m.
Lemma left_close (alpha beta : bf) : moderate lo hi alpha -> moderate lo hi beta -> forall l opA opB d n m A ro co B ldb C ldc,
  valid_sp A -> sp_base A = BZero -> 0 <= d -> 0 <= n -> 0 <= m -> window_ok A (rows_before opA d m) (cols_before opA d m) ro co ->
  (B2R alpha = 0%R \/ Sf l opA opB d n m A ro co) ->
  fits_buffer l ldb (rows_before opB m n) (cols_before opB m n) (zlen B) -> fits_buffer l ldc d n (zlen C) ->
  exists A' C', left_spmm O sched ssort nt nt l opA opB d n m alpha A ro co B ldb beta C ldc = Ok (A', C') /\ same_sp A A' /\
    close (P alpha beta) (ok alpha beta) l d n (terms (op_ent opA (fun i k => at_pos A (ro + i) (co + k))) (op_ent opB (cell O l ldb B)) m) C ldc C'.
Proof.
  intros Ma Mb l opA opB d n m A ro co B ldb C ldc HA Hb Hd Hn Hm Hwi Hs FB FC.
  destruct (C60_left_error_partial prec emax pp pe lo hi K R1 R2 R3 R4 R5 R6 sched nt ssort l opA opB d n m alpha A ro co B ldb beta C ldc) as (A' & C' & E & SA & Lc & G); auto.
  exists A', C'. split; [exact E|]. split; [exact SA|]. split; [exact Lc|]. intros i j c p Hi Hj Gc Ep [K1 K2]. now apply (G i j c p Hi Hj Gc Ep).
Qed.

(** B (d x n) = alpha*op(submat(S))*op(A) + beta*B with A sparse (COO, CSR, CSC) and S a dense
    operator, materialised or not: every cell of B is finite and within (number of stored
    values in the column of op(A)) + 2 roundings of the exact value.  A is kept up to the order
    of COO triples, and so is the rest of B's buffer.
    Partial: values outside [2^lo, 2^hi]; data for which the sparse kernels leave their arrays
    or read unrelated entries ([sp_safe], [tight]: C33-C37, C60). *)
Theorem C62_left_sparse_error_partial : forall l opS opA d n m (alpha : bf) (S : dense_skop Kt bf) ro co A beta B ldb a,
  dense_denotes cast denv S a ->
  in_matrix (dd_rows (ds_dist S)) (dd_cols (ds_dist S)) (rows_before opS d m) (cols_before opS d m) ro co ->
  (ds_buff S = None -> 1 <= d /\ 1 <= m) -> 0 <= n ->
  valid_sp A -> sp_base A = BZero -> sp_window A (rows_before opA m n) (cols_before opA m n) 0 0 ->
  B2R alpha = 0%R \/ (sp_safe nt (flip l) (flip_op opA) (if layout_eqb (ds_layout S) l then opS else flip_op opS) n d m A 0 0 /\ tight A (flip_op opA) 0 0 n d m) ->
  fits_buffer l ldb d n (zlen B) -> moderate lo hi alpha -> moderate lo hi beta ->
  exists A' B', sketch_sparse_left O cast denv fsched sched ssort nt l opS opA d n m alpha S ro co A beta B ldb = Ok (A', B') /\ same_sp A A' /\ others_kept l d n B ldb B' /\
    forall i j c p, 0 <= i < d -> 0 <= j < n -> get B (addr l ldb i j) = Some c ->
    p = terms (fun j k => op_ent opA (at_pos A) k j) (fun k i => op_ent opS (win a ro co) i k) m j i ->
    (B2R alpha <> 0%R -> in_range_terms lo hi K p) -> (B2R beta <> 0%R -> moderate lo hi c) ->
    exists y, get B' (addr l ldb i j) = Some y /\ within (zlen p + 2) alpha p beta c y.
Proof.
  intros l opS opA d n m alpha S ro co A beta B ldb a HD Hin Hne Hn HA Hb Hwi Hs FB Ma Mb. unfold sketch_sparse_left.
  destruct (lsksp3_close cast denv fsched sched ssort nt Hw Hf (P alpha beta) (ok alpha beta) alpha beta (B2R alpha = 0%R) Sf (left_close alpha beta Ma Mb) l opS opA d n m S ro co A 0 0 B ldb a HD Hin Hne Hn HA Hb Hwi Hs FB)
    as (A' & B' & E & HS & HO & G). exists A', B'. split; [exact E|]. split; [exact HS|]. split; [exact HO|].
  intros i j c p Hi Hj Gc Ep K1 K2. apply (G i j c p Hi Hj Gc Ep). split; assumption.
Qed.

(** From the right: B (m x d) = alpha*op(A)*op(submat(S)) + beta*B. *)
Theorem C62_right_sparse_error_partial : forall l opA opS m d n (alpha : bf) A (S : dense_skop Kt bf) ro co beta B ldb a,
  dense_denotes cast denv S a ->
  in_matrix (dd_rows (ds_dist S)) (dd_cols (ds_dist S)) (rows_before opS n d) (cols_before opS n d) ro co ->
  (ds_buff S = None -> 1 <= n /\ 1 <= d) -> 0 <= m ->
  valid_sp A -> sp_base A = BZero -> sp_window A (rows_before opA m n) (cols_before opA m n) 0 0 ->
  B2R alpha = 0%R \/ (sp_safe nt l opA (if layout_eqb (ds_layout S) l then opS else flip_op opS) m d n A 0 0 /\ tight A opA 0 0 m d n) ->
  fits_buffer l ldb m d (zlen B) -> moderate lo hi alpha -> moderate lo hi beta ->
  exists A' B', sketch_sparse_right O cast denv fsched sched ssort nt l opA opS m d n alpha A S ro co beta B ldb = Ok (A', B') /\ same_sp A A' /\ others_kept l m d B ldb B' /\
    forall i j c p, 0 <= i < m -> 0 <= j < d -> get B (addr l ldb i j) = Some c ->
    p = terms (op_ent opA (at_pos A)) (op_ent opS (win a ro co)) n i j ->
    (B2R alpha <> 0%R -> in_range_terms lo hi K p) -> (B2R beta <> 0%R -> moderate lo hi c) ->
    exists y, get B' (addr l ldb i j) = Some y /\ within (zlen p + 2) alpha p beta c y.
Proof.
  intros l opA opS m d n alpha A S ro co beta B ldb a HD Hin Hne Hm HA Hb Hwi Hs FB Ma Mb. unfold sketch_sparse_right.
  destruct (rsksp3_close cast denv fsched sched ssort nt Hw Hf (P alpha beta) (ok alpha beta) alpha beta (B2R alpha = 0%R) Sf (left_close alpha beta Ma Mb) l opA opS m d n A 0 0 S ro co B ldb a HD Hin Hne Hm HA Hb Hwi Hs FB)
    as (A' & B' & E & HS & HO & G). exists A', B'. split; [exact E|]. split; [exact HS|]. split; [exact HO|].
  intros i j c p Hi Hj Gc Ep K1 K2. apply (G i j c p Hi Hj Gc Ep). split; assumption.
Qed.
End Any.
Print Assumptions C62_left_sparse_error_partial.
Print Assumptions C62_right_sparse_error_partial.

(** The values stored in row r (column r if [col]) of op(A), n of them at most by position. *)
Definition line_moderate (A : spmat b64) (opA : op) (col : bool) (m r : Z) : Prop :=
  forall k v, 0 <= k < m -> In v (if col then op_ent opA (at_pos A) k r else op_ent opA (at_pos A) r k) -> moderate (-306) 324 v.

(** The entries of a uniform operator with double scalars and 32-bit words are sqrt(3) times
    the widened uneg11 values. *)
Definition uniform_double {Kt} (denv : dense_env Kt b32 b64) (raw : generator Kt Z) (D : dense_dist) : Prop :=
  dd_family D = Uniform /\ env_unif denv = unif32 raw /\ env_scal3 denv = scal3_64.

Lemma uniform_entries {Kt} (denv : dense_env Kt b32 b64) raw D seed i j x lo hi : uniform_double denv raw D -> lo <= -32 -> 1 <= hi ->
  dense_entry to64 denv D seed i j = Some x -> moderate lo hi x.
Proof.
  intros (E1 & E2 & E3) Hlo Hhi. unfold dense_entry. rewrite E1. cbn [env_gen]. rewrite E2. destruct (entry_block _ _ _ _) as [blk lane].
  cbn [unif32 g_fun g_bits]. destruct (get _ lane) as [w|] eqn:G; [|discriminate]. cbn [option_map family_map]. rewrite E3. intros H. injection H as <-.
  unfold get in G. destruct (lane <? 0); [discriminate|]. apply nth_error_In in G. apply in_map_iff in G as (u & <- & _). now apply uniform_entry_moderate.
Qed.

(** double, uniform operator: the conditions on S disappear; nothing is assumed about the
    generator's words. *)
Theorem C62_left_uniform_error_double_partial : forall Kt (denv : dense_env Kt b32 b64) raw fsched sched ssort nt l opS opA d n m alpha (S : dense_skop Kt b64) ro co A beta B ldb a,
  wf_env denv -> valid_schedule fsched -> valid_schedule sched -> sort_ok ssort ->
  uniform_double denv raw (ds_dist S) -> dense_denotes to64 denv S a ->
  (forall i j, 0 <= i < dd_rows (ds_dist S) -> 0 <= j < dd_cols (ds_dist S) -> dense_entry to64 denv (ds_dist S) (ds_seed S) i j = Some (a i j)) ->
  in_matrix (dd_rows (ds_dist S)) (dd_cols (ds_dist S)) (rows_before opS d m) (cols_before opS d m) ro co ->
  (ds_buff S = None -> 1 <= d /\ 1 <= m) -> 0 <= n ->
  valid_sp A -> sp_base A = BZero -> sp_window A (rows_before opA m n) (cols_before opA m n) 0 0 ->
  B2R alpha = 0%R \/ (sp_safe nt (flip l) (flip_op opA) (if layout_eqb (ds_layout S) l then opS else flip_op opS) n d m A 0 0 /\ tight A (flip_op opA) 0 0 n d m) ->
  fits_buffer l ldb d n (zlen B) -> moderate (-306) 324 alpha -> moderate (-306) 324 beta ->
  exists A' B', sketch_sparse_left (fops 53 1024) to64 denv fsched sched ssort nt l opS opA d n m alpha S ro co A beta B ldb = Ok (A', B') /\ same_sp A A' /\ others_kept l d n B ldb B' /\
    forall i j c p, 0 <= i < d -> 0 <= j < n -> get B (addr l ldb i j) = Some c ->
    p = terms (fun j k => op_ent opA (at_pos A) k j) (fun k i => op_ent opS (win a ro co) i k) m j i ->
    zlen p < 2 ^ 50 -> (B2R alpha <> 0%R -> line_moderate A opA true m j) -> (B2R beta <> 0%R -> moderate (-306) 324 c) ->
    exists y, get B' (addr l ldb i j) = Some y /\ within (zlen p + 2) alpha p beta c y.
Proof.
  intros Kt denv raw fsched sched ssort nt l opS opA d n m alpha S ro co A beta B ldb a Hw Hf Hs Hss HU HD HE Hin Hne Hn HA Hb Hwi Hsafe FB Ma Mb.
  destruct (C62_left_sparse_error_partial to64 denv fsched sched ssort nt Hw Hf Hs Hss (-306) 324 50 ltac:(lia) ltac:(lia) ltac:(lia) ltac:(lia) ltac:(lia) ltac:(vm_compute; discriminate)
    l opS opA d n m alpha S ro co A beta B ldb a HD Hin Hne Hn HA Hb Hwi Hsafe FB Ma Mb) as (A' & B' & E & HS & HO & G).
  exists A', B'. split; [exact E|]. split; [exact HS|]. split; [exact HO|]. intros i j c p Hi Hj Gc Ep Lp Hx Hc. apply (G i j c p Hi Hj Gc Ep); [|exact Hc].
  intros Na. split; [exact Lp|]. intros v x Hv. rewrite Ep in Hv. unfold terms in Hv. apply in_flat_map in Hv as (k & Hk & Hv). apply in_range in Hk.
  apply in_map_iff in Hv as (w & Ew & Hv). apply pair_equal_spec in Ew as [<- <-]. split; [exact (Hx Na k w Hk Hv)|].
  destruct Hin as (I1 & I2 & I3 & I4 & I5 & I6).
  destruct opS; cbn [op_ent rows_before cols_before] in *; unfold win; eapply (uniform_entries denv raw); (exact HU || lia || (apply HE; lia)).
Qed.
Print Assumptions C62_left_uniform_error_double_partial.

Theorem C62_right_uniform_error_double_partial : forall Kt (denv : dense_env Kt b32 b64) raw fsched sched ssort nt l opA opS m d n alpha A (S : dense_skop Kt b64) ro co beta B ldb a,
  wf_env denv -> valid_schedule fsched -> valid_schedule sched -> sort_ok ssort ->
  uniform_double denv raw (ds_dist S) -> dense_denotes to64 denv S a ->
  (forall i j, 0 <= i < dd_rows (ds_dist S) -> 0 <= j < dd_cols (ds_dist S) -> dense_entry to64 denv (ds_dist S) (ds_seed S) i j = Some (a i j)) ->
  in_matrix (dd_rows (ds_dist S)) (dd_cols (ds_dist S)) (rows_before opS n d) (cols_before opS n d) ro co ->
  (ds_buff S = None -> 1 <= n /\ 1 <= d) -> 0 <= m ->
  valid_sp A -> sp_base A = BZero -> sp_window A (rows_before opA m n) (cols_before opA m n) 0 0 ->
  B2R alpha = 0%R \/ (sp_safe nt l opA (if layout_eqb (ds_layout S) l then opS else flip_op opS) m d n A 0 0 /\ tight A opA 0 0 m d n) ->
  fits_buffer l ldb m d (zlen B) -> moderate (-306) 324 alpha -> moderate (-306) 324 beta ->
  exists A' B', sketch_sparse_right (fops 53 1024) to64 denv fsched sched ssort nt l opA opS m d n alpha A S ro co beta B ldb = Ok (A', B') /\ same_sp A A' /\ others_kept l m d B ldb B' /\
    forall i j c p, 0 <= i < m -> 0 <= j < d -> get B (addr l ldb i j) = Some c ->
    p = terms (op_ent opA (at_pos A)) (op_ent opS (win a ro co)) n i j ->
    zlen p < 2 ^ 50 -> (B2R alpha <> 0%R -> line_moderate A opA false n i) -> (B2R beta <> 0%R -> moderate (-306) 324 c) ->
    exists y, get B' (addr l ldb i j) = Some y /\ within (zlen p + 2) alpha p beta c y.
Proof.
  intros Kt denv raw fsched sched ssort nt l opA opS m d n alpha A S ro co beta B ldb a Hw Hf Hs Hss HU HD HE Hin Hne Hm HA Hb Hwi Hsafe FB Ma Mb.
  destruct (C62_right_sparse_error_partial to64 denv fsched sched ssort nt Hw Hf Hs Hss (-306) 324 50 ltac:(lia) ltac:(lia) ltac:(lia) ltac:(lia) ltac:(lia) ltac:(vm_compute; discriminate)
    l opA opS m d n alpha A S ro co beta B ldb a HD Hin Hne Hm HA Hb Hwi Hsafe FB Ma Mb) as (A' & B' & E & HS & HO & G).
  exists A', B'. split; [exact E|]. split; [exact HS|]. split; [exact HO|]. intros i j c p Hi Hj Gc Ep Lp Hx Hc. apply (G i j c p Hi Hj Gc Ep); [|exact Hc].
  intros Na. split; [exact Lp|]. intros v x Hv. rewrite Ep in Hv. unfold terms in Hv. apply in_flat_map in Hv as (k & Hk & Hv). apply in_range in Hk.
  apply in_map_iff in Hv as (w & Ew & Hv). apply pair_equal_spec in Ew as [<- <-]. split; [exact (Hx Na k w Hk Hv)|].
  destruct Hin as (I1 & I2 & I3 & I4 & I5 & I6).
  destruct opS; cbn [op_ent rows_before cols_before] in *; unfold win; eapply (uniform_entries denv raw); (exact HU || lia || (apply HE; lia)).
Qed.
Print Assumptions C62_right_uniform_error_double_partial.

(** Concrete case: rows 1-2 of a 3 x 4 uniform operator, not materialised, times a 4 x 2 CSC
    matrix, alpha = 2, beta = 0 over NaNs. *)
Definition word_gen : generator Z Z := {| g_len := 4; g_bits := 128; g_fun := fun c k => map (fun l => (k * (c + 1) * (l + 3)) mod 2 ^ 32) (range 0 4) |}.
Definition u_env : dense_env Z b32 b64 := {| env_gauss := unif32 word_gen; env_unif := unif32 word_gen; env_scal3 := scal3_64; env_junk := B754_nan |}.
Definition u_dist : dense_dist := Build_dense_dist 3 4 Long 4 3 3 Uniform RowMajor.
Definition u_op : dense_skop Z b64 := {| ds_dist := u_dist; ds_seed := mk_state 7 1234567891; ds_next := mk_state 10 1234567891; ds_own := true; ds_buff := None; ds_layout := RowMajor |}.
Definition u_ent (i j : Z) : b64 := match dense_entry to64 u_env u_dist (mk_state 7 1234567891) i j with Some x => x | None => B754_nan end.
Definition csc_f : csc_matrix b64 := Build_csc_matrix 4 2 false 3 BZero (Some [tenth; div64 (of_Z64 3) (of_Z64 10); of_Z64 2]) (Some [0; 3; 2]) (Some [0; 2; 3]).
Lemma u_dist_valid : valid_dist u_dist. Proof. exists 3, 4, Uniform, Long. reflexivity. Qed.
Lemma u_env_wf : wf_env u_env.
Proof. constructor; constructor; cbn [u_env env_gauss env_unif unif32 g_len g_bits g_fun word_gen]; try lia; intros; reflexivity. Qed.
Lemma u_op_denotes : dense_denotes to64 u_env u_op u_ent.
Proof.
  cbn [dense_denotes u_op ds_dist ds_buff ds_seed]. split; [exact u_dist_valid|]. split; [split; vm_compute; congruence|].
  intros i j _ _. unfold u_ent. destruct (dense_entry_Some to64 u_env u_dist (mk_state 7 1234567891) i j u_env_wf u_dist_valid) as [v ->]. reflexivity.
Qed.

Example C62_case :
  uniform_double u_env word_gen u_dist /\ dense_denotes to64 u_env u_op u_ent /\
  (forall i j, 0 <= i < 3 -> 0 <= j < 4 -> dense_entry to64 u_env u_dist (mk_state 7 1234567891) i j = Some (u_ent i j)) /\
  in_matrix 3 4 2 4 1 0 /\ valid_sp (SpCsc csc_f) /\ sp_window (SpCsc csc_f) 4 2 0 0 /\
  sp_safe 1 RowMajor Trans Trans 2 2 4 (SpCsc csc_f) 0 0 /\ tight (SpCsc csc_f) Trans 0 0 2 2 4 /\
  fits_buffer ColMajor 2 2 2 4 /\ moderate (-306) 324 (of_Z64 2) /\
  (forall j, 0 <= j < 2 -> line_moderate (SpCsc csc_f) NoTrans true 4 j) /\
  out_numbers (sketch_sparse_left (fops 53 1024) to64 u_env seq_schedule seq_schedule isort 1 ColMajor NoTrans NoTrans 2 2 4 (of_Z64 2) u_op 1 0
     (SpCsc csc_f) (of_Z64 0) (repeat B754_nan 4) 2) =
    Some [SpecFloat.S754_finite true 5219602890719744 (-52); SpecFloat.S754_finite false 4536745765442434 (-54);
          SpecFloat.S754_finite true 8108032096223397 (-53); SpecFloat.S754_finite false 5807629417767237 (-50)].
Proof.
  split; [repeat split|]. split; [exact u_op_denotes|].
  split. { intros i j Hi Hj. destruct u_op_denotes as (_ & _ & H). now apply H. }
  split; [unfold in_matrix; lia|]. split; [apply valid_csc_check; reflexivity|]. split; [unfold sp_window; cbn; lia|].
  split; [right; vm_compute; discriminate|]. split; [exact I|]. split; [split; [cbn; lia|intros i j Hi Hj; cbn; lia]|].
  split; [moderate_tac|]. split; [|vm_compute; reflexivity].
  intros j Hj k v Hk Hv. cbn [op_ent] in Hv.
  assert (C : In v [tenth; div64 (of_Z64 3) (of_Z64 10); of_Z64 2]).
  { revert Hv. unfold csc_f. generalize tenth (div64 (of_Z64 3) (of_Z64 10)) (of_Z64 2). clear - Hj Hk. intros x y z Hv.
    assert (j = 0 \/ j = 1) as [-> | ->] by lia; assert (k = 0 \/ k = 1 \/ k = 2 \/ k = 3) as [-> | [-> | [-> | ->]]] by lia; vm_compute in Hv; cbn [In]; tauto. }
  destruct C as [<-|[<-|[<-|[]]]]; moderate_tac.
Qed.
