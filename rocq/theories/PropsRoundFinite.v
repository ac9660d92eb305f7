(** C63: products with a sparse matrix in floating-point arithmetic, values of any size.

    Definitions read by these statements: those listed in PropsRound.v (except [moderate] and
    [within]); [zero_f], [used_finite], [near], [finite_near], [no_overflow], [surely_near]
    (RoundSpec2.v); those listed in PropsRoundSketch.v and PropsRoundSparse.v for the sketches. *)
From Coq Require Import ZArith Reals Lra Permutation.
From Flocq Require Import Core BinarySingleNaN.
From Verif Require Import Base Interleave Spec RngModel DenseModel DenseSpec SparseSkopModel SparseSpec PropsSparse SpFmtModel SpFmtSpec PropsSpFmt SpmmModel SpmmSpec SpmmProofs2 SpmmProofs5 PropsSpmm FloatModel FloatProofs2
  SketchModel SketchSpec SketchProofs SketchProofs2 SketchProofs5 SketchProofs6 RoundModel RoundSpec RoundSpec2 RoundProofs3 PropsRound RoundProofs4 RoundProofs5 RoundProofs6.

(** left_spmm with IEEE scalars of any format: the entry y computed for a cell satisfies
    - if y is finite, then so is everything that enters the cell, and y is within (number of
      stored values in the row of op(A)) + 2 roundings and the underflow term of the exact
      value ([finite_near]);
    - if everything that enters is finite and [no_overflow], then y is finite ([surely_near]).
    No other assumption is made on the values; the number of terms is unbounded. *)
Theorem C63_left_accurate : forall (prec emax : Z) (pp : Prec_gt_0 prec) (pe : Prec_lt_emax prec emax) sched nt ssort l opA opB d n m alpha (A : spmat (binary_float prec emax)) ro co B ldb beta C ldc,
  valid_schedule sched -> sort_ok ssort -> valid_sp A -> sp_base A = BZero -> 0 <= d -> 0 <= n -> 0 <= m ->
  window_ok A (rows_before opA d m) (cols_before opA d m) ro co ->
  (zero_f alpha \/ sp_safe nt l opA opB d n m A ro co /\ tight A opA ro co d n m) ->
  fits_buffer l ldb (rows_before opB m n) (cols_before opB m n) (zlen B) -> fits_buffer l ldc d n (zlen C) ->
  exists A' C', left_spmm (fops prec emax) sched ssort nt nt l opA opB d n m alpha A ro co B ldb beta C ldc = Ok (A', C') /\ same_sp A A' /\ others_kept l d n C ldc C' /\
    forall i j c p, 0 <= i < d -> 0 <= j < n -> get C (addr l ldc i j) = Some c ->
    p = terms (op_ent opA (fun i k => at_pos A (ro + i) (co + k))) (op_ent opB (cell (fops prec emax) l ldb B)) m i j ->
    exists y, get C' (addr l ldc i j) = Some y /\ finite_near alpha p beta c y /\ surely_near alpha p beta c y.
Proof. intros. now apply left_sure. Qed.
Print Assumptions C63_left_accurate.

(** Without [tight] (C60_other_entries_refuted): what is finite is still accurate. *)
Theorem C63_left_finite_accurate : forall (prec emax : Z) (pp : Prec_gt_0 prec) (pe : Prec_lt_emax prec emax) sched nt ssort l opA opB d n m alpha (A : spmat (binary_float prec emax)) ro co B ldb beta C ldc,
  valid_schedule sched -> sort_ok ssort -> valid_sp A -> sp_base A = BZero -> 0 <= d -> 0 <= n -> 0 <= m ->
  window_ok A (rows_before opA d m) (cols_before opA d m) ro co ->
  (zero_f alpha \/ sp_safe nt l opA opB d n m A ro co) ->
  fits_buffer l ldb (rows_before opB m n) (cols_before opB m n) (zlen B) -> fits_buffer l ldc d n (zlen C) ->
  exists A' C', left_spmm (fops prec emax) sched ssort nt nt l opA opB d n m alpha A ro co B ldb beta C ldc = Ok (A', C') /\ same_sp A A' /\ others_kept l d n C ldc C' /\
    forall i j c p, 0 <= i < d -> 0 <= j < n -> get C (addr l ldc i j) = Some c ->
    p = terms (op_ent opA (fun i k => at_pos A (ro + i) (co + k))) (op_ent opB (cell (fops prec emax) l ldb B)) m i j ->
    exists y, get C' (addr l ldc i j) = Some y /\ finite_near alpha p beta c y.
Proof. intros. now apply left_finite. Qed.
Print Assumptions C63_left_finite_accurate.

Section Any.
Context {prec emax : Z} {pp : Prec_gt_0 prec} {pe : Prec_lt_emax prec emax}.
Local Notation bf := (binary_float prec emax).
Context {Kt W F : Type}.
Variables (cast : W -> bf) (denv : dense_env Kt W bf) (fsched : schedule bf).
Variable senv : sparse_env Kt F bf.
Variables (jT : bf) (jZ : Z).
Variable sched : schedule (list bf).
Variable ssort : (Z * Z * bf -> Z * Z * bf -> bool) -> list (Z * Z * bf) -> list (Z * Z * bf).
Variable nt : Z.
Hypothesis Hf : valid_schedule fsched.
Hypothesis Hsched : valid_schedule sched.
Hypothesis Hsort : sort_ok ssort.
Local Notation O := (fops prec emax).

Let P alpha beta (p : list (bf * bf)) (c y : bf) : Prop := finite_near alpha p beta c y /\ surely_near alpha p beta c y.
Let ok (p : list (bf * bf)) (c : bf) : Prop := True.
Let Sf l opA opB d n m (A : spmat bf) ro co : Prop := sp_safe nt l opA opB d n m A ro co /\ tight A opA ro co d n m.
Lemma left_close63 (alpha beta : bf) : forall l opA opB d n m A ro co B ldb C ldc,
  valid_sp A -> sp_base A = BZero -> 0 <= d -> 0 <= n -> 0 <= m -> window_ok A (rows_before opA d m) (cols_before opA d m) ro co ->
  (zero_f alpha \/ Sf l opA opB d n m A ro co) ->
  fits_buffer l ldb (rows_before opB m n) (cols_before opB m n) (zlen B) -> fits_buffer l ldc d n (zlen C) ->
  exists A' C', left_spmm O sched ssort nt nt l opA opB d n m alpha A ro co B ldb beta C ldc = Ok (A', C') /\ same_sp A A' /\
    close (P alpha beta) ok l d n (terms (op_ent opA (fun i k => at_pos A (ro + i) (co + k))) (op_ent opB (cell O l ldb B)) m) C ldc C'.
Proof.
  intros l opA opB d n m A ro co B ldb C ldc HA Hb Hd Hn Hm Hwi Hs FB FC.
  destruct (left_sure alpha beta sched nt ssort l opA opB d n m A ro co B ldb C ldc) as (A' & C' & E & SA & Lc & G); auto.
  exists A', C'. split; [exact E|]. split; [exact SA|]. split; [exact Lc|]. intros i j c p Hi Hj Gc Ep _. now apply (G i j c p Hi Hj Gc Ep).
Qed.

(** right_spmm: C (m x d) = alpha*op(A)*op(submat(B)) + beta*C with B sparse. *)
Theorem C63_right_accurate : forall l opA opB m d n alpha A lda (B : spmat bf) ro co beta C ldc,
  valid_sp B -> sp_base B = BZero -> 0 <= m -> 0 <= d -> 0 <= n ->
  window_ok B (rows_before opB n d) (cols_before opB n d) ro co ->
  (zero_f alpha \/ sp_safe nt (flip l) (flip_op opB) opA d m n B ro co /\ tight B (flip_op opB) ro co d m n) ->
  fits_buffer l lda (rows_before opA m n) (cols_before opA m n) (zlen A) -> fits_buffer l ldc m d (zlen C) ->
  exists B' C', right_spmm O sched ssort nt nt l opA opB m d n alpha A lda B ro co beta C ldc = Ok (B', C') /\ same_sp B B' /\ others_kept l m d C ldc C' /\
    forall i j c p, 0 <= i < m -> 0 <= j < d -> get C (addr l ldc i j) = Some c ->
    p = terms (fun j k => op_ent opB (fun i k => at_pos B (ro + i) (co + k)) k j) (fun k i => op_ent opA (cell O l lda A) i k) n j i ->
    exists y, get C' (addr l ldc i j) = Some y /\ finite_near alpha p beta c y /\ surely_near alpha p beta c y.
Proof.
  intros l opA opB m d n alpha A lda B ro co beta C ldc HB Hb Hm Hd Hn Hwi Hs FA FC.
  destruct (Hright sched ssort nt (P alpha beta) ok alpha beta (zero_f alpha) Sf (left_close63 alpha beta) l opA opB m d n A lda B ro co C ldc HB Hb Hm Hd Hn Hwi Hs FA FC) as (B' & C' & E & SA & Lc & G).
  exists B', C'. split; [exact E|]. split; [exact SA|]. split; [exact Lc|]. intros i j c p Hi Hj Gc Ep. now apply (G i j c p Hi Hj Gc Ep).
Qed.

(** Sketching sparse data with a dense operator, from the left and from the right. *)
Theorem C63_left_sparse_sketch_accurate : forall l opS opA d n m (alpha : bf) (S : dense_skop Kt bf) ro co A beta B ldb a,
  wf_env denv -> dense_denotes cast denv S a ->
  in_matrix (dd_rows (ds_dist S)) (dd_cols (ds_dist S)) (rows_before opS d m) (cols_before opS d m) ro co ->
  (ds_buff S = None -> 1 <= d /\ 1 <= m) -> 0 <= n ->
  valid_sp A -> sp_base A = BZero -> sp_window A (rows_before opA m n) (cols_before opA m n) 0 0 ->
  zero_f alpha \/ (sp_safe nt (flip l) (flip_op opA) (if layout_eqb (ds_layout S) l then opS else flip_op opS) n d m A 0 0 /\ tight A (flip_op opA) 0 0 n d m) ->
  fits_buffer l ldb d n (zlen B) ->
  exists A' B', sketch_sparse_left O cast denv fsched sched ssort nt l opS opA d n m alpha S ro co A beta B ldb = Ok (A', B') /\ same_sp A A' /\ others_kept l d n B ldb B' /\
    forall i j c p, 0 <= i < d -> 0 <= j < n -> get B (addr l ldb i j) = Some c ->
    p = terms (fun j k => op_ent opA (at_pos A) k j) (fun k i => op_ent opS (win a ro co) i k) m j i ->
    exists y, get B' (addr l ldb i j) = Some y /\ finite_near alpha p beta c y /\ surely_near alpha p beta c y.
Proof.
  intros l opS opA d n m alpha S ro co A beta B ldb a Hw HD Hin Hne Hn HA Hb Hwi Hs FB. unfold sketch_sparse_left.
  destruct (lsksp3_close cast denv fsched sched ssort nt Hw Hf (P alpha beta) ok alpha beta (zero_f alpha) Sf (left_close63 alpha beta) l opS opA d n m S ro co A 0 0 B ldb a HD Hin Hne Hn HA Hb Hwi Hs FB)
    as (A' & B' & E & HS & HO & G). exists A', B'. split; [exact E|]. split; [exact HS|]. split; [exact HO|]. intros i j c p Hi Hj Gc Ep. now apply (G i j c p Hi Hj Gc Ep).
Qed.
Theorem C63_right_sparse_sketch_accurate : forall l opA opS m d n (alpha : bf) A (S : dense_skop Kt bf) ro co beta B ldb a,
  wf_env denv -> dense_denotes cast denv S a ->
  in_matrix (dd_rows (ds_dist S)) (dd_cols (ds_dist S)) (rows_before opS n d) (cols_before opS n d) ro co ->
  (ds_buff S = None -> 1 <= n /\ 1 <= d) -> 0 <= m ->
  valid_sp A -> sp_base A = BZero -> sp_window A (rows_before opA m n) (cols_before opA m n) 0 0 ->
  zero_f alpha \/ (sp_safe nt l opA (if layout_eqb (ds_layout S) l then opS else flip_op opS) m d n A 0 0 /\ tight A opA 0 0 m d n) ->
  fits_buffer l ldb m d (zlen B) ->
  exists A' B', sketch_sparse_right O cast denv fsched sched ssort nt l opA opS m d n alpha A S ro co beta B ldb = Ok (A', B') /\ same_sp A A' /\ others_kept l m d B ldb B' /\
    forall i j c p, 0 <= i < m -> 0 <= j < d -> get B (addr l ldb i j) = Some c ->
    p = terms (op_ent opA (at_pos A)) (op_ent opS (win a ro co)) n i j ->
    exists y, get B' (addr l ldb i j) = Some y /\ finite_near alpha p beta c y /\ surely_near alpha p beta c y.
Proof.
  intros l opA opS m d n alpha A S ro co beta B ldb a Hw HD Hin Hne Hm HA Hb Hwi Hs FB. unfold sketch_sparse_right.
  destruct (rsksp3_close cast denv fsched sched ssort nt Hw Hf (P alpha beta) ok alpha beta (zero_f alpha) Sf (left_close63 alpha beta) l opA opS m d n A 0 0 S ro co B ldb a HD Hin Hne Hm HA Hb Hwi Hs FB)
    as (A' & B' & E & HS & HO & G). exists A', B'. split; [exact E|]. split; [exact HS|]. split; [exact HO|]. intros i j c p Hi Hj Gc Ep. now apply (G i j c p Hi Hj Gc Ep).
Qed.

(** Sketching dense data with a sparse operator: from the left, materialised or not, and from
    the right, materialised (C43). *)
Lemma left_good63 (alpha beta : bf) : forall l opA opB d n m (M : coo_matrix bf) ro co B ldb C ldc,
    valid_coo M -> honest_sort M -> co_base M = BZero -> 0 <= d -> 0 <= n -> 0 <= m -> rows_before opA d m <= co_nr M -> cols_before opA d m <= co_nc M ->
    (zero_f alpha \/ sp_safe nt l opA opB d n m (SpCoo M) ro co /\ tight (SpCoo M) opA ro co d n m) ->
    fits_buffer l ldb (rows_before opB m n) (cols_before opB m n) (zlen B) -> fits_buffer l ldc d n (zlen C) ->
    exists M' C', left_spmm O sched ssort nt nt l opA opB d n m alpha (SpCoo M) ro co B ldb beta C ldc = Ok (SpCoo M', C') /\ same_sp (SpCoo M) (SpCoo M') /\
      good (fun _ al p be c y => finite_near al p be c y /\ surely_near al p be c y) (fun _ _ _ _ => True) alpha beta l d n m (op_ent opA (fun i k => coo_at M (ro + i) (co + k))) (op_ent opB (cell O l ldb B)) C ldc C'.
Proof.
  intros l opA opB d n m M ro co B ldb C ldc HV Hh Hb Hd Hn Hm Hr Hc Hs FB FC.
  destruct (left_sure alpha beta sched nt ssort l opA opB d n m (SpCoo M) ro co B ldb C ldc) as (A' & C' & E & SA & Lc & G); auto.
  { split; assumption. } { split; assumption. }
  destruct A' as [M'| |]; try contradiction. exists M', C'. split; [exact E|]. split; [exact SA|]. split; [exact Lc|].
  intros i j c p Hi Hj Gc Ep _. now apply (G i j c p Hi Hj Gc).
Qed.
Theorem C63_left_sketch_accurate : forall l opS opA d n m (alpha : bf) (S : sparse_skop Kt bf) ro co A lda beta B ldb,
  sparse_valid senv S ->
  in_matrix (sd_rows (ss_dist S)) (sd_cols (ss_dist S)) (rows_before opS d m) (cols_before opS d m) ro co -> 0 <= n ->
  zero_f alpha \/ spread (sparse_at senv S) opS d n m ro co ->
  fits_buffer l lda (rows_before opA m n) (cols_before opA m n) (zlen A) -> fits_buffer l ldb d n (zlen B) ->
  exists S' B', sketch_general_left O cast denv fsched senv jT jZ sched ssort nt l opS opA d n m alpha (SkSparse S) ro co A lda beta B ldb = Ok (SkSparse S', B') /\
    (if ss_nnz S <? 0 then S' = S else same_skop S S') /\ others_kept l d n B ldb B' /\
    forall i j c p, 0 <= i < d -> 0 <= j < n -> get B (addr l ldb i j) = Some c ->
    p = terms (op_ent opS (win (sparse_at senv S) ro co)) (op_ent opA (cell O l lda A)) m i j ->
    exists y, get B' (addr l ldb i j) = Some y /\ finite_near alpha p beta c y /\ surely_near alpha p beta c y.
Proof.
  intros l opS opA d n m alpha S ro co A lda beta B ldb HV (I1 & I2 & I3 & I4 & I5 & I6) Hn Hsp FA FB.
  destruct (lskges_good senv jT jZ sched ssort nt _ _ alpha beta (zero_f alpha) (left_good63 alpha beta) l opS opA d n m S ro co A lda B ldb) as (S' & B' & E & HS & [G1 G2]); auto;
    try (destruct opS; cbn [rows_before cols_before] in *; lia).
  exists S', B'. cbn [sketch_general_left]. rewrite E. cbn [bind]. split; [reflexivity|]. split; [exact HS|]. split; [exact G1|].
  intros i j c p Hi Hj Gc Ep. now apply (G2 i j c p Hi Hj Gc Ep).
Qed.
Theorem C63_right_sketch_accurate : forall l opA opS m d n (alpha : bf) A lda (S : sparse_skop Kt bf) ro co beta B ldb,
  0 < ss_nnz S -> valid_coo (skop_coo S) ->
  in_matrix (sd_rows (ss_dist S)) (sd_cols (ss_dist S)) (rows_before opS n d) (cols_before opS n d) ro co -> 0 <= m ->
  zero_f alpha \/ spread (coo_at (skop_coo S)) (flip_op opS) d m n ro co ->
  fits_buffer l lda (rows_before opA m n) (cols_before opA m n) (zlen A) -> fits_buffer l ldb m d (zlen B) ->
  exists S' B', sketch_general_right O cast denv fsched senv jT jZ sched ssort nt l opA opS m d n alpha A lda (SkSparse S) ro co beta B ldb = Ok (SkSparse S', B') /\
    same_skop S S' /\ others_kept l m d B ldb B' /\
    forall i j c p, 0 <= i < m -> 0 <= j < d -> get B (addr l ldb i j) = Some c ->
    p = terms (fun j k => op_ent opS (win (coo_at (skop_coo S)) ro co) k j) (fun k i => op_ent opA (cell O l lda A) i k) n j i ->
    exists y, get B' (addr l ldb i j) = Some y /\ finite_near alpha p beta c y /\ surely_near alpha p beta c y.
Proof.
  intros l opA opS m d n alpha A lda S ro co beta B ldb Hz HV (I1 & I2 & I3 & I4 & I5 & I6) Hm Hsp FA FB.
  destruct (rskges_good senv jT jZ sched ssort nt _ _ alpha beta (zero_f alpha) (left_good63 alpha beta) l opA opS m d n A lda S ro co B ldb) as (S' & B' & E & HS & [[G0 G1] G2]); auto;
    try (destruct opS; cbn [rows_before cols_before] in *; lia).
  exists S', B'. cbn [sketch_general_right]. rewrite E. cbn [bind]. split; [reflexivity|]. split; [exact HS|].
  split. { split; [exact G0|]. intros q Hq. apply G1. intros i j Hi Hj. rewrite addr_flip. now apply Hq. }
  intros i j c p Hi Hj Gc Ep. rewrite <- addr_flip in Gc |- *. apply (G2 j i c p Hj Hi Gc); [|exact I]. rewrite Ep.
  unfold terms. rewrite !flat_map_concat_map. f_equal. apply map_ext. intros k.
  replace (op_ent opA (cell O (flip l) lda A) k i) with (op_ent opA (cell O l lda A) i k); [destruct opS; reflexivity|].
  destruct opA; cbn [op_ent]; unfold cell; now rewrite addr_flip.
Qed.
End Any.
Print Assumptions C63_right_accurate.
Print Assumptions C63_left_sparse_sketch_accurate.
Print Assumptions C63_right_sparse_sketch_accurate.
Print Assumptions C63_left_sketch_accurate.
Print Assumptions C63_right_sketch_accurate.

(** Concrete case: [2^-600 0 2^600] * [2^-600; NaN; 2^400] in double, alpha = 1, beta = 0 over an
    infinity.  The first product underflows to zero; nothing overflows. *)
Definition tiny64 : b64 := @B754_finite 53 1024 false 4503599627370496 (-652) eq_refl.
Definition huge64 : b64 := @B754_finite 53 1024 false 4503599627370496 548 eq_refl.
Definition big64 : b64 := @B754_finite 53 1024 false 4503599627370496 348 eq_refl.
Definition csr_w : csr_matrix b64 := Build_csr_matrix 1 3 false 2 BZero (Some [tiny64; huge64]) (Some [0; 2]) (Some [0; 2]).
Lemma B2R_pow52 e H : B2R (@B754_finite 53 1024 false 4503599627370496 e H) = bpow radix2 (52 + e).
Proof. cbn [B2R cond_Zopp]. unfold F2R. cbn [Fnum Fexp]. rewrite bpow_plus. f_equal. Qed.
Example C63_case :
  valid_sp (SpCsr csr_w) /\ sp_safe 1 ColMajor NoTrans NoTrans 1 1 3 (SpCsr csr_w) 0 0 /\ tight (SpCsr csr_w) NoTrans 0 0 1 1 3 /\
  fits_buffer ColMajor 3 3 1 3 /\ fits_buffer ColMajor 1 1 1 1 /\
  exists p, p = terms (at_pos (SpCsr csr_w)) (cell (fops 53 1024) ColMajor 3 [tiny64; B754_nan; big64]) 3 0 0 /\
    p = [(tiny64, tiny64); (huge64, big64)] /\ used_finite one64 p (B754_zero false) (B754_infinity false) /\ no_overflow one64 p (B754_zero false) (B754_infinity false) /\
    out_numbers (left_spmm (fops 53 1024) seq_schedule isort 1 1 ColMajor NoTrans NoTrans 1 1 3 one64 (SpCsr csr_w) 0 0 [tiny64; B754_nan; big64] 3 (B754_zero false) [B754_infinity false] 1)
      = Some [SpecFloat.S754_finite false 4503599627370496 948].
Proof.
  split; [apply valid_csr_check; reflexivity|]. split; [right; vm_compute; congruence|]. split; [exact I|].
  split; [split; [cbn; lia|intros i j Hi Hj; cbn; lia]|]. split; [split; [cbn; lia|intros i j Hi Hj; cbn; lia]|].
  eexists. split; [reflexivity|]. split; [vm_compute; reflexivity|].
  change (terms _ _ _ _ _) with [(tiny64, tiny64); (huge64, big64)]. split.
  { split; [right; right; split; [reflexivity|]; intros v x [H|[H|[]]]; apply pair_equal_spec in H as [<- <-]; split; reflexivity|left; now exists false]. }
  split; [|vm_compute; reflexivity].
  unfold no_overflow, total_size, one64, tiny64, huge64, big64. cbn [unless_zero map Rtotal fold_right fst snd]. rewrite !B2R_pow52, !(Rabs_pos_eq (bpow _ _)) by apply bpow_ge_0.
  change (Z.to_nat (zlen [_; _] + 2)) with 4%nat. change (52 + -52)%Z with 0%Z. change (52 + -652)%Z with (-600)%Z. change (52 + 548)%Z with 600%Z. change (52 + 348)%Z with 400%Z.
  change (bpow radix2 0) with 1%R. assert (U : (0 <= bpow radix2 (- (53)) <= / 10)%R).
  { split; [apply bpow_ge_0|]. apply Rle_trans with (bpow radix2 (-4)); [apply bpow_le; lia|]. cbn. lra. }
  assert (T : (0 <= bpow radix2 (-600) <= 1)%R). { split; [apply bpow_ge_0|]. change 1%R with (bpow radix2 0). apply bpow_le. lia. }
  assert (H6 : (1 <= bpow radix2 600)%R) by (change 1%R with (bpow radix2 0); apply bpow_le; lia). assert (H4 : (1 <= bpow radix2 400)%R) by (change 1%R with (bpow radix2 0); apply bpow_le; lia).
  assert (E : (bpow radix2 (1024 - 1) = 8388608 * (bpow radix2 600 * bpow radix2 400))%R).
  { rewrite <- bpow_plus. change 8388608%R with (bpow radix2 23). rewrite <- bpow_plus. reflexivity. }
  rewrite E. revert U T H6 H4. generalize (bpow radix2 (- (53))) (bpow radix2 (-600)) (bpow radix2 600) (bpow radix2 400). clear. intros u t a b U T A B.
  assert (Q : (0 <= (1 + u) ^ 4 <= 2)%R).
  { split; [apply pow_le; lra|]. apply Rle_trans with ((11 / 10) ^ 4)%R; [apply pow_incr; lra|lra]. }
  assert (X : (0 <= (1 + 1) * ((1 + t) * (1 + t) + ((1 + a) * (1 + b) + 0)) + 0 <= 16 * (a * b))%R).
  { assert (1 <= a * b)%R by (apply mul_ge1; lra). assert (0 <= (1 + t) * (1 + t) <= 4)%R by nra. assert (0 <= (1 + a) * (1 + b) <= 4 * (a * b))%R by nra. lra. }
  apply Rle_trans with (2 * (16 * (a * b)))%R; [apply Rmult_le_compat; lra|]. assert (1 <= a * b)%R by (apply mul_ge1; lra). lra.
Qed.
