(** C60: products with a sparse matrix in floating-point arithmetic.

    Definitions read by these statements: [fops] (RoundModel.v, IEEE addition and product);
    [at_pos], [terms], [exact_cell], [size_cell], [moderate], [within], [others_kept], [tight] (RoundSpec.v);
    [left_spmm], [right_spmm] (SpmmModel.v); [valid_sp], [sp_safe], [window_ok], [fits_buffer],
    [rows_before], [cols_before], [op_ent], [cell] (SpmmSpec.v). *)
From Coq Require Import ZArith Reals Lra Permutation.
From Flocq Require Import Core BinarySingleNaN.
From Verif Require Import Base Interleave Spec SparseSkopModel SparseSpec SpFmtModel SpFmtSpec PropsSpFmt SpmmModel SpmmSpec SpmmProofs2 SpmmProofs5 PropsSpmm FloatModel FloatProofs2 RoundModel RoundSpec RoundProofs3.

(** Every value is finite and moderate in size, and there are fewer than 2^K of them. *)
Definition in_range_terms {prec emax} (lo hi K : Z) (p : list (binary_float prec emax * binary_float prec emax)) : Prop :=
  zlen p < 2 ^ K /\ forall v x, In (v, x) p -> moderate lo hi v /\ moderate lo hi x.

(** left_spmm with IEEE scalars of any format: every cell of C is finite and differs from
    alpha * sum of stored value * dense value + beta * c by at most the bound for
    (number of stored values in the row of op(A)) + 2 roundings, for every schedule of the
    threads, storage format, layout and op flag.  The bound for a cell needs assumptions only on the
    values that enter it: C may hold NaN where beta = 0, and B may hold NaN outside the rows
    that meet a stored value.  The operand is kept ([same_sp], SpmmSpec.v) and so is the rest of
    C's buffer.  2^lo and 2^hi keep products away from overflow and underflow.
    Partial: values outside [2^lo, 2^hi], operands outside [sp_safe] (C33-C35), and COO windows
    that are not [tight] (C60_other_entries_refuted). *)
Theorem C60_left_error_partial : forall (prec emax : Z) (pp : Prec_gt_0 prec) (pe : Prec_lt_emax prec emax) (lo hi K : Z),
  lo <= prec - 1 -> 3 * (prec - 1 - lo) <= emax + prec - 3 -> 0 <= hi -> 3 * hi + K + 2 <= emax -> 0 <= K -> 2 ^ K + 3 <= 2 ^ (prec - 1) ->
  forall sched nt ssort l opA opB d n m alpha (A : spmat (binary_float prec emax)) ro co B ldb beta C ldc,
  valid_schedule sched -> sort_ok ssort -> valid_sp A -> sp_base A = BZero -> 0 <= d -> 0 <= n -> 0 <= m ->
  window_ok A (rows_before opA d m) (cols_before opA d m) ro co ->
  (B2R alpha = 0%R \/ sp_safe nt l opA opB d n m A ro co /\ tight A opA ro co d n m) ->
  fits_buffer l ldb (rows_before opB m n) (cols_before opB m n) (zlen B) -> fits_buffer l ldc d n (zlen C) ->
  moderate lo hi alpha -> moderate lo hi beta ->
  exists A' C', left_spmm (fops prec emax) sched ssort nt nt l opA opB d n m alpha A ro co B ldb beta C ldc = Ok (A', C') /\ same_sp A A' /\ others_kept l d n C ldc C' /\
    forall i j c p, 0 <= i < d -> 0 <= j < n -> get C (addr l ldc i j) = Some c ->
    p = terms (op_ent opA (fun i k => at_pos A (ro + i) (co + k))) (op_ent opB (cell (fops prec emax) l ldb B)) m i j ->
    (B2R alpha <> 0%R -> in_range_terms lo hi K p) -> (B2R beta <> 0%R -> moderate lo hi c) ->
    exists y, get C' (addr l ldc i j) = Some y /\ within (zlen p + 2) alpha p beta c y.
Proof.
  intros prec emax pp pe lo hi K H1 H2 H3 H4 H5 H6 sched nt ss l opA opB d n m alpha A ro co B ldb beta C ldc Hs Hss HV HB Hd Hn Hm HW HS FB FC Ma Mb.
  assert (El : prec - 1 - (prec - 1 - lo) = lo) by ring. rewrite <- El in Ma, Mb.
  destruct (@left_error prec emax pp pe (prec - 1 - lo) hi K 3 ltac:(lia) ltac:(lia) ltac:(lia) alpha beta (or_introl eq_refl) Ma Mb sched nt ss l opA opB d n m A ro co B ldb C ldc Hs Hss HV HB Hd Hn Hm HW HS FB FC)
    as (A' & C' & E & SA & Lc & G). exists A', C'. split; [exact E|]. split; [exact SA|]. split; [exact Lc|]. intros i j c p Hi Hj Gc Ep Hp Hc. rewrite El in G. replace (zlen p + 2) with (zlen p + 3 - 1) by ring. now apply G.
Qed.
Print Assumptions C60_left_error_partial.

(** When alpha is exactly 1 one rounding less is needed and the admissible range is wider. *)
Theorem C60_left_error_alpha_one_partial : forall (prec emax : Z) (pp : Prec_gt_0 prec) (pe : Prec_lt_emax prec emax) (lo hi K : Z),
  lo <= 0 -> 2 * (prec - 1 - lo) <= emax + prec - 3 -> 0 <= hi -> 2 * hi + K + 2 <= emax -> 0 <= K -> 2 ^ K + 2 <= 2 ^ (prec - 1) ->
  forall sched nt ssort l opA opB d n m alpha (A : spmat (binary_float prec emax)) ro co B ldb beta C ldc,
  valid_schedule sched -> sort_ok ssort -> valid_sp A -> sp_base A = BZero -> 0 <= d -> 0 <= n -> 0 <= m ->
  window_ok A (rows_before opA d m) (cols_before opA d m) ro co ->
  sp_safe nt l opA opB d n m A ro co -> tight A opA ro co d n m ->
  fits_buffer l ldb (rows_before opB m n) (cols_before opB m n) (zlen B) -> fits_buffer l ldc d n (zlen C) ->
  is_finite alpha = true -> B2R alpha = 1%R -> moderate lo hi beta ->
  exists A' C', left_spmm (fops prec emax) sched ssort nt nt l opA opB d n m alpha A ro co B ldb beta C ldc = Ok (A', C') /\ same_sp A A' /\ others_kept l d n C ldc C' /\
    forall i j c p, 0 <= i < d -> 0 <= j < n -> get C (addr l ldc i j) = Some c ->
    p = terms (op_ent opA (fun i k => at_pos A (ro + i) (co + k))) (op_ent opB (cell (fops prec emax) l ldb B)) m i j ->
    in_range_terms lo hi K p -> (B2R beta <> 0%R -> moderate lo hi c) ->
    exists y, get C' (addr l ldc i j) = Some y /\ within (zlen p + 1) alpha p beta c y.
Proof.
  intros prec emax pp pe lo hi K H1 H2 H3 H4 H5 H6 sched nt ss l opA opB d n m alpha A ro co B ldb beta C ldc Hs Hss HV HB Hd Hn Hm HW HS HT FB FC Fa E1 Mb.
  assert (El : prec - 1 - (prec - 1 - lo) = lo) by ring.
  assert (Ma : moderate lo hi alpha). { split; [exact Fa|right]. rewrite E1, Rabs_R1. change 1%R with (bpow radix2 0). split; apply bpow_le; lia. }
  rewrite <- El in Ma, Mb. assert (Hp0 : 0 < prec) by exact pp.
  destruct (@left_error prec emax pp pe (prec - 1 - lo) hi K 2 ltac:(lia) ltac:(lia) ltac:(lia) alpha beta (or_intror (conj eq_refl E1)) Ma Mb sched nt ss l opA opB d n m A ro co B ldb C ldc Hs Hss HV HB Hd Hn Hm HW (or_intror (conj HS HT)) FB FC)
    as (A' & C' & E & SA & Lc & G). exists A', C'. split; [exact E|]. split; [exact SA|]. split; [exact Lc|]. intros i j c p Hi Hj Gc Ep Hp Hc. rewrite El in G. replace (zlen p + 1) with (zlen p + 2 - 1) by ring. apply G; auto.
Qed.
Print Assumptions C60_left_error_alpha_one_partial.

(** The same for right_spmm: C (m x d) = alpha*op(A)*op(submat(B)) + beta*C with B sparse. *)
Theorem C60_right_error_partial : forall (prec emax : Z) (pp : Prec_gt_0 prec) (pe : Prec_lt_emax prec emax) (lo hi K : Z),
  lo <= prec - 1 -> 3 * (prec - 1 - lo) <= emax + prec - 3 -> 0 <= hi -> 3 * hi + K + 2 <= emax -> 0 <= K -> 2 ^ K + 3 <= 2 ^ (prec - 1) ->
  forall sched nt ssort l opA opB m d n alpha A lda (B : spmat (binary_float prec emax)) ro co beta C ldc,
  valid_schedule sched -> sort_ok ssort -> valid_sp B -> sp_base B = BZero -> 0 <= m -> 0 <= d -> 0 <= n ->
  window_ok B (rows_before opB n d) (cols_before opB n d) ro co ->
  (B2R alpha = 0%R \/ sp_safe nt (flip l) (flip_op opB) opA d m n B ro co /\ tight B (flip_op opB) ro co d m n) ->
  fits_buffer l lda (rows_before opA m n) (cols_before opA m n) (zlen A) -> fits_buffer l ldc m d (zlen C) ->
  moderate lo hi alpha -> moderate lo hi beta ->
  exists B' C', right_spmm (fops prec emax) sched ssort nt nt l opA opB m d n alpha A lda B ro co beta C ldc = Ok (B', C') /\ same_sp B B' /\ others_kept l m d C ldc C' /\
    forall i j c p, 0 <= i < m -> 0 <= j < d -> get C (addr l ldc i j) = Some c ->
    p = terms (fun j k => op_ent opB (fun i k => at_pos B (ro + i) (co + k)) k j) (fun k i => op_ent opA (cell (fops prec emax) l lda A) i k) n j i ->
    (B2R alpha <> 0%R -> in_range_terms lo hi K p) -> (B2R beta <> 0%R -> moderate lo hi c) ->
    exists y, get C' (addr l ldc i j) = Some y /\ within (zlen p + 2) alpha p beta c y.
Proof.
  intros prec emax pp pe lo hi K H1 H2 H3 H4 H5 H6 sched nt ss l opA opB m d n alpha A lda B ro co beta C ldc Hs Hss HB Hb Hm Hd Hn Hw Hsafe FA FC Ma Mb. unfold right_spmm.
  destruct (C60_left_error_partial prec emax pp pe lo hi K H1 H2 H3 H4 H5 H6 sched nt ss (flip l) (flip_op opB) opA d m n alpha B ro co A lda beta C ldc) as (B' & C' & E & SA & Lc & G); auto.
  - destruct opB; exact Hw.
  - apply fits_flip. destruct opA; exact FA.
  - now apply fits_flip.
  - exists B', C'. split; [exact E|]. split; [exact SA|]. split.
    { destruct Lc as [L1 L2]. split; [exact L1|]. intros q Hq. apply L2. intros i j Hi Hj. rewrite addr_flip. now apply Hq. }
     intros i j c p Hi Hj Gc Ep Hp Hc. rewrite <- addr_flip in Gc |- *. apply (G j i c p Hj Hi Gc); auto. rewrite Ep.
    unfold terms. rewrite !flat_map_concat_map. f_equal. apply map_ext. intros k. replace (op_ent opA (cell (fops prec emax) (flip l) lda A) k i) with (op_ent opA (cell (fops prec emax) l lda A) i k); [destruct opB; reflexivity|].
    destruct opA; cbn [op_ent]; unfold cell; now rewrite addr_flip.
Qed.
Print Assumptions C60_right_error_partial.

(** double: rows with fewer than 2^50 stored values, values zero or between 2^-306 and 2^324. *)
Theorem C60_left_error_double_partial : forall sched nt ssort l opA opB d n m (alpha : b64) A ro co B ldb beta C ldc,
  valid_schedule sched -> sort_ok ssort -> valid_sp A -> sp_base A = BZero -> 0 <= d -> 0 <= n -> 0 <= m ->
  window_ok A (rows_before opA d m) (cols_before opA d m) ro co ->
  (B2R alpha = 0%R \/ sp_safe nt l opA opB d n m A ro co /\ tight A opA ro co d n m) ->
  fits_buffer l ldb (rows_before opB m n) (cols_before opB m n) (zlen B) -> fits_buffer l ldc d n (zlen C) ->
  moderate (-306) 324 alpha -> moderate (-306) 324 beta ->
  exists A' C', left_spmm (fops 53 1024) sched ssort nt nt l opA opB d n m alpha A ro co B ldb beta C ldc = Ok (A', C') /\ same_sp A A' /\ others_kept l d n C ldc C' /\
    forall i j c p, 0 <= i < d -> 0 <= j < n -> get C (addr l ldc i j) = Some c ->
    p = terms (op_ent opA (fun i k => at_pos A (ro + i) (co + k))) (op_ent opB (cell (fops 53 1024) l ldb B)) m i j ->
    (B2R alpha <> 0%R -> in_range_terms (-306) 324 50 p) -> (B2R beta <> 0%R -> moderate (-306) 324 c) ->
    exists y, get C' (addr l ldc i j) = Some y /\ within (zlen p + 2) alpha p beta c y.
Proof. intros. apply (C60_left_error_partial 53 1024 prec64 emax64 (-306) 324 50); (assumption || (vm_compute; congruence)). Qed.
Print Assumptions C60_left_error_double_partial.
(** float: rows with fewer than 2^22 stored values, values zero or between 2^-26 and 2^34. *)
Theorem C60_left_error_float_partial : forall sched nt ssort l opA opB d n m (alpha : b32) A ro co B ldb beta C ldc,
  valid_schedule sched -> sort_ok ssort -> valid_sp A -> sp_base A = BZero -> 0 <= d -> 0 <= n -> 0 <= m ->
  window_ok A (rows_before opA d m) (cols_before opA d m) ro co ->
  (B2R alpha = 0%R \/ sp_safe nt l opA opB d n m A ro co /\ tight A opA ro co d n m) ->
  fits_buffer l ldb (rows_before opB m n) (cols_before opB m n) (zlen B) -> fits_buffer l ldc d n (zlen C) ->
  moderate (-26) 34 alpha -> moderate (-26) 34 beta ->
  exists A' C', left_spmm (fops 24 128) sched ssort nt nt l opA opB d n m alpha A ro co B ldb beta C ldc = Ok (A', C') /\ same_sp A A' /\ others_kept l d n C ldc C' /\
    forall i j c p, 0 <= i < d -> 0 <= j < n -> get C (addr l ldc i j) = Some c ->
    p = terms (op_ent opA (fun i k => at_pos A (ro + i) (co + k))) (op_ent opB (cell (fops 24 128) l ldb B)) m i j ->
    (B2R alpha <> 0%R -> in_range_terms (-26) 34 22 p) -> (B2R beta <> 0%R -> moderate (-26) 34 c) ->
    exists y, get C' (addr l ldc i j) = Some y /\ within (zlen p + 2) alpha p beta c y.
Proof. intros. apply (C60_left_error_partial 24 128 prec32 emax32 (-26) 34 22); (assumption || (vm_compute; congruence)). Qed.
Print Assumptions C60_left_error_float_partial.

(** Concrete case: [0.1 0.3] * [0.1; 0.1] in double, with alpha = 2 and beta = 0 over a NaN;
    the result is not the exact value. *)
Definition tenth : b64 := div64 (of_Z64 1) (of_Z64 10).
Definition csr_f : csr_matrix b64 := Build_csr_matrix 1 3 false 2 BZero (Some [tenth; div64 (of_Z64 3) (of_Z64 10)]) (Some [0; 2]) (Some [0; 2]).

Lemma moderate_check (x : b64) lo hi s m e : B2SF x = SpecFloat.S754_finite s m e -> Zpos m < 2 ^ 53 -> lo <= e -> e + 53 <= hi -> moderate lo hi x.
Proof.
  intros E Hm Hl Hh. split; [apply fin_SF; now rewrite E|right]. rewrite (B2R_SF x _ E). unfold SF2R, F2R. cbn [Fnum Fexp]. rewrite Rabs_mult, (Rabs_pos_eq (bpow radix2 e)) by apply bpow_ge_0.
  assert (Ea : Rabs (IZR (cond_Zopp s (Zpos m))) = IZR (Zpos m)). { rewrite <- abs_IZR. f_equal. destruct s; reflexivity. }
  rewrite Ea. assert (1 <= IZR (Zpos m) <= bpow radix2 53)%R as [M1 M2]. { split; [apply IZR_le; lia|]. change (bpow radix2 53) with (IZR (2 ^ 53)). apply IZR_le. lia. }
  pose proof (bpow_ge_0 radix2 e) as Be. split.
  - apply Rle_trans with (1 * bpow radix2 e)%R; [rewrite Rmult_1_l; apply bpow_le; exact Hl|]. apply Rmult_le_compat_r; [exact Be|exact M1].
  - apply Rle_trans with (bpow radix2 53 * bpow radix2 e)%R; [apply Rmult_le_compat_r; [exact Be|exact M2]|]. rewrite <- bpow_plus. apply bpow_le. lia.
Qed.
Ltac moderate_tac := eapply moderate_check; [vm_compute; reflexivity|vm_compute; congruence..].

(** The numbers in the output buffer. *)
Definition out_numbers (o : outcome (spmat b64 * list b64)) : option (list SpecFloat.spec_float) := match o with Ok (_, C) => Some (map B2SF C) | _ => None end.

Example C60_case :
  valid_sp (SpCsr csr_f) /\ sp_safe 1 ColMajor NoTrans NoTrans 1 1 3 (SpCsr csr_f) 0 0 /\
  fits_buffer ColMajor 3 3 1 3 /\ fits_buffer ColMajor 1 1 1 1 /\ moderate (-306) 324 (of_Z64 2) /\ moderate (-306) 324 (of_Z64 0) /\
  exists p, p = terms (at_pos (SpCsr csr_f)) (cell (fops 53 1024) ColMajor 3 [tenth; B754_nan; tenth]) 3 0 0 /\
    p = [(tenth, tenth); (div64 (of_Z64 3) (of_Z64 10), tenth)] /\ in_range_terms (-306) 324 50 p /\
    out_numbers (left_spmm (fops 53 1024) seq_schedule isort 1 1 ColMajor NoTrans NoTrans 1 1 3 (of_Z64 2) (SpCsr csr_f) 0 0 [tenth; B754_nan; tenth] 3 (of_Z64 0) [B754_nan] 1)
      = Some [SpecFloat.S754_finite false 5764607523034235 (-56)] /\
    SF2R radix2 (SpecFloat.S754_finite false 5764607523034235 (-56)) <> exact_cell (of_Z64 2) p (of_Z64 0) B754_nan.
Proof.
  split; [apply valid_csr_check; reflexivity|]. split; [right; vm_compute; congruence|].
  split; [split; [cbn; lia|intros i j Hi Hj; cbn; lia]|]. split; [split; [cbn; lia|intros i j Hi Hj; cbn; lia]|].
  split; [moderate_tac|]. split; [split; [reflexivity|left; reflexivity]|].
  assert (E : forall t v, terms (at_pos (SpCsr (Build_csr_matrix 1 3 false 2 BZero (Some [t; v]) (Some [0; 2]) (Some [0; 2])))) (cell (fops 53 1024) ColMajor 3 [t; B754_nan; t]) 3 0 0 = [(t, t); (v, t)]) by reflexivity.
  eexists. split; [symmetry; apply E|]. split; [reflexivity|]. split.
  { split; [reflexivity|]. intros v x Hin. destruct Hin as [H|[H|[]]]; apply pair_equal_spec in H as [<- <-]; split; moderate_tac. }
  split; [vm_compute; reflexivity|].
  unfold exact_cell. cbn [map fst snd Rtotal fold_right].
  rewrite (B2R_SF tenth (SpecFloat.S754_finite false 7205759403792794 (-56))) by (vm_compute; reflexivity).
  rewrite (B2R_SF (div64 (of_Z64 3) (of_Z64 10)) (SpecFloat.S754_finite false 5404319552844595 (-54))) by (vm_compute; reflexivity).
  rewrite (B2R_SF (of_Z64 2) (SpecFloat.S754_finite false 4503599627370496 (-51))) by (vm_compute; reflexivity).
  rewrite (B2R_SF (of_Z64 0) (SpecFloat.S754_zero false)) by (vm_compute; reflexivity).
  unfold SF2R, F2R. cbn. lra.
Qed.

Definition one64 : b64 := @B754_finite 53 1024 false 4503599627370496 (-52) eq_refl.
(** A COO window whose entries all lie in its first column: the kernel also multiplies zeros
    with the other rows of B, so an infinity there that meets no stored value reaches C. *)
Theorem C60_other_entries_refuted : exists (M M' : coo_matrix b64) B y p,
  valid_sp (SpCoo M) /\ sp_base (SpCoo M) = BZero /\ window_ok (SpCoo M) 1 2 0 0 /\ sp_safe 1 ColMajor NoTrans NoTrans 1 1 2 (SpCoo M) 0 0 /\
  fits_buffer ColMajor 2 2 1 (zlen B) /\
  p = terms (at_pos (SpCoo M)) (cell (fops 53 1024) ColMajor 2 B) 2 0 0 /\ zlen p = 1 /\ in_range_terms (-306) 324 50 p /\
  left_spmm (fops 53 1024) seq_schedule isort 1 1 ColMajor NoTrans NoTrans 1 1 2 (of_Z64 1) (SpCoo M) 0 0 B 2 (of_Z64 0) [of_Z64 0] 1 = Ok (SpCoo M', [y]) /\
  is_finite y = false.
Proof.
  exists (Build_coo_matrix 2 2 false 2 BZero (Some [one64; one64]) (Some [0; 1]) (Some [0; 0]) SCSC), (Build_coo_matrix 2 2 false 2 BZero (Some [one64; one64]) (Some [0; 1]) (Some [0; 0]) SCSC).
  exists [one64; B754_infinity false]. exists B754_nan, [(one64, one64)].
  split. { split; [apply valid_coo_check; reflexivity|]. intros i j r1 c1 r2 c2 Hi Hj G1 G2 G3 G4. cbn [co_nnz] in Hj. assert (i = 0 /\ j = 1) as [-> ->] by lia. injection G1 as <-. injection G2 as <-. injection G3 as <-. injection G4 as <-. right. cbn. lia. }
  split; [reflexivity|]. split; [cbn; lia|]. split. { right; right; right. split; [lia|]. right. vm_compute. congruence. }
  split; [split; [cbn; lia|intros i j Hi Hj; cbn; lia]|]. split; [vm_compute; reflexivity|]. split; [reflexivity|]. split.
  { split; [reflexivity|]. intros v x [H|[]]. apply pair_equal_spec in H as [<- <-]. split; moderate_tac. }
  split; [vm_compute; reflexivity|reflexivity].
Qed.
Print Assumptions C60_other_entries_refuted.
