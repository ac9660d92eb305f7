(** Products of sparse and dense matrices: C33 - C39.

    Scalars are any commutative semiring ([semiring O]) unless a theorem says otherwise.
    [sched] is an arbitrary valid interleaving of the parallel loops and [nt] the number of
    threads.  [fits_buffer l ld r c len] says that a buffer of [len] elements holds an
    r x c matrix; [gemm_result] that the d x n matrix in C became alpha*a*b + beta*C and
    nothing else changed.  An outcome [Ok] excludes out-of-bounds accesses and data races. *)
From Coq Require Import Permutation.
From Verif Require Import Base Interleave Spec SparseSkopModel SparseSpec SparseProofs SpFmtModel SpFmtSpec SpFmtProofs SpFmtProofs2 SpFmtProofs3 SpFmtProofs4 SpFmtProofs5 PropsSpFmt
  SpmmModel SpmmSpec SpmmProofs SpmmProofs2 SpmmProofs3 SpmmProofs4 SpmmProofs5 SpmmProofs6 SpmmProofs7.

(** Integer scalars, for the examples. *)
Definition zops : ops Z := {| o_add := Z.add; o_mul := Z.mul; o_zero := 0; o_one := 1; o_eqb := Z.eqb |}.
Lemma zops_semiring : semiring zops.
Proof. split; cbn [zops o_add o_mul o_zero o_one o_eqb]; intros; [lia|lia|lia|apply Z.mul_assoc|apply Z.mul_comm|lia|lia|apply Z.mul_add_distr_l|apply Z.eqb_eq]. Qed.
Definition zsched : schedule (list Z) := rev_schedule.
Lemma zsched_valid : valid_schedule zsched. Proof. apply rev_schedule_valid. Qed.
Definition fits_check (l : layout) (ld r c len : Z) : bool := (min_ld l r c <=? ld) && ((r <=? 0) || (c <=? 0) || (addr l ld (r - 1) (c - 1) <? len)).
Lemma fits_check_ok l ld r c len : fits_check l ld r c len = true -> fits_buffer l ld r c len.
Proof.
  unfold fits_check. rewrite andb_true_iff, !orb_true_iff, !Z.leb_le, Z.ltb_lt. intros [H1 H2]. split; [exact H1|].
  intros i j Hi Hj. destruct H2 as [[H2|H2]|H2]; [lia..|]. destruct l; cbn [min_ld addr] in *; nia.
Qed.

(* ------------------------------------------------------------------ *)
(** * C33: CSR on the left *)
(** A is d x m, used as it is; every layout and every op on B. *)
Theorem C33_csr_product : forall {T} (O : ops T), semiring O ->
  forall sched nt ssort l opB d n m alpha (A : csr_matrix T) B ldb beta C ldc,
  valid_schedule sched -> sort_ok ssort -> valid_csr A -> cr_base A = BZero -> cr_nr A = d -> cr_nc A = m -> 0 <= n ->
  (m <= 2 ^ 31 \/ l = RowMajor /\ opB = NoTrans) ->
  fits_buffer l ldb (rows_before opB m n) (cols_before opB m n) (zlen B) -> fits_buffer l ldc d n (zlen C) ->
  exists C', left_spmm O sched ssort nt nt l NoTrans opB d n m alpha (SpCsr A) 0 0 B ldb beta C ldc = Ok (SpCsr A, C') /\
    gemm_result O l d n m alpha beta (fun i k => sumT O (csr_at A i k)) (op_ent opB (cell O l ldb B)) C ldc C'.
Proof.
  intros T O L sched nt ssort l opB d n m alpha A B ldb beta C ldc Hs Hss HA Hb Hr Hc Hn Hm FB FC. pose proof HA as (Hr0 & Hc0 & _).
  destruct (left_spec O L ssort Hss sched nt l NoTrans opB d n m alpha (SpCsr A) 0 0 B ldb beta C ldc) as (A' & C' & E & HS & HG); auto; try lia.
  - cbn. auto.
  - right. cbn. unfold csr_safe. destruct Hm as [Hm|[-> ->]]; auto.
  - exists C'. destruct A' as [?|M'|?]; try contradiction. cbn in HS. subst M'. auto.
Qed.
Print Assumptions C33_csr_product.

(** A is m x d, used transposed.  The transposed view is handled by the CSC kernels, whose
    preconditions appear as [csc_safe]; missing: all operands that violate it (C33_transposed_refuted). *)
Theorem C33_csr_transposed_partial : forall {T} (O : ops T), semiring O ->
  forall sched nt ssort l opB d n m alpha (A : csr_matrix T) B ldb beta C ldc,
  valid_schedule sched -> sort_ok ssort -> valid_csr A -> cr_base A = BZero -> cr_nr A = m -> cr_nc A = d -> 0 <= n ->
  csc_safe nt l opB d n m (cr_nnz A) (cr_ptr A) ->
  fits_buffer l ldb (rows_before opB m n) (cols_before opB m n) (zlen B) -> fits_buffer l ldc d n (zlen C) ->
  exists C', left_spmm O sched ssort nt nt l Trans opB d n m alpha (SpCsr A) 0 0 B ldb beta C ldc = Ok (SpCsr A, C') /\
    gemm_result O l d n m alpha beta (fun i k => sumT O (csr_at A k i)) (op_ent opB (cell O l ldb B)) C ldc C'.
Proof.
  intros T O L sched nt ssort l opB d n m alpha A B ldb beta C ldc Hs Hss HA Hb Hr Hc Hn Hm FB FC. pose proof HA as (Hr0 & Hc0 & _).
  destruct (left_spec O L ssort Hss sched nt l Trans opB d n m alpha (SpCsr A) 0 0 B ldb beta C ldc) as (A' & C' & E & HS & HG); auto; try lia.
  - cbn. auto.
  - exists C'. destruct A' as [?|M'|?]; try contradiction. cbn in HS. subst M'. auto.
Qed.
Print Assumptions C33_csr_transposed_partial.

(** op(A)*B with A stored in CSR, every nonzero of A in its first row, at least two rows
    and column-major data: the kernel reads past the end of the index array. *)
Theorem C33_transposed_refuted : forall {T} (O : ops T),
  forall sched nt ssort l opB d n m alpha (A : csr_matrix T) B ldb beta C ldc,
  valid_csr A -> cr_base A = BZero -> cr_nr A = m -> cr_nc A = d -> 1 <= n -> 2 <= m -> 0 < cr_nnz A ->
  get (arrv (cr_ptr A)) 1 = Some (cr_nnz A) -> zlen (arrv (cr_idx A)) = cr_nnz A ->
  o_eqb O alpha (o_zero O) = false -> rowwise l opB = false ->
  fits_buffer l ldb (rows_before opB m n) (cols_before opB m n) (zlen B) -> fits_buffer l ldc d n (zlen C) ->
  left_spmm O sched ssort nt nt l Trans opB d n m alpha (SpCsr A) 0 0 B ldb beta C ldc = UB.
Proof.
  intros T O sched nt ssort l opB d n m alpha A B ldb beta C ldc HA Hb Hr Hc Hn Hm Hz G1 Li Ea Er FB FC.
  destruct HA as (V1 & V2 & V3 & V4 & V5 & V6). cbn [left_spmm transpose_as_csc bind].
  unfold left_spmm_notrans. cbn [sp_base cc_base cc_nr cc_nc]. rewrite Hb, Hc, Hr, !Z.eqb_refl. cbn [base_eqb]. rewrite !require_true. cbn [bind].
  set (lopB := match opB with NoTrans => l | Trans => flip l end).
  replace (match opB with NoTrans => (m, n, l) | Trans => (n, m, flip l) end) with (rows_before opB m n, cols_before opB m n, lopB) by (now destruct opB).
  destruct (scale_output_spec O l (rows_before opB m n) (cols_before opB m n) d n ldb beta C ldc ltac:(lia) ltac:(lia) (proj1 FB) FC) as (C1 & -> & HC1). cbn [bind].
  rewrite Ea. replace (layout_eqb lopB RowMajor && layout_eqb l RowMajor) with (rowwise l opB) by (unfold lopB, rowwise; now destruct l, opB). rewrite Er.
  rewrite csc_left_jki_UB; auto.
  - unfold valid_csc. cbn [cc_nr cc_nc cc_nnz cc_base cc_vals cc_idx cc_ptr]. rewrite <- Hb, <- Hc, <- Hr. auto 10.
  - unfold lopB. destruct opB; [exact FB|apply fits_flip; exact FB].
Qed.
Print Assumptions C33_transposed_refuted.

(** The 2 x 3 matrix [[0 0 5],[0 0 7]] times a 3 x 2 matrix inside a larger buffer; and the
    transpose of [[4 9],[0 0]] (CSR) for which the product is undefined. *)
Example C33_case :
  valid_csr csr_ex /\ fits_buffer ColMajor 3 3 2 6 /\ fits_buffer ColMajor 3 2 2 6 /\
  left_spmm zops zsched isort 1 1 ColMajor NoTrans NoTrans 2 2 3 2 (SpCsr csr_ex) 0 0 [1; 2; 3; 4; 5; 6] 3 1 [10; 20; 77; 30; 40; 77] 3
    = Ok (SpCsr csr_ex, [40; 62; 77; 90; 124; 77]) /\
  csc_safe 1 ColMajor NoTrans 3 1 2 (cr_nnz csr_ex) (cr_ptr csr_ex) /\
  left_spmm zops zsched isort 1 1 ColMajor Trans NoTrans 3 1 2 1 (SpCsr csr_ex) 0 0 [1; 2] 2 0 [9; 9; 9] 3 = Ok (SpCsr csr_ex, [0; 0; 19]) /\
  let bad := Build_csr_matrix 2 2 false 2 BZero (Some [4; 9]) (Some [0; 2; 2]) (Some [0; 1]) in
  valid_csr bad /\ left_spmm zops zsched isort 1 1 ColMajor Trans NoTrans 2 1 2 1 (SpCsr bad) 0 0 [1; 1] 2 0 [0; 0] 2 = UB.
Proof.
  split; [apply valid_csr_check; reflexivity|]. split; [apply fits_check_ok; reflexivity|]. split; [apply fits_check_ok; reflexivity|].
  split; [vm_compute; reflexivity|]. split; [right; right; split; [lia|right; exists 1; split; [reflexivity|cbn; lia]]|].
  split; [vm_compute; reflexivity|]. cbn zeta. split; [apply valid_csr_check; reflexivity|]. vm_compute; reflexivity.
Qed.

(* ------------------------------------------------------------------ *)
(** * C34: CSC on the left *)
(** A is m x d, used transposed. *)
Theorem C34_csc_transposed_product : forall {T} (O : ops T), semiring O ->
  forall sched nt ssort l opB d n m alpha (A : csc_matrix T) B ldb beta C ldc,
  valid_schedule sched -> sort_ok ssort -> valid_csc A -> cc_base A = BZero -> cc_nr A = m -> cc_nc A = d -> 0 <= n ->
  (m <= 2 ^ 31 \/ l = RowMajor /\ opB = NoTrans) ->
  fits_buffer l ldb (rows_before opB m n) (cols_before opB m n) (zlen B) -> fits_buffer l ldc d n (zlen C) ->
  exists C', left_spmm O sched ssort nt nt l Trans opB d n m alpha (SpCsc A) 0 0 B ldb beta C ldc = Ok (SpCsc A, C') /\
    gemm_result O l d n m alpha beta (fun i k => sumT O (csc_at A k i)) (op_ent opB (cell O l ldb B)) C ldc C'.
Proof.
  intros T O L sched nt ssort l opB d n m alpha A B ldb beta C ldc Hs Hss HA Hb Hr Hc Hn Hm FB FC. pose proof HA as (Hr0 & Hc0 & _).
  destruct (left_spec O L ssort Hss sched nt l Trans opB d n m alpha (SpCsc A) 0 0 B ldb beta C ldc) as (A' & C' & E & HS & HG); auto; try lia.
  - cbn. auto.
  - right. cbn. unfold csr_safe. destruct Hm as [Hm|[-> ->]]; auto.
  - exists C'. destruct A' as [?|?|M']; try contradiction. cbn in HS. subst M'. auto.
Qed.
Print Assumptions C34_csc_transposed_product.

(** A is d x m, used as it is.  With row-major B and C (the row-block kernel) the only
    condition is that d plus the number of threads fits in an int; otherwise the entries
    must not all lie in the first of at least two columns.  Missing: those operands
    (C34_first_column_refuted) and m = 0. *)
Theorem C34_csc_product_partial : forall {T} (O : ops T), semiring O ->
  forall sched nt ssort l opB d n m alpha (A : csc_matrix T) B ldb beta C ldc,
  valid_schedule sched -> sort_ok ssort -> valid_csc A -> cc_base A = BZero -> cc_nr A = d -> cc_nc A = m -> 0 <= n ->
  (if rowwise l opB then 1 <= nt /\ d + nt < 2 ^ 31
   else n = 0 \/ m = 1 \/ 2 <= m /\ (cc_nnz A = 0 \/ exists p1, get (arrv (cc_ptr A)) 1 = Some p1 /\ p1 < cc_nnz A)) ->
  fits_buffer l ldb (rows_before opB m n) (cols_before opB m n) (zlen B) -> fits_buffer l ldc d n (zlen C) ->
  exists C', left_spmm O sched ssort nt nt l NoTrans opB d n m alpha (SpCsc A) 0 0 B ldb beta C ldc = Ok (SpCsc A, C') /\
    gemm_result O l d n m alpha beta (fun i k => sumT O (csc_at A i k)) (op_ent opB (cell O l ldb B)) C ldc C'.
Proof.
  intros T O L sched nt ssort l opB d n m alpha A B ldb beta C ldc Hs Hss HA Hb Hr Hc Hn Hm FB FC. pose proof HA as (Hr0 & Hc0 & _).
  destruct (left_spec O L ssort Hss sched nt l NoTrans opB d n m alpha (SpCsc A) 0 0 B ldb beta C ldc) as (A' & C' & E & HS & HG); auto; try lia.
  - cbn. auto.
  - exists C'. destruct A' as [?|?|M']; try contradiction. cbn in HS. subst M'. auto.
Qed.
Print Assumptions C34_csc_product_partial.

(** Every nonzero in the first of at least two columns: undefined, for every buffer. *)
Theorem C34_first_column_refuted : forall {T} (O : ops T),
  forall sched nt ssort l opB d n m alpha (A : csc_matrix T) B ldb beta C ldc,
  valid_csc A -> cc_base A = BZero -> cc_nr A = d -> cc_nc A = m -> 1 <= n -> 2 <= m -> 0 < cc_nnz A ->
  get (arrv (cc_ptr A)) 1 = Some (cc_nnz A) -> zlen (arrv (cc_idx A)) = cc_nnz A ->
  o_eqb O alpha (o_zero O) = false -> rowwise l opB = false ->
  fits_buffer l ldb (rows_before opB m n) (cols_before opB m n) (zlen B) -> fits_buffer l ldc d n (zlen C) ->
  left_spmm O sched ssort nt nt l NoTrans opB d n m alpha (SpCsc A) 0 0 B ldb beta C ldc = UB.
Proof.
  intros T O sched nt ssort l opB d n m alpha A B ldb beta C ldc HA Hb Hr Hc Hn Hm Hz G1 Li Ea Er FB FC.
  cbn [left_spmm]. pose proof HA as (V1 & V2 & _).
  unfold left_spmm_notrans. cbn [sp_base]. rewrite Hb, Hc, Hr, !Z.eqb_refl. cbn [base_eqb]. rewrite !require_true. cbn [bind].
  set (lopB := match opB with NoTrans => l | Trans => flip l end).
  replace (match opB with NoTrans => (m, n, l) | Trans => (n, m, flip l) end) with (rows_before opB m n, cols_before opB m n, lopB) by (now destruct opB).
  destruct (scale_output_spec O l (rows_before opB m n) (cols_before opB m n) d n ldb beta C ldc ltac:(lia) ltac:(lia) (proj1 FB) FC) as (C1 & -> & HC1). cbn [bind].
  rewrite Ea. replace (layout_eqb lopB RowMajor && layout_eqb l RowMajor) with (rowwise l opB) by (unfold lopB, rowwise; now destruct l, opB). rewrite Er.
  rewrite csc_left_jki_UB; auto. unfold lopB. destruct opB; [exact FB|apply fits_flip; exact FB].
Qed.
Print Assumptions C34_first_column_refuted.

Example C34_case :
  valid_csc csc_ex /\
  left_spmm zops zsched isort 3 3 RowMajor NoTrans NoTrans 3 2 2 1 (SpCsc csc_ex) 0 0 [1; 2; 3; 4] 2 1 [1; 1; 77; 1; 1; 77; 1; 1] 3
    = Ok (SpCsc csc_ex, [1; 1; 77; 1; 1; 77; 27; 39]) /\
  left_spmm zops zsched isort 1 1 ColMajor NoTrans Trans 3 2 2 1 (SpCsc csc_ex) 0 0 [1; 2; 3; 4] 2 0 [0; 0; 0; 0; 0; 0] 3
    = Ok (SpCsc csc_ex, [0; 0; 26; 0; 0; 38]) /\
  left_spmm zops zsched isort 1 1 ColMajor Trans NoTrans 2 1 3 1 (SpCsc csc_ex) 0 0 [1; 2; 3] 3 0 [0; 0] 2 = Ok (SpCsc csc_ex, [15; 21]) /\
  let bad := Build_csc_matrix 2 2 false 1 BZero (Some [4]) (Some [0]) (Some [0; 1; 1]) in
  valid_csc bad /\ left_spmm zops zsched isort 1 1 ColMajor NoTrans NoTrans 2 1 2 1 (SpCsc bad) 0 0 [1; 1] 2 0 [0; 0] 2 = UB.
Proof.
  split; [apply valid_csc_check; reflexivity|]. do 3 (split; [vm_compute; reflexivity|]). cbn zeta. split; [apply valid_csc_check; reflexivity|]. vm_compute; reflexivity.
Qed.

(* ------------------------------------------------------------------ *)
(** * C35: COO on the left, with a window *)
(** [sp_safe] for COO is [coo_safe] (SpmmSpec.v): n = 0, or a one-column window, or a
    window with an entry outside its first column, or few enough entries for the padded
    arrays.  Missing: the other windows (C35_other_windows_refuted). *)
Theorem C35_coo_window_product_partial : forall {T} (O : ops T), semiring O ->
  forall sched nt ssort l opA opB d n m alpha (A : coo_matrix T) ro co B ldb beta C ldc,
  valid_schedule sched -> sort_ok ssort -> valid_coo A -> honest_sort A -> co_base A = BZero -> 0 <= d -> 0 <= n -> 0 <= m ->
  rows_before opA d m <= co_nr A -> cols_before opA d m <= co_nc A ->
  (alpha = o_zero O \/ sp_safe nt l opA opB d n m (SpCoo A) ro co) ->
  fits_buffer l ldb (rows_before opB m n) (cols_before opB m n) (zlen B) -> fits_buffer l ldc d n (zlen C) ->
  exists A' C', left_spmm O sched ssort nt nt l opA opB d n m alpha (SpCoo A) ro co B ldb beta C ldc = Ok (SpCoo A', C') /\
    gemm_result O l d n m alpha beta (op_ent opA (fun i k => sumT O (coo_at A (ro + i) (co + k)))) (op_ent opB (cell O l ldb B)) C ldc C' /\
    co_nr A' = co_nr A /\ co_nc A' = co_nc A /\ co_nnz A' = co_nnz A /\ co_base A' = co_base A /\ co_sort A' = co_sort A /\
    valid_coo A' /\ honest_sort A' /\ Permutation (stored A) (stored A') /\
    (forall i j, Permutation (coo_at A i j) (coo_at A' i j)).
Proof.
  intros T O L sched nt ssort l opA opB d n m alpha A ro co B ldb beta C ldc Hs Hss HA Hh Hb Hd Hn Hm Wr Wc Hsafe FB FC.
  destruct (left_spec O L ssort Hss sched nt l opA opB d n m alpha (SpCoo A) ro co B ldb beta C ldc) as (A' & C' & E & HS & HG); auto.
  - split; assumption.
  - split; assumption.
  - destruct A' as [M'|?|?]; try contradiction. cbn in HS. destruct HS as (A1 & A2 & A3 & A4 & A5 & A6 & A7 & A8 & P).
    exists M', C'. split; [exact E|]. split; [exact HG|]. do 8 (split; [assumption|]).
    intros i j. unfold coo_at. rewrite A5. apply coo_values_perm. exact P.
Qed.
Print Assumptions C35_coo_window_product_partial.

(** Every other window is refuted: unless alpha = 0, the call has undefined behaviour. *)
Theorem C35_other_windows_refuted : forall {T} (O : ops T) sched nt ssort l opA opB d n m alpha (A : coo_matrix T) ro co B ldb beta C ldc,
  sort_ok ssort -> valid_coo A -> honest_sort A -> co_base A = BZero -> 0 <= d -> 0 <= n -> 0 <= m ->
  rows_before opA d m <= co_nr A -> cols_before opA d m <= co_nc A ->
  o_eqb O alpha (o_zero O) = false -> ~ sp_safe nt l opA opB d n m (SpCoo A) ro co ->
  fits_buffer l ldb (rows_before opB m n) (cols_before opB m n) (zlen B) -> fits_buffer l ldc d n (zlen C) ->
  left_spmm O sched ssort nt nt l opA opB d n m alpha (SpCoo A) ro co B ldb beta C ldc = UB.
Proof. intros. now apply left_coo_UB. Qed.
Print Assumptions C35_other_windows_refuted.

(** An instance: a 2 x 2 matrix with a single entry, in column 0. *)
Theorem C35_first_column_refuted :
  exists (A : coo_matrix Z) B C,
    valid_coo A /\ honest_sort A /\ co_base A = BZero /\ co_nr A = 2 /\ co_nc A = 2 /\ co_nnz A = 1 /\
    fits_buffer ColMajor 2 2 1 (zlen B) /\ fits_buffer ColMajor 2 2 1 (zlen C) /\
    forall sched nt, left_spmm zops sched isort nt nt ColMajor NoTrans NoTrans 2 1 2 1 (SpCoo A) 0 0 B 2 0 C 2 = UB.
Proof.
  exists (Build_coo_matrix 2 2 false 1 BZero (Some [3]) (Some [1]) (Some [0]) SNone), [1; 1], [0; 0].
  split; [apply valid_coo_check; reflexivity|]. split; [exact I|]. do 4 (split; [reflexivity|]).
  split; [apply fits_check_ok; reflexivity|]. split; [apply fits_check_ok; reflexivity|]. intros. vm_compute. reflexivity.
Qed.
Print Assumptions C35_first_column_refuted.

Example C35_case :
  valid_coo coo_ex /\ honest_sort coo_ex /\ coo_safe coo_ex 0 1 2 1 2 /\
  (exists A', left_spmm zops zsched isort 1 1 ColMajor NoTrans NoTrans 2 1 2 1 (SpCoo coo_ex) 0 1 [1; 100] 2 1 [7; 7] 2 = Ok (SpCoo A', [27; 5007])) /\
  (exists A', left_spmm zops zsched isort 1 1 RowMajor Trans NoTrans 2 1 2 1 (SpCoo coo_ex) 0 1 [1; 100] 1 0 [7; 7] 1 = Ok (SpCoo A', [20; 5000])).
Proof.
  split; [apply valid_coo_check; reflexivity|]. split; [exact I|].
  split. { right. right. right. split; [lia|]. left. exists 1, 2, 10. split; [left; reflexivity|reflexivity]. }
  split; eexists; vm_compute; reflexivity.
Qed.

(* ------------------------------------------------------------------ *)
(** * C36: sparse on the right *)
(** C (m x d) = alpha*op(A)*op(submat(B)) + beta*C for a sparse B in any format, whenever
    the kernel chosen for the transposed left product is in bounds ([sp_safe]; missing:
    the operands of C33/C34/C35 _refuted). *)
Theorem C36_right_product : forall {T} (O : ops T), semiring O ->
  forall sched nt ssort l opA opB m d n alpha A lda (B : spmat T) ro co beta C ldc,
  valid_schedule sched -> sort_ok ssort -> valid_sp B -> sp_base B = BZero -> 0 <= m -> 0 <= d -> 0 <= n ->
  window_ok B (rows_before opB n d) (cols_before opB n d) ro co ->
  (alpha = o_zero O \/ sp_safe nt (flip l) (flip_op opB) opA d m n B ro co) ->
  fits_buffer l lda (rows_before opA m n) (cols_before opA m n) (zlen A) -> fits_buffer l ldc m d (zlen C) ->
  exists B' C', right_spmm O sched ssort nt nt l opA opB m d n alpha A lda B ro co beta C ldc = Ok (B', C') /\
    same_sp B B' /\
    gemm_result O l m d n alpha beta (op_ent opA (cell O l lda A)) (op_ent opB (fun i k => sp_entry O B (ro + i) (co + k))) C ldc C'.
Proof.
  intros T O L sched nt ssort l opA opB m d n alpha A lda B ro co beta C ldc Hs Hss HB Hb Hm Hd Hn Hw Hsafe FA FC. unfold right_spmm.
  destruct (left_spec O L ssort Hss sched nt (flip l) (flip_op opB) opA d m n alpha B ro co A lda beta C ldc) as (B' & C' & E & HS & HG); auto.
  - destruct opB; exact Hw.
  - apply fits_flip. destruct opA; exact FA.
  - now apply fits_flip.
  - exists B', C'. split; [exact E|]. split; [exact HS|]. destruct HG as (G1 & G2 & G3). split; [exact G1|]. split.
    + intros i j x Hi Hj G. specialize (G2 j i x Hj Hi). rewrite addr_flip in G2. rewrite (G2 G). do 3 f_equal. apply sumT_ext. intros k _.
      rewrite (sr_mul_comm O L). f_equal; [|destruct opB; reflexivity]. destruct opA; cbn [op_ent]; unfold cell; now rewrite addr_flip.
    + intros p Hp. apply G3. intros i j Hi Hj. rewrite addr_flip. now apply Hp.
Qed.
Print Assumptions C36_right_product.

Example C36_case :
  (* [1 2] * [[0 0 5],[0 0 7]] and a 2 x 3 dense times the 3 x 2 CSC example, row-major *)
  right_spmm zops zsched isort 1 1 RowMajor NoTrans NoTrans 1 3 2 1 [1; 2] 2 (SpCsr csr_ex) 0 0 1 [1; 1; 1] 3 = Ok (SpCsr csr_ex, [1; 1; 20]) /\
  right_spmm zops zsched isort 1 1 RowMajor NoTrans NoTrans 2 2 3 1 [1; 2; 3; 4; 5; 6] 3 (SpCsc csc_ex) 0 0 0 [0; 0; 0; 0] 2 = Ok (SpCsc csc_ex, [15; 21; 30; 42]) /\
  sp_safe 1 (flip RowMajor) (flip_op NoTrans) NoTrans 3 1 2 (SpCsr csr_ex) 0 0.
Proof. split; [vm_compute; reflexivity|]. split; [vm_compute; reflexivity|]. cbn. unfold csc_safe. cbn. right. right. split; [lia|]. right. exists 1. split; [reflexivity|lia]. Qed.

(** The public function spmm with a sparse left operand of any format. *)
Theorem C35_spmm_partial : forall {T} (O : ops T), semiring O ->
  forall sched nt ssort l opA opB m n k alpha (A : spmat T) B ldb beta C ldc,
  valid_schedule sched -> sort_ok ssort -> valid_sp A -> sp_base A = BZero -> 0 <= m -> 0 <= n -> 0 <= k ->
  window_ok A (rows_before opA m k) (cols_before opA m k) 0 0 ->
  (alpha = o_zero O \/ sp_safe nt l opA opB m n k A 0 0) ->
  fits_buffer l ldb (rows_before opB k n) (cols_before opB k n) (zlen B) -> fits_buffer l ldc m n (zlen C) ->
  exists A' C', spmm O sched ssort nt nt l opA opB m n k alpha A B ldb beta C ldc = Ok (A', C') /\ same_sp A A' /\
    gemm_result O l m n k alpha beta (op_ent opA (sp_entry O A)) (op_ent opB (cell O l ldb B)) C ldc C'.
Proof.
  intros T O L sched nt ssort l opA opB m n k alpha A B ldb beta C ldc Hs Hss HA Hb Hm Hn Hk Hw Hsafe FB FC. unfold spmm.
  destruct (left_spec O L ssort Hss sched nt l opA opB m n k alpha A 0 0 B ldb beta C ldc) as (A' & C' & E & HS & HG); auto.
  exists A', C'. auto.
Qed.
Print Assumptions C35_spmm_partial.

(** * C28, C30: sort flags tell the truth *)
Theorem C28_coo_transpose_flag : forall {T} (A : coo_matrix T), honest_sort A ->
  exists R, coo_transpose A = Ok R /\ honest_sort R /\
    (co_sort R = SCSC <-> co_sort A = SCSR) /\ (co_sort R = SCSR <-> co_sort A = SCSC).
Proof.
  intros T A H. unfold coo_transpose, mk_coo_expert. cbn [bind]. eexists. split; [reflexivity|]. cbn [co_sort].
  split; [|destruct (co_sort A); split; split; congruence]. revert H. unfold honest_sort. cbn [co_sort co_nnz co_rows co_cols].
  destruct (co_sort A); [| |auto]; unfold ordered, le_csc, le_csr; cbn [fst snd]; intros H; eauto.
Qed.
Print Assumptions C28_coo_transpose_flag.

(** Sorting a matrix: the triples are permuted, the flag is the requested order, the data are
    in that order, and nothing else changes. *)
Theorem C30_sort_matrix : forall {T} ssort s (M : coo_matrix T), sort_ok ssort -> valid_coo M -> s <> SNone ->
  exists M', sort_coo ssort s M = Ok M' /\ co_sort M' = s /\ honest_sort M' /\ Permutation (stored M) (stored M') /\
    co_nr M' = co_nr M /\ co_nc M' = co_nc M /\ co_own M' = co_own M /\ co_nnz M' = co_nnz M /\ co_base M' = co_base M.
Proof.
  intros T ssort s M Hs V Ns. destruct (sort_coo_spec ssort Hs s M Ns (valid_coo_arrays M V)) as (M1 & E & A1 & A2 & A3 & A4 & A5 & A6 & _ & P & Od).
  exists M1. split; [exact E|]. split; [exact A6|]. split.
  - unfold honest_sort. rewrite A6, A4. destruct s; [exact Od|exact Od|congruence].
  - unfold stored. rewrite A4. auto 10.
Qed.
Print Assumptions C30_sort_matrix.
Example C30_matrix_case : valid_coo coo_ex /\
  exists M', sort_coo isort SCSR coo_ex = Ok M' /\ co_sort M' = SCSR /\ co_sort coo_ex <> SCSR.
Proof. split; [apply valid_coo_check; reflexivity|]. eexists. split; [vm_compute; reflexivity|]. split; [reflexivity|discriminate]. Qed.

(* ------------------------------------------------------------------ *)
(** * C37: beta = 0 and alpha = 0, without any law on the scalars *)
(** C and C2 agree outside the d x n matrix. *)
Definition agree_outside {T} (l : layout) (d n ldc : Z) (C C2 : list T) : Prop :=
  zlen C2 = zlen C /\ forall p, (forall i j, 0 <= i < d -> 0 <= j < n -> addr l ldc i j <> p) -> get C2 p = get C p.

Lemma scale_output_beta0 {T} (O : ops T) l rB cB d n ldb beta C C2 ldc :
  0 <= d -> 0 <= n -> o_eqb O beta (o_zero O) = true -> fits_buffer l ldc d n (zlen C) -> agree_outside l d n ldc C C2 ->
  scale_output O l rB cB d n ldb beta C ldc = scale_output O l rB cB d n ldb beta C2 ldc.
Proof.
  intros Hd Hn Hb FC [HL HG].
  destruct (Z.le_gt_cases (min_ld l rB cB) ldb) as [Hl|Hl].
  - destruct (scale_output_spec O l rB cB d n ldb beta C ldc Hd Hn Hl FC) as (C1 & -> & L1 & G1 & U1).
    destruct (scale_output_spec O l rB cB d n ldb beta C2 ldc Hd Hn Hl) as (C3 & -> & L3 & G3 & U3). { now rewrite HL. }
    f_equal. apply list_ext_get; [congruence|]. intros p Hp.
    destruct (existsb (fun i => existsb (fun j => addr l ldc i j =? p) (range 0 n)) (range 0 d)) eqn:Ex.
    + apply existsb_exists in Ex as (i & Hi & Ex). apply existsb_exists in Ex as (j & Hj & Ex). apply in_range in Hi, Hj. apply Z.eqb_eq in Ex. subst p.
      rewrite G1, G3 by auto. destruct FC as [F1 F2]. pose proof (addr_nonneg l ldc d n i j F1 Hi Hj). specialize (F2 i j Hi Hj).
      destruct (get_lt C (addr l ldc i j) ltac:(lia)) as [x ->]. destruct (get_lt C2 (addr l ldc i j) ltac:(lia)) as [y ->]. cbn. unfold scaled. now rewrite Hb.
    + assert (Hno : forall i j, 0 <= i < d -> 0 <= j < n -> addr l ldc i j <> p).
      { intros i j Hi Hj E. apply not_true_iff_false in Ex. apply Ex. apply existsb_exists. exists i. split; [now apply in_range|].
        apply existsb_exists. exists j. split; [now apply in_range|]. now apply Z.eqb_eq. }
      now rewrite U1, U3, HG by auto.
  - unfold scale_output. destruct l; cbn [min_ld] in Hl.
    + destruct (Z.geb_spec ldb rB); [lia|]. reflexivity.
    + destruct (Z.geb_spec ldb cB); [lia|]. destruct (ldc >=? n); reflexivity.
Qed.

(** For scalars with arbitrary operations, so including NaN: with beta == 0 the outcome is
    the same whatever the d x n matrix in C held before. *)
Theorem C37_beta_zero_ignores_output : forall {T} (O : ops T) sched ssort nt1 nt2 l opA opB d n m alpha (A : spmat T) ro co B ldb beta C C2 ldc,
  0 <= d -> 0 <= n -> o_eqb O beta (o_zero O) = true -> fits_buffer l ldc d n (zlen C) -> agree_outside l d n ldc C C2 ->
  left_spmm O sched ssort nt1 nt2 l opA opB d n m alpha A ro co B ldb beta C ldc =
  left_spmm O sched ssort nt1 nt2 l opA opB d n m alpha A ro co B ldb beta C2 ldc.
Proof.
  intros T O sched ssort nt1 nt2 l opA opB d n m alpha A ro co B ldb beta C C2 ldc Hd Hn Hb FC HC.
  assert (Nt : forall A ro co, left_spmm_notrans O sched ssort nt1 nt2 l opB d n m alpha A ro co B ldb beta C ldc =
                  left_spmm_notrans O sched ssort nt1 nt2 l opB d n m alpha A ro co B ldb beta C2 ldc).
  { clear A ro co. intros A ro co. unfold left_spmm_notrans. destruct (require _); cbn [bind]; [|reflexivity|reflexivity].
    match goal with |- bind ?a _ = bind ?a _ => destruct a; cbn [bind]; [|reflexivity|reflexivity] end.
    match goal with |- (let '(_, _) := ?a in _) = _ => destruct a as [[rB cB] lo] end.
    now rewrite (scale_output_beta0 O l rB cB d n ldb beta C C2 ldc). }
  unfold left_spmm. destruct opA; [apply Nt|]. destruct A.
  - destruct (coo_transpose M); cbn [bind]; [|reflexivity|reflexivity]. now rewrite Nt.
  - destruct (transpose_as_csc (o_zero O) M true); cbn [bind]; [|reflexivity|reflexivity]. now rewrite Nt.
  - destruct (transpose_as_csr (o_zero O) M true); cbn [bind]; [|reflexivity|reflexivity]. now rewrite Nt.
Qed.
Print Assumptions C37_beta_zero_ignores_output.

(** With alpha == 0 nothing but C is read: A needs only consistent dimensions (its arrays may
    be null or invalid) and B may even be empty; every cell becomes beta*x (0 if beta == 0). *)
Theorem C37_alpha_zero_ignores_inputs : forall {T} (O : ops T) sched ssort nt1 nt2 l opA opB d n m alpha (A : spmat T) ro co B ldb beta C ldc,
  0 <= d -> 0 <= n -> o_eqb O alpha (o_zero O) = true -> sp_base A = BZero ->
  window_ok A (rows_before opA d m) (cols_before opA d m) ro co -> min_ld l (rows_before opB m n) (cols_before opB m n) <= ldb ->
  fits_buffer l ldc d n (zlen C) ->
  exists C', left_spmm O sched ssort nt1 nt2 l opA opB d n m alpha A ro co B ldb beta C ldc = Ok (A, C') /\
    zlen C' = zlen C /\
    (forall i j x, 0 <= i < d -> 0 <= j < n -> get C (addr l ldc i j) = Some x ->
       get C' (addr l ldc i j) = Some (if o_eqb O beta (o_zero O) then o_zero O else o_mul O beta x)) /\
    (forall p, (forall i j, 0 <= i < d -> 0 <= j < n -> addr l ldc i j <> p) -> get C' p = get C p).
Proof.
  intros T O sched ssort nt1 nt2 l opA opB d n m alpha A ro co B ldb beta C ldc Hd Hn Ha Hb Hw Hl FC.
  destruct (scale_output_spec O l (rows_before opB m n) (cols_before opB m n) d n ldb beta C ldc Hd Hn Hl FC) as (C1 & E & L1 & G1 & U1).
  exists C1. split; [|split; [exact L1|split; [|exact U1]]].
  2: { intros i j x Hi Hj G. rewrite G1, G by auto. reflexivity. }
  assert (Nt : forall A ro co, sp_base A = BZero -> window_ok A d m ro co ->
     left_spmm_notrans O sched ssort nt1 nt2 l opB d n m alpha A ro co B ldb beta C ldc = Ok (A, C1)).
  { clear A ro co Hb Hw. intros A ro co Hb Hw. unfold left_spmm_notrans. rewrite Hb. cbn [base_eqb]. rewrite require_true. cbn [bind].
    replace (match A with SpCoo M => req (co_nr M >=? d) ;; req (co_nc M >=? m) ;; Ok tt
       | SpCsr M => req (cr_nr M =? d) ;; req (cr_nc M =? m) ;; req (ro =? 0) ;; req (co =? 0) ;; Ok tt
       | SpCsc M => req (cc_nr M =? d) ;; req (cc_nc M =? m) ;; req (ro =? 0) ;; req (co =? 0) ;; Ok tt end) with (Ok tt).
    2: { destruct A; cbn [window_ok sp_rows sp_cols] in Hw.
         - replace (co_nr M >=? d) with true by (symmetry; apply Z.geb_le; lia). replace (co_nc M >=? m) with true by (symmetry; apply Z.geb_le; lia). reflexivity.
         - destruct Hw as (-> & -> & -> & ->). now rewrite !Z.eqb_refl.
         - destruct Hw as (-> & -> & -> & ->). now rewrite !Z.eqb_refl. }
    cbn [bind].
    replace (match opB with NoTrans => (m, n, l) | Trans => (n, m, flip l) end) with (rows_before opB m n, cols_before opB m n, match opB with NoTrans => l | Trans => flip l end) by (now destruct opB).
    rewrite E. cbn [bind]. now rewrite Ha. }
  destruct opA; cbn [left_spmm rows_before cols_before] in *; [now apply Nt|]. destruct A; cbn [sp_base window_ok sp_rows sp_cols] in *.
  - rewrite coo_transpose_eq. cbn [bind]. rewrite Nt; [|exact Hb|cbn; tauto]. cbn [bind coo_t co_vals co_rows co_cols]. now destruct M.
  - cbn [transpose_as_csc bind]. rewrite Nt; [reflexivity|exact Hb|cbn; tauto].
  - cbn [transpose_as_csr bind]. rewrite Nt; [reflexivity|exact Hb|cbn; tauto].
Qed.
Print Assumptions C37_alpha_zero_ignores_inputs.

(** Scalars with an absorbing element (None, as NaN). *)
Definition nops : ops (option Z) :=
  {| o_add := fun a b => match a, b with Some a, Some b => Some (a + b) | _, _ => None end;
     o_mul := fun a b => match a, b with Some a, Some b => Some (a * b) | _, _ => None end;
     o_zero := Some 0; o_one := Some 1; o_eqb := fun a b => match a, b with Some a, Some b => a =? b | _, _ => false end |}.
Example C37_case :
  let A := SpCsr (Build_csr_matrix 1 1 false 1 BZero (Some [Some 5]) (Some [0; 1]) (Some [0])) in
  left_spmm nops seq_schedule isort 1 1 ColMajor NoTrans NoTrans 1 1 1 (Some 2) A 0 0 [Some 3] 1 (Some 0) [None] 1 = Ok (A, [Some 30]) /\
  left_spmm nops seq_schedule isort 1 1 ColMajor NoTrans NoTrans 1 1 1 (Some 2) A 0 0 [Some 3] 1 (Some 1) [None] 1 = Ok (A, [None]) /\
  agree_outside ColMajor 1 1 1 [Some 4] [None] /\
  left_spmm nops seq_schedule isort 1 1 ColMajor NoTrans NoTrans 1 1 1 (Some 0) A 0 0 [None] 1 (Some 3) [Some 4] 1 = Ok (A, [Some 12]) /\
  left_spmm nops seq_schedule isort 1 1 ColMajor NoTrans NoTrans 1 1 1 (Some 0) (SpCsr (Build_csr_matrix 1 1 false 1 BZero None None None)) 0 0 [] 1 (Some 3) [Some 4] 1
    = Ok (SpCsr (Build_csr_matrix 1 1 false 1 BZero None None None), [Some 12]).
Proof.
  cbn zeta. split; [vm_compute; reflexivity|]. split; [vm_compute; reflexivity|]. split.
  { split; [reflexivity|]. intros p Hp. specialize (Hp 0 0 ltac:(lia) ltac:(lia)). cbn in Hp.
    destruct (Z.lt_ge_cases p 0); [|rewrite !get_cons_S by lia]; [|reflexivity]. unfold get. destruct (Z.ltb_spec p 0); [reflexivity|lia]. }
  split; vm_compute; reflexivity.
Qed.

(* ------------------------------------------------------------------ *)
(** * C38: schedules and thread counts *)
(** Any two interleavings of the threads' updates give the same outcome, for arbitrary
    scalar operations and arbitrary (even invalid) operands. *)
Theorem C38_schedule_independent : forall {T} (O : ops T) s1 s2 ssort nt1 nt2 l opA opB d n m alpha (A : spmat T) ro co B ldb beta C ldc,
  valid_schedule s1 -> valid_schedule s2 ->
  left_spmm O s1 ssort nt1 nt2 l opA opB d n m alpha A ro co B ldb beta C ldc =
  left_spmm O s2 ssort nt1 nt2 l opA opB d n m alpha A ro co B ldb beta C ldc.
Proof. intros. now apply left_sched. Qed.
Print Assumptions C38_schedule_independent.

(** Any two thread counts give the same outcome (also the same rounding: no law is used);
    only the row-block kernel for CSC looks at the count at all. *)
Theorem C38_thread_count_independent : forall {T} (O : ops T) s1 s2 ssort nt nt' l opA opB d n m alpha (A : spmat T) ro co B ldb beta C ldc,
  valid_schedule s1 -> valid_schedule s2 -> valid_sp A -> sp_base A = BZero -> 0 <= d -> 0 <= n -> 0 <= m ->
  1 <= nt -> d + nt < 2 ^ 31 -> 1 <= nt' -> d + nt' < 2 ^ 31 ->
  fits_buffer l ldb (rows_before opB m n) (cols_before opB m n) (zlen B) -> fits_buffer l ldc d n (zlen C) ->
  left_spmm O s1 ssort nt nt l opA opB d n m alpha A ro co B ldb beta C ldc =
  left_spmm O s2 ssort nt' nt' l opA opB d n m alpha A ro co B ldb beta C ldc.
Proof.
  intros T O s1 s2 ssort nt nt' l opA opB d n m alpha A ro co B ldb beta C ldc Hs1 Hs2 HA Hb Hd Hn Hm H1 H2 H3 H4 FB FC.
  rewrite (left_sched O s1 s2 Hs1 Hs2).
  assert (Nt : forall A ro co, (match A with SpCsc M => valid_csc M | _ => True end) -> 
     left_spmm_notrans O s2 ssort nt nt l opB d n m alpha A ro co B ldb beta C ldc = left_spmm_notrans O s2 ssort nt' nt' l opB d n m alpha A ro co B ldb beta C ldc).
  { clear A ro co HA Hb. intros A ro co HA. unfold left_spmm_notrans. destruct (require (base_eqb (sp_base A) BZero)) eqn:Eb; cbn [bind]; [|reflexivity|reflexivity].
    apply require_Ok in Eb.
    match goal with |- bind ?a _ = bind ?a _ => destruct a eqn:Ed; cbn [bind]; [|reflexivity|reflexivity] end.
    set (lopB := match opB with NoTrans => l | Trans => flip l end).
    replace (match opB with NoTrans => (m, n, l) | Trans => (n, m, flip l) end) with (rows_before opB m n, cols_before opB m n, lopB) by (now destruct opB).
    destruct (scale_output_spec O l (rows_before opB m n) (cols_before opB m n) d n ldb beta C ldc Hd Hn (proj1 FB) FC) as (C1 & -> & L1 & _). cbn [bind].
    destruct (o_eqb O alpha (o_zero O)); [reflexivity|]. destruct A; try reflexivity.
    destruct (layout_eqb lopB RowMajor && layout_eqb l RowMajor) eqn:Er; [|reflexivity].
    apply andb_true_iff in Er as [E1 E2]. assert (El : l = RowMajor) by (destruct l; [discriminate|reflexivity]).
    assert (Eo : opB = NoTrans) by (destruct opB; [reflexivity|]; subst l; discriminate E1). subst l opB. cbn [rows_before cols_before] in FB.
    apply bind_Ok in Ed as (? & R1 & Ed). apply bind_Ok in Ed as (? & R2 & Ed). apply require_Ok in R1, R2. apply Z.eqb_eq in R1, R2.
    rewrite (csc_left_kib_threads O s2 s2 nt nt'); auto; try congruence.
    cbn [sp_base] in Eb. destruct (cc_base M); [reflexivity|discriminate]. }
  unfold left_spmm. destruct opA; [apply Nt; destruct A; auto; exact HA|]. destruct A.
  - destruct (coo_transpose M); cbn [bind]; [|reflexivity|reflexivity]. now rewrite Nt.
  - cbn [transpose_as_csc bind]. rewrite Nt; [reflexivity|]. destruct HA as (V1 & V2 & V3 & V4 & V5 & V6). unfold valid_csc. cbn [cc_nr cc_nc cc_nnz cc_base cc_vals cc_idx cc_ptr]. auto 10.
  - destruct (transpose_as_csr (o_zero O) M true); cbn [bind]; [|reflexivity|reflexivity]. now rewrite Nt.
Qed.
Print Assumptions C38_thread_count_independent.

(** The row blocks are computed for the number of threads of one parallel region and used
    in another.  If the second team is smaller, rows of the product are lost. *)
Theorem C38_team_size_change_refuted :
  exists (A : csc_matrix Z) B C C', valid_csc A /\ cc_base A = BZero /\ cc_nr A = 3 /\ cc_nc A = 2 /\
    fits_buffer RowMajor 1 2 1 (zlen B) /\ fits_buffer RowMajor 1 3 1 (zlen C) /\
    left_spmm zops zsched isort 2 1 RowMajor NoTrans NoTrans 3 1 2 1 (SpCsc A) 0 0 B 1 0 C 1 = Ok (SpCsc A, C') /\
    ~ gemm_result zops RowMajor 3 1 2 1 0 (fun i k => sumT zops (csc_at A i k)) (cell zops RowMajor 1 B) C 1 C'.
Proof.
  exists csc_ex, [1; 1], [0; 0; 0]. eexists. split; [apply valid_csc_check; reflexivity|]. do 3 (split; [reflexivity|]).
  split; [apply fits_check_ok; reflexivity|]. split; [apply fits_check_ok; reflexivity|]. split; [vm_compute; reflexivity|].
  intros (_ & H & _). specialize (H 2 0 0 ltac:(lia) ltac:(lia) eq_refl). vm_compute in H. discriminate.
Qed.
Print Assumptions C38_team_size_change_refuted.

Example C38_case :
  valid_csc csc_ex /\ 3 + 4 < 2 ^ 31 /\
  left_spmm zops seq_schedule isort 1 1 RowMajor NoTrans NoTrans 3 1 2 1 (SpCsc csc_ex) 0 0 [1; 1] 1 0 [0; 0; 0] 1 = Ok (SpCsc csc_ex, [0; 0; 12]) /\
  left_spmm zops rev_schedule isort 4 4 RowMajor NoTrans NoTrans 3 1 2 1 (SpCsc csc_ex) 0 0 [1; 1] 1 0 [0; 0; 0] 1 = Ok (SpCsc csc_ex, [0; 0; 12]).
Proof. split; [apply valid_csc_check; reflexivity|]. split; [lia|]. split; vm_compute; reflexivity. Qed.

(* ------------------------------------------------------------------ *)
(** * C39: rejected products *)
(** What spmm checks. *)
Definition spmm_args_bad {T} (l : layout) (opA opB : op) (d n m : Z) (A : spmat T) (ro co ldb ldc : Z) : Prop :=
  sp_base A = BOne \/ ~ window_ok A (rows_before opA d m) (cols_before opA d m) ro co \/
  ldb < min_ld l (rows_before opB m n) (cols_before opB m n) \/ ldc < min_ld l d n.

(** Inconsistent arguments raise an exception for every content of every buffer, in
    particular when B and C are empty: no element is read or written before. *)
Theorem C39_spmm_rejects : forall {T} (O : ops T) sched ssort nt1 nt2 l opA opB d n m alpha (A : spmat T) ro co B ldb beta C ldc,
  spmm_args_bad l opA opB d n m A ro co ldb ldc ->
  left_spmm O sched ssort nt1 nt2 l opA opB d n m alpha A ro co B ldb beta C ldc = Throw.
Proof.
  intros T O sched ssort nt1 nt2 l opA opB d n m alpha A ro co B ldb beta C ldc.
  assert (Nt : forall A ro co, spmm_args_bad l NoTrans opB d n m A ro co ldb ldc ->
     left_spmm_notrans O sched ssort nt1 nt2 l opB d n m alpha A ro co B ldb beta C ldc = Throw).
  { clear A ro co. intros A ro co Bad. unfold left_spmm_notrans. destruct (base_eqb (sp_base A) BZero) eqn:Eb; [|reflexivity]. rewrite require_true. cbn [bind].
    match goal with |- bind ?a _ = _ => destruct a as [[]| |] eqn:Ed; cbn [bind]; [|reflexivity|] end.
    2: { exfalso. unfold require in Ed. destruct A; repeat match goal with H : context [if ?b then _ else _] |- _ => destruct b; cbn [bind] in H; try discriminate end. }
    assert (W : window_ok A d m ro co).
    { destruct A; repeat (apply bind_Ok in Ed as (? & R & Ed); apply require_Ok in R; rename R into R'; revert R'); intros; cbn [window_ok sp_rows sp_cols].
      - split; [apply Z.geb_le in R'|apply Z.geb_le in R'0]; lia.
      - rewrite Z.eqb_eq in *. auto.
      - rewrite Z.eqb_eq in *. auto. }
    destruct Bad as [Hb|[Hb|Hb]]; [rewrite Hb in Eb; discriminate|contradiction|].
    replace (match opB with NoTrans => (m, n, l) | Trans => (n, m, flip l) end) with (rows_before opB m n, cols_before opB m n, match opB with NoTrans => l | Trans => flip l end) by (now destruct opB).
    unfold scale_output. destruct l; cbn [min_ld] in Hb.
    - destruct (Z.geb_spec ldb (rows_before opB m n)); [|reflexivity]. destruct (Z.geb_spec ldc d); [lia|reflexivity].
    - destruct (Z.geb_spec ldc n); [|reflexivity]. destruct (Z.geb_spec ldb (cols_before opB m n)); [lia|reflexivity]. }
  intros Bad. destruct opA; cbn [left_spmm]; [now apply Nt|]. unfold spmm_args_bad in *. cbn [rows_before cols_before] in *.
  destruct A; cbn [sp_base] in Bad.
  - rewrite coo_transpose_eq. cbn [bind]. rewrite Nt; [reflexivity|]. destruct Bad as [H|[H|H]]; [left; exact H| |right; right; exact H].
    right. left. intros W. apply H. cbn in *. tauto.
  - cbn [transpose_as_csc bind]. rewrite Nt; [reflexivity|]. destruct Bad as [H|[H|H]]; [left; exact H| |right; right; exact H].
    right. left. intros W. apply H. cbn in *. tauto.
  - cbn [transpose_as_csr bind]. rewrite Nt; [reflexivity|]. destruct Bad as [H|[H|H]]; [left; exact H| |right; right; exact H].
    right. left. intros W. apply H. cbn in *. tauto.
Qed.
Print Assumptions C39_spmm_rejects.

(** Conversely consistent arguments are accepted, for well-formed operands. *)
Theorem C39_spmm_accepts : forall {T} (O : ops T), semiring O ->
  forall sched ssort nt l opA opB d n m alpha (A : spmat T) ro co B ldb beta C ldc,
  valid_schedule sched -> sort_ok ssort -> valid_sp A -> 0 <= d -> 0 <= n -> 0 <= m ->
  sp_safe nt l opA opB d n m A ro co ->
  fits_buffer l ldb (rows_before opB m n) (cols_before opB m n) (zlen B) -> fits_buffer l ldc d n (zlen C) ->
  (left_spmm O sched ssort nt nt l opA opB d n m alpha A ro co B ldb beta C ldc = Throw <-> spmm_args_bad l opA opB d n m A ro co ldb ldc).
Proof.
  intros T O L sched ssort nt l opA opB d n m alpha A ro co B ldb beta C ldc Hs Hss HA Hd Hn Hm Hsafe FB FC. split; [|apply C39_spmm_rejects].
  intros E. unfold spmm_args_bad. destruct (sp_base A) eqn:Eb; [|auto].
  right. left. intros W.
  destruct (left_spec O L ssort Hss sched nt l opA opB d n m alpha A ro co B ldb beta C ldc) as (A' & C' & E' & _); auto. congruence.
Qed.
Print Assumptions C39_spmm_accepts.

(** A sort flag that lies makes the exception come after C has been scaled: with the same
    arguments an empty C is an out-of-bounds access, so C was touched before the throw. *)
Theorem C39_late_exception_refuted :
  exists (A : coo_matrix Z) B C,
    valid_coo A /\ co_base A = BZero /\ co_nr A = 1 /\ co_nc A = 2 /\
    left_spmm zops zsched isort 1 1 ColMajor NoTrans NoTrans 1 1 2 1 (SpCoo A) 0 0 B 2 0 C 1 = Throw /\
    left_spmm zops zsched isort 1 1 ColMajor NoTrans NoTrans 1 1 2 1 (SpCoo A) 0 0 B 2 0 [] 1 = UB.
Proof.
  exists (Build_coo_matrix 1 2 false 2 BZero (Some [3; 4]) (Some [0; 0]) (Some [1; 0]) SCSC), [1; 1], [9].
  split; [apply valid_coo_check; reflexivity|]. do 3 (split; [reflexivity|]). split; vm_compute; reflexivity.
Qed.
Print Assumptions C39_late_exception_refuted.

Example C39_case :
  spmm_args_bad ColMajor NoTrans NoTrans 2 1 4 (SpCsr csr_ex) 0 0 4 2 /\
  spmm_args_bad ColMajor NoTrans NoTrans 2 1 3 (SpCsr csr_ex) 0 0 2 2 /\
  left_spmm zops zsched isort 1 1 ColMajor NoTrans NoTrans 2 1 3 1 (SpCsr csr_ex) 0 0 [] 2 0 [] 2 = Throw /\
  left_spmm zops zsched isort 1 1 ColMajor NoTrans NoTrans 2 1 3 1 (SpCsr csr_ex) 0 0 [] 3 0 [] 2 = UB.
Proof.
  split; [right; left; intros (H & H' & _); cbn in H'; discriminate|]. split; [right; right; left; cbn; lia|]. split; vm_compute; reflexivity.
Qed.
