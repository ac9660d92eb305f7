(** C66: products with a sparse matrix when the compiler contracts multiply-adds.

    Definitions read by these statements: those listed in PropsRoundFinite.v; [expr], [eops],
    [gives], [plain] (ContractModel.v); [lits] and [accurate] below. *)
From Coq Require Import ZArith Reals Lra Permutation.
From Flocq Require Import Core BinarySingleNaN.
From Verif Require Import Base Interleave Spec RngModel DenseModel DenseSpec SparseSkopModel SparseSpec PropsSparse SpFmtModel SpFmtSpec SpFmtProofs5 PropsSpFmt SpmmModel SpmmSpec SpmmProofs2 SpmmProofs5 PropsSpmm FloatModel FloatProofs2
  SketchModel SketchSpec SketchProofs SketchProofs2 SketchProofs5 SketchProofs6 ParamProofs RoundModel RoundSpec RoundSpec2 RoundProofs2 PropsRound RoundProofs4 RoundProofs5 ContractModel ContractProofs ContractProofs2.

Section Any.
Context {prec emax : Z} {pp : Prec_gt_0 prec} {pe : Prec_lt_emax prec emax}.
Local Notation bf := (binary_float prec emax).
Local Notation ex := (expr prec emax).

(** Pairs of numbers as pairs of expressions. *)
Definition lits (p : list (bf * bf)) : list (ex * ex) := map (fun r => (EVal (fst r), EVal (snd r))) p.
(** Every value that the entry e can have is accurate, in the sense of C63. *)
Definition accurate (alpha : bf) (p : list (bf * bf)) (beta c : bf) (e : ex) : Prop :=
  forall y, gives e y -> finite_near alpha p beta c y /\ surely_near alpha p beta c y.

(** left_spmm: C (d x n) = alpha*op(submat(A))*op(B) + beta*C with A sparse.  The matrices may
    contain anything; what is said of an entry needs only that the values contributing to it
    are numbers. *)
Theorem C66_left_contracted : forall sched nt ssort l opA opB d n m (alpha : bf) (A : spmat ex) ro co B ldb (beta : bf) C ldc,
  valid_schedule sched -> sort_ok ssort -> valid_sp A -> sp_base A = BZero -> 0 <= d -> 0 <= n -> 0 <= m ->
  window_ok A (rows_before opA d m) (cols_before opA d m) ro co ->
  (zero_f alpha \/ sp_safe nt l opA opB d n m A ro co /\ tight A opA ro co d n m) ->
  fits_buffer l ldb (rows_before opB m n) (cols_before opB m n) (zlen B) -> fits_buffer l ldc d n (zlen C) ->
  exists A' C', left_spmm eops sched ssort nt nt l opA opB d n m (EVal alpha) A ro co B ldb (EVal beta) C ldc = Ok (A', C') /\ same_sp A A' /\ others_kept l d n C ldc C' /\
    forall i j c p, 0 <= i < d -> 0 <= j < n -> get C (addr l ldc i j) = Some (EVal c) ->
    terms (op_ent opA (fun i k => at_pos A (ro + i) (co + k))) (op_ent opB (cell eops l ldb B)) m i j = lits p ->
    exists e, get C' (addr l ldc i j) = Some e /\ accurate alpha p beta c e.
Proof. intros. now apply contract_left. Qed.

(** Without contraction the entries are those of the IEEE run of C60 to C63, and contraction
    may always be left out.  The two sorts look at the indices only (h3 plain (r, c, v) is
    (r, c, plain v)). *)
Definition keeps_keys (ssort : (Z * Z * ex -> Z * Z * ex -> bool) -> list (Z * Z * ex) -> list (Z * Z * ex))
    (fsort : (Z * Z * bf -> Z * Z * bf -> bool) -> list (Z * Z * bf) -> list (Z * Z * bf)) : Prop :=
  forall l, fsort lt_csr (map (h3 plain) l) = map (h3 plain) (ssort lt_csr l) /\ fsort lt_csc (map (h3 plain) l) = map (h3 plain) (ssort lt_csc l).
Theorem C66_uncontracted : forall sched fsched nt ssort fsort l opA opB d n m (alpha : bf) (A : spmat ex) ro co B ldb (beta : bf) C ldc,
  valid_schedule sched -> valid_schedule fsched -> sort_ok ssort -> keeps_keys ssort fsort -> valid_sp A -> 0 <= m ->
  match left_spmm eops sched ssort nt nt l opA opB d n m (EVal alpha) A ro co B ldb (EVal beta) C ldc,
        left_spmm (fops prec emax) fsched fsort nt nt l opA opB d n m alpha (map_sp plain A) ro co (map plain B) ldb beta (map plain C) ldc with
  | Ok (_, C1), Ok (_, C2) => C2 = map plain C1 /\ Forall2 gives C1 C2
  | Throw, Throw => True | UB, UB => True | _, _ => False end.
Proof.
  intros sched fsched nt ssort fsort l opA opB d n m alpha A ro co B ldb beta C ldc Hs Hf Hss Hk HA Hm.
  pose proof (left_hom eops (fops prec emax) plain eq_refl (fun _ _ => eq_refl) (fun _ _ => eq_refl) (EVal alpha) (EVal beta) eq_refl eq_refl eq_refl ssort fsort Hk Hss
    sched fsched nt nt l opA opB d n m A ro co B ldb C ldc Hs Hf Hm) as H.
  assert (Ha : match A with SpCoo M => coo_arrays M | _ => True end) by (destruct A; auto; apply valid_coo_arrays; apply HA). specialize (H Ha). unfold same_C, orel in H. cbn [plain] in H.
  destruct (left_spmm eops _ _ _ _ _ _ _ _ _ _ _ _ _ _ _ _ _ _ _) as [[A1 C1]| |]; destruct (left_spmm (fops prec emax) _ _ _ _ _ _ _ _ _ _ _ _ _ _ _ _ _ _ _) as [[A2 C2]| |]; try exact H.
  cbn [snd] in H. split; [exact H|]. rewrite H. clear. induction C1 as [|e C1 IH]; constructor; auto. clear. induction e; cbn [plain]; now constructor.
Qed.

Context {Kt W F : Type}.
Variables (cast : W -> ex) (denv : dense_env Kt W ex) (fsched : schedule ex).
Variable senv : sparse_env Kt F ex.
Variables (jT : ex) (jZ : Z).
Variable sched : schedule (list ex).
Variable ssort : (Z * Z * ex -> Z * Z * ex -> bool) -> list (Z * Z * ex) -> list (Z * Z * ex).
Variable nt : Z.
Hypothesis Hf : valid_schedule fsched.
Hypothesis Hsched : valid_schedule sched.
Hypothesis Hsort : sort_ok ssort.

Let P alpha beta (q : list (ex * ex)) (c e : ex) : Prop := forall p c0, q = lits p -> c = EVal c0 -> accurate alpha p beta c0 e.
Let ok (q : list (ex * ex)) (c : ex) : Prop := True.
Let Sf l opA opB d n m (A : spmat ex) ro co : Prop := sp_safe nt l opA opB d n m A ro co /\ tight A opA ro co d n m.
Lemma left_any (alpha beta : bf) : forall l opA opB d n m A ro co B ldb C ldc,
  valid_sp A -> sp_base A = BZero -> 0 <= d -> 0 <= n -> 0 <= m -> window_ok A (rows_before opA d m) (cols_before opA d m) ro co ->
  (zero_f alpha \/ Sf l opA opB d n m A ro co) ->
  fits_buffer l ldb (rows_before opB m n) (cols_before opB m n) (zlen B) -> fits_buffer l ldc d n (zlen C) ->
  exists A' C', left_spmm eops sched ssort nt nt l opA opB d n m (EVal alpha) A ro co B ldb (EVal beta) C ldc = Ok (A', C') /\ same_sp A A' /\
    close (P alpha beta) ok l d n (terms (op_ent opA (fun i k => at_pos A (ro + i) (co + k))) (op_ent opB (cell eops l ldb B)) m) C ldc C'.
Proof.
  intros l opA opB d n m A ro co B ldb C ldc HA Hb Hd Hn Hm Hwi Hs FB FC.
  destruct (C66_left_contracted sched nt ssort l opA opB d n m alpha A ro co B ldb beta C ldc) as (A' & C' & E & SA & Lc & G); auto.
  exists A', C'. split; [exact E|]. split; [exact SA|]. split; [exact Lc|]. intros i j c q Hi Hj Gc Eq _.
  destruct Lc as [Ln _]. pose proof (get_Some_lt _ _ _ Gc) as Hr. destruct (get_lt C' (addr l ldc i j)) as [e Ge]; [lia|]. exists e. split; [exact Ge|].
  intros p c0 -> ->. destruct (G i j c0 p Hi Hj Gc (eq_sym Eq)) as (e' & Ge' & H). rewrite Ge in Ge'. injection Ge' as <-. exact H.
Qed.

(** right_spmm: C (m x d) = alpha*op(A)*op(submat(B)) + beta*C with B sparse. *)
Theorem C66_right_contracted : forall l opA opB m d n alpha A lda (B : spmat ex) ro co beta C ldc,
  valid_sp B -> sp_base B = BZero -> 0 <= m -> 0 <= d -> 0 <= n ->
  window_ok B (rows_before opB n d) (cols_before opB n d) ro co ->
  (zero_f alpha \/ sp_safe nt (flip l) (flip_op opB) opA d m n B ro co /\ tight B (flip_op opB) ro co d m n) ->
  fits_buffer l lda (rows_before opA m n) (cols_before opA m n) (zlen A) -> fits_buffer l ldc m d (zlen C) ->
  exists B' C', right_spmm eops sched ssort nt nt l opA opB m d n (EVal alpha) A lda B ro co (EVal beta) C ldc = Ok (B', C') /\ same_sp B B' /\ others_kept l m d C ldc C' /\
    forall i j c p, 0 <= i < m -> 0 <= j < d -> get C (addr l ldc i j) = Some (EVal c) ->
    terms (fun j k => op_ent opB (fun i k => at_pos B (ro + i) (co + k)) k j) (fun k i => op_ent opA (cell eops l lda A) i k) n j i = lits p ->
    exists e, get C' (addr l ldc i j) = Some e /\ accurate alpha p beta c e.
Proof.
  intros l opA opB m d n alpha A lda B ro co beta C ldc HB Hb Hm Hd Hn Hwi Hs FA FC.
  destruct (Hright sched ssort nt (P alpha beta) ok (EVal alpha) (EVal beta) (zero_f alpha) Sf (left_any alpha beta) l opA opB m d n A lda B ro co C ldc HB Hb Hm Hd Hn Hwi Hs FA FC) as (B' & C' & E & SA & Lc & G).
  exists B', C'. split; [exact E|]. split; [exact SA|]. split; [exact Lc|]. intros i j c p Hi Hj Gc Ep. destruct (G i j (EVal c) _ Hi Hj Gc eq_refl I) as (e & Ge & H). exists e. split; [exact Ge|]. now apply H.
Qed.

(** Sketching sparse data with a dense operator, from the left and from the right. *)
Theorem C66_left_sparse_sketch_contracted : forall l opS opA d n m (alpha : bf) (S : dense_skop Kt ex) ro co A (beta : bf) B ldb a,
  wf_env denv -> dense_denotes cast denv S a ->
  in_matrix (dd_rows (ds_dist S)) (dd_cols (ds_dist S)) (rows_before opS d m) (cols_before opS d m) ro co ->
  (ds_buff S = None -> 1 <= d /\ 1 <= m) -> 0 <= n ->
  valid_sp A -> sp_base A = BZero -> sp_window A (rows_before opA m n) (cols_before opA m n) 0 0 ->
  zero_f alpha \/ (sp_safe nt (flip l) (flip_op opA) (if layout_eqb (ds_layout S) l then opS else flip_op opS) n d m A 0 0 /\ tight A (flip_op opA) 0 0 n d m) ->
  fits_buffer l ldb d n (zlen B) ->
  exists A' B', sketch_sparse_left eops cast denv fsched sched ssort nt l opS opA d n m (EVal alpha) S ro co A (EVal beta) B ldb = Ok (A', B') /\ same_sp A A' /\ others_kept l d n B ldb B' /\
    forall i j c p, 0 <= i < d -> 0 <= j < n -> get B (addr l ldb i j) = Some (EVal c) ->
    terms (fun j k => op_ent opA (at_pos A) k j) (fun k i => op_ent opS (win a ro co) i k) m j i = lits p ->
    exists e, get B' (addr l ldb i j) = Some e /\ accurate alpha p beta c e.
Proof.
  intros l opS opA d n m alpha S ro co A beta B ldb a Hw HD Hin Hne Hn HA Hb Hwi Hs FB. unfold sketch_sparse_left.
  destruct (lsksp3_close cast denv fsched sched ssort nt Hw Hf (P alpha beta) ok (EVal alpha) (EVal beta) (zero_f alpha) Sf (left_any alpha beta) l opS opA d n m S ro co A 0 0 B ldb a HD Hin Hne Hn HA Hb Hwi Hs FB)
    as (A' & B' & E & HS & HO & G). exists A', B'. split; [exact E|]. split; [exact HS|]. split; [exact HO|]. intros i j c p Hi Hj Gc Ep.
  destruct (G i j (EVal c) _ Hi Hj Gc eq_refl I) as (e & Ge & H). exists e. split; [exact Ge|]. now apply H.
Qed.
Theorem C66_right_sparse_sketch_contracted : forall l opA opS m d n (alpha : bf) A (S : dense_skop Kt ex) ro co (beta : bf) B ldb a,
  wf_env denv -> dense_denotes cast denv S a ->
  in_matrix (dd_rows (ds_dist S)) (dd_cols (ds_dist S)) (rows_before opS n d) (cols_before opS n d) ro co ->
  (ds_buff S = None -> 1 <= n /\ 1 <= d) -> 0 <= m ->
  valid_sp A -> sp_base A = BZero -> sp_window A (rows_before opA m n) (cols_before opA m n) 0 0 ->
  zero_f alpha \/ (sp_safe nt l opA (if layout_eqb (ds_layout S) l then opS else flip_op opS) m d n A 0 0 /\ tight A opA 0 0 m d n) ->
  fits_buffer l ldb m d (zlen B) ->
  exists A' B', sketch_sparse_right eops cast denv fsched sched ssort nt l opA opS m d n (EVal alpha) A S ro co (EVal beta) B ldb = Ok (A', B') /\ same_sp A A' /\ others_kept l m d B ldb B' /\
    forall i j c p, 0 <= i < m -> 0 <= j < d -> get B (addr l ldb i j) = Some (EVal c) ->
    terms (op_ent opA (at_pos A)) (op_ent opS (win a ro co)) n i j = lits p ->
    exists e, get B' (addr l ldb i j) = Some e /\ accurate alpha p beta c e.
Proof.
  intros l opA opS m d n alpha A S ro co beta B ldb a Hw HD Hin Hne Hm HA Hb Hwi Hs FB. unfold sketch_sparse_right.
  destruct (rsksp3_close cast denv fsched sched ssort nt Hw Hf (P alpha beta) ok (EVal alpha) (EVal beta) (zero_f alpha) Sf (left_any alpha beta) l opA opS m d n A 0 0 S ro co B ldb a HD Hin Hne Hm HA Hb Hwi Hs FB)
    as (A' & B' & E & HS & HO & G). exists A', B'. split; [exact E|]. split; [exact HS|]. split; [exact HO|]. intros i j c p Hi Hj Gc Ep.
  destruct (G i j (EVal c) _ Hi Hj Gc eq_refl I) as (e & Ge & H). exists e. split; [exact Ge|]. now apply H.
Qed.

(** Sketching dense data with a sparse operator: from the left, materialised or not, and from
    the right, materialised (C43). *)
Lemma left_good66 (alpha beta : bf) : forall l opA opB d n m (M : coo_matrix ex) ro co B ldb C ldc,
    valid_coo M -> honest_sort M -> co_base M = BZero -> 0 <= d -> 0 <= n -> 0 <= m -> rows_before opA d m <= co_nr M -> cols_before opA d m <= co_nc M ->
    (zero_f alpha \/ sp_safe nt l opA opB d n m (SpCoo M) ro co /\ tight (SpCoo M) opA ro co d n m) ->
    fits_buffer l ldb (rows_before opB m n) (cols_before opB m n) (zlen B) -> fits_buffer l ldc d n (zlen C) ->
    exists M' C', left_spmm eops sched ssort nt nt l opA opB d n m (EVal alpha) (SpCoo M) ro co B ldb (EVal beta) C ldc = Ok (SpCoo M', C') /\ same_sp (SpCoo M) (SpCoo M') /\
      good (fun _ _ p _ c y => P alpha beta p c y) (fun _ _ _ _ => True) (EVal alpha) (EVal beta) l d n m (op_ent opA (fun i k => coo_at M (ro + i) (co + k))) (op_ent opB (cell eops l ldb B)) C ldc C'.
Proof.
  intros l opA opB d n m M ro co B ldb C ldc HV Hh Hb Hd Hn Hm Hr Hc Hs FB FC.
  destruct (left_any alpha beta l opA opB d n m (SpCoo M) ro co B ldb C ldc) as (A' & C' & E & SA & Lc & G); auto.
  { split; assumption. } { split; assumption. }
  destruct A' as [M'| |]; try contradiction. exists M', C'. split; [exact E|]. split; [exact SA|]. split; [exact Lc|].
  intros i j c p Hi Hj Gc Ep _. now apply (G i j c p Hi Hj Gc).
Qed.
Theorem C66_left_sketch_contracted : forall l opS opA d n m (alpha : bf) (S : sparse_skop Kt ex) ro co A lda (beta : bf) B ldb,
  sparse_valid senv S ->
  in_matrix (sd_rows (ss_dist S)) (sd_cols (ss_dist S)) (rows_before opS d m) (cols_before opS d m) ro co -> 0 <= n ->
  zero_f alpha \/ spread (sparse_at senv S) opS d n m ro co ->
  fits_buffer l lda (rows_before opA m n) (cols_before opA m n) (zlen A) -> fits_buffer l ldb d n (zlen B) ->
  exists S' B', sketch_general_left eops cast denv fsched senv jT jZ sched ssort nt l opS opA d n m (EVal alpha) (SkSparse S) ro co A lda (EVal beta) B ldb = Ok (SkSparse S', B') /\
    (if ss_nnz S <? 0 then S' = S else same_skop S S') /\ others_kept l d n B ldb B' /\
    forall i j c p, 0 <= i < d -> 0 <= j < n -> get B (addr l ldb i j) = Some (EVal c) ->
    terms (op_ent opS (win (sparse_at senv S) ro co)) (op_ent opA (cell eops l lda A)) m i j = lits p ->
    exists e, get B' (addr l ldb i j) = Some e /\ accurate alpha p beta c e.
Proof.
  intros l opS opA d n m alpha S ro co A lda beta B ldb HV (I1 & I2 & I3 & I4 & I5 & I6) Hn Hsp FA FB.
  destruct (lskges_good senv jT jZ sched ssort nt _ _ (EVal alpha) (EVal beta) (zero_f alpha) (left_good66 alpha beta) l opS opA d n m S ro co A lda B ldb) as (S' & B' & E & HS & [G1 G2]); auto;
    try (destruct opS; cbn [rows_before cols_before] in *; lia).
  exists S', B'. cbn [sketch_general_left]. rewrite E. cbn [bind]. split; [reflexivity|]. split; [exact HS|]. split; [exact G1|].
  intros i j c p Hi Hj Gc Ep. destruct (G2 i j (EVal c) _ Hi Hj Gc eq_refl I) as (e & Ge & H). exists e. split; [exact Ge|]. now apply H.
Qed.
Theorem C66_right_sketch_contracted : forall l opA opS m d n (alpha : bf) A lda (S : sparse_skop Kt ex) ro co (beta : bf) B ldb,
  0 < ss_nnz S -> valid_coo (skop_coo S) ->
  in_matrix (sd_rows (ss_dist S)) (sd_cols (ss_dist S)) (rows_before opS n d) (cols_before opS n d) ro co -> 0 <= m ->
  zero_f alpha \/ spread (coo_at (skop_coo S)) (flip_op opS) d m n ro co ->
  fits_buffer l lda (rows_before opA m n) (cols_before opA m n) (zlen A) -> fits_buffer l ldb m d (zlen B) ->
  exists S' B', sketch_general_right eops cast denv fsched senv jT jZ sched ssort nt l opA opS m d n (EVal alpha) A lda (SkSparse S) ro co (EVal beta) B ldb = Ok (SkSparse S', B') /\
    same_skop S S' /\ others_kept l m d B ldb B' /\
    forall i j c p, 0 <= i < m -> 0 <= j < d -> get B (addr l ldb i j) = Some (EVal c) ->
    terms (fun j k => op_ent opS (win (coo_at (skop_coo S)) ro co) k j) (fun k i => op_ent opA (cell eops l lda A) i k) n j i = lits p ->
    exists e, get B' (addr l ldb i j) = Some e /\ accurate alpha p beta c e.
Proof.
  intros l opA opS m d n alpha A lda S ro co beta B ldb Hz HV (I1 & I2 & I3 & I4 & I5 & I6) Hm Hsp FA FB.
  destruct (rskges_good senv jT jZ sched ssort nt _ _ (EVal alpha) (EVal beta) (zero_f alpha) (left_good66 alpha beta) l opA opS m d n A lda S ro co B ldb) as (S' & B' & E & HS & [[G0 G1] G2]); auto;
    try (destruct opS; cbn [rows_before cols_before] in *; lia).
  exists S', B'. cbn [sketch_general_right]. rewrite E. cbn [bind]. split; [reflexivity|]. split; [exact HS|].
  split. { split; [exact G0|]. intros q Hq. apply G1. intros i j Hi Hj. rewrite addr_flip. now apply Hq. }
  intros i j c p Hi Hj Gc Ep. rewrite <- addr_flip in Gc |- *. destruct (G2 j i (EVal c) _ Hj Hi Gc eq_refl I) as (e & Ge & H). exists e. split; [exact Ge|]. apply H; [|reflexivity]. rewrite <- Ep.
  unfold terms. rewrite !flat_map_concat_map. f_equal. apply map_ext. intros k.
  replace (op_ent opA (cell eops (flip l) lda A) k i) with (op_ent opA (cell eops l lda A) i k); [destruct opS; reflexivity|].
  destruct opA; cbn [op_ent]; unfold cell; now rewrite addr_flip.
Qed.
End Any.
Print Assumptions C66_left_contracted.
Print Assumptions C66_uncontracted.
Print Assumptions C66_right_contracted.
Print Assumptions C66_left_sparse_sketch_contracted.
Print Assumptions C66_right_sparse_sketch_contracted.
Print Assumptions C66_left_sketch_contracted.
Print Assumptions C66_right_sketch_contracted.

(** Concrete case: [0.1 0 0.3] * [0.1; NaN; 0.1] - 0.04 in double, CSR.  Without contraction the
    result is 0; with contraction of every sum it is about 1.7e-18.  Both are accurate. *)
Fixpoint fused {prec emax} {pp : Prec_gt_0 prec} {pe : Prec_lt_emax prec emax} (e : expr prec emax) : binary_float prec emax :=
  match e with
  | EVal x => x
  | EAdd c (EMul a b) => Bfma mode_NE (fused a) (fused b) (fused c)
  | EAdd a b => Bplus mode_NE (fused a) (fused b)
  | EMul a b => Bmult mode_NE (fused a) (fused b)
  end.
Lemma fused_gives {prec emax} {pp : Prec_gt_0 prec} {pe : Prec_lt_emax prec emax} (e : expr prec emax) : gives e (fused e).
Proof.
  enough (G : gives e (fused e) /\ match e with EMul a b => gives a (fused a) /\ gives b (fused b) | _ => True end) by apply G.
  induction e as [x|a [Ha _] b [Hb Hm]|a [Ha _] b [Hb _]]; (split; [|easy || (split; assumption)]); [constructor| |now apply g_mul].
  destruct b as [x|b1 b2|b1 b2]; [now apply g_add|now apply g_add|]. now apply g_fma_r.
Qed.
Lemma isort_keys {prec emax} {pp : Prec_gt_0 prec} {pe : Prec_lt_emax prec emax} : keeps_keys (@isort (Z * Z * expr prec emax)) isort.
Proof.
  assert (G : forall lt lt', (forall a b : Z * Z * expr prec emax, lt' (h3 plain a) (h3 plain b) = lt a b) -> forall l, isort lt' (map (h3 plain) l) = map (h3 plain) (isort lt l)).
  { intros lt lt' H. assert (I : forall x l, insert_by lt' (h3 plain x) (map (h3 plain) l) = map (h3 plain) (insert_by lt x l)).
    { intros x. induction l as [|y l IH]; [reflexivity|]. cbn [map insert_by]. rewrite H. destruct (lt y x); cbn [map]; congruence. }
    induction l as [|x l IH]; [reflexivity|]. cbn [map isort fold_right]. fold (isort lt' (map (h3 plain) l)) (isort lt l). now rewrite IH, I. }
  intros l. split; apply G; intros [[r c] v] [[r' c'] v']; reflexivity.
Qed.
Definition csr_e : spmat (expr 53 1024) := map_sp EVal (SpCsr csr_f).
Definition m4 : b64 := div64 (of_Z64 (-4)) (of_Z64 100).
Definition c66_out : outcome (spmat (expr 53 1024) * list (expr 53 1024)) :=
  left_spmm eops seq_schedule isort 1 1 ColMajor NoTrans NoTrans 1 1 3 (EVal (of_Z64 1)) csr_e 0 0 (map EVal [tenth; B754_nan; tenth]) 3 (EVal (of_Z64 1)) [EVal m4] 1.
Example C66_case :
  valid_sp csr_e /\ sp_safe 1 ColMajor NoTrans NoTrans 1 1 3 csr_e 0 0 /\ tight csr_e NoTrans 0 0 1 1 3 /\
  fits_buffer ColMajor 3 3 1 3 /\ fits_buffer ColMajor 1 1 1 1 /\ keeps_keys (@isort (Z * Z * expr 53 1024)) isort /\
  terms (at_pos csr_e) (cell eops ColMajor 3 (map EVal [tenth; B754_nan; tenth])) 3 0 0 = lits [(tenth, tenth); (div64 (of_Z64 3) (of_Z64 10), tenth)] /\
  exists A e, c66_out = Ok (A, [e]) /\ gives e (plain e) /\ gives e (fused e) /\
    B2SF (plain e) = SpecFloat.S754_zero false /\ B2SF (fused e) = SpecFloat.S754_finite false 8646911284551352 (-112).
Proof.
  split; [apply valid_map; apply valid_csr_check; reflexivity|]. split; [right; vm_compute; congruence|]. split; [exact I|].
  split; [split; [cbn; lia|intros i j Hi Hj; cbn; lia]|]. split; [split; [cbn; lia|intros i j Hi Hj; cbn; lia]|]. split; [apply isort_keys|]. split; [reflexivity|].
  assert (H : match c66_out with Ok (_, [e]) => B2SF (plain e) = SpecFloat.S754_zero false /\ B2SF (fused e) = SpecFloat.S754_finite false 8646911284551352 (-112) | _ => False end) by (vm_compute; split; reflexivity).
  destruct c66_out as [[A [|e [|? ?]]]| |]; try contradiction. exists A, e. split; [reflexivity|]. split; [clear; induction e; cbn [plain]; now constructor|]. split; [apply fused_gives|exact H].
Qed.
