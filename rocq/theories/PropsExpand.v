(** C59: products with a sparse matrix agree with products with its dense expansion.

    Definitions read by these statements: [sp_at], [to_dense] below; [left_spmm] (SpmmModel.v),
    [gemm] (SketchModel.v, the contract of the BLAS); [valid_sp], [sp_safe], [fits_buffer],
    [rows_before], [cols_before], [sumT], [semiring] (SpmmSpec.v). *)
From Coq Require Import Permutation.
From Verif Require Import Base Interleave Spec RngModel DenseModel SparseSkopModel SparseSpec SpFmtModel SpFmtSpec SpFmtProofs SpFmtProofs2 PropsSpFmt SpmmModel SpmmSpec SpmmProofs5 PropsSpmm
  UtilModel SketchModel SketchProofs SketchProofs4.

(** The values stored at (i,j), in storage order. *)
Definition sp_at {T} (A : spmat T) (i j : Z) : list T :=
  match A with SpCoo M => coo_at M i j | SpCsr M => csr_at M i j | SpCsc M => csc_at M i j end.
(** coo_to_dense, csr_to_dense, csc_to_dense by layout (coo_matrix.hh 425-432, csr_matrix.hh
    245-253, csc_matrix.hh 236-244). *)
Definition to_dense {T} (zero : T) (A : spmat T) (l : layout) (out : list T) : outcome (list T) :=
  match A with
  | SpCoo M => coo_to_dense zero M (layout_eqb l ColMajor) out
  | SpCsr M => csr_to_dense zero M (layout_eqb l ColMajor) out
  | SpCsc M => csc_to_dense zero M (layout_eqb l ColMajor) out
  end.

Lemma to_dense_spec {T} (zero : T) (A : spmat T) l out :
  valid_sp A -> sp_base A = BZero -> (forall M, A = SpCsr M -> sp_cols A <= 2 ^ 31) -> zlen out = sp_rows A * sp_cols A ->
  exists D, to_dense zero A l out = Ok D /\ zlen D = zlen out /\
    forall i j, 0 <= i < sp_rows A -> 0 <= j < sp_cols A ->
      get D (addr l (min_ld l (sp_rows A) (sp_cols A)) i j) = Some (last (sp_at A i j) zero).
Proof.
  intros HV Hb Hc Lo.
  assert (Hr : 0 <= sp_rows A /\ 0 <= sp_cols A).
  { destruct A as [M|M|M]; cbn [valid_sp sp_rows sp_cols] in *; [destruct HV as [HV _]|..]; destruct HV as (? & ? & _); auto. }
  destruct (strides_ok (layout_eqb l ColMajor) (sp_rows A) (sp_cols A) (zlen out)) as [S1 S2]; [apply Hr|apply Hr|lia|].
  set (s := strides (layout_eqb l ColMajor) (sp_rows A) (sp_cols A)) in *.
  assert (AD : forall i j, addr l (min_ld l (sp_rows A) (sp_cols A)) i j = i * fst s + j * snd s).
  { intros i j. unfold s. destruct l; cbn; lia. }
  assert (G : exists D, to_dense zero A l out = Ok D /\ dense_result zero (sp_at A) (sp_rows A) (sp_cols A) (fst s) (snd s) out D).
  { destruct A as [M|M|M]; cbn [valid_sp sp_base sp_rows sp_cols to_dense sp_at] in *.
    - unfold coo_to_dense. fold s. rewrite (surjective_pairing s). apply coo_to_dense_spec; auto. apply HV.
    - unfold csr_to_dense. fold s. rewrite (surjective_pairing s). apply csr_to_dense_spec; auto. now apply (Hc M).
    - unfold csc_to_dense. fold s. rewrite (surjective_pairing s). apply csc_to_dense_spec; auto. }
  destruct G as (D & E & L1 & G & _). exists D. split; [exact E|]. split; [exact L1|]. intros i j Hi Hj. rewrite AD. now apply G.
Qed.

Lemma last_sum {T} (O : ops T) : semiring O -> forall l, (length l <= 1)%nat -> sumT O l = last l (o_zero O).
Proof.
  intros L [|x [|y l]]; cbn; intros H; try lia; [reflexivity|]. rewrite (sr_add_comm O L). apply (sr_add_0_l O L).
Qed.

Lemma dense_fits_min l r c len : 0 <= r -> 0 <= c -> len = r * c -> fits_buffer l (min_ld l r c) r c len.
Proof. intros Hr Hc ->. split; [lia|]. intros i j Hi Hj. destruct l; cbn [addr min_ld]; nia. Qed.

Lemma gemm_result_ext {T} (O : ops T) l d n m alpha beta a a' b C ldc C' :
  (forall i k, 0 <= i < d -> 0 <= k < m -> a i k = a' i k) ->
  gemm_result O l d n m alpha beta a b C ldc C' -> gemm_result O l d n m alpha beta a' b C ldc C'.
Proof.
  intros H (L1 & G & U). split; [exact L1|]. split; [|exact U]. intros i j x Hi Hj Gx. rewrite (G i j x Hi Hj Gx). do 3 f_equal.
  unfold bigsum. f_equal. apply map_ext_in. intros k Hk. apply in_range in Hk. now rewrite H.
Qed.

(** Matrices that store every position at most once: left_spmm gives exactly the output that
    gemm gives for the dense expansion, in every format, layout and with every op flag.
    Partial: products outside [sp_safe] are undefined (C33-C35) and repeated positions are
    treated differently (C59_repeated_positions_refuted). *)
Theorem C59_product_is_product_of_expansion_partial : forall {T} (O : ops T), semiring O ->
  forall sched nt ssort l opA opB d n m alpha (A : spmat T) B ldb beta C ldc out,
  valid_schedule sched -> sort_ok ssort -> valid_sp A -> sp_base A = BZero ->
  sp_rows A = rows_before opA d m -> sp_cols A = cols_before opA d m -> (forall M, A = SpCsr M -> sp_cols A <= 2 ^ 31) -> 0 <= n ->
  (forall i j, 0 <= i < sp_rows A -> 0 <= j < sp_cols A -> (length (sp_at A i j) <= 1)%nat) ->
  (alpha = o_zero O \/ sp_safe nt l opA opB d n m A 0 0) ->
  fits_buffer l ldb (rows_before opB m n) (cols_before opB m n) (zlen B) -> fits_buffer l ldc d n (zlen C) ->
  zlen out = sp_rows A * sp_cols A ->
  exists D A' C',
    to_dense (o_zero O) A l out = Ok D /\
    left_spmm O sched ssort nt nt l opA opB d n m alpha A 0 0 B ldb beta C ldc = Ok (A', C') /\
    gemm O l opA opB d n m alpha D (min_ld l (sp_rows A) (sp_cols A)) B ldb beta C ldc = Ok C'.
Proof.
  intros T O L sched nt ssort l opA opB d n m alpha A B ldb beta C ldc out Hs Hss HV Hb Er Ec H31 Hn Hone Hsafe FB FC Lo.
  assert (Hr : 0 <= sp_rows A /\ 0 <= sp_cols A).
  { destruct A as [M|M|M]; cbn [valid_sp sp_rows sp_cols] in *; [destruct HV as [HV _]|..]; destruct HV as (? & ? & _); auto. }
  assert (Hd : 0 <= d /\ 0 <= m) by (rewrite Er, Ec in Hr; destruct opA; cbn in Hr; lia).
  destruct (to_dense_spec (o_zero O) A l out HV Hb H31 Lo) as (D & ED & LD & GD).
  destruct (left_spec O L ssort Hss sched nt l opA opB d n m alpha A 0 0 B ldb beta C ldc) as (A' & C' & E & HS & HG); auto; try lia.
  { rewrite <- Er, <- Ec. destruct A; cbn; auto. split; lia. }
  destruct (gemm_spec O L l opA opB d n m alpha D (min_ld l (sp_rows A) (sp_cols A)) B ldb beta C ldc) as (C2 & E2 & HG2); auto; try lia.
  { rewrite <- Er, <- Ec. apply dense_fits_min; lia. }
  exists D, A', C'. split; [exact ED|]. split; [exact E|]. rewrite E2. f_equal.
  apply (gemm_result_eq O l d n m alpha beta (op_ent opA (cell O l (min_ld l (sp_rows A) (sp_cols A)) D)) (op_ent opB (cell O l ldb B)) C ldc); [exact FC|exact HG2|].
  eapply gemm_result_ext; [|exact HG]. intros i k Hi Hk.
  assert (X : forall i k, 0 <= i < sp_rows A -> 0 <= k < sp_cols A -> sp_entry O A (0 + i) (0 + k) = cell O l (min_ld l (sp_rows A) (sp_cols A)) D i k).
  { intros i' k' Hi' Hk'. unfold cell. rewrite GD by assumption. rewrite <- (last_sum O L) by now apply Hone. rewrite !Z.add_0_l. destruct A; reflexivity. }
  destruct opA; cbn [op_ent rows_before cols_before] in *; apply X; rewrite ?Er, ?Ec; assumption.
Qed.
Print Assumptions C59_product_is_product_of_expansion_partial.

(** Compressing a dense matrix without loss (tolerance below every non-zero magnitude) and
    multiplying is multiplying with the dense matrix: for CSR untransposed and for CSC
    transposed this holds for all inputs. *)
Theorem C59_compress_then_multiply : forall {T} (O : ops T), semiring O ->
  forall sched nt ssort (big : T -> bool) l opB d n m alpha (mat : list T) B ldb beta C ldc,
  valid_schedule sched -> sort_ok ssort -> (forall x, big x = false -> x = o_zero O) ->
  0 <= d -> 0 <= m <= 2 ^ 31 -> 0 <= n -> zlen mat = d * m ->
  fits_buffer l ldb (rows_before opB m n) (cols_before opB m n) (zlen B) -> fits_buffer l ldc d n (zlen C) ->
  (exists M A' C', dense_to_csr (o_zero O) big (layout_eqb l ColMajor) mat (mk_csr d m) = Ok M /\
     left_spmm O sched ssort nt nt l NoTrans opB d n m alpha (SpCsr M) 0 0 B ldb beta C ldc = Ok (A', C') /\
     gemm O l NoTrans opB d n m alpha mat (min_ld l d m) B ldb beta C ldc = Ok C') /\
  (exists M A' C', dense_to_csc (o_zero O) big (layout_eqb l ColMajor) mat (mk_csc m d) = Ok M /\
     left_spmm O sched ssort nt nt l Trans opB d n m alpha (SpCsc M) 0 0 B ldb beta C ldc = Ok (A', C') /\
     gemm O l Trans opB d n m alpha mat (min_ld l m d) B ldb beta C ldc = Ok C').
Proof.
  intros T O L sched nt ssort big l opB d n m alpha mat B ldb beta C ldc Hs Hss Hz Hd Hm Hn Lm FB FC. set (cm := layout_eqb l ColMajor). split.
  - destruct (strides_ok cm d m (zlen mat) Hd ltac:(lia) ltac:(lia)) as [S1 _]. set (s := strides cm d m) in *.
    destruct (dense_to_csr_spec (o_zero O) big (val_of (o_zero O) mat (fst s) (snd s)) mat d m (fst s) (snd s)) as (M & E & E1 & E2 & _ & Eb & _ & V & Or & A); auto; try lia.
    { now apply val_of_get. }
    assert (EM : dense_to_csr (o_zero O) big cm mat (mk_csr d m) = Ok M).
    { unfold dense_to_csr. cbn [mk_csr cr_nr cr_nc]. fold s. now rewrite (surjective_pairing s). }
    destruct (C25_zero_tolerance_identity_partial (o_zero O) (o_zero O) 0 big cm d m mat mat Hz Hd Hm Lm Lm) as (_ & I & _). rewrite EM in I. cbn [bind] in I.
    destruct (C59_product_is_product_of_expansion_partial O L sched nt ssort l NoTrans opB d n m alpha (SpCsr M) B ldb beta C ldc mat) as (D & A' & C' & ED & EL & EG); auto.
    { cbn [sp_cols]. intros. lia. }
    { cbn [sp_rows sp_cols sp_at]. rewrite E1, E2. intros i j Hi Hj. rewrite A by assumption. destruct (big _); cbn; lia. }
    { right. right. lia. }
    { cbn [sp_rows sp_cols]. now rewrite E1, E2. }
    cbn [to_dense] in ED. fold cm in ED. rewrite I in ED. injection ED as <-. cbn [sp_rows sp_cols] in EG. rewrite E1, E2 in EG.
    now exists M, A', C'.
  - destruct (strides_ok cm m d (zlen mat) ltac:(lia) Hd ltac:(lia)) as [S1 _]. set (s := strides cm m d) in *.
    destruct (dense_to_csc_spec (o_zero O) big (val_of (o_zero O) mat (fst s) (snd s)) mat m d (fst s) (snd s)) as (M & E & E1 & E2 & _ & Eb & _ & V & Or & A); auto; try lia.
    { now apply val_of_get. }
    assert (EM : dense_to_csc (o_zero O) big cm mat (mk_csc m d) = Ok M).
    { unfold dense_to_csc. cbn [mk_csc cc_nr cc_nc]. fold s. now rewrite (surjective_pairing s). }
    destruct (strides_ok cm m d (zlen mat) ltac:(lia) Hd ltac:(lia)) as [_ S3]. fold s in S3.
    destruct (C59_product_is_product_of_expansion_partial O L sched nt ssort l Trans opB d n m alpha (SpCsc M) B ldb beta C ldc mat) as (D & A' & C' & ED & EL & EG); auto.
    { discriminate. }
    { cbn [sp_rows sp_cols sp_at]. rewrite E1, E2. intros i j Hi Hj. rewrite A by assumption. destruct (big _); cbn; lia. }
    { right. right. lia. }
    { cbn [sp_rows sp_cols]. rewrite E1, E2. lia. }
    destruct (C25_dense_csc_dense (o_zero O) big m d (fst s) (snd s) (fst s) (snd s) mat mat) as (M2 & o & F1 & _ & _ & _ & _ & F2 & Th); auto; try lia.
    rewrite E in F1. injection F1 as <-.
    cbn [to_dense] in ED. fold cm in ED. unfold csc_to_dense in ED. rewrite E1, E2 in ED. fold s in ED. rewrite (surjective_pairing s), F2 in ED. injection ED as <-.
    assert (o = mat) as -> by (apply (thresholded_identity (o_zero O) big m d cm mat mat o); auto; lia).
    cbn [sp_rows sp_cols] in EG. rewrite E1, E2 in EG. now exists M, A', C'.
Qed.
Print Assumptions C59_compress_then_multiply.

(** ** Repeated positions *)
Section Unit.
  Context {T : Type}.
  Variable O : ops T.
  Hypothesis L : semiring O.
  (** The k0-th unit vector of length m. *)
  Definition unit_vec (m k0 : Z) : list T := map (fun k => if k =? k0 then o_one O else o_zero O) (range 0 m).

  Lemma mul_0_r x : o_mul O x (o_zero O) = o_zero O.
  Proof. rewrite (sr_mul_comm O L). apply (sr_mul_0_l O L). Qed.
  Lemma mul_1_r x : o_mul O x (o_one O) = x.
  Proof. rewrite (sr_mul_comm O L). apply (sr_mul_1_l O L). Qed.
  Lemma add_0_r x : o_add O x (o_zero O) = x.
  Proof. rewrite (sr_add_comm O L). apply (sr_add_0_l O L). Qed.
  Lemma unit_sum (f : Z -> T) l k0 : NoDup l ->
    sumT O (map (fun k => o_mul O (f k) (if k =? k0 then o_one O else o_zero O)) l) = if in_dec Z.eq_dec k0 l then f k0 else o_zero O.
  Proof.
    induction l as [|x l IH]; intros N; [reflexivity|]. inversion N as [|? ? N1 N2]; subst. cbn [map sumT fold_right].
    change (fold_right _ _ ?z) with (sumT O z). rewrite IH by exact N2. destruct (Z.eqb_spec x k0) as [->|Ne].
    - rewrite mul_1_r. destruct (in_dec Z.eq_dec k0 l) as [H|H]; [contradiction|].
      destruct (in_dec Z.eq_dec k0 (k0 :: l)) as [H'|H']; [apply add_0_r|exfalso; apply H'; now left].
    - rewrite mul_0_r, (sr_add_0_l O L). destruct (in_dec Z.eq_dec k0 l), (in_dec Z.eq_dec k0 (x :: l)) as [H'|H']; try reflexivity.
      + exfalso. apply H'. now right.
      + destruct H' as [H'|H']; contradiction.
  Qed.
  Lemma unit_bigsum (f : Z -> T) m k0 : 0 <= k0 < m ->
    bigsum O (fun k => o_mul O (f k) (cell O ColMajor m (unit_vec m k0) k 0)) 0 m = f k0.
  Proof.
    intros H. unfold bigsum. rewrite (map_ext_in _ (fun k => o_mul O (f k) (if k =? k0 then o_one O else o_zero O))).
    - rewrite unit_sum by apply NoDup_range. destruct (in_dec Z.eq_dec k0 (range 0 m)) as [I|I]; [reflexivity|]. exfalso. apply I. now apply in_range.
    - intros k Hk. apply in_range in Hk. unfold cell, unit_vec. cbn [addr]. rewrite Z.mul_0_l, Z.add_0_r, get_map, get_range by lia. cbn [option_map]. now rewrite Z.add_0_l.
  Qed.
End Unit.

(** A position whose stored values do not add up to the last of them: the product with the
    corresponding unit vector has the sum there, the product with the dense expansion the
    last value. *)
Theorem C59_repeated_positions_refuted : forall {T} (O : ops T), semiring O ->
  forall sched nt ssort (A : spmat T) i0 j0 (out : list T),
  let d := sp_rows A in let m := sp_cols A in
  valid_schedule sched -> sort_ok ssort -> valid_sp A -> sp_base A = BZero -> (forall M, A = SpCsr M -> m <= 2 ^ 31) ->
  sp_safe nt ColMajor NoTrans NoTrans d 1 m A 0 0 -> zlen out = d * m ->
  0 <= i0 < d -> 0 <= j0 < m -> sumT O (sp_at A i0 j0) <> last (sp_at A i0 j0) (o_zero O) ->
  exists D A' C1 C2,
    to_dense (o_zero O) A ColMajor out = Ok D /\
    left_spmm O sched ssort nt nt ColMajor NoTrans NoTrans d 1 m (o_one O) A 0 0 (unit_vec O m j0) m (o_zero O) (repeat (o_zero O) (Z.to_nat d)) d = Ok (A', C1) /\
    gemm O ColMajor NoTrans NoTrans d 1 m (o_one O) D d (unit_vec O m j0) m (o_zero O) (repeat (o_zero O) (Z.to_nat d)) d = Ok C2 /\
    get C1 i0 = Some (sumT O (sp_at A i0 j0)) /\ get C2 i0 = Some (last (sp_at A i0 j0) (o_zero O)) /\ C1 <> C2.
Proof.
  intros T O L sched nt ssort A i0 j0 out d m Hs Hss HV Hb H31 Hsafe Lo Hi Hj Hne.
  destruct (to_dense_spec (o_zero O) A ColMajor out HV Hb H31 Lo) as (D & ED & LD & GD). fold d m in GD. cbn [min_ld] in GD.
  assert (LB : zlen (unit_vec O m j0) = m) by (unfold unit_vec; rewrite zlen_map, zlen_range; lia).
  assert (LC : zlen (repeat (o_zero O) (Z.to_nat d)) = d) by (unfold zlen; rewrite repeat_length; lia).
  assert (FB : fits_buffer ColMajor m m 1 (zlen (unit_vec O m j0))) by (apply (dense_fits_min ColMajor); lia).
  assert (FC : fits_buffer ColMajor d d 1 (zlen (repeat (o_zero O) (Z.to_nat d)))) by (apply (dense_fits_min ColMajor); lia).
  assert (FD : fits_buffer ColMajor d d m (zlen D)) by (apply (dense_fits_min ColMajor); lia).
  destruct (left_spec O L ssort Hss sched nt ColMajor NoTrans NoTrans d 1 m (o_one O) A 0 0 (unit_vec O m j0) m (o_zero O) (repeat (o_zero O) (Z.to_nat d)) d)
    as (A' & C1 & E1 & _ & HG1); auto; try lia.
  { unfold d, m. destruct A; cbn; auto. split; lia. }
  destruct (gemm_spec O L ColMajor NoTrans NoTrans d 1 m (o_one O) D d (unit_vec O m j0) m (o_zero O) (repeat (o_zero O) (Z.to_nat d)) d) as (C2 & E2 & HG2); auto; try lia.
  assert (G0 : get (repeat (o_zero O) (Z.to_nat d)) (addr ColMajor d i0 0) = Some (o_zero O)).
  { destruct (get_lt (repeat (o_zero O) (Z.to_nat d)) (addr ColMajor d i0 0)) as [x G]; [cbn; lia|]. rewrite G. f_equal.
    assert (In x (repeat (o_zero O) (Z.to_nat d))) as I by (apply get_In; eexists; exact G). now apply repeat_spec in I. }
  assert (V : forall a C', gemm_result O ColMajor d 1 m (o_one O) (o_zero O) a (op_ent NoTrans (cell O ColMajor m (unit_vec O m j0))) (repeat (o_zero O) (Z.to_nat d)) d C' -> get C' i0 = Some (a i0 j0)).
  { intros a C' (_ & G & _). specialize (G i0 0 (o_zero O) Hi ltac:(lia) G0). cbn [addr op_ent] in G. rewrite Z.mul_0_l, Z.add_0_r in G. rewrite G. f_equal.
    rewrite (unit_bigsum O L (fun k => a i0 k)) by exact Hj. rewrite (sr_mul_1_l O L), (sr_mul_0_l O L). now apply add_0_r. }
  apply V in HG1, HG2. cbn [op_ent] in HG1, HG2. unfold cell in HG2. rewrite GD in HG2 by assumption.
  assert (HG1' : get C1 i0 = Some (sumT O (sp_at A i0 j0))) by (rewrite HG1, !Z.add_0_l; destruct A; reflexivity).
  exists D, A', C1, C2. split; [exact ED|]. split; [exact E1|]. split; [exact E2|]. split; [exact HG1'|]. split; [exact HG2|].
  intros E. rewrite E, HG2 in HG1'. injection HG1' as X. apply Hne. now symmetry.
Qed.
Print Assumptions C59_repeated_positions_refuted.

(** The 2 x 2 COO matrix with entries (0,1):3, (1,0):2, (0,1):4 (position (0,1) twice): the
    hypotheses of the refutation hold, the product with the second unit vector is (7,0) and
    with the expansion (4,0).  Without the last entry the first theorem applies. *)
Definition dup_coo (k : Z) : coo_matrix Z := Build_coo_matrix 2 2 true k BZero (Some [3; 2; 4]) (Some [0; 1; 0]) (Some [1; 0; 1]) SNone.
Example C59_case :
  valid_coo (dup_coo 3) /\ coo_safe (dup_coo 3) 0 0 2 1 2 /\ sumT zops (sp_at (SpCoo (dup_coo 3)) 0 1) = 7 /\ last (sp_at (SpCoo (dup_coo 3)) 0 1) 0 = 4 /\
  to_dense 0 (SpCoo (dup_coo 3)) ColMajor [9; 9; 9; 9] = Ok [0; 2; 4; 0] /\
  (exists A', left_spmm zops zsched isort 1 1 ColMajor NoTrans NoTrans 2 1 2 1 (SpCoo (dup_coo 3)) 0 0 [0; 1] 2 0 [0; 0] 2 = Ok (A', [7; 0])) /\
  gemm zops ColMajor NoTrans NoTrans 2 1 2 1 [0; 2; 4; 0] 2 [0; 1] 2 0 [0; 0] 2 = Ok [4; 0] /\
  valid_coo (dup_coo 2) /\ coo_safe (dup_coo 2) 0 0 2 1 2 /\
  forallb (fun i => forallb (fun j => zlen (sp_at (SpCoo (dup_coo 2)) i j) <=? 1) (range 0 2)) (range 0 2) = true /\
  to_dense 0 (SpCoo (dup_coo 2)) ColMajor [9; 9; 9; 9] = Ok [0; 2; 3; 0].
Proof.
  assert (V : forall k, 0 <= k <= 3 -> valid_coo (dup_coo k)).
  { intros k Hk. unfold valid_coo, dup_coo, idx_ok. cbn [co_nr co_nc co_nnz co_vals co_rows co_cols co_base arrv off].
    assert (forall e l x, (0 <= e < k) -> get l e = Some x -> (forall y, In y l -> 0 <= y < 2) -> 0 <= x < 2 + 0) as X.
    { intros e l x He G H. assert (In x l) as I by (apply get_In; eexists; exact G). specialize (H x I). lia. }
    assert (H1 : forall y, In y [0; 1; 0] -> 0 <= y < 2) by (cbn; intros; lia). assert (H2 : forall y, In y [1; 0; 1] -> 0 <= y < 2) by (cbn; intros; lia).
    change (zlen [3; 2; 4]) with 3. change (zlen [0; 1; 0]) with 3. change (zlen [1; 0; 1]) with 3. split; [lia|]. split; [lia|]. split; [lia|]. split; [lia|].
    split; (split; [lia|]); intros e x He G; eapply X; eauto. }
  assert (S : forall k, 2 <= k <= 3 -> coo_safe (dup_coo k) 0 0 2 1 2).
  { intros k Hk. right. right. right. split; [lia|]. left. exists 0, 1, 3. split; [|reflexivity]. assert (k = 2 \/ k = 3) as [->| ->] by lia; vm_compute; tauto. }
  split; [apply V; lia|]. split; [apply S; lia|]. repeat (split; [reflexivity|]).
  split; [eexists; vm_compute; reflexivity|]. split; [reflexivity|]. split; [apply V; lia|]. split; [apply S; lia|]. split; reflexivity.
Qed.

(** [[0,5,0],[7,0,-1]] compressed to CSR, times (1,2,3)^T: the values of the dense product. *)
Example C59_case_compress :
  exists M, dense_to_csr 0 (fun x => negb (x =? 0)) true [0; 7; 5; 0; 0; -1] (mk_csr 2 3) = Ok M /\ cr_nnz M = 3 /\
    (exists A', left_spmm zops zsched isort 2 2 ColMajor NoTrans NoTrans 2 1 3 1 (SpCsr M) 0 0 [1; 2; 3] 3 0 [9; 9] 2 = Ok (A', [10; 4])) /\
    gemm zops ColMajor NoTrans NoTrans 2 1 3 1 [0; 7; 5; 0; 0; -1] 2 [1; 2; 3] 3 0 [9; 9] 2 = Ok [10; 4] /\
    (forall x, negb (x =? 0) = false -> x = 0).
Proof.
  eexists. split; [vm_compute; reflexivity|]. split; [reflexivity|]. split; [eexists; vm_compute; reflexivity|]. split; [reflexivity|].
  intros x H. destruct (Z.eqb_spec x 0); [assumption|discriminate].
Qed.
