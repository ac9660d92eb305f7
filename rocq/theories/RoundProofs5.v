(** Sketching sparse data with a dense operator in floating-point arithmetic (for C62). *)
From Coq Require Import ZArith Reals Lra Permutation.
From Flocq Require Import Core BinarySingleNaN.
From Verif Require Import Base Interleave Spec RngModel DenseModel DenseSpec SparseSkopModel SparseSpec SpFmtModel SpFmtSpec SpmmModel SpmmSpec
  SketchModel SketchSpec SketchProofs SketchProofs2 RoundModel RoundSpec RoundProofs3 RoundProofs4 SpmmProofs2 SpmmProofs5 PropsSpmm
  FloatModel FloatProofs FloatProofs2 DenseFloatModel DenseIsoProofs2.

Section Any.
Context {bf : Type} {O : ops bf}.
Context {Kt W : Type}.
Variables (cast : W -> bf) (denv : dense_env Kt W bf) (fsched : schedule bf).
Variable sched : schedule (list bf).
Variable ssort : (Z * Z * bf -> Z * Z * bf -> bool) -> list (Z * Z * bf) -> list (Z * Z * bf).
Variable nt : Z.
Hypothesis Hw : wf_env denv.
Hypothesis Hf : valid_schedule fsched.
Hypothesis Hsched : valid_schedule sched.
Hypothesis Hsort : sort_ok ssort.
(** What is known of a cell computed from the terms p, and under which condition. *)
Variable P : list (bf * bf) -> bf -> bf -> Prop.
Variable ok : list (bf * bf) -> bf -> Prop.
Variables (alpha beta : bf).
(** alpha counts as zero; the sparse operand can be multiplied. *)
Variable Za : Prop.
Variable Sf : layout -> op -> op -> Z -> Z -> Z -> spmat bf -> Z -> Z -> Prop.

(** B' is the d x n sketch of B up to rounding, [tm i j] being the terms of cell (i,j). *)
Definition close (l : layout) (d n : Z) (tm : Z -> Z -> list (bf * bf)) (B : list bf) (ldb : Z) (B' : list bf) : Prop :=
  others_kept l d n B ldb B' /\
  forall i j c p, 0 <= i < d -> 0 <= j < n -> get B (addr l ldb i j) = Some c -> p = tm i j -> ok p c ->
    exists y, get B' (addr l ldb i j) = Some y /\ P p c y.
Lemma close_ext l d n t1 t2 B ldb B' : (forall i j, 0 <= i < d -> 0 <= j < n -> t1 i j = t2 i j) -> close l d n t1 B ldb B' -> close l d n t2 B ldb B'.
Proof. intros H [G1 G2]. split; [exact G1|]. intros i j c p Hi Hj Gc Ep. apply G2; auto. now rewrite Ep, H. Qed.

Hypothesis Hleft : forall l opA opB d n m A ro co B ldb C ldc,
  valid_sp A -> sp_base A = BZero -> 0 <= d -> 0 <= n -> 0 <= m -> window_ok A (rows_before opA d m) (cols_before opA d m) ro co ->
  (Za \/ Sf l opA opB d n m A ro co) ->
  fits_buffer l ldb (rows_before opB m n) (cols_before opB m n) (zlen B) -> fits_buffer l ldc d n (zlen C) ->
  exists A' C', left_spmm O sched ssort nt nt l opA opB d n m alpha A ro co B ldb beta C ldc = Ok (A', C') /\ same_sp A A' /\
    close l d n (terms (op_ent opA (fun i k => at_pos A (ro + i) (co + k))) (op_ent opB (cell O l ldb B)) m) C ldc C'.
Lemma Hright l opA opB m d n A lda B ro co C ldc :
  valid_sp B -> sp_base B = BZero -> 0 <= m -> 0 <= d -> 0 <= n -> window_ok B (rows_before opB n d) (cols_before opB n d) ro co ->
  (Za \/ Sf (flip l) (flip_op opB) opA d m n B ro co) ->
  fits_buffer l lda (rows_before opA m n) (cols_before opA m n) (zlen A) -> fits_buffer l ldc m d (zlen C) ->
  exists B' C', right_spmm O sched ssort nt nt l opA opB m d n alpha A lda B ro co beta C ldc = Ok (B', C') /\ same_sp B B' /\
    close l m d (fun i j => terms (fun j k => op_ent opB (fun i k => at_pos B (ro + i) (co + k)) k j) (fun k i => op_ent opA (cell O l lda A) i k) n j i) C ldc C'.
Proof using Hleft.
  intros HB Hb Hm Hd Hn Hwi Hsafe FA FC. unfold right_spmm.
  destruct (Hleft (flip l) (flip_op opB) opA d m n B ro co A lda C ldc) as (B' & C' & E & SA & Lc & G); auto.
  - destruct opB; exact Hwi.
  - apply fits_flip. destruct opA; exact FA.
  - now apply fits_flip.
  - exists B', C'. split; [exact E|]. split; [exact SA|]. split.
    { destruct Lc as [L1 L2]. split; [exact L1|]. intros q Hq. apply L2. intros i j Hi Hj. rewrite addr_flip. now apply Hq. }
    intros i j c p Hi Hj Gc Ep Hp. rewrite <- addr_flip in Gc |- *. apply (G j i c p Hj Hi Gc); auto. rewrite Ep.
    unfold terms. rewrite !flat_map_concat_map. f_equal. apply map_ext. intros k. replace (op_ent opA (cell O (flip l) lda A) k i) with (op_ent opA (cell O l lda A) i k); [destruct opB; reflexivity|].
    destruct opA; cbn [op_ent]; unfold cell; now rewrite addr_flip.
Qed.

Lemma terms_ext2 {T} (a : Z -> Z -> list T) (b b' : Z -> Z -> T) m i j : (forall k, 0 <= k < m -> b k j = b' k j) -> terms a b m i j = terms a b' m i j.
Proof. intros H. unfold terms. rewrite !flat_map_concat_map. f_equal. apply map_ext_in. intros k Hk. apply in_range in Hk. apply map_ext. intros v. now rewrite H. Qed.

(** The terms of a product with op(A), A sparse: on its right and on its left. *)
Definition terms_l (A : spmat bf) (opA opS : op) (ro_a co_a : Z) (s : Z -> Z -> bf) (m i j : Z) : list (bf * bf) :=
  terms (fun j k => op_ent opA (fun i k => at_pos A (ro_a + i) (co_a + k)) k j) (fun k i => op_ent opS s i k) m j i.
Definition terms_r (A : spmat bf) (opA opS : op) (ro_a co_a : Z) (s : Z -> Z -> bf) (n i j : Z) : list (bf * bf) :=
  terms (op_ent opA (fun i k => at_pos A (ro_a + i) (co_a + k))) (op_ent opS s) n i j.

Definition lsafe (A : spmat bf) l opA oS d n m ro_a co_a : Prop := Sf (flip l) (flip_op opA) oS n d m A ro_a co_a.
Definition rsafe (A : spmat bf) l opA oS m d n ro_a co_a : Prop := Sf l opA oS m d n A ro_a co_a.

Lemma lsksp3_buff_close l opS opA d n m S ro co A ro_a co_a B ldb a :
  operand S (rows_before opS d m) (cols_before opS d m) ro co a -> 0 <= n ->
  valid_sp A -> sp_base A = BZero -> sp_window A (rows_before opA m n) (cols_before opA m n) ro_a co_a ->
  (Za \/ lsafe A l opA (if layout_eqb (bo_layout S) l then opS else flip_op opS) d n m ro_a co_a) ->
  fits_buffer l ldb d n (zlen B) ->
  exists A' B', lsksp3_buff O sched ssort nt l opS opA d n m alpha S ro co A ro_a co_a beta B ldb = Ok (A', B') /\ same_sp A A' /\
    close l d n (terms_l A opA opS ro_a co_a (win a ro co) m) B ldb B'.
Proof.
  intros (Hin & HL & HG) Hn HA Hb Hwi Hsafe FB. unfold lsksp3_buff. rewrite !dims_eq, sp_dims_eq. cbn [fst snd].
  pose proof Hin as (I1 & I2 & I3 & I4 & I5 & I6). pose proof Hwi as (W1 & W2 & W3 & W4 & _).
  assert (0 <= d /\ 0 <= m) as [Hd Hm] by (destruct opS; cbn [rows_before cols_before] in *; lia).
  replace (sp_rows A >=? rows_before opA m n + ro_a) with true by lia.
  replace (sp_cols A >=? cols_before opA m n + co_a) with true by lia.
  replace (bo_rows S >=? rows_before opS d m + ro) with true by lia.
  replace (bo_cols S >=? cols_before opS d m + co) with true by lia. rewrite !require_true. cbn [bind].
  pose proof (proj1 FB) as FB1.
  replace (match l with ColMajor => ldb >=? d | RowMajor => ldb >=? n end) with true by (destruct l; cbn [min_ld] in *; lia).
  rewrite !require_true. cbn [bind]. destruct (window_spec O _ _ _ ro co _ _ (bo_buff S) a Hin HL HG) as (t & Et & Ft & Gt).
  destruct (offset_and_ldim (bo_layout S) (bo_rows S) (bo_cols S) ro co) as [pos lds]. cbn [fst snd] in *. rewrite Et. cbn [bind].
  destruct (layout_op O (bo_layout S) l opS lds d m t Ft) as [Fo Go]. set (o' := if layout_eqb (bo_layout S) l then opS else flip_op opS) in *. clearbody o'.
  destruct (Hright l o' opA d n m t lds A ro_a co_a B ldb) as (A' & B' & E & HS & HO & G); auto.
  { now apply sp_window_ok. }
  exists A', B'. split; [exact E|]. split; [exact HS|]. split; [exact HO|]. intros i j c p Hi Hj Gc Ep K1. apply (G i j c p); auto.
  rewrite Ep. unfold terms_l. apply terms_ext2. intros k Hk. rewrite Go. destruct opS; cbn [op_ent rows_before cols_before] in *; symmetry; apply Gt; lia.
Qed.

Lemma rsksp3_buff_close l opA opS m d n A ro_a co_a S ro co B ldb a :
  operand S (rows_before opS n d) (cols_before opS n d) ro co a -> 0 <= m ->
  valid_sp A -> sp_base A = BZero -> sp_window A (rows_before opA m n) (cols_before opA m n) ro_a co_a ->
  (Za \/ rsafe A l opA (if layout_eqb (bo_layout S) l then opS else flip_op opS) m d n ro_a co_a) ->
  fits_buffer l ldb m d (zlen B) ->
  exists A' B', rsksp3_buff O sched ssort nt l opA opS m d n alpha A ro_a co_a S ro co beta B ldb = Ok (A', B') /\ same_sp A A' /\
    close l m d (terms_r A opA opS ro_a co_a (win a ro co) n) B ldb B'.
Proof.
  intros (Hin & HL & HG) Hm HA Hb Hwi Hsafe FB. unfold rsksp3_buff. rewrite !dims_eq, sp_dims_eq. cbn [fst snd].
  pose proof Hin as (I1 & I2 & I3 & I4 & I5 & I6). pose proof Hwi as (W1 & W2 & W3 & W4 & _).
  assert (0 <= d /\ 0 <= n) as [Hd Hn] by (destruct opS; cbn [rows_before cols_before] in *; lia).
  replace (sp_rows A >=? rows_before opA m n + ro_a) with true by lia.
  replace (sp_cols A >=? cols_before opA m n + co_a) with true by lia.
  replace (bo_rows S >=? rows_before opS n d + ro) with true by lia.
  replace (bo_cols S >=? cols_before opS n d + co) with true by lia. rewrite !require_true. cbn [bind].
  pose proof (proj1 FB) as FB1.
  replace (match l with ColMajor => ldb >=? m | RowMajor => ldb >=? d end) with true by (destruct l; cbn [min_ld] in *; lia).
  rewrite !require_true. cbn [bind]. destruct (window_spec O _ _ _ ro co _ _ (bo_buff S) a Hin HL HG) as (t & Et & Ft & Gt).
  destruct (offset_and_ldim (bo_layout S) (bo_rows S) (bo_cols S) ro co) as [pos lds]. cbn [fst snd] in *. rewrite Et. cbn [bind].
  destruct (layout_op O (bo_layout S) l opS lds n d t Ft) as [Fo Go]. set (o' := if layout_eqb (bo_layout S) l then opS else flip_op opS) in *. clearbody o'.
  destruct (Hleft l opA o' m d n A ro_a co_a t lds B ldb) as (A' & B' & E & HS & HO & G); auto.
  { now apply sp_window_ok. }
  exists A', B'. split; [exact E|]. split; [exact HS|]. split; [exact HO|]. intros i j c p Hi Hj Gc Ep K1. apply (G i j c p); auto.
  rewrite Ep. unfold terms_r. apply terms_ext2. intros k Hk. rewrite Go. destruct opS; cbn [op_ent rows_before cols_before] in *; symmetry; apply Gt; lia.
Qed.

Lemma lsksp3_close l opS opA d n m S ro co A ro_a co_a B ldb a :
  dense_denotes cast denv S a ->
  in_matrix (dd_rows (ds_dist S)) (dd_cols (ds_dist S)) (rows_before opS d m) (cols_before opS d m) ro co ->
  (ds_buff S = None -> 1 <= d /\ 1 <= m) -> 0 <= n ->
  valid_sp A -> sp_base A = BZero -> sp_window A (rows_before opA m n) (cols_before opA m n) ro_a co_a ->
  (Za \/ lsafe A l opA (if layout_eqb (ds_layout S) l then opS else flip_op opS) d n m ro_a co_a) ->
  fits_buffer l ldb d n (zlen B) ->
  exists A' B', lsksp3 O cast denv fsched sched ssort nt l opS opA d n m alpha S ro co A ro_a co_a beta B ldb = Ok (A', B') /\ same_sp A A' /\
    close l d n (terms_l A opA opS ro_a co_a (win a ro co) m) B ldb B'.
Proof.
  intros HD Hin Hne Hn HA Hb Hwin Hsafe FB. unfold lsksp3. rewrite dims_eq.
  pose proof (dense_operand cast denv fsched S a _ _ ro co Hf Hw HD Hin) as HO. destruct (ds_buff S) as [b|].
  - apply lsksp3_buff_close; auto. apply HO. discriminate.
  - destruct HO as (Bk & E & HO). { intros _. specialize (Hne eq_refl). destruct opS; cbn [rows_before cols_before]; lia. }
    assert (bo_layout Bk = ds_layout S) as El.
    { clear - E. unfold submatrix_as_blackbox in E. repeat (apply bind_Ok in E as (? & _ & E)). destruct x2 as [? ?]. injection E as <-. reflexivity. }
    rewrite E. cbn [bind].
    destruct (lsksp3_buff_close l opS opA d n m Bk 0 0 A ro_a co_a B ldb (win a ro co) HO Hn HA Hb Hwin) as (A' & B' & E' & HS & G); auto.
    { now rewrite El. }
    exists A', B'. split; [exact E'|]. split; [exact HS|]. refine (close_ext _ _ _ _ _ _ _ _ _ G). intros i j _ _. apply terms_ext2. intros k _. destruct opS; cbn [op_ent]; apply win_0.
Qed.

Lemma rsksp3_close l opA opS m d n A ro_a co_a S ro co B ldb a :
  dense_denotes cast denv S a ->
  in_matrix (dd_rows (ds_dist S)) (dd_cols (ds_dist S)) (rows_before opS n d) (cols_before opS n d) ro co ->
  (ds_buff S = None -> 1 <= n /\ 1 <= d) -> 0 <= m ->
  valid_sp A -> sp_base A = BZero -> sp_window A (rows_before opA m n) (cols_before opA m n) ro_a co_a ->
  (Za \/ rsafe A l opA (if layout_eqb (ds_layout S) l then opS else flip_op opS) m d n ro_a co_a) ->
  fits_buffer l ldb m d (zlen B) ->
  exists A' B', rsksp3 O cast denv fsched sched ssort nt l opA opS m d n alpha A ro_a co_a S ro co beta B ldb = Ok (A', B') /\ same_sp A A' /\
    close l m d (terms_r A opA opS ro_a co_a (win a ro co) n) B ldb B'.
Proof.
  intros HD Hin Hne Hm HA Hb Hwin Hsafe FB. unfold rsksp3. rewrite dims_eq.
  pose proof (dense_operand cast denv fsched S a _ _ ro co Hf Hw HD Hin) as HO. destruct (ds_buff S) as [b|].
  - apply rsksp3_buff_close; auto. apply HO. discriminate.
  - destruct HO as (Bk & E & HO). { intros _. specialize (Hne eq_refl). destruct opS; cbn [rows_before cols_before]; lia. }
    assert (bo_layout Bk = ds_layout S) as El.
    { clear - E. unfold submatrix_as_blackbox in E. repeat (apply bind_Ok in E as (? & _ & E)). destruct x2 as [? ?]. injection E as <-. reflexivity. }
    rewrite E. cbn [bind].
    destruct (rsksp3_buff_close l opA opS m d n A ro_a co_a Bk 0 0 B ldb (win a ro co) HO Hm HA Hb Hwin) as (A' & B' & E' & HS & G); auto.
    { now rewrite El. }
    exists A', B'. split; [exact E'|]. split; [exact HS|]. refine (close_ext _ _ _ _ _ _ _ _ _ G). intros i j _ _. apply terms_ext2. intros k _. destruct opS; cbn [op_ent]; apply win_0.
Qed.
End Any.

(** ** Size of uniform entries *)
Local Open Scope R_scope.
Lemma u11_small : B2R (uneg11_32 0) = bpow radix2 (-32) /\ B2R (uneg11_32 (-1)) = - bpow radix2 (-32).
Proof. split; pow_val 23%Z; reflexivity. Qed.
Lemma uneg11_32_size w : bpow radix2 (-32) <= Rabs (B2R (uneg11_32 w)) <= 1.
Proof.
  destruct (uneg11_32_spec w) as (E & _ & B). split; [|apply Rabs_le; exact B]. destruct u11_small as [P N].
  destruct (uneg11_32_spec 0) as (E0 & _). destruct (uneg11_32_spec (-1)) as (E1 & _). rewrite E0 in P. rewrite E1 in N. rewrite E.
  pose proof (bpow_gt_0 radix2 (-32)) as G. destruct (Z_le_gt_dec 0 (to_sint 32 w)) as [H|H].
  - assert (X : bpow radix2 (-32) <= u11R 24 128 32 (to_sint 32 w)) by (rewrite <- P; apply u11_mono; [typeclasses eauto..|exact H]). rewrite Rabs_pos_eq; lra.
  - assert (X : u11R 24 128 32 (to_sint 32 w) <= - bpow radix2 (-32)) by (rewrite <- N; apply u11_mono; [typeclasses eauto..|change (to_sint 32 (-1)) with (-1)%Z; lia]). rewrite Rabs_left; lra.
Qed.
Lemma uniform_entry_moderate w lo hi : (lo <= -32)%Z -> (1 <= hi)%Z -> moderate lo hi (scal3_64 (to64 (uneg11_32 w))).
Proof.
  intros Hlo Hhi. destruct (uneg11_32_spec w) as (_ & F & _). pose proof (uneg11_32_size w) as S. destruct (to64_ok _ F) as [E64 F64]. rewrite <- E64 in S.
  destruct sqrt3_64_ok as (F3 & A3 & B3). set (x := to64 (uneg11_32 w)) in *. clearbody x.
  assert (S3 : 1 <= B2R sqrt3_64).
  { rewrite (B2R_SF sqrt3_64 (SpecFloat.S754_finite false 7800463371553962 (-52))) by (vm_compute; reflexivity). unfold SF2R, F2R. cbn. lra. }
  assert (BM : Rabs (B2R sqrt3_64 * B2R x) <= 2) by (rewrite Rabs_mult, (Rabs_pos_eq (B2R sqrt3_64)) by lra; nra).
  assert (BL : bpow radix2 (-32) <= Rabs (B2R sqrt3_64 * B2R x)).
  { rewrite Rabs_mult, (Rabs_pos_eq (B2R sqrt3_64)) by lra. pose proof (bpow_gt_0 radix2 (-32)). nra. }
  destruct (mult_ok 53 1024 ltac:(lia) sqrt3_64 x F3 F64) as [E Fm].
  { apply Rle_trans with (1 := BM). change 2 with (bpow radix2 1). apply bpow_le. lia. }
  split; [exact Fm|]. right. unfold scal3_64, mul64. rewrite E. unfold rnd. split.
  - apply Rle_trans with (bpow radix2 (-32)); [now apply bpow_le|]. apply abs_round_ge_generic; [typeclasses eauto..| |exact BL].
    apply generic_format_bpow. vm_compute. discriminate.
  - apply Rle_trans with (bpow radix2 1); [|now apply bpow_le]. apply abs_round_le_generic; [typeclasses eauto..| |exact BM].
    apply generic_format_bpow. vm_compute. discriminate.
Qed.
