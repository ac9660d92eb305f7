(** The numbers sketch_general computes preserve Gram matrices with a known probability (C69).

    Definitions read by these statements: [tapes], [average], [probability], [with_words] (IsoSpec.v,
    StatSpec.v, PropsNorm.v): the random words of a draw, all tapes equally likely; [drawn_operator]
    (GramSpec.v): the operator constructed from D and the seed, unfilled or after fill_sparse;
    [iso2] (SparseSpec/IsoSpec): the square of isometry_scale; [frob2], [gram_gap] (NormSpec.v): the squared
    Frobenius norm of the data and the Frobenius norm of Y^T Y - A^T A; [cell], [op_ent], [fits_buffer],
    [others_kept] (SpmmSpec.v): entries of a matrix in a buffer.

    Everything the call computes is floating-point: the products, sums, the scaling by alpha. *)
From Coq Require Import ZArith Reals Lra Psatz.
From Flocq Require Import Core BinarySingleNaN.
From Verif Require Import Base Interleave Spec RngModel DenseModel DenseSpec SparseSkopModel FySpec FyProofs SparseSpec SparseProofs SparseProofs2 SpFmtModel SpFmtSpec SpmmModel SpmmSpec
  SketchModel SketchSpec PropsSpFmt FloatModel RoundModel RoundSpec RoundSpec2 PropsRound PropsRoundFinite
  IsoSpec IsoProofs PropsIso StatSpec StatProofs NormSpec NormProofs NormProofs3 PropsNorm GramSpec GramProofs GramProofs2 GramProofs3 GramProofs4.
Local Open Scope R_scope.

Section Computed.
Context {prec emax : Z} {pp : Prec_gt_0 prec} {pe : Prec_lt_emax prec emax}.
Local Notation bf := (binary_float prec emax).
Context {Kt Wt F : Type}.
Variables (cast : Wt -> bf) (denv : dense_env Kt Wt bf) (fsched : schedule bf).
Variable env : sparse_env Kt F bf.
Variables (jT : bf) (jZ : Z).
Variable sched : schedule (list bf).
Variable ssort : (Z * Z * bf -> Z * Z * bf -> bool) -> list (Z * Z * bf) -> list (Z * Z * bf).
Variable nt : Z.
Variable D : sparse_dist.
Variable seed : rng_state Kt.
Variable W : Z.
Variables (l : layout) (opA : op) (n : Z) (alpha : bf) (zs : bool) (A : list bf) (lda : Z) (B : list bf) (ldb : Z).
(** The operator of a draw: may be filled in some draws and not in others. *)
Variable S : list Z -> sparse_skop Kt bf.
Notation d := (Z.min (sd_rows D) (sd_cols D)).
Notation m := (Z.max (sd_rows D) (sd_cols D)).
Notation O := (fops prec emax).
Notation u := (bpow radix2 (- prec)).
Notation draws := (tapes (Z.to_nat (sd_full_nnz D * g_len (se_raw env))) (range 0 (2 ^ W))).
Notation cell := SpmmSpec.cell.
(** Column j of op(A), as real numbers. *)
Notation data := (fun j k => B2R (op_ent opA (cell O l lda A) k j)).

(** The operator: valid, major axis Short, drawn from W-bit words. *)
Definition operator_hyps : Prop :=
  wf_senv env /\ (is_finite (se_one env) = true /\ B2R (se_one env) = 1) /\ (is_finite (se_mone env) = true /\ B2R (se_mone env) = -1) /\
  valid_sdist D /\ sd_axis D = Short /\ sparse_size_ok env D /\ seed_ok env seed /\
  (0 < W)%Z /\ (sd_full_nnz D <= 2 ^ g_bits (se_raw env))%Z /\ (d <= 2 ^ W)%Z /\
  forall t, In t draws -> drawn_operator (with_words env seed t) jT jZ D seed (S t).
(** The call: buffers large enough, finite data, alpha the isometry scale up to eight rounding
    errors (std::pow is not required to be more accurate); beta is zero. *)
Definition call_hyps : Prop :=
  valid_schedule sched /\ sort_ok ssort /\ (0 <= n)%Z /\
  fits_buffer l lda (rows_before opA m n) (cols_before opA m n) (zlen A) /\ fits_buffer l ldb d n (zlen B) /\
  (forall k j, (0 <= k < m)%Z -> (0 <= j < n)%Z -> is_finite (op_ent opA (cell O l lda A) k j) = true) /\
  is_finite alpha = true /\ Rabs (B2R alpha - sqrt (iso2 D)) <= 8 * u * sqrt (iso2 D).
(** sketch_general(layout, opS, opA, d, n, m, alpha, S, A, lda, 0, B, ldb): a wide operator is applied as it is,
    a tall one transposed. *)
Definition call (t : list Z) : outcome (@skop Kt bf * list bf) :=
  sketch_general_left_full O cast denv fsched (with_words env seed t) jT jZ sched ssort nt l (if (sd_rows D <=? sd_cols D)%Z then NoTrans else Trans) opA d n m alpha (SkSparse (S t)) A lda (B754_zero zs) B ldb.
(** Column j of the computed result. *)
Definition computed (t : list Z) : Z -> Z -> R := fun j r => B2R (cell O l ldb (output (call t)) r j).
(** Every draw gives finite numbers, and their Gram matrix is that of op(A) up to a factor
    e + 2(m+12)^2 u of its squared norm, except with probability 2/d / e^2 (up to the bias of the sampler). *)
Definition gram_kept : Prop :=
  (forall t, In t draws -> exists S' B', call t = Ok (SkSparse S', B') /\ others_kept l d n B ldb B' /\
     forall r j, (0 <= r < d)%Z -> (0 <= j < n)%Z -> is_finite (cell O l ldb B' r j) = true) /\
  forall e, 0 < e ->
    probability draws (fun t => exceeds (gram_gap n d (computed t) m data) ((e + 2 * (IZR m + 12) * (IZR m + 12) * u) * frob2 n m data)) <= PropsNorm.spread D W / e ^ 2.

Lemma gram_main M lo hi N : operator_hyps -> call_hyps -> (20 <= prec)%Z -> (IZR m + 2) * (IZR m + 2) * u <= 1 ->
  IZR m <= M -> 1 <= M -> IZR n <= N -> 0 < lo <= 1 -> 1 <= hi -> lo * lo <= frob2 n m data <= hi * hi ->
  (16 * @half_tiny prec emax * M / lo) * (16 * @half_tiny prec emax * M / lo) * (N * M) <= u * u * (u * u) -> 64 * M * hi <= bpow radix2 (emax - 1) -> gram_kept.
Proof.
  intros (We & [F1 E1] & [F2 E2] & HD & Hax & Hz & Hs & HW & Hb & Hd & HS) (Hsc & Hso & Hn & FA & FB & Hfin & Fal & Hal) Hp Hmu H1 H2 H3 H4 H5 H6 H7 H8.
  assert (Henv : short_hyps (real_env env) D seed W).
  { split; [|exact (conj E1 (conj E2 (conj HD (conj Hax (conj Hz (conj Hs (conj HW (conj Hb Hd))))))))]. destruct We as [A1 B1 C1 D1 E1' F1' G1 K1]. split; auto. }
  pose proof (sparse_gram cast denv fsched env jT jZ sched ssort nt Hsc Hso D seed W F1 F2 Henv (ws_sqrt1 env We) l opA n alpha zs A lda B ldb S HS Hn FA FB Hfin Fal Hal Hp Hmu M lo hi N H1 H2 H3 H4 H5 H6 H7 H8) as G.
  unfold gram_kept, computed, call. unfold run, opS in G. exact G.
Qed.
End Computed.

Lemma ranges_pow h M lo N u4 : (2 * (4 + h + M - lo) + (N + M) <= u4)%Z ->
  (16 * bpow radix2 h * bpow radix2 M / bpow radix2 lo) * (16 * bpow radix2 h * bpow radix2 M / bpow radix2 lo) * (bpow radix2 N * bpow radix2 M) <= bpow radix2 u4.
Proof.
  intros H. unfold Rdiv. rewrite <- bpow_opp. change 16 with (bpow radix2 4). rewrite <- !bpow_plus. apply bpow_le. lia.
Qed.
Lemma u_pow p : bpow radix2 p * bpow radix2 p * (bpow radix2 p * bpow radix2 p) = bpow radix2 (4 * p).
Proof. rewrite <- !bpow_plus. f_equal. lia. Qed.
Lemma top_pow M hi t : (6 + M + hi <= t)%Z -> 64 * bpow radix2 M * bpow radix2 hi <= bpow radix2 t.
Proof. intros H. change 64 with (bpow radix2 6). rewrite <- !bpow_plus. now apply bpow_le. Qed.
Lemma size_pow m e : (0 <= m <= 2 ^ e - 2)%Z -> (0 <= e)%Z -> (IZR m + 2) * (IZR m + 2) <= bpow radix2 (2 * e) /\ IZR m <= bpow radix2 e.
Proof.
  intros Hm He. assert (P : IZR m + 2 <= bpow radix2 e). { rewrite <- IZR_Zpower by lia. change (Zpower radix2 e) with (2 ^ e)%Z. rewrite <- (plus_IZR m 2). apply IZR_le. lia. }
  assert (0 <= IZR m) by (apply IZR_le; lia). split; [|lra]. replace (2 * e)%Z with (e + e)%Z by lia. rewrite bpow_plus. apply Rmult_le_compat; lra.
Qed.

(** Double precision. *)
Theorem C69_double : forall {Kt Wt F} (cast : Wt -> b64) (denv : dense_env Kt Wt b64) fsched (env : sparse_env Kt F b64) jT jZ sched ssort nt D seed W l opA n alpha zs A lda B ldb S,
  operator_hyps env jT jZ D seed W S -> call_hyps sched ssort D l opA n alpha A lda B ldb ->
  (Z.max (sd_rows D) (sd_cols D) <= 2 ^ 26 - 2)%Z -> (n <= 2 ^ 63)%Z ->
  bpow radix2 (-1700) <= frob2 n (Z.max (sd_rows D) (sd_cols D)) (fun j k => B2R (op_ent opA (SpmmSpec.cell (fops 53 1024) l lda A) k j)) <= bpow radix2 1900 ->
  gram_kept cast denv fsched env jT jZ sched ssort nt D seed W l opA n alpha zs A lda B ldb S.
Proof.
  intros Kt Wt F cast denv fsched env jT jZ sched ssort nt D seed W l opA n alpha zs A lda B ldb S HO HC Hm Hn HF.
  assert (M0 : (0 <= Z.max (sd_rows D) (sd_cols D))%Z). { destruct HO as (_ & _ & _ & HD & _). destruct (valid_sdist_inv D HD) as (P1 & P2 & _). lia. }
  destruct (size_pow (Z.max (sd_rows D) (sd_cols D)) 26 ltac:(lia) ltac:(lia)) as [S1 S2].
  apply (gram_main cast denv fsched env jT jZ sched ssort nt D seed W l opA n alpha zs A lda B ldb S (bpow radix2 26) (bpow radix2 (-850)) (bpow radix2 950) (bpow radix2 63)); try assumption.
  - lia.
  - apply (Rle_trans _ (bpow radix2 (2 * 26) * bpow radix2 (-53))); [apply Rmult_le_compat_r; [apply bpow_ge_0|exact S1]|]. rewrite <- bpow_plus. change 1 with (bpow radix2 0). apply bpow_le. lia.
  - change 1 with (bpow radix2 0). apply bpow_le. lia.
  - rewrite <- IZR_Zpower by lia. apply IZR_le. exact Hn.
  - split; [apply bpow_gt_0|]. change 1 with (bpow radix2 0). apply bpow_le. lia.
  - change 1 with (bpow radix2 0). apply bpow_le. lia.
  - rewrite <- !bpow_plus. exact HF.
  - rewrite u_pow. apply ranges_pow. lia.
  - apply top_pow. lia.
Qed.
(** Single precision. *)
Theorem C69_float : forall {Kt Wt F} (cast : Wt -> b32) (denv : dense_env Kt Wt b32) fsched (env : sparse_env Kt F b32) jT jZ sched ssort nt D seed W l opA n alpha zs A lda B ldb S,
  operator_hyps env jT jZ D seed W S -> call_hyps sched ssort D l opA n alpha A lda B ldb ->
  (Z.max (sd_rows D) (sd_cols D) <= 2 ^ 12 - 2)%Z -> (n <= 2 ^ 63)%Z ->
  bpow radix2 (-80) <= frob2 n (Z.max (sd_rows D) (sd_cols D)) (fun j k => B2R (op_ent opA (SpmmSpec.cell (fops 24 128) l lda A) k j)) <= bpow radix2 200 ->
  gram_kept cast denv fsched env jT jZ sched ssort nt D seed W l opA n alpha zs A lda B ldb S.
Proof.
  intros Kt Wt F cast denv fsched env jT jZ sched ssort nt D seed W l opA n alpha zs A lda B ldb S HO HC Hm Hn HF.
  assert (M0 : (0 <= Z.max (sd_rows D) (sd_cols D))%Z). { destruct HO as (_ & _ & _ & HD & _). destruct (valid_sdist_inv D HD) as (P1 & P2 & _). lia. }
  destruct (size_pow (Z.max (sd_rows D) (sd_cols D)) 12 ltac:(lia) ltac:(lia)) as [S1 S2].
  apply (gram_main cast denv fsched env jT jZ sched ssort nt D seed W l opA n alpha zs A lda B ldb S (bpow radix2 12) (bpow radix2 (-40)) (bpow radix2 100) (bpow radix2 63)); try assumption.
  - lia.
  - apply (Rle_trans _ (bpow radix2 (2 * 12) * bpow radix2 (-24))); [apply Rmult_le_compat_r; [apply bpow_ge_0|exact S1]|]. rewrite <- bpow_plus. change 1 with (bpow radix2 0). apply bpow_le. lia.
  - change 1 with (bpow radix2 0). apply bpow_le. lia.
  - rewrite <- IZR_Zpower by lia. apply IZR_le. exact Hn.
  - split; [apply bpow_gt_0|]. change 1 with (bpow radix2 0). apply bpow_le. lia.
  - change 1 with (bpow radix2 0). apply bpow_le. lia.
  - rewrite <- !bpow_plus. exact HF.
  - rewrite u_pow. apply ranges_pow. lia.
  - apply top_pow. lia.
Qed.
Print Assumptions C69_double.
Print Assumptions C69_float.

(** A 2000 by 100000 operator with 4 nonzeros per column (isometry scale 1/2), applied unfilled to the vector
    of 100000 ones in double precision: with 32-bit words the computed squared length differs from 100000
    by more than 10001 with probability at most 10.001 percent. *)
Definition mone64 : b64 := @B754_finite 53 1024 true 4503599627370496 (-52) eq_refl.
Definition half_64 : b64 := @B754_finite 53 1024 false 4503599627370496 (-53) eq_refl.
Definition gram_env : sparse_env unit Z b64 :=
  {| se_raw := iso_raw; se_unif := iso_raw; se_sb := 32; se_draw := fun n u => (u mod n)%Z; se_nonneg := fun u => Z.even (u / 4);
     se_one := one64; se_mone := mone64; se_sqrtmul := fun _ v => v; se_order := fun _ l => rev l |}.
Lemma B2R_half_64 : B2R half_64 = / 2.
Proof. unfold half_64. rewrite B2R_pow52. reflexivity. Qed.
Example C69_case : forall {Wt} (cast : Wt -> b64) (denv : dense_env unit Wt b64) fsched,
  let D := iso_dist 2000 100000 4 Short in let s := mk_state 7%Z tt in
  let A := repeat one64 (Z.to_nat 100000) in let B := repeat one64 (Z.to_nat 2000) in
  let S t := mk_sparse_skop (with_words gram_env s t) D s in
  operator_hyps gram_env one64 0 D s 32 S /\ call_hyps seq_schedule isort D ColMajor NoTrans 1 half_64 A 100000 B 2000 /\
  frob2 1 100000 (fun j k => B2R (op_ent NoTrans (SpmmSpec.cell (fops 53 1024) ColMajor 100000 A) k j)) = 100000 /\
  probability (tapes (Z.to_nat (400000 * 2)) (range 0 (2 ^ 32)))
    (fun t => exceeds (gram_gap 1 2000 (computed cast denv fsched gram_env one64 0 seq_schedule isort 1 D s ColMajor NoTrans 1 half_64 false A 100000 B 2000 S t)
        100000 (fun j k => B2R (op_ent NoTrans (SpmmSpec.cell (fops 53 1024) ColMajor 100000 A) k j))) 10001) <= 10001 / 100000.
Proof.
  intros Wt cast denv fsched D s A B S.
  assert (One : B2R one64 = 1) by (unfold one64; rewrite B2R_pow52; reflexivity).
  assert (GA : forall k j, (0 <= k < 100000)%Z -> (0 <= j < 1)%Z -> SpmmSpec.cell (fops 53 1024) ColMajor 100000 A k j = one64).
  { intros k j Hk Hj. unfold SpmmSpec.cell, A. rewrite get_repeat; [reflexivity|]. cbn [addr]. lia. }
  assert (HO : operator_hyps gram_env one64 0 D s 32 S).
  { split. { split; cbn; try lia; try reflexivity; [split; cbn; intros; try lia; reflexivity|split; cbn; intros; try lia; reflexivity|intros _ l; apply Permutation.Permutation_rev]. }
    split; [split; [reflexivity|exact One]|]. split; [split; [reflexivity|]|].
    { change (se_mone gram_env) with (Bopp one64). rewrite B2R_Bopp, One. reflexivity. }
    split; [reflexivity|]. split; [reflexivity|]. split; [split; [|split]; vm_compute; congruence|]. split; [unfold seed_ok; cbn; lia|]. split; [lia|].
    split; [vm_compute; congruence|]. split; [vm_compute; congruence|]. intros t _. now left. }
  assert (HC : call_hyps seq_schedule isort D ColMajor NoTrans 1 half_64 A 100000 B 2000).
  { split; [apply seq_schedule_valid|]. split; [apply isort_ok|]. split; [lia|].
    change (Z.max (sd_rows D) (sd_cols D)) with 100000%Z. change (Z.min (sd_rows D) (sd_cols D)) with 2000%Z. cbn [rows_before cols_before op_ent].
    split. { split; [cbn; lia|]. intros i j Hi Hj. unfold A. rewrite zlen_repeat. cbn [addr]. lia. }
    split. { split; [cbn; lia|]. intros i j Hi Hj. unfold B. rewrite zlen_repeat. cbn [addr]. lia. }
    split. { intros k j Hk Hj. rewrite GA by assumption. reflexivity. }
    split; [reflexivity|]. rewrite B2R_half_64. replace (sqrt (iso2 D)) with (/ 2).
    - rewrite Rminus_eq_0, Rabs_R0. apply Rmult_le_pos; [|lra]. apply Rmult_le_pos; [lra|apply bpow_ge_0].
    - symmetry. unfold iso2. change (sd_iso2 D) with (1, 4)%Z. cbn [fst snd]. apply sqrt_lem_1; lra. }
  assert (HF : frob2 1 100000 (fun j k => B2R (op_ent NoTrans (SpmmSpec.cell (fops 53 1024) ColMajor 100000 A) k j)) = 100000).
  { unfold frob2. change (range 0 1) with [0%Z]. cbn [map Rsum]. rewrite Rplus_0_r. unfold dot. cbn [op_ent].
    rewrite (Rsum_ext _ (fun _ => 1)); [rewrite Rsum_range_const by lia; lra|]. intros k Hk. apply in_range in Hk. rewrite GA by lia. rewrite One. lra. }
  split; [exact HO|]. split; [exact HC|]. split; [exact HF|].
  assert (Sp : PropsNorm.spread D 32 <= 10001 / 10000000).
  { unfold PropsNorm.spread. change (Z.min (sd_rows D) (sd_cols D)) with 2000%Z. change (sd_vec_nnz D) with 4%Z.
    pose proof (C67_slack 2000 4 32 ltac:(lia) ltac:(lia) ltac:(lia) ltac:(lia)) as Sl.
    change (2 ^ 32)%Z with 4294967296%Z in *. change (4 * 2000)%Z with 8000%Z in Sl.
    set (q := (1 + 2000 / 4294967296) ^ Z.to_nat 4) in *. clearbody q. lra. }
  destruct (C69_double cast denv fsched gram_env one64 0%Z seq_schedule isort 1%Z D s 32%Z ColMajor NoTrans 1%Z half_64 false A 100000%Z B 2000%Z S HO HC) as [_ G].
  { vm_compute; congruence. } { lia. }
  { change (Z.max (sd_rows D) (sd_cols D)) with 100000%Z. rewrite HF. split.
    - apply (Rle_trans _ (bpow radix2 0)); [apply bpow_le; lia|]. cbn. lra.
    - apply (Rle_trans _ (bpow radix2 17)); [cbn; lra|]. apply bpow_le. lia. }
  specialize (G (/ 10) ltac:(lra)). change (Z.max (sd_rows D) (sd_cols D)) with 100000%Z in G. change (Z.min (sd_rows D) (sd_cols D)) with 2000%Z in G.
  change (sd_full_nnz D) with 400000%Z in G. change (g_len (se_raw gram_env)) with 2%Z in G. rewrite HF in G.
  eapply Rle_trans; [|eapply Rle_trans; [exact G|]].
  - apply average_le. intros t _. unfold exceeds, indicator. destruct (Rlt_dec _ _) as [L|L]; [|destruct (Rlt_dec _ _); lra].
    destruct (Rlt_dec _ _) as [L'|L']; [lra|]. exfalso. apply L'. eapply Rle_lt_trans; [|exact L].
    assert (U : bpow radix2 (- (53)) <= bpow radix2 (-52)) by (apply bpow_le; lia). assert (V : bpow radix2 (-52) * 4503599627370496 = 1) by (change 4503599627370496 with (bpow radix2 52); rewrite <- bpow_plus; reflexivity).
    revert U V. generalize (bpow radix2 (- (53))) (bpow radix2 (-52)). clear. intros p q U V. lra.
  - cbn [pow]. lra.
Qed.
