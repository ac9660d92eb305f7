(** The numbers sketch_general computes with dense operators preserve Gram matrices with a known
    probability, whatever BLAS is used (C71).

    Definitions read by these statements: [tapes n U] all lists of n elements of U; [uneg11_blocks32 L],
    [uneg11_blocks64 L] all blocks that uneg11 makes of L random words (DenseFloatModel.v),
    [boxmul_block] the block that boxmulall makes of L random words (BoxModel.v); [with_blocks env seed dflt t] the
    environment whose generator returns the blocks of t (StatSpec.v); [drawn_dense] (GramSpec.v): the operator constructed from
    D and the seed, unfilled or after fill_dense; [dense_iso2] the square of isometry_scale; [frob2],
    [gram_gap] (NormSpec.v): the squared Frobenius norm of the data and the Frobenius norm of
    Y^T Y - X^T X; [uniform_spread], [gaussian_spread] (NormSpec.v); [cell], [op_ent],
    [fits_buffer] (SpmmSpec.v), [others_kept] (RoundSpec.v): entries of a matrix in a buffer; [keeps_promise] (GemmSpec.v)
    with [RoundSpec3.computed]: gemm computes each entry in some order, with or without fused operations;
    [libm_accurate] (BoxSpec.v).

    Everything is floating-point: the entries of the operator, products, sums, the scaling by alpha. *)
From Coq Require Import ZArith Reals Lra Psatz.
From Flocq Require Import Core BinarySingleNaN.
From Verif Require Import Base Interleave Spec RngModel DenseModel DenseSpec DenseProofs2 SparseSkopModel SparseSpec SpFmtModel SpFmtSpec SpmmModel SpmmSpec PropsSpFmt
  FloatModel FloatProofs FloatProofs2 FloatProofs3 SketchModel SketchSpec RoundModel RoundSpec RoundSpec2 RoundSpec3 GemmModel GemmSpec GemmProofs BlasProofs PropsBlas
  IsoSpec IsoProofs PropsIso StatSpec StatProofs DenseFloatModel DenseIsoProofs2 PropsStat BoxModel BoxSpec BoxProofs2 BoxProofs5 BoxLibm PropsGauss
  NormSpec NormProofs NormProofs3 PropsNorm2 PropsNorm3 GramSpec GramProofs3 GramProofs5 PropsRound PropsGram PropsFloat PropsRoundFinite.
Import ListNotations.
Local Open Scope R_scope.

Section Computed.
Context {prec emax : Z} {pp : Prec_gt_0 prec} {pe : Prec_lt_emax prec emax}.
Local Notation bf := (binary_float prec emax).
Context {Kt Wt Ft : Type}.
Variables (cast : Wt -> bf) (env : dense_env Kt Wt bf) (fsched : schedule bf).
Variable senv : sparse_env Kt Ft bf.
Variables (jT : bf) (jZ : Z).
Variable sched : schedule (list bf).
Variable ssort : (Z * Z * bf -> Z * Z * bf -> bool) -> list (Z * Z * bf) -> list (Z * Z * bf).
Variable nt : Z.
Variable blas : blas_gemm bf.
Variables (nr nc : Z) (fam : DenseModel.family) (D : dense_dist) (seed : rng_state Kt) (dflt : list Wt).
(** All blocks that the generator may return, equally likely. *)
Variable blocks : list (list Wt).
Variables (l : layout) (opA : op) (n : Z) (alpha : bf) (zs : bool) (A : list bf) (lda : Z) (B : list bf) (ldb : Z).
(** The operator of a draw: may be filled in some draws and not in others. *)
Variable S : list (list Wt) -> dense_skop Kt bf.
Notation d := (Z.min nr nc).
Notation m := (Z.max nr nc).
Notation O := (fops prec emax).
Notation u := (bpow radix2 (- prec)).
Notation L := (g_len (env_gen env fam)).
Notation draws := (tapes (Z.to_nat (dense_blocks D L)) blocks).
Notation cell := SpmmSpec.cell.

(** The operator: valid, major axis Long, drawn from random blocks; the BLAS. *)
Definition dense_hyps : Prop :=
  keeps_promise O RoundSpec3.computed blas /\ valid_schedule fsched /\
  mk_dense_dist nr nc fam Long = Ok D /\ dense_fits env D seed /\ zlen dflt = L /\
  forall t, In t draws -> drawn_dense cast (with_blocks env seed dflt t) D seed (S t).
(** alpha is the isometry scale up to eight rounding errors; beta is zero. *)
Definition scale_ok : Prop := is_finite alpha = true /\ Rabs (B2R alpha - sqrt (dense_iso2 D)) <= 8 * u * sqrt (dense_iso2 D).
(** The sketch of m x n data op(A) from the left, and of n x m data op(A) from the right:
    buffers large enough, finite data. *)
Definition left_hyps : Prop :=
  (0 <= n)%Z /\ fits_buffer l lda (rows_before opA m n) (cols_before opA m n) (zlen A) /\ fits_buffer l ldb d n (zlen B) /\
  forall k j, (0 <= k < m)%Z -> (0 <= j < n)%Z -> is_finite (op_ent opA (cell O l lda A) k j) = true.
Definition right_hyps : Prop :=
  (0 <= n)%Z /\ fits_buffer l lda (rows_before opA n m) (cols_before opA n m) (zlen A) /\ fits_buffer l ldb n d (zlen B) /\
  forall k j, (0 <= k < m)%Z -> (0 <= j < n)%Z -> is_finite (op_ent opA (cell O l lda A) j k) = true.
(** Column j of op(A) (left), row j of op(A) (right), as real numbers. *)
Definition left_data : Z -> Z -> R := fun j k => B2R (op_ent opA (cell O l lda A) k j).
Definition right_data : Z -> Z -> R := fun j k => B2R (op_ent opA (cell O l lda A) j k).
(** sketch_general(layout, opS, opA, d, n, m, alpha, S, A, lda, 0, B, ldb): a wide operator is
    applied as it is, a tall one transposed. *)
Definition sketch_left (t : list (list Wt)) : outcome (@skop Kt bf * list bf) :=
  sketch_general_left_full_with O cast (with_blocks env seed dflt t) fsched senv jT jZ sched ssort nt blas
    l (if (nr <=? nc)%Z then NoTrans else Trans) opA d n m alpha (SkDense (S t)) A lda (B754_zero zs) B ldb.
(** sketch_general(layout, opA, opS, n, d, m, alpha, A, lda, S, 0, B, ldb). *)
Definition sketch_right (t : list (list Wt)) : outcome (@skop Kt bf * list bf) :=
  sketch_general_right_full_with O cast (with_blocks env seed dflt t) fsched senv jT jZ sched ssort nt blas
    l opA (if (nr <=? nc)%Z then Trans else NoTrans) n d m alpha A lda (SkDense (S t)) (B754_zero zs) B ldb.
(** Every draw gives finite numbers, and their Gram matrix is that of op(A) up to a factor e + w 2(m+12)^2 u
    of its squared norm, except with probability v / e^2. *)
Definition left_gram_kept (w v : R) : Prop :=
  (forall t, In t draws -> exists B', sketch_left t = Ok (SkDense (S t), B') /\ others_kept l d n B ldb B' /\
     forall r j, (0 <= r < d)%Z -> (0 <= j < n)%Z -> is_finite (cell O l ldb B' r j) = true) /\
  forall e, 0 < e ->
    probability draws (fun t => exceeds (gram_gap n d (fun j r => B2R (cell O l ldb (output (sketch_left t)) r j)) m left_data)
      ((e + w * (2 * (IZR m + 12) * (IZR m + 12) * u)) * frob2 n m left_data)) <= v / e ^ 2.
(** From the right: B B^T against op(A) op(A)^T. *)
Definition right_gram_kept (w v : R) : Prop :=
  (forall t, In t draws -> exists B', sketch_right t = Ok (SkDense (S t), B') /\ others_kept l n d B ldb B' /\
     forall r j, (0 <= r < d)%Z -> (0 <= j < n)%Z -> is_finite (cell O l ldb B' j r) = true) /\
  forall e, 0 < e ->
    probability draws (fun t => exceeds (gram_gap n d (fun j r => B2R (cell O l ldb (output (sketch_right t)) j r)) m right_data)
      ((e + w * (2 * (IZR m + 12) * (IZR m + 12) * u)) * frob2 n m right_data)) <= v / e ^ 2.

(** Sizes: at most 2^em - 2 columns (rows) of S, data whose squared norm is between 2^(2 lo) and 2^(2 hi). *)
Definition sizes_ok (em lo hi : Z) (data : Z -> Z -> R) : Prop :=
  (m <= 2 ^ em - 2)%Z /\ (n <= 2 ^ 63)%Z /\ bpow radix2 (2 * lo) <= frob2 n m data <= bpow radix2 (2 * hi).
(** Both sides. *)
Definition both_kept (em lo hi : Z) (w v : R) : Prop :=
  (left_hyps -> sizes_ok em lo hi left_data -> left_gram_kept w v) /\
  (right_hyps -> sizes_ok em lo hi right_data -> right_gram_kept w v).

Lemma both_main em lo hi bd v : dense_hyps -> scale_ok -> (20 <= prec)%Z -> (0 <= em)%Z -> (2 * em <= prec)%Z -> (lo <= 0)%Z -> (0 <= hi)%Z ->
  (2 * (5 + (3 - emax - prec - 1) + em - lo) + (63 + em) <= 4 * - prec)%Z -> (8 + em + hi <= emax - 1)%Z -> 1 <= bd <= 10 ->
  (forall b, In b blocks -> zlen b = L) ->
  (forall b x, In b blocks -> In x b -> is_finite (family_map env fam (cast x)) = true /\ Rabs (B2R (family_map env fam (cast x))) <= bd) ->
  inner_products_kept draws (dense_iso2 D) (fun t => sketch_of nr nc (dense_sampled cast B2R (with_blocks env seed dflt t) fsched D seed)) d m v ->
  both_kept em lo hi (bd * bd) v.
Proof.
  intros (HB & Hf & HD & HF & Hdf & HS) [Fal Hal] Hp He0 Hep Hlo Hhi H1 H2 Hbd HBl HBf HIP.
  assert (M0 : (0 <= m)%Z). { destruct (mk_dense_dist_inv _ _ _ _ _ HD) as (P1 & P2 & _). lia. }
  assert (One : 1 = bpow radix2 0) by reflexivity.
  assert (Main : forall b out old, (0 <= n)%Z -> (forall k j, (0 <= k < m)%Z -> (0 <= j < n)%Z -> is_finite (b k j) = true) ->
    sizes_ok em lo hi (fun j k => B2R (b k j)) ->
    (forall t r j, In t draws -> (0 <= r < d)%Z -> (0 <= j < n)%Z ->
       surely_near alpha (map (fun k => (ent cast env nr nc D seed dflt t r k, b k j)) (range 0 m)) (B754_zero zs) (old r j) (out t r j)) ->
    (forall t r j, In t draws -> (0 <= r < d)%Z -> (0 <= j < n)%Z -> is_finite (out t r j) = true) /\
    forall e, 0 < e -> probability draws (fun t => exceeds (gram_gap n d (fun j r => B2R (out t r j)) m (fun j k => B2R (b k j)))
      ((e + bd * bd * (2 * (IZR m + 12) * (IZR m + 12) * u)) * frob2 n m (fun j k => B2R (b k j)))) <= v / e ^ 2).
  { intros b out old Hn Hb (Z1 & Z2 & Z3) Ho. destruct (size_pow m em ltac:(lia) He0) as [S1 S2].
    apply (dense_float_gram cast env fsched Hf nr nc fam D seed dflt HD HF Hdf blocks bd v HBl Hbd HBf HIP b n out old alpha zs Hn Hb Fal Hal Hp) with
      (M := bpow radix2 em) (lo := bpow radix2 lo) (hi := bpow radix2 hi) (N := bpow radix2 63); auto.
    - apply (Rle_trans _ (bpow radix2 (2 * em) * bpow radix2 (- prec))); [apply Rmult_le_compat_r; [apply bpow_ge_0|exact S1]|]. rewrite <- bpow_plus, One. apply bpow_le. lia.
    - rewrite One. apply bpow_le. lia.
    - rewrite <- IZR_Zpower by lia. apply IZR_le. exact Z2.
    - split; [apply bpow_gt_0|]. rewrite One. apply bpow_le. lia.
    - rewrite One. apply bpow_le. lia.
    - rewrite <- !bpow_plus. replace (lo + lo)%Z with (2 * lo)%Z by lia. replace (hi + hi)%Z with (2 * hi)%Z by lia. exact Z3.
    - rewrite u_pow. unfold half_tiny, Rdiv. rewrite <- bpow_opp. change 32 with (bpow radix2 5). rewrite <- !bpow_plus. apply bpow_le. lia.
    - change 256 with (bpow radix2 8). rewrite <- !bpow_plus. apply bpow_le. lia. }
  split.
  - intros (Hn & FA & FB & Hfin) Hsz.
    pose proof (fun t Ht => left_ok cast env fsched senv jT jZ sched ssort nt blas HB Hf nr nc fam D seed dflt HD HF Hdf blocks bd v HBl HBf HIP l opA n alpha (B754_zero zs) A lda B ldb t (S t) Ht (HS t Ht) Hn FA FB) as Q.
    destruct (Main (fun k j => op_ent opA (cell O l lda A) k j) (fun t r j => cell O l ldb (output (sketch_left t)) r j) (cell O l ldb B) Hn Hfin Hsz) as [M1 M2].
    { intros t r j Ht Hr Hj. destruct (Q t Ht) as (B' & E & _ & G). unfold left_call in E. unfold sketch_left. rewrite E. cbn [output]. now apply G. }
    split; [|exact M2]. intros t Ht. destruct (Q t Ht) as (B' & E & HO & _). unfold left_call in E. exists B'. split; [exact E|]. split; [exact HO|].
    intros r j Hr Hj. pose proof (M1 t r j Ht Hr Hj) as Fo. unfold sketch_left in Fo. rewrite E in Fo. exact Fo.
  - intros (Hn & FA & FB & Hfin) Hsz.
    pose proof (fun t Ht => right_ok cast env fsched senv jT jZ sched ssort nt blas HB Hf nr nc fam D seed dflt HD HF Hdf blocks bd v HBl HBf HIP l opA n alpha (B754_zero zs) A lda B ldb t (S t) Ht (HS t Ht) Hn FA FB) as Q.
    destruct (Main (fun k j => op_ent opA (cell O l lda A) j k) (fun t r j => cell O l ldb (output (sketch_right t)) j r) (fun r j => cell O l ldb B j r) Hn Hfin Hsz) as [M1 M2].
    { intros t r j Ht Hr Hj. destruct (Q t Ht) as (B' & E & _ & G). unfold right_call in E. unfold sketch_right. rewrite E. cbn [output]. now apply G. }
    split; [|exact M2]. intros t Ht. destruct (Q t Ht) as (B' & E & HO & _). unfold right_call in E. exists B'. split; [exact E|]. split; [exact HO|].
    intros r j Hr Hj. pose proof (M1 t r j Ht Hr Hj) as Fo. unfold sketch_right in Fo. rewrite E in Fo. exact Fo.
Qed.
End Computed.

(** ** The entries are moderate numbers *)
Lemma tape_blocks {W F} (f : list W -> list F) (words : list W) L b : (forall ri, zlen (f ri) = zlen ri) -> (0 <= L)%Z -> In b (map f (tapes (Z.to_nat L) words)) ->
  zlen b = L /\ exists ri, b = f ri /\ zlen ri = L /\ forall w, In w ri -> In w words.
Proof.
  intros Hl HL H. apply in_map_iff in H as (ri & <- & Hri). assert (E : zlen ri = L) by (unfold zlen; rewrite (tapes_len _ _ _ Hri); lia).
  split; [now rewrite Hl|]. exists ri. split; [reflexivity|]. split; [exact E|]. intros w. exact (tapes_in _ _ _ Hri w).
Qed.
Lemma near_two x y eps : Rabs (x - sqrt 3 * y) <= eps -> eps <= / 8 -> Rabs y <= 1 -> Rabs x <= 2.
Proof.
  intros H He Hy. assert (S3 : 0 <= sqrt 3 <= 1.75). { split; [apply sqrt_pos|]. rewrite <- (sqrt_square 1.75) by lra. apply sqrt_le_1_alt. lra. }
  replace x with ((x - sqrt 3 * y) + sqrt 3 * y) by ring. eapply Rle_trans; [apply Rabs_triang|]. rewrite Rabs_mult, (Rabs_pos_eq (sqrt 3)) by lra.
  assert (sqrt 3 * Rabs y <= 1.75 * 1) by (apply Rmult_le_compat; try lra; apply Rabs_pos). lra.
Qed.
Lemma scal3_fin32 x : is_finite x = true -> -1 <= B2R x <= 1 -> is_finite (scal3_32 x) = true.
Proof.
  intros Fx Bx. destruct sqrt3_32_ok as (F3 & _ & B3). apply (mult_ok 24 128 ltac:(lia) sqrt3_32 x F3 Fx).
  apply (Rle_trans _ (bpow radix2 1)); [|apply bpow_le; lia]. change (bpow radix2 1) with 2. apply Rabs_le. nra.
Qed.
Lemma scal3_fin64 x : is_finite x = true -> -1 <= B2R x <= 1 -> is_finite (scal3_64 x) = true.
Proof.
  intros Fx Bx. destruct sqrt3_64_ok as (F3 & _ & B3). apply (mult_ok 53 1024 ltac:(lia) sqrt3_64 x F3 Fx).
  apply (Rle_trans _ (bpow radix2 1)); [|apply bpow_le; lia]. change (bpow radix2 1) with 2. apply Rabs_le. nra.
Qed.
Lemma unif_float w : (0 <= w < 2 ^ 32)%Z -> is_finite (scal3_32 (uneg11_32 w)) = true /\ Rabs (B2R (scal3_32 (uneg11_32 w))) <= 2.
Proof.
  intros Hw. destruct (C11_uniform_transformation_float w Hw) as (F & B & _). split; [now apply scal3_fin32|].
  apply (near_two _ _ _ (entry_float w Hw)); [cbn; lra|exact (ideal_abs 32 ltac:(lia) _ _ entry_float w Hw)].
Qed.
Lemma unif_widened w : (0 <= w < 2 ^ 32)%Z -> is_finite (scal3_64 (to64 (uneg11_32 w))) = true /\ Rabs (B2R (scal3_64 (to64 (uneg11_32 w)))) <= 2.
Proof.
  intros Hw. destruct (C11_uniform_transformation_float w Hw) as (F & B & _). destruct (to64_ok _ F) as [E64 F64]. split; [apply scal3_fin64; [exact F64|now rewrite E64]|].
  apply (near_two _ _ _ (entry_widened w Hw)); [cbn; lra|exact (ideal_abs 32 ltac:(lia) _ _ entry_widened w Hw)].
Qed.
Lemma unif_double w : (0 <= w < 2 ^ 64)%Z -> is_finite (scal3_64 (uneg11_64 w)) = true /\ Rabs (B2R (scal3_64 (uneg11_64 w))) <= 2.
Proof.
  intros Hw. destruct (C11_uniform_transformation_double w Hw) as (F & B & _). split; [now apply scal3_fin64|].
  apply (near_two _ _ _ (entry_double w Hw)); [cbn; lra|exact (ideal_abs 64 ltac:(lia) _ _ entry_double w Hw)].
Qed.
Lemma L_nonneg {K W T} (env : dense_env K W T) fam nr nc D seed : mk_dense_dist nr nc fam Long = Ok D -> dense_fits env D seed -> (0 <= g_len (env_gen env fam))%Z.
Proof. intros _ (We & _). destruct (env_gen_wf env fam We). lia. Qed.

(** * Uniform entries *)
Theorem C71_uniform_float :
  forall {Kt Ft} (env : dense_env Kt b32 b32) fsched (senv : sparse_env Kt Ft b32) jT jZ sched ssort nt blas nr nc D seed dflt l opA n alpha zs A lda B ldb S,
    let L := g_len (env_unif env) in
    dense_hyps (fun x => x) env fsched blas nr nc Uniform D seed dflt (uneg11_blocks32 L) S -> env_scal3 env = scal3_32 -> scale_ok D alpha ->
    both_kept (fun x => x) env fsched senv jT jZ sched ssort nt blas nr nc Uniform D seed dflt (uneg11_blocks32 L) l opA n alpha zs A lda B ldb S
      12 (-40) 100 4 (uniform_spread (/ IZR (2 ^ 20)) (Z.min nr nc) (Z.max nr nc)).
Proof.
  intros Kt Ft env fsched senv jT jZ sched ssort nt blas nr nc D seed dflt l opA n alpha zs A lda B ldb S L HO E3 Hsc.
  pose proof HO as (HB & Hf & HD & HF & Hdf & HS). pose proof (L_nonneg env Uniform nr nc D seed HD HF) as L0. cbn [env_gen] in L0, Hdf.
  destruct (C68_uniform_float env fsched nr nc D seed dflt Hf HD HF E3 Hdf) as [HIP _].
  replace 4 with (2 * 2) by lra. apply both_main; auto; try lia; try lra.
  - intros b Hb. exact (proj1 (tape_blocks (map uneg11_32) _ L b (fun ri => zlen_map _ ri) L0 Hb)).
  - intros b x Hb Hx. destruct (tape_blocks (map uneg11_32) _ L b (fun ri => zlen_map _ ri) L0 Hb) as (_ & ri & -> & _ & Hw).
    apply in_map_iff in Hx as (w & <- & Hin). cbn [family_map]. rewrite E3. apply unif_float. apply in_range. now apply Hw.
Qed.
Print Assumptions C71_uniform_float.
(** T = double, 32-bit words. *)
Theorem C71_uniform_double :
  forall {Kt Ft} (env : dense_env Kt b32 b64) fsched (senv : sparse_env Kt Ft b64) jT jZ sched ssort nt blas nr nc D seed dflt l opA n alpha zs A lda B ldb S,
    let L := g_len (env_unif env) in
    dense_hyps to64 env fsched blas nr nc Uniform D seed dflt (uneg11_blocks32 L) S -> env_scal3 env = scal3_64 -> scale_ok D alpha ->
    both_kept to64 env fsched senv jT jZ sched ssort nt blas nr nc Uniform D seed dflt (uneg11_blocks32 L) l opA n alpha zs A lda B ldb S
      26 (-850) 950 4 (uniform_spread (/ IZR (2 ^ 20)) (Z.min nr nc) (Z.max nr nc)).
Proof.
  intros Kt Ft env fsched senv jT jZ sched ssort nt blas nr nc D seed dflt l opA n alpha zs A lda B ldb S L HO E3 Hsc.
  pose proof HO as (HB & Hf & HD & HF & Hdf & HS). pose proof (L_nonneg env Uniform nr nc D seed HD HF) as L0. cbn [env_gen] in L0, Hdf.
  destruct (C68_uniform_double env fsched nr nc D seed dflt Hf HD HF E3 Hdf) as [HIP _].
  replace 4 with (2 * 2) by lra. apply both_main; auto; try lia; try lra.
  - intros b Hb. exact (proj1 (tape_blocks (map uneg11_32) _ L b (fun ri => zlen_map _ ri) L0 Hb)).
  - intros b x Hb Hx. destruct (tape_blocks (map uneg11_32) _ L b (fun ri => zlen_map _ ri) L0 Hb) as (_ & ri & -> & _ & Hw).
    apply in_map_iff in Hx as (w & <- & Hin). cbn [family_map]. rewrite E3. apply unif_widened. apply in_range. now apply Hw.
Qed.
Print Assumptions C71_uniform_double.
(** T = double, 64-bit words. *)
Theorem C71_uniform_wide_words :
  forall {Kt Ft} (env : dense_env Kt b64 b64) fsched (senv : sparse_env Kt Ft b64) jT jZ sched ssort nt blas nr nc D seed dflt l opA n alpha zs A lda B ldb S,
    let L := g_len (env_unif env) in
    dense_hyps (fun x => x) env fsched blas nr nc Uniform D seed dflt (uneg11_blocks64 L) S -> env_scal3 env = scal3_64 -> scale_ok D alpha ->
    both_kept (fun x => x) env fsched senv jT jZ sched ssort nt blas nr nc Uniform D seed dflt (uneg11_blocks64 L) l opA n alpha zs A lda B ldb S
      26 (-850) 950 4 (uniform_spread (/ IZR (2 ^ 49)) (Z.min nr nc) (Z.max nr nc)).
Proof.
  intros Kt Ft env fsched senv jT jZ sched ssort nt blas nr nc D seed dflt l opA n alpha zs A lda B ldb S L HO E3 Hsc.
  pose proof HO as (HB & Hf & HD & HF & Hdf & HS). pose proof (L_nonneg env Uniform nr nc D seed HD HF) as L0. cbn [env_gen] in L0, Hdf.
  destruct (C68_uniform_wide_words env fsched nr nc D seed dflt Hf HD HF E3 Hdf) as [HIP _].
  replace 4 with (2 * 2) by lra. apply both_main; auto; try lia; try lra.
  - intros b Hb. exact (proj1 (tape_blocks (map uneg11_64) _ L b (fun ri => zlen_map _ ri) L0 Hb)).
  - intros b x Hb Hx. destruct (tape_blocks (map uneg11_64) _ L b (fun ri => zlen_map _ ri) L0 Hb) as (_ & ri & -> & _ & Hw).
    apply in_map_iff in Hx as (w & <- & Hin). cbn [family_map]. rewrite E3. apply unif_double. apply in_range. now apply Hw.
Qed.
Print Assumptions C71_uniform_wide_words.

(** * Gaussian entries; of sincos and log only an accuracy eps is assumed *)
Theorem C71_gaussian_float :
  forall {Kt Ft} (env : dense_env Kt b32 b32) fsched (senv : sparse_env Kt Ft b32) jT jZ sched ssort nt blas nr nc D seed dflt l opA n alpha zs A lda B ldb S junk sincosf logf eps,
    let L := g_len (env_gauss env) in let blocks := map (boxmul_block (boxmuller_32 sincosf logf) junk) (tapes (Z.to_nat L) (range 0 (2 ^ 32))) in
    dense_hyps (fun x => x) env fsched blas nr nc Gaussian D seed dflt blocks S -> Z.even L = true -> libm_accurate sincosf logf eps -> 0 <= eps <= / 4096 -> scale_ok D alpha ->
    both_kept (fun x => x) env fsched senv jT jZ sched ssort nt blas nr nc Gaussian D seed dflt blocks l opA n alpha zs A lda B ldb S
      12 (-40) 100 49 (gaussian_spread (79 / IZR (2 ^ 24) + 5 * eps) (Z.min nr nc) (Z.max nr nc)).
Proof.
  intros Kt Ft env fsched senv jT jZ sched ssort nt blas nr nc D seed dflt l opA n alpha zs A lda B ldb S junk sincosf logf eps L blocks HO Ev Hl He Hsc.
  pose proof HO as (HB & Hf & HD & HF & Hdf & HS). pose proof (L_nonneg env Gaussian nr nc D seed HD HF) as L0. cbn [env_gen] in L0, Hdf.
  destruct (C70_gaussian_float env fsched nr nc D seed dflt junk sincosf logf eps Hf HD HF Hl He Ev Hdf) as [HIP _].
  replace 49 with (7 * 7) by lra. apply both_main; auto; try lia; try lra.
  - intros b Hb. exact (proj1 (tape_blocks _ _ L b (block_len _ junk) L0 Hb)).
  - intros b x Hb Hx. destruct (tape_blocks _ _ L b (block_len _ junk) L0 Hb) as (_ & ri & -> & Lr & Hw).
    apply block_lane in Hx as (k & u0 & u1 & I0 & I1 & ->); [|now rewrite Lr]. cbn [family_map].
    destruct (finite32 sincosf logf eps u0 u1 Hl He (proj1 (in_range _ _ _) (Hw u0 I0)) (proj1 (in_range _ _ _) (Hw u1 I1)) k) as [F Bd]. split; [exact F|]. apply Rabs_le. exact Bd.
Qed.
Print Assumptions C71_gaussian_float.
(** T = double, 32-bit words. *)
Theorem C71_gaussian_double :
  forall {Kt Ft} (env : dense_env Kt b32 b64) fsched (senv : sparse_env Kt Ft b64) jT jZ sched ssort nt blas nr nc D seed dflt l opA n alpha zs A lda B ldb S junk sincosf logf eps,
    let L := g_len (env_gauss env) in let blocks := map (boxmul_block (boxmuller_32 sincosf logf) junk) (tapes (Z.to_nat L) (range 0 (2 ^ 32))) in
    dense_hyps to64 env fsched blas nr nc Gaussian D seed dflt blocks S -> Z.even L = true -> libm_accurate sincosf logf eps -> 0 <= eps <= / 4096 -> scale_ok D alpha ->
    both_kept to64 env fsched senv jT jZ sched ssort nt blas nr nc Gaussian D seed dflt blocks l opA n alpha zs A lda B ldb S
      26 (-850) 950 49 (gaussian_spread (79 / IZR (2 ^ 24) + 5 * eps) (Z.min nr nc) (Z.max nr nc)).
Proof.
  intros Kt Ft env fsched senv jT jZ sched ssort nt blas nr nc D seed dflt l opA n alpha zs A lda B ldb S junk sincosf logf eps L blocks HO Ev Hl He Hsc.
  pose proof HO as (HB & Hf & HD & HF & Hdf & HS). pose proof (L_nonneg env Gaussian nr nc D seed HD HF) as L0. cbn [env_gen] in L0, Hdf.
  destruct (C70_gaussian_double env fsched nr nc D seed dflt junk sincosf logf eps Hf HD HF Hl He Ev Hdf) as [HIP _].
  replace 49 with (7 * 7) by lra. apply both_main; auto; try lia; try lra.
  - intros b Hb. exact (proj1 (tape_blocks _ _ L b (block_len _ junk) L0 Hb)).
  - intros b x Hb Hx. destruct (tape_blocks _ _ L b (block_len _ junk) L0 Hb) as (_ & ri & -> & Lr & Hw).
    apply block_lane in Hx as (k & u0 & u1 & I0 & I1 & ->); [|now rewrite Lr]. cbn [family_map].
    destruct (finite32 sincosf logf eps u0 u1 Hl He (proj1 (in_range _ _ _) (Hw u0 I0)) (proj1 (in_range _ _ _) (Hw u1 I1)) k) as [F Bd].
    destruct (to64_ok _ F) as [E64 F64]. split; [exact F64|]. rewrite E64. apply Rabs_le. exact Bd.
Qed.
Print Assumptions C71_gaussian_double.
(** T = double, 64-bit words. *)
Theorem C71_gaussian_wide_words :
  forall {Kt Ft} (env : dense_env Kt b64 b64) fsched (senv : sparse_env Kt Ft b64) jT jZ sched ssort nt blas nr nc D seed dflt l opA n alpha zs A lda B ldb S junk sincos log eps,
    let L := g_len (env_gauss env) in let blocks := map (boxmul_block (boxmuller_64 sincos log) junk) (tapes (Z.to_nat L) (range 0 (2 ^ 64))) in
    dense_hyps (fun x => x) env fsched blas nr nc Gaussian D seed dflt blocks S -> Z.even L = true -> libm_accurate sincos log eps -> 0 <= eps <= / 4096 -> scale_ok D alpha ->
    both_kept (fun x => x) env fsched senv jT jZ sched ssort nt blas nr nc Gaussian D seed dflt blocks l opA n alpha zs A lda B ldb S
      26 (-850) 950 100 (gaussian_spread (79 / IZR (2 ^ 53) + 5 * eps) (Z.min nr nc) (Z.max nr nc)).
Proof.
  intros Kt Ft env fsched senv jT jZ sched ssort nt blas nr nc D seed dflt l opA n alpha zs A lda B ldb S junk sincos log eps L blocks HO Ev Hl He Hsc.
  pose proof HO as (HB & Hf & HD & HF & Hdf & HS). pose proof (L_nonneg env Gaussian nr nc D seed HD HF) as L0. cbn [env_gen] in L0, Hdf.
  destruct (C70_gaussian_wide_words env fsched nr nc D seed dflt junk sincos log eps Hf HD HF Hl He Ev Hdf) as [HIP _].
  replace 100 with (10 * 10) by lra. apply both_main; auto; try lia; try lra.
  - intros b Hb. exact (proj1 (tape_blocks _ _ L b (block_len _ junk) L0 Hb)).
  - intros b x Hb Hx. destruct (tape_blocks _ _ L b (block_len _ junk) L0 Hb) as (_ & ri & -> & Lr & Hw).
    apply block_lane in Hx as (k & u0 & u1 & I0 & I1 & ->); [|now rewrite Lr]. cbn [family_map].
    destruct (finite64 sincos log eps u0 u1 Hl He (proj1 (in_range _ _ _) (Hw u0 I0)) (proj1 (in_range _ _ _) (Hw u1 I1)) k) as [F Bd]. split; [exact F|]. apply Rabs_le. exact Bd.
Qed.
Print Assumptions C71_gaussian_wide_words.

(** Operators with 4096 rows (isometry scale 1/64) in double precision, 32-bit words, a BLAS with fused multiply-adds; data of
    100000 ones.  Uniform, wide, from the left: the computed squared length differs from 100000 by more than 10001 with
    probability at most 4.93 percent.  Gaussian, tall, from the right, with sincosf and logf accurate to 2^-22: by more than
    10012 with probability at most 5.6 percent.  The operators are not filled. *)
Definition U4096 : dense_dist :=
  {| dd_rows := 4096; dd_cols := 100000; dd_axis := Long; dd_major := 100000; dd_minor := 4096; dd_iso_inv2 := 4096; dd_family := Uniform; dd_layout := RowMajor |}.
Definition G4096 : dense_dist :=
  {| dd_rows := 100000; dd_cols := 4096; dd_axis := Long; dd_major := 100000; dd_minor := 4096; dd_iso_inv2 := 4096; dd_family := Gaussian; dd_layout := ColMajor |}.
Definition env_u64 : dense_env unit b32 b64 :=
  {| env_gauss := mk_generator unit b32 2 64 (fun _ _ => [uneg11_32 0; uneg11_32 0]); env_unif := mk_generator unit b32 2 64 (fun _ _ => [uneg11_32 0; uneg11_32 0]);
     env_scal3 := scal3_64; env_junk := one64 |}.
Definition env_g64 : dense_env unit b32 b64 :=
  let g := boxmul_gen (boxmuller_32 (near_sincos 24 128) (near_log 24 128)) (of_Z32 0) g_words in
  {| env_gauss := g; env_unif := g; env_scal3 := scal3_64; env_junk := one64 |}.
Definition fresh4096 (D : dense_dist) : dense_skop unit b64 :=
  {| ds_dist := D; ds_seed := mk_state 7 tt; ds_next := mk_state 204800007 tt; ds_own := true; ds_buff := None; ds_layout := dd_layout D |}.
Definition inv64_64 : b64 := @B754_finite 53 1024 false 4503599627370496 (-58) eq_refl.
Definition fma_blas : blas_gemm b64 := gemm_by reference_fma_entry.
Notation dflt2 := [uneg11_32 0; uneg11_32 0].
Example C71_case :
  let s := mk_state 7 tt in let A := repeat one64 (Z.to_nat 100000) in let B := repeat one64 (Z.to_nat 4096) in
  let gblocks := map (boxmul_block (boxmuller_32 (near_sincos 24 128) (near_log 24 128)) (of_Z32 0)) (tapes (Z.to_nat (g_len (env_gauss env_g64))) (range 0 (2 ^ 32))) in
  dense_hyps to64 env_u64 seq_schedule fma_blas 4096 100000 Uniform U4096 s dflt2 (uneg11_blocks32 2) (fun _ => fresh4096 U4096) /\
  dense_hyps to64 env_g64 seq_schedule fma_blas 100000 4096 Gaussian G4096 s dflt2 gblocks (fun _ => fresh4096 G4096) /\
  probability (tapes (Z.to_nat (4096 * 50000)) (uneg11_blocks32 2)) (fun t => exceeds (gram_gap 1 4096
    (fun j r => B2R (SpmmSpec.cell (fops 53 1024) ColMajor 4096 (output (sketch_left to64 env_u64 seq_schedule gram_env one64 0 seq_schedule isort 1 fma_blas 4096 100000 s dflt2
       ColMajor NoTrans 1 inv64_64 false A 100000 B 4096 (fun _ => fresh4096 U4096) t)) r j)) 100000 (fun _ _ => 1)) 10001) <= 493 / 10000 /\
  probability (tapes (Z.to_nat (4096 * 50000)) gblocks) (fun t => exceeds (gram_gap 1 4096
    (fun j r => B2R (SpmmSpec.cell (fops 53 1024) RowMajor 4096 (output (sketch_right to64 env_g64 seq_schedule gram_env one64 0 seq_schedule isort 1 fma_blas 100000 4096 s dflt2
       RowMajor NoTrans 1 inv64_64 false A 100000 B 4096 (fun _ => fresh4096 G4096) t)) j r)) 100000 (fun _ _ => 1)) 10012) <= 56 / 1000.
Proof.
  intros s A B gblocks.
  assert (One : B2R one64 = 1) by (unfold one64; rewrite B2R_pow52; reflexivity).
  assert (HB : keeps_promise (fops 53 1024) RoundSpec3.computed fma_blas) by apply C65_promise_kept.
  assert (HU : dense_hyps to64 env_u64 seq_schedule fma_blas 4096 100000 Uniform U4096 s dflt2 (uneg11_blocks32 2) (fun _ => fresh4096 U4096)).
  { split; [exact HB|]. split; [apply seq_schedule_valid|]. split; [reflexivity|]. split.
    { split; [split; apply gen22_wf; reflexivity|]. repeat split; cbn; lia. }
    split; [reflexivity|]. intros t _. left. reflexivity. }
  assert (HG : dense_hyps to64 env_g64 seq_schedule fma_blas 100000 4096 Gaussian G4096 s dflt2 gblocks (fun _ => fresh4096 G4096)).
  { split; [exact HB|]. split; [apply seq_schedule_valid|]. split; [reflexivity|]. split.
    { split; [split; apply boxmul_gen_wf, g_words_wf|]. repeat split; cbn; lia. }
    split; [reflexivity|]. intros t _. left. reflexivity. }
  assert (GA : forall p, (0 <= p < 100000)%Z -> get A p = Some one64) by (intros p Hp; unfold A; rewrite get_repeat; [reflexivity|lia]).
  assert (LA : zlen A = 100000%Z) by (unfold A; rewrite zlen_repeat; lia). assert (LB : zlen B = 4096%Z) by (unfold B; rewrite zlen_repeat; lia).
  assert (Inv : B2R inv64_64 = / 64) by (unfold inv64_64; rewrite B2R_pow52; reflexivity).
  assert (Sq : forall D, dd_iso_inv2 D = 4096%Z -> scale_ok D inv64_64).
  { intros D HD. split; [reflexivity|]. rewrite Inv. replace (sqrt (dense_iso2 D)) with (/ 64).
    - rewrite Rminus_eq_0, Rabs_R0. apply Rmult_le_pos; [|lra]. apply Rmult_le_pos; [lra|apply bpow_ge_0].
    - symmetry. unfold dense_iso2. rewrite HD. apply sqrt_lem_1; lra. }
  split; [exact HU|]. split; [exact HG|].
  assert (Fr : forall X : Z -> Z -> R, (forall j k, (0 <= j < 1)%Z -> (0 <= k < 100000)%Z -> X j k = 1) -> frob2 1 100000 X = 100000).
  { intros X HX. unfold frob2. change (range 0 1) with [0%Z]. cbn [map Rsum]. rewrite Rplus_0_r. unfold dot.
    rewrite (Rsum_ext _ (fun _ => 1)); [rewrite Rsum_range_const by lia; lra|]. intros k Hk. apply in_range in Hk. rewrite !HX by lia. lra. }
  assert (Gp : forall Y X : Z -> Z -> R, (forall j k, (0 <= j < 1)%Z -> (0 <= k < 100000)%Z -> X j k = 1) -> gram_gap 1 4096 Y 100000 (fun _ _ => 1) = gram_gap 1 4096 Y 100000 X).
  { intros Y X HX. unfold gram_gap. change (range 0 1) with [0%Z]. cbn [map Rsum].
    assert (E : dot 100000 (fun _ => 1) (fun _ => 1) = dot 100000 (X 0%Z) (X 0%Z)) by (apply dot_ext; intros k Hk; now rewrite HX by lia). now rewrite E. }
  assert (Rng : bpow radix2 (2 * -850) <= 100000 <= bpow radix2 (2 * 950)).
  { split; [apply (Rle_trans _ (bpow radix2 0)); [apply bpow_le; lia|cbn; lra]|apply (Rle_trans _ (bpow radix2 17)); [cbn; lra|apply bpow_le; lia]]. }
  assert (Us : bpow radix2 (- (53)) * 9007199254740992 = 1) by (change 9007199254740992 with (bpow radix2 53); rewrite <- bpow_plus; reflexivity).
  split.
  - destruct (C71_uniform_double env_u64 seq_schedule gram_env one64 0%Z seq_schedule isort 1%Z fma_blas 4096%Z 100000%Z U4096 s dflt2 ColMajor NoTrans 1%Z inv64_64 false A 100000%Z B 4096%Z
      (fun _ => fresh4096 U4096) HU eq_refl (Sq U4096 eq_refl)) as [K _].
    assert (Xd : forall j k, (0 <= j < 1)%Z -> (0 <= k < 100000)%Z -> left_data (prec := 53) (emax := 1024) ColMajor NoTrans A 100000 j k = 1).
    { intros j k Hj Hk. unfold left_data. cbn [op_ent]. unfold SpmmSpec.cell. cbn [addr]. rewrite GA by lia. exact One. }
    destruct K as [_ K].
    { split; [lia|]. split; [split; [cbn; lia|intros i j Hi Hj; cbn [addr rows_before cols_before] in *; rewrite LA; lia]|]. split; [split; [cbn; lia|intros i j Hi Hj; cbn [addr] in *; rewrite LB; lia]|].
      intros k j Hk Hj. cbn [op_ent]. unfold SpmmSpec.cell. cbn [addr]. rewrite GA by lia. reflexivity. }
    { split; [vm_compute; congruence|]. split; [lia|]. change (Z.max 4096 100000) with 100000%Z. rewrite (Fr _ Xd). exact Rng. }
    specialize (K (/ 10) ltac:(lra)). change (Z.max 4096 100000) with 100000%Z in K. change (Z.min 4096 100000) with 4096%Z in K. rewrite (Fr _ Xd) in K.
    change (g_len (env_unif env_u64)) with 2%Z in K. change (g_len (env_gen env_u64 Uniform)) with 2%Z in K. change (dense_blocks U4096 2) with (4096 * 50000)%Z in K.
    eapply Rle_trans; [|eapply Rle_trans; [exact K|]].
    + apply average_le. intros t _. unfold exceeds, indicator. rewrite (Gp _ _ Xd). destruct (Rlt_dec _ _) as [Lt|Lt]; [|destruct (Rlt_dec _ _); lra].
      destruct (Rlt_dec _ _) as [Lt'|Lt']; [lra|]. exfalso. apply Lt'. eapply Rle_lt_trans; [|exact Lt]. clear - Us. revert Us. generalize (bpow radix2 (- (53))). intros p Us. lra.
    + unfold uniform_spread.
      assert (B1 : sqrt (2 / 4096) <= 0.0220972). { rewrite <- (sqrt_square 0.0220972) by lra. apply sqrt_le_1_alt. lra. }
      assert (B2 : sqrt (100000 / 4096) <= 5). { rewrite <- (sqrt_square 5) by lra. apply sqrt_le_1_alt. lra. }
      assert (P1 : 0 <= sqrt (2 / 4096)) by apply sqrt_pos. assert (P2 : 0 <= sqrt (100000 / 4096)) by apply sqrt_pos.
      set (r := sqrt (2 / 4096)) in *. set (q := sqrt (100000 / 4096)) in *. clearbody r q. change (IZR (2 ^ 20)) with 1048576.
      set (a := (1 + 7 * / 1048576) * r + 4 * / 1048576 + 3 * / 1048576 * q + (/ 1048576) ^ 2 * 100000).
      assert (Aa : 0 <= a <= 0.0222) by (unfold a; cbn [pow]; split; lra). clearbody a. cbn [pow]. nra.
  - assert (Hl : libm_accurate (near_sincos 24 128) (near_log 24 128) (/ IZR (2 ^ 22))).
    { replace (/ IZR (2 ^ 22)) with (4 * bpow radix2 (- (24))) by (change (bpow radix2 (- (24))) with (/ 16777216); change (IZR (2 ^ 22)) with 4194304; lra). apply accurate_ulp; lia. }
    assert (He : 0 <= / IZR (2 ^ 22) <= / 4096) by (change (IZR (2 ^ 22)) with 4194304; lra).
    assert (Ev : Z.even (g_len (env_gauss env_g64)) = true) by reflexivity.
    pose proof (C71_gaussian_double env_g64 seq_schedule gram_env one64 0%Z seq_schedule isort 1%Z fma_blas 100000%Z 4096%Z G4096 s dflt2 RowMajor NoTrans 1%Z inv64_64 false A 100000%Z B 4096%Z
      (fun _ => fresh4096 G4096) (of_Z32 0) (near_sincos 24 128) (near_log 24 128) (/ IZR (2 ^ 22))) as K0.
    cbv zeta in K0. fold gblocks in K0. clearbody gblocks. destruct (K0 HG Ev Hl He (Sq G4096 eq_refl)) as [_ K].
    assert (Xd : forall j k, (0 <= j < 1)%Z -> (0 <= k < 100000)%Z -> right_data (prec := 53) (emax := 1024) RowMajor NoTrans A 100000 j k = 1).
    { intros j k Hj Hk. unfold right_data. cbn [op_ent]. unfold SpmmSpec.cell. cbn [addr]. rewrite GA by lia. exact One. }
    destruct K as [_ K].
    { split; [lia|]. split; [split; [cbn; lia|intros i j Hi Hj; cbn [addr rows_before cols_before] in *; rewrite LA; lia]|]. split; [split; [cbn; lia|intros i j Hi Hj; cbn [addr] in *; rewrite LB; lia]|].
      intros k j Hk Hj. cbn [op_ent]. unfold SpmmSpec.cell. cbn [addr]. rewrite GA by lia. reflexivity. }
    { split; [vm_compute; congruence|]. split; [lia|]. change (Z.max 100000 4096) with 100000%Z. rewrite (Fr _ Xd). exact Rng. }
    specialize (K (/ 10) ltac:(lra)). change (Z.max 100000 4096) with 100000%Z in K. change (Z.min 100000 4096) with 4096%Z in K. rewrite (Fr _ Xd) in K.
    change (g_len (env_gauss env_g64)) with 2%Z in K. change (g_len (env_gen env_g64 Gaussian)) with 2%Z in K. change (dense_blocks G4096 2) with (4096 * 50000)%Z in K.
    eapply Rle_trans; [|eapply Rle_trans; [exact K|]].
    + apply average_le. intros t _. unfold exceeds, indicator. rewrite (Gp _ _ Xd). destruct (Rlt_dec _ _) as [Lt|Lt]; [|destruct (Rlt_dec _ _); lra].
      destruct (Rlt_dec _ _) as [Lt'|Lt']; [lra|]. exfalso. apply Lt'. eapply Rle_lt_trans; [|exact Lt]. clear - Us. revert Us. generalize (bpow radix2 (- (53))). intros p Us. lra.
    + unfold gaussian_spread.
      assert (B1 : sqrt (2 / 4096) <= 0.0220972). { rewrite <- (sqrt_square 0.0220972) by lra. apply sqrt_le_1_alt. lra. }
      assert (B2 : sqrt (100000 / 4096) <= 5). { rewrite <- (sqrt_square 5) by lra. apply sqrt_le_1_alt. lra. }
      assert (P1 : 0 <= sqrt (2 / 4096)) by apply sqrt_pos. assert (P2 : 0 <= sqrt (100000 / 4096)) by apply sqrt_pos.
      set (r := sqrt (2 / 4096)) in *. set (q := sqrt (100000 / 4096)) in *. clearbody r q. change (IZR (2 ^ 24)) with 16777216. change (IZR (2 ^ 22)) with 4194304.
      set (c := 79 / 16777216 + 5 * / 4194304). assert (C : c = 99 / 16777216) by (unfold c; lra). rewrite C. clearbody c.
      set (a := (1 + 7 * (99 / 16777216)) * r + 200 * (99 / 16777216) + 7 * (99 / 16777216) * q + 10 * (99 / 16777216) ^ 2 * 100000).
      assert (Aa : 0 <= a <= 0.0236) by (unfold a; cbn [pow]; split; lra). clearbody a. cbn [pow]. nra.
Qed.
