(** The numbers sketch_symmetric and sketch_vector compute with dense operators keep Gram matrices, distances,
    combinations of columns, least-squares problems and lengths, whatever BLAS is used (C78).

    Definitions read by these statements: [tapes], [uneg11_blocks32], [uneg11_blocks64], [boxmul_block], [with_blocks], [drawn_dense], [dense_iso2],
    [frob2], [gram_gap], [libm_accurate], [uniform_spread], [gaussian_spread], [keeps_promise], [dense_hyps], [scale_ok] and [sizes_ok] as for C71 (PropsGram2.v);
    [computed_distances_kept], [computed_combinations_kept], [uniform_slack], [gaussian_slack] (TailSpec.v) as for C74;
    [cell], [fits_buffer] (SpmmSpec.v), [others_kept] (RoundSpec.v).

    Everything is floating-point: the entries of the operator, products, sums, the scaling by alpha. *)
From Coq Require Import ZArith Reals Lra Psatz FunctionalExtensionality.
From Flocq Require Import Core BinarySingleNaN.
From Verif Require PropsUtil.
From Verif Require Import Base Interleave Spec UtilModel UtilSpec RngModel DenseModel DenseSpec DenseProofs2 SparseSkopModel SparseSpec SpFmtModel SpFmtSpec SpmmModel SpmmSpec PropsSpFmt
  FloatModel FloatProofs FloatProofs2 FloatProofs3 SketchModel SketchSpec RoundModel RoundSpec RoundSpec2 RoundSpec3 GemmModel GemmSpec GemmProofs BlasProofs PropsBlas
  IsoSpec IsoProofs PropsIso StatSpec StatProofs DenseFloatModel DenseIsoProofs DenseIsoProofs2 PropsStat BoxModel BoxSpec BoxProofs2 BoxProofs5 BoxLibm PropsGauss
  NormSpec NormProofs NormProofs3 PropsNorm2 PropsNorm3 GramSpec GramProofs GramProofs2 GramProofs3 GramProofs5 PropsRound PropsGram PropsFloat PropsRoundFinite PropsGram2
  TailSpec TailProofs PropsTail PropsTail2 TailComputed PropsTail3 TailComputed3.
Import ListNotations.
Local Open Scope R_scope.

Section Drivers.
Context {prec emax : Z} {pp : Prec_gt_0 prec} {pe : Prec_lt_emax prec emax}.
Local Notation bf := (binary_float prec emax).
Context {Kt Wt Ft : Type}.
Variables (cast : Wt -> bf) (env : dense_env Kt Wt bf) (fsched : schedule bf).
Variable senv : sparse_env Kt Ft bf.
Variables (jT : bf) (jZ : Z).
Variable sched : schedule (list bf).
Variable ssort : (Z * Z * bf -> Z * Z * bf -> bool) -> list (Z * Z * bf) -> list (Z * Z * bf).
Variable nt : Z.
Variable Q : cmp_ops bf.
Variable blas : blas_gemm bf.
Variables (nr nc : Z) (fam : DenseModel.family) (D : dense_dist) (seed : rng_state Kt) (dflt : list Wt).
(** All blocks that the generator may return, equally likely. *)
Variable blocks : list (list Wt).
Variables (alpha : bf) (zs : bool).
(** The operator of a draw: may be filled in some draws and not in others. *)
Variable S : list (list Wt) -> dense_skop Kt bf.
Notation d := (Z.min nr nc).
Notation m := (Z.max nr nc).
Notation O := (fops prec emax).
Notation u := (bpow radix2 (- prec)).
Notation L := (g_len (env_gen env fam)).
Notation draws := (tapes (Z.to_nat (dense_blocks D L)) blocks).
Notation cell := SpmmSpec.cell.
Notation zero := (B754_zero zs).

(** ** sketch_symmetric *)
Section Symmetric.
Variables (l : layout) (A : list bf) (lda : Z) (B : list bf) (ldb : Z) (tol : bf).
(** The check for symmetry accepts the m x m matrix A; buffers are large enough; finite data. *)
Definition symmetric_hyps (rows cols : Z) : Prop :=
  require_symmetric O Q l A m lda tol = Ok tt /\ fits_buffer l lda m m (zlen A) /\ fits_buffer l ldb rows cols (zlen B) /\
  forall i j, (0 <= i < m)%Z -> (0 <= j < m)%Z -> is_finite (cell O l lda A i j) = true.
(** sketch_symmetric(layout, alpha, S, A, lda, 0, B, ldb, tol). *)
Definition symmetric_left (t : list (list Wt)) : outcome (@skop Kt bf * list bf) :=
  sketch_symmetric_left_full_with O cast (with_blocks env seed dflt t) fsched senv jT jZ sched ssort nt Q blas l alpha (SkDense (S t)) A lda zero B ldb tol.
(** sketch_symmetric(layout, alpha, A, lda, S, 0, B, ldb, tol). *)
Definition symmetric_right (t : list (list Wt)) : outcome (@skop Kt bf * list bf) :=
  sketch_symmetric_right_full_with O cast (with_blocks env seed dflt t) fsched senv jT jZ sched ssort nt Q blas l alpha A lda (SkDense (S t)) zero B ldb tol.
(** Column j of A, row j of A, as real numbers. *)
Definition column : Z -> Z -> R := fun j k => B2R (cell O l lda A k j).
Definition row : Z -> Z -> R := fun j k => B2R (cell O l lda A j k).
(** Every draw gives finite numbers and changes nothing else; their Gram matrix is that of the data up to a factor e + round of its squared
    norm except with probability v / e^2; distances and combinations are kept except with exponentially small probability. *)
Definition symmetric_kept (run : list (list Wt) -> outcome (@skop Kt bf * list bf)) (rows cols : Z) (X : Z -> Z -> R) (at_ : list bf -> Z -> Z -> bf) (lo : Z) (w v slack : R) : Prop :=
  let round := w * (2 * (IZR m + 12) * (IZR m + 12) * u) in let Y t j r := B2R (at_ (output (run t)) r j) in
  (forall t, In t draws -> exists B', run t = Ok (SkDense (S t), B') /\ others_kept l rows cols B ldb B' /\
     forall r j, (0 <= r < d)%Z -> (0 <= j < m)%Z -> is_finite (at_ B' r j) = true) /\
  (forall e, 0 < e -> probability draws (fun t => exceeds (gram_gap m d (Y t) m X) ((e + round) * frob2 m m X)) <= v / e ^ 2) /\
  computed_distances_kept draws d m m X Y slack round (bpow radix2 (2 * lo)) /\
  computed_combinations_kept draws d m m X Y slack round.
End Symmetric.

(** ** sketch_vector *)
Section Vector.
Variables (x : list bf) (incx : Z) (y : list bf) (incy : Z).
(** Element k of a vector with a stride. *)
Definition strided (x : list bf) (incx k : Z) : bf := match get x (k * incx) with Some z => z | None => o_zero O end.
(** Positive strides, vectors of m and d elements, finite data. *)
Definition vector_hyps : Prop :=
  (1 <= incx)%Z /\ (1 <= incy)%Z /\ ((m - 1) * incx < zlen x)%Z /\ ((d - 1) * incy < zlen y)%Z /\
  forall k, (0 <= k < m)%Z -> is_finite (strided x incx k) = true.
(** sketch_vector(opS, alpha, S, x, incx, 0, y, incy): a wide operator is applied as it is, a tall one transposed. *)
Definition vector_run (t : list (list Wt)) : outcome (@skop Kt bf * list bf) :=
  sketch_vector_full_with O cast (with_blocks env seed dflt t) fsched senv jT jZ sched ssort nt blas (if (nr <=? nc)%Z then NoTrans else Trans) alpha (SkDense (S t)) x incx zero y incy.
(** Every draw gives finite numbers and changes nothing else; the squared length of y is that of x up to a factor e + round except with
    probability v / e^2, and up to a factor e + slack + round except with probability 2 exp(-d e^2 / 6). *)
Definition vector_kept (w v slack : R) : Prop :=
  let round := w * (2 * (IZR m + 12) * (IZR m + 12) * u) in
  let xr k := B2R (strided x incx k) in let yr t r := B2R (strided (output (vector_run t)) incy r) in
  (forall t, In t draws -> exists y', vector_run t = Ok (SkDense (S t), y') /\ zlen y' = zlen y /\
     (forall q, (forall r, (0 <= r < d)%Z -> (r * incy)%Z <> q) -> get y' q = get y q) /\
     forall r, (0 <= r < d)%Z -> is_finite (strided y' incy r) = true) /\
  (forall e, 0 < e -> probability draws (fun t => exceeds (Rabs (dot d (yr t) (yr t) - dot m xr xr)) ((e + round) * dot m xr xr)) <= v / e ^ 2) /\
  (forall e, 0 < e <= / 2 -> probability draws (fun t => exceeds (Rabs (dot d (yr t) (yr t) - dot m xr xr)) ((e + slack + round) * dot m xr xr)) <= 2 * exp (- (IZR d * e ^ 2 / 6))).
End Vector.

(** All three: sketch_symmetric from the left (wide and square operators) and from the right (tall ones), sketch_vector.
    [em], [lo], [hi] bound sizes as in C71; w is 4 for uniform entries, 49 or 100 for Gaussian ones. *)
Definition drivers_kept (em lo hi : Z) (w v slack : R) : Prop :=
  (forall l A lda B ldb tol, (nr <= nc)%Z -> symmetric_hyps l A lda B ldb tol d m -> sizes_ok nr nc m em lo hi (column l A lda) ->
     symmetric_kept l B ldb (symmetric_left l A lda B ldb tol) d m (column l A lda) (fun B' r j => cell O l ldb B' r j) lo w v slack) /\
  (forall l A lda B ldb tol, (nc < nr)%Z -> symmetric_hyps l A lda B ldb tol m d -> sizes_ok nr nc m em lo hi (row l A lda) ->
     symmetric_kept l B ldb (symmetric_right l A lda B ldb tol) m d (row l A lda) (fun B' r j => cell O l ldb B' j r) lo w v slack) /\
  (forall x incx y incy, vector_hyps x incx y incy -> let xr k := B2R (strided x incx k) in
     (m <= 2 ^ em - 2)%Z -> bpow radix2 (2 * lo) <= dot m xr xr <= bpow radix2 (2 * hi) -> vector_kept x incx y incy w v slack).

Lemma sym_side l rows cols B ldb em lo hi bd v slack (run : list (list Wt) -> outcome (@skop Kt bf * list bf)) (E : Z -> Z -> bf) (at_ : list bf -> Z -> Z -> bf) :
  dense_hyps cast env fsched blas nr nc fam D seed dflt blocks S -> ready cast env fsched nr nc fam D seed dflt blocks bd v slack -> scale_ok D alpha -> ranges_ok (prec := prec) (emax := emax) em lo hi bd ->
  (forall k j, (0 <= k < m)%Z -> (0 <= j < m)%Z -> is_finite (E k j) = true) -> sizes_ok nr nc m em lo hi (fun j k => B2R (E k j)) ->
  (forall t, In t draws -> exists B', run t = Ok (SkDense (S t), B') /\ others_kept l rows cols B ldb B' /\
      forall r j, (0 <= r < d)%Z -> (0 <= j < m)%Z -> surely_near alpha (map (fun k => (ent cast env nr nc D seed dflt t r k, E k j)) (range 0 m)) zero (at_ B r j) (at_ B' r j)) ->
  symmetric_kept l B ldb run rows cols (fun j k => B2R (E k j)) at_ lo (bd * bd) v slack.
Proof.
  intros (HB & Hf & HD & HF & Hdf & HS) HR Hsc Hrg Hfin Hsz G0.
  assert (M0 : (0 <= m)%Z). { destruct (mk_dense_dist_inv _ _ _ _ _ HD) as (P1 & P2 & _). lia. }
  destruct (any_driver cast env fsched nr nc fam D seed dflt blocks m alpha zs em lo hi bd v slack Hf HD HF Hdf HR Hsc Hrg E
    (fun t r j => at_ (output (run t)) r j) (fun r j => at_ B r j) M0 Hfin Hsz) as (K1 & K2 & K3 & K4 & _).
  { intros t r j Ht Hr Hj. destruct (G0 t Ht) as (B' & ERun & _ & G). rewrite ERun. cbn [output]. now apply G. }
  split; [|split; [exact K2|split; [exact K3|exact K4]]].
  intros t Ht. destruct (G0 t Ht) as (B' & ERun & HO & _). exists B'. split; [exact ERun|]. split; [exact HO|].
  intros r j Hr Hj. pose proof (K1 t r j Ht Hr Hj) as Fo. cbv beta in Fo. rewrite ERun in Fo. exact Fo.
Qed.
Lemma drivers_main em lo hi bd v slack :
  dense_hyps cast env fsched blas nr nc fam D seed dflt blocks S -> ready cast env fsched nr nc fam D seed dflt blocks bd v slack -> scale_ok D alpha -> ranges_ok (prec := prec) (emax := emax) em lo hi bd ->
  drivers_kept em lo hi (bd * bd) v slack.
Proof.
  intros Hdr HR Hsc Hrg. pose proof Hdr as (HB & Hf & HD & HF & Hdf & HS). pose proof HR as (HBl & HBf & HIP & _ & LK & _).
  destruct (mk_dense_dist_inv _ _ _ _ _ HD) as (P1 & P2 & ER & EC & _).
  assert (M0 : (0 <= m)%Z) by lia.
  assert (Ed : forall t, In t draws -> ds_dist (S t) = D) by (intros t Ht; exact (proj1 (drawn_denotes cast env fsched nr nc fam D seed dflt HD HF Hdf blocks bd v HBl HBf HIP t (S t) Ht (HS t Ht)))).
  split; [|split].
  - intros l A lda B ldb tol Hw (Hsym & FA & FB & Hfin) Hsz.
    apply (sym_side l d m B ldb em lo hi bd v slack (symmetric_left l A lda B ldb tol) (fun k j => cell O l lda A k j) (fun B' r j => cell O l ldb B' r j) Hdr HR Hsc Hrg Hfin Hsz).
    intros t Ht. destruct (left_ok cast env fsched senv jT jZ sched ssort nt blas HB Hf nr nc fam D seed dflt HD HF Hdf blocks bd v HBl HBf HIP l NoTrans m alpha zero A lda B ldb t (S t) Ht (HS t Ht) M0 FA FB) as (B' & E & HO & G).
    exists B'. split; [|split; [exact HO|exact G]]. rewrite <- E. unfold symmetric_left, sketch_symmetric_left_full_with, left_call, sketch_general_left_full_with.
    cbn [skop_rows skop_cols]. rewrite (Ed t Ht), ER, EC. rewrite (proj2 (Z.leb_le _ _) Hw). rewrite (Z.max_r nr nc Hw) in Hsym |- *. rewrite (Z.min_l nr nc Hw).
    rewrite Hsym. rewrite !Z.eqb_refl. reflexivity.
  - intros l A lda B ldb tol Hw (Hsym & FA & FB & Hfin) Hsz.
    apply (sym_side l m d B ldb em lo hi bd v slack (symmetric_right l A lda B ldb tol) (fun k j => cell O l lda A j k) (fun B' r j => cell O l ldb B' j r) Hdr HR Hsc Hrg (fun k j Hk Hj => Hfin j k Hj Hk) Hsz).
    intros t Ht. destruct (right_ok cast env fsched senv jT jZ sched ssort nt blas HB Hf nr nc fam D seed dflt HD HF Hdf blocks bd v HBl HBf HIP l NoTrans m alpha zero A lda B ldb t (S t) Ht (HS t Ht) M0 FA FB) as (B' & E & HO & G).
    exists B'. split; [|split; [exact HO|exact G]]. rewrite <- E. unfold symmetric_right, sketch_symmetric_right_full_with, right_call, sketch_general_right_full_with.
    cbn [skop_rows skop_cols]. rewrite (Ed t Ht), ER, EC. rewrite (proj2 (Z.leb_gt _ _) Hw). rewrite (Z.max_l nr nc) in Hsym |- * by lia. rewrite (Z.min_r nr nc) by lia.
    rewrite Hsym. rewrite !Z.eqb_refl. reflexivity.
  - intros x incx y incy (Hx & Hy & Lx & Ly & Hfin) xr Hm Hsz.
    assert (FA : fits_buffer RowMajor incx m 1 (zlen x)).
    { split; [cbn; lia|]. intros i j Hi Hj. cbn [addr]. assert (j = 0)%Z by lia. subst j. clear - Hi Lx Hx. nia. }
    assert (FB : fits_buffer RowMajor incy d 1 (zlen y)).
    { split; [cbn; lia|]. intros i j Hi Hj. cbn [addr]. assert (j = 0)%Z by lia. subst j. clear - Hi Ly Hy. nia. }
    assert (AD : forall i ld, addr RowMajor ld i 0 = (i * ld)%Z) by (intros; cbn [addr]; lia).
    assert (CE : forall (a : list bf) ld k, cell O RowMajor ld a k 0 = strided a ld k) by (intros; unfold SpmmSpec.cell, strided; now rewrite AD).
    assert (G0 : forall t, In t draws -> exists y', vector_run x incx y incy t = Ok (SkDense (S t), y') /\ others_kept RowMajor d 1 y incy y' /\
      forall r j, (0 <= r < d)%Z -> (0 <= j < 1)%Z -> surely_near alpha (map (fun k => (ent cast env nr nc D seed dflt t r k, strided x incx k)) (range 0 m)) zero (strided y incy r) (strided y' incy r)).
    { intros t Ht. destruct (left_ok cast env fsched senv jT jZ sched ssort nt blas HB Hf nr nc fam D seed dflt HD HF Hdf blocks bd v HBl HBf HIP RowMajor NoTrans 1%Z alpha zero x incx y incy t (S t) Ht (HS t Ht) ltac:(lia) FA FB) as (y' & E & HO & G).
      exists y'. split; [|split; [exact HO|]].
      - rewrite <- E. unfold vector_run, sketch_vector_full_with, sketch_vector_with, left_call, sketch_general_left_full_with. cbn [skop_rows skop_cols]. rewrite (Ed t Ht), ER, EC.
        destruct (Z.leb_spec nr nc) as [H|H].
        + rewrite (Z.max_r nr nc), (Z.min_l nr nc) by lia. rewrite !Z.eqb_refl. reflexivity.
        + rewrite (Z.max_l nr nc), (Z.min_r nr nc) by lia. rewrite !Z.eqb_refl. reflexivity.
      - intros r j Hr Hj. specialize (G r 0%Z Hr ltac:(lia)). rewrite !CE in G. cbn [op_ent] in G. erewrite map_ext; [exact G|]. intros k. cbv beta. now rewrite CE. }
    assert (Fr : forall X : Z -> R, frob2 1 m (fun _ => X) = dot m X X) by (intros X; unfold frob2; change (range 0 1) with [0%Z]; cbn [map Rsum]; lra).
    assert (Sz : sizes_ok nr nc 1 em lo hi (fun _ k => B2R (strided x incx k))).
    { split; [exact Hm|]. split; [lia|]. rewrite Fr. exact Hsz. }
    destruct (any_driver cast env fsched nr nc fam D seed dflt blocks 1 alpha zs em lo hi bd v slack Hf HD HF Hdf HR Hsc Hrg (fun k _ => strided x incx k)
      (fun t r _ => strided (output (vector_run x incx y incy t)) incy r) (fun r _ => strided y incy r) ltac:(lia) (fun k _ Hk _ => Hfin k Hk) Sz) as (K1 & K2 & _ & _ & K5).
    { intros t r j Ht Hr Hj. destruct (G0 t Ht) as (y' & ERun & _ & G). rewrite ERun. cbn [output]. now apply (G r j). }
    set (rd := bd * bd * (2 * (IZR m + 12) * (IZR m + 12) * u)) in *.
    assert (C1 : forall f : Z -> R, forall k, combine 1 (fun _ => f) (fun _ => 1) k = f k) by (intros f k; unfold combine; change (range 0 1) with [0%Z]; cbn [map Rsum]; lra).
    assert (N0 : 0 <= dot m xr xr) by apply dot_nonneg.
    cbv beta delta [vector_kept]. intros round xr' yr. split; [|split].
    + intros t Ht. destruct (G0 t Ht) as (y' & ERun & (HL & HO) & _). exists y'. split; [exact ERun|]. split; [exact HL|]. split.
      * intros q Hq. apply HO. intros i j Hi Hj. assert (j = 0)%Z by lia. subst j. rewrite AD. now apply Hq.
      * intros r Hr. pose proof (K1 t r 0%Z Ht Hr ltac:(lia)) as Fo. cbv beta in Fo. rewrite ERun in Fo. exact Fo.
    + intros e He. eapply Rle_trans; [|exact (K2 e He)]. right. unfold probability. apply average_ext. intros t Ht. f_equal. f_equal.
      * unfold gram_gap. change (range 0 1) with [0%Z]. cbn [map Rsum]. rewrite !Rplus_0_r. rewrite <- Rsqr_pow2. now rewrite sqrt_Rsqr_abs.
      * rewrite Fr. reflexivity.
    + intros e He. eapply Rle_trans; [|exact (LK xr e He)]. apply average_le. intros t Ht. unfold exceeds, indicator.
      pose proof (K5 t (fun _ => 1) Ht) as C. cbv zeta beta in C. rewrite Fr in C.
      replace (dot 1 (fun _ => 1) (fun _ => 1)) with 1 in C by (unfold dot; change (range 0 1) with [0%Z]; cbn [map Rsum]; lra).
      assert (Ey : dot d (combine 1 (fun _ r => B2R (strided (output (vector_run x incx y incy t)) incy r)) (fun _ => 1)) (combine 1 (fun _ r => B2R (strided (output (vector_run x incx y incy t)) incy r)) (fun _ => 1)) = dot d (yr t) (yr t)).
      { apply dot_ext; intros r _; exact (C1 (yr t) r). }
      rewrite Ey in C. clear Ey.
      set (sk := fun t => sketch_of nr nc (dense_sampled cast B2R (with_blocks env seed dflt t) fsched D seed)) in *.
      assert (Ex : dot d (sk t (combine 1 (fun _ k => B2R (strided x incx k)) (fun _ => 1))) (sk t (combine 1 (fun _ k => B2R (strided x incx k)) (fun _ => 1))) = dot d (sk t xr) (sk t xr)).
      { apply dot_ext; intros r _; apply (proj2 (sketch_of_linear nr nc (dense_sampled cast B2R (with_blocks env seed dflt t) fsched D seed))); intros k _; exact (C1 xr k). }
      change (sketch_of nr nc (dense_sampled cast B2R (with_blocks env seed dflt t) fsched D seed)) with (sk t) in C |- *. rewrite Ex in C. clear Ex.
      change (fun k => B2R (strided x incx k)) with xr in C. change xr' with xr. change round with rd.
      set (Ny := dot d (yr t) (yr t)) in *. set (Nx := dot d (sk t xr) (sk t xr)) in *. set (N := dot m xr xr) in *. clearbody Ny Nx N rd. clear - C N0.
      destruct (Rlt_dec ((e + slack + rd) * N) (Rabs (Ny - N))) as [H|H]; destruct (Rlt_dec ((e + slack) * N) (Rabs (dense_iso2 D * Nx - N))) as [H'|H']; cbv iota; try lra.
      exfalso. apply Rnot_lt_le in H'. pose proof (Rabs_triang (Ny - dense_iso2 D * Nx) (dense_iso2 D * Nx - N)) as Tr.
      replace (Ny - dense_iso2 D * Nx + (dense_iso2 D * Nx - N)) with (Ny - N) in Tr by ring. nra.
Qed.
End Drivers.

(** * Uniform entries *)
Theorem C78_uniform_float :
  forall {Kt Ft} (env : dense_env Kt b32 b32) fsched (senv : sparse_env Kt Ft b32) jT jZ sched ssort nt Q blas nr nc D seed dflt alpha zs S,
    let L := g_len (env_unif env) in
    dense_hyps (fun x => x) env fsched blas nr nc Uniform D seed dflt (uneg11_blocks32 L) S -> env_scal3 env = scal3_32 -> scale_ok D alpha ->
    drivers_kept (fun x => x) env fsched senv jT jZ sched ssort nt Q blas nr nc Uniform D seed dflt (uneg11_blocks32 L) alpha zs S
      12 (-40) 100 4 (uniform_spread (/ IZR (2 ^ 20)) (Z.min nr nc) (Z.max nr nc))
      (uniform_slack (/ IZR (2 ^ 20)) (Z.max nr nc)).
Proof.
  intros Kt Ft env fsched senv jT jZ sched ssort nt Q blas nr nc D seed dflt alpha zs S L HO E3 Hsc. pose proof HO as (_ & Hf & HD & HF & Hdf & _).
  replace 4 with (2 * 2) by lra. eapply drivers_main; [exact HO| |exact Hsc|unfold ranges_ok; lra || (repeat (split; [lia|]); lra)].
  exact (ready_uniform_float env fsched nr nc D seed dflt Hf HD HF Hdf E3).
Qed.
Print Assumptions C78_uniform_float.
(** T = double, 32-bit words. *)
Theorem C78_uniform_double :
  forall {Kt Ft} (env : dense_env Kt b32 b64) fsched (senv : sparse_env Kt Ft b64) jT jZ sched ssort nt Q blas nr nc D seed dflt alpha zs S,
    let L := g_len (env_unif env) in
    dense_hyps to64 env fsched blas nr nc Uniform D seed dflt (uneg11_blocks32 L) S -> env_scal3 env = scal3_64 -> scale_ok D alpha ->
    drivers_kept to64 env fsched senv jT jZ sched ssort nt Q blas nr nc Uniform D seed dflt (uneg11_blocks32 L) alpha zs S
      26 (-850) 950 4 (uniform_spread (/ IZR (2 ^ 20)) (Z.min nr nc) (Z.max nr nc))
      (uniform_slack (/ IZR (2 ^ 20)) (Z.max nr nc)).
Proof.
  intros Kt Ft env fsched senv jT jZ sched ssort nt Q blas nr nc D seed dflt alpha zs S L HO E3 Hsc. pose proof HO as (_ & Hf & HD & HF & Hdf & _).
  replace 4 with (2 * 2) by lra. eapply drivers_main; [exact HO| |exact Hsc|unfold ranges_ok; lra || (repeat (split; [lia|]); lra)].
  exact (ready_uniform_double env fsched nr nc D seed dflt Hf HD HF Hdf E3).
Qed.
Print Assumptions C78_uniform_double.
(** T = double, 64-bit words. *)
Theorem C78_uniform_wide_words :
  forall {Kt Ft} (env : dense_env Kt b64 b64) fsched (senv : sparse_env Kt Ft b64) jT jZ sched ssort nt Q blas nr nc D seed dflt alpha zs S,
    let L := g_len (env_unif env) in
    dense_hyps (fun x => x) env fsched blas nr nc Uniform D seed dflt (uneg11_blocks64 L) S -> env_scal3 env = scal3_64 -> scale_ok D alpha ->
    drivers_kept (fun x => x) env fsched senv jT jZ sched ssort nt Q blas nr nc Uniform D seed dflt (uneg11_blocks64 L) alpha zs S
      26 (-850) 950 4 (uniform_spread (/ IZR (2 ^ 49)) (Z.min nr nc) (Z.max nr nc))
      (uniform_slack (/ IZR (2 ^ 49)) (Z.max nr nc)).
Proof.
  intros Kt Ft env fsched senv jT jZ sched ssort nt Q blas nr nc D seed dflt alpha zs S L HO E3 Hsc. pose proof HO as (_ & Hf & HD & HF & Hdf & _).
  replace 4 with (2 * 2) by lra. eapply drivers_main; [exact HO| |exact Hsc|unfold ranges_ok; lra || (repeat (split; [lia|]); lra)].
  exact (ready_uniform_wide_words env fsched nr nc D seed dflt Hf HD HF Hdf E3).
Qed.
Print Assumptions C78_uniform_wide_words.
(** * Gaussian entries; of sincos and log only an accuracy eps is assumed *)
Theorem C78_gaussian_float :
  forall {Kt Ft} (env : dense_env Kt b32 b32) fsched (senv : sparse_env Kt Ft b32) jT jZ sched ssort nt Q blas nr nc D seed dflt alpha zs S junk sincosf logf eps,
    let L := g_len (env_gauss env) in let blocks := map (boxmul_block (boxmuller_32 sincosf logf) junk) (tapes (Z.to_nat L) (range 0 (2 ^ 32))) in
    dense_hyps (fun x => x) env fsched blas nr nc Gaussian D seed dflt blocks S -> nr <> nc -> Z.even L = true -> libm_accurate sincosf logf eps -> 0 <= eps <= / 4096 -> scale_ok D alpha ->
    drivers_kept (fun x => x) env fsched senv jT jZ sched ssort nt Q blas nr nc Gaussian D seed dflt blocks alpha zs S
      12 (-40) 100 49 (gaussian_spread (79 / IZR (2 ^ 24) + 5 * eps) (Z.min nr nc) (Z.max nr nc))
      (gaussian_slack (79 / IZR (2 ^ 24) + 5 * eps) (48 * (79 / IZR (2 ^ 24) + 5 * eps)) (Z.max nr nc)).
Proof.
  intros Kt Ft env fsched senv jT jZ sched ssort nt Q blas nr nc D seed dflt alpha zs S junk sincosf logf eps L blocks HO Hsq Ev Hl He Hsc. pose proof HO as (_ & Hf & HD & HF & Hdf & _).
  replace 49 with (7 * 7) by lra. eapply drivers_main; [exact HO| |exact Hsc|unfold ranges_ok; lra || (repeat (split; [lia|]); lra)].
  exact (ready_gaussian_float env fsched nr nc D seed dflt junk sincosf logf eps Hf HD HF Hdf Hsq Ev Hl He).
Qed.
Print Assumptions C78_gaussian_float.
(** T = double, 32-bit words. *)
Theorem C78_gaussian_double :
  forall {Kt Ft} (env : dense_env Kt b32 b64) fsched (senv : sparse_env Kt Ft b64) jT jZ sched ssort nt Q blas nr nc D seed dflt alpha zs S junk sincosf logf eps,
    let L := g_len (env_gauss env) in let blocks := map (boxmul_block (boxmuller_32 sincosf logf) junk) (tapes (Z.to_nat L) (range 0 (2 ^ 32))) in
    dense_hyps to64 env fsched blas nr nc Gaussian D seed dflt blocks S -> nr <> nc -> Z.even L = true -> libm_accurate sincosf logf eps -> 0 <= eps <= / 4096 -> scale_ok D alpha ->
    drivers_kept to64 env fsched senv jT jZ sched ssort nt Q blas nr nc Gaussian D seed dflt blocks alpha zs S
      26 (-850) 950 49 (gaussian_spread (79 / IZR (2 ^ 24) + 5 * eps) (Z.min nr nc) (Z.max nr nc))
      (gaussian_slack (79 / IZR (2 ^ 24) + 5 * eps) (48 * (79 / IZR (2 ^ 24) + 5 * eps)) (Z.max nr nc)).
Proof.
  intros Kt Ft env fsched senv jT jZ sched ssort nt Q blas nr nc D seed dflt alpha zs S junk sincosf logf eps L blocks HO Hsq Ev Hl He Hsc. pose proof HO as (_ & Hf & HD & HF & Hdf & _).
  replace 49 with (7 * 7) by lra. eapply drivers_main; [exact HO| |exact Hsc|unfold ranges_ok; lra || (repeat (split; [lia|]); lra)].
  exact (ready_gaussian_double env fsched nr nc D seed dflt junk sincosf logf eps Hf HD HF Hdf Hsq Ev Hl He).
Qed.
Print Assumptions C78_gaussian_double.
(** T = double, 64-bit words. *)
Theorem C78_gaussian_wide_words :
  forall {Kt Ft} (env : dense_env Kt b64 b64) fsched (senv : sparse_env Kt Ft b64) jT jZ sched ssort nt Q blas nr nc D seed dflt alpha zs S junk sincos log eps,
    let L := g_len (env_gauss env) in let blocks := map (boxmul_block (boxmuller_64 sincos log) junk) (tapes (Z.to_nat L) (range 0 (2 ^ 64))) in
    dense_hyps (fun x => x) env fsched blas nr nc Gaussian D seed dflt blocks S -> nr <> nc -> Z.even L = true -> libm_accurate sincos log eps -> 0 <= eps <= / 4096 -> scale_ok D alpha ->
    drivers_kept (fun x => x) env fsched senv jT jZ sched ssort nt Q blas nr nc Gaussian D seed dflt blocks alpha zs S
      26 (-850) 950 100 (gaussian_spread (79 / IZR (2 ^ 53) + 5 * eps) (Z.min nr nc) (Z.max nr nc))
      (gaussian_slack (79 / IZR (2 ^ 53) + 5 * eps) (92 * (79 / IZR (2 ^ 53) + 5 * eps)) (Z.max nr nc)).
Proof.
  intros Kt Ft env fsched senv jT jZ sched ssort nt Q blas nr nc D seed dflt alpha zs S junk sincos log eps L blocks HO Hsq Ev Hl He Hsc. pose proof HO as (_ & Hf & HD & HF & Hdf & _).
  replace 100 with (10 * 10) by lra. eapply drivers_main; [exact HO| |exact Hsc|unfold ranges_ok; lra || (repeat (split; [lia|]); lra)].
  exact (ready_gaussian_wide_words env fsched nr nc D seed dflt junk sincos log eps Hf HD HF Hdf Hsq Ev Hl He).
Qed.
Print Assumptions C78_gaussian_wide_words.

(** A 4096 by 100000 operator with uniform entries in double precision, from 32-bit words, not filled, with a gemm that uses fused
    operations.  The all-ones symmetric matrix meets the hypotheses at tolerance zero.  Applied to a vector of 100000 ones, the
    squared length of the computed vector is between 74000 and 126000 except with probability at most 10^-17. *)
Example C78_case :
  let s := mk_state 7 tt in let x := repeat one64 (Z.to_nat 100000) in let y := repeat one64 (Z.to_nat 4096) in
  let A := repeat one64 (Z.to_nat 10000000000) in let B := repeat one64 (Z.to_nat 409600000) in let Sk := fun _ => fresh4096 U4096 in
  dense_hyps to64 env_u64 seq_schedule fma_blas 4096 100000 Uniform U4096 s dflt2 (uneg11_blocks32 2) Sk /\
  symmetric_hyps (PropsUtil.fcmp 53 1024 _ _) 4096 100000 ColMajor A 100000 B 4096 (B754_zero false) 4096 100000 /\
  sizes_ok 4096 100000 100000 26 (-850) 950 (column (prec := 53) (emax := 1024) ColMajor A 100000) /\
  let draws := tapes (Z.to_nat (dense_blocks U4096 2)) (uneg11_blocks32 2) in
  let yr t r := B2R (strided (prec := 53) (emax := 1024) (output (vector_run to64 env_u64 seq_schedule gram_env one64 0 seq_schedule isort 1 fma_blas 4096 100000 s dflt2 inv64_64 false Sk x 1 y 1 t)) 1 r) in
  probability draws (fun t => exceeds (Rabs (dot 4096 (yr t) (yr t) - 100000)) 26000) <= / 100000000000000000.
Proof.
  intros s x y A B Sk.
  assert (One : B2R one64 = 1) by (unfold one64; rewrite B2R_pow52; reflexivity).
  assert (HO : dense_hyps to64 env_u64 seq_schedule fma_blas 4096 100000 Uniform U4096 s dflt2 (uneg11_blocks32 2) Sk).
  { split; [apply C65_promise_kept|]. split; [apply seq_schedule_valid|]. split; [reflexivity|]. split.
    { split; [split; apply gen22_wf; reflexivity|]. repeat split; cbn; lia. }
    split; [reflexivity|]. intros t _. left. reflexivity. }
  assert (GA : forall p, (0 <= p < 10000000000)%Z -> get A p = Some one64) by (intros p Hp; unfold A; rewrite get_repeat; [reflexivity|lia]).
  assert (LA : zlen A = 10000000000%Z) by (unfold A; rewrite zlen_repeat; lia). assert (LB : zlen B = 409600000%Z) by (unfold B; rewrite zlen_repeat; lia).
  assert (Gx : forall p, (0 <= p < 100000)%Z -> get x p = Some one64) by (intros p Hp; unfold x; rewrite get_repeat; [reflexivity|lia]).
  assert (Lx : zlen x = 100000%Z) by (unfold x; rewrite zlen_repeat; lia). assert (Ly : zlen y = 4096%Z) by (unfold y; rewrite zlen_repeat; lia).
  clearbody A B x y.
  assert (FA : fits_buffer ColMajor 100000 100000 100000 (zlen A)) by (split; [cbn; lia|intros i j Hi Hj; cbn [addr]; rewrite LA; lia]).
  assert (CA : forall i j, (0 <= i < 100000)%Z -> (0 <= j < 100000)%Z -> SpmmSpec.cell (fops 53 1024) ColMajor 100000 A i j = one64).
  { intros i j Hi Hj. unfold SpmmSpec.cell. cbn [addr]. rewrite GA by lia. reflexivity. }
  assert (Sq : scale_ok U4096 inv64_64).
  { assert (Inv : B2R inv64_64 = / 64) by (unfold inv64_64; rewrite B2R_pow52; reflexivity). split; [reflexivity|]. rewrite Inv. replace (sqrt (dense_iso2 U4096)) with (/ 64).
    - rewrite Rminus_eq_0, Rabs_R0. apply Rmult_le_pos; [|lra]. apply Rmult_le_pos; [lra|apply bpow_ge_0].
    - symmetry. unfold dense_iso2. cbn [dd_iso_inv2 U4096]. apply sqrt_lem_1; lra. }
  assert (Rng : forall z, 1 <= z <= 10000000000 -> bpow radix2 (2 * -850) <= z <= bpow radix2 (2 * 950)).
  { intros z Hz. split; [apply (Rle_trans _ (bpow radix2 0)); [apply bpow_le; lia|cbn; lra]|apply (Rle_trans _ (bpow radix2 34)); [cbn; lra|apply bpow_le; lia]]. }
  assert (D1 : forall f : Z -> R, (forall k, (0 <= k < 100000)%Z -> f k = 1) -> dot 100000 f f = 100000).
  { intros f Hf. unfold dot. rewrite (Rsum_ext _ (fun _ => 1)); [rewrite Rsum_range_const by lia; lra|]. intros k Hk. apply in_range in Hk. rewrite Hf by lia. lra. }
  split; [exact HO|]. split; [|split].
  - change (Z.max 4096 100000) with 100000%Z. split; [|split; [exact FA|split]].
    + apply (PropsUtil.C54_exact (fops 53 1024) (PropsUtil.fcmp 53 1024 _ _) ColMajor A 100000 100000 (B754_zero false) FA). right. intros (i & j & a & b & Hi & Hj & Ga & Gb & Lt).
      unfold mat in Ga, Gb. cbn [addr] in Ga, Gb. rewrite GA in Ga, Gb by lia. injection Ga as <-. injection Gb as <-. vm_compute in Lt. discriminate.
    + split; [cbn; lia|]. intros i j Hi Hj. cbn [addr]. rewrite LB. lia.
    + intros i j Hi Hj. rewrite CA by assumption. reflexivity.
  - split; [vm_compute; congruence|]. split; [lia|]. change (Z.max 4096 100000) with 100000%Z.
    assert (Fr : frob2 100000 100000 (column (prec := 53) (emax := 1024) ColMajor A 100000) = 10000000000).
    { unfold frob2. rewrite (Rsum_ext _ (fun _ => 100000)); [rewrite Rsum_range_const by lia; lra|]. intros j Hj. apply in_range in Hj. apply D1. intros k Hk. unfold column. rewrite CA by lia. exact One. }
    rewrite Fr. apply Rng. lra.
  - intros draws yr.
    destruct (C78_uniform_double env_u64 seq_schedule gram_env one64 0%Z seq_schedule isort 1%Z (PropsUtil.fcmp 53 1024 _ _) fma_blas 4096%Z 100000%Z U4096 s dflt2 inv64_64 false Sk HO eq_refl Sq) as (_ & _ & K).
    assert (Sx : forall k, (0 <= k < 100000)%Z -> strided (prec := 53) (emax := 1024) x 1 k = one64) by (intros k Hk; unfold strided; rewrite Z.mul_1_r, Gx by lia; reflexivity).
    assert (N : dot 100000 (fun k => B2R (strided x 1 k)) (fun k => B2R (strided x 1 k)) = 100000) by (apply D1; intros k Hk; rewrite Sx by lia; exact One).
    specialize (K x 1%Z y 1%Z). change (Z.max 4096 100000) with 100000%Z in K. change (Z.min 4096 100000) with 4096%Z in K.
    destruct K as (_ & _ & K).
    { split; [lia|]. split; [lia|]. change (Z.max 4096 100000) with 100000%Z. change (Z.min 4096 100000) with 4096%Z. rewrite Lx, Ly. split; [lia|]. split; [lia|]. intros k Hk. rewrite Sx by assumption. reflexivity. }
    { vm_compute; congruence. }
    { rewrite N. apply Rng. lra. }
    change (Z.max 4096 100000) with 100000%Z in K. change (Z.min 4096 100000) with 4096%Z in K. rewrite N in K.
    change (dense_blocks U4096 (g_len (env_gen env_u64 Uniform))) with (dense_blocks U4096 2) in K. change (uneg11_blocks32 (g_len (env_unif env_u64))) with (uneg11_blocks32 2) in K.
    change (tapes _ _) with draws in K. specialize (K (/ 4) ltac:(lra)). clearbody draws. eapply Rle_trans; [|eapply Rle_trans; [exact K|]].
    + apply average_le. intros t _. change (fun r => B2R (strided (output (vector_run to64 env_u64 seq_schedule gram_env one64 0 seq_schedule isort 1 fma_blas 4096 100000 s dflt2 inv64_64 false Sk x 1 y 1 t)) 1 r)) with (yr t).
      set (p := Rabs _). clearbody p. unfold exceeds, indicator.
      assert (Us : bpow radix2 (- (53)) * 9007199254740992 = 1) by (change 9007199254740992 with (bpow radix2 53); rewrite <- bpow_plus; reflexivity).
      revert Us. generalize (bpow radix2 (- (53))). intros v Us.
      assert (Q : sqrt 100000 <= 317). { rewrite <- (sqrt_square 317) by lra. apply sqrt_le_1_alt. lra. }
      assert (Sl : uniform_slack (/ IZR (2 ^ 20)) 100000 <= 1 / 1000) by (unfold uniform_slack; change (IZR (2 ^ 20)) with 1048576; cbn [pow]; lra).
      set (sl := uniform_slack _ _) in *. clearbody sl. clear - Us Sl.
      destruct (Rlt_dec 26000 p) as [H|H]; destruct (Rlt_dec _ p) as [H'|H']; cbv iota; try lra.
    + assert (E : exp (- (4096 * (/ 4) ^ 2 / 6)) <= exp (- INR 42)).
      { destruct (Rle_lt_or_eq_dec (- (4096 * (/ 4) ^ 2 / 6)) (- INR 42)) as [H|H]; [cbn [pow]; rewrite INR_IZR_INZ; change (Z.of_nat 42) with 42%Z; lra|apply Rlt_le, exp_increasing, H|right; now f_equal]. }
      assert (E1 : 2.7 <= exp 1).
      { replace (exp 1) with (exp (/ 128) ^ 128). 2: { rewrite exp_pow. f_equal. rewrite INR_IZR_INZ. change (Z.of_nat 128) with 128%Z. lra. }
        apply (Rle_trans _ ((129 / 128) ^ 128)); [lra|]. apply pow_incr. pose proof (exp_ineq1_le (/ 128)). lra. }
      assert (E2 : exp (- INR 42) <= / 2.7 ^ 42).
      { rewrite exp_Ropp. apply Rinv_le_contravar; [apply pow_lt; lra|]. rewrite <- (Rmult_1_r (INR 42)), <- exp_pow. apply pow_incr. lra. }
      apply (Rle_trans _ (2 * / 2.7 ^ 42)); [apply Rmult_le_compat_l; lra|]. lra.
Qed.
