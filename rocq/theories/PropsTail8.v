(** The numbers sketch_symmetric and sketch_vector compute with sparse operators keep Gram matrices, distances,
    combinations of columns and lengths (C80).

    Definitions read by these statements: [operator_hyps], [filled] (PropsGram.v, PropsGram3.v) as for C69; [failure_ok] (PropsTail5.v),
    [computed_distances_within], [computed_combinations_within] (TailSpec.v) as for C76; [spread] (PropsNorm.v), [frob2], [gram_gap], [exceeds];
    [cell], [fits_buffer] (SpmmSpec.v), [others_kept] (RoundSpec.v), [output] (GramSpec.v).

    Everything the calls compute is floating-point: products, sums, the scaling by alpha. *)
From Coq Require Import ZArith Reals Lra Psatz.
From Flocq Require Import Core BinarySingleNaN.
From Verif Require PropsUtil DenseIsoProofs.
From Verif Require Import Base Interleave Spec UtilModel UtilSpec RngModel DenseModel DenseSpec SparseSkopModel FySpec FyProofs SparseSpec SparseProofs SparseProofs2 SpFmtModel SpFmtSpec SpmmModel SpmmSpec
  SketchModel SketchSpec SketchProofs3 PropsSpFmt FloatModel RoundModel RoundSpec RoundSpec2 PropsRound PropsRoundFinite
  IsoSpec IsoProofs PropsIso StatSpec StatProofs NormSpec NormProofs NormProofs3 NormProofs4 PropsNorm GramSpec GramProofs GramProofs2 GramProofs3 GramProofs4 PropsGram PropsGram3
  TailSpec TailProofs3 PropsTail4 TailComputed2 PropsTail5.
Import ListNotations.
Local Open Scope R_scope.

Section Drivers.
Context {prec emax : Z} {pp : Prec_gt_0 prec} {pe : Prec_lt_emax prec emax}.
Local Notation bf := (binary_float prec emax).
Context {Kt Wt F : Type}.
Variables (cast : Wt -> bf) (denv : dense_env Kt Wt bf) (fsched : schedule bf).
Variable env : sparse_env Kt F bf.
Variables (jT : bf) (jZ : Z).
Variable sched : schedule (list bf).
Variable ssort : (Z * Z * bf -> Z * Z * bf -> bool) -> list (Z * Z * bf) -> list (Z * Z * bf).
Variable nt : Z.
Variable Q : cmp_ops bf.
Variable D : sparse_dist.
Variable seed : rng_state Kt.
Variable W : Z.
Variables (alpha : bf) (zs : bool).
(** The operator of a draw: may be filled in some draws and not in others. *)
Variable S : list Z -> sparse_skop Kt bf.
Notation d := (Z.min (sd_rows D) (sd_cols D)).
Notation m := (Z.max (sd_rows D) (sd_cols D)).
Notation O := (fops prec emax).
Notation u := (bpow radix2 (- prec)).
Notation draws := (tapes (Z.to_nat (sd_full_nnz D * g_len (se_raw env))) (range 0 (2 ^ W))).
Notation cell := SpmmSpec.cell.
Notation zero := (B754_zero zs).
Notation round := (2 * (IZR m + 12) * (IZR m + 12) * u).

(** Any schedule and any sort of the standard library; alpha is the isometry scale up to eight rounding errors. *)
Definition driver_hyps : Prop :=
  valid_schedule sched /\ sort_ok ssort /\ is_finite alpha = true /\ Rabs (B2R alpha - sqrt (iso2 D)) <= 8 * u * sqrt (iso2 D).

(** ** sketch_symmetric *)
Section Symmetric.
Variables (l : layout) (A : list bf) (lda : Z) (B : list bf) (ldb : Z) (tol : bf).
(** The check for symmetry accepts the m x m matrix A; buffers are large enough; finite data. *)
Definition symmetric_hyps (rows cols : Z) : Prop :=
  require_symmetric O Q l A m lda tol = Ok tt /\ fits_buffer l lda m m (zlen A) /\ fits_buffer l ldb rows cols (zlen B) /\
  forall i j, (0 <= i < m)%Z -> (0 <= j < m)%Z -> is_finite (cell O l lda A i j) = true.
(** sketch_symmetric(layout, alpha, S, A, lda, 0, B, ldb, tol). *)
Definition symmetric_left (t : list Z) : outcome (@skop Kt bf * list bf) :=
  sketch_symmetric_left_full O cast denv fsched (with_words env seed t) jT jZ sched ssort nt Q l alpha (SkSparse (S t)) A lda zero B ldb tol.
(** sketch_symmetric(layout, alpha, A, lda, S, 0, B, ldb, tol). *)
Definition symmetric_right (t : list Z) : outcome (@skop Kt bf * list bf) :=
  sketch_symmetric_right_full O cast denv fsched (with_words env seed t) jT jZ sched ssort nt Q l alpha A lda (SkSparse (S t)) zero B ldb tol.
(** Column j of A, row j of A, as real numbers. *)
Definition column : Z -> Z -> R := fun j k => B2R (cell O l lda A k j).
Definition row : Z -> Z -> R := fun j k => B2R (cell O l lda A j k).
(** Every draw gives finite numbers and changes nothing else; their Gram matrix is that of the data up to a factor e + round of its squared
    norm except with probability spread / e^2; distances and combinations are kept except with the probabilities of C76. *)
Definition symmetric_kept (run : list Z -> outcome (@skop Kt bf * list bf)) (rows cols : Z) (X : Z -> Z -> R) (at_ : list bf -> Z -> Z -> bf) (least : R) : Prop :=
  let Y t j r := B2R (at_ (output (run t)) r j) in
  (forall t, In t draws -> exists S' B', run t = Ok (SkSparse S', B') /\ others_kept l rows cols B ldb B' /\
     forall r j, (0 <= r < d)%Z -> (0 <= j < m)%Z -> is_finite (at_ B' r j) = true) /\
  (forall e, 0 < e -> probability draws (fun t => exceeds (gram_gap m d (Y t) m X) ((e + round) * frob2 m m X)) <= spread D W / e ^ 2) /\
  forall e delta, failure_ok D W e delta ->
    computed_distances_within draws d m m X Y e delta round least /\ computed_combinations_within draws d m m X Y e delta round.
End Symmetric.

(** ** sketch_vector *)
Section Vector.
Variables (x : list bf) (incx : Z) (y : list bf) (incy : Z).
(** Element k of a vector with a stride. *)
Definition strided (x : list bf) (incx k : Z) : bf := match get x (k * incx) with Some z => z | None => o_zero O end.
(** Positive strides, vectors of m and d elements, finite data. *)
Definition vector_hyps : Prop :=
  (1 <= incx)%Z /\ (1 <= incy)%Z /\ ((m - 1) * incx < zlen x)%Z /\ ((d - 1) * incy < zlen y)%Z /\
  forall k, (0 <= k < m)%Z -> is_finite (strided x incx k) = true.
(** sketch_vector(opS, alpha, S, x, incx, 0, y, incy): a wide operator is applied as it is, a tall one transposed. *)
Definition vector_run (t : list Z) : outcome (@skop Kt bf * list bf) :=
  sketch_vector_full O cast denv fsched (with_words env seed t) jT jZ sched ssort nt (if (sd_rows D <=? sd_cols D)%Z then NoTrans else Trans) alpha (SkSparse (S t)) x incx zero y incy.
(** Every draw gives finite numbers and changes nothing else; the squared length of y is that of x up to a factor e + round except with
    probability spread / e^2, and except with any of the failure probabilities of C75. *)
Definition vector_kept : Prop :=
  let xr k := B2R (strided x incx k) in let yr t r := B2R (strided (output (vector_run t)) incy r) in
  let off e t := exceeds (Rabs (dot d (yr t) (yr t) - dot m xr xr)) ((e + round) * dot m xr xr) in
  (forall t, In t draws -> exists S' y', vector_run t = Ok (SkSparse S', y') /\ zlen y' = zlen y /\
     (forall q, (forall r, (0 <= r < d)%Z -> (r * incy)%Z <> q) -> get y' q = get y q) /\
     forall r, (0 <= r < d)%Z -> is_finite (strided y' incy r) = true) /\
  (forall e, 0 < e -> probability draws (off e) <= spread D W / e ^ 2) /\
  forall e delta, failure_ok D W e delta -> probability draws (off e) <= delta.
End Vector.

(** All three: sketch_symmetric from the left (wide and square operators) and from the right (tall operators, filled),
    sketch_vector.  The data have squared norm between least and most. *)
Definition sparse_drivers_kept (least most : R) : Prop :=
  (forall l A lda B ldb tol, (sd_rows D <= sd_cols D)%Z -> symmetric_hyps l A lda B ldb tol d m -> least <= frob2 m m (column l A lda) <= most ->
     symmetric_kept l B ldb (symmetric_left l A lda B ldb tol) d m (column l A lda) (fun B' r j => cell O l ldb B' r j) least) /\
  (forall l A lda B ldb tol, (sd_cols D < sd_rows D)%Z -> filled env jT jZ D seed W S -> symmetric_hyps l A lda B ldb tol m d -> least <= frob2 m m (row l A lda) <= most ->
     symmetric_kept l B ldb (symmetric_right l A lda B ldb tol) m d (row l A lda) (fun B' r j => cell O l ldb B' j r) least) /\
  (forall x incx y incy, vector_hyps x incx y incy -> let xr k := B2R (strided x incx k) in
     least <= dot m xr xr <= most -> vector_kept x incx y incy).

Section Main.
Variables M lo hi N : R.
Hypothesis HO : operator_hyps env jT jZ D seed W S.
Hypothesis HC : driver_hyps.
Hypothesis Hp : (20 <= prec)%Z.
Hypothesis Hmu : (IZR m + 2) * (IZR m + 2) * u <= 1.
Hypothesis H1 : IZR m <= M.
Hypothesis H2 : 1 <= M.
Hypothesis H3 : M <= N.
Hypothesis H3' : 2 <= N.
Hypothesis H4 : 0 < lo <= 1.
Hypothesis H5 : 1 <= hi.
Hypothesis H7 : (16 * @half_tiny prec emax * M / lo) * (16 * @half_tiny prec emax * M / lo) * (N * M) <= u * u * (u * u).
Hypothesis H8 : 64 * M * hi <= bpow radix2 (emax - 1).

Lemma dist_is t : In t draws -> ss_dist (S t) = D.
Proof.
  intros Ht. pose proof (real_hyps env jT jZ D seed W S HO) as Henv. destruct HO as (We & _ & _ & _ & _ & _ & _ & _ & _ & _ & HS).
  destruct (HS t Ht) as [->|Hf]; [reflexivity|].
  destruct (fill_sparse_spec (with_words env seed t) jT jZ (mk_sparse_skop (with_words env seed t) D seed) (samplable_with env D seed W Henv (ws_sqrt1 env We) t) (mk_buffers_ok (with_words env seed t) D seed))
    as (S' & E' & D1 & _). rewrite Hf in E'. injection E' as <-. exact D1.
Qed.
Lemma dims_ok : (0 <= m)%Z /\ (0 <= d)%Z.
Proof. destruct HO as (_ & _ & _ & HD & _). destruct (valid_sdist_inv D HD) as (P1 & P2 & _). lia. Qed.

(** One side of sketch_symmetric. *)
Lemma sym_side l rows cols B ldb (run : list Z -> outcome (@skop Kt bf * list bf)) (E : Z -> Z -> bf) (at_ : list bf -> Z -> Z -> bf) :
  (forall k j, (0 <= k < m)%Z -> (0 <= j < m)%Z -> is_finite (E k j) = true) -> lo * lo <= frob2 m m (fun j k => B2R (E k j)) <= hi * hi ->
  (forall t, In t draws -> exists S' B', run t = Ok (SkSparse S', B') /\ others_kept l rows cols B ldb B' /\
      forall r j, (0 <= r < d)%Z -> (0 <= j < m)%Z -> surely_near alpha (terms (ent env D seed t) E m r j) zero (at_ B r j) (at_ B' r j)) ->
  symmetric_kept l B ldb run rows cols (fun j k => B2R (E k j)) at_ (lo * lo).
Proof.
  intros Hfin Hsz G0. pose proof (real_hyps env jT jZ D seed W S HO) as Henv. destruct dims_ok as [M0 _].
  destruct HO as (We & [F1 E1] & [F2 E2] & _). destruct HC as (_ & _ & Fal & Hal).
  assert (Hm : IZR m <= N) by lra.
  assert (Ho : forall t r j, In t draws -> (0 <= r < d)%Z -> (0 <= j < m)%Z ->
    surely_near alpha (terms (ent env D seed t) E m r j) zero (at_ B r j) (at_ (output (run t)) r j)).
  { intros t r j Ht Hr Hj. destruct (G0 t Ht) as (S' & B' & ERun & _ & G). rewrite ERun. cbn [output]. now apply G. }
  split; [|split].
  - intros t Ht. destruct (G0 t Ht) as (S' & B' & ERun & HK & _). exists S', B'. split; [exact ERun|]. split; [exact HK|]. intros r j Hr Hj.
    pose proof (cols_finite env jT D seed W F1 F2 Henv (ws_sqrt1 env We) alpha zs Fal Hal Hp Hmu M lo hi N H1 H2 H4 H5 H7 H8 m E (fun t r j => at_ (output (run t)) r j) (fun r j => at_ B r j) M0 Hm Hfin Hsz Ho t r j Ht Hr Hj) as G.
    cbv beta in G. rewrite ERun in G. exact G.
  - intros e He.
    exact (cols_gram env jT D seed W F1 F2 Henv (ws_sqrt1 env We) alpha zs Fal Hal Hp Hmu M lo hi N H1 H2 H4 H5 H7 H8 m E (fun t r j => at_ (output (run t)) r j) (fun r j => at_ B r j) M0 Hm Hfin Hsz Ho e He).
  - intros e delta Hde. assert (He : 0 <= e) by (destruct Hde as [He _]; lra).
    exact (sparse_both env jT D seed W F1 F2 Henv (ws_sqrt1 env We) alpha zs Fal Hal Hp Hmu M lo hi N H1 H2 H4 H5 H7 H8 m E (fun t r j => at_ (output (run t)) r j) (fun r j => at_ B r j) e delta
      M0 Hm H3' Hfin Hsz Ho He (failure_geometry (real_env env) D seed W e delta Henv Hde)).
Qed.

Lemma drivers_main : sparse_drivers_kept (lo * lo) (hi * hi).
Proof.
  pose proof (real_hyps env jT jZ D seed W S HO) as Henv. destruct dims_ok as [M0 D0]. pose proof dist_is as Ed.
  pose proof HO as (We & [F1 E1] & [F2 E2] & HD & _ & _ & _ & _ & _ & _ & HS). pose proof HC as (Hsc & Hso & Fal & Hal).
  split; [|split].
  - intros l A lda B ldb tol Hw (Hsym & FA & FB & Hfin) Hsz.
    apply (sym_side l d m B ldb (symmetric_left l A lda B ldb tol) (fun k j => cell O l lda A k j) (fun B' r j => cell O l ldb B' r j) Hfin Hsz).
    intros t Ht. destruct (run_ok cast denv fsched env jT jZ sched ssort nt Hsc Hso D seed W F1 F2 Henv (ws_sqrt1 env We) l NoTrans m alpha zs A lda B ldb S HS M0 FA FB t Ht) as (S' & B' & E & K & G).
    exists S', B'. unfold out in G. rewrite E in G. split; [|split; [exact K|exact G]].
    rewrite <- E. unfold symmetric_left, sketch_symmetric_left_full, run, opS, sketch_general_left_full. cbn [skop_rows skop_cols]. rewrite (Ed t Ht).
    rewrite (proj2 (Z.leb_le _ _) Hw). rewrite (Z.max_r _ _ Hw) in Hsym |- *. rewrite (Z.min_l _ _ Hw). rewrite Hsym. rewrite !Z.eqb_refl. reflexivity.
  - intros l A lda B ldb tol Hw Hf (Hsym & FA & FB & Hfin) Hsz.
    apply (sym_side l m d B ldb (symmetric_right l A lda B ldb tol) (fun k j => cell O l lda A j k) (fun B' r j => cell O l ldb B' j r) (fun k j Hk Hj => Hfin j k Hj Hk) Hsz).
    intros t Ht. destruct (right_run_ok cast denv fsched env jT jZ sched ssort nt Hsc Hso D seed W F1 F2 Henv (ws_sqrt1 env We) l NoTrans m alpha zs A lda B ldb M0 FA FB (S t) t (Hf t Ht)) as (S' & B' & E & K & G).
    exists S', B'. rewrite E in G. split; [|split; [exact K|exact G]].
    rewrite <- E. unfold symmetric_right, sketch_symmetric_right_full, right_run, sketch_general_right_full. cbn [skop_rows skop_cols]. rewrite (Ed t Ht).
    rewrite (proj2 (Z.leb_gt _ _) Hw). rewrite (Z.max_l (sd_rows D) (sd_cols D)) in Hsym |- * by lia. rewrite (Z.min_r (sd_rows D) (sd_cols D)) by lia. rewrite Hsym. rewrite !Z.eqb_refl. reflexivity.
  - intros x incx y incy (Hx & Hy & Lx & Ly & Hfin) xr Hsz.
    assert (FA : fits_buffer RowMajor incx m 1 (zlen x)).
    { split; [cbn; lia|]. intros i j Hi Hj. cbn [addr]. assert (j = 0)%Z by lia. subst j. clear - Hi Lx Hx. nia. }
    assert (FB : fits_buffer RowMajor incy d 1 (zlen y)).
    { split; [cbn; lia|]. intros i j Hi Hj. cbn [addr]. assert (j = 0)%Z by lia. subst j. clear - Hi Ly Hy. nia. }
    assert (AD : forall i ld, addr RowMajor ld i 0 = (i * ld)%Z) by (intros; cbn [addr]; lia).
    assert (CE : forall (a : list bf) ld k, cell O RowMajor ld a k 0 = strided a ld k) by (intros; unfold SpmmSpec.cell, strided; now rewrite AD).
    assert (G0 : forall t, In t draws -> exists S' y', vector_run x incx y incy t = Ok (SkSparse S', y') /\ others_kept RowMajor d 1 y incy y' /\
      forall r j, (0 <= r < d)%Z -> (0 <= j < 1)%Z -> surely_near alpha (terms (ent env D seed t) (fun k _ => strided x incx k) m r j) zero (strided y incy r) (strided y' incy r)).
    { intros t Ht. destruct (run_ok cast denv fsched env jT jZ sched ssort nt Hsc Hso D seed W F1 F2 Henv (ws_sqrt1 env We) RowMajor NoTrans 1 alpha zs x incx y incy S HS Z.le_0_1 FA FB t Ht) as (S' & y' & E & K & G).
      exists S', y'. unfold out in G. rewrite E in G. cbn [output] in G. split; [|split; [exact K|]].
      - rewrite <- E. unfold vector_run, sketch_vector_full, sketch_vector, run, opS, sketch_general_left_full. cbn [skop_rows skop_cols]. rewrite (Ed t Ht).
        destruct (Z.leb_spec (sd_rows D) (sd_cols D)) as [H|H].
        + rewrite (Z.max_r (sd_rows D) (sd_cols D)), (Z.min_l (sd_rows D) (sd_cols D)) by lia. rewrite !Z.eqb_refl. reflexivity.
        + rewrite (Z.max_l (sd_rows D) (sd_cols D)), (Z.min_r (sd_rows D) (sd_cols D)) by lia. rewrite !Z.eqb_refl. reflexivity.
      - intros r j Hr Hj. specialize (G r 0%Z Hr ltac:(lia)). rewrite !CE in G.
        assert (ET : terms (ent env D seed t) (fun k j => op_ent NoTrans (cell O RowMajor incx x) k j) m r 0 = terms (ent env D seed t) (fun k _ => strided x incx k) m r j).
        { unfold terms. rewrite !flat_map_concat_map. f_equal. apply map_ext. intros k. cbn [op_ent]. now rewrite CE. }
        rewrite ET in G. exact G. }
    assert (Fr : forall X : Z -> R, frob2 1 m (fun _ => X) = dot m X X) by (intros X; unfold frob2; change (range 0 1) with [0%Z]; cbn [map Rsum]; lra).
    assert (Sz : lo * lo <= frob2 1 m (fun _ k => B2R (strided x incx k)) <= hi * hi) by (rewrite Fr; exact Hsz).
    assert (N1 : IZR 1 <= N) by lra.
    assert (Ho : forall t r j, In t draws -> (0 <= r < d)%Z -> (0 <= j < 1)%Z ->
      surely_near alpha (terms (ent env D seed t) (fun k _ => strided x incx k) m r j) zero (strided y incy r) (strided (output (vector_run x incx y incy t)) incy r)).
    { intros t r j Ht Hr Hj. destruct (G0 t Ht) as (S' & y' & ERun & _ & G). rewrite ERun. cbn [output]. now apply G. }
    pose proof (cols_finite env jT D seed W F1 F2 Henv (ws_sqrt1 env We) alpha zs Fal Hal Hp Hmu M lo hi N H1 H2 H4 H5 H7 H8 1 (fun k _ => strided x incx k) (fun t r _ => strided (output (vector_run x incx y incy t)) incy r) (fun r _ => strided y incy r) Z.le_0_1 N1 (fun k _ Hk _ => Hfin k Hk) Sz Ho) as K1.
    pose proof (cols_gram env jT D seed W F1 F2 Henv (ws_sqrt1 env We) alpha zs Fal Hal Hp Hmu M lo hi N H1 H2 H4 H5 H7 H8 1 (fun k _ => strided x incx k) (fun t r _ => strided (output (vector_run x incx y incy t)) incy r) (fun r _ => strided y incy r) Z.le_0_1 N1 (fun k _ Hk _ => Hfin k Hk) Sz Ho) as K2.
    pose proof (fun t => cols_close env jT D seed W F1 F2 Henv (ws_sqrt1 env We) alpha zs Fal Hal Hp Hmu M lo hi N H1 H2 H4 H5 H7 H8 1 (fun k _ => strided x incx k) (fun t r _ => strided (output (vector_run x incx y incy t)) incy r) (fun r _ => strided y incy r) Z.le_0_1 N1 (fun k _ Hk _ => Hfin k Hk) Sz Ho t (fun _ => 1)) as K5.
    assert (C1 : forall f : Z -> R, forall k, combine 1 (fun _ => f) (fun _ => 1) k = f k) by (intros f k; unfold combine; change (range 0 1) with [0%Z]; cbn [map Rsum]; lra).
    assert (N0 : 0 <= dot m xr xr) by apply dot_nonneg.
    cbv beta delta [vector_kept]. intros xr' yr off. split; [|split].
    + intros t Ht. destruct (G0 t Ht) as (S' & y' & ERun & (HL & HK) & _). exists S', y'. split; [exact ERun|]. split; [exact HL|]. split.
      * intros q Hq. apply HK. intros i j Hi Hj. assert (j = 0)%Z by lia. subst j. rewrite AD. now apply Hq.
      * intros r Hr. pose proof (K1 t r 0%Z Ht Hr ltac:(lia)) as Fo. cbv beta in Fo. rewrite ERun in Fo. exact Fo.
    + intros e He. eapply Rle_trans; [|exact (K2 e He)]. right. unfold probability, off. apply DenseIsoProofs.average_ext. intros t Ht. f_equal. f_equal.
      * unfold gram_gap. change (range 0 1) with [0%Z]. cbn [map Rsum]. rewrite !Rplus_0_r. rewrite <- Rsqr_pow2. now rewrite sqrt_Rsqr_abs.
      * rewrite Fr. reflexivity.
    + intros e delta Hde. destruct (failure_geometry (real_env env) D seed W e delta Henv Hde) as (LK & _).
      eapply Rle_trans; [|exact (LK xr)]. apply average_le. intros t Ht. unfold off, exceeds, indicator.
      pose proof (K5 t Ht) as C. cbv zeta beta in C. rewrite Fr in C.
      replace (dot 1 (fun _ => 1) (fun _ => 1)) with 1 in C by (unfold dot; change (range 0 1) with [0%Z]; cbn [map Rsum]; lra).
      assert (Ey : dot d (combine 1 (fun _ r => B2R (strided (output (vector_run x incx y incy t)) incy r)) (fun _ => 1)) (combine 1 (fun _ r => B2R (strided (output (vector_run x incx y incy t)) incy r)) (fun _ => 1)) = dot d (yr t) (yr t)).
      { apply dot_ext; intros r _; exact (C1 (yr t) r). }
      rewrite Ey in C. clear Ey.
      set (sk := fun t => drawn_sketch (real_env env) D seed t) in *.
      assert (Ex : dot d (sk t (combine 1 (fun _ k => B2R (strided x incx k)) (fun _ => 1))) (sk t (combine 1 (fun _ k => B2R (strided x incx k)) (fun _ => 1))) = dot d (sk t xr) (sk t xr)).
      { apply dot_ext; intros r _; apply (proj2 (drawn_linear (real_env env) D seed t)); intros k _; exact (C1 xr k). }
      change (drawn_sketch (real_env env) D seed t) with (sk t) in C |- *. rewrite Ex in C. clear Ex.
      change (fun k => B2R (strided x incx k)) with xr in C. change xr' with xr.
      set (Ny := dot d (yr t) (yr t)) in *. set (Nx := dot d (sk t xr) (sk t xr)) in *. set (Nm := dot m xr xr) in *. set (rd := round) in *. clearbody Ny Nx Nm rd. clear - C N0.
      destruct (Rlt_dec ((e + rd) * Nm) (Rabs (Ny - Nm))) as [H|H]; destruct (Rlt_dec (e * Nm) (Rabs (iso2 D * Nx - Nm))) as [H'|H']; cbv iota; try lra.
      exfalso. apply Rnot_lt_le in H'. pose proof (Rabs_triang (Ny - iso2 D * Nx) (iso2 D * Nx - Nm)) as Tr.
      replace (Ny - iso2 D * Nx + (iso2 D * Nx - Nm)) with (Ny - Nm) in Tr by ring. nra.
Qed.
End Main.
End Drivers.

(** Double precision. *)
Theorem C80_double : forall {Kt Wt F} (cast : Wt -> b64) (denv : dense_env Kt Wt b64) fsched (env : sparse_env Kt F b64) jT jZ sched ssort nt Q D seed W alpha zs S,
  operator_hyps env jT jZ D seed W S -> driver_hyps sched ssort D alpha ->
  (Z.max (sd_rows D) (sd_cols D) <= 2 ^ 26 - 2)%Z ->
  sparse_drivers_kept cast denv fsched env jT jZ sched ssort nt Q D seed W alpha zs S (bpow radix2 (-1700)) (bpow radix2 1900).
Proof.
  intros Kt Wt F cast denv fsched env jT jZ sched ssort nt Q D seed W alpha zs S HO HC Hm.
  assert (M0 : (0 <= Z.max (sd_rows D) (sd_cols D))%Z). { destruct HO as (_ & _ & _ & HD & _). destruct (valid_sdist_inv D HD) as (P1 & P2 & _). lia. }
  destruct (size_pow (Z.max (sd_rows D) (sd_cols D)) 26 ltac:(lia) ltac:(lia)) as [S1 S2].
  change (-1700)%Z with (-850 + -850)%Z. change 1900%Z with (950 + 950)%Z. rewrite !bpow_plus.
  apply (drivers_main cast denv fsched env jT jZ sched ssort nt Q D seed W alpha zs S (bpow radix2 26) (bpow radix2 (-850)) (bpow radix2 950) (bpow radix2 63)); try solve [sizes].
  - apply (Rle_trans _ (bpow radix2 (2 * 26) * bpow radix2 (-53))); [apply Rmult_le_compat_r; [apply bpow_ge_0|exact S1]|]. rewrite <- bpow_plus. change 1 with (bpow radix2 0). apply bpow_le. lia.
Qed.
(** Single precision. *)
Theorem C80_float : forall {Kt Wt F} (cast : Wt -> b32) (denv : dense_env Kt Wt b32) fsched (env : sparse_env Kt F b32) jT jZ sched ssort nt Q D seed W alpha zs S,
  operator_hyps env jT jZ D seed W S -> driver_hyps sched ssort D alpha ->
  (Z.max (sd_rows D) (sd_cols D) <= 2 ^ 12 - 2)%Z ->
  sparse_drivers_kept cast denv fsched env jT jZ sched ssort nt Q D seed W alpha zs S (bpow radix2 (-80)) (bpow radix2 200).
Proof.
  intros Kt Wt F cast denv fsched env jT jZ sched ssort nt Q D seed W alpha zs S HO HC Hm.
  assert (M0 : (0 <= Z.max (sd_rows D) (sd_cols D))%Z). { destruct HO as (_ & _ & _ & HD & _). destruct (valid_sdist_inv D HD) as (P1 & P2 & _). lia. }
  destruct (size_pow (Z.max (sd_rows D) (sd_cols D)) 12 ltac:(lia) ltac:(lia)) as [S1 S2].
  change (-80)%Z with (-40 + -40)%Z. change 200%Z with (100 + 100)%Z. rewrite !bpow_plus.
  apply (drivers_main cast denv fsched env jT jZ sched ssort nt Q D seed W alpha zs S (bpow radix2 12) (bpow radix2 (-40)) (bpow radix2 100) (bpow radix2 63)); try solve [sizes].
  - apply (Rle_trans _ (bpow radix2 (2 * 12) * bpow radix2 (-24))); [apply Rmult_le_compat_r; [apply bpow_ge_0|exact S1]|]. rewrite <- bpow_plus. change 1 with (bpow radix2 0). apply bpow_le. lia.
Qed.
Print Assumptions C80_double.
Print Assumptions C80_float.

(** A 40000 by 100000 operator and a 100000 by 40000 operator with 16384 nonzeros per short vector (isometry scale 1/128), the
    100000 by 100000 matrix of ones (squared norm 10^10), the vector of 100000 ones: except with probability 1/100 the squared length of
    what sketch_vector computes is within 50001 of 100000. *)
Definition ones_op (r c k : Z) : sparse_dist := iso_dist r c k Short.
Definition ones_setup (D : sparse_dist) : Prop := D = ones_op 40000 100000 16384 \/ D = ones_op 100000 40000 16384.
Lemma ones_hyps D : ones_setup D -> let s := mk_state 7%Z tt in let S := after_fill gram_env one64 0 D s in
  operator_hyps gram_env one64 0 D s 32 S /\ filled gram_env one64 0 D s 32 S /\ driver_hyps seq_schedule isort D pow7_64 /\
  Z.max (sd_rows D) (sd_cols D) = 100000%Z /\ Z.min (sd_rows D) (sd_cols D) = 40000%Z.
Proof.
  intros HD s S. assert (One : B2R one64 = 1) by (unfold one64; rewrite B2R_pow52; reflexivity).
  assert (HO : operator_hyps gram_env one64 0 D s 32 (fun t => mk_sparse_skop (with_words gram_env s t) D s)).
  { split. { split; cbn; try lia; try reflexivity; [split; cbn; intros; try lia; reflexivity|split; cbn; intros; try lia; reflexivity|intros _ l; apply Permutation.Permutation_rev]. }
    split; [split; [reflexivity|exact One]|]. split; [split; [reflexivity|]|].
    { change (se_mone gram_env) with (Bopp one64). rewrite B2R_Bopp, One. reflexivity. }
    destruct HD as [->| ->].
    - split; [reflexivity|]. split; [reflexivity|]. split; [split; [|split]; vm_compute; congruence|]. split; [unfold seed_ok; cbn; lia|]. split; [lia|].
      split; [vm_compute; congruence|]. split; [vm_compute; congruence|]. intros t _. now left.
    - split; [reflexivity|]. split; [reflexivity|]. split; [split; [|split]; vm_compute; congruence|]. split; [unfold seed_ok; cbn; lia|]. split; [lia|].
      split; [vm_compute; congruence|]. split; [vm_compute; congruence|]. intros t _. now left. }
  assert (HS : filled gram_env one64 0 D s 32 S).
  { intros t Ht. apply after_fill_filled. apply (samplable_with gram_env D s 32 (real_hyps gram_env one64 0 D s 32 _ HO) (ws_sqrt1 gram_env (proj1 HO))). }
  clearbody S. split.
  { destruct HO as (C1 & C2 & C3 & C4 & C5 & C6 & C7 & C8 & C9 & C10 & _). split; [exact C1|]. repeat (split; [assumption|]). intros t Ht. right. exact (HS t Ht). }
  split; [exact HS|]. split.
  { split; [apply seq_schedule_valid|]. split; [apply isort_ok|]. split; [reflexivity|]. rewrite B2R_pow7. replace (sqrt (iso2 D)) with (/ 128).
    - rewrite Rminus_eq_0, Rabs_R0. apply Rmult_le_pos; [|lra]. apply Rmult_le_pos; [lra|apply bpow_ge_0].
    - symmetry. assert (E : sd_iso2 D = (1, 16384)%Z) by (destruct HD as [->| ->]; reflexivity). unfold iso2. rewrite E. cbn [fst snd]. apply sqrt_lem_1; lra. }
  destruct HD as [->| ->]; split; reflexivity.
Qed.
Example C80_case : forall {Wt} (cast : Wt -> b64) (denv : dense_env unit Wt b64) fsched,
  let D := ones_op 40000 100000 16384 in let Dt := ones_op 100000 40000 16384 in let s := mk_state 7%Z tt in let Q := PropsUtil.fcmp 53 1024 _ _ in
  let A := repeat one64 (Z.to_nat 10000000000) in let B := repeat one64 (Z.to_nat 4000000000) in
  let x := repeat one64 (Z.to_nat 100000) in let y := repeat one64 (Z.to_nat 40000) in
  let S := after_fill gram_env one64 0 D s in
  let draws := tapes (Z.to_nat (16384 * 100000 * 2)) (range 0 (2 ^ 32)) in
  let yr t r := B2R (strided (prec := 53) (emax := 1024) (output (vector_run cast denv fsched gram_env one64 0 seq_schedule isort 1 D s pow7_64 false S x 1 y 1 t)) 1 r) in
  operator_hyps gram_env one64 0 D s 32 S /\ driver_hyps seq_schedule isort D pow7_64 /\
  operator_hyps gram_env one64 0 Dt s 32 (after_fill gram_env one64 0 Dt s) /\ filled gram_env one64 0 Dt s 32 (after_fill gram_env one64 0 Dt s) /\ driver_hyps seq_schedule isort Dt pow7_64 /\
  symmetric_hyps Q D ColMajor A 100000 B 40000 (B754_zero false) 40000 100000 /\ symmetric_hyps Q Dt RowMajor A 100000 B 40000 (B754_zero false) 100000 40000 /\
  bpow radix2 (-1700) <= frob2 100000 100000 (column (prec := 53) (emax := 1024) ColMajor A 100000) <= bpow radix2 1900 /\
  bpow radix2 (-1700) <= frob2 100000 100000 (row (prec := 53) (emax := 1024) RowMajor A 100000) <= bpow radix2 1900 /\
  failure_ok D 32 (/ 2) (/ 100) /\
  probability draws (fun t => exceeds (Rabs (dot 40000 (yr t) (yr t) - 100000)) 50001) <= / 100.
Proof.
  intros Wt cast denv fsched D Dt s Q A B x y S draws yr.
  assert (One : B2R one64 = 1) by (unfold one64; rewrite B2R_pow52; reflexivity).
  destruct (ones_hyps D (or_introl eq_refl)) as (HO & _ & HC & Dm & Dd). destruct (ones_hyps Dt (or_intror eq_refl)) as (HOt & HSt & HCt & Dtm & Dtd).
  fold s in HO, HOt, HSt. change (after_fill gram_env one64 0 D s) with S in HO. clearbody S.
  assert (GA : forall p, (0 <= p < 10000000000)%Z -> get A p = Some one64) by (intros p Hp; unfold A; rewrite get_repeat; [reflexivity|lia]).
  assert (LA : zlen A = 10000000000%Z) by (unfold A; rewrite zlen_repeat; lia). assert (LB : zlen B = 4000000000%Z) by (unfold B; rewrite zlen_repeat; lia).
  assert (Gx : forall p, (0 <= p < 100000)%Z -> get x p = Some one64) by (intros p Hp; unfold x; rewrite get_repeat; [reflexivity|lia]).
  assert (Lx : zlen x = 100000%Z) by (unfold x; rewrite zlen_repeat; lia). assert (Ly : zlen y = 40000%Z) by (unfold y; rewrite zlen_repeat; lia).
  clearbody A B x y.
  assert (FA : forall l, fits_buffer l 100000 100000 100000 (zlen A)) by (intros l; split; [destruct l; cbn; lia|intros i j Hi Hj; destruct l; cbn [addr]; rewrite LA; lia]).
  assert (CA : forall l i j, (0 <= i < 100000)%Z -> (0 <= j < 100000)%Z -> SpmmSpec.cell (fops 53 1024) l 100000 A i j = one64).
  { intros l i j Hi Hj. unfold SpmmSpec.cell. rewrite GA by (destruct l; cbn [addr]; lia). reflexivity. }
  assert (Sym : forall l, require_symmetric (fops 53 1024) Q l A 100000 100000 (B754_zero false) = Ok tt).
  { intros l. apply (PropsUtil.C54_exact (fops 53 1024) Q l A 100000 100000 (B754_zero false) (FA l)). right. intros (i & j & a & b & Hi & Hj & Ga & Gb & Lt).
    unfold mat in Ga, Gb. rewrite GA in Ga, Gb by (destruct l; cbn [addr]; lia). injection Ga as <-. injection Gb as <-. vm_compute in Lt. discriminate. }
  assert (Rng : forall z, 1 <= z <= 10000000000 -> bpow radix2 (-1700) <= z <= bpow radix2 1900).
  { intros z Hz. split; [apply (Rle_trans _ (bpow radix2 0)); [apply bpow_le; lia|cbn; lra]|apply (Rle_trans _ (bpow radix2 34)); [cbn; lra|apply bpow_le; lia]]. }
  assert (D1 : forall f : Z -> R, (forall k, (0 <= k < 100000)%Z -> f k = 1) -> dot 100000 f f = 100000).
  { intros f Hf. unfold dot. rewrite (Rsum_ext _ (fun _ => 1)); [rewrite Rsum_range_const by lia; lra|]. intros k Hk. apply in_range in Hk. rewrite Hf by lia. lra. }
  assert (Fr : forall X : Z -> Z -> R, (forall j k, (0 <= j < 100000)%Z -> (0 <= k < 100000)%Z -> X j k = 1) -> bpow radix2 (-1700) <= frob2 100000 100000 X <= bpow radix2 1900).
  { intros X HX. replace (frob2 100000 100000 X) with 10000000000; [apply Rng; lra|]. unfold frob2. rewrite (Rsum_ext _ (fun _ => 100000)); [rewrite Rsum_range_const by lia; lra|].
    intros j Hj. apply in_range in Hj. apply D1. intros k Hk. apply HX; lia. }
  assert (HF : failure_ok D 32 (/ 2) (/ 100)).
  { split; [lra|]. right. split; [lra|]. split; [vm_compute; congruence|]. change (Z.min (sd_rows D) (sd_cols D)) with 40000%Z. change (sd_vec_nnz D) with 16384%Z.
    pose proof (ln_small (4 / / 100) 7 ltac:(lra) ltac:(lra)) as C. pose proof (ln_small (2 * 40000 / / 100) 17 ltac:(lra) ltac:(lra)) as E.
    rewrite INR_IZR_INZ in C, E. change (Z.of_nat 7) with 7%Z in C. change (Z.of_nat 17) with 17%Z in E.
    assert (0 < ln (4 / / 100)) by (rewrite <- ln_1; apply ln_increasing; lra). set (u := ln (4 / / 100)) in *. set (v := ln (2 * 40000 / / 100)) in *. clearbody u v.
    assert (u * v <= 7 * 17) by nra. lra. }
  split; [exact HO|]. split; [exact HC|]. split; [exact HOt|]. split; [exact HSt|]. split; [exact HCt|]. split; [|split; [|split; [|split; [|split; [exact HF|]]]]].
  - unfold symmetric_hyps. rewrite Dm. split; [apply Sym|]. split; [apply FA|]. split; [split; [cbn; lia|intros i j Hi Hj; cbn [addr]; rewrite LB; lia]|]. intros i j Hi Hj. rewrite CA by assumption. reflexivity.
  - unfold symmetric_hyps. rewrite Dtm. split; [apply Sym|]. split; [apply FA|]. split; [split; [cbn; lia|intros i j Hi Hj; cbn [addr]; rewrite LB; lia]|]. intros i j Hi Hj. rewrite CA by assumption. reflexivity.
  - apply Fr. intros j k Hj Hk. unfold column. rewrite CA by assumption. exact One.
  - apply Fr. intros j k Hj Hk. unfold row. rewrite CA by assumption. exact One.
  - destruct (C80_double cast denv fsched gram_env one64 0%Z seq_schedule isort 1%Z Q D s 32%Z pow7_64 false S HO HC ltac:(vm_compute; congruence)) as (_ & _ & K).
    assert (Sx : forall k, (0 <= k < 100000)%Z -> strided (prec := 53) (emax := 1024) x 1 k = one64) by (intros k Hk; unfold strided; rewrite Z.mul_1_r, Gx by lia; reflexivity).
    assert (N : dot 100000 (fun k => B2R (strided x 1 k)) (fun k => B2R (strided x 1 k)) = 100000) by (apply D1; intros k Hk; rewrite Sx by lia; exact One).
    specialize (K x 1%Z y 1%Z). cbv zeta in K. unfold vector_kept, vector_hyps in K. rewrite Dm, Dd, N in K.
    destruct K as (_ & _ & K).
    { rewrite Lx, Ly. split; [lia|]. split; [lia|]. split; [lia|]. split; [lia|]. intros k Hk. rewrite Sx by assumption. reflexivity. }
    { apply Rng. lra. }
    specialize (K (/ 2) (/ 100) HF). change (sd_full_nnz D) with (16384 * 100000)%Z in K. change (g_len (se_raw gram_env)) with 2%Z in K.
    change (tapes _ _) with draws in K. clearbody draws. eapply Rle_trans; [|exact K].
    apply average_le. intros t _. change (fun r => B2R (strided (output (vector_run cast denv fsched gram_env one64 0 seq_schedule isort 1 D s pow7_64 false S x 1 y 1 t)) 1 r)) with (yr t).
    set (p := Rabs _). clearbody p. unfold exceeds, indicator.
    assert (Us : bpow radix2 (- (53)) * 9007199254740992 = 1) by (change 9007199254740992 with (bpow radix2 53); rewrite <- bpow_plus; reflexivity).
    revert Us. generalize (bpow radix2 (- (53))). intros v Us. clear - Us.
    destruct (Rlt_dec 50001 p) as [H|H]; destruct (Rlt_dec _ p) as [H'|H']; cbv iota; try lra.
Qed.
