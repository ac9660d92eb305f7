(** sketch_general with a sparse operator, in floating-point arithmetic, on random words (for PropsGram.v). *)
From Coq Require Import ZArith Reals Lra Psatz.
From Flocq Require Import Core BinarySingleNaN.
From Verif Require Import Base Interleave Spec RngModel DenseModel DenseSpec SparseSkopModel FySpec FyProofs SparseSpec SparseProofs SparseProofs2 SpFmtModel SpFmtSpec SpmmModel SpmmSpec SpmmProofs2 SpmmProofs5 PropsSpmm
  SketchModel SketchSpec SketchProofs3 SketchProofs5 RoundModel RoundSpec RoundSpec2 PropsRoundFinite
  IsoSpec IsoProofs PropsIso StatSpec StatProofs NormSpec NormProofs NormProofs2 NormProofs3 NormProofs4 PropsNorm GramSpec GramProofs GramProofs2 GramProofs3.
Local Open Scope R_scope.

(** ** Ranges in which nothing overflows and underflow is invisible *)
Lemma ranges h u M lo hi N bd r m n d top : 0 <= h -> 0 < u -> 0 <= m <= M -> 0 <= d <= M -> 0 <= n <= N -> 0 <= bd <= 2 -> 1 <= M -> 0 < lo <= 1 -> 1 <= hi -> lo <= r <= hi ->
  (16 * h * M / lo) * (16 * h * M / lo) * (N * M) <= u * u * (u * u) -> 64 * M * hi <= top ->
  2 * (3 * (m * ((1 + bd) * (1 + r)))) <= top /\
  2 * (h * (m * (3 + bd + r) + 1)) * (2 * (h * (m * (3 + bd + r) + 1))) * (n * d) <= u * u * (u * u) * (r * r).
Proof.
  intros Hh Hu Hm Hd Hn Hbd HM Hlo Hhi Hr H1 H2. split.
  - assert (A : (1 + bd) * (1 + r) <= 3 * (2 * hi)) by (apply Rmult_le_compat; lra).
    assert (m * ((1 + bd) * (1 + r)) <= M * (3 * (2 * hi))) by (apply Rmult_le_compat; [lra|apply Rmult_le_pos; lra|lra|exact A]).
    assert (0 <= M * hi) by (apply Rmult_le_pos; lra). lra.
  - set (q := r / lo). assert (Q1 : 1 <= q). { unfold q. apply (Rmult_le_reg_r lo); [lra|]. unfold Rdiv. rewrite Rmult_assoc, Rinv_l by lra. lra. }
    assert (Q2 : r <= q). { unfold q. apply (Rmult_le_reg_r lo); [lra|]. unfold Rdiv. rewrite Rmult_assoc, Rinv_l by lra. nra. }
    assert (B : m * (3 + bd + r) + 1 <= 8 * M * q).
    { apply (Rle_trans _ (M * (6 * q) + M * q)); [|nra]. apply Rplus_le_compat; [apply Rmult_le_compat; lra|nra]. }
    assert (B0 : 0 <= m * (3 + bd + r) + 1) by (assert (0 <= m * (3 + bd + r)) by (apply Rmult_le_pos; lra); lra).
    assert (C : 2 * (h * (m * (3 + bd + r) + 1)) <= 16 * h * M / lo * r).
    { apply (Rle_trans _ (2 * (h * (8 * M * q)))); [|unfold q; right; field; lra]. apply Rmult_le_compat_l; [lra|]. now apply Rmult_le_compat_l. }
    assert (C0 : 0 <= 2 * (h * (m * (3 + bd + r) + 1))) by (apply Rmult_le_pos; [lra|]; now apply Rmult_le_pos).
    set (z := 2 * (h * (m * (3 + bd + r) + 1))) in *. set (w := 16 * h * M / lo) in *.
    apply (Rle_trans _ ((w * r) * (w * r) * (N * M))).
    + apply Rmult_le_compat; [now apply Rmult_le_pos|apply Rmult_le_pos; lra|now apply Rmult_le_compat|apply Rmult_le_compat; lra].
    + replace (w * r * (w * r) * (N * M)) with (w * w * (N * M) * (r * r)) by ring. apply Rmult_le_compat_r; [nra|exact H1].
Qed.

(** ** The same operator over the reals *)
Definition real_env {prec emax : Z} {K F} (e : sparse_env K F (binary_float prec emax)) : sparse_env K F R :=
  {| se_raw := se_raw e; se_unif := se_unif e; se_sb := se_sb e; se_draw := se_draw e; se_nonneg := se_nonneg e;
     se_one := B2R (se_one e); se_mone := B2R (se_mone e); se_sqrtmul := fun _ v => v; se_order := se_order e |}.

Section SparseGram.
Context {prec emax : Z} {pp : Prec_gt_0 prec} {pe : Prec_lt_emax prec emax}.
Local Notation bf := (binary_float prec emax).
Context {Kt Wt F : Type}.
Variables (cast : Wt -> bf) (denv : dense_env Kt Wt bf) (fsched : schedule bf).
Variable env : sparse_env Kt F bf.
Variables (jT : bf) (jZ : Z).
Variable sched : schedule (list bf).
Variable ssort : (Z * Z * bf -> Z * Z * bf -> bool) -> list (Z * Z * bf) -> list (Z * Z * bf).
Variable nt : Z.
Hypothesis Hsched : valid_schedule sched.
Hypothesis Hsort : sort_ok ssort.
Variable D : sparse_dist.
Variable seed : rng_state Kt.
Variable W : Z.
Notation d := (Z.min (sd_rows D) (sd_cols D)).
Notation m := (Z.max (sd_rows D) (sd_cols D)).
Notation O := (fops prec emax).
Notation u := (bpow radix2 (- prec)).
Hypothesis F1 : is_finite (se_one env) = true.
Hypothesis F2 : is_finite (se_mone env) = true.
Hypothesis Henv : short_hyps (real_env env) D seed W.
Hypothesis Hsq : forall v, se_sqrtmul env 1 v = v.
Notation renv := (real_env env).
Notation ts := (word_draws renv D W).
Notation E t := (with_words env seed t).

Lemma env_wf : wf_senv env.
Proof. destruct Henv as (We & _). destruct We as [A B C Dd Ee Ff Gg Hh]. split; auto. Qed.
Lemma env_with t : wf_senv (E t).
Proof. destruct env_wf as [A B C Dd Ee Ff Gg Hh]. split; auto. apply tape_gen_wf. exact A. Qed.
Lemma samplable_with t : samplable (E t) D seed.
Proof. destruct Henv as (We & E1 & Em & HD & Hax & Hz & Hs & HW & Hb & Hd). split; [apply env_with|]. split; [exact HD|]. split; [exact Hz|]. split; [exact Hs|]. intros Hl. congruence. Qed.

Definition opS : op := if (sd_rows D <=? sd_cols D)%Z then NoTrans else Trans.
Definition ent (t : list Z) (r k : Z) : list bf := op_ent opS (win (sparse_entry (E t) D seed) 0 0) r k.
Lemma ent_short t r k : (0 <= k < m)%Z -> ent t r k = short_entry (E t) D seed r k.
Proof.
  intros Hk. destruct Henv as (We & E1 & Em & HD & Hax & Hz & Hs & HW & Hb & Hd). destruct (valid_sdist_inv D HD) as (P1 & P2 & P3 & P4 & P5 & P6). rewrite Hax in P5, P6.
  unfold ent, opS, win, sparse_entry. destruct (Z.leb_spec (sd_rows D) (sd_cols D)) as [Q|Q]; cbn [op_ent]; rewrite !Z.add_0_l, Hax;
    replace ((0 <=? k) && (k <? sd_minor D))%Z with true by lia; reflexivity.
Qed.
Lemma ent_cases t r k : (0 <= k < m)%Z -> ent t r k = [] \/ exists w, ent t r k = [w] /\ is_finite w = true /\ Rabs (B2R w) <= 1.
Proof.
  intros Hk. rewrite ent_short by exact Hk. unfold short_entry. destruct (find _ _) as [j|]; [|now left]. right. eexists. split; [reflexivity|]. unfold short_sign.
  destruct Henv as (We & E1 & Em & _). cbn [real_env se_one se_mone] in E1, Em. cbn [with_words se_one se_mone]. destruct (_ =? 0)%Z.
  - split; [exact F1|]. rewrite E1, Rabs_R1. lra.
  - split; [exact F2|]. rewrite Em. replace (Rabs (-1)) with 1 by (rewrite Rabs_left; lra). lra.
Qed.
Lemma value_val t r k : (0 <= k < m)%Z -> value (ent t r k) = val renv D seed t r k.
Proof.
  intros Hk. rewrite ent_short by exact Hk. unfold val, value, short_entry.
  change (short_sample (with_words renv seed t) D seed k) with (short_sample (E t) D seed k). destruct (find _ _) as [j|]; [|reflexivity].
  cbn [map Rsum]. f_equal. unfold short_sign. change (raw_word (with_words renv seed t) seed) with (raw_word (E t) seed). destruct (_ =? 0)%Z; reflexivity.
Qed.
Lemma act_image t x r : act m (fun r k => value (ent t r k)) x r = image renv D seed t x r.
Proof.
  destruct Henv as (We & E1 & Em & HD & Hax & Hz & Hs & HW & Hb & Hd). destruct (valid_sdist_inv D HD) as (P1 & P2 & P3 & P4 & P5 & P6). rewrite Hax in P5, P6.
  unfold act, image, dot. replace (sd_minor D) with m by lia. apply Rsum_ext. intros k Hk. apply in_range in Hk. now rewrite value_val.
Qed.
Lemma ip_kept : inner_products_kept ts (iso2 D) (fun t => act m (fun r k => value (ent t r k))) d m (spread D W).
Proof.
  intros x y. eapply Rle_trans; [|apply (C67_inner_products renv D seed W Henv x y)]. right. unfold average. f_equal. apply Rsum_ext. intros t _.
  rewrite (sketch_image renv D seed W Henv). f_equal. f_equal. f_equal. apply dot_ext; intros; apply act_image.
Qed.
Lemma column_squares t k : (0 <= k < m)%Z -> Rsum (map (fun r => value (ent t r k) * value (ent t r k)) (range 0 d)) <= IZR (sd_vec_nnz D).
Proof.
  destruct Henv as (We & E1 & Em & HD & Hax & Hz & Hs & HW & Hb & Hd). destruct (valid_sdist_inv D HD) as (P1 & P2 & P3 & P4 & P5 & P6). rewrite Hax in P5, P6. intros Hk.
  rewrite <- (inc_total renv D seed We E1 Em HD Hs Hb W HW t k) by lia. replace (sd_major D) with d by lia. right. apply Rsum_ext. intros r _. rewrite value_val by exact Hk.
  apply (val_sq renv D seed We E1 Em HD Hs Hb W HW). lia.
Qed.
Lemma iso2_k : iso2 D = / IZR (sd_vec_nnz D) /\ 1 <= IZR (sd_vec_nnz D).
Proof.
  destruct Henv as (We & E1 & Em & HD & Hax & _). destruct (valid_sdist_inv D HD) as (P1 & P2 & P3 & P4 & P5 & P6). split; [|apply IZR_le; lia].
  unfold iso2. rewrite (dist_iso2 D HD), Hax. cbn [fst snd]. unfold Rdiv. apply Rmult_1_l.
Qed.

(** The call. *)
Variables (l : layout) (opA : op) (n : Z) (alpha : bf) (zs : bool) (A : list bf) (lda : Z) (B : list bf) (ldb : Z).
Variable S : list Z -> sparse_skop Kt bf.
Hypothesis HS : forall t, In t ts -> drawn_operator (E t) jT jZ D seed (S t).
Hypothesis Hn : (0 <= n)%Z.
Hypothesis FA : fits_buffer l lda (rows_before opA m n) (cols_before opA m n) (zlen A).
Hypothesis FB : fits_buffer l ldb d n (zlen B).
Notation b := (fun k j => op_ent opA (SpmmSpec.cell O l lda A) k j).
Notation X := (fun j k => B2R (op_ent opA (SpmmSpec.cell O l lda A) k j)).
Notation Fr := (frob2 n m X).
Definition run (t : list Z) : outcome (@skop Kt bf * list bf) :=
  sketch_general_left_full O cast denv fsched (E t) jT jZ sched ssort nt l opS opA d n m alpha (SkSparse (S t)) A lda (B754_zero zs) B ldb.
Definition out (t : list Z) (r j : Z) : bf := SpmmSpec.cell O l ldb (output (run t)) r j.
Lemma run_ok t : In t ts -> exists S' B', run t = Ok (SkSparse S', B') /\ others_kept l d n B ldb B' /\
  forall r j, (0 <= r < d)%Z -> (0 <= j < n)%Z -> surely_near alpha (terms (ent t) b m r j) (B754_zero zs) (SpmmSpec.cell O l ldb B r j) (out t r j).
Proof.
  intros Ht. pose proof (samplable_with t) as HV. destruct Henv as (We & E1 & Em & HD & Hax & Hz & Hs & HW & Hb & Hd). destruct (valid_sdist_inv D HD) as (P1 & P2 & P3 & P4 & P5 & P6). rewrite Hax in P5, P6.
  assert (Q : ss_dist (S t) = D /\ ss_seed (S t) = seed /\ sparse_valid (E t) (S t) /\ forall i k, sparse_at (E t) (S t) i k = sparse_entry (E t) D seed i k).
  { destruct (HS t Ht) as [->|Hf].
    - split; [reflexivity|]. split; [reflexivity|]. split; [exact HV|]. intros i k. reflexivity.
    - destruct (fill_sparse_spec (E t) jT jZ (mk_sparse_skop (E t) D seed) HV (mk_buffers_ok (E t) D seed)) as (S' & E' & D1 & D2 & _ & _ & N1 & V1 & V2 & _).
      rewrite Hf in E'. injection E' as <-. cbn [mk_sparse_skop ss_dist ss_seed] in D1, D2, V2. split; [exact D1|]. split; [exact D2|].
      assert (NB : (ss_nnz (S t) <? 0)%Z = false) by lia. split; [unfold sparse_valid; rewrite NB; auto|]. intros i k. unfold sparse_at. rewrite NB. apply V2. }
  destruct Q as (Q1 & Q2 & Q3 & Q4).
  assert (Hin : in_matrix (sd_rows D) (sd_cols D) (rows_before opS d m) (cols_before opS d m) 0 0).
  { unfold in_matrix, opS. destruct (Z.leb_spec (sd_rows D) (sd_cols D)); cbn [rows_before cols_before]; lia. }
  destruct (C63_left_sketch_accurate cast denv fsched (E t) jT jZ sched ssort nt Hsched Hsort l opS opA d n m alpha (S t) 0 0 A lda (B754_zero zs) B ldb Q3) as (S' & B' & ER & _ & HO & G); auto.
  { now rewrite Q1. }
  { right. apply (spread_ext (sparse_at (E t) (S t)) (sparse_entry (E t) D seed)); [intros i j; now rewrite Q4|]. apply whole_columns_spread; auto.
    - split; [exact Hax|]. unfold opS. destruct (Z.leb_spec (sd_rows D) (sd_cols D)); repeat split; lia.
    - lia. }
  assert (ER' : run t = Ok (SkSparse S', B')).
  { unfold run, sketch_general_left_full. rewrite ER. cbn [skop_rows skop_cols]. rewrite Q1. unfold opS. destruct (Z.leb_spec (sd_rows D) (sd_cols D)); rewrite !(proj2 (Z.eqb_eq _ _)) by lia; reflexivity. }
  exists S', B'. split; [exact ER'|]. split; [exact HO|]. intros r j Hr Hj.
  assert (Hlt : (0 <= addr l ldb r j < zlen B)%Z).
  { destruct FB as [L1 L2]. split; [|now apply L2]. destruct l; cbn [addr min_ld] in *; nia. }
  destruct (get B (addr l ldb r j)) as [c|] eqn:Gc; [|apply get_None in Gc; lia].
  destruct (G r j c (terms (ent t) b m r j) Hr Hj Gc) as (y & Gy & _ & Sy).
  { unfold terms. rewrite !flat_map_concat_map. f_equal. apply map_ext. intros k. unfold ent. destruct opS; cbn [op_ent]; unfold win; now rewrite Q4. }
  unfold out. rewrite ER'. cbn [output]. unfold SpmmSpec.cell at 2 3. rewrite Gc, Gy. exact Sy.
Qed.

Hypothesis Hfin : forall k j, (0 <= k < m)%Z -> (0 <= j < n)%Z -> is_finite (op_ent opA (SpmmSpec.cell O l lda A) k j) = true.
Hypothesis Fal : is_finite alpha = true.
Hypothesis Hal : Rabs (B2R alpha - sqrt (iso2 D)) <= 8 * u * sqrt (iso2 D).
Hypothesis Hprec : (20 <= prec)%Z.
Hypothesis Hmu : (IZR m + 2) * (IZR m + 2) * u <= 1.
Variables M lo hi N : R.
Hypothesis HmM : IZR m <= M.
Hypothesis HM1 : 1 <= M.
Hypothesis HnN : IZR n <= N.
Hypothesis Hlo : 0 < lo <= 1.
Hypothesis Hhi : 1 <= hi.
Hypothesis HF : lo * lo <= Fr <= hi * hi.
Hypothesis HR1 : (16 * @half_tiny prec emax * M / lo) * (16 * @half_tiny prec emax * M / lo) * (N * M) <= u * u * (u * u).
Hypothesis HR2 : 64 * M * hi <= bpow radix2 (emax - 1).

Lemma F_pos : 0 < Fr.
Proof. destruct HF as [A1 _]. assert (0 < lo * lo) by (apply Rmult_lt_0_compat; lra). lra. Qed.
Lemma dims : (0 <= d <= m)%Z /\ (0 <= m)%Z.
Proof. destruct Henv as (_ & _ & _ & HD & _). destruct (valid_sdist_inv D HD) as (P1 & P2 & _). lia. Qed.
Lemma in_ranges : 2 * (3 * (IZR m * ((1 + 1) * (1 + sqrt Fr)))) <= bpow radix2 (emax - 1) /\
  2 * (@half_tiny prec emax * (IZR m * (3 + 1 + sqrt Fr) + 1)) * (2 * (@half_tiny prec emax * (IZR m * (3 + 1 + sqrt Fr) + 1))) * (IZR n * IZR d) <= u * u * (u * u) * Fr.
Proof.
  pose proof F_pos as FP. destruct dims as [Dd Dm]. assert (Sq : sqrt Fr * sqrt Fr = Fr) by (apply sqrt_sqrt; lra). cut (2 * (3 * (IZR m * ((1 + 1) * (1 + sqrt Fr)))) <= bpow radix2 (emax - 1) /\
  2 * (@half_tiny prec emax * (IZR m * (3 + 1 + sqrt Fr) + 1)) * (2 * (@half_tiny prec emax * (IZR m * (3 + 1 + sqrt Fr) + 1))) * (IZR n * IZR d) <= u * u * (u * u) * (sqrt Fr * sqrt Fr)); [now rewrite Sq|].
  apply (ranges (@half_tiny prec emax) u M lo hi N 1 (sqrt Fr) (IZR m) (IZR n) (IZR d)); auto; try lra.
  - apply bpow_ge_0.
  - apply bpow_gt_0.
  - split; [apply IZR_le; lia|assumption].
  - split; [apply IZR_le; lia|]. eapply Rle_trans; [|exact HmM]. apply IZR_le. lia.
  - split; [apply IZR_le; lia|assumption].
  - destruct HF as [A1 A2]. split.
    + rewrite <- (sqrt_square lo) by lra. now apply sqrt_le_1_alt.
    + rewrite <- (sqrt_square hi) by lra. now apply sqrt_le_1_alt.
Qed.
Lemma iso_range : 0 <= iso2 D <= 1.
Proof.
  destruct iso2_k as [-> K1]. split; [apply Rlt_le, Rinv_0_lt_compat; lra|]. apply (Rle_trans _ (/ 1)); [apply Rinv_le_contravar; lra|right; apply Rinv_1].
Qed.
Lemma sparse_gram :
  (forall t, In t ts -> exists S' B', run t = Ok (SkSparse S', B') /\ others_kept l d n B ldb B' /\
     forall r j, (0 <= r < d)%Z -> (0 <= j < n)%Z -> is_finite (SpmmSpec.cell O l ldb B' r j) = true) /\
  forall e, 0 < e -> probability ts (fun t => exceeds (gram_gap n d (fun j r => B2R (SpmmSpec.cell O l ldb (output (run t)) r j)) m X) ((e + 2 * (IZR m + 12) * (IZR m + 12) * u) * Fr)) <= spread D W / e ^ 2.
Proof.
  destruct dims as [Dd Dm]. destruct in_ranges as [Hov Hun]. destruct iso2_k as [Ek Kk].
  assert (HO : forall t r j, In t ts -> (0 <= r < d)%Z -> (0 <= j < n)%Z -> surely_near alpha (terms (ent t) b m r j) (B754_zero zs) (SpmmSpec.cell O l ldb B r j) (out t r j)).
  { intros t r j Ht Hr Hj. destruct (run_ok t Ht) as (S' & B' & _ & _ & G). now apply G. }
  assert (HE : forall t r k, In t ts -> (0 <= r < d)%Z -> (0 <= k < m)%Z -> ent t r k = [] \/ exists w, ent t r k = [w] /\ is_finite w = true /\ Rabs (B2R w) <= 1) by (intros; now apply ent_cases).
  assert (HC : forall t k, In t ts -> (0 <= k < m)%Z -> Rsum (map (fun r => value (ent t r k) * value (ent t r k)) (range 0 d)) <= IZR (sd_vec_nnz D)) by (intros; now apply column_squares).
  assert (Hbb : iso2 D * IZR (sd_vec_nnz D) <= 1) by (rewrite Ek, Rinv_l by lra; lra).
  split.
  - intros t Ht. destruct (run_ok t Ht) as (S' & B' & ER & HK & _). exists S', B'. split; [exact ER|]. split; [exact HK|]. intros r j Hr Hj.
    pose proof (out_error ts ent b out d m n (iso2 D) (IZR (sd_vec_nnz D)) 1 alpha zs (fun r j => SpmmSpec.cell O l ldb B r j)) as OE.
    destruct (OE) with (t := t) (r := r) (j := j) as [Fy _]; auto using iso_range; try lra; try lia.
    unfold out in Fy. now rewrite ER in Fy.
  - intros e He. replace (2 * (IZR m + 12) * (IZR m + 12) * u) with (1 * (2 * (IZR m + 12) * (IZR m + 12) * u)) by ring.
    apply (float_gram ts ent b out d m n (iso2 D) (IZR (sd_vec_nnz D)) 1 1 (spread D W) alpha zs (fun r j => SpmmSpec.cell O l ldb B r j)); auto using iso_range, ip_kept, F_pos; try lra; lia.
Qed.
End SparseGram.
