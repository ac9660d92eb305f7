(** Computed sketches with sparse operators: distances, combinations of columns, Gram matrices (used by
    PropsTail5.v and PropsGram3.v). *)
From Coq Require Import ZArith Reals Lra Psatz.
From Flocq Require Import Core BinarySingleNaN.
From Verif Require Import Base Interleave Spec RngModel DenseModel DenseSpec SparseSkopModel FySpec FyProofs SparseSpec SparseProofs SparseProofs2 SpFmtModel SpFmtSpec SpmmModel SpmmSpec SpmmProofs2 SpmmProofs5 PropsSpmm
  SketchModel SketchSpec SketchProofs3 SketchProofs5 RoundModel RoundSpec RoundSpec2 PropsRoundFinite
  IsoSpec IsoProofs PropsIso StatSpec StatProofs NormSpec NormProofs NormProofs2 NormProofs3 NormProofs4 PropsNorm GramSpec GramProofs GramProofs2 GramProofs3 GramProofs4
  TailSpec TailComputed.
Local Open Scope R_scope.

Section ComputedWithin.
  Context {T : Type}.
  Variable ts : list T.
  Variable c : R.
  Variable sk : T -> (Z -> R) -> Z -> R.
  Variables d m n : Z.
  Variables e delta : R.
  Hypothesis Lin : forall t, linear m (sk t).
  Variable X : Z -> Z -> R.
  Variable Y : T -> Z -> Z -> R.
  Variables round least : R.
  Hypothesis He : 0 <= e.
  Hypothesis Hr : 0 <= round.
  Hypothesis Hn : (0 <= n)%Z.
  Lemma computed_distances' : (forall t a b, In t ts -> (0 <= a < n)%Z -> (0 <= b < n)%Z -> a <> b ->
      let x i := X a i - X b i in let y r := Y t a r - Y t b r in let norms := dot m (X a) (X a) + dot m (X b) (X b) in least <= norms ->
      Rabs (dot d y y - c * dot d (sk t x) (sk t x)) <= 2 * round * norms) ->
    distances_kept_within ts c sk d m e delta -> computed_distances_within ts d m n X Y e delta round least.
  Proof.
    intros Hpair JL. destruct (JL n X Hn) as (bad & P & B). exists bad. split; [exact P|].
    intros t Ht Hb a b Ha Hb' x y norms Hl. pose proof (dot_nonneg m x) as X0. assert (N0 : 0 <= norms) by (pose proof (dot_nonneg m (X a)); pose proof (dot_nonneg m (X b)); unfold norms; lra).
    destruct (Z.eq_dec a b) as [->|N].
    - assert (D0 : forall k (f : Z -> R), (forall i, f i = 0) -> dot k f f = 0) by (intros k f F; unfold dot; rewrite (Rsum_ext _ (fun _ => 0)) by (intros; rewrite F; ring); rewrite Rsum_const; lra).
      rewrite (D0 d y), (D0 m x) by (intros; unfold x, y; ring). rewrite Rminus_0_r, Rabs_R0. assert (0 <= 2 * round * norms) by (apply Rmult_le_pos; lra). lra.
    - specialize (B t Ht Hb a b Ha Hb'). specialize (Hpair t a b Ht Ha Hb' N Hl). cbv zeta in B, Hpair. fold x y in B, Hpair. fold norms in Hpair.
      apply abs_bounds in B, Hpair. apply Rabs_le. lra.
  Qed.
  Lemma computed_combinations' : (forall t z, In t ts -> let x := combine n X z in let y := combine n (Y t) z in
      Rabs (dot d y y - c * dot d (sk t x) (sk t x)) <= round * frob2 n m X * dot n z z) ->
    subspaces_kept_within ts c sk d m e delta -> computed_combinations_within ts d m n X Y e delta round.
  Proof.
    intros Hall SE q V C Hq HV HC. destruct (SE q V Hq HV) as (bad & P & B). exists bad. split; [exact P|].
    intros t Ht Hb data sketched. specialize (B t Ht Hb).
    assert (R1 : forall z i, (0 <= i < m)%Z -> combine n X z i = combine q V (combine n C z) i).
    { intros z i Hi. unfold combine at 1. rewrite (Rsum_ext _ (fun j => Rsum (map (fun l => V l i * (C j l * z j)) (range 0 q)))).
      - rewrite Rsum_swap. unfold combine. apply Rsum_ext. intros l _. now rewrite Rsum_scal.
      - intros j Hj. apply in_range in Hj. rewrite HC by assumption. unfold combine. rewrite Rsum_mul_r. apply Rsum_ext. intros; ring. }
    assert (K : forall z, Rabs (sketched z - data z) <= 2 * e * data z + round * frob2 n m X * dot n z z).
    { intros z. specialize (B (combine n C z)). cbv zeta in B. specialize (Hall t z Ht). cbv zeta in Hall. fold (sketched z) in Hall.
      rewrite (dot_ext m (combine q V (combine n C z)) (combine n X z) (combine q V (combine n C z)) (combine n X z)) in B by (intros; symmetry; now apply R1). fold (data z) in B.
      rewrite (dot_ext d (sk t (combine q V (combine n C z))) (sk t (combine n X z)) (sk t (combine q V (combine n C z))) (sk t (combine n X z))) in B by (intros; apply (proj2 (Lin t)); intros; symmetry; now apply R1).
      apply abs_bounds in B, Hall. apply Rabs_le. lra. }
    split; [exact K|]. intros z1 z2 Hz. pose proof (K z1) as K1. pose proof (K z2) as K2. apply abs_bounds in K1, K2. lra.
  Qed.
End ComputedWithin.

Section SparseComputed.
Context {prec emax : Z} {pp : Prec_gt_0 prec} {pe : Prec_lt_emax prec emax}.
Local Notation bf := (binary_float prec emax).
Context {Kt F : Type}.
Variable env : sparse_env Kt F bf.
Variables (jT : bf) (jZ : Z).
Variable D : sparse_dist.
Variable seed : rng_state Kt.
Variable W : Z.
Notation d := (Z.min (sd_rows D) (sd_cols D)).
Notation m := (Z.max (sd_rows D) (sd_cols D)).
Notation O := (fops prec emax).
Notation u := (bpow radix2 (- prec)).
Hypothesis F1 : is_finite (se_one env) = true.
Hypothesis F2 : is_finite (se_mone env) = true.
Hypothesis Henv : short_hyps (real_env env) D seed W.
Hypothesis Hsq : forall v, se_sqrtmul env 1 v = v.
Notation renv := (real_env env).
Notation ts := (word_draws renv D W).
Notation sk := (drawn_sketch renv D seed).
Notation ent := (ent env D seed).
Notation k := (sd_vec_nnz D).
Variables (alpha : bf) (zs : bool).
Hypothesis Fal : is_finite alpha = true.
Hypothesis Hal : Rabs (B2R alpha - sqrt (iso2 D)) <= 8 * u * sqrt (iso2 D).
Hypothesis Hprec : (20 <= prec)%Z.
Hypothesis Hmu : (IZR m + 2) * (IZR m + 2) * u <= 1.
Variables M lo hi N : R.
Hypothesis HmM : IZR m <= M.
Hypothesis HM1 : 1 <= M.
Hypothesis Hlo : 0 < lo <= 1.
Hypothesis Hhi : 1 <= hi.
Hypothesis HR1 : (16 * @half_tiny prec emax * M / lo) * (16 * @half_tiny prec emax * M / lo) * (N * M) <= u * u * (u * u).
Hypothesis HR2 : 64 * M * hi <= bpow radix2 (emax - 1).
Notation rd := (2 * (IZR m + 12) * (IZR m + 12) * u).

Lemma mdims : (0 <= d <= m)%Z /\ (0 <= m)%Z.
Proof using Henv. destruct Henv as (_ & _ & _ & HD & _). destruct (valid_sdist_inv D HD) as (P1 & P2 & _). clear - P1 P2. lia. Qed.
(** q columns b, their computed sketch out. *)
Section Columns.
Variable q : Z.
Variable b : Z -> Z -> bf.
Variable out : list Z -> Z -> Z -> bf.
Variable old : Z -> Z -> bf.
Hypothesis Hq : (0 <= q)%Z.
Hypothesis HqN : IZR q <= N.
Hypothesis Hb : forall i j, (0 <= i < m)%Z -> (0 <= j < q)%Z -> is_finite (b i j) = true.
Notation X := (fun j i => B2R (b i j)).
Notation Fr := (frob2 q m X).
Hypothesis HF : lo * lo <= Fr <= hi * hi.
Hypothesis Hout : forall t r j, In t ts -> (0 <= r < d)%Z -> (0 <= j < q)%Z -> surely_near alpha (terms (ent t) b m r j) (B754_zero zs) (old r j) (out t r j).
Lemma Fr_pos : 0 < Fr.
Proof. destruct HF as [A1 _]. assert (0 < lo * lo) by (apply Rmult_lt_0_compat; lra). lra. Qed.
Lemma col_ranges : 2 * (3 * (IZR m * ((1 + 1) * (1 + sqrt Fr)))) <= bpow radix2 (emax - 1) /\
  2 * (@half_tiny prec emax * (IZR m * (3 + 1 + sqrt Fr) + 1)) * (2 * (@half_tiny prec emax * (IZR m * (3 + 1 + sqrt Fr) + 1))) * (IZR q * IZR d) <= u * u * (u * u) * Fr.
Proof.
  pose proof Fr_pos as FP. destruct mdims as [Dd Dm]. assert (Sq : sqrt Fr * sqrt Fr = Fr) by (apply sqrt_sqrt; lra). cut (2 * (3 * (IZR m * ((1 + 1) * (1 + sqrt Fr)))) <= bpow radix2 (emax - 1) /\
  2 * (@half_tiny prec emax * (IZR m * (3 + 1 + sqrt Fr) + 1)) * (2 * (@half_tiny prec emax * (IZR m * (3 + 1 + sqrt Fr) + 1))) * (IZR q * IZR d) <= u * u * (u * u) * (sqrt Fr * sqrt Fr)); [now rewrite Sq|].
  apply (ranges (@half_tiny prec emax) u M lo hi N 1 (sqrt Fr) (IZR m) (IZR q) (IZR d)); auto; try lra.
  - apply bpow_ge_0.
  - apply bpow_gt_0.
  - split; [apply IZR_le; lia|assumption].
  - split; [apply IZR_le; lia|]. eapply Rle_trans; [|exact HmM]. apply IZR_le. lia.
  - split; [apply IZR_le; lia|assumption].
  - destruct HF as [A1 A2]. split.
    + rewrite <- (sqrt_square lo) by lra. now apply sqrt_le_1_alt.
    + rewrite <- (sqrt_square hi) by lra. now apply sqrt_le_1_alt.
Qed.
Lemma ent_ok : forall t r i, In t ts -> (0 <= r < d)%Z -> (0 <= i < m)%Z -> ent t r i = [] \/ exists w, ent t r i = [w] /\ is_finite w = true /\ Rabs (B2R w) <= 1.
Proof. intros t r i _ _ Hi. now apply (ent_cases env jT D seed W F1 F2 Henv Hsq). Qed.
Lemma cols_ok : forall t i, In t ts -> (0 <= i < m)%Z -> Rsum (map (fun r => value (ent t r i) * value (ent t r i)) (range 0 d)) <= IZR k.
Proof. intros t i _ Hi. now apply (column_squares env jT D seed W F1 F2 Henv Hsq). Qed.
Lemma k_ok : iso2 D * IZR k <= 1 /\ 0 <= iso2 D <= 1.
Proof.
  destruct (iso2_k env jT D seed W F1 F2 Henv Hsq) as [Ek Kk]. split; [rewrite Ek, Rinv_l by lra; lra|]. exact (iso_range env jT D seed W F1 F2 Henv Hsq).
Qed.
Lemma cols_close t z : In t ts -> let y := combine q (fun j r => B2R (out t r j)) z in let x := sk t (combine q X z) in
  Rabs (dot d y y - iso2 D * dot d x x) <= rd * Fr * dot q z z.
Proof.
  intros Ht y x. destruct mdims as [Dd Dm]. destruct col_ranges as [Hov Hun]. destruct k_ok as [Hbb Hi].
  pose proof (float_close ts ent b out d m q (iso2 D) (IZR k) 1 1 alpha zs old (proj1 Dd) Dm Hq Hi Rle_0_1 ent_ok cols_ok Hbb (Rle_refl 1) Hb Fal Hal Hprec Hmu Fr_pos Hov Hun Hout t z Ht) as G.
  cbv zeta in G. fold y in G. rewrite Rmult_1_l in G.
  unfold x. rewrite (sketch_image renv D seed W Henv).
  rewrite (dot_ext d (act m (fun r i => value (ent t r i)) (combine q X z)) (image renv D seed t (combine q X z)) (act m (fun r i => value (ent t r i)) (combine q X z)) (image renv D seed t (combine q X z))) in G
    by (intros; apply (act_image env jT D seed W F1 F2 Henv Hsq)). exact G.
Qed.
Lemma cols_finite t r j : In t ts -> (0 <= r < d)%Z -> (0 <= j < q)%Z -> is_finite (out t r j) = true.
Proof.
  intros Ht Hr Hj. destruct mdims as [Dd Dm]. destruct col_ranges as [Hov Hun]. destruct k_ok as [Hbb Hi].
  pose proof (out_error ts ent b out d m q (iso2 D) (IZR k) 1 alpha zs old) as OE.
  destruct (OE) with (t := t) (r := r) (j := j) as [Fy _]; auto using ent_ok, cols_ok; try lra; try lia.
Qed.
Lemma cols_gram e : 0 < e -> probability ts (fun t => exceeds (gram_gap q d (fun j r => B2R (out t r j)) m X) ((e + rd) * Fr)) <= spread D W / e ^ 2.
Proof.
  intros He. destruct mdims as [Dd Dm]. destruct col_ranges as [Hov Hun]. destruct k_ok as [Hbb Hi]. replace rd with (1 * rd) by ring.
  apply (float_gram ts ent b out d m q (iso2 D) (IZR k) 1 1 (spread D W) alpha zs old); auto using ent_ok, cols_ok, Fr_pos, (ip_kept env jT D seed W F1 F2 Henv Hsq); try lra; lia.
Qed.
End Columns.

Lemma round_nonneg : 0 <= rd.
Proof.
  destruct mdims as [_ Dm]. assert (0 <= IZR m) by now apply IZR_le. assert (0 < u) by apply bpow_gt_0. apply Rmult_le_pos; [nra|lra].
Qed.
Lemma sparse_both n b out old e delta : (0 <= n)%Z -> IZR n <= N -> 2 <= N ->
  (forall i j, (0 <= i < m)%Z -> (0 <= j < n)%Z -> is_finite (b i j) = true) ->
  lo * lo <= frob2 n m (fun j i => B2R (b i j)) <= hi * hi ->
  (forall t r j, In t ts -> (0 <= r < d)%Z -> (0 <= j < n)%Z -> surely_near alpha (terms (ent t) b m r j) (B754_zero zs) (old r j) (out t r j)) ->
  0 <= e -> geometry_kept_within ts (iso2 D) sk d m e delta ->
  computed_distances_within ts d m n (fun j i => B2R (b i j)) (fun t j r => B2R (out t r j)) e delta rd (lo * lo) /\
  computed_combinations_within ts d m n (fun j i => B2R (b i j)) (fun t j r => B2R (out t r j)) e delta rd.
Proof.
  intros Hn HnN HN2 Hb HF Ho He (_ & JL & SE & _). assert (Lin : forall t, linear m (sk t)) by (intros t; apply drawn_linear). pose proof round_nonneg as R0. split.
  - apply (computed_distances' ts (iso2 D) sk d m n e delta); auto.
    intros t i j Ht Hi Hj Ne x y norms Hl.
    assert (I : forall s, (0 <= pick i j s < n)%Z) by (intros s; unfold pick; destruct (s =? 0)%Z; assumption).
    assert (Fr : frob2 2 m (fun s a => B2R (b a (pick i j s))) = norms) by exact (pick_frob m (fun s a => B2R (b a s)) i j).
    assert (Bd : lo * lo <= frob2 2 m (fun s a => B2R (b a (pick i j s))) <= hi * hi).
    { rewrite Fr. split; [exact Hl|]. eapply Rle_trans; [|exact (proj2 HF)]. now apply (frob2_two n m (fun s a => B2R (b a s))). }
    pose proof (cols_close 2%Z (fun a s => b a (pick i j s)) (fun t r s => out t r (pick i j s)) (fun r s => old r (pick i j s)) ltac:(lia) HN2
      (fun a s Ha _ => Hb a _ Ha (I s)) Bd (fun t r s Ht Hr _ => Ho t r _ Ht Hr (I s)) t minus Ht) as G.
    cbv zeta beta in G. rewrite minus_norm, Fr in G.
    assert (Ey : dot d (combine 2 (fun s r => B2R (out t r (pick i j s))) minus) (combine 2 (fun s r => B2R (out t r (pick i j s))) minus) = dot d y y)
      by (apply dot_ext; intros r _; exact (pick_minus (fun s r => B2R (out t r s)) i j r)).
    assert (Ex : dot d (sk t (combine 2 (fun s a => B2R (b a (pick i j s))) minus)) (sk t (combine 2 (fun s a => B2R (b a (pick i j s))) minus)) = dot d (sk t x) (sk t x))
      by (apply dot_ext; intros r _; apply (proj2 (Lin t)); intros a _; exact (pick_minus (fun s a => B2R (b a s)) i j a)).
    rewrite Ey, Ex in G. eapply Rle_trans; [exact G|]. right. ring.
  - apply (computed_combinations' ts (iso2 D) sk d m n e delta); auto.
    intros t z Ht. exact (cols_close n b out old Hn HnN Hb HF Ho t z Ht).
Qed.
End SparseComputed.

(** sketch_general from the right, with a filled operator. *)
Section RightRun.
Context {prec emax : Z} {pp : Prec_gt_0 prec} {pe : Prec_lt_emax prec emax}.
Local Notation bf := (binary_float prec emax).
Context {Kt Wt F : Type}.
Variables (cast : Wt -> bf) (denv : dense_env Kt Wt bf) (fsched : schedule bf).
Variable env : sparse_env Kt F bf.
Variables (jT : bf) (jZ : Z).
Variable sched : schedule (list bf).
Variable ssort : (Z * Z * bf -> Z * Z * bf -> bool) -> list (Z * Z * bf) -> list (Z * Z * bf).
Variable nt : Z.
Hypothesis Hsched : valid_schedule sched.
Hypothesis Hsort : sort_ok ssort.
Variable D : sparse_dist.
Variable seed : rng_state Kt.
Variable W : Z.
Notation d := (Z.min (sd_rows D) (sd_cols D)).
Notation m := (Z.max (sd_rows D) (sd_cols D)).
Notation O := (fops prec emax).
Hypothesis F1 : is_finite (se_one env) = true.
Hypothesis F2 : is_finite (se_mone env) = true.
Hypothesis Henv : short_hyps (real_env env) D seed W.
Hypothesis Hsq : forall v, se_sqrtmul env 1 v = v.
Notation E t := (with_words env seed t).
Variables (l : layout) (opA : op) (n : Z) (alpha : bf) (zs : bool) (A : list bf) (lda : Z) (B : list bf) (ldb : Z).
Hypothesis Hn : (0 <= n)%Z.
Hypothesis FA : fits_buffer l lda (rows_before opA n m) (cols_before opA n m) (zlen A).
Hypothesis FB : fits_buffer l ldb n d (zlen B).
Notation opS' := (if (sd_rows D <=? sd_cols D)%Z then Trans else NoTrans).
Definition right_run (S : sparse_skop Kt bf) (t : list Z) : outcome (@skop Kt bf * list bf) :=
  sketch_general_right_full O cast denv fsched (E t) jT jZ sched ssort nt l opA opS' n d m alpha A lda (SkSparse S) (B754_zero zs) B ldb.
Lemma right_run_ok S t : fill_sparse (E t) jT jZ (mk_sparse_skop (E t) D seed) = Ok S ->
  exists S' B', right_run S t = Ok (SkSparse S', B') /\ others_kept l n d B ldb B' /\
  forall r j, (0 <= r < d)%Z -> (0 <= j < n)%Z ->
    surely_near alpha (terms (ent env D seed t) (fun i j => op_ent opA (SpmmSpec.cell O l lda A) j i) m r j) (B754_zero zs) (SpmmSpec.cell O l ldb B j r) (SpmmSpec.cell O l ldb (output (right_run S t)) j r).
Proof.
  intros Hf. pose proof (samplable_with env D seed W Henv Hsq t) as HV. destruct Henv as (We & E1 & Em & HD & Hax & Hz & Hs & HW & Hb & Hd). destruct (valid_sdist_inv D HD) as (P1 & P2 & P3 & P4 & P5 & P6). rewrite Hax in P5, P6.
  destruct (SketchProofs3.fill_sparse_spec (E t) jT jZ (mk_sparse_skop (E t) D seed) HV (mk_buffers_ok (E t) D seed)) as (S' & E' & D1 & D2 & _ & _ & N1 & V1 & V2 & _).
  rewrite Hf in E'. injection E' as <-. cbn [mk_sparse_skop ss_dist ss_seed] in D1, D2, V2.
  assert (Hin : in_matrix (sd_rows D) (sd_cols D) (rows_before opS' m d) (cols_before opS' m d) 0 0).
  { unfold in_matrix. destruct (Z.leb_spec (sd_rows D) (sd_cols D)); cbn [rows_before cols_before]; lia. }
  destruct (C63_right_sketch_accurate cast denv fsched (E t) jT jZ sched ssort nt Hsched Hsort l opA opS' n d m alpha A lda S 0 0 (B754_zero zs) B ldb N1 V1) as (S' & B' & ER & _ & HO & G); auto.
  { now rewrite D1. }
  { right. apply (spread_ext (coo_at (skop_coo S)) (sparse_entry (E t) D seed)); [intros i j; now rewrite V2|]. apply whole_columns_spread; auto.
    - split; [exact Hax|]. destruct (Z.leb_spec (sd_rows D) (sd_cols D)); cbn [flip_op]; repeat split; lia.
    - unfold in_matrix. destruct (Z.leb_spec (sd_rows D) (sd_cols D)); cbn [flip_op rows_before cols_before]; lia.
    - lia. }
  assert (ER' : right_run S t = Ok (SkSparse S', B')).
  { unfold right_run, sketch_general_right_full. rewrite ER. cbn [skop_rows skop_cols]. rewrite D1. destruct (Z.leb_spec (sd_rows D) (sd_cols D)); rewrite !(proj2 (Z.eqb_eq _ _)) by lia; reflexivity. }
  exists S', B'. split; [exact ER'|]. split; [exact HO|]. intros r j Hr Hj.
  assert (Hlt : (0 <= addr l ldb j r < zlen B)%Z).
  { destruct FB as [L1 L2]. split; [|now apply L2]. destruct l; cbn [addr min_ld] in *; nia. }
  destruct (get B (addr l ldb j r)) as [c|] eqn:Gc; [|apply get_None in Gc; lia].
  destruct (G j r c (terms (ent env D seed t) (fun i j => op_ent opA (SpmmSpec.cell O l lda A) j i) m r j) Hj Hr Gc) as (y & Gy & _ & Sy).
  { unfold terms. rewrite !flat_map_concat_map. f_equal. apply map_ext. intros i. unfold ent, opS. destruct (sd_rows D <=? sd_cols D)%Z; cbn [op_ent]; unfold win; now rewrite V2. }
  rewrite ER'. cbn [output]. unfold SpmmSpec.cell at 2 3. rewrite Gc, Gy. exact Sy.
Qed.
End RightRun.
