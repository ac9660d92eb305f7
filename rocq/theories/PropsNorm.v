(** Sketches preserve lengths, angles and least-squares problems with a known probability (C67).

    Definitions read by these statements (IsoSpec.v, StatSpec.v, NormSpec.v): [tapes n U] all
    lists of n elements of U, [average], [probability]; [with_words env seed tape] the
    environment whose generator returns the words of the tape; [sampled_entry env D seed r c]
    entry (r,c) of the operator fill_sparse produces; [iso2] the square of isometry_scale;
    [dot]; [sketch_of n_rows n_cols S x] S x for a wide operator, S^T x for a tall one;
    [combine], [orthonormal]; [exceeds a b] a > b.

    Scalars are real numbers, isometry_scale is the exact number the stored double rounds. *)
From Verif Require Import Base Spec RngModel DenseModel DenseSpec SparseSkopModel FySpec FyProofs SparseSpec LasoProofs
  SparseProofs SparseProofs2 IsoSpec IsoProofs PropsIso StatSpec StatProofs NormSpec NormProofs NormProofs2 NormProofs3.
From Coq Require Import Lra.
Local Open Scope R_scope.

(** (1 + n/2^W)^k is close to 1. *)
Theorem C67_slack : forall n k W, (0 <= n)%Z -> (0 <= k)%Z -> (0 <= W)%Z -> (2 * (k * n) <= 2 ^ W)%Z ->
  (1 + IZR n / IZR (2 ^ W)) ^ Z.to_nat k <= 1 + 2 * IZR (k * n) / IZR (2 ^ W).
Proof.
  intros n k W Hn Hk HW Hs. assert (P : 0 < IZR (2 ^ W)) by (apply IZR_lt, Z.pow_pos_nonneg; lia).
  set (e := IZR n / IZR (2 ^ W)). assert (He : 0 <= e) by (apply Rmult_le_pos; [apply IZR_le; lia|apply Rlt_le, Rinv_0_lt_compat; assumption]).
  assert (Hke : 2 * (IZR k * e) <= 1).
  { apply IZR_le in Hs. rewrite !mult_IZR in Hs. unfold e. apply (Rmult_le_reg_r (IZR (2 ^ W))); [exact P|].
    replace (2 * (IZR k * (IZR n / IZR (2 ^ W))) * IZR (2 ^ W)) with (2 * (IZR k * IZR n)) by (field; lra). lra. }
  replace (1 + 2 * IZR (k * n) / IZR (2 ^ W)) with (1 + 2 * (INR (Z.to_nat k) * e)).
  2: { rewrite INR_IZR_INZ, Z2Nat.id by lia. rewrite mult_IZR. unfold e. field. lra. }
  replace (IZR k) with (INR (Z.to_nat k)) in Hke by (rewrite INR_IZR_INZ, Z2Nat.id; [reflexivity|lia]).
  clearbody e. revert Hke. generalize (Z.to_nat k). clear - He. induction n as [|n IH]; intros H; [cbn; lra|]. rewrite S_INR in *. cbn [pow].
  assert (0 <= INR n) by apply pos_INR. specialize (IH ltac:(nra)). nra.
Qed.

Section Short.
  Context {K F : Type}.
  Variable env : sparse_env K F R.
  Variable D : sparse_dist.
  Variable seed : rng_state K.
  Variable W : Z.
  Notation d := (Z.min (sd_rows D) (sd_cols D)).
  Notation m := (Z.max (sd_rows D) (sd_cols D)).
  Notation k := (sd_vec_nnz D).
  (** What C24 assumes, and words large enough to index the short dimension. *)
  Definition short_hyps : Prop :=
    wf_senv env /\ se_one env = 1 /\ se_mone env = -1 /\ valid_sdist D /\ sd_axis D = Short /\ sparse_size_ok env D /\ seed_ok env seed /\
    (0 < W)%Z /\ (sd_full_nnz D <= 2 ^ g_bits (se_raw env))%Z /\ (d <= 2 ^ W)%Z.
  Definition word_draws : list (list Z) := tapes (Z.to_nat (sd_full_nnz D * g_len (se_raw env))) (range 0 (2 ^ W)).
  Definition drawn_sketch (tape : list Z) (x : Z -> R) : Z -> R :=
    sketch_of (sd_rows D) (sd_cols D) (sampled_entry (with_words env seed tape) D seed) x.
  (** The variance bound: 2/d up to the bias of "word mod (n-j)" (see C67_slack). *)
  Definition spread : R := 2 / IZR d * (1 + IZR d / IZR (2 ^ W)) ^ Z.to_nat k.

  Lemma sketch_image : short_hyps -> forall t x y, dot d (drawn_sketch t x) (drawn_sketch t y) = dot d (image env D seed t x) (image env D seed t y).
  Proof.
    intros (We & E1 & Em & HD & Hax & Hz & Hs & HW & Hb & Hd). destruct (valid_sdist_inv D HD) as (P1 & P2 & P3 & P4 & P5 & P6). rewrite Hax in P5, P6.
    assert (Hent : forall t r c, sampled_entry (with_words env seed t) D seed r c = Rsum (sparse_entry (with_words env seed t) D seed r c)).
    { intros t r c. rewrite sampled_entry_spec; [reflexivity|now apply with_words_wf|exact Hs|exact HD|exact Hz]. }
    assert (G : forall t x s, (0 <= s < d)%Z -> drawn_sketch t x s = image env D seed t x s).
    { intros t x s Hs'. unfold drawn_sketch, sketch_of, image, dot. destruct (Z.leb_spec (sd_rows D) (sd_cols D)) as [Q|Q].
      - replace (sd_minor D) with (sd_cols D) by lia. apply Rsum_ext. intros i Hi. apply in_range in Hi. rewrite Hent. unfold sparse_entry, val.
        replace (sd_rows D <=? sd_cols D)%Z with true by lia. rewrite Hax. replace ((0 <=? i) && (i <? sd_minor D))%Z with true by lia. reflexivity.
      - replace (sd_minor D) with (sd_rows D) by lia. apply Rsum_ext. intros i Hi. apply in_range in Hi. rewrite Hent. unfold sparse_entry, val.
        replace (sd_rows D <=? sd_cols D)%Z with false by lia. rewrite Hax. replace ((0 <=? i) && (i <? sd_minor D))%Z with true by lia. reflexivity. }
    intros t x y. apply dot_ext; intros; now apply G.
  Qed.

  (** Inner products: the mean square error of <Sx,Sy> is at most 2/d |x|^2 |y|^2. *)
  Theorem C67_inner_products : short_hyps -> inner_products_kept word_draws (iso2 D) drawn_sketch d m spread.
  Proof.
    intros H x y. pose proof (sketch_image H) as SI. destruct H as (We & E1 & Em & HD & Hax & Hz & Hs & HW & Hb & Hd).
    destruct (valid_sdist_inv D HD) as (P1 & P2 & P3 & P4 & P5 & P6). rewrite Hax in P5, P6.
    assert (Hiso : iso2 D = / IZR k). { unfold iso2. rewrite (dist_iso2 D HD), Hax. cbn [fst snd]. unfold Rdiv. apply Rmult_1_l. }
    assert (Pk : 0 < IZR k) by (apply IZR_lt; lia). assert (Pd : 0 < IZR d) by (apply IZR_lt; lia).
    assert (Pos : 0 < INR (length word_draws)) by (apply tapes_pos; auto using words_nonempty).
    unfold average. rewrite (Rsum_ext _ (fun t => / (IZR k * IZR k) * (dev env D seed t x y * dev env D seed t x y))).
    - rewrite Rsum_scal. pose proof (dev_sq env D seed We E1 Em HD Hs Hb W HW ltac:(lia) x y) as B. unfold word_draws in *.
      set (N := INR (length (tapes (Z.to_nat (sd_full_nnz D * g_len (se_raw env))) (range 0 (2 ^ W))))) in *.
      set (Sm := Rsum (map (fun t : list Z => dev env D seed t x y * dev env D seed t x y) _)) in *. unfold pmax in B. rewrite P5, P6 in B.
      apply (Rmult_le_reg_r (IZR k * IZR k * N)); [apply Rmult_lt_0_compat; [apply Rmult_lt_0_compat|]; assumption|].
      replace (/ (IZR k * IZR k) * Sm / N * (IZR k * IZR k * N)) with Sm by (field; lra). unfold spread.
      eapply Rle_trans; [exact B|]. right. field. lra.
    - intros t _. rewrite SI, Hiso. unfold dev. replace (sd_major D) with d by lia. replace (sd_minor D) with m by lia. field. lra.
  Qed.

  Lemma iso2_nonneg : valid_sdist D -> 0 <= iso2 D.
  Proof.
    intros HD. unfold iso2. rewrite (dist_iso2 D HD). destruct (valid_sdist_inv D HD) as (P1 & P2 & P3 & P4 & P5 & P6).
    assert (0 <= sd_minor D)%Z by (rewrite P6; destruct (sd_axis D); lia).
    destruct (sd_axis D); cbn [fst snd]; (apply Rmult_le_pos; [apply IZR_le; lia|]); [apply Rlt_le, Rinv_0_lt_compat, IZR_lt; lia|].
    apply Rlt_le, Rinv_0_lt_compat, IZR_lt. apply Z.mul_pos_pos; lia.
  Qed.
  Lemma drawn_linear t : linear m (drawn_sketch t).
  Proof. apply sketch_of_linear. Qed.

  (** Hence (Chebyshev) lengths, subspaces and least-squares problems. *)
  Theorem C67_lengths : short_hyps -> lengths_kept word_draws (iso2 D) drawn_sketch d m spread.
  Proof. intros H. apply embed_lengths. now apply C67_inner_products. Qed.
  Theorem C67_subspaces : short_hyps -> subspaces_kept word_draws (iso2 D) drawn_sketch d m spread.
  Proof. intros H. apply embed_subspaces; [exact drawn_linear|now apply C67_inner_products]. Qed.
  Theorem C67_least_squares : short_hyps -> least_squares_kept word_draws drawn_sketch d m spread.
  Proof. intros H. apply (embed_least_squares _ (iso2 D)); [exact drawn_linear|now apply C67_inner_products|]. apply iso2_nonneg, H. Qed.
End Short.
Print Assumptions C67_slack.
Print Assumptions C67_inner_products.
Print Assumptions C67_lengths.
Print Assumptions C67_subspaces.
Print Assumptions C67_least_squares.

(** A 2000 by 100000 operator with 8 nonzeros per column and 32-bit words: the squared length
    of a vector changes by more than 10 percent with probability at most 10.001 percent, and the
    lengths of all vectors of a plane by more than 50 percent with probability at most 1.7
    percent. *)
Example C67_case :
  let D := iso_dist 2000 100000 8 Short in let s := mk_state 7%Z tt in
  short_hyps iso_env D s 32 /\
  (forall x, 0 < dot 100000 x x ->
     probability (word_draws iso_env D 32) (fun t => exceeds (Rabs (iso2 D * dot 2000 (drawn_sketch iso_env D s t x) (drawn_sketch iso_env D s t x) - dot 100000 x x)) (/ 10 * dot 100000 x x)) <= 10001 / 100000) /\
  IZR (2 * 2) * spread D 32 / (/ 2) ^ 2 <= 17 / 1000.
Proof.
  cbv zeta. set (D := iso_dist 2000 100000 8 Short). set (s := mk_state 7%Z tt).
  assert (H : short_hyps iso_env D s 32).
  { split; [exact iso_env_wf|]. split; [reflexivity|]. split; [reflexivity|]. split; [reflexivity|]. split; [reflexivity|].
    split; [split; [|split]; vm_compute; congruence|]. split; [unfold seed_ok; cbn; lia|]. split; [lia|]. split; vm_compute; congruence. }
  assert (Sp : spread D 32 <= 10001 / 10000000).
  { unfold spread. change (Z.min (sd_rows D) (sd_cols D)) with 2000%Z. change (sd_vec_nnz D) with 8%Z.
    pose proof (C67_slack 2000 8 32 ltac:(lia) ltac:(lia) ltac:(lia) ltac:(lia)) as B.
    change (2 ^ 32)%Z with 4294967296%Z in *. change (8 * 2000)%Z with 16000%Z in B.
    set (u := (1 + 2000 / 4294967296) ^ Z.to_nat 8) in *. clearbody u. lra. }
  split; [exact H|]. split.
  - intros x Hx. pose proof (C67_lengths iso_env D s 32 H x (/ 10) ltac:(lra) Hx) as B. eapply Rle_trans; [exact B|]. cbn [pow]. lra.
  - cbn [pow]. change (2 * 2)%Z with 4%Z. lra.
Qed.
