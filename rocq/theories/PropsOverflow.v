(** Final theorems about 64-bit overflow (C79).  The functions ending in 64 evaluate every
    int64_t sum, difference and product with a range check and give UB when it leaves
    [-2^63, 2^63). *)
From Verif Require Import Base Spec Interleave RngModel DenseModel DenseSpec DenseProofs DenseProofs2 DenseProofs3
  PropsDense SparseSkopModel OverflowModel OverflowProofs.

(** Sampling any nonempty window with nonnegative offsets computes inside int64_t when the
    padded operator has fewer than 2^63 entries: the checked function and the unchecked one
    agree on every buffer, layout, seed and schedule. *)
Theorem C79_dense_window_partial :
  forall {K W T} (cast : W -> T) (env : dense_env K W T) sched lay D n_rows n_cols ro co
         (buff : list T) (seed : rng_state K),
    wf_env env -> valid_dist D ->
    (dd_major D + g_len (env_gen env (dd_family D))) * dd_minor D < 2 ^ 63 ->
    1 <= n_rows -> 1 <= n_cols -> 0 <= ro -> 0 <= co ->
    ro + n_rows <= dd_rows D -> co + n_cols <= dd_cols D ->
    fill_dense_unpacked64 cast env sched lay D n_rows n_cols ro co buff seed =
    fill_dense_unpacked cast env sched lay D n_rows n_cols ro co buff seed.
Proof.
  intros K W T cast env sched lay D n_rows n_cols ro co buff seed We (nr & nc & fam & ax & HD) Hf H1 H2 H3 H4 H5 H6.
  apply (unpacked64_eq cast env sched lay nr nc fam ax); try assumption.
  unfold window. auto 6.
Qed.
Print Assumptions C79_dense_window_partial.

(** So with overflow counted as undefined behaviour the call still ends normally and stores
    the entries of the closed form. *)
Theorem C79_dense_entries_partial :
  forall {K W T} (cast : W -> T) (env : dense_env K W T) sched lay D n_rows n_cols ro co
         (buff : list T) (seed : rng_state K),
    valid_schedule sched -> wf_env env -> valid_dist D ->
    size_ok D (g_len (env_gen env (dd_family D))) ->
    1 <= n_rows -> 1 <= n_cols -> 0 <= ro -> 0 <= co ->
    ro + n_rows <= dd_rows D -> co + n_cols <= dd_cols D ->
    n_rows * n_cols <= zlen buff ->
    exists buff' st,
      fill_dense_unpacked64 cast env sched lay D n_rows n_cols ro co buff seed = Ok (buff', st) /\
      forall i j, 0 <= i < n_rows -> 0 <= j < n_cols ->
        mat lay (min_ld lay n_rows n_cols) 0 buff' i j = dense_entry cast env D seed (ro + i) (co + j).
Proof.
  intros K W T cast env sched lay D n_rows n_cols ro co buff seed Hs We HD Hsz H1 H2 H3 H4 H5 H6 Hb.
  destruct (fill_dense_unpacked_spec cast env sched lay D n_rows n_cols ro co buff seed) as [b' [E [_ [G _]]]]; auto.
  eexists b', _. split; [|exact G].
  rewrite C79_dense_window_partial by (try assumption; apply Hsz). exact E.
Qed.
Print Assumptions C79_dense_entries_partial.

(** The same for operator objects: the constructor, fill_dense(S) and
    submatrix_as_blackbox(S, ...). *)
Theorem C79_dense_operator_partial :
  forall {K W T} (cast : W -> T) (env : dense_env K W T) D (seed : rng_state K),
    wf_env env -> valid_dist D ->
    (dd_major D + g_len (env_gen env (dd_family D))) * dd_minor D < 2 ^ 63 ->
    mk_dense_skop64 env D seed = mk_dense_skop env D seed /\
    forall S sched, ds_dist S = D ->
      fill_dense_skop64 cast env sched S = fill_dense_skop cast env sched S /\
      forall n_rows n_cols ro co,
        1 <= n_rows -> 1 <= n_cols -> 0 <= ro -> 0 <= co ->
        ro + n_rows <= dd_rows D -> co + n_cols <= dd_cols D ->
        submatrix_as_blackbox64 cast env sched S n_rows n_cols ro co =
        submatrix_as_blackbox cast env sched S n_rows n_cols ro co.
Proof.
  intros K W T cast env D seed We HD Hf.
  pose proof HD as (nr & nc & fam & ax & HD').
  assert (Hg : wf_generator (env_gen env (dd_family D))) by (destruct (dd_family D); apply We).
  pose proof (wf_len _ Hg) as HL.
  destruct (dims_fit _ _ _ _ _ _ HD' (proj1 HL) Hf) as (Hnr & Hnc & Hrc & Er & Ec & _).
  split.
  { unfold mk_dense_skop64, mk_dense_skop. rewrite (next_state64_eq _ nr nc fam ax) by assumption. reflexivity. }
  intros S sched ES. split.
  - unfold fill_dense_skop64, fill_dense_skop. rewrite ES.
    assert (E : forall b, fill_dense_unpacked64 cast env sched (ds_layout S) D (dd_rows D) (dd_cols D) 0 0 b (ds_seed S) =
                          fill_dense_unpacked cast env sched (ds_layout S) D (dd_rows D) (dd_cols D) 0 0 b (ds_seed S)).
    { intros b. apply C79_dense_window_partial; try assumption; lia. }
    assert (Hz : ck (dd_rows D * dd_cols D) = Ok (dd_rows D * dd_cols D)).
    { rewrite Er, Ec. apply ck_in. split; [|exact Hrc].
      assert (0 <= nr * nc) by (apply Z.mul_nonneg_nonneg; lia). lia. }
    destruct (ds_buff S) as [b|]; cbn [bind]; [now rewrite E|].
    destruct (ds_own S); cbn [bind]; [|reflexivity].
    rewrite Hz. cbn [bind]. now rewrite E.
  - intros n_rows n_cols ro co H1 H2 H3 H4 H5 H6.
    unfold submatrix_as_blackbox64, submatrix_as_blackbox. rewrite ES.
    assert (Hz : 0 <= n_rows * n_cols < 2 ^ 63).
    { split; [apply Z.mul_nonneg_nonneg; lia|].
      apply Z.le_lt_trans with (nr * nc); [|exact Hrc]. apply Z.mul_le_mono_nonneg; lia. }
    rewrite (ck_in (ro + n_rows)) by lia. cbn [bind]. rewrite (ck_in (co + n_cols)) by lia.
    rewrite (ck_in (n_rows * n_cols)) by lia.
    destruct (ro + n_rows <=? dd_rows D); cbn [require bind]; [|reflexivity].
    destruct (co + n_cols <=? dd_cols D); cbn [require bind]; [|reflexivity].
    destruct (0 <=? n_rows * n_cols); cbn [require bind]; [|reflexivity].
    rewrite C79_dense_window_partial by (assumption || lia). reflexivity.
Qed.
Print Assumptions C79_dense_operator_partial.

(** It is not enough that the number of entries fits.  A 1 x 2^62 operator along the short
    axis has 2^62 entries and blocks of four words; its distribution and its operator object
    are built, but sampling the single entry of column 2^61 overflows: each entry is padded
    to a block of four, and the padded position is 2^63. *)
Theorem C79_dense_entries_fit_refuted :
  forall {K W T} (cast : W -> T) (env : dense_env K W T) fam (seed : rng_state K),
    g_len (env_gen env fam) = 4 ->
    exists D S,
      mk_dense_dist 1 (2 ^ 62) fam Short = Ok D /\ dd_rows D * dd_cols D < 2 ^ 63 /\
      mk_dense_skop64 env D seed = Ok S /\
      forall sched lay (buff : list T),
        0 <= 2 ^ 61 /\ 2 ^ 61 + 1 <= dd_cols D /\
        fill_dense_unpacked64 cast env sched lay D 1 1 0 (2 ^ 61) buff seed = UB /\
        submatrix_as_blackbox64 cast env sched S 1 1 0 (2 ^ 61) = UB.
Proof.
  intros K W T cast env fam seed HL.
  exists {| dd_rows := 1; dd_cols := 2 ^ 62; dd_axis := Short; dd_major := 1; dd_minor := 2 ^ 62;
            dd_iso_inv2 := 2 ^ 62; dd_family := fam; dd_layout := natural_layout Short 1 (2 ^ 62) |}.
  assert (HF : forall sched lay (buff : list T), fill_dense_unpacked64 cast env sched lay
     {| dd_rows := 1; dd_cols := 2 ^ 62; dd_axis := Short; dd_major := 1; dd_minor := 2 ^ 62;
        dd_iso_inv2 := 2 ^ 62; dd_family := fam; dd_layout := natural_layout Short 1 (2 ^ 62) |}
     1 1 0 (2 ^ 61) buff seed = UB).
  { intros sched lay buff. unfold fill_dense_unpacked64. cbn [dd_rows dd_cols dd_major dd_layout dd_family].
    change (natural_layout Short 1 (2 ^ 62)) with ColMajor.
    change (ck (1 + 0)) with (@Ok Z 1). cbn [bind]. change (1 >=? 1) with true. cbn [require bind].
    change (ck (1 + 2 ^ 61)) with (@Ok Z (1 + 2 ^ 61)). cbn [bind].
    change (2 ^ 62 >=? 1 + 2 ^ 61) with true. cbn [require bind].
    change (safe_int_product (2 ^ 61) 1) with (@Ok Z (2 ^ 61)). cbn [bind].
    change (ck (0 + 2 ^ 61)) with (@Ok Z (2 ^ 61)). cbn [bind].
    assert (E : forall g, g_len g = 4 -> fill_dense_submat_impl64 cast sched g 1 buff 1 1 (2 ^ 61) seed 0 = UB).
    { intros g Hg. unfold fill_dense_submat_impl64. rewrite Hg. change (0 <=? 0) with true. cbn [bind].
      change (1 >=? 1) with true. cbn [require bind].
      change (pad_of64 1 4) with (@Ok Z 3). cbn [bind]. change (1 =? 0) with false. cbv iota.
      change (ck (Z.quot (2 ^ 61) 1 * 3)) with (@Ok Z (2 ^ 61 * 3)). cbn [bind].
      change (ck (2 ^ 61 + 2 ^ 61 * 3)) with (@UB Z). reflexivity. }
    destruct fam; cbn [env_gen] in HL; rewrite E by exact HL; reflexivity. }
  eexists. split; [reflexivity|]. split; [cbn; lia|].
  split.
  { unfold mk_dense_skop64, compute_next_state64. cbn [dd_major dd_minor dd_family]. rewrite HL.
    change (pad_of64 1 4) with (@Ok Z 3). cbn [bind]. change (ck (1 + 3)) with (@Ok Z 4). cbn [bind].
    change (safe_int_product (Z.quot 4 4) (2 ^ 62)) with (@Ok Z (2 ^ 62)). cbn [bind]. reflexivity. }
  intros sched lay buff. split; [lia|]. split; [cbn; lia|]. split; [apply HF|].
  unfold submatrix_as_blackbox64. cbn [ds_dist ds_layout ds_seed dd_rows dd_cols].
  change (ck (0 + 1)) with (@Ok Z 1). cbn [bind]. change (1 <=? 1) with true. cbn [require bind].
  change (ck (2 ^ 61 + 1)) with (@Ok Z (2 ^ 61 + 1)). cbn [bind].
  change (2 ^ 61 + 1 <=? 2 ^ 62) with true. cbn [require bind].
  change (ck (1 * 1)) with (@Ok Z 1). cbn [bind]. change (0 <=? 1) with true. cbn [require bind].
  rewrite HF. reflexivity.
Qed.
Print Assumptions C79_dense_entries_fit_refuted.

(** The window check itself can overflow: a window reaching past 2^63 - 1 is not rejected
    with an exception.  The mathematical test fails, the C++ test is undefined. *)
Theorem C79_window_check_refuted :
  forall {K W T} (cast : W -> T) (env : dense_env K W T) sched lay D n_rows n_cols ro co
         (buff : list T) (seed : rng_state K),
    int64 (dd_rows D) = true -> 2 ^ 63 <= n_rows + ro ->
    fill_dense_unpacked64 cast env sched lay D n_rows n_cols ro co buff seed = UB /\
    fill_dense_unpacked cast env sched lay D n_rows n_cols ro co buff seed = Throw.
Proof.
  intros K W T cast env sched lay D n_rows n_cols ro co buff seed HD Hov.
  unfold int64, int64_min, int64_max in HD.
  unfold fill_dense_unpacked64, fill_dense_unpacked, ck.
  replace (int64 (n_rows + ro)) with false by (symmetry; apply int64_out; now right).
  split; [reflexivity|].
  replace (dd_rows D >=? n_rows + ro) with false by lia. reflexivity.
Qed.
Print Assumptions C79_window_check_refuted.

(** The constructor of SparseDist, exactly: for int64_t arguments it is undefined when
    n_rows + n_cols or the number of nonzeros leaves the range, and otherwise it is the
    constructor of the other theorems (an exception for bad arguments, the distribution
    for good ones). *)
Theorem C79_sparse_dist_partial :
  forall r c k ax,
    int64 r = true -> int64 c = true -> int64 k = true ->
    let nvec := match ax with Short => Z.max r c | Long => Z.min r c end in
    (mk_sparse_dist64 r c k ax = UB <->
       (r + c < - 2 ^ 63 \/ 2 ^ 63 <= r + c) \/ (k * nvec < - 2 ^ 63 \/ 2 ^ 63 <= k * nvec)) /\
    (mk_sparse_dist64 r c k ax <> UB -> mk_sparse_dist64 r c k ax = mk_sparse_dist r c k ax).
Proof.
  intros r c k ax Hr Hc Hk nvec. pose proof (mk_sparse_dist64_exact r c k ax Hr Hc) as E. fold nvec in E.
  cbv zeta in E. fold nvec in E. rewrite E. rewrite <- !int64_out.
  assert (N : mk_sparse_dist r c k ax <> UB).
  { unfold mk_sparse_dist. destruct (r >? 0), (c >? 0), (k >? 0), (k <=? _); cbn [require bind]; discriminate. }
  destruct (int64 (r + c)), (int64 (k * nvec)); cbn [andb]; (split; [|congruence]); split; intros H;
    try (now destruct (N H)); try reflexivity; try (destruct H; discriminate); auto.
Qed.
Print Assumptions C79_sparse_dist_partial.

(** The state formula of a sparse operator does not overflow once the constructor has
    succeeded. *)
Theorem C79_sparse_next_state :
  forall {K F T} (env : sparse_env K F T) r c k ax D (st : rng_state K),
    2 <= g_len (se_raw env) -> int64 r = true -> int64 c = true ->
    mk_sparse_dist64 r c k ax = Ok D ->
    sparse_next_state64 env D st = Ok (sparse_next_state env D st).
Proof.
  intros K F T env r c k ax D st HL Hr Hc H.
  pose proof (mk_sparse_dist64_exact r c k ax Hr Hc) as E. cbv zeta in E. rewrite E in H. clear E.
  destruct (int64 (r + c)); cbn [andb] in H; [|discriminate].
  destruct (int64 (k * _)) eqn:Ef in H; [|discriminate].
  unfold mk_sparse_dist in H.
  destruct (Z.gtb_spec r 0) as [Pr|Pr]; cbn [require bind] in H; [|discriminate].
  destruct (Z.gtb_spec c 0) as [Pc|Pc]; cbn [require bind] in H; [|discriminate].
  destruct (Z.gtb_spec k 0) as [Pk|Pk]; cbn [require bind] in H; [|discriminate].
  destruct (k <=? _); cbn [require bind] in H; [|discriminate].
  injection H as <-. unfold sparse_next_state64, sparse_next_state. cbn [sd_axis sd_rows sd_cols sd_vec_nnz].
  destruct ax.
  - unfold ck. rewrite Z.mul_comm, Ef. reflexivity.
  - set (L := g_len (se_raw env)) in *. set (q := (2 * k + L - 1) / L).
    assert (Hq : 0 <= q <= k).
    { unfold q. split; [apply Z.div_pos; lia|]. clear - HL Pk.
      assert ((2 * k + L - 1) / L < k + 1); [|lia].
      apply Z.div_lt_upper_bound; [lia|]. assert (0 <= (L - 2) * k) by (apply Z.mul_nonneg_nonneg; lia).
      replace (L * (k + 1)) with ((L - 2) * k + 2 * k + L) by ring. lia. }
    set (m := Z.min r c) in *. assert (Hm : 0 < m) by (unfold m; lia).
    clearbody q m. unfold int64, int64_min, int64_max in Ef.
    assert (0 <= m * q) by (apply Z.mul_nonneg_nonneg; lia).
    assert (m * q <= m * k) by (apply Z.mul_le_mono_nonneg_l; lia).
    rewrite ck_in; [reflexivity|]. rewrite (Z.mul_comm k m) in Ef. lia.
Qed.
Print Assumptions C79_sparse_next_state.

(** Arguments inside the documented bounds for which the constructor is undefined, and
    arguments outside them for which no exception is guaranteed. *)
Theorem C79_sparse_dist_refuted :
  (exists r c k ax, int64 r = true /\ int64 c = true /\ 0 < r /\ 0 < c /\ 1 <= k <= Z.min r c /\
     (exists D, mk_sparse_dist r c k ax = Ok D) /\ mk_sparse_dist64 r c k ax = UB) /\
  (exists r c k ax, int64 r = true /\ int64 c = true /\ 0 < r /\ 0 < c /\ r + c < 2 ^ 63 /\
     1 <= k <= Z.min r c /\
     (exists D, mk_sparse_dist r c k ax = Ok D) /\ mk_sparse_dist64 r c k ax = UB) /\
  (exists r c k ax, int64 r = true /\ int64 c = true /\ r <= 0 /\
     mk_sparse_dist r c k ax = Throw /\ mk_sparse_dist64 r c k ax = UB).
Proof.
  split; [|split].
  - exists (2 ^ 62), (2 ^ 62), 1, Short. repeat (split; [reflexivity || lia|]).
    split; [eexists; reflexivity|reflexivity].
  - exists (2 ^ 32), (2 ^ 32), (2 ^ 32), Short. repeat (split; [reflexivity || lia|]).
    split; [eexists; reflexivity|reflexivity].
  - exists (- 2 ^ 63), (- 2 ^ 63), 4, Short. repeat (split; [reflexivity || lia|]). reflexivity.
Qed.
Print Assumptions C79_sparse_dist_refuted.

(** A case meeting the hypotheses: the 5 x 7 operator of C01 and a window of it, checked and
    unchecked; a 2^20 x 2^40 Short-axis operator, which satisfies the bound; a sparse
    distribution of 2^40 columns. *)
Example C79_case :
  fill_dense_unpacked64 (fun x => x) toy_env rev_schedule ColMajor D57 2 3 1 4 (repeat 0 6) (mk_state 10 1) =
  fill_dense_unpacked (fun x => x) toy_env rev_schedule ColMajor D57 2 3 1 4 (repeat 0 6) (mk_state 10 1) /\
  fill_dense_unpacked64 (fun x => x) toy_env rev_schedule ColMajor D57 2 3 1 4 (repeat 0 6) (mk_state 10 1) <> UB /\
  (exists D, mk_dense_dist (2 ^ 20) (2 ^ 40) Gaussian Short = Ok D /\ valid_dist D /\
     (dd_major D + g_len (env_gen toy_env (dd_family D))) * dd_minor D < 2 ^ 63) /\
  (exists D, mk_sparse_dist64 (2 ^ 20) (2 ^ 40) 8 Short = Ok D /\ sd_full_nnz D = 2 ^ 43).
Proof.
  split; [vm_compute; reflexivity|]. split; [vm_compute; discriminate|]. split.
  - eexists. split; [reflexivity|]. split; [exists (2 ^ 20), (2 ^ 40), Gaussian, Short; reflexivity|cbn; lia].
  - eexists. split; reflexivity.
Qed.
