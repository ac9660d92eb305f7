(** fill_sparse_unpacked_nosub refines [sparse_entry]. *)
From Verif Require Import Base Spec RngModel DenseModel DenseSpec DenseProofs SparseSkopModel FySpec FyProofs SamplerProofs SparseSpec LasoProofs.
From Coq Require Import Permutation.

Lemma valid_sdist_inv D : valid_sdist D ->
  0 < sd_rows D /\ 0 < sd_cols D /\ 0 < sd_vec_nnz D <= sd_major D /\
  sd_full_nnz D = sd_vec_nnz D * sd_minor D /\
  sd_major D = match sd_axis D with Short => Z.min (sd_rows D) (sd_cols D) | Long => Z.max (sd_rows D) (sd_cols D) end /\
  sd_minor D = match sd_axis D with Short => Z.max (sd_rows D) (sd_cols D) | Long => Z.min (sd_rows D) (sd_cols D) end.
Proof.
  unfold valid_sdist, mk_sparse_dist. intros H.
  apply bind_Ok in H as [u1 [H1 H]]. apply bind_Ok in H as [u2 [H2 H]].
  apply bind_Ok in H as [u3 [H3 H]]. apply bind_Ok in H as [u4 [H4 H]].
  apply require_Ok in H1, H2, H3, H4. injection H as H. rewrite <- H in *. cbn [sd_rows sd_cols sd_axis sd_major sd_minor sd_vec_nnz sd_full_nnz] in *.
  destruct (sd_axis D); repeat split; lia.
Qed.

(* ------------------------------------------------------------------ *)
(** * coo_values *)
Lemma coo_values_ext {T} n r c r' c' (v v' : list T) i j :
  (forall p, 0 <= p < n -> get r p = get r' p /\ get c p = get c' p /\ get v p = get v' p) ->
  coo_values n r c v i j = coo_values n r' c' v' i j.
Proof.
  intros H. unfold coo_values. rewrite !flat_map_concat_map. f_equal. apply map_ext_in.
  intros p Hp. apply in_range in Hp. destruct (H p Hp) as [-> [-> ->]]. reflexivity.
Qed.

Lemma coo_values_swap {T} n r c (v : list T) i j : coo_values n r c v i j = coo_values n c r v j i.
Proof.
  unfold coo_values. rewrite !flat_map_concat_map. f_equal. apply map_ext. intros p.
  destruct (get r p), (get c p), (get v p); try reflexivity.
  rewrite andb_comm. reflexivity.
Qed.

Lemma flat_map_nil {A B} (f : A -> list B) l : (forall x, In x l -> f x = []) -> flat_map f l = [].
Proof.
  induction l as [|x l IH]; intros H; cbn; [reflexivity|].
  rewrite (H x (or_introl eq_refl)). apply IH. intros y Hy. apply H. now right.
Qed.

Lemma flat_map_one {A B} (f : A -> list B) l x :
  NoDup l -> In x l -> (forall y, In y l -> y <> x -> f y = []) -> flat_map f l = f x.
Proof.
  intros Nd Hin H. apply in_split in Hin as [l1 [l2 ->]].
  rewrite flat_map_app. cbn [flat_map]. apply NoDup_remove in Nd as [_ Nd].
  rewrite (flat_map_nil f l1), (flat_map_nil f l2), app_nil_r; [reflexivity| |].
  - intros y Hy. apply H; [apply in_or_app; right; now right|]. intros ->. apply Nd, in_or_app. now right.
  - intros y Hy. apply H; [apply in_or_app; now left|]. intros ->. apply Nd, in_or_app. now left.
Qed.

Lemma coo_values_app {T} n m r c (v : list T) i j : 0 <= n <= m ->
  coo_values m r c v i j = coo_values n r c v i j ++
    flat_map (fun p => match get r p, get c p, get v p with
      | Some r', Some c', Some x => if (r' =? i) && (c' =? j) then [x] else []
      | _, _, _ => [] end) (range n m).
Proof. intros H. unfold coo_values. rewrite (range_split 0 n m) by lia. apply flat_map_app. Qed.

Section Sparse.
  Context {K F T : Type}.
  Variable env : sparse_env K F T.
  Hypothesis Henv : wf_senv env.

  (* ---------------------------------------------------------------- *)
  (** ** Short axis *)
  Lemma short_spec D (seed : rng_state K) vals rows cols :
    valid_sdist D -> sparse_size_ok env D -> sd_axis D = Short ->
    sd_full_nnz D <= zlen vals -> sd_full_nnz D <= zlen rows -> sd_full_nnz D <= zlen cols ->
    exists vals' rows' cols',
      fill_sparse_unpacked_nosub env D vals rows cols seed =
        Ok (sd_full_nnz D, vals', rows', cols',
            mk_state ((counter seed + sd_minor D * sd_vec_nnz D) mod 2 ^ g_bits (se_raw env)) (key seed)) /\
      zlen vals' = zlen vals /\ zlen rows' = zlen rows /\ zlen cols' = zlen cols /\
      (forall p, ~ (0 <= p < sd_full_nnz D) ->
         get vals' p = get vals p /\ get rows' p = get rows p /\ get cols' p = get cols p) /\
      (forall i j, 0 <= i < sd_minor D -> 0 <= j < sd_vec_nnz D ->
         get vals' (i * sd_vec_nnz D + j) = Some (short_sign env D seed i j) /\
         let '(sh, lo) := if sd_rows D <=? sd_cols D then (rows', cols') else (cols', rows') in
         get lo (i * sd_vec_nnz D + j) = Some i /\
         get sh (i * sd_vec_nnz D + j) = get (short_sample env D seed i) j).
  Proof.
    intros HD (S1 & S2 & S3) Hax Lv Lr Lc.
    destruct (valid_sdist_inv D HD) as (P1 & P2 & P3 & P4 & P5 & P6). rewrite Hax in P5, P6.
    destruct Henv as [WR _ _ _ _ Wsb _ _].
    unfold fill_sparse_unpacked_nosub. rewrite Hax.
    set (sh := if sd_rows D <=? sd_cols D then rows else cols).
    set (lo := if sd_rows D <=? sd_cols D then cols else rows).
    assert (sd_minor D * sd_vec_nnz D = sd_full_nnz D) as Ef by lia.
    assert (sd_full_nnz D <= zlen sh /\ sd_full_nnz D <= zlen lo) as [Lsh Llo]
      by (unfold sh, lo; destruct (sd_rows D <=? sd_cols D); auto).
    destruct (fisher_yates_spec (se_raw env) (se_sb env) (se_one env) (se_mone env) WR ltac:(lia) seed
      (sd_vec_nnz D) (sd_major D) (sd_minor D) sh (Some lo) (Some vals)) as (o & a & b & E & U & V & X);
      try (clear - S1 S2 S3 P1 P2 P3 P4 P5 P6 Ef Wsb Lsh Llo Lv; cbn [long_opt]; lia).
    cbn [upd_opt] in V, X. destruct a as [a|]; [|contradiction]. destruct b as [b|]; [|contradiction].
    rewrite E. cbn [bind]. rewrite Ef in U, V, X.
    exists b, (if sd_rows D <=? sd_cols D then o else a), (if sd_rows D <=? sd_cols D then a else o).
    rewrite Ef. split. { rewrite P4. destruct (sd_rows D <=? sd_cols D); reflexivity. }
    split; [apply X|].
    split; [unfold sh, lo in U, V; destruct (sd_rows D <=? sd_cols D); [apply U|apply V]|].
    split; [unfold sh, lo in U, V; destruct (sd_rows D <=? sd_cols D); [apply V|apply U]|].
    destruct U as [_ U], V as [_ V], X as [_ X]. split.
    - intros p Hp. rewrite X.
      assert ((0 <=? p) && (p <? sd_full_nnz D) = false) as Hb by (clear - Hp; lia). rewrite Hb.
      split; [reflexivity|].
      unfold sh, lo in U, V. destruct (sd_rows D <=? sd_cols D); rewrite U, V, Hb; auto.
    - intros i j Hi Hj.
      assert (0 <= i * sd_vec_nnz D + j < sd_full_nnz D) as Hp.
      { rewrite <- Ef. assert ((i + 1) * sd_vec_nnz D <= sd_minor D * sd_vec_nnz D) by (apply Z.mul_le_mono_nonneg_r; lia).
        assert (0 <= i * sd_vec_nnz D) by (apply Z.mul_nonneg_nonneg; lia). lia. }
      assert ((0 <=? i * sd_vec_nnz D + j) && (i * sd_vec_nnz D + j <? sd_full_nnz D) = true) as Hb by (clear - Hp; lia).
      rewrite X, Hb. split; [reflexivity|].
      destruct (div_mod_pair (sd_vec_nnz D) i j Hj) as [Hd Hm].
      assert (Some (major_at (se_raw env) (counter seed) (key seed) (sd_major D) (sd_vec_nnz D) (i * sd_vec_nnz D + j))
              = get (short_sample env D seed i) j) as Hmaj.
      { unfold major_at. rewrite Hd, Hm.
        change (sample (se_raw env) (counter seed) (key seed) (sd_major D) (sd_vec_nnz D) i) with (short_sample env D seed i).
        destruct (sample_step_spec (se_raw env) (counter seed) (key seed) (sd_major D) (sd_vec_nnz D) i j Hj ltac:(lia)) as [x [_ [_ [_ [_ G]]]]].
        change (sample (se_raw env) (counter seed) (key seed) (sd_major D) (sd_vec_nnz D) i) with (short_sample env D seed i) in G.
        rewrite G. reflexivity. }
      destruct (sd_rows D <=? sd_cols D); rewrite U, V, Hb, Hd; auto.
  Qed.

  Lemma short_sample_facts D (seed : rng_state K) i :
    valid_sdist D ->
    zlen (short_sample env D seed i) = sd_vec_nnz D /\ NoDup (short_sample env D seed i) /\
    (forall x, In x (short_sample env D seed i) -> 0 <= x < sd_major D).
  Proof.
    intros HD. destruct (valid_sdist_inv D HD) as (P1 & P2 & P3 & P4 & P5 & P6).
    unfold short_sample. split; [|split].
    - unfold zlen. rewrite fy_length.
      + rewrite map_length. unfold range. rewrite length_zseq. lia.
      + rewrite zlen_range by lia. unfold range. apply valid_pivots_map. intros j Hj.
        replace (sd_major D - 0 - (j - 0)) with (sd_major D - j) by lia. apply Z.mod_pos_bound. lia.
    - apply fy_NoDup, NoDup_range.
    - intros x Hx. apply fy_In, in_range in Hx. exact Hx.
  Qed.

  (** What [find] returns on a list without repetitions. *)
  Lemma find_in_sample (l : list Z) k s j :
    NoDup l -> zlen l = k -> get l j = Some s ->
    find (fun j => match get l j with Some x => x =? s | None => false end) (range 0 k) = Some j.
  Proof.
    intros Nd Ll Hj. destruct (find _ (range 0 k)) as [j'|] eqn:E.
    - apply find_some in E as [_ E]. destruct (get l j') as [x|] eqn:G; [|discriminate].
      f_equal. apply (get_inj_NoDup l j' j s Nd); [|exact Hj]. rewrite G. f_equal. lia.
    - exfalso. pose proof (find_none _ _ E j) as Hn. rewrite in_range in Hn. pose proof (get_Some_lt _ _ _ Hj).
      specialize (Hn ltac:(lia)). cbn in Hn. rewrite Hj in Hn. lia.
  Qed.

  Lemma short_values D (seed : rng_state K) vals rows cols vals' sh lo s m :
    valid_sdist D -> sd_axis D = Short ->
    (forall i j, 0 <= i < sd_minor D -> 0 <= j < sd_vec_nnz D ->
         get vals' (i * sd_vec_nnz D + j) = Some (short_sign env D seed i j) /\
         get lo (i * sd_vec_nnz D + j) = Some i /\
         get sh (i * sd_vec_nnz D + j) = get (short_sample env D seed i) j) ->
    vals = vals' -> rows = sh -> cols = lo ->
    coo_values (sd_full_nnz D) sh lo vals' s m =
      if (0 <=? m) && (m <? sd_minor D) then short_entry env D seed s m else [].
  Proof.
    intros HD Hax H _ _ _. destruct (valid_sdist_inv D HD) as (P1 & P2 & P3 & P4 & P5 & P6).
    set (k := sd_vec_nnz D) in *. rewrite Hax in P5, P6.
    assert (forall p, 0 <= p < sd_full_nnz D -> exists i j, p = i * k + j /\ 0 <= i < sd_minor D /\ 0 <= j < k) as Hdec.
    { intros p Hp. exists (p / k), (p mod k). pose proof (Z.div_mod p k ltac:(lia)). pose proof (Z.mod_pos_bound p k ltac:(lia)).
      split; [lia|]. split; [|lia]. split; [apply Z.div_pos; lia|apply Z.div_lt_upper_bound; lia]. }
    destruct ((0 <=? m) && (m <? sd_minor D)) eqn:Em.
    - unfold short_entry. fold k. destruct (short_sample_facts D seed m HD) as (Ls & Nd & Hin). fold k in Ls.
      destruct (find _ (range 0 k)) as [j|] eqn:Ef.
      + apply find_some in Ef as [Hj Ej]. apply in_range in Hj.
        destruct (get (short_sample env D seed m) j) as [x|] eqn:G; [|discriminate]. apply Z.eqb_eq in Ej. subst x.
        unfold coo_values.
        assert (0 <= m < sd_minor D) as Hm by lia.
        assert (0 <= m * k + j < sd_full_nnz D) as Hp.
        { rewrite P4. assert ((m + 1) * k <= sd_minor D * k) by (apply Z.mul_le_mono_nonneg_r; lia).
          assert (0 <= m * k) by (apply Z.mul_nonneg_nonneg; lia). lia. }
        rewrite (flat_map_one _ _ (m * k + j)); [| apply NoDup_range | apply in_range; exact Hp |].
        * destruct (H m j Hm Hj) as (-> & -> & ->). rewrite G, !Z.eqb_refl. reflexivity.
        * intros p Hpin Hne. apply in_range in Hpin. destruct (Hdec p Hpin) as (i' & j' & -> & Hi' & Hj').
          destruct (H i' j' Hi' Hj') as (-> & -> & ->).
          destruct (get (short_sample env D seed i') j') as [y|] eqn:G'; [|reflexivity].
          destruct (Z.eqb_spec y s) as [->|]; [|reflexivity]. destruct (Z.eqb_spec i' m) as [->|]; [|reflexivity].
          exfalso. apply Hne. f_equal. apply (get_inj_NoDup _ j' j s Nd G' G).
      + apply flat_map_nil. intros p Hpin. apply in_range in Hpin. destruct (Hdec p Hpin) as (i' & j' & -> & Hi' & Hj').
        destruct (H i' j' Hi' Hj') as (-> & -> & ->).
        destruct (get (short_sample env D seed i') j') as [y|] eqn:G'; [|reflexivity].
        destruct (Z.eqb_spec y s) as [->|]; [|reflexivity]. destruct (Z.eqb_spec i' m) as [->|]; [|reflexivity].
        exfalso. rewrite (find_in_sample _ k s j' Nd Ls G') in Ef. discriminate.
    - apply flat_map_nil. intros p Hpin. apply in_range in Hpin. destruct (Hdec p Hpin) as (i' & j' & -> & Hi' & Hj').
      destruct (H i' j' Hi' Hj') as (-> & -> & ->).
      destruct (get (short_sample env D seed i') j') as [y|] eqn:G'; [|reflexivity].
      destruct (Z.eqb_spec i' m) as [->|]; [lia|]. rewrite andb_false_r. reflexivity.
  Qed.

  (* ---------------------------------------------------------------- *)
  (** ** Long axis *)
  Definition B (D : sparse_dist) : Z := ceil_div (sd_vec_nnz D) (half env).

  Lemma half_pos : 1 <= half env /\ 2 * half env <= g_len (se_unif env).
  Proof.
    destruct Henv as [_ [WL _ _] _ _ _ _ _ _]. unfold half.
    pose proof (Z.div_mod (g_len (se_unif env)) 2 ltac:(lia)).
    pose proof (Z.mod_pos_bound (g_len (se_unif env)) 2 ltac:(lia)). lia.
  Qed.

  Lemma sample_at_spec D (seed : rng_state K) i off lax vals :
    0 <= off -> 0 <= sd_vec_nnz D ->
    off + sd_vec_nnz D <= zlen lax -> off + sd_vec_nnz D <= zlen vals ->
    exists lax' vals',
      sample_at env off (sd_major D) (sd_vec_nnz D) lax vals
        (mk_state ((counter seed + i * B D) mod 2 ^ g_bits (se_raw env)) (key seed)) =
      Ok (lax', vals', mk_state ((counter seed + (i + 1) * B D) mod 2 ^ g_bits (se_raw env)) (key seed)) /\
      zlen lax' = zlen lax /\ zlen vals' = zlen vals /\
      (forall p, get lax' p = if (off <=? p) && (p <? off + sd_vec_nnz D) then Some (long_index env D seed i (p - off)) else get lax p) /\
      (forall p, get vals' p = if (off <=? p) && (p <? off + sd_vec_nnz D) then Some (long_sign env D seed i (p - off)) else get vals p).
  Proof.
    intros Ho Hk Ll Lv. destruct Henv as [WR WU Wl Wb We Wsb Ws Wo]. destruct half_pos as [Hh1 Hh2].
    set (k := sd_vec_nnz D) in *. set (o := Z.to_nat off).
    assert (0 < 2 ^ g_bits (se_raw env)) as Hb2 by (apply Z.pow_pos_nonneg; [lia|destruct WR; lia]).
    set (st := mk_state ((counter seed + i * B D) mod 2 ^ g_bits (se_raw env)) (key seed)).
    unfold sample_at. replace ((off <? 0) || (zlen lax <? off) || (zlen vals <? off)) with false by lia.
    destruct (get_lt (g_fun (se_unif env) 0 (key seed)) 0) as [d0 _].
    { rewrite (wf_fun _ WU). destruct WU; lia. }
    assert (Z.of_nat o = off) as Eo by lia.
    assert (zlen (skipn o lax) = zlen lax - off) as L1 by (unfold zlen in *; rewrite skipn_length; lia).
    assert (zlen (skipn o vals) = zlen vals - off) as L2 by (unfold zlen in *; rewrite skipn_length; lia).
    destruct (sample_indices_spec (se_unif env) (fun x => Ok (se_draw env (sd_major D) x)) (se_draw env (sd_major D))
       (se_nonneg env) (se_one env) (se_mone env) d0 WU (fun x => eq_refl) k (skipn o lax) (Some (skipn o vals)) st)
      as (s' & r' & E & U & V).
    { cbn [counter st]. rewrite Wb. apply Z.mod_pos_bound. exact Hb2. }
    { exact Hk. } { lia. } { cbn [long_opt]. lia. }
    cbn [upd_opt] in V. destruct r' as [r'|]; [|contradiction].
    cbv zeta. fold o. rewrite E. cbn [bind]. exists (firstn o lax ++ s'), (firstn o vals ++ r').
    cbn [per_block] in *. fold (half env) in *. cbn [counter key st] in *.
    assert (zlen (firstn o lax) = off) as F1 by (unfold zlen in *; rewrite firstn_length; lia).
    assert (zlen (firstn o vals) = off) as F2 by (unfold zlen in *; rewrite firstn_length; lia).
    destruct U as [U1 U], V as [V1 V].
    split. { rewrite Wb, Zplus_mod_idemp_l. do 3 f_equal. unfold B. fold k. f_equal. ring. }
    split; [rewrite zlen_app; lia|]. split; [rewrite zlen_app; lia|].
    assert (forall t l, 0 <= t < k -> 0 <= l < g_len (se_unif env) ->
       unif_lane env seed (i * B D + t / half env) l =
       Some (lane (se_unif env) d0 ((counter seed + i * B D) mod 2 ^ g_bits (se_raw env)) (key seed) (t / half env) l)) as Hlane.
    { intros t l Ht Hl. unfold unif_lane. rewrite <- (get_lane (se_unif env) d0 WU) by exact Hl.
      rewrite Wb, Zplus_mod_idemp_l. do 3 f_equal. ring. }
    split.
    - intros p. destruct (Z_lt_le_dec p off).
      + replace ((off <=? p) && (p <? off + k)) with false by lia.
        rewrite get_app_l by lia. apply get_firstn. lia.
      + rewrite get_app_r by lia. rewrite F1, U.
        replace ((0 <=? p - off) && (p - off <? k)) with ((off <=? p) && (p <? off + k)) by lia.
        destruct ((off <=? p) && (p <? off + k)) eqn:Ep.
        * f_equal. unfold long_index. unfold B in Hlane. fold k. fold k in Hlane.
          pose proof (Z.mod_pos_bound (p - off) (half env) ltac:(lia)).
          rewrite Hlane by lia. reflexivity.
        * rewrite get_skipn by lia. f_equal. lia.
    - intros p. destruct (Z_lt_le_dec p off).
      + replace ((off <=? p) && (p <? off + k)) with false by lia.
        rewrite get_app_l by lia. apply get_firstn. lia.
      + rewrite get_app_r by lia. rewrite F2, V.
        replace ((0 <=? p - off) && (p - off <? k)) with ((off <=? p) && (p <? off + k)) by lia.
        destruct ((off <=? p) && (p <? off + k)) eqn:Ep.
        * f_equal. unfold long_sign. unfold B in Hlane. fold k. fold k in Hlane.
          pose proof (Z.mod_pos_bound (p - off) (half env) ltac:(lia)).
          rewrite Hlane by lia. reflexivity.
        * rewrite get_skipn by lia. f_equal. lia.
  Qed.

  Definition laso_body (D : sparse_dist) (i : Z) (s : Z * list T * list Z * list Z * rng_state K) :=
    let '(off, vals, lax, sax, st) := s in
    '(lax, vals, st) <- sample_at env off (sd_major D) (sd_vec_nnz D) lax vals st ;;
    '(vals, lax, sax, count) <- laso_merge env (sd_vec_nnz D) off i vals lax sax ;;
    Ok (off + count, vals, lax, sax, st).

  (** The invariant of the loop over major-axis vectors. *)
  Definition laso_inv (D : sparse_dist) (seed : rng_state K) (lv ll ls : Z) (i : Z)
      (s : Z * list T * list Z * list Z * rng_state K) : Prop :=
    let '(off, vals, lax, sax, st) := s in
    st = mk_state ((counter seed + i * B D) mod 2 ^ g_bits (se_raw env)) (key seed) /\
    i <= off <= i * sd_vec_nnz D /\ zlen vals = lv /\ zlen lax = ll /\ zlen sax = ls /\
    (forall s ell, coo_values off sax lax vals s ell = if (0 <=? s) && (s <? i) then long_entry env D seed ell s else []) /\
    (forall p, 0 <= p < off -> exists s t, 0 <= s < i /\ 0 <= t < sd_vec_nnz D /\
       get sax p = Some s /\ get lax p = Some (long_index env D seed s t)).

  Lemma laso_step D (seed : rng_state K) lv ll ls i s :
    valid_sdist D -> 0 <= i < sd_minor D ->
    sd_full_nnz D <= lv -> sd_full_nnz D <= ll -> sd_full_nnz D <= ls ->
    laso_inv D seed lv ll ls i s ->
    exists s', laso_body D i s = Ok s' /\ laso_inv D seed lv ll ls (i + 1) s'.
  Proof.
    intros HD Hi Blv Bll Bls. destruct s as [[[[off vals] lax] sax] st].
    intros (Hst & Hoff & Lv & Ll & Ls & Hval & Hin).
    destruct (valid_sdist_inv D HD) as (P1 & P2 & P3 & P4 & P5 & P6).
    pose proof Henv as [WR WU Wl Wb We Wsb Ws Wo].
    assert (off + sd_vec_nnz D <= sd_full_nnz D) as Hfit.
    { rewrite P4. assert ((i + 1) * sd_vec_nnz D <= sd_minor D * sd_vec_nnz D) by (apply Z.mul_le_mono_nonneg_r; lia). lia. }
    unfold laso_body. rewrite Hst.
    destruct (sample_at_spec D seed i off lax vals) as (lax1 & vals1 & E1 & L1 & L2 & G1 & G2); try lia.
    rewrite E1. cbn [bind].
    destruct (laso_merge_spec env Ws Wo off i (sd_vec_nnz D) vals1 lax1 sax (long_index env D seed i) (long_sign env D seed i))
      as (vals2 & lax2 & sax2 & ks & E2 & Nd & Lk & Pk & Hk & L3 & L4 & L5 & Fr & G); try lia.
    { intros j Hj. rewrite G1. replace ((off <=? off + j) && (off + j <? off + sd_vec_nnz D)) with true by lia.
      do 2 f_equal. lia. }
    { intros j Hj. rewrite G2. replace ((off <=? off + j) && (off + j <? off + sd_vec_nnz D)) with true by lia.
      do 2 f_equal. lia. }
    rewrite E2. cbn [bind]. eexists. split; [reflexivity|].
    pose proof (zlen_nonneg ks).
    split; [reflexivity|]. split; [lia|]. split; [lia|]. split; [lia|]. split; [lia|]. split.
    - intros s ell. rewrite (coo_values_app off) by lia.
      rewrite (coo_values_ext off sax2 lax2 sax lax vals2 vals).
      2:{ intros p Hp. destruct (Fr p ltac:(lia)) as (-> & -> & ->). rewrite G1, G2.
          replace ((off <=? p) && (p <? off + sd_vec_nnz D)) with false by lia. auto. }
      rewrite Hval.
      assert (forall p, In p (range off (off + zlen ks)) -> exists q e, p = off + q /\ get ks q = Some e /\
        get lax2 p = Some e /\ get vals2 p = Some (val_of env (sd_vec_nnz D) (long_index env D seed i) (long_sign env D seed i) e) /\
        get sax2 p = Some i) as Hseg.
      { intros p Hp. apply in_range in Hp. destruct (get_lt ks (p - off) ltac:(lia)) as [e He].
        exists (p - off), e. destruct (G _ _ He) as (A1 & A2 & A3). replace (off + (p - off)) with p in * by lia. auto. }
      destruct (Z.eq_dec s i) as [->|Hne].
      + replace ((0 <=? i) && (i <? i)) with false by lia. replace ((0 <=? i) && (i <? i + 1)) with true by lia.
        cbn [app]. unfold long_entry, merged.
        destruct (first (long_index env D seed i) (sd_vec_nnz D) ell) as [t|] eqn:Ef.
        * assert (In ell ks) as Hinl by (apply Hk; congruence).
          apply get_In in Hinl as [q Hq]. pose proof (get_Some_lt _ _ _ Hq).
          rewrite (flat_map_one _ _ (off + q)); [|apply NoDup_range|apply in_range; lia|].
          -- destruct (G q ell Hq) as (-> & -> & ->). rewrite !Z.eqb_refl. cbn [andb]. unfold val_of. rewrite Ef. reflexivity.
          -- intros p Hp Hpne. destruct (Hseg p Hp) as (q' & e & -> & Hq' & -> & -> & ->).
             rewrite Z.eqb_refl. cbn [andb]. destruct (Z.eqb_spec e ell) as [->|]; [|reflexivity].
             exfalso. apply Hpne. f_equal. apply (get_inj_NoDup ks q' q ell Nd Hq' Hq).
        * apply flat_map_nil. intros p Hp. destruct (Hseg p Hp) as (q' & e & -> & Hq' & -> & -> & ->).
          rewrite Z.eqb_refl. cbn [andb]. destruct (Z.eqb_spec e ell) as [->|]; [|reflexivity].
          exfalso. apply get_Some_In in Hq'. apply Hk in Hq'. contradiction.
      + replace ((0 <=? s) && (s <? i + 1)) with ((0 <=? s) && (s <? i)) by lia.
        rewrite flat_map_nil; [apply app_nil_r|].
        intros p Hp. destruct (Hseg p Hp) as (q' & e & -> & Hq' & -> & -> & ->).
        destruct (Z.eqb_spec i s) as [->|]; [contradiction|reflexivity].
    - intros p Hp. destruct (Z_lt_le_dec p off).
      + destruct (Fr p ltac:(lia)) as (-> & _ & ->). rewrite G1.
        replace ((off <=? p) && (p <? off + sd_vec_nnz D)) with false by lia.
        destruct (Hin p ltac:(lia)) as (s & t & Hs & Ht & A1 & A2). exists s, t. repeat split; auto; lia.
      + destruct (get_lt ks (p - off) ltac:(lia)) as [e He]. destruct (G _ _ He) as (A1 & A2 & A3).
        replace (off + (p - off)) with p in * by lia.
        assert (first (long_index env D seed i) (sd_vec_nnz D) e <> None) as Hf by (apply Hk; eapply get_Some_In; exact He).
        destruct (first _ _ e) as [t|] eqn:Ef; [|contradiction]. apply first_Some in Ef as [Ht He'].
        exists i, t. rewrite A1, A3, He'. repeat split; auto; lia.
  Qed.

  Lemma long_spec D (seed : rng_state K) vals rows cols :
    0 <= counter seed < 2 ^ g_bits (se_raw env) ->
    valid_sdist D -> sd_axis D = Long ->
    sd_full_nnz D <= zlen vals -> sd_full_nnz D <= zlen rows -> sd_full_nnz D <= zlen cols ->
    exists nnz vals' rows' cols',
      fill_sparse_unpacked_nosub env D vals rows cols seed =
        Ok (nnz, vals', rows', cols',
            mk_state ((counter seed + sd_minor D * B D) mod 2 ^ g_bits (se_raw env)) (key seed)) /\
      zlen vals' = zlen vals /\ zlen rows' = zlen rows /\ zlen cols' = zlen cols /\
      sd_minor D <= nnz <= sd_full_nnz D /\
      (forall r c, coo_values nnz rows' cols' vals' r c = sparse_entry env D seed r c) /\
      (forall p, 0 <= p < nnz -> exists s t, 0 <= s < sd_minor D /\ 0 <= t < sd_vec_nnz D /\
        let '(sh, lo) := if sd_rows D <=? sd_cols D then (rows', cols') else (cols', rows') in
        get sh p = Some s /\ get lo p = Some (long_index env D seed s t)).
  Proof.
    intros Hc HD Hax Lv Lr Lc. destruct (valid_sdist_inv D HD) as (P1 & P2 & P3 & P4 & P5 & P6). rewrite Hax in P5, P6.
    unfold fill_sparse_unpacked_nosub. rewrite Hax.
    set (sh := if sd_rows D <=? sd_cols D then rows else cols).
    set (lo := if sd_rows D <=? sd_cols D then cols else rows).
    assert (sd_full_nnz D <= zlen sh /\ sd_full_nnz D <= zlen lo) as [Lsh Llo]
      by (unfold sh, lo; destruct (sd_rows D <=? sd_cols D); auto).
    destruct (for_inv (laso_inv D seed (zlen vals) (zlen lo) (zlen sh)) 0 (sd_minor D) (laso_body D) (0, vals, lo, sh, seed))
      as [[[[[off vals'] lax'] sax'] st'] [E H]].
    - lia.
    - split; [|repeat split; try lia].
      + rewrite Z.mul_0_l, Z.add_0_r, Z.mod_small by exact Hc. destruct seed; reflexivity.
      + intros s ell. replace ((0 <=? s) && (s <? 0)) with false by lia. reflexivity.
    - intros i s Hi Hs. apply laso_step; auto; lia.
    - unfold laso_body in E. rewrite E. cbn [bind].
      destruct H as (-> & Hoff & L1 & L2 & L3 & Hval & Hin).
      exists off, vals', (if sd_rows D <=? sd_cols D then sax' else lax'), (if sd_rows D <=? sd_cols D then lax' else sax').
      split; [destruct (sd_rows D <=? sd_cols D); reflexivity|].
      split; [exact L1|].
      split; [unfold sh, lo in L2, L3; destruct (sd_rows D <=? sd_cols D); assumption|].
      split; [unfold sh, lo in L2, L3; destruct (sd_rows D <=? sd_cols D); assumption|].
      split; [lia|]. split.
      + intros r c. unfold sparse_entry. rewrite Hax.
        destruct (sd_rows D <=? sd_cols D); [|rewrite coo_values_swap]; rewrite Hval; reflexivity.
      + intros p Hp. destruct (Hin p Hp) as (s & t & Hs & Ht & A1 & A2). exists s, t.
        destruct (sd_rows D <=? sd_cols D); auto.
  Qed.
End Sparse.
