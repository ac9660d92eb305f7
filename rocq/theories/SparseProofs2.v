(** Operator objects: fill_sparse and compute_next_state. *)
From Verif Require Import Base Spec RngModel DenseModel DenseSpec DenseProofs SparseSkopModel FySpec FyProofs SamplerProofs SparseSpec LasoProofs SparseProofs.
From Coq Require Import Permutation.

(** The values an operator stores at (r,c), in storage order; the matrix entry is their sum. *)
Definition skop_values {K T} (S : sparse_skop K T) (r c : Z) : list T :=
  match ss_rows S, ss_cols S, ss_vals S with
  | Some rows, Some cols, Some vals => coo_values (ss_nnz S) rows cols vals r c
  | _, _, _ => []
  end.

(** Every array is either missing, and then owned, or long enough. *)
Definition buffer_ok {A} (own : bool) (n : Z) (b : option (list A)) : Prop :=
  match b with None => own = true | Some l => n <= zlen l end.
Definition buffers_ok {K T} (S : sparse_skop K T) : Prop :=
  let n := sd_full_nnz (ss_dist S) in
  buffer_ok (ss_own S) n (ss_rows S) /\ buffer_ok (ss_own S) n (ss_cols S) /\ buffer_ok (ss_own S) n (ss_vals S).

Lemma alloc_ok {A} own n (j : A) b : buffer_ok own n b ->
  exists l, alloc own n j b = Some l /\ n <= zlen l.
Proof.
  destruct b as [l|]; cbn.
  - eauto.
  - intros ->. eexists. split; [reflexivity|]. rewrite zlen_repeat. lia.
Qed.

Lemma for_ext_inv {S} (I : Z -> S -> Prop) lo hi (f g : Z -> S -> outcome S) s :
  lo <= hi -> I lo s ->
  (forall i s, lo <= i < hi -> I i s -> f i s = g i s /\ exists s', f i s = Ok s' /\ I (i + 1) s') ->
  for_ lo hi f s = for_ lo hi g s.
Proof.
  intros Hle H0 Hstep. unfold for_, range. remember (Z.to_nat (hi - lo)) as n eqn:En.
  revert lo s Hle H0 Hstep En. induction n as [|n IH]; intros lo s Hle H0 Hstep En; cbn [zseq foldM]; [reflexivity|].
  destruct (Hstep lo s ltac:(lia) H0) as [E [s' [E' H']]]. rewrite <- E, E'. cbn [bind].
  apply IH; try lia; auto. intros i s1 Hi. apply Hstep. lia.
Qed.

Section Skop.
  Context {K F T : Type}.
  Variable env : sparse_env K F T.
  Hypothesis Henv : wf_senv env.

  Definition seed_ok (seed : rng_state K) : Prop := 0 <= counter seed < 2 ^ g_bits (se_raw env).

  (** Number of RNG blocks an operator consumes. *)
  Definition sparse_blocks (D : sparse_dist) : Z :=
    match sd_axis D with
    | Short => sd_minor D * sd_vec_nnz D
    | Long => sd_minor D * ceil_div (sd_vec_nnz D) (g_len (se_raw env) / 2)
    end.

  Lemma next_state_spec D seed :
    valid_sdist D -> sparse_blocks D < 2 ^ 64 ->
    sparse_next_state env D seed = mk_state ((counter seed + sparse_blocks D) mod 2 ^ g_bits (se_raw env)) (key seed).
  Proof.
    intros HD Hs. destruct (valid_sdist_inv D HD) as (P1 & P2 & P3 & P4 & P5 & P6).
    unfold sparse_next_state, sparse_blocks in *. destruct Henv as [[WL WB WF] _ _ _ We _ _ _].
    destruct (sd_axis D).
    - rewrite <- P6. rewrite incr_small; [reflexivity|]. split; [apply Z.mul_nonneg_nonneg; lia|exact Hs].
    - assert ((2 * sd_vec_nnz D + g_len (se_raw env) - 1) / g_len (se_raw env)
              = ceil_div (sd_vec_nnz D) (g_len (se_raw env) / 2)) as Ec.
      { clear - We WL P3. unfold ceil_div. set (L := g_len (se_raw env)) in *. set (k := sd_vec_nnz D) in *. clearbody L k.
        pose proof (Z.div_mod L 2 ltac:(lia)) as E. rewrite We in E. set (h := L / 2) in *. clearbody h.
        assert (L = 2 * h) as -> by lia.
        pose proof (Z.div_mod (k + h - 1) h ltac:(lia)) as E2. pose proof (Z.mod_pos_bound (k + h - 1) h ltac:(lia)) as B2.
        set (q := (k + h - 1) / h) in *. set (t := (k + h - 1) mod h) in *. clearbody q t.
        symmetry. apply (Z.div_unique _ _ _ (2 * t + 1)); [lia|]. lia. }
      rewrite Ec, <- P6. rewrite incr_small; [reflexivity|]. split; [|exact Hs].
      apply Z.mul_nonneg_nonneg; [lia|]. unfold ceil_div. apply Z.div_pos; [|].
      + assert (0 <= g_len (se_raw env) / 2) by (apply Z.div_pos; lia). lia.
      + pose proof (half_pos env Henv) as [Hh _]. unfold half in Hh. destruct Henv as [_ _ Wl _ _ _ _ _]. rewrite Wl in Hh. lia.
  Qed.

  Lemma fill_values D (seed : rng_state K) vals rows cols :
    seed_ok seed -> valid_sdist D -> sparse_size_ok env D ->
    sd_full_nnz D <= zlen vals -> sd_full_nnz D <= zlen rows -> sd_full_nnz D <= zlen cols ->
    exists nnz vals' rows' cols',
      fill_sparse_unpacked_nosub env D vals rows cols seed =
        Ok (nnz, vals', rows', cols',
            mk_state ((counter seed + sparse_blocks D) mod 2 ^ g_bits (se_raw env)) (key seed)) /\
      zlen vals' = zlen vals /\ zlen rows' = zlen rows /\ zlen cols' = zlen cols /\
      sd_minor D <= nnz <= sd_full_nnz D /\
      (forall r c, coo_values nnz rows' cols' vals' r c = sparse_entry env D seed r c).
  Proof.
    intros Hseed HD Hsz Lv Lr Lc. destruct (valid_sdist_inv D HD) as (P1 & P2 & P3 & P4 & P5 & P6).
    destruct (sd_axis D) eqn:Hax.
    - destruct (short_spec env Henv D seed vals rows cols HD Hsz Hax Lv Lr Lc)
        as (v' & r' & c' & E & L1 & L2 & L3 & _ & G).
      exists (sd_full_nnz D), v', r', c'. unfold sparse_blocks. rewrite Hax.
      split; [exact E|]. split; [exact L1|]. split; [exact L2|]. split; [exact L3|].
      split. { split; [|lia]. rewrite P4. rewrite <- (Z.mul_1_l (sd_minor D)) at 1. apply Z.mul_le_mono_nonneg_r; lia. }
      intros r c. unfold sparse_entry. rewrite Hax.
      destruct (sd_rows D <=? sd_cols D).
      + apply (short_values env D seed v' r' c' v' r' c'); auto.
      + rewrite coo_values_swap. apply (short_values env D seed v' c' r' v' c' r'); auto.
    - destruct (long_spec env Henv D seed vals rows cols Hseed HD Hax Lv Lr Lc)
        as (nnz & v' & r' & c' & E & L1 & L2 & L3 & Hn & G & _).
      exists nnz, v', r', c'. unfold sparse_blocks. rewrite Hax.
      assert (B env D = ceil_div (sd_vec_nnz D) (g_len (se_raw env) / 2)) as <-
        by (unfold B, half; destruct Henv as [_ _ -> _ _ _ _ _]; reflexivity).
      auto 10.
  Qed.

  Lemma fill_sparse_spec junkT junkZ (S : sparse_skop K T) :
    seed_ok (ss_seed S) -> valid_sdist (ss_dist S) -> sparse_size_ok env (ss_dist S) -> buffers_ok S ->
    exists S',
      fill_sparse env junkT junkZ S = Ok S' /\
      ss_dist S' = ss_dist S /\ ss_seed S' = ss_seed S /\ ss_next S' = ss_next S /\ ss_own S' = ss_own S /\
      sd_minor (ss_dist S) <= ss_nnz S' <= sd_full_nnz (ss_dist S) /\
      buffers_ok S' /\
      (forall r c, skop_values S' r c = sparse_entry env (ss_dist S) (ss_seed S) r c).
  Proof.
    intros Hseed HD Hsz (B1 & B2 & B3). unfold fill_sparse.
    destruct (alloc_ok _ _ junkZ _ B1) as [rows [-> Lr]].
    destruct (alloc_ok _ _ junkZ _ B2) as [cols [-> Lc]].
    destruct (alloc_ok _ _ junkT _ B3) as [vals [-> Lv]].
    destruct (fill_values (ss_dist S) (ss_seed S) vals rows cols Hseed HD Hsz Lv Lr Lc)
      as (nnz & v' & r' & c' & E & L1 & L2 & L3 & Hn & G).
    rewrite E. cbn [bind]. eexists. split; [reflexivity|].
    cbn [ss_dist ss_seed ss_next ss_own ss_nnz]. repeat (split; [reflexivity|]).
    split; [exact Hn|]. split; [|exact G].
    unfold buffers_ok. cbn. lia.
  Qed.
End Skop.

(* ------------------------------------------------------------------ *)
(** * Which RNG blocks are used *)
Section Blocks.
  Context {K F T : Type}.
  Variables env env' : sparse_env K F T.
  Hypothesis Henv : wf_senv env.
  Hypothesis Henv' : wf_senv env'.
  (** Same environment up to the blocks the generators return. *)
  Hypothesis Esb : se_sb env' = se_sb env.
  Hypothesis Edraw : se_draw env' = se_draw env.
  Hypothesis Enn : se_nonneg env' = se_nonneg env.
  Hypothesis Eone : se_one env' = se_one env.
  Hypothesis Emone : se_mone env' = se_mone env.
  Hypothesis Esq : se_sqrtmul env' = se_sqrtmul env.
  Hypothesis Eord : se_order env' = se_order env.
  Hypothesis Elen : g_len (se_raw env') = g_len (se_raw env).
  Hypothesis Ebits : g_bits (se_raw env') = g_bits (se_raw env).

  Variables (D : sparse_dist) (seed : rng_state K).
  Hypothesis HD : valid_sdist D.
  Hypothesis Hagree : forall o, 0 <= o < sparse_blocks env D ->
    g_fun (se_raw env') ((counter seed + o) mod 2 ^ g_bits (se_raw env)) (key seed) =
    g_fun (se_raw env) ((counter seed + o) mod 2 ^ g_bits (se_raw env)) (key seed) /\
    g_fun (se_unif env') ((counter seed + o) mod 2 ^ g_bits (se_raw env)) (key seed) =
    g_fun (se_unif env) ((counter seed + o) mod 2 ^ g_bits (se_raw env)) (key seed).

  Lemma half_same : half env' = half env.
  Proof. unfold half. destruct Henv as [_ _ -> _ _ _ _ _], Henv' as [_ _ -> _ _ _ _ _]. now rewrite Elen. Qed.

  Lemma short_same i : sd_axis D = Short -> 0 <= i < sd_minor D ->
    short_sample env' D seed i = short_sample env D seed i /\
    (forall j, 0 <= j < sd_vec_nnz D -> short_sign env' D seed i j = short_sign env D seed i j).
  Proof.
    intros Hax Hi. destruct (valid_sdist_inv D HD) as (P1 & P2 & P3 & P4 & P5 & P6).
    assert (forall j l, 0 <= j < sd_vec_nnz D ->
      raw_word env' seed (i * sd_vec_nnz D + j) l = raw_word env seed (i * sd_vec_nnz D + j) l) as Hw.
    { intros j l Hj. unfold raw_word. rewrite Ebits.
      destruct (Hagree (i * sd_vec_nnz D + j)) as [-> _]; [|reflexivity].
      unfold sparse_blocks. rewrite Hax.
      assert ((i + 1) * sd_vec_nnz D <= sd_minor D * sd_vec_nnz D) by (apply Z.mul_le_mono_nonneg_r; lia).
      assert (0 <= i * sd_vec_nnz D) by (apply Z.mul_nonneg_nonneg; lia). lia. }
    split.
    - unfold short_sample. f_equal. apply map_ext_in. intros j Hj. apply in_range in Hj. now rewrite Hw.
    - intros j Hj. unfold short_sign. rewrite Hw by exact Hj. now rewrite Eone, Emone.
  Qed.

  Lemma long_same i t : sd_axis D = Long -> 0 <= i < sd_minor D -> 0 <= t < sd_vec_nnz D ->
    long_index env' D seed i t = long_index env D seed i t /\
    long_sign env' D seed i t = long_sign env D seed i t.
  Proof.
    intros Hax Hi Ht. destruct (valid_sdist_inv D HD) as (P1 & P2 & P3 & P4 & P5 & P6).
    pose proof (half_pos env Henv) as [Hh1 Hh2].
    assert (forall l, unif_lane env' seed (i * ceil_div (sd_vec_nnz D) (half env) + t / half env) l =
                      unif_lane env seed (i * ceil_div (sd_vec_nnz D) (half env) + t / half env) l) as Hw.
    { intros l. unfold unif_lane. pose proof Henv as [_ _ Wl Wb _ _ _ _]. pose proof Henv' as [_ _ _ Wb' _ _ _ _].
      rewrite Wb', Wb, Ebits.
      destruct (Hagree (i * ceil_div (sd_vec_nnz D) (half env) + t / half env)) as [_ ->]; [|reflexivity].
      unfold sparse_blocks. rewrite Hax. rewrite <- Wl. fold (half env).
      set (h := half env) in *. clearbody h.
      assert (0 <= t / h < ceil_div (sd_vec_nnz D) h) as Hq.
      { split; [apply Z.div_pos; lia|]. unfold ceil_div. apply Z.lt_succ_r || idtac.
        apply Z.lt_le_trans with (t / h + 1); [lia|].
        replace (t / h + 1) with ((t + 1 * h) / h) by (rewrite Z.div_add; lia).
        apply Z.div_le_mono; lia. }
      assert ((i + 1) * ceil_div (sd_vec_nnz D) h <= sd_minor D * ceil_div (sd_vec_nnz D) h) by (apply Z.mul_le_mono_nonneg_r; lia).
      assert (0 <= i * ceil_div (sd_vec_nnz D) h) by (apply Z.mul_nonneg_nonneg; lia). lia. }
    unfold long_index, long_sign. rewrite half_same, !Hw, Edraw, Enn, Eone, Emone. auto.
  Qed.

  Lemma laso_merge_same k off i vals lax sax : laso_merge env' k off i vals lax sax = laso_merge env k off i vals lax sax.
  Proof.
    unfold laso_merge. rewrite Eord.
    destruct (for_ 0 k (laso_scan off i lax vals) (sax, [], [])) as [[[s c] m]| |]; cbn [bind]; try reflexivity.
    destruct (zlen m <? k); [|reflexivity].
    rewrite (foldM_ext (laso_emit env' off c m) (laso_emit env off c m)); [reflexivity|].
    intros a s0 _. unfold laso_emit. rewrite Esq. reflexivity.
  Qed.

  Lemma laso_body_same i s : sd_axis D = Long ->
    seed_ok env seed -> forall lv ll ls,
    sd_full_nnz D <= lv -> sd_full_nnz D <= ll -> sd_full_nnz D <= ls ->
    0 <= i < sd_minor D -> laso_inv env D seed lv ll ls i s -> laso_body env D i s = laso_body env' D i s.
  Proof.
    intros Hax Hseed lv ll ls Blv Bll Bls Hi. destruct s as [[[[off vals] lax] sax] st].
    intros (Hst & Hoff & Lv & Ll & Ls & _ & _).
    destruct (valid_sdist_inv D HD) as (P1 & P2 & P3 & P4 & P5 & P6).
    assert (off + sd_vec_nnz D <= sd_full_nnz D) as Hfit.
    { rewrite P4. assert ((i + 1) * sd_vec_nnz D <= sd_minor D * sd_vec_nnz D) by (apply Z.mul_le_mono_nonneg_r; lia). lia. }
    unfold laso_body. rewrite Hst.
    destruct (sample_at_spec env Henv D seed i off lax vals) as (lax1 & vals1 & E1 & L1 & L2 & G1 & G2); try lia.
    destruct (sample_at_spec env' Henv' D seed i off lax vals) as (lax2 & vals2 & E2 & L3 & L4 & G3 & G4); try lia.
    assert (B env' D = B env D) as EB by (unfold B; now rewrite half_same).
    rewrite EB, Ebits in E2. rewrite E1, E2. cbn [bind].
    assert (lax2 = lax1) as ->.
    { apply list_ext_get; [lia|]. intros p _. rewrite G3, G1.
      destruct ((off <=? p) && (p <? off + sd_vec_nnz D)) eqn:Ep; [|reflexivity].
      destruct (long_same i (p - off) Hax Hi ltac:(lia)) as [-> _]. reflexivity. }
    assert (vals2 = vals1) as ->.
    { apply list_ext_get; [lia|]. intros p _. rewrite G4, G2.
      destruct ((off <=? p) && (p <? off + sd_vec_nnz D)) eqn:Ep; [|reflexivity].
      destruct (long_same i (p - off) Hax Hi ltac:(lia)) as [_ ->]. reflexivity. }
    rewrite laso_merge_same. reflexivity.
  Qed.

  Lemma fill_same vals rows cols :
    seed_ok env seed -> sparse_size_ok env D ->
    sd_full_nnz D <= zlen vals -> sd_full_nnz D <= zlen rows -> sd_full_nnz D <= zlen cols ->
    fill_sparse_unpacked_nosub env' D vals rows cols seed = fill_sparse_unpacked_nosub env D vals rows cols seed.
  Proof.
    intros Hseed Hsz Lv Lr Lc. destruct (valid_sdist_inv D HD) as (P1 & P2 & P3 & P4 & P5 & P6).
    destruct (sd_axis D) eqn:Hax.
    - assert (sparse_size_ok env' D) as Hsz' by (unfold sparse_size_ok in *; now rewrite Esb).
      destruct (short_spec env Henv D seed vals rows cols HD Hsz Hax Lv Lr Lc)
        as (v1 & r1 & c1 & E1 & L1 & L2 & L3 & F1 & G1).
      destruct (short_spec env' Henv' D seed vals rows cols HD Hsz' Hax Lv Lr Lc)
        as (v2 & r2 & c2 & E2 & L4 & L5 & L6 & F2 & G2).
      assert (forall p, get v2 p = get v1 p /\ get r2 p = get r1 p /\ get c2 p = get c1 p) as Hp.
      { intros p. destruct (Z_lt_le_dec p 0) as [Hp0|Hp0].
        { destruct (F1 p ltac:(lia)) as (-> & -> & ->). destruct (F2 p ltac:(lia)) as (-> & -> & ->). auto. }
        destruct (Z_lt_le_dec p (sd_full_nnz D)) as [Hp1|Hp1].
        2:{ destruct (F1 p ltac:(lia)) as (-> & -> & ->). destruct (F2 p ltac:(lia)) as (-> & -> & ->). auto. }
        set (k := sd_vec_nnz D) in *.
        assert (p = p / k * k + p mod k) as Ep by (pose proof (Z.div_mod p k ltac:(lia)); lia).
        assert (0 <= p / k < sd_minor D) as Hi by (split; [apply Z.div_pos; lia|apply Z.div_lt_upper_bound; lia]).
        pose proof (Z.mod_pos_bound p k ltac:(lia)) as Hj.
        destruct (short_same (p / k) Hax Hi) as [S1 S2].
        destruct (G1 (p / k) (p mod k) Hi Hj) as [A1 A2]. destruct (G2 (p / k) (p mod k) Hi Hj) as [A3 A4].
        rewrite <- Ep in *. rewrite (S2 _ Hj) in A3. rewrite S1 in A4.
        destruct (sd_rows D <=? sd_cols D); destruct A2 as [A2 A2'], A4 as [A4 A4']; rewrite A1, A3, A2, A2', A4, A4'; auto. }
      assert (v2 = v1) as -> by (apply list_ext_get; [lia|intros; apply Hp]).
      assert (r2 = r1) as -> by (apply list_ext_get; [lia|intros; apply Hp]).
      assert (c2 = c1) as -> by (apply list_ext_get; [lia|intros; apply Hp]).
      rewrite E1, E2, Ebits. reflexivity.
    - unfold fill_sparse_unpacked_nosub. rewrite Hax.
      set (sh := if sd_rows D <=? sd_cols D then rows else cols).
      set (lo := if sd_rows D <=? sd_cols D then cols else rows).
      assert (sd_full_nnz D <= zlen sh /\ sd_full_nnz D <= zlen lo) as [Lsh Llo]
        by (unfold sh, lo; destruct (sd_rows D <=? sd_cols D); auto).
      enough (for_ 0 (sd_minor D) (laso_body env' D) (0, vals, lo, sh, seed) =
              for_ 0 (sd_minor D) (laso_body env D) (0, vals, lo, sh, seed)) as Hfe.
      { change (fun i s => _) with (laso_body env' D) at 1. rewrite Hfe. reflexivity. }
      symmetry. apply (for_ext_inv (laso_inv env D seed (zlen vals) (zlen lo) (zlen sh))).
      + lia.
      + split; [|repeat split; try lia].
        * rewrite Z.mul_0_l, Z.add_0_r, Z.mod_small by exact Hseed. destruct seed; reflexivity.
        * intros s ell. replace ((0 <=? s) && (s <? 0)) with false by lia. reflexivity.
      + intros i s Hi Hs. split.
        * apply (laso_body_same i s Hax Hseed (zlen vals) (zlen lo) (zlen sh)); auto.
        * apply laso_step; auto.
  Qed.
End Blocks.
