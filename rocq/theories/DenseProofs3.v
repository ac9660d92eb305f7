(** Corollaries of the closed form of dense sampling. *)
From Verif Require Import Base Spec Interleave RngModel DenseModel DenseSpec DenseProofs DenseProofs2.

Lemma ceil_div_bounds n L : 0 < n -> 2 <= L -> 0 < ceil_div n L /\ n <= ceil_div n L * L < n + L.
Proof. intros Hn HL. pose proof (pad_of_spec n L Hn HL). pose proof (ceil_div_pos n L Hn HL). lia. Qed.

(** Position in major order of an in-range entry. *)
Lemma major_pos_range D i j :
  valid_dist D -> 0 <= i < dd_rows D -> 0 <= j < dd_cols D ->
  0 <= fst (major_pos (dd_layout D) i j) < dd_minor D /\
  0 <= snd (major_pos (dd_layout D) i j) < dd_major D.
Proof.
  intros [nr [nc [fam [ax HD]]]] Hi Hj.
  destruct (mk_dense_dist_inv _ _ _ _ _ HD) as [? [? [Er [Ec [_ [_ [_ [Ema Emi]]]]]]]].
  rewrite Ema, Emi. rewrite Er in Hi. rewrite Ec in Hj. destruct (dd_layout D); cbn; lia.
Qed.

Lemma valid_dist_pos D : valid_dist D -> 0 < dd_rows D /\ 0 < dd_cols D /\ 0 < dd_major D /\ 0 < dd_minor D.
Proof.
  intros HD. pose proof HD as [nr [nc [fam [ax HD']]]].
  destruct (mk_dense_dist_inv _ _ _ _ _ HD') as [? [? [Er [Ec _]]]].
  destruct (major_pos_range D 0 0 HD) as [? ?]; [lia|lia|]. lia.
Qed.

Lemma block_pos_range per M N L r c :
  2 <= L -> M <= per * L -> 0 <= r < N -> 0 <= c < M ->
  0 <= r * per + c / L < N * per.
Proof.
  intros HL HM Hr Hc.
  assert (0 <= c / L < per).
  { split; [apply Z.div_pos; lia|]. apply Z.div_lt_upper_bound; lia. }
  nia.
Qed.

Section Dense.
  Context {K W T : Type}.
  Variable cast : W -> T.
  Implicit Types (env : dense_env K W T) (seed : rng_state K) (buff : list T).

  Notation fill := (fill_dense_unpacked cast).

  Lemma dense_entry_Some env D seed i j :
    wf_env env -> valid_dist D ->
    exists v, dense_entry cast env D seed i j = Some v.
  Proof.
    intros Hwf HD. pose proof (env_gen_wf env (dd_family D) Hwf) as [WL WB WF].
    unfold dense_entry. destruct (entry_block D (g_len (env_gen env (dd_family D))) i j) as [blk lane] eqn:E.
    destruct (get_lt (g_fun (env_gen env (dd_family D)) ((counter seed + blk) mod 2 ^ g_bits (env_gen env (dd_family D))) (key seed)) lane)
      as [w Hw].
    { rewrite WF. unfold entry_block in E. destruct (major_pos _ _ _). injection E as _ <-.
      apply Z.mod_pos_bound. lia. }
    rewrite Hw. cbn. eauto.
  Qed.

  (** C01 *)
  Lemma window_of_full env s1 s2 lay1 lay2 D n_rows n_cols ro co buff1 buff2 seed :
    valid_schedule s1 -> valid_schedule s2 -> wf_env env -> valid_dist D ->
    size_ok D (g_len (env_gen env (dd_family D))) ->
    1 <= n_rows -> 1 <= n_cols -> 0 <= ro -> 0 <= co ->
    ro + n_rows <= dd_rows D -> co + n_cols <= dd_cols D ->
    n_rows * n_cols <= zlen buff1 -> dd_rows D * dd_cols D <= zlen buff2 ->
    exists win full st1 st2,
      fill env s1 lay1 D n_rows n_cols ro co buff1 seed = Ok (win, st1) /\
      fill env s2 lay2 D (dd_rows D) (dd_cols D) 0 0 buff2 seed = Ok (full, st2) /\
      forall i j, 0 <= i < n_rows -> 0 <= j < n_cols ->
        exists v,
          mat lay1 (min_ld lay1 n_rows n_cols) 0 win i j = Some v /\
          mat lay2 (min_ld lay2 (dd_rows D) (dd_cols D)) 0 full (ro + i) (co + j) = Some v.
  Proof.
    intros Hs1 Hs2 Hwf HD Hsz Hm Hn Hro Hco Hr Hc Hb1 Hb2.
    destruct (valid_dist_pos D HD) as [P1 [P2 _]].
    destruct (fill_dense_unpacked_spec cast env s1 lay1 D n_rows n_cols ro co buff1 seed) as [win [E1 [_ [G1 _]]]]; auto.
    destruct (fill_dense_unpacked_spec cast env s2 lay2 D (dd_rows D) (dd_cols D) 0 0 buff2 seed)
      as [full [E2 [_ [G2 _]]]]; auto; try lia.
    eexists win, full, _, _. split; [exact E1|]. split; [exact E2|].
    intros i j Hi Hj. destruct (dense_entry_Some env D seed (ro + i) (co + j) Hwf HD) as [v Hv].
    exists v. rewrite G1, G2 by lia. split; exact Hv.
  Qed.

  (** C03: vertical concatenation of wide Long operators. *)
  Lemma compute_next_state_spec (g : generator K W) D seed :
    wf_generator g -> valid_dist D -> size_ok D (g_len g) ->
    compute_next_state g D seed =
    Ok (mk_state (incr g (counter seed) (dd_minor D * ceil_div (dd_major D) (g_len g))) (key seed)).
  Proof.
    intros [WL WB WF] HD [Hsz _]. destruct (valid_dist_pos D HD) as [_ [_ [PM PN]]].
    unfold compute_next_state.
    destruct (pad_of_spec (dd_major D) (g_len g) PM ltac:(lia)) as [Hp Hp0].
    rewrite Hp. rewrite Z.quot_mul by lia.
    pose proof (ceil_div_pos (dd_major D) (g_len g) PM ltac:(lia)) as Hc.
    set (per := ceil_div (dd_major D) (g_len g)) in *. clearbody per.
    rewrite safe_int_product_Ok.
    - cbn [bind]. do 3 f_equal. apply Z.mul_comm.
    - unfold int64, int64_min, int64_max.
      assert (0 <= per * dd_minor D <= per * g_len g * dd_minor D) as F by (clear - WL Hc PN; nia).
      assert (per * g_len g * dd_minor D < 2 ^ 63).
      { rewrite <- Hp. clear - Hsz Hp0 PN. nia. }
      lia.
  Qed.

  (** The state a whole fill returns. *)
  Lemma window_state_full env D seed :
    wf_env env -> valid_dist D -> size_ok D (g_len (env_gen env (dd_family D))) ->
    compute_next_state (env_gen env (dd_family D)) D seed =
    Ok (window_state env D (dd_rows D) (dd_cols D) 0 0 seed).
  Proof.
    intros Hwf HD Hsz. pose proof (env_gen_wf env (dd_family D) Hwf) as Hg.
    rewrite compute_next_state_spec by auto. unfold window_state.
    destruct Hg as [WL WB WF]. destruct Hsz as [Hsz _].
    set (g := env_gen env (dd_family D)) in *.
    destruct (valid_dist_pos D HD) as [_ [_ [PM PN]]].
    destruct (ceil_div_bounds (dd_major D) (g_len g) PM ltac:(lia)) as [Hc1 Hc2].
    assert (dd_minor D * ceil_div (dd_major D) (g_len g) < 2 ^ 63) as F.
    { assert (dd_minor D * ceil_div (dd_major D) (g_len g) <= dd_minor D * (dd_major D + g_len g)); [|lia].
      apply Z.mul_le_mono_nonneg_l; [lia|]. clear - WL Hc1 Hc2. nia. }
    assert (fst (major_pos (dd_layout D) (dd_rows D) (dd_cols D)) = dd_minor D) as Em.
    { pose proof HD as [nr [nc [fam [ax HD']]]].
      destruct (mk_dense_dist_inv _ _ _ _ _ HD') as [? [? [Er [Ec [_ [_ [_ [Ema Emi]]]]]]]].
      rewrite Emi, Er, Ec. destruct (dd_layout D); reflexivity. }
    destruct (major_pos (dd_layout D) (dd_rows D) (dd_cols D)) as [m n] eqn:E1. cbn [fst] in Em. subst m.
    assert (major_pos (dd_layout D) 0 0 = (0, 0)) as -> by (destruct (dd_layout D); reflexivity).
    do 2 f_equal. rewrite Zdiv_0_l. cbn [Z.mul Z.add].
    rewrite incr_incr; [f_equal; lia|exact WB|lia| |lia]. apply Z.mul_nonneg_nonneg; lia.
  Qed.

  (** C07, first part. *)
  Lemma skop_next_is_fill env sched D seed S buff :
    valid_schedule sched -> wf_env env -> valid_dist D ->
    size_ok D (g_len (env_gen env (dd_family D))) ->
    mk_dense_skop env D seed = Ok S ->
    dd_rows D * dd_cols D <= zlen buff ->
    exists buff', fill_dense cast env sched (ds_dist S) buff (ds_seed S) = Ok (buff', ds_next S).
  Proof.
    intros Hs Hwf HD Hsz HS Hb. destruct (valid_dist_pos D HD) as [P1 [P2 _]].
    unfold mk_dense_skop in HS. rewrite window_state_full in HS by auto. cbn [bind] in HS.
    injection HS as <-. cbn [ds_dist ds_seed ds_next].
    destruct (fill_dense_unpacked_spec cast env sched (dd_layout D) D (dd_rows D) (dd_cols D) 0 0 buff seed)
      as [full [E2 _]]; auto; try lia.
    exists full. exact E2.
  Qed.

  (** C08 *)
  Lemma entry_block_inj D L i j i' j' :
    valid_dist D -> 2 <= L ->
    0 <= i < dd_rows D -> 0 <= j < dd_cols D -> 0 <= i' < dd_rows D -> 0 <= j' < dd_cols D ->
    entry_block D L i j = entry_block D L i' j' -> i = i' /\ j = j'.
  Proof.
    intros HD HL Hi Hj Hi' Hj' H. unfold entry_block in H.
    destruct (major_pos_range D i j HD Hi Hj) as [A1 A2].
    destruct (major_pos_range D i' j' HD Hi' Hj') as [B1 B2].
    destruct (valid_dist_pos D HD) as [_ [_ [PM _]]].
    destruct (ceil_div_bounds (dd_major D) L PM HL) as [C1 C2].
    destruct (major_pos (dd_layout D) i j) as [r c] eqn:E1.
    destruct (major_pos (dd_layout D) i' j') as [r' c'] eqn:E2. cbn [fst snd] in *.
    injection H as Hb Hl.
    assert (forall x, 0 <= x < dd_major D -> 0 <= x / L < ceil_div (dd_major D) L) as Q.
    { intros x Hx. split; [apply Z.div_pos; lia|]. apply Z.div_lt_upper_bound; lia. }
    pose proof (Q c A2) as Q1. pose proof (Q c' B2) as Q2.
    destruct (lin_inj (ceil_div (dd_major D) L) (c / L) r (c' / L) r' Q1 Q2 Hb) as [Hq Hr].
    assert (c = c') as Hc.
    { rewrite (Z.div_mod c L) by lia. rewrite (Z.div_mod c' L) by lia. congruence. }
    destruct (dd_layout D); cbn [major_pos] in E1, E2; split; congruence.
  Qed.

  Lemma entry_block_range D L i j :
    valid_dist D -> 2 <= L -> 0 <= i < dd_rows D -> 0 <= j < dd_cols D ->
    0 <= fst (entry_block D L i j) < dd_minor D * ceil_div (dd_major D) L /\
    0 <= snd (entry_block D L i j) < L.
  Proof.
    intros HD HL Hi Hj. unfold entry_block.
    destruct (major_pos_range D i j HD Hi Hj) as [A1 A2].
    destruct (valid_dist_pos D HD) as [_ [_ [PM _]]].
    destruct (ceil_div_bounds (dd_major D) L PM HL) as [C1 C2].
    destruct (major_pos (dd_layout D) i j) as [r c] eqn:E1. cbn [fst snd] in *.
    split; [|apply Z.mod_pos_bound; lia].
    apply (block_pos_range _ (dd_major D)); lia.
  Qed.

  Lemma mod_inj_range M a x y : 0 <= x < M -> 0 <= y < M -> (a + x) mod M = (a + y) mod M -> x = y.
  Proof.
    intros Hx Hy H.
    assert ((x - y) mod M = 0) as E.
    { replace (x - y) with ((a + x) - (a + y)) by lia. rewrite Zminus_mod, H, Z.sub_diag.
      apply Z.mod_0_l. lia. }
    apply Z.mod_divide in E; [|lia]. destruct E as [q Hq].
    assert (-1 < q < 1) by (split; nia). nia.
  Qed.

  Lemma distinct_words env D seed i j i' j' :
    wf_env env -> valid_dist D ->
    let g := env_gen env (dd_family D) in
    dd_minor D * ceil_div (dd_major D) (g_len g) <= 2 ^ g_bits g ->
    0 <= i < dd_rows D -> 0 <= j < dd_cols D -> 0 <= i' < dd_rows D -> 0 <= j' < dd_cols D ->
    (i, j) <> (i', j') ->
    ((counter seed + fst (entry_block D (g_len g) i j)) mod 2 ^ g_bits g, snd (entry_block D (g_len g) i j)) <>
    ((counter seed + fst (entry_block D (g_len g) i' j')) mod 2 ^ g_bits g, snd (entry_block D (g_len g) i' j')).
  Proof.
    intros Hwf HD g Hw Hi Hj Hi' Hj' Hne H.
    pose proof (env_gen_wf env (dd_family D) Hwf) as [WL WB WF]. fold g in WL.
    injection H as H1 H2.
    destruct (entry_block_range D (g_len g) i j HD ltac:(lia) Hi Hj) as [A1 A2].
    destruct (entry_block_range D (g_len g) i' j' HD ltac:(lia) Hi' Hj') as [B1 B2].
    apply mod_inj_range in H1; [|lia|lia].
    apply Hne. f_equal; apply (entry_block_inj D (g_len g) i j i' j'); auto; try lia;
      rewrite (surjective_pairing (entry_block D _ i j)), (surjective_pairing (entry_block D _ i' j')); congruence.
  Qed.

  (** C07, second part: only blocks in [0, next) influence any window. *)
  Lemma dense_entry_blocks env env' D seed i j :
    valid_dist D -> wf_env env -> 0 <= i < dd_rows D -> 0 <= j < dd_cols D ->
    let g := env_gen env (dd_family D) in
    let g' := env_gen env' (dd_family D) in
    g_len g' = g_len g -> g_bits g' = g_bits g ->
    (forall x, env_scal3 env' x = env_scal3 env x) ->
    (forall o, 0 <= o < dd_minor D * ceil_div (dd_major D) (g_len g) ->
       g_fun g' ((counter seed + o) mod 2 ^ g_bits g) (key seed) = g_fun g ((counter seed + o) mod 2 ^ g_bits g) (key seed)) ->
    dense_entry cast env' D seed i j = dense_entry cast env D seed i j.
  Proof.
    intros HD Hwf Hi Hj g g' Hl Hb Hsc Hag.
    pose proof (env_gen_wf env (dd_family D) Hwf) as [WL WB WF]. fold g in WL.
    unfold dense_entry. fold g g'. rewrite Hl, Hb.
    pose proof (entry_block_range D (g_len g) i j HD ltac:(lia) Hi Hj) as [A1 A2].
    destruct (entry_block D (g_len g) i j) as [blk lane]. cbn [fst snd] in *.
    rewrite Hag by lia. destruct (get _ lane); cbn [option_map]; [|reflexivity].
    f_equal. unfold family_map. destruct (dd_family D); auto.
  Qed.

  Lemma window_blocks_only env env' sched sched' lay D n_rows n_cols ro co buff seed :
    valid_schedule sched -> valid_schedule sched' -> wf_env env -> wf_env env' -> valid_dist D ->
    let g := env_gen env (dd_family D) in
    let g' := env_gen env' (dd_family D) in
    size_ok D (g_len g) ->
    1 <= n_rows -> 1 <= n_cols -> 0 <= ro -> 0 <= co ->
    ro + n_rows <= dd_rows D -> co + n_cols <= dd_cols D ->
    zlen buff = n_rows * n_cols ->
    g_len g' = g_len g -> g_bits g' = g_bits g ->
    (forall x, env_scal3 env' x = env_scal3 env x) ->
    (forall o, 0 <= o < dd_minor D * ceil_div (dd_major D) (g_len g) ->
       g_fun g' ((counter seed + o) mod 2 ^ g_bits g) (key seed) = g_fun g ((counter seed + o) mod 2 ^ g_bits g) (key seed)) ->
    fill env' sched' lay D n_rows n_cols ro co buff seed = fill env sched lay D n_rows n_cols ro co buff seed.
  Proof.
    intros Hs Hs' Hwf Hwf' HD g g' Hsz Hm Hn Hro Hco Hr Hc Hb Hl Hbt Hsc Hag.
    destruct (fill_dense_unpacked_spec cast env sched lay D n_rows n_cols ro co buff seed) as [b1 [E1 [L1 [G1 _]]]]; auto; try lia.
    destruct (fill_dense_unpacked_spec cast env' sched' lay D n_rows n_cols ro co buff seed) as [b2 [E2 [L2 [G2 _]]]]; auto; try lia.
    { fold g'. rewrite Hl. exact Hsz. }
    rewrite E1, E2. f_equal. f_equal.
    - apply list_ext_get; [congruence|]. intros p Hp. rewrite L2, Hb in Hp.
      assert (exists i j, 0 <= i < n_rows /\ 0 <= j < n_cols /\ p = addr lay (min_ld lay n_rows n_cols) i j) as [i [j [Hi [Hj ->]]]].
      { destruct lay; cbn [addr min_ld].
        - exists (p mod n_rows), (p / n_rows). pose proof (Z.div_mod p n_rows ltac:(lia)).
          pose proof (Z.mod_pos_bound p n_rows ltac:(lia)).
          split; [lia|]. split; [|lia]. split; [apply Z.div_pos; lia|]. apply Z.div_lt_upper_bound; lia.
        - exists (p / n_cols), (p mod n_cols). pose proof (Z.div_mod p n_cols ltac:(lia)).
          pose proof (Z.mod_pos_bound p n_cols ltac:(lia)).
          split; [|lia]. split; [apply Z.div_pos; lia|]. apply Z.div_lt_upper_bound; lia. }
      specialize (G1 i j Hi Hj). specialize (G2 i j Hi Hj). unfold mat in G1, G2. cbn [Z.add] in G1, G2.
      rewrite G1, G2. apply (dense_entry_blocks env env'); auto; lia.
    - unfold window_state. fold g g'. rewrite Hl. destruct (major_pos (dd_layout D) ro co), (major_pos (dd_layout D) n_rows n_cols).
      unfold incr. rewrite Hbt. reflexivity.
  Qed.

  (** The matrix a (filled) operator object holds: mat(S.buff) in S.layout with leading
      dimension dim_major. *)
  Definition skop_mat (S : dense_skop K T) (i j : Z) : option T :=
    match ds_buff S with
    | Some b => mat (ds_layout S) (min_ld (ds_layout S) (dd_rows (ds_dist S)) (dd_cols (ds_dist S))) 0 b i j
    | None => None
    end.

  Lemma skop_fill_spec env sched D seed S :
    valid_schedule sched -> wf_env env -> valid_dist D ->
    size_ok D (g_len (env_gen env (dd_family D))) ->
    mk_dense_skop env D seed = Ok S ->
    exists S', fill_dense_skop cast env sched S = Ok S' /\ ds_dist S' = D /\ ds_next S' = ds_next S /\ ds_seed S' = seed /\
      (forall i j, 0 <= i < dd_rows D -> 0 <= j < dd_cols D -> skop_mat S' i j = dense_entry cast env D seed i j).
  Proof.
    intros Hs Hwf HD Hsz HS. destruct (valid_dist_pos D HD) as [P1 [P2 _]].
    unfold mk_dense_skop in HS. rewrite window_state_full in HS by auto. cbn [bind] in HS.
    injection HS as <-. unfold fill_dense_skop. cbn [ds_buff ds_own ds_dist ds_layout ds_seed ds_next].
    destruct (fill_dense_unpacked_spec cast env sched (dd_layout D) D (dd_rows D) (dd_cols D) 0 0
        (repeat (env_junk env) (Z.to_nat (dd_rows D * dd_cols D))) seed)
      as [full [E2 [_ [G _]]]]; auto; try lia.
    { rewrite zlen_repeat. lia. }
    rewrite E2. cbn [bind]. eexists. split; [reflexivity|]. cbn. repeat split.
    intros i j Hi Hj. unfold skop_mat. cbn. apply G; assumption.
  Qed.

  Lemma next_counter env D seed S :
    wf_env env -> valid_dist D -> size_ok D (g_len (env_gen env (dd_family D))) ->
    mk_dense_skop env D seed = Ok S ->
    exists q, ds_next S = mk_state ((counter seed + dd_minor D * ceil_div (dd_major D) (g_len (env_gen env (dd_family D)))) mod 2 ^ q) (key seed)
      /\ q = g_bits (env_gen env (dd_family D)).
  Proof.
    intros Hwf HD Hsz HS. pose proof (env_gen_wf env (dd_family D) Hwf) as Hg.
    unfold mk_dense_skop in HS. rewrite compute_next_state_spec in HS by auto. cbn [bind] in HS.
    injection HS as <-. cbn [ds_next]. eexists. split; [|reflexivity].
    destruct Hg as [WL WB WF]. destruct Hsz as [Hsz _].
    set (g := env_gen env (dd_family D)) in *.
    destruct (valid_dist_pos D HD) as [_ [_ [PM PN]]].
    destruct (ceil_div_bounds (dd_major D) (g_len g) PM ltac:(lia)) as [Hc1 Hc2].
    assert (dd_minor D * ceil_div (dd_major D) (g_len g) < 2 ^ 63) as F.
    { assert (dd_minor D * ceil_div (dd_major D) (g_len g) <= dd_minor D * (dd_major D + g_len g)); [|lia].
      apply Z.mul_le_mono_nonneg_l; [lia|]. clear - WL Hc1 Hc2. nia. }
    f_equal. apply incr_small. split; [apply Z.mul_nonneg_nonneg|]; lia.
  Qed.

  (** Entry of an operator seeded by the next_state of another one with the same
      major-vector length. *)
  Lemma entry_shift env D1 D2 D seed S1 i j i2 j2 :
    wf_env env -> valid_dist D1 -> size_ok D1 (g_len (env_gen env (dd_family D1))) ->
    mk_dense_skop env D1 seed = Ok S1 ->
    dd_family D2 = dd_family D1 -> dd_family D = dd_family D1 ->
    dd_major D2 = dd_major D1 -> dd_major D = dd_major D1 ->
    fst (major_pos (dd_layout D) i j) = dd_minor D1 + fst (major_pos (dd_layout D2) i2 j2) ->
    snd (major_pos (dd_layout D) i j) = snd (major_pos (dd_layout D2) i2 j2) ->
    dense_entry cast env D2 (ds_next S1) i2 j2 = dense_entry cast env D seed i j.
  Proof.
    intros Hwf HD1 Hsz1 HS1 F2 F M2 M Hr Hc.
    destruct (next_counter env D1 seed S1 Hwf HD1 Hsz1 HS1) as [q [-> ->]].
    unfold dense_entry. rewrite F2, F. unfold entry_block. rewrite M2, M.
    destruct (major_pos (dd_layout D) i j) as [r c], (major_pos (dd_layout D2) i2 j2) as [r2 c2].
    cbn [fst snd] in *. subst. cbn [counter key].
    rewrite Zplus_mod_idemp_l.
    replace (counter seed + dd_minor D1 * ceil_div (dd_major D1) (g_len (env_gen env (dd_family D1))) +
      (r2 * ceil_div (dd_major D1) (g_len (env_gen env (dd_family D1))) + c2 / g_len (env_gen env (dd_family D1))))
     with (counter seed + ((dd_minor D1 + r2) * ceil_div (dd_major D1) (g_len (env_gen env (dd_family D1))) + c2 / g_len (env_gen env (dd_family D1)))) by ring.
    reflexivity.
  Qed.

  Lemma entry_same env D1 D seed i j :
    dd_family D = dd_family D1 -> dd_major D = dd_major D1 -> dd_layout D = dd_layout D1 ->
    dense_entry cast env D1 seed i j = dense_entry cast env D seed i j.
  Proof. intros F M L. unfold dense_entry, entry_block. rewrite F, M, L. reflexivity. Qed.

  Definition transp (wide : bool) (a b : Z) : Z * Z := if wide then (a, b) else (b, a).

  (** mk_dense_dist with (short, long) dimensions, wide or tall. *)
  Definition mk_wt (wide : bool) (a b : Z) fam ax := if wide then mk_dense_dist a b fam ax else mk_dense_dist b a fam ax.
  Definition skop_mat_wt (wide : bool) (S : dense_skop K T) (i j : Z) := if wide then skop_mat S i j else skop_mat S j i.

  Lemma mk_wt_Long wide d m fam D :
    d < m -> mk_wt wide d m fam Long = Ok D ->
    valid_dist D /\ dd_rows D = (if wide then d else m) /\ dd_cols D = (if wide then m else d) /\
    dd_family D = fam /\ dd_major D = m /\ dd_minor D = d /\ dd_layout D = (if wide then RowMajor else ColMajor).
  Proof.
    intros Hlt H. destruct wide; cbn [mk_wt] in H.
    - split; [do 4 eexists; exact H|].
      destruct (mk_dense_dist_inv _ _ _ _ _ H) as [? [? [Er [Ec [_ [Ef [El [Ema Emi]]]]]]]].
      assert (dd_layout D = RowMajor) as L.
      { rewrite El. unfold natural_layout. replace (d <? m) with true by lia. reflexivity. }
      rewrite L in *. repeat split; auto.
    - split; [do 4 eexists; exact H|].
      destruct (mk_dense_dist_inv _ _ _ _ _ H) as [? [? [Er [Ec [_ [Ef [El [Ema Emi]]]]]]]].
      assert (dd_layout D = ColMajor) as L.
      { rewrite El. unfold natural_layout. replace (m <? d) with false by lia. reflexivity. }
      rewrite L in *. repeat split; auto.
  Qed.

  Lemma mk_wt_Short wide d m fam D :
    d < m -> mk_wt wide d m fam Short = Ok D ->
    valid_dist D /\ dd_rows D = (if wide then d else m) /\ dd_cols D = (if wide then m else d) /\
    dd_family D = fam /\ dd_major D = d /\ dd_minor D = m /\ dd_layout D = (if wide then ColMajor else RowMajor).
  Proof.
    intros Hlt H. destruct wide; cbn [mk_wt] in H.
    - split; [do 4 eexists; exact H|].
      destruct (mk_dense_dist_inv _ _ _ _ _ H) as [? [? [Er [Ec [_ [Ef [El [Ema Emi]]]]]]]].
      assert (dd_layout D = ColMajor) as L.
      { rewrite El. unfold natural_layout. replace (d <? m) with true by lia. reflexivity. }
      rewrite L in *. repeat split; auto.
    - split; [do 4 eexists; exact H|].
      destruct (mk_dense_dist_inv _ _ _ _ _ H) as [? [? [Er [Ec [_ [Ef [El [Ema Emi]]]]]]]].
      assert (dd_layout D = RowMajor) as L.
      { rewrite El. unfold natural_layout. replace (m <? d) with false by lia. reflexivity. }
      rewrite L in *. repeat split; auto.
  Qed.

  Lemma skop_mat_entry env sched D seed S wide d m :
    valid_schedule sched -> wf_env env -> valid_dist D -> size_ok D (g_len (env_gen env (dd_family D))) ->
    mk_dense_skop env D seed = Ok S ->
    dd_rows D = (if wide : bool then d else m) -> dd_cols D = (if wide then m else d) ->
    exists S', fill_dense_skop cast env sched S = Ok S' /\
      forall i j, 0 <= i < d -> 0 <= j < m ->
        skop_mat_wt wide S' i j = (if wide then dense_entry cast env D seed i j else dense_entry cast env D seed j i).
  Proof.
    intros Hs Hwf HD Hsz HS Er Ec.
    destruct (skop_fill_spec env sched D seed S Hs Hwf HD Hsz HS) as [S' [E [_ [_ [_ G]]]]].
    exists S'. split; [exact E|]. intros i j Hi Hj. rewrite Er, Ec in G.
    destruct wide; cbn [skop_mat_wt]; apply G; auto.
  Qed.

  Lemma concat_long env s1 s2 s3 wide d1 d2 m fam D1 D2 D seed S1 S2 S :
    valid_schedule s1 -> valid_schedule s2 -> valid_schedule s3 -> wf_env env ->
    d1 + d2 < m ->
    mk_wt wide d1 m fam Long = Ok D1 -> mk_wt wide d2 m fam Long = Ok D2 -> mk_wt wide (d1 + d2) m fam Long = Ok D ->
    size_ok D (g_len (env_gen env fam)) ->
    mk_dense_skop env D1 seed = Ok S1 -> mk_dense_skop env D2 (ds_next S1) = Ok S2 -> mk_dense_skop env D seed = Ok S ->
    exists S1' S2' S',
      fill_dense_skop cast env s1 S1 = Ok S1' /\ fill_dense_skop cast env s2 S2 = Ok S2' /\
      fill_dense_skop cast env s3 S = Ok S' /\ ds_next S2 = ds_next S /\
      forall j, 0 <= j < m ->
        (forall i, 0 <= i < d1 -> exists v, skop_mat_wt wide S1' i j = Some v /\ skop_mat_wt wide S' i j = Some v) /\
        (forall i, 0 <= i < d2 -> exists v, skop_mat_wt wide S2' i j = Some v /\ skop_mat_wt wide S' (d1 + i) j = Some v).
  Proof.
    intros Hs1 Hs2 Hs3 Hwf Hlt HD1 HD2 HD Hsz HS1 HS2 HS.
    assert (0 < d1 /\ 0 < d2) as [Hd1 Hd2].
    { destruct wide; cbn [mk_wt] in *; apply mk_dense_dist_inv in HD1; apply mk_dense_dist_inv in HD2; lia. }
    destruct (mk_wt_Long wide d1 m fam D1 ltac:(lia) HD1) as [V1 [R1 [C1 [F1 [M1 [N1 Y1]]]]]].
    destruct (mk_wt_Long wide d2 m fam D2 ltac:(lia) HD2) as [V2 [R2 [C2 [F2 [M2 [N2 Y2]]]]]].
    destruct (mk_wt_Long wide (d1 + d2) m fam D ltac:(lia) HD) as [V [R [C [F [M [N Y]]]]]].
    set (L := g_len (env_gen env fam)) in *.
    pose proof (env_gen_wf env fam Hwf) as Hg.
    assert (2 <= L) as HL by (destruct Hg; unfold L; lia).
    assert (size_ok D1 L /\ size_ok D2 L) as [Z1 Z2].
    { destruct Hsz as [A B]. unfold size_ok. rewrite M1, M2, N1, N2. rewrite M, N in A. rewrite M in B.
      split; (split; [|exact B]); nia. }
    destruct (skop_mat_entry env s1 D1 seed S1 wide d1 m) as [S1' [E1 G1]]; auto.
    { rewrite F1. exact Z1. }
    destruct (skop_mat_entry env s2 D2 (ds_next S1) S2 wide d2 m) as [S2' [E2 G2]]; auto.
    { rewrite F2. exact Z2. }
    destruct (skop_mat_entry env s3 D seed S wide (d1 + d2) m) as [S' [E3 G3]]; auto.
    { rewrite F. exact Hsz. }
    exists S1', S2', S'. split; [exact E1|]. split; [exact E2|]. split; [exact E3|]. split.
    { destruct (next_counter env D1 seed S1 Hwf V1 ltac:(rewrite F1; exact Z1) HS1) as [q1 [Q1 Eq1]].
      destruct (next_counter env D2 (ds_next S1) S2 Hwf V2 ltac:(rewrite F2; exact Z2) HS2) as [q2 [Q2 Eq2]].
      destruct (next_counter env D seed S Hwf V ltac:(rewrite F; exact Hsz) HS) as [q3 [Q3 Eq3]].
      rewrite Q2, Q3, Q1. cbn [counter key]. rewrite F1 in *. rewrite F2 in *. rewrite F in *. subst q1 q2 q3.
      rewrite M1, M2, M, N1, N2, N. rewrite Zplus_mod_idemp_l. f_equal. f_equal. ring. }
    intros j Hj. split; intros i Hi.
    - rewrite G1, G3 by lia.
      destruct (dense_entry_Some env D seed (if wide then i else j) (if wide then j else i) Hwf V) as [v Hv].
      exists v. destruct wide; (split; [|exact Hv]); rewrite <- Hv; apply entry_same; congruence.
    - rewrite G2, G3 by lia.
      destruct (dense_entry_Some env D seed (if wide then d1 + i else j) (if wide then j else d1 + i) Hwf V) as [v Hv].
      exists v. destruct wide; (split; [|exact Hv]); rewrite <- Hv.
      + apply (entry_shift env D1); auto; try congruence.
        * rewrite F1. exact Z1.
        * rewrite Y, Y2, N1. reflexivity.
        * rewrite Y, Y2. reflexivity.
      + apply (entry_shift env D1); auto; try congruence.
        * rewrite F1. exact Z1.
        * rewrite Y, Y2, N1. reflexivity.
        * rewrite Y, Y2. reflexivity.
  Qed.

  Lemma prefix_short env s1 s2 wide d m k fam D1 D seed S1 S :
    valid_schedule s1 -> valid_schedule s2 -> wf_env env ->
    d < m -> 0 <= k ->
    mk_wt wide d m fam Short = Ok D1 -> mk_wt wide d (m + k) fam Short = Ok D ->
    size_ok D (g_len (env_gen env fam)) ->
    mk_dense_skop env D1 seed = Ok S1 -> mk_dense_skop env D seed = Ok S ->
    exists S1' S',
      fill_dense_skop cast env s1 S1 = Ok S1' /\ fill_dense_skop cast env s2 S = Ok S' /\
      forall i j, 0 <= i < d -> 0 <= j < m ->
        exists v, skop_mat_wt wide S1' i j = Some v /\ skop_mat_wt wide S' i j = Some v.
  Proof.
    intros Hs1 Hs2 Hwf Hlt Hk HD1 HD Hsz HS1 HS.
    destruct (mk_wt_Short wide d m fam D1 ltac:(lia) HD1) as [V1 [R1 [C1 [F1 [M1 [N1 Y1]]]]]].
    destruct (mk_wt_Short wide d (m + k) fam D ltac:(lia) HD) as [V [R [C [F [M [N Y]]]]]].
    set (L := g_len (env_gen env fam)) in *.
    pose proof (env_gen_wf env fam Hwf) as Hg.
    assert (2 <= L) as HL by (destruct Hg; unfold L; lia).
    assert (size_ok D1 L) as Z1.
    { destruct Hsz as [A B]. unfold size_ok. rewrite M1, N1. rewrite M, N in A. rewrite M in B.
      split; [|exact B].
      assert (0 < d) by (destruct (valid_dist_pos D1 V1) as [_ [_ [? _]]]; lia). nia. }
    destruct (skop_mat_entry env s1 D1 seed S1 wide d m) as [S1' [E1 G1]]; auto.
    { rewrite F1. exact Z1. }
    destruct (skop_mat_entry env s2 D seed S wide d (m + k)) as [S' [E3 G3]]; auto.
    { rewrite F. exact Hsz. }
    exists S1', S'. split; [exact E1|]. split; [exact E3|].
    intros i j Hi Hj. rewrite G1, G3 by lia.
    destruct (dense_entry_Some env D seed (if wide then i else j) (if wide then j else i) Hwf V) as [v Hv].
    exists v. destruct wide; (split; [|exact Hv]); rewrite <- Hv; apply entry_same; congruence.
  Qed.

  (** submatrix_as_blackbox returns the window of the operator, packed in S.layout. *)
  Lemma blackbox_spec env sched D seed S n_rows n_cols ro co :
    valid_schedule sched -> wf_env env -> valid_dist D -> size_ok D (g_len (env_gen env (dd_family D))) ->
    ds_dist S = D -> ds_seed S = seed ->
    1 <= n_rows -> 1 <= n_cols -> 0 <= ro -> 0 <= co ->
    ro + n_rows <= dd_rows D -> co + n_cols <= dd_cols D ->
    exists B, submatrix_as_blackbox cast env sched S n_rows n_cols ro co = Ok B /\
      bo_layout B = ds_layout S /\ zlen (bo_buff B) = n_rows * n_cols /\
      forall i j, 0 <= i < n_rows -> 0 <= j < n_cols ->
        mat (bo_layout B) (min_ld (bo_layout B) n_rows n_cols) 0 (bo_buff B) i j =
        dense_entry cast env D seed (ro + i) (co + j).
  Proof.
    intros Hs Hwf HD Hsz HSd HSs Hm Hn Hro Hco Hr Hc.
    unfold submatrix_as_blackbox. rewrite HSd, HSs.
    replace (ro + n_rows <=? dd_rows D) with true by lia.
    replace (co + n_cols <=? dd_cols D) with true by lia.
    assert (1 <= n_rows * n_cols) as Hmn by (clear - Hm Hn; nia).
    replace (0 <=? n_rows * n_cols) with true by lia.
    cbn [require bind].
    destruct (fill_dense_unpacked_spec cast env sched (ds_layout S) D n_rows n_cols ro co
        (repeat (env_junk env) (Z.to_nat (n_rows * n_cols))) seed)
      as [full [E2 [Lf [G _]]]]; auto; try lia.
    { rewrite zlen_repeat. lia. }
    rewrite E2. cbn [bind]. eexists. split; [reflexivity|]. cbn.
    split; [reflexivity|]. split; [rewrite Lf, zlen_repeat; lia|]. exact G.
  Qed.
End Dense.
