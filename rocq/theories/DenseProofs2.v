(** Proofs about DenseModel.v, continued: filling windows. *)
From Verif Require Import Base Spec Interleave RngModel DenseModel DenseSpec DenseProofs.

Lemma pad_of_spec n L : 0 < n -> 2 <= L -> n + pad_of n L = ceil_div n L * L /\ 0 <= pad_of n L < L.
Proof.
  intros Hn HL. unfold pad_of, ceil_div.
  rewrite Z.rem_mod_nonneg by lia.
  pose proof (Z.div_mod n L ltac:(lia)). pose proof (Z.mod_pos_bound n L ltac:(lia)).
  destruct (Z.eqb_spec (n mod L) 0) as [E|E]; cbn [negb].
  - rewrite E in *. replace ((n + L - 1) / L) with (n / L); [lia|].
    apply (Z.div_unique _ L (n / L) (L - 1)); lia.
  - replace ((n + L - 1) / L) with (n / L + 1); [lia|].
    apply (Z.div_unique _ L (n / L + 1) (n mod L - 1)); lia.
Qed.

Lemma ceil_div_pos n L : 0 < n -> 2 <= L -> 0 < ceil_div n L.
Proof. intros Hn HL. pose proof (pad_of_spec n L Hn HL). nia. Qed.

Lemma fit_row R m per L C n r B :
  (R + m - 1) * (per * L) + C + n < B -> 0 <= r < m -> 0 < per -> 2 <= L ->
  per * r + (R * per * L + C + n) < B.
Proof.
  intros H Hr Hp HL. assert (per * r <= per * (m - 1)) by (apply Z.mul_le_mono_nonneg_l; lia).
  assert (0 <= per * (m - 1)) by (apply Z.mul_nonneg_nonneg; lia).
  assert (per * (m - 1) <= per * (m - 1) * L) by (rewrite <- (Z.mul_1_r (per * (m - 1))) at 1; apply Z.mul_le_mono_nonneg_l; lia).
  replace ((R + m - 1) * (per * L)) with (R * per * L + per * (m - 1) * L) in H by ring. lia.
Qed.

Section Dense.
  Context {K W T : Type}.
  Variable cast : W -> T.

  (** The fill loop, for any window given by a pointer [ptr] into the imagined
      row-major parent with [n_cols] columns. *)
  Lemma submat_impl_spec sched (g : generator K W) n_cols smat m n ptr (seed : rng_state K) lda0 :
    valid_schedule sched -> wf_generator g ->
    0 < n_cols -> 1 <= n <= n_cols -> 0 <= m -> 0 <= ptr ->
    (0 < lda0 -> n <= lda0) ->
    let lda := if lda0 <=? 0 then n else lda0 in
    let L := g_len g in
    let per := ceil_div n_cols L in
    let R := ptr / n_cols in
    let C := ptr mod n_cols in
    (m = 0 \/ (m - 1) * lda + n <= zlen smat) ->
    (R + m - 1) * (per * L) + C + n < 2 ^ 63 ->
    n_cols / L <= int_max ->
    exists smat',
      fill_dense_submat_impl cast sched g n_cols smat m n ptr seed lda0 =
        Ok (smat', mk_state (incr g (incr g (counter seed) (R * per + C / L)) (m * per)) (key seed)) /\
      zlen smat' = zlen smat /\
      (forall r c, 0 <= r < m -> 0 <= c < n ->
         get smat' (r * lda + c) =
         option_map cast (get (g_fun g ((counter seed + ((R + r) * per + (C + c) / L)) mod 2 ^ g_bits g) (key seed))
                              ((C + c) mod L))) /\
      (forall p, (forall r c, 0 <= r < m -> 0 <= c < n -> p <> r * lda + c) -> get smat' p = get smat p).
  Proof.
    intros Hs Hwf Hnc Hn Hm Hptr Hlda lda L per R C Hbuf Hfit Hint.
    pose proof Hwf as [WL WB WF]. fold L in WL.
    destruct (pad_of_spec n_cols L Hnc ltac:(lia)) as [Hpad Hpad0]. fold per in Hpad.
    pose proof (ceil_div_pos n_cols L Hnc ltac:(lia)) as Hper. fold per in Hper.
    pose proof (Z.div_mod ptr n_cols ltac:(lia)) as Dp. pose proof (Z.mod_pos_bound ptr n_cols ltac:(lia)) as Bp.
    fold R C in Dp, Bp.
    assert (0 <= R) as HR by (unfold R; apply Z.div_pos; lia).
    assert (exists dflt : T, True) as [dflt _].
    { pose proof (WF 0 (key seed)) as Hl. fold L in Hl. destruct (g_fun g 0 (key seed)) as [|w ?].
      - rewrite zlen_nil in Hl; lia.
      - exists (cast w); auto. }
    unfold fill_dense_submat_impl. fold L.
    assert ((if lda0 <=? 0 then Ok n else req (lda0 >=? n) ;; Ok lda0) = Ok lda) as ->.
    { unfold lda. destruct (Z.leb_spec lda0 0); [reflexivity|].
      replace (lda0 >=? n) with true by lia. reflexivity. }
    assert (n <= lda) as Hln by (unfold lda; destruct (Z.leb_spec lda0 0); lia).
    clearbody lda. cbn [bind].
    replace (n_cols >=? n) with true by lia. cbn [require bind].
    replace (n_cols =? 0) with false by lia.
    set (pad := pad_of n_cols L) in *. clearbody pad.
    assert (Z.quot ptr n_cols = R) as -> by (apply Z.quot_div_nonneg; lia).
    set (pp := ptr + R * pad).
    assert (pp = R * per * L + C) as Epp by (unfold pp; rewrite Dp; replace (R * per * L) with (R * (per * L)) by ring; rewrite <- Hpad; ring).
    assert (0 <= pp) as Hpp by (rewrite Epp; clear - HR Hper WL Bp; nia).
    assert (Z.quot (n_cols + pad) L = per) as Est.
    { rewrite Hpad. apply Z.quot_mul. lia. }
    rewrite Est. clearbody pp. clear Hpad Hpad0 Est pad Dp Hptr. clearbody R C per.
    (* large literals are hidden: they slow lia down *)
    destruct WL as [WL _].
    assert (exists B, B = 2 ^ 63) as [B EB] by eauto. rewrite <- EB in Hfit.
    assert (forall x, x < B -> x < 2 ^ 63) as HB by (intros; lia).
    assert (forall x, x < B -> x < 2 ^ 64) as HB' by (intros; lia).
    clear EB.
    assert (Z.quot pp L = pp / L) as Eqs by (apply Z.quot_div_nonneg; lia).
    assert (pp / L = R * per + C / L) as EppL.
    { rewrite Epp. rewrite Z.add_comm, Z.div_add by lia. lia. }
    remember (incr g (counter seed) (Z.quot pp L)) as c0 eqn:Ec0.
    set (V := fun r c => row_val cast dflt g c0 (key seed) per pp r c).
    rewrite (mapM_Ok _ (fun r => map (fun c => (r * lda + c, V r c)) (range 0 n))).
    2:{ intros r Hr. apply in_range in Hr.
        assert ((pp + n - 1) / L - pp / L - 1 <= int_max) as Hmid.
        { clear - Hint Hn WL Hpp.
          pose proof (Z.div_mod (pp + n - 1) L ltac:(lia)). pose proof (Z.mod_pos_bound (pp + n - 1) L ltac:(lia)).
          pose proof (Z.div_mod pp L ltac:(lia)). pose proof (Z.mod_pos_bound pp L ltac:(lia)).
          pose proof (Z.div_mod n_cols L ltac:(lia)). pose proof (Z.mod_pos_bound n_cols L ltac:(lia)).
          cut ((pp + n - 1) / L - pp / L - 1 <= n_cols / L); [lia|].
          generalize dependent ((pp + n - 1) / L). generalize dependent (pp / L). generalize dependent (n_cols / L).
          generalize dependent ((pp + n - 1) mod L). generalize dependent (pp mod L). generalize dependent (n_cols mod L).
          intros. nia. }
        assert (per * r + (pp + n) < 2 ^ 63) as Hf.
        { apply HB. rewrite Epp. eapply fit_row; eauto; lia. }
        assert (0 <= per) as Hper0 by lia. assert (0 <= r) as Hr0 by lia. assert (1 <= n) as Hn1 by lia.
        exact (row_task_spec cast dflt g c0 (key seed) per pp n r lda Hwf Hpp Hn1 Hr0 Hper0 Hf Hmid). }
    cbn [bind].
    set (tasks := map _ _).
    assert (race_free tasks = true) as Hr.
    { apply (race_free_owner tasks (fun p => Z.to_nat (p / lda))).
      intros k t Hk e He. unfold tasks in Hk.
      assert (k < length (range 0 m))%nat as Hkl.
      { apply nth_error_Some. intros HN.
        assert (nth_error (map (fun r => map (fun c => (r * lda + c, V r c)) (range 0 n)) (range 0 m)) k = None).
        { apply nth_error_None. rewrite map_length. apply nth_error_None. exact HN. }
        congruence. }
      unfold range in Hkl, Hk. rewrite length_zseq in Hkl.
      erewrite map_nth_error in Hk; [|apply nth_error_zseq; exact Hkl].
      injection Hk as <-. apply in_map_iff in He as [c [<- Hc]]. apply in_range in Hc. cbn [fst]. cbv beta.
      destruct (div_mod_pair lda (Z.of_nat k) c ltac:(clear - Hc Hln; lia)) as [-> _]. apply Nat2Z.id. }
    destruct (omp_exec_Ok write_act sched tasks smat Hs Hr) as [smat' [E [Ln G]]].
    { intros t e Ht He. unfold tasks in Ht. apply in_map_iff in Ht as [r [<- Hr']]. apply in_range in Hr'.
      apply in_map_iff in He as [c [<- Hc]]. apply in_range in Hc. cbn [fst]. clear - Hbuf Hr' Hc Hln Hn. nia. }
    rewrite E. cbn [bind]. exists smat'.
    split; [|split; [exact Ln|split]].
    - f_equal. f_equal. rewrite Ec0, Eqs, EppL. reflexivity.
    - intros r c Hr' Hc. rewrite G. unfold tasks. rewrite at_cell_window by (clear - Hn Hln; lia).
      destruct (div_mod_pair lda r c ltac:(clear - Hc Hln; lia)) as [-> ->].
      assert (0 <= r * lda + c) by (clear - Hr' Hc Hln; nia).
      replace ((0 <=? r * lda + c) && (r <? m) && (c <? n)) with true by (clear - H Hr' Hc; lia).
      destruct (get_lt smat (r * lda + c)) as [x Hx]; [clear - Hbuf Hr' Hc Hln Hn; nia|]. rewrite Hx. cbn [option_map].
      unfold run_at. cbn [fold_left]. unfold write_act, V, row_val, valat. fold L.
      assert ((pp + c) / L = R * per + (C + c) / L) as ->.
      { rewrite Epp. replace (R * per * L + C + c) with (C + c + (R * per) * L) by ring. rewrite Z.div_add by (clear - WL; lia). ring. }
      assert ((pp + c) mod L = (C + c) mod L) as ->.
      { rewrite Epp. replace (R * per * L + C + c) with (C + c + (R * per) * L) by ring. apply Z.mod_add. clear - WL; lia. }
      rewrite EppL. rewrite Ec0, Eqs, EppL. clear Eqs EppL Ec0 Epp Hpp.
      assert (0 <= C / L) by (apply Z.div_pos; clear - Bp WL; lia).
      assert (C / L <= (C + c) / L) by (apply Z.div_le_mono; clear - Bp WL Hc; lia).
      assert ((C + c) / L <= C + c) by (apply Z.div_le_upper_bound; clear - Bp Hc WL; [lia|nia]).
      assert (C / L <= C) by (apply Z.div_le_upper_bound; clear - Bp Hc WL; [lia|nia]).
      assert (0 <= per * r) by (apply Z.mul_nonneg_nonneg; clear - Hper Hr'; lia).
      assert (0 <= R * per) by (apply Z.mul_nonneg_nonneg; clear - Hper HR; lia).
      assert (per * r + R * per + C + c < B) as Hfit'.
      { pose proof (fit_row R m per L C n r _ Hfit Hr' Hper WL) as F.
        assert (R * per <= R * per * L) as F2 by (clear - HR Hper WL; nia). clear - F F2 Hc. lia. }
      set (q1 := C / L) in *. set (q2 := (C + c) / L) in *. clearbody q1 q2.
      clear Hbuf Hlda Hint.
      rewrite incr_incr; [|assumption|lia|lia|apply HB'; lia].
      rewrite incr_small by (split; [lia|apply HB'; lia]).
      replace (counter seed + (R * per + q1 + (per * r + (R * per + q2 - (R * per + q1)))))
        with (counter seed + ((R + r) * per + q2)) by ring.
      destruct (get_lt (g_fun g ((counter seed + ((R + r) * per + q2)) mod 2 ^ g_bits g) (key seed)) ((C + c) mod L))
        as [w Hw].
      { rewrite WF. fold L. apply Z.mod_pos_bound. clear - WL; lia. }
      rewrite Hw. reflexivity.
    - intros p Hp. rewrite G. unfold tasks. rewrite at_cell_window by (clear - Hn Hln; lia).
      destruct ((0 <=? p) && (p / lda <? m) && (p mod lda <? n)) eqn:Hc.
      + exfalso. clear - Hp Hc Hln Hn. apply (Hp (p / lda) (p mod lda)).
        * split; [apply Z.div_pos; lia|lia].
        * pose proof (Z.mod_pos_bound p lda). lia.
        * pose proof (Z.div_mod p lda). lia.
      + destruct (get smat p); reflexivity.
  Qed.

  (* ---------------------------------------------------------------- *)
  (** Facts about a constructed distribution. *)
  Lemma mk_dense_dist_inv nr nc fam ax D :
    mk_dense_dist nr nc fam ax = Ok D ->
    0 < nr /\ 0 < nc /\ dd_rows D = nr /\ dd_cols D = nc /\ dd_axis D = ax /\ dd_family D = fam /\
    dd_layout D = natural_layout ax nr nc /\
    dd_major D = min_ld (dd_layout D) nr nc /\
    dd_minor D = min_ld (flip (dd_layout D)) nr nc.
  Proof.
    unfold mk_dense_dist. intros H.
    destruct (Z.gtb_spec nr 0) as [H1|H1]; cbn [require bind] in H; [|discriminate].
    destruct (Z.gtb_spec nc 0) as [H2|H2]; cbn [require bind] in H; [|discriminate].
    injection H as <-. cbn. repeat split; try lia.
    - unfold natural_layout. destruct (Z.ltb_spec nr nc), ax; cbn; lia.
    - unfold natural_layout. destruct (Z.ltb_spec nr nc), ax; cbn; lia.
  Qed.

  Lemma mk_dense_dist_Ok nr nc fam ax :
    0 < nr -> 0 < nc -> exists D, mk_dense_dist nr nc fam ax = Ok D.
  Proof.
    intros H1 H2. unfold mk_dense_dist.
    replace (nr >? 0) with true by lia. replace (nc >? 0) with true by lia. cbn. eauto.
  Qed.

  Definition valid_dist (D : dense_dist) : Prop :=
    exists nr nc fam ax, mk_dense_dist nr nc fam ax = Ok D.

  Lemma env_gen_wf (env : dense_env K W T) f : wf_env env -> wf_generator (env_gen env f).
  Proof. intros [H1 H2]. destruct f; assumption. Qed.

  (** State returned by sampling a window. *)
  Definition window_state (env : dense_env K W T) (D : dense_dist) (n_rows n_cols ro co : Z) (seed : rng_state K) : rng_state K :=
    let g := env_gen env (dd_family D) in
    let L := g_len g in
    let '(r0, c0) := major_pos (dd_layout D) ro co in
    let '(m, _) := major_pos (dd_layout D) n_rows n_cols in
    mk_state (incr g (incr g (counter seed) (r0 * ceil_div (dd_major D) L + c0 / L)) (m * ceil_div (dd_major D) L)) (key seed).

  (** Sampling into the natural layout, before any layout change. *)
  Lemma fill_natural_spec (env : dense_env K W T) sched D n_rows n_cols ro co buff seed :
    valid_schedule sched -> wf_env env -> valid_dist D ->
    size_ok D (g_len (env_gen env (dd_family D))) ->
    1 <= n_rows -> 1 <= n_cols -> 0 <= ro -> 0 <= co ->
    ro + n_rows <= dd_rows D -> co + n_cols <= dd_cols D ->
    n_rows * n_cols <= zlen buff ->
    exists buff',
      fill_dense_unpacked cast env sched (dd_layout D) D n_rows n_cols ro co buff seed =
        Ok (buff', window_state env D n_rows n_cols ro co seed) /\
      zlen buff' = zlen buff /\
      (forall i j, 0 <= i < n_rows -> 0 <= j < n_cols ->
         mat (dd_layout D) (min_ld (dd_layout D) n_rows n_cols) 0 buff' i j =
         dense_entry cast env D seed (ro + i) (co + j)) /\
      (forall p, ~ (0 <= p < n_rows * n_cols) -> get buff' p = get buff p).
  Proof.
    intros Hs Hwf [nr [nc [fam [ax HD]]]] [Hsz1 Hsz2] Hm Hn Hro Hco Hr Hc Hbuf.
    pose proof (env_gen_wf env (dd_family D) Hwf) as Hg.
    destruct (mk_dense_dist_inv _ _ _ _ _ HD) as [Hnr [Hnc [Er [Ec [Eax [Ef [El [Ema Emi]]]]]]]].
    rewrite Er, Ec in *. clear HD El.
    unfold fill_dense_unpacked. rewrite Er, Ec.
    replace (nr >=? n_rows + ro) with true by lia.
    replace (nc >=? n_cols + co) with true by lia.
    cbn [require bind]. rewrite layout_eqb_refl.
    set (g := env_gen env (dd_family D)) in *. set (L := g_len g) in *.
    pose proof Hg as [WL WB WF]. fold L in WL.
    (* position of the window in natural order *)
    set (m := fst (major_pos (dd_layout D) n_rows n_cols)).
    set (n := snd (major_pos (dd_layout D) n_rows n_cols)).
    set (r0 := fst (major_pos (dd_layout D) ro co)).
    set (c0 := snd (major_pos (dd_layout D) ro co)).
    assert (1 <= m /\ 1 <= n /\ 0 <= r0 /\ 0 <= c0 /\ r0 + m <= dd_minor D /\ c0 + n <= dd_major D /\ 0 < dd_major D /\ 0 < dd_minor D)
      as [Hm1 [Hn1 [Hr0 [Hc0 [Hrm [Hcn [HM HN]]]]]]].
    { unfold m, n, r0, c0. rewrite Ema, Emi. destruct (dd_layout D); cbn; lia. }
    assert (m * n = n_rows * n_cols) as Hmn.
    { unfold m, n. destruct (dd_layout D); cbn; lia. }
    destruct (pad_of_spec (dd_major D) L HM ltac:(lia)) as [Hpad Hpad0].
    assert (ceil_div (dd_major D) L * L < dd_major D + L) as Hcl by lia.
    pose proof (ceil_div_pos (dd_major D) L HM ltac:(lia)) as Hcp.
    assert (0 <= r0 * dd_major D < 2 ^ 63) as Hprod by (clear - Hsz1 Hr0 Hrm Hm1 HM WL; nia).
    assert (match dd_layout D with
            | ColMajor => p <- safe_int_product co (dd_major D);; Ok (n_cols, n_rows, ro + p)
            | RowMajor => p <- safe_int_product ro (dd_major D);; Ok (n_rows, n_cols, p + co)
            end = Ok (m, n, r0 * dd_major D + c0)) as ->.
    { unfold m, n, r0, c0 in *. destruct (dd_layout D); cbn [major_pos fst snd] in *.
      - rewrite safe_int_product_Ok; [cbn [bind]; do 2 f_equal; lia|].
        unfold int64, int64_min, int64_max. clear - Hprod; lia.
      - rewrite safe_int_product_Ok; [cbn [bind]; do 2 f_equal; lia|].
        unfold int64, int64_min, int64_max. clear - Hprod; lia. }
    cbn [bind].
    assert (c0 < dd_major D) by lia.
    assert ((r0 * dd_major D + c0) / dd_major D = r0) as Hdiv by (apply div_mod_pair; lia).
    assert ((r0 * dd_major D + c0) mod dd_major D = c0) as Hmod by (apply div_mod_pair; lia).
    destruct (submat_impl_spec sched g (dd_major D) buff m n (r0 * dd_major D + c0) seed 0) as [b1 [E1 [L1 [G1 N1]]]];
      try assumption; try lia.
    { right. change (0 <=? 0) with true. cbv iota. clear - Hmn Hbuf. lia. }
    { fold L. rewrite Hdiv, Hmod. clear - Hsz1 Hr0 Hrm Hm1 HM WL Hcl Hcp Hcn Hc0 Hn1 HN.
      assert ((r0 + m - 1) * (ceil_div (dd_major D) L * L) <= (dd_minor D - 1) * (dd_major D + L)) as F
        by (apply Z.mul_le_mono_nonneg; nia).
      clear - F Hsz1 WL HM Hcn. nia. }
    cbn [Z.leb Z.compare] in G1, N1.
    rewrite Hdiv, Hmod in E1, G1. fold L in E1, G1.
    set (st := mk_state _ _) in E1.
    assert (st = window_state env D n_rows n_cols ro co seed) as Est.
    { unfold st, window_state. fold g. fold L. unfold r0, c0, m.
      destruct (dd_layout D); reflexivity. }
    rewrite Est in E1. clear Est. clearbody st.
    (* the family step *)
    assert (exists b2,
      match dd_family D with
      | Gaussian => fill_dense_submat_impl cast sched (env_gauss env) (dd_major D) buff m n (r0 * dd_major D + c0) seed 0
      | Uniform => '(buff0, st0) <- fill_dense_submat_impl cast sched (env_unif env) (dd_major D) buff m n (r0 * dd_major D + c0) seed 0;;
                   buff1 <- scal_loop (env_scal3 env) (m * n) buff0;; Ok (buff1, st0)
      end = Ok (b2, window_state env D n_rows n_cols ro co seed) /\
      zlen b2 = zlen buff /\
      (forall p, 0 <= p < m * n -> get b2 p = option_map (family_map env (dd_family D)) (get b1 p)) /\
      (forall p, ~ (0 <= p < m * n) -> get b2 p = get b1 p)) as [b2 [E2 [L2 [G2 N2]]]].
    { unfold g, env_gen in E1. destruct (dd_family D); cbn [family_map].
      - exists b1. split; [exact E1|]. split; [exact L1|]. split; [|auto].
        intros p Hp. destruct (get b1 p); reflexivity.
      - destruct (scal_loop_spec (env_scal3 env) (m * n) b1) as [b2 [E2 [L2 [G2 N2]]]]; [clear - Hmn Hbuf L1 Hm1 Hn1; nia|].
        exists b2. rewrite E1. cbn [bind]. rewrite E2. cbn [bind].
        split; [reflexivity|]. split; [congruence|]. split; assumption. }
    rewrite E2. cbn [bind]. exists b2. split; [reflexivity|]. split; [exact L2|]. split.
    - intros i j Hi Hj. unfold mat.
      set (r := fst (major_pos (dd_layout D) i j)). set (c := snd (major_pos (dd_layout D) i j)).
      assert (0 <= r < m /\ 0 <= c < n) as [Hrr Hcc].
      { unfold r, c, m, n. destruct (dd_layout D); cbn; lia. }
      assert (0 + addr (dd_layout D) (min_ld (dd_layout D) n_rows n_cols) i j = r * n + c) as ->.
      { unfold r, c, n. destruct (dd_layout D); cbn; lia. }
      rewrite G2 by (clear - Hrr Hcc; nia). rewrite G1 by assumption.
      unfold dense_entry. fold g. fold L. unfold entry_block.
      assert (major_pos (dd_layout D) (ro + i) (co + j) = (r0 + r, c0 + c)) as ->.
      { unfold r0, c0, r, c. destruct (dd_layout D); reflexivity. }
      destruct (get _ _); reflexivity.
    - intros p Hp. rewrite N2 by (clear - Hp Hmn; lia). apply N1. intros r c Hrr Hcc. clear - Hp Hmn Hrr Hcc. nia.
  Qed.

  Lemma min_ld_flip l a b : min_ld (flip l) a b = min_ld l b a.
  Proof. destruct l; reflexivity. Qed.

  (** Main theorem: any layout. *)
  Lemma fill_dense_unpacked_spec (env : dense_env K W T) sched lay D n_rows n_cols ro co buff seed :
    valid_schedule sched -> wf_env env -> valid_dist D ->
    size_ok D (g_len (env_gen env (dd_family D))) ->
    1 <= n_rows -> 1 <= n_cols -> 0 <= ro -> 0 <= co ->
    ro + n_rows <= dd_rows D -> co + n_cols <= dd_cols D ->
    n_rows * n_cols <= zlen buff ->
    exists buff',
      fill_dense_unpacked cast env sched lay D n_rows n_cols ro co buff seed =
        Ok (buff', window_state env D n_rows n_cols ro co seed) /\
      zlen buff' = zlen buff /\
      (forall i j, 0 <= i < n_rows -> 0 <= j < n_cols ->
         mat lay (min_ld lay n_rows n_cols) 0 buff' i j =
         dense_entry cast env D seed (ro + i) (co + j)) /\
      (forall p, ~ (0 <= p < n_rows * n_cols) -> get buff' p = get buff p).
  Proof.
    intros Hs Hwf HD Hsz Hm Hn Hro Hco Hr Hc Hbuf.
    destruct (fill_natural_spec env sched D n_rows n_cols ro co buff seed Hs Hwf HD Hsz Hm Hn Hro Hco Hr Hc Hbuf)
      as [b1 [E1 [L1 [G1 N1]]]].
    destruct (layout_eqb lay (dd_layout D)) eqn:El.
    { apply layout_eqb_eq in El. subst lay. eauto. }
    (* the non-natural case differs only by the final copy *)
    assert (forall b, b = fill_dense_unpacked cast env sched (dd_layout D) D n_rows n_cols ro co buff seed ->
      fill_dense_unpacked cast env sched lay D n_rows n_cols ro co buff seed =
      ('(buff0, next_state) <- b ;;
       let size_mat := n_rows * n_cols in
       let flip_work := repeat (env_junk env) (Z.to_nat size_mat) in
       flip_work <- copy_loop size_mat buff0 flip_work ;;
       let '(irs_nat, ics_nat) := layout_to_strides3 (dd_layout D) n_rows n_cols in
       let '(irs_req, ics_req) := layout_to_strides3 lay n_rows n_cols in
       buff1 <- omatcopy n_rows n_cols flip_work irs_nat ics_nat buff0 irs_req ics_req ;;
       Ok (buff1, next_state))) as Heq.
    { intros b ->. unfold fill_dense_unpacked. rewrite El, layout_eqb_refl.
      destruct (require (dd_rows D >=? n_rows + ro)); cbn [bind]; try reflexivity.
      destruct (require (dd_cols D >=? n_cols + co)); cbn [bind]; try reflexivity.
      destruct (match dd_layout D with ColMajor => _ | RowMajor => _ end) as [[[a1 a2] a3]| |]; cbn [bind]; try reflexivity.
      destruct (match dd_family D with Gaussian => _ | Uniform => _ end) as [[a4 a5]| |]; cbn [bind]; reflexivity. }
    rewrite (Heq _ eq_refl), E1. cbn [bind]. clear Heq.
    destruct (copy_loop_spec (n_rows * n_cols) b1 (repeat (env_junk env) (Z.to_nat (n_rows * n_cols))))
      as [fw [Ef [Lf [Gf Nf]]]]; [nia|lia|rewrite zlen_repeat; nia|].
    rewrite Ef. cbn [bind]. rewrite zlen_repeat in Lf.
    set (sn := layout_to_strides3 (dd_layout D) n_rows n_cols).
    set (sr := layout_to_strides3 lay n_rows n_cols).
    assert (forall l i j, i * fst (layout_to_strides3 l n_rows n_cols) + j * snd (layout_to_strides3 l n_rows n_cols)
                          = addr l (min_ld l n_rows n_cols) i j) as Hst.
    { intros l i j. destruct l; cbn; lia. }
    assert (forall l i j, 0 <= i < n_rows -> 0 <= j < n_cols -> 0 <= addr l (min_ld l n_rows n_cols) i j < n_rows * n_cols) as Hrng.
    { intros l i j ? ?. destruct l; cbn; nia. }
    destruct (omatcopy_spec n_rows n_cols fw (fst sn) (snd sn) b1 (fst sr) (snd sr)) as [b2 [E2 [L2 [G2 N2]]]].
    - lia.
    - lia.
    - intros i j Hi Hj. unfold sn. rewrite Hst. pose proof (Hrng (dd_layout D) i j Hi Hj). lia.
    - intros i j Hi Hj. unfold sr. rewrite Hst. pose proof (Hrng lay i j Hi Hj). lia.
    - intros i j i' j' Hi Hj Hi' Hj'. unfold sr. rewrite !Hst. apply (addr_inj lay n_rows n_cols); lia.
    - rewrite (surjective_pairing sn), (surjective_pairing sr), E2. cbn [bind].
      exists b2. split; [reflexivity|]. split; [congruence|]. split.
      + intros i j Hi Hj. unfold mat. rewrite <- Hst. fold sr.
        replace (0 + (i * fst sr + j * snd sr)) with (i * fst sr + j * snd sr) by lia.
        rewrite G2 by lia. unfold sn. rewrite Hst. rewrite Gf by (apply Hrng; lia).
        specialize (G1 i j Hi Hj). unfold mat in G1. exact G1.
      + intros p Hp. rewrite N2.
        * apply N1. exact Hp.
        * intros i j Hi Hj He. apply Hp. subst p. unfold sr. rewrite Hst. apply Hrng; lia.
  Qed.
End Dense.
