(** Final theorems about dense sampling (C01-C10).

    Hypotheses used throughout:
    - [valid_schedule sched]: any interleaving of the rows of the OpenMP loop;
    - [wf_env env]: the RNG returns blocks of g_len >= 2 words, otherwise arbitrary;
    - [valid_dist D]: D was returned by the constructor of DenseDist;
    - [size_ok D L]: index arithmetic fits int64_t and a row has at most INT_MAX blocks. *)
From Verif Require Import Base Spec Interleave RngModel DenseModel DenseSpec DenseProofs DenseProofs2 DenseProofs3.

(* ------------------------------------------------------------------ *)
(** * C01 *)
Theorem C01_dense_window_of_full_operator :
  forall {K W T} (cast : W -> T) (env : dense_env K W T) s1 s2 lay1 lay2 D n_rows n_cols ro co
         (buff1 buff2 : list T) (seed : rng_state K),
    valid_schedule s1 -> valid_schedule s2 -> wf_env env -> valid_dist D ->
    size_ok D (g_len (env_gen env (dd_family D))) ->
    1 <= n_rows -> 1 <= n_cols -> 0 <= ro -> 0 <= co ->
    ro + n_rows <= dd_rows D -> co + n_cols <= dd_cols D ->
    n_rows * n_cols <= zlen buff1 -> dd_rows D * dd_cols D <= zlen buff2 ->
    exists win full st1 st2,
      fill_dense_unpacked cast env s1 lay1 D n_rows n_cols ro co buff1 seed = Ok (win, st1) /\
      fill_dense_unpacked cast env s2 lay2 D (dd_rows D) (dd_cols D) 0 0 buff2 seed = Ok (full, st2) /\
      forall i j, 0 <= i < n_rows -> 0 <= j < n_cols ->
        exists v,
          mat lay1 (min_ld lay1 n_rows n_cols) 0 win i j = Some v /\
          mat lay2 (min_ld lay2 (dd_rows D) (dd_cols D)) 0 full (ro + i) (co + j) = Some v.
Proof. intros K W T. exact window_of_full. Qed.
Print Assumptions C01_dense_window_of_full_operator.

(** Same for operator objects: submatrix_as_blackbox(S, ...) is the window of fill_dense(S). *)
Theorem C01_dense_blackbox_is_window_of_filled_operator :
  forall {K W T} (cast : W -> T) (env : dense_env K W T) s1 s2 D n_rows n_cols ro co (seed : rng_state K) S,
    valid_schedule s1 -> valid_schedule s2 -> wf_env env -> valid_dist D ->
    size_ok D (g_len (env_gen env (dd_family D))) ->
    mk_dense_skop env D seed = Ok S ->
    1 <= n_rows -> 1 <= n_cols -> 0 <= ro -> 0 <= co ->
    ro + n_rows <= dd_rows D -> co + n_cols <= dd_cols D ->
    exists B S',
      submatrix_as_blackbox cast env s1 S n_rows n_cols ro co = Ok B /\
      fill_dense_skop cast env s2 S = Ok S' /\
      forall i j, 0 <= i < n_rows -> 0 <= j < n_cols ->
        exists v, mat (bo_layout B) (min_ld (bo_layout B) n_rows n_cols) 0 (bo_buff B) i j = Some v /\
                  skop_mat S' (ro + i) (co + j) = Some v.
Proof.
  intros K W T cast env s1 s2 D n_rows n_cols ro co seed S H1 H2 H3 H4 H5 H6 H7 H8 H9 H10 H11 H12.
  assert (ds_dist S = D /\ ds_seed S = seed) as [Hd Hs].
  { unfold mk_dense_skop in H6. apply bind_Ok in H6 as [n [_ E]]. injection E as <-. auto. }
  destruct (blackbox_spec cast env s1 D seed S n_rows n_cols ro co) as [B [EB [LB [_ GB]]]]; auto.
  destruct (skop_fill_spec cast env s2 D seed S) as [S' [ES [_ [_ [_ GS]]]]]; auto.
  exists B, S'. split; [exact EB|]. split; [exact ES|]. intros i j Hi Hj.
  destruct (dense_entry_Some cast env D seed (ro + i) (co + j) H3 H4) as [v Hv].
  exists v. rewrite GB, GS by lia. auto.
Qed.
Print Assumptions C01_dense_blackbox_is_window_of_filled_operator.

(** A case meeting the hypotheses: a 5 x 7 Long operator, window 2 x 3 at (1,4). *)
Lemma toy_env_wf : wf_env toy_env.
Proof. split; (split; [cbn; lia|cbn; lia|intros; reflexivity]). Qed.
Definition D57 : dense_dist :=
  {| dd_rows := 5; dd_cols := 7; dd_axis := Long; dd_major := 7; dd_minor := 5; dd_iso_inv2 := 5;
     dd_family := Uniform; dd_layout := RowMajor |}.
Example C01_case :
  valid_dist D57 /\ size_ok D57 (g_len (env_gen toy_env (dd_family D57))) /\
  fill_dense_unpacked (fun x => x) toy_env rev_schedule ColMajor D57 2 3 1 4 (repeat 0 6) (mk_state 10 1)
  = Ok ([3156; 3180; 3159; 3183; 3162; 3186], mk_state 17 1).
Proof.
  split; [exists 5, 7, Uniform, Long; reflexivity|]. split; [split; cbn; lia|vm_compute; reflexivity].
Qed.

(* ------------------------------------------------------------------ *)
(** * C02: every cell of every window has the closed form [dense_entry] of DenseSpec.v. *)
Theorem C02_dense_entry_closed_form :
  forall {K W T} (cast : W -> T) (env : dense_env K W T) sched lay D n_rows n_cols ro co
         (buff : list T) (seed : rng_state K),
    valid_schedule sched -> wf_env env -> valid_dist D ->
    size_ok D (g_len (env_gen env (dd_family D))) ->
    1 <= n_rows -> 1 <= n_cols -> 0 <= ro -> 0 <= co ->
    ro + n_rows <= dd_rows D -> co + n_cols <= dd_cols D ->
    n_rows * n_cols <= zlen buff ->
    exists buff' st,
      fill_dense_unpacked cast env sched lay D n_rows n_cols ro co buff seed = Ok (buff', st) /\
      forall i j, 0 <= i < n_rows -> 0 <= j < n_cols ->
        let g := env_gen env (dd_family D) in
        let L := g_len g in
        let '(r, c) := major_pos (dd_layout D) (ro + i) (co + j) in
        exists w,
          get (g_fun g ((counter seed + (r * ceil_div (dd_major D) L + c / L)) mod 2 ^ g_bits g) (key seed)) (c mod L) = Some w /\
          mat lay (min_ld lay n_rows n_cols) 0 buff' i j =
            Some (match dd_family D with Gaussian => cast w | Uniform => env_scal3 env (cast w) end).
Proof.
  intros K W T cast env sched lay D n_rows n_cols ro co buff seed Hs Hwf HD Hsz H1 H2 H3 H4 H5 H6 Hb.
  destruct (fill_dense_unpacked_spec cast env sched lay D n_rows n_cols ro co buff seed) as [b' [E [_ [G _]]]]; auto.
  exists b', (window_state env D n_rows n_cols ro co seed). split; [exact E|].
  intros i j Hi Hj g L. specialize (G i j Hi Hj).
  destruct (dense_entry_Some cast env D seed (ro + i) (co + j) Hwf HD) as [v Hv]. rewrite Hv in G.
  unfold dense_entry, entry_block in Hv. fold g in Hv. fold L in Hv.
  destruct (major_pos (dd_layout D) (ro + i) (co + j)) as [r c].
  destruct (get _ (c mod L)) as [w|] eqn:Ew; [|discriminate].
  exists w. split; [reflexivity|]. rewrite G. cbn [option_map] in Hv. rewrite <- Hv.
  unfold family_map. destruct (dd_family D); reflexivity.
Qed.
Print Assumptions C02_dense_entry_closed_form.

(** The same operator (5 x 7, Uniform): entry (1,4) uses block 10+1*2+4/4 = 13, lane 0. *)
Example C02_case : dense_entry (fun x => x) toy_env D57 (mk_state 10 1) 1 4 = Some (3 * (4 * 13 + 0 + 1000 * 1)).
Proof. reflexivity. Qed.

(* ------------------------------------------------------------------ *)
(** * C03.  [mk_wt true a b] is an a x b distribution, [mk_wt false a b] a b x a one;
    [skop_mat_wt wide S i j] is entry (i,j) of S, or of its transpose when tall. *)
Theorem C03_dense_long_concatenation :
  forall {K W T} (cast : W -> T) (env : dense_env K W T) s1 s2 s3 wide d1 d2 m fam D1 D2 D (seed : rng_state K) S1 S2 S,
    valid_schedule s1 -> valid_schedule s2 -> valid_schedule s3 -> wf_env env ->
    d1 + d2 < m ->
    mk_wt wide d1 m fam Long = Ok D1 -> mk_wt wide d2 m fam Long = Ok D2 -> mk_wt wide (d1 + d2) m fam Long = Ok D ->
    size_ok D (g_len (env_gen env fam)) ->
    mk_dense_skop env D1 seed = Ok S1 -> mk_dense_skop env D2 (ds_next S1) = Ok S2 -> mk_dense_skop env D seed = Ok S ->
    exists S1' S2' S',
      fill_dense_skop cast env s1 S1 = Ok S1' /\ fill_dense_skop cast env s2 S2 = Ok S2' /\
      fill_dense_skop cast env s3 S = Ok S' /\ ds_next S2 = ds_next S /\
      forall j, 0 <= j < m ->
        (forall i, 0 <= i < d1 -> exists v, skop_mat_wt wide S1' i j = Some v /\ skop_mat_wt wide S' i j = Some v) /\
        (forall i, 0 <= i < d2 -> exists v, skop_mat_wt wide S2' i j = Some v /\ skop_mat_wt wide S' (d1 + i) j = Some v).
Proof. intros K W T. exact concat_long. Qed.
Print Assumptions C03_dense_long_concatenation.

Definition run_skop (wide : bool) d m fam ax (seed : rng_state Z) : outcome (dense_skop Z Z) :=
  D <- mk_wt wide d m fam ax ;;
  S <- mk_dense_skop toy_env D seed ;;
  fill_dense_skop (fun x => x) toy_env seq_schedule S.
Definition buff_of (o : outcome (dense_skop Z Z)) := match o with Ok s => ds_buff s | _ => None end.
Definition next_of (o : outcome (dense_skop Z Z)) := match o with Ok s => ds_next s | _ => mk_state (-1) (-1) end.
(** 1 x 5 and 2 x 5 operators stack to the 3 x 5 operator. *)
Example C03_case :
  let S1 := run_skop true 1 5 Gaussian Long (mk_state 7 2) in
  let S2 := run_skop true 2 5 Gaussian Long (next_of S1) in
  let S := run_skop true 3 5 Gaussian Long (mk_state 7 2) in
  exists b1 b2, buff_of S1 = Some b1 /\ buff_of S2 = Some b2 /\ buff_of S = Some (b1 ++ b2) /\ next_of S2 = next_of S /\
    b1 = [2028; 2029; 2030; 2031; 2032].
Proof. vm_compute. do 2 eexists. repeat split. Qed.

(** The side condition d1+d2 < m of the documentation cannot be weakened to d1+d2 <= m:
    the square operator is filled by columns. *)
Theorem C03_dense_long_concatenation_square_refuted :
  let S1 := run_skop true 1 3 Gaussian Long (mk_state 7 2) in
  let S2 := run_skop true 2 3 Gaussian Long (next_of S1) in
  let S := run_skop true 3 3 Gaussian Long (mk_state 7 2) in
  exists S1' S2' S', S1 = Ok S1' /\ S2 = Ok S2' /\ S = Ok S' /\ skop_mat S1' 0 1 <> skop_mat S' 0 1.
Proof. vm_compute. do 3 eexists. split; [reflexivity|]. split; [reflexivity|]. split; [reflexivity|]. discriminate. Qed.
Print Assumptions C03_dense_long_concatenation_square_refuted.

(* ------------------------------------------------------------------ *)
(** * C04 *)
Theorem C04_dense_short_prefix :
  forall {K W T} (cast : W -> T) (env : dense_env K W T) s1 s2 wide d m k fam D1 D (seed : rng_state K) S1 S,
    valid_schedule s1 -> valid_schedule s2 -> wf_env env ->
    d < m -> 0 <= k ->
    mk_wt wide d m fam Short = Ok D1 -> mk_wt wide d (m + k) fam Short = Ok D ->
    size_ok D (g_len (env_gen env fam)) ->
    mk_dense_skop env D1 seed = Ok S1 -> mk_dense_skop env D seed = Ok S ->
    exists S1' S',
      fill_dense_skop cast env s1 S1 = Ok S1' /\ fill_dense_skop cast env s2 S = Ok S' /\
      forall i j, 0 <= i < d -> 0 <= j < m ->
        exists v, skop_mat_wt wide S1' i j = Some v /\ skop_mat_wt wide S' i j = Some v.
Proof. intros K W T. exact prefix_short. Qed.
Print Assumptions C04_dense_short_prefix.

Example C04_case :
  exists b1 b2, buff_of (run_skop true 2 3 Uniform Short (mk_state 7 2)) = Some b1 /\
    buff_of (run_skop true 2 5 Uniform Short (mk_state 7 2)) = Some (b1 ++ b2) /\ length b1 = 6%nat.
Proof. vm_compute. do 2 eexists. repeat split. Qed.

(* ------------------------------------------------------------------ *)
(** * C05: the whole outcome is the same for any two interleavings of the row tasks. *)
Theorem C05_dense_fill_schedule_independent :
  forall {K W T} (cast : W -> T) (env : dense_env K W T) s1 s2 lay D n_rows n_cols ro co
         (buff : list T) (seed : rng_state K),
    valid_schedule s1 -> valid_schedule s2 -> wf_env env -> valid_dist D ->
    size_ok D (g_len (env_gen env (dd_family D))) ->
    1 <= n_rows -> 1 <= n_cols -> 0 <= ro -> 0 <= co ->
    ro + n_rows <= dd_rows D -> co + n_cols <= dd_cols D ->
    n_rows * n_cols <= zlen buff ->
    exists r,
      fill_dense_unpacked cast env s1 lay D n_rows n_cols ro co buff seed = Ok r /\
      fill_dense_unpacked cast env s2 lay D n_rows n_cols ro co buff seed = Ok r.
Proof.
  intros K W T cast env s1 s2 lay D n_rows n_cols ro co buff seed Hs1 Hs2 Hwf HD Hsz H1 H2 H3 H4 H5 H6 Hb.
  destruct (fill_dense_unpacked_spec cast env s1 lay D n_rows n_cols ro co buff seed) as [b1 [E1 [L1 [G1 N1]]]]; auto.
  destruct (fill_dense_unpacked_spec cast env s2 lay D n_rows n_cols ro co buff seed) as [b2 [E2 [L2 [G2 N2]]]]; auto.
  exists (b1, window_state env D n_rows n_cols ro co seed). split; [exact E1|]. rewrite E2. f_equal. f_equal.
  apply list_ext_get; [congruence|]. intros p Hp.
  destruct (Z.lt_ge_cases p (n_rows * n_cols)) as [Hlt|Hge].
  - destruct (addr_surj lay n_rows n_cols p) as [i [j [Hi [Hj ->]]]]; [lia|lia|lia|].
    specialize (G1 i j Hi Hj). specialize (G2 i j Hi Hj). unfold mat in G1, G2. cbn [Z.add] in G1, G2. congruence.
  - rewrite N1, N2 by lia. reflexivity.
Qed.
Print Assumptions C05_dense_fill_schedule_independent.

Example C05_case :
  valid_schedule (@seq_schedule Z) /\ valid_schedule (@rev_schedule Z) /\
  seq_schedule [[(0, 1); (1, 2)]; [(2, 3)]] <> rev_schedule [[(0, 1); (1, 2)]; [(2, 3)]] /\
  fill_dense_unpacked (fun x => x) toy_env seq_schedule RowMajor D57 2 3 1 4 (repeat 0 6) (mk_state 10 1) =
  fill_dense_unpacked (fun x => x) toy_env rev_schedule RowMajor D57 2 3 1 4 (repeat 0 6) (mk_state 10 1).
Proof.
  split; [apply seq_schedule_valid|]. split; [apply rev_schedule_valid|].
  split; [discriminate|vm_compute; reflexivity].
Qed.

(* ------------------------------------------------------------------ *)
(** * C06: [Ok] means that no access left the buffer.  With an exactly sized buffer
    of unspecified contents every element is overwritten (it equals a value that does not
    depend on the old contents), and a longer buffer keeps its tail. *)
Theorem C06_dense_fill_footprint :
  forall {K W T} (cast : W -> T) (env : dense_env K W T) sched lay D n_rows n_cols ro co (seed : rng_state K),
    valid_schedule sched -> wf_env env -> valid_dist D ->
    size_ok D (g_len (env_gen env (dd_family D))) ->
    1 <= n_rows -> 1 <= n_cols -> 0 <= ro -> 0 <= co ->
    ro + n_rows <= dd_rows D -> co + n_cols <= dd_cols D ->
    exists out st, zlen out = n_rows * n_cols /\
      forall buff tail : list T, zlen buff = n_rows * n_cols ->
        fill_dense_unpacked cast env sched lay D n_rows n_cols ro co (buff ++ tail) seed = Ok (out ++ tail, st).
Proof.
  intros K W T cast env sched lay D n_rows n_cols ro co seed Hs Hwf HD Hsz H1 H2 H3 H4 H5 H6.
  assert (1 <= n_rows * n_cols) as Hmn by (clear - H1 H2; nia).
  destruct (fill_dense_unpacked_spec cast env sched lay D n_rows n_cols ro co
     (repeat (env_junk env) (Z.to_nat (n_rows * n_cols))) seed) as [b0 [E0 [L0 [G0 N0]]]]; auto.
  { rewrite zlen_repeat; lia. }
  rewrite zlen_repeat in L0.
  exists b0, (window_state env D n_rows n_cols ro co seed). split; [lia|].
  intros buff tail Hb.
  destruct (fill_dense_unpacked_spec cast env sched lay D n_rows n_cols ro co (buff ++ tail) seed) as [b1 [E1 [L1 [G1 N1]]]]; auto.
  { rewrite zlen_app. pose proof (zlen_nonneg tail). lia. }
  rewrite E1. f_equal. f_equal. rewrite zlen_app in L1.
  apply list_ext_get; [rewrite zlen_app; lia|]. intros p Hp.
  destruct (Z.lt_ge_cases p (n_rows * n_cols)) as [Hlt|Hge].
  - rewrite get_app_l by lia.
    destruct (addr_surj lay n_rows n_cols p) as [i [j [Hi [Hj ->]]]]; [lia|lia|lia|].
    specialize (G1 i j Hi Hj). specialize (G0 i j Hi Hj). unfold mat in G1, G0. cbn [Z.add] in G1, G0. congruence.
  - rewrite N1 by lia. rewrite !get_app_r by lia. f_equal. lia.
Qed.
Print Assumptions C06_dense_fill_footprint.

(** With an explicit row stride [lda] (fill_dense_submat_impl). *)
Theorem C06_dense_fill_strided_footprint :
  forall {K W T} (cast : W -> T) sched (g : generator K W) n_cols (smat : list T) m n ptr (seed : rng_state K) lda,
    valid_schedule sched -> wf_generator g ->
    0 < n_cols -> 1 <= n <= n_cols -> 0 <= m -> 0 <= ptr -> 0 < lda -> n <= lda ->
    (m = 0 \/ (m - 1) * lda + n <= zlen smat) ->
    (ptr / n_cols + m - 1) * (ceil_div n_cols (g_len g) * g_len g) + ptr mod n_cols + n < 2 ^ 63 ->
    n_cols / g_len g <= int_max ->
    exists smat' st,
      fill_dense_submat_impl cast sched g n_cols smat m n ptr seed lda = Ok (smat', st) /\
      zlen smat' = zlen smat /\
      (forall r c, 0 <= r < m -> 0 <= c < n -> exists w blk lane,
         get (g_fun g blk (key seed)) lane = Some w /\ get smat' (r * lda + c) = Some (cast w)) /\
      (forall p, (forall r c, 0 <= r < m -> 0 <= c < n -> p <> r * lda + c) -> get smat' p = get smat p).
Proof.
  intros K W T cast sched g n_cols smat m n ptr seed lda Hs Hwf H1 H2 H3 H4 H5 H6 Hb Hf Hi.
  destruct (submat_impl_spec cast sched g n_cols smat m n ptr seed lda) as [s' [E [L [G N]]]]; auto; try lia.
  { replace (lda <=? 0) with false by lia. exact Hb. }
  replace (lda <=? 0) with false in G, N by lia.
  eexists s', _. split; [exact E|]. split; [exact L|]. split; [|exact N].
  intros r c Hr Hc. specialize (G r c Hr Hc). destruct Hwf as [WL WB WF].
  destruct (get_lt s' (r * lda + c)) as [x Hx].
  { rewrite L. clear - Hb Hr Hc H6 H2. nia. }
  rewrite Hx in G. destruct (get (g_fun g _ _) _) as [w|] eqn:Ew; [|discriminate]. cbn [option_map] in G.
  injection G as ->. do 3 eexists. split; [exact Ew|exact Hx].
Qed.
Print Assumptions C06_dense_fill_strided_footprint.

Example C06_case :
  exists st,
  fill_dense_submat_impl (fun x => x) rev_schedule toy_gen 7 (repeat (-5) 10) 2 3 11 (mk_state 10 1) 6
  = Ok ([1052; 1053; 1054; -5; -5; -5; 1060; 1061; 1062; -5], st).
Proof. vm_compute. eexists. reflexivity. Qed.

(* ------------------------------------------------------------------ *)
(** * C07 *)
Theorem C07_dense_next_state_is_fill_state :
  forall {K W T} (cast : W -> T) (env : dense_env K W T) sched D (seed : rng_state K) S (buff : list T),
    valid_schedule sched -> wf_env env -> valid_dist D ->
    size_ok D (g_len (env_gen env (dd_family D))) ->
    mk_dense_skop env D seed = Ok S ->
    dd_rows D * dd_cols D <= zlen buff ->
    exists buff', fill_dense cast env sched (ds_dist S) buff (ds_seed S) = Ok (buff', ds_next S).
Proof. intros K W T. exact skop_next_is_fill. Qed.
Print Assumptions C07_dense_next_state_is_fill_state.

(** next_state is the seed advanced by the number of blocks of the operator. *)
Theorem C07_dense_next_state_value :
  forall {K W T} (env : dense_env K W T) D (seed : rng_state K) S,
    wf_env env -> valid_dist D -> size_ok D (g_len (env_gen env (dd_family D))) ->
    mk_dense_skop env D seed = Ok S ->
    let g := env_gen env (dd_family D) in
    ds_next S = mk_state ((counter seed + dd_minor D * ceil_div (dd_major D) (g_len g)) mod 2 ^ g_bits g) (key seed).
Proof.
  intros K W T env D seed S H1 H2 H3 H4 g.
  destruct (next_counter env D seed S H1 H2 H3 H4) as [q [-> ->]]. reflexivity.
Qed.
Print Assumptions C07_dense_next_state_value.

(** Only generator blocks with offset in [0, dim_minor*ceil(dim_major/L)) influence a
    window: replacing the generator outside these counters changes nothing. *)
Theorem C07_dense_window_reads_only_blocks_before_next_state :
  forall {K W T} (cast : W -> T) (env env' : dense_env K W T) sched sched' lay D n_rows n_cols ro co
         (buff : list T) (seed : rng_state K),
    valid_schedule sched -> valid_schedule sched' -> wf_env env -> wf_env env' -> valid_dist D ->
    let g := env_gen env (dd_family D) in
    let g' := env_gen env' (dd_family D) in
    size_ok D (g_len g) ->
    1 <= n_rows -> 1 <= n_cols -> 0 <= ro -> 0 <= co ->
    ro + n_rows <= dd_rows D -> co + n_cols <= dd_cols D ->
    zlen buff = n_rows * n_cols ->
    g_len g' = g_len g -> g_bits g' = g_bits g ->
    (forall x, env_scal3 env' x = env_scal3 env x) ->
    (forall o, 0 <= o < dd_minor D * ceil_div (dd_major D) (g_len g) ->
       g_fun g' ((counter seed + o) mod 2 ^ g_bits g) (key seed) = g_fun g ((counter seed + o) mod 2 ^ g_bits g) (key seed)) ->
    fill_dense_unpacked cast env' sched' lay D n_rows n_cols ro co buff seed =
    fill_dense_unpacked cast env sched lay D n_rows n_cols ro co buff seed.
Proof. intros K W T. exact window_blocks_only. Qed.
Print Assumptions C07_dense_window_reads_only_blocks_before_next_state.

Example C07_case :
  exists S, mk_dense_skop toy_env D57 (mk_state 10 1) = Ok S /\ ds_next S = mk_state 20 1.
Proof. vm_compute. eexists. split; reflexivity. Qed.

(* ------------------------------------------------------------------ *)
(** * C08: with C02, entry (i,j) is produced from
    ((counter + fst (entry_block i j)) mod 2^bits, snd (entry_block i j)). *)
Theorem C08_dense_distinct_entries_use_distinct_words :
  forall {K W T} (env : dense_env K W T) D (seed : rng_state K) i j i' j',
    wf_env env -> valid_dist D ->
    let g := env_gen env (dd_family D) in
    dd_minor D * ceil_div (dd_major D) (g_len g) <= 2 ^ g_bits g ->
    0 <= i < dd_rows D -> 0 <= j < dd_cols D -> 0 <= i' < dd_rows D -> 0 <= j' < dd_cols D ->
    (i, j) <> (i', j') ->
    ((counter seed + fst (entry_block D (g_len g) i j)) mod 2 ^ g_bits g, snd (entry_block D (g_len g) i j)) <>
    ((counter seed + fst (entry_block D (g_len g) i' j')) mod 2 ^ g_bits g, snd (entry_block D (g_len g) i' j')).
Proof. intros K W T. exact distinct_words. Qed.
Print Assumptions C08_dense_distinct_entries_use_distinct_words.

Example C08_case : entry_block D57 4 0 6 = (1, 2) /\ entry_block D57 4 1 0 = (2, 0) /\ entry_block D57 4 4 6 = (9, 2).
Proof. repeat split. Qed.

(* ------------------------------------------------------------------ *)
(** * C09 *)
Theorem C09_dense_dist_fields_partial :
  forall n_rows n_cols fam ax,
    (Z.min n_rows n_cols <= 0 -> mk_dense_dist n_rows n_cols fam ax = Throw) /\
    (0 < Z.min n_rows n_cols -> exists D,
       mk_dense_dist n_rows n_cols fam ax = Ok D /\
       dd_rows D = n_rows /\ dd_cols D = n_cols /\ dd_axis D = ax /\ dd_family D = fam /\
       dd_major D = (match ax with Short => Z.min n_rows n_cols | Long => Z.max n_rows n_cols end) /\
       dd_minor D = n_rows + n_cols - dd_major D /\
       dd_major D * dd_minor D = n_rows * n_cols /\
       dd_major D = min_ld (dd_layout D) n_rows n_cols /\
       (* the documented table, for non-square shapes *)
       (n_rows <> n_cols ->
          dd_layout D = match ax, (n_rows >? n_cols) with
                        | Long, true => ColMajor | Short, true => RowMajor
                        | Long, false => RowMajor | Short, false => ColMajor end) /\
       (* isometry_scale^-2 is min(n_rows,n_cols) when the axis is Long *)
       (ax = Long -> dd_iso_inv2 D = Z.min n_rows n_cols)).
Proof.
  intros n_rows n_cols fam ax. split.
  - intros H. unfold mk_dense_dist. destruct (Z.gtb_spec n_rows 0); [|reflexivity]. cbn [require bind].
    destruct (Z.gtb_spec n_cols 0); [lia|reflexivity].
  - intros H. destruct (mk_dense_dist_Ok n_rows n_cols fam ax) as [D HD]; [lia|lia|].
    exists D. split; [exact HD|].
    destruct (mk_dense_dist_inv _ _ _ _ _ HD) as [_ [_ [Er [Ec [Ea [Ef [El [Ema Emi]]]]]]]].
    assert (dd_major D = match ax with Short => Z.min n_rows n_cols | Long => Z.max n_rows n_cols end /\
            dd_iso_inv2 D = dd_minor D /\ dd_minor D = n_rows + n_cols - dd_major D) as [M [I N]].
    { unfold mk_dense_dist in HD. apply bind_Ok in HD as [_ [_ HD]]. apply bind_Ok in HD as [_ [_ HD]].
      injection HD as <-. cbn. destruct ax; repeat split; lia. }
    repeat split; auto.
    + rewrite N, M. clear. destruct ax.
      * destruct (Z.min_spec n_rows n_cols) as [[_ ->]|[_ ->]]; ring.
      * destruct (Z.max_spec n_rows n_cols) as [[_ ->]|[_ ->]]; ring.
    + intros Hne. rewrite El. unfold natural_layout.
      destruct (Z.ltb_spec n_rows n_cols), (Z.gtb_spec n_rows n_cols); try lia; destruct ax; reflexivity.
    + intros ->. rewrite I, N, M. lia.
Qed.
Print Assumptions C09_dense_dist_fields_partial.

Example C09_case : exists D, mk_dense_dist 5 7 Uniform Long = Ok D /\ D = D57.
Proof. eexists; split; reflexivity. Qed.

(** Missing from the partial theorem because false of the code: the table for square
    shapes, and the isometry scale with Axis::Short. *)
Theorem C09_square_natural_layout_refuted :
  exists n fam D, mk_dense_dist n n fam Long = Ok D /\
    (* documented: n_rows <= n_cols, Long => row major *)
    dd_layout D = ColMajor.
Proof. exists 3, Gaussian. eexists. split; reflexivity. Qed.
Print Assumptions C09_square_natural_layout_refuted.

(** Entries are iid with mean 0 and variance 1, so E[S^T S] = n_rows * I; for a wide
    operator isometry_scale^-2 should be n_rows. *)
Theorem C09_short_isometry_scale_refuted :
  exists n_rows n_cols fam D, n_rows < n_cols /\ mk_dense_dist n_rows n_cols fam Short = Ok D /\
    dd_iso_inv2 D <> n_rows.
Proof. exists 2, 5, Gaussian. eexists. split; [lia|]. split; [reflexivity|]. discriminate. Qed.
Print Assumptions C09_short_isometry_scale_refuted.

(* ------------------------------------------------------------------ *)
(** * C10.  The exception is raised for every buffer, in particular for the empty one,
    whose elements cannot be accessed without undefined behaviour: nothing is read or
    written before the exception. *)
Theorem C10_dense_out_of_range_window_rejected_partial :
  forall {K W T} (cast : W -> T) (env : dense_env K W T) sched lay D n_rows n_cols ro co (seed : rng_state K),
    dd_rows D < ro + n_rows \/ dd_cols D < co + n_cols ->
    forall buff : list T,
      fill_dense_unpacked cast env sched lay D n_rows n_cols ro co buff seed = Throw.
Proof.
  intros K W T cast env sched lay D n_rows n_cols ro co seed H buff. unfold fill_dense_unpacked.
  destruct (Z.geb_spec (dd_rows D) (n_rows + ro)); [|reflexivity]. cbn [require bind].
  destruct (Z.geb_spec (dd_cols D) (n_cols + co)); [lia|reflexivity].
Qed.
Print Assumptions C10_dense_out_of_range_window_rejected_partial.

Theorem C10_dense_blackbox_out_of_range_rejected_partial :
  forall {K W T} (cast : W -> T) (env : dense_env K W T) sched (S : dense_skop K T) n_rows n_cols ro co,
    dd_rows (ds_dist S) < ro + n_rows \/ dd_cols (ds_dist S) < co + n_cols ->
    submatrix_as_blackbox cast env sched S n_rows n_cols ro co = Throw.
Proof.
  intros K W T cast env sched S n_rows n_cols ro co H. unfold submatrix_as_blackbox.
  destruct (Z.leb_spec (ro + n_rows) (dd_rows (ds_dist S))); [|reflexivity]. cbn [require bind].
  destruct (Z.leb_spec (co + n_cols) (dd_cols (ds_dist S))); [lia|reflexivity].
Qed.
Print Assumptions C10_dense_blackbox_out_of_range_rejected_partial.

Theorem C10_dense_in_range_window_accepted :
  forall {K W T} (cast : W -> T) (env : dense_env K W T) sched lay D n_rows n_cols ro co (buff : list T) (seed : rng_state K),
    valid_schedule sched -> wf_env env -> valid_dist D ->
    size_ok D (g_len (env_gen env (dd_family D))) ->
    1 <= n_rows -> 1 <= n_cols -> 0 <= ro -> 0 <= co ->
    ro + n_rows <= dd_rows D -> co + n_cols <= dd_cols D ->
    n_rows * n_cols <= zlen buff ->
    exists r, fill_dense_unpacked cast env sched lay D n_rows n_cols ro co buff seed = Ok r.
Proof.
  intros. destruct (fill_dense_unpacked_spec cast env sched lay D n_rows n_cols ro co buff seed) as [b [E _]]; auto.
  eexists; exact E.
Qed.
Print Assumptions C10_dense_in_range_window_accepted.

Example C10_case :
  fill_dense_unpacked (fun x => x) toy_env seq_schedule RowMajor D57 2 3 4 4 (repeat 0 6) (mk_state 10 1) = Throw.
Proof. reflexivity. Qed.

(** Missing: windows with negative offsets and empty windows are not rejected.  A window
    one row above the operator reads a random block at a negative lane. *)
Theorem C10_negative_offset_refuted :
  exists D n_rows n_cols ro co, valid_dist D /\ ro < 0 /\
    fill_dense_unpacked (fun x => x) toy_env seq_schedule (dd_layout D) D n_rows n_cols ro co (repeat 0 6) (mk_state 10 1) = UB.
Proof.
  exists D57, 1, 3, (-1), 1. split; [exists 5, 7, Uniform, Long; reflexivity|]. split; [lia|]. vm_compute. reflexivity.
Qed.
Print Assumptions C10_negative_offset_refuted.

(** An in-range window with no columns writes out of bounds (two RNG blocks per row). *)
Theorem C10_empty_window_refuted :
  exists D ro co, valid_dist D /\ 0 <= ro /\ 0 <= co /\ ro + 2 <= dd_rows D /\ co + 0 <= dd_cols D /\
    fill_dense_unpacked (fun x => x) toy_env seq_schedule (dd_layout D) D 2 0 ro co [] (mk_state 10 1) = UB.
Proof.
  exists D57, 0, 4. split; [exists 5, 7, Uniform, Long; reflexivity|]. repeat split; cbn; try lia. 
Qed.
Print Assumptions C10_empty_window_refuted.
