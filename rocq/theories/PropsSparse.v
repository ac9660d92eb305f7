(** Final theorems about sparse operators (C16-C19) and index samplers (C23).

    Hypotheses used throughout:
    - [wf_senv env]: RNG blocks have the same even length >= 2, sint_t has 2..64 bits,
      sqrt(1)*v = v, and the hash map iterates over its keys in some order; otherwise
      the generator, the draw and the order are arbitrary;
    - [valid_sdist D]: D was returned by the constructor of SparseDist;
    - [sparse_size_ok env D]: n_rows, n_cols and full_nnz are representable in sint_t;
    - [seed_ok env seed]: the counter is a number of g_bits bits. *)
From Verif Require Import Base Spec RngModel DenseModel DenseSpec DenseProofs SparseSkopModel FySpec FyProofs
  SamplerProofs SparseSpec LasoProofs SparseProofs SparseProofs2.
From Coq Require Import Permutation.

(* ------------------------------------------------------------------ *)
(** * A concrete environment *)
Definition toy_senv : sparse_env Z Z Z :=
  {| se_raw := toy_gen; se_unif := toy_gen; se_sb := 32;
     se_draw := fun n u => u mod n; se_nonneg := fun u => Z.even (u / 4);
     se_one := 1; se_mone := -1;
     se_sqrtmul := fun c v => if c =? 1 then v else 100 * c * v;   (* marks merged entries *)
     se_order := fun _ l => rev l |}.
Lemma toy_senv_wf : wf_senv toy_senv.
Proof.
  split; cbn; try lia; try reflexivity.
  - split; cbn; [lia|lia|reflexivity].
  - split; cbn; [lia|lia|reflexivity].
  - intros _ l. apply Permutation_rev.
Qed.

Definition the_dist (n_rows n_cols k : Z) (a : axis) : sparse_dist :=
  match mk_sparse_dist n_rows n_cols k a with
  | Ok D => D
  | _ => {| sd_rows := 0; sd_cols := 0; sd_axis := a; sd_major := 0; sd_minor := 0; sd_iso2 := (0, 0);
            sd_vec_nnz := 0; sd_full_nnz := 0 |}
  end.

(* ------------------------------------------------------------------ *)
(** * C16 *)
Lemma filter_all {A} (P : A -> bool) l : (forall x, In x l -> P x = true) -> filter P l = l.
Proof. induction l as [|x l IH]; intros H; cbn; [reflexivity|]. rewrite (H x (or_introl eq_refl)). f_equal. apply IH. intros y Hy. apply H. now right. Qed.
Lemma filter_none {A} (P : A -> bool) l : (forall x, In x l -> P x = false) -> filter P l = [].
Proof. induction l as [|x l IH]; intros H; cbn; [reflexivity|]. rewrite (H x (or_introl eq_refl)). apply IH. intros y Hy. apply H. now right. Qed.

(** Positions p < n where the array holds i. *)
Definition occurrences (n : Z) (a : list Z) (i : Z) : Z :=
  zlen (filter (fun p => match get a p with Some x => x =? i | None => false end) (range 0 n)).

Lemma occurrences_blocks a k m i : 0 <= k -> 0 <= i < m ->
  (forall i j, 0 <= i < m -> 0 <= j < k -> get a (i * k + j) = Some i) -> occurrences (k * m) a i = k.
Proof.
  intros Hk Hi H. unfold occurrences.
  destruct (Z.eq_dec k 0) as [->|Hk0]; [reflexivity|].
  assert (0 <= i * k) as H1 by (apply Z.mul_nonneg_nonneg; lia).
  assert ((i + 1) * k <= m * k) as H2 by (apply Z.mul_le_mono_nonneg_r; lia).
  rewrite (range_split 0 (i * k) (k * m)) by lia. rewrite (range_split (i * k) ((i + 1) * k) (k * m)) by lia.
  rewrite !filter_app, !zlen_app.
  assert (forall p, 0 <= p < k * m -> p / k <> i -> (match get a p with Some x => x =? i | None => false end) = false) as Hn.
  { intros p Hp Hne. assert (0 < k) by lia.
    pose proof (Z.div_mod p k ltac:(lia)). pose proof (Z.mod_pos_bound p k ltac:(lia)).
    replace p with (p / k * k + p mod k) by lia. rewrite H; [lia| |lia].
    split; [apply Z.div_pos; lia|apply Z.div_lt_upper_bound; lia]. }
  rewrite filter_none, filter_all, filter_none.
  - rewrite zlen_range by lia. cbn. lia.
  - intros p Hp. apply in_range in Hp. apply Hn; [lia|]. intros E.
    assert (0 < k) by lia. pose proof (Z.mod_pos_bound p k ltac:(lia)). pose proof (Z.div_mod p k ltac:(lia)). rewrite E in *. lia.
  - intros p Hp. apply in_range in Hp. replace p with (i * k + (p - i * k)) by lia. rewrite H by lia. apply Z.eqb_refl.
  - intros p Hp. apply in_range in Hp. apply Hn; [lia|]. intros E.
    assert (0 < k) by lia. pose proof (Z.mod_pos_bound p k ltac:(lia)). pose proof (Z.div_mod p k ltac:(lia)). rewrite E in *. lia.
Qed.

Theorem C16_short_axis_structure :
  forall {K F T} (env : sparse_env K F T) D seed jT jZ (S : sparse_skop K T),
    wf_senv env -> valid_sdist D -> sparse_size_ok env D -> sd_axis D = Short ->
    ss_dist S = D -> ss_seed S = seed -> buffers_ok S ->
    exists S' rows cols vals,
      fill_sparse env jT jZ S = Ok S' /\
      ss_rows S' = Some rows /\ ss_cols S' = Some cols /\ ss_vals S' = Some vals /\
      ss_nnz S' = sd_vec_nnz D * Z.max (sd_rows D) (sd_cols D) /\
      (* indices in range, values +1 or -1 *)
      (forall p, 0 <= p < ss_nnz S' -> exists r c v,
         get rows p = Some r /\ get cols p = Some c /\ get vals p = Some v /\
         0 <= r < sd_rows D /\ 0 <= c < sd_cols D /\ (v = se_one env \/ v = se_mone env)) /\
      (* positions pairwise distinct *)
      (forall p q, 0 <= p < ss_nnz S' -> 0 <= q < ss_nnz S' ->
         get rows p = get rows q -> get cols p = get cols q -> p = q) /\
      (* every short-axis vector has vec_nnz nonzeros *)
      (forall i, 0 <= i < Z.max (sd_rows D) (sd_cols D) ->
         occurrences (ss_nnz S') (if sd_rows D <=? sd_cols D then cols else rows) i = sd_vec_nnz D).
Proof.
  intros K F T env D seed jT jZ S Henv HD Hsz Hax ED Es (B1 & B2 & B3).
  destruct (valid_sdist_inv D HD) as (P1 & P2 & P3 & P4 & P5 & P6). rewrite Hax in P5, P6.
  unfold fill_sparse.
  destruct (alloc_ok _ _ jZ _ B1) as [rows0 [-> Lr]].
  destruct (alloc_ok _ _ jZ _ B2) as [cols0 [-> Lc]].
  destruct (alloc_ok _ _ jT _ B3) as [vals0 [-> Lv]]. rewrite ED in *.
  destruct (short_spec env Henv D (ss_seed S) vals0 rows0 cols0 HD Hsz Hax Lv Lr Lc)
    as (vals & rows & cols & E & L1 & L2 & L3 & Fr & G).
  rewrite E. cbn [bind]. do 4 eexists. split; [reflexivity|].
  cbn [ss_rows ss_cols ss_vals ss_nnz]. repeat (split; [reflexivity|]).
  rewrite <- P6. split; [exact P4|]. set (k := sd_vec_nnz D) in *. set (seed' := ss_seed S) in *.
  assert (forall p, 0 <= p < sd_full_nnz D -> exists i j, p = i * k + j /\ 0 <= i < sd_minor D /\ 0 <= j < k) as Hdec.
  { intros p Hp. exists (p / k), (p mod k). pose proof (Z.div_mod p k ltac:(lia)). pose proof (Z.mod_pos_bound p k ltac:(lia)).
    split; [lia|]. split; [|lia]. split; [apply Z.div_pos; lia|apply Z.div_lt_upper_bound; lia]. }
  assert (forall i j, 0 <= i < sd_minor D -> 0 <= j < k -> exists s, get (short_sample env D seed' i) j = Some s /\ 0 <= s < sd_major D) as Hsm.
  { intros i j Hi Hj. destruct (short_sample_facts env D seed' i HD) as (Ls & _ & Hin). fold k in Ls.
    destruct (get_lt (short_sample env D seed' i) j ltac:(lia)) as [s Hs]. exists s. split; [exact Hs|].
    apply Hin. eapply get_Some_In. exact Hs. }
  split; [|split].
  - intros p Hp. destruct (Hdec p Hp) as (i & j & -> & Hi & Hj). destruct (G i j Hi Hj) as [Gv Gi].
    destruct (Hsm i j Hi Hj) as [s [Hs Hr]].
    assert (short_sign env D seed' i j = se_one env \/ short_sign env D seed' i j = se_mone env) as Hv.
    { unfold short_sign. destruct (_ =? 0); auto. }
    destruct (Z.leb_spec (sd_rows D) (sd_cols D)); destruct Gi as [G1 G2]; rewrite Hs in G2.
    + exists s, i, (short_sign env D seed' i j). rewrite G1, G2, Gv. repeat split; auto; lia.
    + exists i, s, (short_sign env D seed' i j). rewrite G1, G2, Gv. repeat split; auto; lia.
  - intros p q Hp Hq. destruct (Hdec p Hp) as (i & j & -> & Hi & Hj). destruct (Hdec q Hq) as (i' & j' & -> & Hi' & Hj').
    destruct (G i j Hi Hj) as [_ Gi]. destruct (G i' j' Hi' Hj') as [_ Gi'].
    destruct (Hsm i j Hi Hj) as [s [Hs _]]. destruct (Hsm i' j' Hi' Hj') as [s' [Hs' _]].
    destruct (sd_rows D <=? sd_cols D); destruct Gi as [G1 G2], Gi' as [G1' G2']; rewrite G1, G2, G1', G2'.
    + intros A1 A2. injection A2 as <-. f_equal.
      destruct (short_sample_facts env D seed' i HD) as (_ & Nd & _).
      apply (get_inj_NoDup _ j j' s Nd Hs). congruence.
    + intros A2 A1. injection A2 as <-. f_equal.
      destruct (short_sample_facts env D seed' i HD) as (_ & Nd & _).
      apply (get_inj_NoDup _ j j' s Nd Hs). congruence.
  - intros i Hi. rewrite P4. apply occurrences_blocks; [lia|exact Hi|].
    intros i' j' Hi' Hj'. destruct (G i' j' Hi' Hj') as [_ Gi].
    destruct (sd_rows D <=? sd_cols D); apply Gi.
Qed.
Print Assumptions C16_short_axis_structure.

(** A tall 4 x 3 operator with 2 nonzeros per row. *)
Example C16_case :
  exists S', fill_sparse toy_senv 7 7 (mk_sparse_skop toy_senv (the_dist 4 3 2 Short) (mk_state 11 2)) = Ok S' /\
    ss_nnz S' = 8 /\ ss_rows S' = Some [0; 0; 1; 1; 2; 2; 3; 3] /\ ss_cols S' = Some [1; 0; 0; 1; 2; 1; 1; 0].
Proof. eexists. vm_compute. repeat split; reflexivity. Qed.
Example C16_case_hyp :
  let D := the_dist 4 3 2 Short in
  valid_sdist D /\ sparse_size_ok toy_senv D /\ buffers_ok (mk_sparse_skop toy_senv D (mk_state 11 2)).
Proof. vm_compute. repeat split; try reflexivity; discriminate. Qed.

(* ------------------------------------------------------------------ *)
(** * C17 *)
Lemma mult_sum x n k : (forall t, 0 <= t < k -> 0 <= x t < n) -> 0 <= k -> 0 <= n ->
  fold_right Z.add 0 (map (mult x k) (range 0 n)) = k.
Proof.
  intros H Hk Hn. revert H. pattern k. apply natlike_ind; [| |exact Hk].
  - intros _. unfold mult. change (range 0 0) with (@nil Z). cbn [filter]. induction (range 0 n); cbn; auto.
  - intros t Ht IH H. unfold Z.succ in *. rewrite <- (IH ltac:(intros; apply H; lia)) at 2.
    rewrite (map_ext _ (fun ell => mult x t ell + if x t =? ell then 1 else 0)).
    2:{ intros ell. apply mult_snoc. exact Ht. }
    specialize (H t ltac:(lia)).
    assert (forall l, fold_right Z.add 0 (map (fun ell => mult x t ell + (if x t =? ell then 1 else 0)) l) =
      fold_right Z.add 0 (map (mult x t) l) + fold_right Z.add 0 (map (fun ell => if x t =? ell then 1 else 0) l)) as Hsplit.
    { induction l as [|y l IHl]; cbn [map fold_right]; [reflexivity|]. rewrite IHl. lia. }
    rewrite Hsplit. f_equal.
    assert (forall l, NoDup l -> fold_right Z.add 0 (map (fun ell => if x t =? ell then 1 else 0) l) = if in_dec Z.eq_dec (x t) l then 1 else 0) as Hone.
    { induction l as [|y l IHl]; intros Nd; cbn [map fold_right]; [reflexivity|].
      inversion Nd; subst. rewrite IHl by assumption.
      destruct (in_dec Z.eq_dec (x t) (y :: l)) as [Hi|Hi], (in_dec Z.eq_dec (x t) l) as [Hj|Hj], (Z.eqb_spec (x t) y) as [Hy|Hy]; try lia.
      - exfalso. match goal with H : ~ In y l |- _ => apply H; rewrite <- Hy; exact Hj end.
      - exfalso. destruct Hi as [Hi|Hi]; [apply Hy; symmetry; exact Hi|contradiction].
      - exfalso. apply Hi. now right.
      - exfalso. apply Hi. now right.
      - exfalso. apply Hi. left. now symmetry. }
    rewrite Hone by apply NoDup_range. destruct (in_dec _ _ _) as [|Hi]; [reflexivity|].
    exfalso. apply Hi. apply in_range. exact H.
Qed.

(** [long_index env D seed i t] and [long_sign env D seed i t] are draw t of vector i
    (SparseSpec: lanes 2(t mod h), 2(t mod h)+1 of block i*ceil(k/h)+t/h).  [merged] keeps,
    for each drawn index, sqrt(multiplicity) times the sign of the first occurrence. *)
Theorem C17_long_axis_structure :
  forall {K F T} (env : sparse_env K F T) D seed jT jZ (S : sparse_skop K T),
    wf_senv env -> valid_sdist D -> sparse_size_ok env D -> sd_axis D = Long -> seed_ok env seed ->
    ss_dist S = D -> ss_seed S = seed -> buffers_ok S ->
    (forall i t, 0 <= i < Z.min (sd_rows D) (sd_cols D) -> 0 <= t < sd_vec_nnz D ->
       0 <= long_index env D seed i t < Z.max (sd_rows D) (sd_cols D)) ->
    exists S' rows cols vals,
      fill_sparse env jT jZ S = Ok S' /\
      ss_rows S' = Some rows /\ ss_cols S' = Some cols /\ ss_vals S' = Some vals /\
      Z.min (sd_rows D) (sd_cols D) <= ss_nnz S' <= sd_vec_nnz D * Z.min (sd_rows D) (sd_cols D) /\
      (* indices in range *)
      (forall p, 0 <= p < ss_nnz S' -> exists r c,
         get rows p = Some r /\ get cols p = Some c /\ 0 <= r < sd_rows D /\ 0 <= c < sd_cols D) /\
      (* at (r,c) there is one triplet if the index was drawn and none otherwise *)
      (forall r c, 0 <= r < sd_rows D -> 0 <= c < sd_cols D ->
         let '(i, ell) := if sd_rows D <=? sd_cols D then (r, c) else (c, r) in
         skop_values S' r c = merged (se_sqrtmul env) (long_index env D seed i) (long_sign env D seed i) (sd_vec_nnz D) ell) /\
      (* multiplicities add up to vec_nnz *)
      (forall i, 0 <= i < Z.min (sd_rows D) (sd_cols D) ->
         fold_right Z.add 0 (map (mult (long_index env D seed i) (sd_vec_nnz D)) (range 0 (Z.max (sd_rows D) (sd_cols D))))
         = sd_vec_nnz D).
Proof.
  intros K F T env D seed jT jZ S Henv HD Hsz Hax Hseed ED Es (B1 & B2 & B3) Hdr.
  destruct (valid_sdist_inv D HD) as (P1 & P2 & P3 & P4 & P5 & P6). rewrite Hax in P5, P6.
  unfold fill_sparse.
  destruct (alloc_ok _ _ jZ _ B1) as [rows0 [-> Lr]].
  destruct (alloc_ok _ _ jZ _ B2) as [cols0 [-> Lc]].
  destruct (alloc_ok _ _ jT _ B3) as [vals0 [-> Lv]]. rewrite ED, Es in *.
  destruct (long_spec env Henv D seed vals0 rows0 cols0 Hseed HD Hax Lv Lr Lc)
    as (nnz & vals & rows & cols & E & L1 & L2 & L3 & Hn & G & Hin).
  rewrite E. cbn [bind]. do 4 eexists. split; [reflexivity|].
  cbn [ss_rows ss_cols ss_vals ss_nnz]. repeat (split; [reflexivity|]).
  rewrite <- P6, <- P5 in *. split; [lia|]. split; [|split].
  - intros p Hp. destruct (Hin p Hp) as (s & t & Hs & Ht & A). specialize (Hdr s t Hs Ht).
    destruct (Z.leb_spec (sd_rows D) (sd_cols D)); destruct A as [A1 A2].
    + exists s, (long_index env D seed s t). repeat split; auto; lia.
    + exists (long_index env D seed s t), s. repeat split; auto; lia.
  - intros r c Hr Hc. unfold skop_values. cbn [ss_rows ss_cols ss_vals ss_nnz]. rewrite G. unfold sparse_entry. rewrite Hax.
    destruct (Z.leb_spec (sd_rows D) (sd_cols D)).
    + replace ((0 <=? r) && (r <? sd_minor D)) with true by lia. reflexivity.
    + replace ((0 <=? c) && (c <? sd_minor D)) with true by lia. reflexivity.
  - intros i Hi. apply mult_sum; [|lia|lia]. intros t Ht. apply Hdr; assumption.
Qed.
Print Assumptions C17_long_axis_structure.

(** A wide 2 x 5 operator with 4 draws per row; in row 0 the draws are 4,3,2,2... *)
Definition dup_senv : sparse_env Z Z Z :=
  {| se_raw := toy_gen; se_unif := toy_gen; se_sb := 32;
     se_draw := fun n u => (u / 4) mod n; se_nonneg := fun u => Z.even (u / 4);
     se_one := 1; se_mone := -1;
     se_sqrtmul := fun c v => if c =? 1 then v else 100 * c * v;
     se_order := fun _ l => rev l |}.
Example C17_case :
  exists S', fill_sparse dup_senv 7 7 (mk_sparse_skop dup_senv (the_dist 2 5 4 Long) (mk_state 11 2)) = Ok S' /\
    ss_nnz S' = 4 /\
    skop_values S' 0 1 = [-200] /\ skop_values S' 0 2 = [200] /\ skop_values S' 1 3 = [-200] /\ skop_values S' 1 4 = [200] /\
    skop_values S' 0 0 = [].
Proof. eexists. vm_compute. repeat split; reflexivity. Qed.
Example C17_case_hyp :
  let D := the_dist 2 5 4 Long in
  valid_sdist D /\ sparse_size_ok dup_senv D /\ seed_ok dup_senv (mk_state 11 2) /\
  buffers_ok (mk_sparse_skop dup_senv D (mk_state 11 2)) /\
  (forall i t, 0 <= i < 2 -> 0 <= t < 4 -> 0 <= long_index dup_senv D (mk_state 11 2) i t < 5).
Proof.
  split; [reflexivity|]. split; [vm_compute; repeat split; discriminate|].
  split; [vm_compute; split; [discriminate|reflexivity]|]. split; [vm_compute; repeat split; reflexivity|].
  intros i t Hi Ht. assert (i = 0 \/ i = 1) as [-> | ->] by lia;
  assert (t = 0 \/ t = 1 \/ t = 2 \/ t = 3) as [-> | [-> | [-> | ->]]] by lia; vm_compute; split; (discriminate || reflexivity).
Qed.

(* ------------------------------------------------------------------ *)
(** * C18 *)
Theorem C18_next_state_is_state_after_sampling :
  forall {K F T} (env : sparse_env K F T) D seed vals rows cols,
    wf_senv env -> valid_sdist D -> sparse_size_ok env D -> seed_ok env seed ->
    sparse_blocks env D < 2 ^ 64 ->
    sd_full_nnz D <= zlen vals -> sd_full_nnz D <= zlen rows -> sd_full_nnz D <= zlen cols ->
    exists nnz vals' rows' cols',
      fill_sparse_unpacked_nosub env D vals rows cols seed =
        Ok (nnz, vals', rows', cols', ss_next (mk_sparse_skop env D seed : sparse_skop K T)).
Proof.
  intros K F T env D seed vals rows cols Henv HD Hsz Hseed Hb Lv Lr Lc.
  destruct (fill_values env Henv D seed vals rows cols Hseed HD Hsz Lv Lr Lc) as (n & v & r & c & E & _).
  exists n, v, r, c. rewrite E. cbn [mk_sparse_skop ss_next]. rewrite next_state_spec by assumption. reflexivity.
Qed.
Print Assumptions C18_next_state_is_state_after_sampling.

(** The sample depends only on the RNG blocks from the seed up to, not including,
    next_state: two environments whose generators agree on those blocks, and are
    arbitrary elsewhere, give the same arrays and state. *)
Theorem C18_sample_depends_only_on_blocks_before_next_state :
  forall {K F T} (env env' : sparse_env K F T) D seed vals rows cols,
    wf_senv env -> wf_senv env' ->
    se_sb env' = se_sb env -> se_draw env' = se_draw env -> se_nonneg env' = se_nonneg env ->
    se_one env' = se_one env -> se_mone env' = se_mone env -> se_sqrtmul env' = se_sqrtmul env ->
    se_order env' = se_order env ->
    g_len (se_raw env') = g_len (se_raw env) -> g_bits (se_raw env') = g_bits (se_raw env) ->
    valid_sdist D -> sparse_size_ok env D -> seed_ok env seed ->
    sd_full_nnz D <= zlen vals -> sd_full_nnz D <= zlen rows -> sd_full_nnz D <= zlen cols ->
    sparse_blocks env D < 2 ^ 64 -> 64 <= g_bits (se_raw env) ->
    forall n, 0 <= n < 2 ^ g_bits (se_raw env) ->
    ss_next (mk_sparse_skop env D seed : sparse_skop K T) = mk_state ((counter seed + n) mod 2 ^ g_bits (se_raw env)) (key seed) ->
    (forall o, 0 <= o < n ->
       g_fun (se_raw env') ((counter seed + o) mod 2 ^ g_bits (se_raw env)) (key seed) =
       g_fun (se_raw env) ((counter seed + o) mod 2 ^ g_bits (se_raw env)) (key seed) /\
       g_fun (se_unif env') ((counter seed + o) mod 2 ^ g_bits (se_raw env)) (key seed) =
       g_fun (se_unif env) ((counter seed + o) mod 2 ^ g_bits (se_raw env)) (key seed)) ->
    fill_sparse_unpacked_nosub env' D vals rows cols seed = fill_sparse_unpacked_nosub env D vals rows cols seed.
Proof.
  intros K F T env env' D seed vals rows cols H1 H2 A1 A2 A3 A4 A5 A6 A7 A8 A9 HD Hsz Hs L1 L2 L3 Hb Hbits n Hn En Ha.
  cbn [mk_sparse_skop ss_next] in En. rewrite next_state_spec in En by assumption. injection En as En.
  assert (sparse_blocks env D = n) as Hbn.
  { assert (2 ^ 64 <= 2 ^ g_bits (se_raw env)) as Hp by (apply Z.pow_le_mono_r; lia).
    assert (0 <= sparse_blocks env D) as H0.
    { destruct (valid_sdist_inv D HD) as (P1 & P2 & P3 & P4 & P5 & P6). unfold sparse_blocks.
      assert (0 <= sd_minor D) by (destruct (sd_axis D); lia).
      destruct (sd_axis D); apply Z.mul_nonneg_nonneg; try lia. unfold ceil_div.
      assert (0 < g_len (se_raw env) / 2).
      { pose proof (half_pos env H1) as [Hh _]. unfold half in Hh. destruct H1 as [_ _ Wl _ _ _ _ _]. rewrite Wl in Hh. lia. }
      apply Z.div_pos; lia. }
    set (M := 2 ^ g_bits (se_raw env)) in *. set (a := sparse_blocks env D) in *.
    assert (a < M) as HaM by (clear - Hb Hp; lia). clear - En Hn H0 HaM. clearbody a M.
    assert ((counter seed + a - (counter seed + n)) mod M = 0) as E by (rewrite Zminus_mod, En, Z.sub_diag; apply Z.mod_0_l; lia).
    replace (counter seed + a - (counter seed + n)) with (a - n) in E by lia.
    destruct (Z_lt_le_dec a n).
    - replace (a - n) with (a - n + M + (-1) * M) in E by ring. rewrite Z.mod_add, Z.mod_small in E by lia. lia.
    - rewrite Z.mod_small in E by lia. lia. }
  apply fill_same; auto. rewrite Hbn. exact Ha.
Qed.
Print Assumptions C18_sample_depends_only_on_blocks_before_next_state.

Example C18_case :
  exists nnz v r c,
    fill_sparse_unpacked_nosub toy_senv (the_dist 2 5 3 Long) (repeat 0 6) (repeat 0 6) (repeat 0 6) (mk_state 11 2)
    = Ok (nnz, v, r, c, mk_state 15 2) /\
    sparse_next_state toy_senv (the_dist 2 5 3 Long) (mk_state 11 2) = mk_state 15 2.
Proof. do 4 eexists. vm_compute. split; reflexivity. Qed.

(** For an odd block length (no RNG of Random123 has one) the two states differ:
    compute_next_state divides by len_c/2.0, the sampler uses floor(len_c/2). *)
Definition odd_gen : generator Z Z :=
  {| g_len := 3; g_bits := 128; g_fun := fun c k => map (fun l => 3 * c + l + 1000 * k) (range 0 3) |}.
Definition odd_senv : sparse_env Z Z Z :=
  {| se_raw := odd_gen; se_unif := odd_gen; se_sb := 32;
     se_draw := fun n u => u mod n; se_nonneg := fun u => Z.even (u / 4);
     se_one := 1; se_mone := -1; se_sqrtmul := fun c v => c * v; se_order := fun _ l => l |}.
Theorem C18_odd_block_length_refuted :
  exists (env : sparse_env Z Z Z) D seed vals rows cols nnz v r c st,
    wf_generator (se_raw env) /\ valid_sdist D /\ seed_ok env seed /\
    fill_sparse_unpacked_nosub env D vals rows cols seed = Ok (nnz, v, r, c, st) /\
    st <> sparse_next_state env D seed.
Proof.
  exists odd_senv, (the_dist 2 5 3 Long), (mk_state 11 2), (repeat 0 6), (repeat 0 6), (repeat 0 6).
  do 5 eexists. split; [split; cbn; [lia|lia|reflexivity]|]. split; [reflexivity|].
  split; [unfold seed_ok; cbn; lia|]. split; [vm_compute; reflexivity|]. vm_compute. discriminate.
Qed.
Print Assumptions C18_odd_block_length_refuted.

(* ------------------------------------------------------------------ *)
(** * C19 *)
(** Long axis: an operator with d1+d2 minor vectors is the concatenation of one with d1
    and one with d2 seeded by the next_state of the first.  Wide: rows are stacked. *)
Lemma long_entry_shift {K F T} (env : sparse_env K F T) D1 D (seed : rng_state K) d1 ell s :
  sd_vec_nnz D1 = sd_vec_nnz D -> sd_major D1 = sd_major D ->
  g_bits (se_unif env) = g_bits (se_raw env) ->
  long_entry env D1 (mk_state ((counter seed + d1 * ceil_div (sd_vec_nnz D) (half env)) mod 2 ^ g_bits (se_raw env)) (key seed)) ell s
  = long_entry env D seed ell (d1 + s).
Proof.
  intros Ek Em Eb. unfold long_entry. rewrite Ek.
  assert (forall t l, unif_lane env (mk_state ((counter seed + d1 * ceil_div (sd_vec_nnz D) (half env)) mod 2 ^ g_bits (se_raw env)) (key seed))
     (s * ceil_div (sd_vec_nnz D) (half env) + t) l =
     unif_lane env seed ((d1 + s) * ceil_div (sd_vec_nnz D) (half env) + t) l) as Hl.
  { intros t l. unfold unif_lane. cbn [counter key]. rewrite Eb, Zplus_mod_idemp_l. do 3 f_equal. ring. }
  unfold merged.
  assert (forall t, long_index env D1 (mk_state ((counter seed + d1 * ceil_div (sd_vec_nnz D) (half env)) mod 2 ^ g_bits (se_raw env)) (key seed)) s t
     = long_index env D seed (d1 + s) t) as Hi.
  { intros t. unfold long_index. rewrite Ek, Em, Hl. reflexivity. }
  assert (forall t, long_sign env D1 (mk_state ((counter seed + d1 * ceil_div (sd_vec_nnz D) (half env)) mod 2 ^ g_bits (se_raw env)) (key seed)) s t
     = long_sign env D seed (d1 + s) t) as Hs.
  { intros t. unfold long_sign. rewrite Ek, Hl. reflexivity. }
  assert (forall k, first (long_index env D1 (mk_state ((counter seed + d1 * ceil_div (sd_vec_nnz D) (half env)) mod 2 ^ g_bits (se_raw env)) (key seed)) s) k ell
     = first (long_index env D seed (d1 + s)) k ell) as Hf.
  { intros k. unfold first. induction (range 0 k) as [|y l IH]; cbn; [reflexivity|]. rewrite Hi, IH. reflexivity. }
  assert (forall k, mult (long_index env D1 (mk_state ((counter seed + d1 * ceil_div (sd_vec_nnz D) (half env)) mod 2 ^ g_bits (se_raw env)) (key seed)) s) k ell
     = mult (long_index env D seed (d1 + s)) k ell) as Hm.
  { intros k. unfold mult. f_equal. apply filter_ext. intros t. now rewrite Hi. }
  rewrite Hf. destruct (first _ _ ell); [|reflexivity]. rewrite Hm, Hs. reflexivity.
Qed.

Lemma fill_standard {K F T} (env : sparse_env K F T) D (seed : rng_state K) jT jZ :
  wf_senv env -> valid_sdist D -> sparse_size_ok env D -> seed_ok env seed ->
  exists S' : sparse_skop K T, fill_sparse env jT jZ (mk_sparse_skop env D seed) = Ok S' /\
    forall r c, skop_values S' r c = sparse_entry env D seed r c.
Proof.
  intros H1 H2 H3 H4.
  destruct (fill_sparse_spec env H1 jT jZ (mk_sparse_skop env D seed)) as (S' & E & _ & _ & _ & _ & _ & _ & G); auto.
  { repeat split. }
  exists S'. split; [exact E|exact G].
Qed.

Theorem C19_long_concatenation :
  forall {K F T} (env : sparse_env K F T) d1 d2 m k D1 D2 D seed jT jZ wide,
    wf_senv env -> seed_ok env seed ->
    1 <= d1 -> 1 <= d2 -> d1 + d2 < m ->
    let shape d := if (wide : bool) then mk_sparse_dist d m k Long else mk_sparse_dist m d k Long in
    shape d1 = Ok D1 -> shape d2 = Ok D2 -> shape (d1 + d2) = Ok D ->
    sparse_size_ok env D -> sparse_blocks env D1 < 2 ^ 64 ->
    let S1 := mk_sparse_skop env D1 seed in
    let S2 := mk_sparse_skop env D2 (ss_next S1) in
    let S := mk_sparse_skop env D seed in
    exists F1 F2 F : sparse_skop K T,
      fill_sparse env jT jZ S1 = Ok F1 /\ fill_sparse env jT jZ S2 = Ok F2 /\ fill_sparse env jT jZ S = Ok F /\
      forall i j, 0 <= j < m ->
        let at_ X i j := if wide then skop_values X i j else skop_values X j i in
        (0 <= i < d1 -> at_ F i j = at_ F1 i j) /\
        (0 <= i < d2 -> at_ F (d1 + i) j = at_ F2 i j).
Proof.
  intros K F T env d1 d2 m k D1 D2 D seed jT jZ wide Henv Hseed H1 H2 Hm shape E1 E2 E Hsz Hb S1 S2 S.
  assert (forall d Dd, 1 <= d < m -> shape d = Ok Dd -> valid_sdist Dd /\ sd_axis Dd = Long /\ sd_vec_nnz Dd = k /\
     sd_major Dd = m /\ sd_minor Dd = d /\ sd_full_nnz Dd = k * d /\ (sd_rows Dd, sd_cols Dd) = (if wide then (d, m) else (m, d)) /\ 0 < k) as Hshape.
  { intros d Dd Hd Ed. unfold shape in Ed.
    assert (exists a b, mk_sparse_dist a b k Long = Ok Dd /\ (a, b) = if wide then (d, m) else (m, d)) as (a & b & Ed' & Eab)
      by (destruct wide; eauto).
    unfold mk_sparse_dist in Ed'.
    apply bind_Ok in Ed' as [u1 [R1 X]]. apply bind_Ok in X as [u2 [R2 X]].
    apply bind_Ok in X as [u3 [R3 X]]. apply bind_Ok in X as [u4 [R4 X]].
    apply require_Ok in R1, R2, R3, R4. injection X as <-. cbn [sd_rows sd_cols sd_axis sd_major sd_minor sd_vec_nnz sd_full_nnz].
    assert (Z.max a b = m /\ a + b - Z.max a b = d) as [Hmax Hmin] by (destruct wide; injection Eab as -> ->; lia).
    split.
    - unfold valid_sdist. cbn [sd_rows sd_cols sd_axis sd_vec_nnz]. unfold mk_sparse_dist. rewrite R1, R2, R3, R4. reflexivity.
    - rewrite Hmin. repeat split; auto; lia. }
  destruct (Hshape d1 D1 ltac:(lia) E1) as (V1 & A1 & K1 & M1 & N1 & F1 & R1 & Hk).
  destruct (Hshape d2 D2 ltac:(lia) E2) as (V2 & A2 & K2 & M2 & N2 & F2 & R2 & _).
  destruct (Hshape (d1 + d2) D ltac:(lia) E) as (V & A & KD & MD & ND & FD & RD & _).
  assert (sparse_size_ok env D1) as Hs1.
  { unfold sparse_size_ok in *. rewrite F1. rewrite FD in Hsz. assert (k * d1 <= k * (d1 + d2)) by (apply Z.mul_le_mono_nonneg_l; lia).
    destruct wide; injection R1 as -> ->; injection RD as Ra Rb; rewrite Ra, Rb in Hsz; lia. }
  assert (sparse_size_ok env D2) as Hs2.
  { unfold sparse_size_ok in *. rewrite F2. rewrite FD in Hsz. assert (k * d2 <= k * (d1 + d2)) by (apply Z.mul_le_mono_nonneg_l; lia).
    destruct wide; injection R2 as -> ->; injection RD as Ra Rb; rewrite Ra, Rb in Hsz; lia. }
  assert (ss_next S1 = mk_state ((counter seed + d1 * ceil_div (sd_vec_nnz D) (half env)) mod 2 ^ g_bits (se_raw env)) (key seed)) as En.
  { unfold S1. cbn [mk_sparse_skop ss_next]. rewrite next_state_spec by assumption.
    unfold sparse_blocks. rewrite A1, N1, K1, KD. unfold half. destruct Henv as [_ _ -> _ _ _ _ _]. reflexivity. }
  assert (seed_ok env (ss_next S1)) as Hseed2.
  { rewrite En. unfold seed_ok. cbn [counter]. apply Z.mod_pos_bound. apply Z.pow_pos_nonneg; [lia|].
    destruct Henv as [[_ WB _] _ _ _ _ _ _ _]. lia. }
  destruct (fill_standard env D1 seed jT jZ Henv V1 Hs1 Hseed) as [X1 [EX1 G1]].
  destruct (fill_standard env D2 (ss_next S1) jT jZ Henv V2 Hs2 Hseed2) as [X2 [EX2 G2]].
  destruct (fill_standard env D seed jT jZ Henv V Hsz Hseed) as [X [EX G]].
  exists X1, X2, X. split; [exact EX1|]. split; [exact EX2|]. split; [exact EX|].
  intros i j Hj at_.
  assert (forall Dd d sd i j, sd_axis Dd = Long -> sd_minor Dd = d -> 1 <= d < m ->
     (sd_rows Dd, sd_cols Dd) = (if wide then (d, m) else (m, d)) -> 0 <= i < d ->
     (if wide then sparse_entry env Dd sd i j else sparse_entry env Dd sd j i) = long_entry env Dd sd j i) as Hent.
  { intros Dd d sd i' j' Ha Hmi Hd Hrc Hi'. unfold sparse_entry. rewrite Ha, Hmi.
    destruct wide; injection Hrc as -> ->.
    - replace (d <=? m) with true by lia. replace ((0 <=? i') && (i' <? d)) with true by lia. reflexivity.
    - replace (m <=? d) with false by lia. replace ((0 <=? i') && (i' <? d)) with true by lia. reflexivity. }
  assert (forall Y Dd d sd i j, (forall r c, skop_values Y r c = sparse_entry env Dd sd r c) ->
     sd_axis Dd = Long -> sd_minor Dd = d -> 1 <= d < m ->
     (sd_rows Dd, sd_cols Dd) = (if wide then (d, m) else (m, d)) -> 0 <= i < d ->
     at_ Y i j = long_entry env Dd sd j i) as Hat.
  { intros Y Dd d sd i' j' HY Ha Hmi Hd Hrc Hi'. rewrite <- (Hent Dd d sd i' j') by assumption.
    unfold at_. rewrite !HY. reflexivity. }
  split; intros Hi.
  - rewrite (Hat X D (d1 + d2) seed), (Hat X1 D1 d1 seed) by (assumption || lia).
    unfold long_entry, merged, first, mult.
    unfold long_index, long_sign. rewrite K1, KD, M1, MD. reflexivity.
  - rewrite (Hat X D (d1 + d2) seed), (Hat X2 D2 d2 (ss_next S1)) by (assumption || lia).
    rewrite En. symmetry. apply long_entry_shift; [congruence|congruence|]. apply Henv.
Qed.
Print Assumptions C19_long_concatenation.

(** Short axis: the operator with more minor vectors extends the smaller one. *)
Theorem C19_short_prefix :
  forall {K F T} (env : sparse_env K F T) d m1 m2 k D1 D seed jT jZ wide,
    wf_senv env -> seed_ok env seed ->
    1 <= d -> d < m1 -> m1 <= m2 ->
    let shape m := if (wide : bool) then mk_sparse_dist d m k Short else mk_sparse_dist m d k Short in
    shape m1 = Ok D1 -> shape m2 = Ok D ->
    sparse_size_ok env D ->
    exists F1 F : sparse_skop K T,
      fill_sparse env jT jZ (mk_sparse_skop env D1 seed) = Ok F1 /\
      fill_sparse env jT jZ (mk_sparse_skop env D seed) = Ok F /\
      forall i j, 0 <= i < d -> 0 <= j < m1 ->
        if wide then skop_values F i j = skop_values F1 i j else skop_values F j i = skop_values F1 j i.
Proof.
  intros K F T env d m1 m2 k D1 D seed jT jZ wide Henv Hseed Hd Hm1 Hm2 shape E1 E Hsz.
  assert (forall m Dd, d < m -> shape m = Ok Dd -> valid_sdist Dd /\ sd_axis Dd = Short /\ sd_vec_nnz Dd = k /\
     sd_major Dd = d /\ sd_minor Dd = m /\ sd_full_nnz Dd = k * m /\ (sd_rows Dd, sd_cols Dd) = (if wide then (d, m) else (m, d)) /\ 0 < k) as Hshape.
  { intros m Dd Hm Ed. unfold shape in Ed.
    assert (exists a b, mk_sparse_dist a b k Short = Ok Dd /\ (a, b) = if wide then (d, m) else (m, d)) as (a & b & Ed' & Eab)
      by (destruct wide; eauto).
    unfold mk_sparse_dist in Ed'.
    apply bind_Ok in Ed' as [u1 [R1 X]]. apply bind_Ok in X as [u2 [R2 X]].
    apply bind_Ok in X as [u3 [R3 X]]. apply bind_Ok in X as [u4 [R4 X]].
    apply require_Ok in R1, R2, R3, R4. injection X as <-. cbn [sd_rows sd_cols sd_axis sd_major sd_minor sd_vec_nnz sd_full_nnz].
    assert (Z.min a b = d /\ a + b - Z.min a b = m) as [Hmin Hmax] by (destruct wide; injection Eab as -> ->; lia).
    split.
    - unfold valid_sdist. cbn [sd_rows sd_cols sd_axis sd_vec_nnz]. unfold mk_sparse_dist. rewrite R1, R2, R3, R4. reflexivity.
    - rewrite Hmax. repeat split; auto; lia. }
  destruct (Hshape m1 D1 Hm1 E1) as (V1 & A1 & K1 & M1 & N1 & F1 & R1 & Hk).
  destruct (Hshape m2 D ltac:(lia) E) as (V & A & KD & MD & ND & FD & RD & _).
  assert (sparse_size_ok env D1) as Hs1.
  { unfold sparse_size_ok in *. rewrite F1. rewrite FD in Hsz. assert (k * m1 <= k * m2) by (apply Z.mul_le_mono_nonneg_l; lia).
    destruct wide; injection R1 as -> ->; injection RD as Ra Rb; rewrite Ra, Rb in Hsz; lia. }
  destruct (fill_standard env D1 seed jT jZ Henv V1 Hs1 Hseed) as [X1 [EX1 G1]].
  destruct (fill_standard env D seed jT jZ Henv V Hsz Hseed) as [X [EX G]].
  exists X1, X. split; [exact EX1|]. split; [exact EX|]. intros i j Hi Hj.
  assert (short_entry env D1 seed i j = short_entry env D seed i j) as Hse.
  { unfold short_entry, short_sample, short_sign. rewrite K1, KD, M1, MD. reflexivity. }
  destruct wide; injection R1 as Ra1 Rb1; injection RD as Ra Rb.
  - rewrite G, G1. unfold sparse_entry. rewrite A, A1, Ra, Rb, Ra1, Rb1, N1, ND.
    replace (d <=? m1) with true by lia. replace (d <=? m2) with true by lia.
    replace ((0 <=? j) && (j <? m1)) with true by lia. replace ((0 <=? j) && (j <? m2)) with true by lia. now symmetry.
  - rewrite G, G1. unfold sparse_entry. rewrite A, A1, Ra, Rb, Ra1, Rb1, N1, ND.
    replace (m1 <=? d) with false by lia. replace (m2 <=? d) with false by lia.
    replace ((0 <=? j) && (j <? m1)) with true by lia. replace ((0 <=? j) && (j <? m2)) with true by lia. now symmetry.
Qed.
Print Assumptions C19_short_prefix.

Example C19_case :
  exists F1 F2 F,
    fill_sparse dup_senv 7 7 (mk_sparse_skop dup_senv (the_dist 1 5 3 Long) (mk_state 11 2)) = Ok F1 /\
    fill_sparse dup_senv 7 7 (mk_sparse_skop dup_senv (the_dist 2 5 3 Long) (mk_state 13 2)) = Ok F2 /\
    fill_sparse dup_senv 7 7 (mk_sparse_skop dup_senv (the_dist 3 5 3 Long) (mk_state 11 2)) = Ok F /\
    ss_next (mk_sparse_skop dup_senv (the_dist 1 5 3 Long) (mk_state 11 2) : sparse_skop Z Z) = mk_state 13 2 /\
    map (skop_values F 1) (range 0 5) = map (skop_values F2 0) (range 0 5) /\
    map (skop_values F2 0) (range 0 5) = [[]; []; []; [-200]; [1]].
Proof. do 3 eexists. vm_compute. repeat split; reflexivity. Qed.

(* ------------------------------------------------------------------ *)
(** * C23 *)
(** sample_indices_iid (no signs: L usable draws per block). *)
Theorem C23_index_sampling_state_and_lanes :
  forall {K F T} (g : generator K F) (draw : F -> Z) (nonneg : F -> bool) (one mone : T)
         k samples (st : rng_state K),
    wf_generator g -> 0 <= counter st < 2 ^ g_bits g -> 0 <= k -> k <= zlen samples ->
    let L := g_len g in
    exists out,
      sample_indices g (fun x => Ok (draw x)) nonneg one mone k samples None st =
        Ok (out, None, mk_state ((counter st + ceil_div k L) mod 2 ^ g_bits g) (key st)) /\
      (forall t, 0 <= t < k -> exists u,
         get (g_fun g ((counter st + t / L) mod 2 ^ g_bits g) (key st)) (t mod L) = Some u /\
         get out t = Some (draw u)) /\
      (forall p, ~ (0 <= p < k) -> get out p = get samples p).
Proof.
  intros K F T g draw nonneg one mone k samples st Hg Hc Hk Hl L.
  destruct (get_lt (g_fun g 0 (key st)) 0) as [d0 _]; [rewrite (wf_fun _ Hg); destruct Hg; lia|].
  destruct (sample_indices_spec g (fun x => Ok (draw x)) draw nonneg one mone d0 Hg (fun _ => eq_refl) k samples None st)
    as (out & r & E & U & V); auto; [exact I|].
  destruct r; [contradiction|]. exists out. split; [exact E|]. destruct U as [_ U]. split.
  - intros t Ht. assert (0 < L) by (destruct Hg; unfold L; lia). pose proof (Z.mod_pos_bound t L ltac:(lia)).
    eexists. split; [apply (get_lane g d0 Hg); exact H0|]. rewrite U.
    replace ((0 <=? t) && (t <? k)) with true by lia. unfold draw_at. cbn [per_block per_draw]. fold L. rewrite Z.mul_1_l. reflexivity.
  - intros p Hp. rewrite U. replace ((0 <=? p) && (p <? k)) with false by lia. reflexivity.
Qed.
Print Assumptions C23_index_sampling_state_and_lanes.

(** The variant that also writes signs: two lanes per draw, floor(L/2) draws per block. *)
Theorem C23_index_and_sign_sampling_state_and_lanes :
  forall {K F T} (g : generator K F) (draw : F -> Z) (nonneg : F -> bool) (one mone : T)
         k samples rad (st : rng_state K),
    wf_generator g -> 0 <= counter st < 2 ^ g_bits g -> 0 <= k -> k <= zlen samples -> k <= zlen rad ->
    let h := g_len g / 2 in
    exists out rad',
      sample_indices g (fun x => Ok (draw x)) nonneg one mone k samples (Some rad) st =
        Ok (out, Some rad', mk_state ((counter st + ceil_div k h) mod 2 ^ g_bits g) (key st)) /\
      (forall t, 0 <= t < k -> exists u s,
         get (g_fun g ((counter st + t / h) mod 2 ^ g_bits g) (key st)) (2 * (t mod h)) = Some u /\
         get (g_fun g ((counter st + t / h) mod 2 ^ g_bits g) (key st)) (2 * (t mod h) + 1) = Some s /\
         get out t = Some (draw u) /\ get rad' t = Some (if nonneg s then one else mone)) /\
      (forall p, ~ (0 <= p < k) -> get out p = get samples p /\ get rad' p = get rad p).
Proof.
  intros K F T g draw nonneg one mone k samples rad st Hg Hc Hk Hl Hr h.
  destruct (get_lt (g_fun g 0 (key st)) 0) as [d0 _]; [rewrite (wf_fun _ Hg); destruct Hg; lia|].
  destruct (sample_indices_spec g (fun x => Ok (draw x)) draw nonneg one mone d0 Hg (fun _ => eq_refl) k samples (Some rad) st)
    as (out & r & E & U & V); auto.
  destruct r as [r|]; [|contradiction]. exists out, r. split; [exact E|]. destruct U as [_ U], V as [_ V].
  destruct (per_block_pos g Hg (Some rad)) as [Q1 Q2]. cbn [per_block per_draw] in Q1, Q2. fold h in Q1, Q2. split.
  - intros t Ht. pose proof (Z.mod_pos_bound t h ltac:(lia)) as Hm.
    do 2 eexists. split; [apply (get_lane g d0 Hg); lia|]. split; [apply (get_lane g d0 Hg); lia|].
    rewrite U, V. replace ((0 <=? t) && (t <? k)) with true by lia. split; reflexivity.
  - intros p Hp. rewrite U, V. replace ((0 <=? p) && (p <? k)) with false by lia. auto.
Qed.
Print Assumptions C23_index_and_sign_sampling_state_and_lanes.

(** k = 0 returns the input state and array. *)
Corollary C23_no_draws : forall {K F T} (g : generator K F) (draw : F -> outcome Z) (nonneg : F -> bool) (one mone : T)
         samples rad (st : rng_state K),
  sample_indices g draw nonneg one mone 0 samples rad st = Ok (samples, rad, st).
Proof. intros. unfold sample_indices. rewrite for_nil by lia. cbn [bind]. destruct st; reflexivity. Qed.

Example C23_case :
  sample_indices toy_gen (fun u => Ok (u mod 7)) (fun u => Z.even (u / 2)) 1 (-1) 5 (repeat 0 6) None (mk_state 11 2)
    = Ok ([0; 1; 2; 3; 4; 0], None, mk_state 13 2) /\
  sample_indices toy_gen (fun u => Ok (u mod 7)) (fun u => Z.even (u / 2)) 1 (-1) 5 (repeat 0 6) (Some (repeat 0 5)) (mk_state 11 2)
    = Ok ([0; 2; 4; 6; 1; 0], Some [1; -1; 1; -1; 1], mk_state 14 2).
Proof. vm_compute. split; reflexivity. Qed.
