(** Final theorems about sampling without replacement (C12-C15).

    Hypotheses used throughout:
    - [wf_generator g]: the RNG returns blocks of g_len >= 2 words, otherwise arbitrary;
    - [fy_sizes sb k n r]: k <= n, and n, r and r*k are representable in sint_t
      (a signed integer type of [sb] bits), which indexes the arrays in the code. *)
From Verif Require Import Base Spec RngModel DenseModel DenseSpec DenseProofs SparseSkopModel FySpec FyProofs.
From Coq Require Import Permutation.

Definition fy_sizes (sb k n r : Z) : Prop :=
  1 < sb <= 64 /\ 0 <= k <= n /\ 0 <= r /\ n <= 2 ^ (sb - 1) - 1 /\ r <= 2 ^ (sb - 1) - 1 /\ r * k <= 2 ^ (sb - 1) - 1.

Lemma public_spec {K} (g : generator K Z) sb k n r samples (st : rng_state K) :
  wf_generator g -> fy_sizes sb k n r -> r * k <= zlen samples ->
  exists out,
    fisher_yates_public g sb k n r samples st = Ok (out, mk_state ((counter st + r * k) mod 2 ^ g_bits g) (key st)) /\
    upd_to (r * k) (major_at g (counter st) (key st) n k) samples out.
Proof.
  intros Hg (H1 & H2 & H3 & H4 & H5 & H6) Hb. unfold fisher_yates_public.
  destruct (fisher_yates_spec g sb tt tt Hg ltac:(lia) st k n r samples None None) as (o & a & b & E & U & V & X);
    try (unfold sint_max; lia); try exact I.
  cbn [upd_opt] in V, X. destruct a; [contradiction|]. destruct b; [contradiction|].
  rewrite E. cbn [bind]. exists o. split; [reflexivity|exact U].
Qed.

Lemma sample_get {K} (g : generator K Z) c k n kk i j :
  0 <= j < kk -> kk <= n ->
  exists x, get (sample g c k n kk i) j = Some x /\ 0 <= x < n.
Proof.
  intros Hj Hk. destruct (sample_step_spec g c k n kk i j Hj Hk) as [x [_ [_ [_ [_ H]]]]].
  exists x. split; [exact H|]. apply get_Some_In in H. apply fy_In, in_range in H. exact H.
Qed.

Lemma major_at_sample {K} (g : generator K Z) c k n kk i j :
  0 <= j < kk -> kk <= n -> Some (major_at g c k n kk (i * kk + j)) = get (sample g c k n kk i) j.
Proof.
  intros Hj Hk. unfold major_at. destruct (div_mod_pair kk i j Hj) as [-> ->].
  destruct (sample_get g c k n kk i j Hj Hk) as [x [-> _]]. reflexivity.
Qed.

Lemma block_index kk i j r : 0 <= j < kk -> 0 <= i < r -> 0 <= i * kk + j < r * kk.
Proof.
  intros. assert ((i + 1) * kk <= r * kk) by (apply Z.mul_le_mono_nonneg_r; lia).
  assert (0 <= i * kk) by (apply Z.mul_nonneg_nonneg; lia). lia.
Qed.

Lemma upd_block {K} (g : generator K Z) c k n kk r samples out i j :
  upd_to (r * kk) (major_at g c k n kk) samples out -> 0 <= i < r -> 0 <= j < kk -> kk <= n ->
  get out (i * kk + j) = get (sample g c k n kk i) j.
Proof.
  intros [_ G] Hi Hj Hk. rewrite G. pose proof (block_index kk i j r Hj Hi) as H.
  replace ((0 <=? i * kk + j) && (i * kk + j <? r * kk)) with true by (clear - H; lia).
  apply major_at_sample; assumption.
Qed.

(* ------------------------------------------------------------------ *)
(** * C12 *)
Theorem C12_sampling_without_replacement_distinct_in_range :
  forall {K} (g : generator K Z) sb k n r (samples : list Z) (st : rng_state K),
    wf_generator g -> fy_sizes sb k n r -> r * k <= zlen samples ->
    exists out st',
      fisher_yates_public g sb k n r samples st = Ok (out, st') /\
      zlen out = zlen samples /\
      (forall i j, 0 <= i < r -> 0 <= j < k -> exists x, get out (i * k + j) = Some x /\ 0 <= x < n) /\
      (forall i j1 j2, 0 <= i < r -> 0 <= j1 < k -> 0 <= j2 < k ->
         get out (i * k + j1) = get out (i * k + j2) -> j1 = j2) /\
      (forall p, ~ (0 <= p < r * k) -> get out p = get samples p).
Proof.
  intros K g sb k n r samples st Hg Hs Hb. pose proof Hs as (_ & Hk & _).
  destruct (public_spec g sb k n r samples st Hg Hs Hb) as [out [E U]].
  exists out. eexists. split; [exact E|]. split; [apply U|]. split; [|split].
  - intros i j Hi Hj. rewrite (upd_block g _ _ _ _ _ _ _ i j U Hi Hj) by lia. apply sample_get; lia.
  - intros i j1 j2 Hi H1 H2. rewrite (upd_block g _ _ _ _ _ _ _ i j1 U Hi H1) by lia.
    rewrite (upd_block g _ _ _ _ _ _ _ i j2 U Hi H2) by lia.
    destruct (sample_get g (counter st) (key st) n k i j1 H1 ltac:(lia)) as [x [Hx _]]. intros H.
    apply (get_inj_NoDup (sample g (counter st) (key st) n k i) j1 j2 x); [apply fy_NoDup, NoDup_range|exact Hx|congruence].
  - intros p Hp. destruct U as [_ G]. rewrite G.
    replace ((0 <=? p) && (p <? r * k)) with false by lia. reflexivity.
Qed.
Print Assumptions C12_sampling_without_replacement_distinct_in_range.

(** k > n is rejected before anything is read or written: it throws for every array,
    including the empty one, on which any access would be undefined. *)
Theorem C12_sampling_more_than_population_rejected :
  forall {K} (g : generator K Z) sb k n r (samples : list Z) (st : rng_state K),
    k > n -> fisher_yates_public g sb k n r samples st = Throw.
Proof.
  intros K g sb k n r samples st H. unfold fisher_yates_public, repeated_fisher_yates.
  replace (k >? n) with true by lia. reflexivity.
Qed.
Print Assumptions C12_sampling_more_than_population_rejected.

(** Three samples of 3 out of 5. *)
Example C12_case :
  fisher_yates_public toy_gen 32 3 5 3 (repeat (-7) 10) (mk_state 11 2) =
    Ok ([4; 1; 2; 1; 0; 2; 3; 1; 2; -7], mk_state 20 2).
Proof. vm_compute. reflexivity. Qed.
Example C12_case_hyp : wf_generator toy_gen /\ fy_sizes 32 3 5 3.
Proof. split; [split; [cbn; lia|cbn; lia|reflexivity]|unfold fy_sizes; lia]. Qed.

(* ------------------------------------------------------------------ *)
(** * C13 *)
Lemma word_shift {K} (g : generator K Z) c k o o' l :
  word g ((c + o) mod 2 ^ g_bits g) k o' l = word g c k (o + o') l.
Proof. unfold word. rewrite Zplus_mod_idemp_l. replace (c + (o + o')) with (c + o + o') by lia. reflexivity. Qed.

Lemma sample_shift {K} (g : generator K Z) c k n kk i i' :
  sample g ((c + i * kk) mod 2 ^ g_bits g) k n kk i' = sample g c k n kk (i + i').
Proof.
  unfold sample. f_equal. apply map_ext. intros j. unfold pivot. rewrite word_shift. replace (i * kk + (i' * kk + j)) with ((i + i') * kk + j) by ring. reflexivity.
Qed.

(** Block i is the only block of a call from the state advanced by i*k. *)
Theorem C13_block_depends_only_on_seed_and_index :
  forall {K} (g : generator K Z) sb k n r i (s1 s2 : list Z) (st : rng_state K),
    wf_generator g -> fy_sizes sb k n r -> 0 <= i < r -> r * k <= zlen s1 -> k <= zlen s2 ->
    exists out1 st1 out2 st2,
      fisher_yates_public g sb k n r s1 st = Ok (out1, st1) /\
      fisher_yates_public g sb k n 1 s2 (mk_state ((counter st + i * k) mod 2 ^ g_bits g) (key st)) = Ok (out2, st2) /\
      forall j, 0 <= j < k -> get out1 (i * k + j) = get out2 j.
Proof.
  intros K g sb k n r i s1 s2 st Hg Hs Hi H1 H2. pose proof Hs as (Ha & Hk & Hb & Hc & Hd & He).
  assert (fy_sizes sb k n 1) as Hs1 by (unfold fy_sizes; repeat split; lia).
  destruct (public_spec g sb k n r s1 st Hg Hs H1) as [o1 [E1 U1]].
  destruct (public_spec g sb k n 1 s2 (mk_state ((counter st + i * k) mod 2 ^ g_bits g) (key st)) Hg Hs1 ltac:(lia))
    as [o2 [E2 U2]]. cbn [counter key] in U2.
  do 4 eexists. split; [exact E1|]. split; [exact E2|]. intros j Hj.
  rewrite (upd_block g _ _ _ _ _ _ _ i j U1 Hi Hj) by lia.
  pose proof (upd_block g _ _ _ _ _ _ _ 0 j U2 ltac:(lia) Hj ltac:(lia)) as Hg2.
  rewrite Z.mul_0_l, Z.add_0_l in Hg2. rewrite Hg2, sample_shift, Z.add_0_r. reflexivity.
Qed.
Print Assumptions C13_block_depends_only_on_seed_and_index.

(** r blocks are a prefix of r' > r blocks. *)
Theorem C13_fewer_blocks_are_a_prefix :
  forall {K} (g : generator K Z) sb k n r r' (s1 s2 : list Z) (st : rng_state K),
    wf_generator g -> fy_sizes sb k n r' -> 0 <= r <= r' -> r * k <= zlen s1 -> r' * k <= zlen s2 ->
    exists out1 st1 out2 st2,
      fisher_yates_public g sb k n r s1 st = Ok (out1, st1) /\
      fisher_yates_public g sb k n r' s2 st = Ok (out2, st2) /\
      forall p, 0 <= p < r * k -> exists x, get out1 p = Some x /\ get out2 p = Some x.
Proof.
  intros K g sb k n r r' s1 s2 st Hg Hs Hr H1 H2. pose proof Hs as (Ha & Hk & Hb & Hc & Hd & He).
  assert (r * k <= r' * k) as Hle by (apply Z.mul_le_mono_nonneg_r; lia).
  assert (fy_sizes sb k n r) as Hs1 by (unfold fy_sizes; repeat split; lia).
  destruct (public_spec g sb k n r s1 st Hg Hs1 H1) as [o1 [E1 [_ U1]]].
  destruct (public_spec g sb k n r' s2 st Hg Hs H2) as [o2 [E2 [_ U2]]].
  do 4 eexists. split; [exact E1|]. split; [exact E2|]. intros p Hp.
  eexists. rewrite U1, U2.
  replace ((0 <=? p) && (p <? r * k)) with true by lia.
  replace ((0 <=? p) && (p <? r' * k)) with true by lia. split; reflexivity.
Qed.
Print Assumptions C13_fewer_blocks_are_a_prefix.

(** Two consecutive calls produce the blocks, and the final state, of one larger call. *)
Theorem C13_two_calls_equal_one :
  forall {K} (g : generator K Z) sb k n r1 r2 (s1 s2 s : list Z) (st : rng_state K),
    wf_generator g -> fy_sizes sb k n (r1 + r2) -> 0 <= r1 -> 0 <= r2 ->
    r1 * k <= zlen s1 -> r2 * k <= zlen s2 -> (r1 + r2) * k <= zlen s ->
    exists out1 st1 out2 st2 out,
      fisher_yates_public g sb k n r1 s1 st = Ok (out1, st1) /\
      fisher_yates_public g sb k n r2 s2 st1 = Ok (out2, st2) /\
      fisher_yates_public g sb k n (r1 + r2) s st = Ok (out, st2) /\
      (forall p, 0 <= p < r1 * k -> get out p = get out1 p) /\
      (forall p, 0 <= p < r2 * k -> get out (r1 * k + p) = get out2 p).
Proof.
  intros K g sb k n r1 r2 s1 s2 s st Hg Hs Hr1 Hr2 H1 H2 H. pose proof Hs as (Ha & Hk & Hb & Hc & Hd & He).
  assert (0 <= r1 * k) as A1 by (apply Z.mul_nonneg_nonneg; lia).
  assert (0 <= r2 * k) as A2 by (apply Z.mul_nonneg_nonneg; lia).
  assert (fy_sizes sb k n r1) as Hs1 by (unfold fy_sizes; repeat split; lia).
  assert (fy_sizes sb k n r2) as Hs2 by (unfold fy_sizes; repeat split; lia).
  destruct (public_spec g sb k n r1 s1 st Hg Hs1 H1) as [o1 [E1 U1]].
  destruct (public_spec g sb k n r2 s2 (mk_state ((counter st + r1 * k) mod 2 ^ g_bits g) (key st)) Hg Hs2 H2) as [o2 [E2 U2]].
  destruct (public_spec g sb k n (r1 + r2) s st Hg Hs H) as [o [E U]]. cbn [counter key] in *.
  rewrite Zplus_mod_idemp_l in E2. replace (counter st + r1 * k + r2 * k) with (counter st + (r1 + r2) * k) in E2 by lia.
  do 5 eexists. split; [exact E1|]. split; [exact E2|]. split; [exact E|]. split.
  - intros p Hp. destruct U as [_ U]. destruct U1 as [_ U1]. rewrite U, U1.
    replace ((0 <=? p) && (p <? r1 * k)) with true by lia.
    replace ((0 <=? p) && (p <? (r1 + r2) * k)) with true by lia. reflexivity.
  - intros p Hp. assert (0 < k) by (destruct (Z.eq_dec k 0) as [->|]; lia).
    rewrite (Z.div_mod p k) by lia. rewrite (Z.mul_comm k (p / k)).
    assert (0 <= p / k < r2) by (split; [apply Z.div_pos; lia|apply Z.div_lt_upper_bound; lia]).
    pose proof (Z.mod_pos_bound p k ltac:(lia)) as Hm. set (i := p / k) in *. set (j := p mod k) in *. clearbody i j.
    rewrite (upd_block g _ _ _ _ _ _ _ i j U2) by lia.
    replace (r1 * k + (i * k + j)) with ((r1 + i) * k + j) by ring.
    rewrite (upd_block g _ _ _ _ _ _ _ (r1 + i) j U) by lia.
    rewrite sample_shift. reflexivity.
Qed.
Print Assumptions C13_two_calls_equal_one.

Example C13_case :
  fisher_yates_public toy_gen 32 3 5 2 (repeat (-7) 6) (mk_state 11 2) = Ok ([4; 1; 2; 1; 0; 2], mk_state 17 2) /\
  fisher_yates_public toy_gen 32 3 5 1 (repeat (-7) 3) (mk_state 14 2) = Ok ([1; 0; 2], mk_state 17 2).
Proof. vm_compute. split; reflexivity. Qed.

(* ------------------------------------------------------------------ *)
(** * C14 *)
(** There is one map F from pivot sequences to samples such that the code computes F of
    the pivots "word 0 of block i*k+j, modulo n-j", and F is a bijection between the
    pivot sequences and the ordered k-samples without replacement from [0,n). *)
Definition is_pivots (k n : Z) (p : list Z) : Prop :=
  zlen p = k /\ forall j q, get p j = Some q -> 0 <= q < n - j.
Definition is_ordered_sample (k n : Z) (s : list Z) : Prop :=
  zlen s = k /\ NoDup s /\ forall x, In x s -> 0 <= x < n.

Lemma is_pivots_valid k n p : is_pivots k n p -> valid_pivots n p.
Proof.
  intros [_ H]. revert n H. clear k. induction p as [|q p IH]; intros n H; cbn [valid_pivots]; [exact I|].
  split; [specialize (H 0 q (get_cons_0 _ _)); lia|].
  apply IH. intros j q' Hg. pose proof (get_Some_lt _ _ _ Hg).
  specialize (H (j + 1) q'). rewrite get_cons_S in H by lia.
  replace (j + 1 - 1) with j in H by lia. specialize (H Hg). lia.
Qed.

Lemma valid_is_pivots n p : valid_pivots n p -> is_pivots (zlen p) n p.
Proof.
  intros H. split; [reflexivity|]. revert n H. induction p as [|q p IH]; intros n H j q' Hg; pose proof (get_Some_lt _ _ _ Hg) as Hl.
  - cbn in Hl. lia.
  - destruct H as [Hq H]. rewrite zlen_cons in Hl. destruct (Z.eq_dec j 0) as [->|Hj].
    + rewrite get_cons_0 in Hg. injection Hg as <-. lia.
    + rewrite get_cons_S in Hg by lia. specialize (IH (n - 1) H _ _ Hg). lia.
Qed.

Theorem C14_pivots_to_samples_bijection :
  forall k n, 0 <= k <= n ->
  exists F : list Z -> list Z,
    (* the code computes F of the pivots *)
    (forall (K : Type) (g : generator K Z) sb r (samples : list Z) (st : rng_state K) i pivots,
       wf_generator g -> fy_sizes sb k n r -> r * k <= zlen samples -> 0 <= i < r ->
       zlen pivots = k ->
       (forall j, 0 <= j < k -> exists w,
          get (g_fun g ((counter st + (i * k + j)) mod 2 ^ g_bits g) (key st)) 0 = Some w /\
          get pivots j = Some (w mod (n - j))) ->
       exists out st', fisher_yates_public g sb k n r samples st = Ok (out, st') /\
         forall j, 0 <= j < k -> get out (i * k + j) = get (F pivots) j) /\
    (* F is a bijection *)
    (forall p, is_pivots k n p -> is_ordered_sample k n (F p)) /\
    (forall p p', is_pivots k n p -> is_pivots k n p' -> F p = F p' -> p = p') /\
    (forall s, is_ordered_sample k n s -> exists p, is_pivots k n p /\ F p = s).
Proof.
  intros k n Hk. exists (fy (range 0 n)).
  assert (zlen (range 0 n) = n) as Ln by (rewrite zlen_range; lia).
  split; [|split; [|split]].
  - intros K g sb r samples st i pivots Hg Hs Hb Hi Lp Hp.
    destruct (public_spec g sb k n r samples st Hg Hs Hb) as [out [E U]].
    do 2 eexists. split; [exact E|]. intros j Hj.
    rewrite (upd_block g _ _ _ _ _ _ _ i j U Hi Hj) by lia. unfold sample.
    replace (map (pivot g (counter st) (key st) n k i) (range 0 k)) with pivots; [reflexivity|].
    apply list_ext_get; [rewrite zlen_map, zlen_range; lia|].
    intros q Hq. rewrite Lp in Hq. destruct (Hp q Hq) as [w [Hw ->]].
    rewrite get_map, get_range by lia. cbn [option_map]. unfold pivot, word. rewrite Z.add_0_l, Hw. reflexivity.
  - intros p Hp. pose proof (is_pivots_valid _ _ _ Hp) as V. rewrite <- Ln in V. split; [|split].
    + unfold zlen. rewrite (fy_length _ _ V). apply Hp.
    + apply fy_NoDup, NoDup_range.
    + intros x Hx. apply fy_In, in_range in Hx. exact Hx.
  - intros p p' Hp Hp'. pose proof (is_pivots_valid _ _ _ Hp) as V. pose proof (is_pivots_valid _ _ _ Hp') as V'.
    rewrite <- Ln in V, V'. apply fy_injective; auto; [apply NoDup_range|].
    destruct Hp as [L _], Hp' as [L' _]. unfold zlen in *. lia.
  - intros s (L & Nd & Hin).
    destruct (fy_surjective (range 0 n) s Nd) as [p [V [Lp E]]].
    { intros x Hx. apply in_range. auto. }
    exists p. split; [|exact E]. rewrite Ln in V. apply valid_is_pivots in V.
    replace (zlen p) with k in V; [exact V|]. unfold zlen in *. lia.
Qed.
Print Assumptions C14_pivots_to_samples_bijection.

(** n = 3, k = 2: the six pivot sequences give the six ordered samples. *)
Example C14_case :
  map (fy (range 0 3)) [[0;0];[0;1];[1;0];[1;1];[2;0];[2;1]] = [[0;1];[0;2];[1;0];[1;2];[2;1];[2;0]].
Proof. vm_compute. reflexivity. Qed.

(* ------------------------------------------------------------------ *)
(** * C15 *)
Definition count (P : Z -> bool) (l : list Z) : Z := zlen (filter P l).

Lemma count_residue N m r : 0 <= r < m ->
  count (fun w => w mod m =? r) (range 0 (Z.of_nat N)) = (Z.of_nat N - r + m - 1) / m.
Proof.
  intros Hr. unfold count. induction N as [|N IH].
  - change (range 0 (Z.of_nat 0)) with (@nil Z). cbn [filter]. change (zlen []) with 0.
    symmetry. apply Z.div_small. lia.
  - replace (Z.of_nat (S N)) with (Z.of_nat N + 1) by lia. rewrite range_snoc by lia.
    rewrite filter_app, zlen_app, IH. set (x := Z.of_nat N) in *. assert (0 <= x) by lia. clearbody x. clear IH N.
    cbn [filter]. pose proof (Z.div_mod x m ltac:(lia)) as E. pose proof (Z.mod_pos_bound x m ltac:(lia)) as B.
    set (q := x / m) in *. set (t := x mod m) in *. clearbody q t. subst x.
    destruct (Z.eqb_spec t r) as [->|Ht].
    + change (zlen [_]) with 1.
      replace (m * q + r - r + m - 1) with (m - 1 + q * m) by ring.
      replace (m * q + r + 1 - r + m - 1) with (0 + (q + 1) * m) by ring.
      rewrite !Z.div_add by lia. rewrite (Z.div_small (m - 1)), Z.div_0_l by lia. lia.
    + change (zlen []) with 0.
      destruct (Z_lt_le_dec t r).
      * replace (m * q + t - r + m - 1) with (t - r + m - 1 + q * m) by ring.
        replace (m * q + t + 1 - r + m - 1) with (t - r + m + q * m) by ring.
        rewrite !Z.div_add by lia. rewrite !Z.div_small by lia. lia.
      * replace (m * q + t - r + m - 1) with (t - r - 1 + (q + 1) * m) by ring.
        replace (m * q + t + 1 - r + m - 1) with (t - r + (q + 1) * m) by ring.
        rewrite !Z.div_add by lia. rewrite !Z.div_small by lia. lia.
Qed.

(** Of the 2^W words, each residue modulo m is hit floor(2^W/m) or ceil(2^W/m) times. *)
Theorem C15_modulo_bias :
  forall W m r, 0 <= W -> 1 <= m <= 2 ^ W -> 0 <= r < m ->
    let hits := count (fun w => w mod m =? r) (range 0 (2 ^ W)) in
    hits = 2 ^ W / m \/ hits = ceil_div (2 ^ W) m.
Proof.
  intros W m r HW Hm Hr hits. subst hits. set (N := 2 ^ W) in *. assert (0 < N) by lia. clearbody N.
  rewrite <- (Z2Nat.id N) at 1 3 by lia. rewrite count_residue by exact Hr.
  rewrite Z2Nat.id by lia. unfold ceil_div.
  pose proof (Z.div_mod N m ltac:(lia)) as E. pose proof (Z.mod_pos_bound N m ltac:(lia)) as B.
  set (q := N / m) in *. set (t := N mod m) in *. clearbody q t. subst N.
  destruct (Z_lt_le_dec r t).
  - right. replace (m * q + t - r + m - 1) with (t - r - 1 + (q + 1) * m) by ring.
    replace (m * q + t + m - 1) with (t - 1 + (q + 1) * m) by ring.
    rewrite !Z.div_add by lia. rewrite !Z.div_small by lia. reflexivity.
  - left. replace (m * q + t - r + m - 1) with (t - r + m - 1 + q * m) by ring.
    rewrite Z.div_add by lia. rewrite Z.div_small by lia. lia.
Qed.
Print Assumptions C15_modulo_bias.

(** The same for the code: drawing one index out of m from a generator whose word is w,
    the number of W-bit words w that select index x is floor or ceil of 2^W/m. *)
Definition const_gen (L : Z) (w : Z) : generator unit Z :=
  {| g_len := L; g_bits := 128; g_fun := fun _ _ => repeat w (Z.to_nat L) |}.
Definition selects (L sb m x w : Z) : bool :=
  match fisher_yates_public (const_gen L w) sb 1 m 1 [-1] (mk_state 0 tt) with
  | Ok ([y], _) => y =? x
  | _ => false
  end.

Theorem C15_single_draw_bias :
  forall L sb W m x, 2 <= L <= 2 ^ 16 -> 1 < sb <= 64 -> m <= 2 ^ (sb - 1) - 1 ->
    0 <= W -> 1 <= m <= 2 ^ W -> 0 <= x < m ->
    let hits := count (selects L sb m x) (range 0 (2 ^ W)) in
    hits = 2 ^ W / m \/ hits = ceil_div (2 ^ W) m.
Proof.
  intros L sb W m x HL Hsb Hm HW HmW Hx hits. subst hits.
  replace (count (selects L sb m x) (range 0 (2 ^ W))) with (count (fun w => w mod m =? x) (range 0 (2 ^ W))).
  { apply C15_modulo_bias; assumption. }
  unfold count. f_equal. apply filter_ext. intros w. unfold selects.
  assert (wf_generator (const_gen L w)) as Hg.
  { split; cbn; [exact HL|lia|]. intros. rewrite zlen_repeat. lia. }
  assert (fy_sizes sb 1 m 1) as Hs.
  { assert (2 ^ 1 <= 2 ^ (sb - 1)) by (apply Z.pow_le_mono_r; lia). unfold fy_sizes. repeat split; lia. }
  destruct (public_spec (const_gen L w) sb 1 m 1 [-1] (mk_state 0 tt) Hg Hs) as [out [E U]]; [cbn; lia|].
  rewrite E. pose proof (upd_block _ _ _ _ _ _ _ _ 0 0 U ltac:(lia) ltac:(lia) ltac:(lia)) as G.
  destruct U as [Lo _]. destruct out as [|y [|]]; try (unfold zlen in Lo; cbn in Lo; lia).
  cbn [Z.mul Z.add] in G. rewrite get_cons_0 in G. unfold sample in G.
  change (range 0 1) with [0] in G. cbn [map fy] in G.
  assert (pivot (const_gen L w) 0 tt m 1 0 0 = w mod m) as Ep.
  { unfold pivot, word. cbn [const_gen g_fun]. rewrite get_repeat by lia. rewrite Z.sub_0_r. reflexivity. }
  cbn [counter key] in G. rewrite Ep in G. pose proof (Z.mod_pos_bound w m ltac:(lia)).
  rewrite get_range in G by lia. cbn in G. injection G as ->. reflexivity.
Qed.
Print Assumptions C15_single_draw_bias.

(** W = 4, m = 3: residues are hit 6, 5 and 5 times. *)
Example C15_case : map (fun x => count (selects 4 32 3 x) (range 0 16)) [0; 1; 2] = [6; 5; 5].
Proof. vm_compute. reflexivity. Qed.
