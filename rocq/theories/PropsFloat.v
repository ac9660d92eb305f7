(** Final theorems about the floating-point part of the index samplers:
    C11 (uniform transformation), C20, C21 (index sampling), C22 (weights_to_cdf).

    [B2R x] is the real number represented by a finite float (Flocq).  A generator
    produces words; [signed b w] is the b-bit word w read in two's complement. *)
From Coq Require Import ZArith Reals Lra Psatz.
From Flocq Require Import Core BinarySingleNaN.
From Verif Require Import Base Spec RngModel SparseSkopModel FyProofs SamplerProofs
  FloatModel FloatProofs FloatProofs2 FloatProofs3 CdfProofs.
Local Open Scope Z_scope.

Definition signed (b w : Z) : Z := if w <? 2 ^ (b - 1) then w else w - 2 ^ b.

Lemma to_sint_signed b w : 0 < b -> 0 <= w < 2 ^ b -> to_sint b w = signed b w.
Proof.
  intros Hb Hw. unfold to_sint, signed.
  assert (2 ^ b = 2 * 2 ^ (b - 1)) as E by (replace b with (1 + (b - 1)) at 1 by ring; rewrite Z.pow_add_r by lia; reflexivity).
  set (h := 2 ^ (b - 1)) in *. rewrite E in *. destruct (Z.ltb_spec w h).
  - rewrite Z.mod_small by lia. lia.
  - rewrite <- (Z.mod_add _ (-1)) by lia. rewrite Z.mod_small; lia.
Qed.

(* ------------------------------------------------------------------ *)
(** * C11 *)
(** Single precision, 32-bit words: the value is finite, in [-1,1], within 2^-22 of the
    exact value (2s+1)/2^32 of the signed word s, nondecreasing in s, and (x+1)/2 lies
    in [0,1] both in single precision and after conversion to double. *)
Theorem C11_uniform_transformation_float :
  forall w, 0 <= w < 2 ^ 32 ->
    let x := uneg11_32 w in
    is_finite x = true /\ (-1 <= B2R x <= 1)%R /\
    (Rabs (B2R x - IZR (2 * signed 32 w + 1) / IZR (2 ^ 32)) <= / IZR (2 ^ 22))%R /\
    (forall w', 0 <= w' < 2 ^ 32 -> signed 32 w <= signed 32 w' -> (B2R x <= B2R (uneg11_32 w'))%R) /\
    (is_finite (u01_32 x) = true /\ (0 <= B2R (u01_32 x) <= 1)%R) /\
    (is_finite (u01_64 (to64 x)) = true /\ (0 <= B2R (u01_64 (to64 x)) <= 1)%R).
Proof.
  intros w Hw x. destruct (uneg11_32_spec w) as (E & Fi & R). fold x in E, Fi, R.
  split; [exact Fi|]. split; [exact R|]. split; [|split; [|split]].
  - pose proof (u11_acc 24 128 ltac:(lia) 32 ltac:(lia) (to_sint 32 w) (to_sint_inw 32 w ltac:(lia))) as A.
    rewrite <- E, (to_sint_signed 32 w) in A by lia.
    unfold Rdiv. rewrite !IZR_pow, <- !bpow_opp by lia. exact A.
  - intros w' Hw' Hs. destruct (uneg11_32_spec w') as (E' & _). rewrite E, E'.
    apply u11_mono; [typeclasses eauto..|]. rewrite !to_sint_signed by lia. exact Hs.
  - destruct (u01_32_spec x Fi R) as (_ & F1 & R1). auto.
  - destruct (to64_ok x Fi) as [E6 F6]. destruct (u01_64_spec (to64 x) F6) as (_ & F1 & R1); [now rewrite E6|]. auto.
Qed.
Print Assumptions C11_uniform_transformation_float.

(** Double precision, generators with 64-bit words. *)
Theorem C11_uniform_transformation_double :
  forall w, 0 <= w < 2 ^ 64 ->
    let x := uneg11_64 w in
    is_finite x = true /\ (-1 <= B2R x <= 1)%R /\
    (Rabs (B2R x - IZR (2 * signed 64 w + 1) / IZR (2 ^ 64)) <= / IZR (2 ^ 51))%R /\
    (forall w', 0 <= w' < 2 ^ 64 -> signed 64 w <= signed 64 w' -> (B2R x <= B2R (uneg11_64 w'))%R) /\
    (is_finite (u01_64 x) = true /\ (0 <= B2R (u01_64 x) <= 1)%R).
Proof.
  intros w Hw x. destruct (uneg11_64_spec w) as (E & Fi & R). fold x in E, Fi, R.
  split; [exact Fi|]. split; [exact R|]. split; [|split].
  - pose proof (u11_acc 53 1024 ltac:(lia) 64 ltac:(lia) (to_sint 64 w) (to_sint_inw 64 w ltac:(lia))) as A.
    rewrite <- E, (to_sint_signed 64 w) in A by lia.
    unfold Rdiv. rewrite !IZR_pow, <- !bpow_opp by lia. exact A.
  - intros w' Hw' Hs. destruct (uneg11_64_spec w') as (E' & _). rewrite E, E'.
    apply u11_mono; [typeclasses eauto..|]. rewrite !to_sint_signed by lia. exact Hs.
  - destruct (u01_64_spec x Fi R) as (_ & F1 & R1). auto.
Qed.
Print Assumptions C11_uniform_transformation_double.

(** Both end points are attained: word 2^31 gives -1 and word 2^31-1 gives +1. *)
Example C11_case :
  B2R (uneg11_32 (2 ^ 31)) = (-1)%R /\ B2R (uneg11_32 (2 ^ 31 - 1)) = 1%R /\
  B2SF (uneg11_32 123456789) = SpecFloat.S754_finite false 15432099 (-28) /\
  0 <= 123456789 < 2 ^ 32.
Proof.
  repeat split; try (vm_compute; congruence).
  - pow_val 23%Z. cbn. lra.
  - pow_val 23%Z. reflexivity.
Qed.

(* ------------------------------------------------------------------ *)
(** * Words used by the samplers *)
(** Word number [t] of a sampler that uses [per] words of each block, [stride] apart. *)
Definition word_of {K} (raw : generator K Z) (st : rng_state K) (blk lane : Z) (w : Z) : Prop :=
  get (g_fun raw ((counter st + blk) mod 2 ^ g_bits raw) (key st)) lane = Some w.

Definition words_ok {K} (b : Z) (raw : generator K Z) : Prop :=
  forall c k l w, get (g_fun raw c k) l = Some w -> 0 <= w < 2 ^ b.

Lemma wf_unif32 {K} (raw : generator K Z) : wf_generator raw -> wf_generator (unif32 raw).
Proof. intros [H1 H2 H3]. split; [exact H1|exact H2|]. intros c k. cbn. unfold zlen in *. rewrite map_length. apply H3. Qed.
Lemma wf_unif64 {K} (raw : generator K Z) : wf_generator raw -> wf_generator (unif64 raw).
Proof. intros [H1 H2 H3]. split; [exact H1|exact H2|]. intros c k. cbn. unfold zlen in *. rewrite map_length. apply H3. Qed.

Lemma iid_words {K F T} (raw : generator K Z) (tr : Z -> F) draw (dr : F -> Z) nonneg (one mone : T) k samples rad st :
  wf_generator raw ->
  0 <= counter st < 2 ^ g_bits raw -> 0 <= k -> k <= zlen samples -> long_opt k rad ->
  (forall x, draw x = Ok (dr x)) ->
  let g := mk_generator K F (g_len raw) (g_bits raw) (fun c k => map tr (g_fun raw c k)) in
  exists samples' rad' st',
    sample_indices g draw nonneg one mone k samples rad st = Ok (samples', rad', st') /\
    zlen samples' = zlen samples /\
    (forall p, ~ 0 <= p < k -> get samples' p = get samples p) /\
    (forall t, 0 <= t < k -> exists w,
       word_of raw st (t / per_block raw rad) (per_draw rad * (t mod per_block raw rad)) w /\
       get samples' t = Some (dr (tr w))).
Proof.
  intros Hwf Hc Hk Hs Hr Hd g.
  assert (wf_generator g) as Hg.
  { destruct Hwf as [H1 H2 H3]. split; [exact H1|exact H2|]. intros c ky. cbn. unfold zlen in *. rewrite map_length. apply H3. }
  destruct (sample_indices_spec g draw dr nonneg one mone (tr 0) Hg Hd k samples rad st Hc Hk Hs Hr)
    as (s' & r' & E & [L U] & _).
  do 3 eexists. split; [exact E|]. split; [exact L|]. split.
  - intros p Hp. rewrite U. replace ((0 <=? p) && (p <? k)) with false by lia. reflexivity.
  - intros t Ht. destruct (per_block_pos (T := T) raw Hwf rad) as [P1 P2].
    set (h := per_block raw rad) in *. set (s := per_draw rad) in *.
    pose proof (Z.mod_pos_bound t h ltac:(lia)) as Bm.
    assert (1 <= s) by (unfold s, per_draw; destruct rad; lia).
    assert (0 <= s * (t mod h) < g_len raw) as Bl.
    { split; [apply Z.mul_nonneg_nonneg; lia|]. apply Z.lt_le_trans with (s * h); [|exact P2].
      apply Z.mul_lt_mono_pos_l; lia. }
    destruct (get_lt (g_fun raw ((counter st + t / h) mod 2 ^ g_bits raw) (key st)) (s * (t mod h))) as [w G].
    { rewrite (wf_fun _ Hwf). exact Bl. }
    exists w. split; [exact G|]. rewrite U. replace ((0 <=? t) && (t <? k)) with true by lia.
    unfold draw_at, lane. f_equal. f_equal.
    replace (per_block g rad) with h by reflexivity. cbn [g_fun g_bits g]. fold s.
    rewrite get_map, G. reflexivity.
Qed.

(* ------------------------------------------------------------------ *)
(** * C20 *)
(** Full claim: every index written by sample_indices_iid_uniform(n,k,...) is in [0,n).
    It is false: *)
Theorem C20_indices_in_range_refuted :
  exists (raw : generator unit Z) n k samples st samples' st',
    wf_generator raw /\ words_ok 32 raw /\ 1 <= n /\
    sample_indices_iid_uniform32 (T := unit) raw tt tt n k samples None st = Ok (samples', None, st') /\
    exists t, 0 <= t < k /\ get samples' t = Some n.
Proof.
  exists (mk_generator unit Z 4 128 (fun _ _ => [5; 2 ^ 31 - 64; 7; 2 ^ 32 - 1])), 10, 3, [0; 0; 0], (mk_state 0 tt).
  eexists. eexists. split; [|split; [|split; [|split]]].
  - split; cbn; intros; try lia; reflexivity.
  - intros c k l w G. assert (exists l, get (g_fun _ c k) l = Some w) as J by (exists l; exact G). apply get_In in J. cbn in J. lia.
  - lia.
  - vm_compute. reflexivity.
  - exists 1. split; [lia|reflexivity].
Qed.
Print Assumptions C20_indices_in_range_refuted.

(** What holds: the index is in [0,n], and it is in range exactly when the word it was
    computed from is not among the 64 largest signed 32-bit words.  (n <= 2^53, with and
    without signs; 64-bit generators: the 1535 largest signed words.) *)
Theorem C20_indices_in_range_partial :
  forall {K T} (raw : generator K Z) (one mone : T) n k samples rad st,
    wf_generator raw -> words_ok 32 raw -> 0 <= counter st < 2 ^ g_bits raw ->
    1 <= n <= 2 ^ 53 -> 0 <= k -> k <= zlen samples -> long_opt k rad ->
    let h := match rad with None => g_len raw | Some _ => g_len raw / 2 end in
    let s := match rad with None => 1 | Some _ => 2 end in
    exists samples' rad' st',
      sample_indices_iid_uniform32 raw one mone n k samples rad st = Ok (samples', rad', st') /\
      (forall p, ~ 0 <= p < k -> get samples' p = get samples p) /\
      forall t, 0 <= t < k -> exists w i,
        word_of raw st (t / h) (s * (t mod h)) w /\ get samples' t = Some i /\
        0 <= i <= n /\ (i < n <-> signed 32 w < 2 ^ 31 - 64).
Proof.
  intros K T raw one mone n k samples rad st Hwf Hw Hc Hn Hk Hs Hr h s.
  destruct (iid_words raw uneg11_32 (fun x => Ok (uniform_index_32 n x)) (uniform_index_32 n) nonneg32 one mone
    k samples rad st Hwf Hc Hk Hs Hr (fun _ => eq_refl)) as (s' & r' & st' & E & _ & Fr & D).
  exists s', r', st'. split; [exact E|]. split; [exact Fr|]. intros t Ht.
  destruct (D t Ht) as (w & W & G). exists w, (uniform_index_32 n (uneg11_32 w)).
  split; [destruct rad; exact W|]. split; [exact G|].
  destruct (uniform_index_32_spec n w Hn) as [I1 I2]. rewrite to_sint_signed in I2; [auto|lia|].
  unfold word_of in W. eapply Hw. exact W.
Qed.
Print Assumptions C20_indices_in_range_partial.

Theorem C20_indices_in_range_64_partial :
  forall {K T} (raw : generator K Z) (one mone : T) n k samples rad st,
    wf_generator raw -> words_ok 64 raw -> 0 <= counter st < 2 ^ g_bits raw ->
    1 <= n <= 2 ^ 53 -> 0 <= k -> k <= zlen samples -> long_opt k rad ->
    let h := match rad with None => g_len raw | Some _ => g_len raw / 2 end in
    let s := match rad with None => 1 | Some _ => 2 end in
    exists samples' rad' st',
      sample_indices_iid_uniform64 raw one mone n k samples rad st = Ok (samples', rad', st') /\
      (forall p, ~ 0 <= p < k -> get samples' p = get samples p) /\
      forall t, 0 <= t < k -> exists w i,
        word_of raw st (t / h) (s * (t mod h)) w /\ get samples' t = Some i /\
        0 <= i <= n /\ (i < n <-> signed 64 w < 2 ^ 63 - 1535).
Proof.
  intros K T raw one mone n k samples rad st Hwf Hw Hc Hn Hk Hs Hr h s.
  destruct (iid_words raw uneg11_64 (fun x => Ok (uniform_index n x)) (uniform_index n) nonneg64 one mone
    k samples rad st Hwf Hc Hk Hs Hr (fun _ => eq_refl)) as (s' & r' & st' & E & _ & Fr & D).
  exists s', r', st'. split; [exact E|]. split; [exact Fr|]. intros t Ht.
  destruct (D t Ht) as (w & W & G). exists w, (uniform_index n (uneg11_64 w)).
  split; [destruct rad; exact W|]. split; [exact G|].
  destruct (uniform_index_64_spec n w Hn) as [I1 I2]. rewrite to_sint_signed in I2; [auto|lia|].
  unfold word_of in W. eapply Hw. exact W.
Qed.
Print Assumptions C20_indices_in_range_64_partial.

(** Three draws from {0..9} with a block that contains no word among the 64 largest. *)
Example C20_case :
  let raw := mk_generator unit Z 4 128 (fun c _ => [c; 2 ^ 31; 2 ^ 31 - 65; 2 ^ 32 - 1]) in
  wf_generator raw /\
  sample_indices_iid_uniform32 raw 1 (-1) 10 3 [77; 77; 77; 77] None (mk_state 3 tt) =
    Ok ([5; 0; 9; 77], None, mk_state 4 tt).
Proof. split; [split; cbn; intros; try lia; reflexivity|vm_compute; reflexivity]. Qed.

(** Signs.  The sign written with draw t is + exactly when the word it comes from has its
    top bit clear: half of all words. *)
Lemma Rlt_bool_lt x y : Rlt_bool x y = true -> (x < y)%R.
Proof. destruct (Rlt_bool_spec x y); [auto|discriminate]. Qed.
Lemma nonneg32_word w : 0 <= w < 2 ^ 32 -> nonneg32 (uneg11_32 w) = (w <? 2 ^ 31).
Proof.
  intros Hw. destruct (uneg11_32_spec w) as (E & Fi & _). unfold nonneg32. destruct zero32_ok as [Z1 Z2]. rewrite Bleb_correct by assumption. rewrite Z1.
  assert (0 < B2R (uneg11_32 0))%R as P.
  { assert (Bltb (of_Z32 0) (uneg11_32 0) = true) as B by (vm_compute; reflexivity). destruct (uneg11_32_spec 0) as (_ & F0 & _). rewrite Bltb_correct, Z1 in B by assumption.
    exact (Rlt_bool_lt _ _ B). }
  assert (B2R (uneg11_32 (2 ^ 32 - 1)) < 0)%R as N.
  { assert (Bltb (uneg11_32 (2 ^ 32 - 1)) (of_Z32 0) = true) as B by (vm_compute; reflexivity). destruct (uneg11_32_spec (2 ^ 32 - 1)) as (_ & F0 & _). rewrite Bltb_correct, Z1 in B by assumption.
    exact (Rlt_bool_lt _ _ B). }
  destruct (uneg11_32_spec 0) as (E0 & _). destruct (uneg11_32_spec (2 ^ 32 - 1)) as (E1 & _). rewrite E0 in P. rewrite E1 in N. rewrite E.
  pose proof (to_sint_signed 32 w ltac:(lia) Hw) as Sg. unfold signed in Sg. destruct (Z.ltb_spec w (2 ^ 31)) as [L|L].
  - replace (w <? 2 ^ (32 - 1)) with true in Sg by lia. rewrite Sg. apply Rle_bool_true. eapply Rle_trans; [apply Rlt_le, P|]. apply u11_mono; [typeclasses eauto..|]. change (to_sint 32 0) with 0. lia.
  - replace (w <? 2 ^ (32 - 1)) with false in Sg by lia. rewrite Sg. apply Rle_bool_false. eapply Rle_lt_trans; [|exact N]. apply u11_mono; [typeclasses eauto..|]. change (to_sint 32 (2 ^ 32 - 1)) with (-1). lia.
Qed.
Lemma nonneg64_word w : 0 <= w < 2 ^ 64 -> nonneg64 (uneg11_64 w) = (w <? 2 ^ 63).
Proof.
  intros Hw. destruct (uneg11_64_spec w) as (E & Fi & _). unfold nonneg64. destruct zero64_ok as [Z1 Z2]. rewrite Bleb_correct by assumption. rewrite Z1.
  assert (0 < B2R (uneg11_64 0))%R as P.
  { assert (Bltb (of_Z64 0) (uneg11_64 0) = true) as B by (vm_compute; reflexivity). destruct (uneg11_64_spec 0) as (_ & F0 & _). rewrite Bltb_correct, Z1 in B by assumption.
    exact (Rlt_bool_lt _ _ B). }
  assert (B2R (uneg11_64 (2 ^ 64 - 1)) < 0)%R as N.
  { assert (Bltb (uneg11_64 (2 ^ 64 - 1)) (of_Z64 0) = true) as B by (vm_compute; reflexivity). destruct (uneg11_64_spec (2 ^ 64 - 1)) as (_ & F0 & _). rewrite Bltb_correct, Z1 in B by assumption.
    exact (Rlt_bool_lt _ _ B). }
  destruct (uneg11_64_spec 0) as (E0 & _). destruct (uneg11_64_spec (2 ^ 64 - 1)) as (E1 & _). rewrite E0 in P. rewrite E1 in N. rewrite E.
  pose proof (to_sint_signed 64 w ltac:(lia) Hw) as Sg. unfold signed in Sg. destruct (Z.ltb_spec w (2 ^ 63)) as [L|L].
  - replace (w <? 2 ^ (64 - 1)) with true in Sg by lia. rewrite Sg. apply Rle_bool_true. eapply Rle_trans; [apply Rlt_le, P|]. apply u11_mono; [typeclasses eauto..|]. change (to_sint 64 0) with 0. lia.
  - replace (w <? 2 ^ (64 - 1)) with false in Sg by lia. rewrite Sg. apply Rle_bool_false. eapply Rle_lt_trans; [|exact N]. apply u11_mono; [typeclasses eauto..|]. change (to_sint 64 (2 ^ 64 - 1)) with (-1). lia.
Qed.
Lemma iid_signs {K F T} (raw : generator K Z) (tr : Z -> F) draw (dr : F -> Z) nonneg (one mone : T) k samples r st :
  wf_generator raw -> 0 <= counter st < 2 ^ g_bits raw -> 0 <= k -> k <= zlen samples -> k <= zlen r -> (forall x, draw x = Ok (dr x)) ->
  let g := mk_generator K F (g_len raw) (g_bits raw) (fun c k => map tr (g_fun raw c k)) in
  exists samples' r' st',
    sample_indices g draw nonneg one mone k samples (Some r) st = Ok (samples', Some r', st') /\
    zlen r' = zlen r /\ (forall p, ~ 0 <= p < k -> get r' p = get r p) /\
    (forall t, 0 <= t < k -> exists w,
       word_of raw st (t / (g_len raw / 2)) (2 * (t mod (g_len raw / 2)) + 1) w /\ get r' t = Some (if nonneg (tr w) then one else mone)).
Proof.
  intros Hwf Hc Hk Hs Hr Hd g.
  assert (wf_generator g) as Hg.
  { destruct Hwf as [H1 H2 H3]. split; [exact H1|exact H2|]. intros c ky. cbn. unfold zlen in *. rewrite map_length. apply H3. }
  destruct (sample_indices_spec g draw dr nonneg one mone (tr 0) Hg Hd k samples (Some r) st Hc Hk Hs Hr) as (s' & r' & E & _ & U).
  destruct r' as [r'|]; [|contradiction]. destruct U as [L U].
  do 3 eexists. split; [exact E|]. split; [exact L|]. split.
  - intros p Hp. rewrite U. replace ((0 <=? p) && (p <? k)) with false by lia. reflexivity.
  - intros t Ht. assert (2 <= g_len raw) as H2 by apply Hwf. set (h := g_len raw / 2) in *.
    assert (1 <= h) by (unfold h; apply Z.div_le_lower_bound; lia). assert (2 * h <= g_len raw) by (unfold h; apply Z.mul_div_le; lia).
    pose proof (Z.mod_pos_bound t h ltac:(lia)) as Bm.
    destruct (get_lt (g_fun raw ((counter st + t / h) mod 2 ^ g_bits raw) (key st)) (2 * (t mod h) + 1)) as [w G].
    { rewrite (wf_fun _ Hwf). lia. }
    exists w. split; [exact G|]. rewrite U. replace ((0 <=? t) && (t <? k)) with true by lia.
    unfold rad_at, lane. f_equal. replace (per_block g (Some r)) with h by reflexivity. cbn [g_fun g_bits g]. rewrite get_map, G. reflexivity.
Qed.
Theorem C20_signs :
  forall {K T} (raw : generator K Z) (one mone : T) n k samples r st,
    wf_generator raw -> words_ok 32 raw -> 0 <= counter st < 2 ^ g_bits raw -> 0 <= k -> k <= zlen samples -> k <= zlen r ->
    let h := g_len raw / 2 in
    exists samples' r' st',
      sample_indices_iid_uniform32 raw one mone n k samples (Some r) st = Ok (samples', Some r', st') /\
      (forall p, ~ 0 <= p < k -> get r' p = get r p) /\
      forall t, 0 <= t < k -> exists w,
        word_of raw st (t / h) (2 * (t mod h) + 1) w /\ get r' t = Some (if w <? 2 ^ 31 then one else mone).
Proof.
  intros K T raw one mone n k samples r st Hwf Hw Hc Hk Hs Hr h.
  destruct (iid_signs raw uneg11_32 (fun x => Ok (uniform_index_32 n x)) (uniform_index_32 n) nonneg32 one mone k samples r st Hwf Hc Hk Hs Hr (fun _ => eq_refl)) as (s' & r' & st' & E & _ & Fr & D).
  exists s', r', st'. split; [exact E|]. split; [exact Fr|]. intros t Ht. destruct (D t Ht) as (w & W & G). exists w. split; [exact W|]. rewrite G, nonneg32_word; [reflexivity|].
  unfold word_of in W. eapply Hw. exact W.
Qed.
Print Assumptions C20_signs.
Theorem C20_signs_64 :
  forall {K T} (raw : generator K Z) (one mone : T) n k samples r st,
    wf_generator raw -> words_ok 64 raw -> 0 <= counter st < 2 ^ g_bits raw -> 0 <= k -> k <= zlen samples -> k <= zlen r ->
    let h := g_len raw / 2 in
    exists samples' r' st',
      sample_indices_iid_uniform64 raw one mone n k samples (Some r) st = Ok (samples', Some r', st') /\
      (forall p, ~ 0 <= p < k -> get r' p = get r p) /\
      forall t, 0 <= t < k -> exists w,
        word_of raw st (t / h) (2 * (t mod h) + 1) w /\ get r' t = Some (if w <? 2 ^ 63 then one else mone).
Proof.
  intros K T raw one mone n k samples r st Hwf Hw Hc Hk Hs Hr h.
  destruct (iid_signs raw uneg11_64 (fun x => Ok (uniform_index n x)) (uniform_index n) nonneg64 one mone k samples r st Hwf Hc Hk Hs Hr (fun _ => eq_refl)) as (s' & r' & st' & E & _ & Fr & D).
  exists s', r', st'. split; [exact E|]. split; [exact Fr|]. intros t Ht. destruct (D t Ht) as (w & W & G). exists w. split; [exact W|]. rewrite G, nonneg64_word; [reflexivity|].
  unfold word_of in W. eapply Hw. exact W.
Qed.
Print Assumptions C20_signs_64.
Example C20_signs_case :
  let raw := mk_generator unit Z 4 128 (fun c _ => [c; 2 ^ 31; 2 ^ 31 - 65; 2 ^ 31 - 1]) in
  exists s', sample_indices_iid_uniform32 raw 1 (-1) 10 3 [77; 77; 77] (Some [0; 0; 0; 0]) (mk_state 3 tt) = Ok (s', Some [-1; 1; -1; 0], mk_state 5 tt).
Proof. eexists. vm_compute. reflexivity. Qed.

(* ------------------------------------------------------------------ *)
(** * C21 *)
(** Probability mass of index [s] under [cdf]. *)
Definition entry {p e} (cdf : list (binary_float p e)) (s : Z) : R :=
  match get cdf s with Some x => B2R x | None => 0%R end.
Definition mass {p e} (cdf : list (binary_float p e)) (s : Z) : R :=
  (entry cdf s - (if s =? 0 then 0 else entry cdf (s - 1)))%R.

(** [s] inverts [cdf] at [u]. *)
Definition inverts {p e} (n : Z) (cdf : list (binary_float p e)) (u : R) (s : Z) : Prop :=
  0 <= s <= n /\
  (0 < s -> (entry cdf (s - 1) < u)%R) /\
  (s < n -> (u <= entry cdf s)%R) /\
  (s < n <-> (u <= entry cdf (n - 1))%R) /\
  (s < n -> (0 < u)%R -> (0 < mass cdf s)%R).

Lemma lower_bound_inverts {p e} n (cdf : list (binary_float p e)) (v : binary_float p e) :
  1 <= n <= zlen cdf -> sorted_finite cdf n -> is_finite v = true ->
  exists s, lower_bound Bltb cdf n v = Ok s /\ inverts n cdf (B2R v) s.
Proof.
  intros Hn Hs Fv. destruct (lower_bound_spec Bltb cdf n v ltac:(lia) (sorted_partitioned cdf n v Hs)) as (s & E & Hr & Lo & Hi).
  exists s. split; [exact E|]. destruct Hs as [Hf Hm].
  assert (forall i, 0 <= i < n -> exists x, get cdf i = Some x /\ is_finite x = true /\ entry cdf i = B2R x) as En.
  { intros i Hi'. destruct (get_lt cdf i ltac:(lia)) as [x G]. exists x. split; [exact G|]. split; [now apply (Hf i)|].
    unfold entry. now rewrite G. }
  assert (0 < s -> (entry cdf (s - 1) < B2R v)%R) as A.
  { intros Hp. destruct (En (s - 1) ltac:(lia)) as (x & G & Fx & ->).
    pose proof (Lo (s - 1) x ltac:(lia) G) as L. rewrite Bltb_correct in L by assumption.
    destruct (Rlt_bool_spec (B2R x) (B2R v)); [assumption|discriminate]. }
  assert (forall i, s <= i < n -> (B2R v <= entry cdf i)%R) as B.
  { intros i Hp. destruct (En i ltac:(lia)) as (x & G & Fx & ->).
    pose proof (Hi i x ltac:(lia) G) as L. rewrite Bltb_correct in L by assumption.
    destruct (Rlt_bool_spec (B2R x) (B2R v)); [discriminate|assumption]. }
  split; [exact Hr|]. split; [exact A|]. split; [intros; apply B; lia|]. split.
  - split; [intros; apply B; lia|]. intros U. destruct (Z.eq_dec s n) as [->|Ne]; [|lia].
    specialize (A ltac:(lia)). lra.
  - intros Hp Pv. unfold mass. specialize (B s ltac:(lia)). destruct (Z.eqb_spec s 0).
    + lra.
    + specialize (A ltac:(lia)). lra.
Qed.

(** Every index written by sample_indices_iid inverts the CDF at the drawn u: cdf[s-1] < u
    <= cdf[s]; s = n (out of range) iff u exceeds the last entry; the index drawn has
    positive mass unless u = 0.  Double-precision CDF. *)
Theorem C21_inverts_cdf_double_partial :
  forall {K} (raw : generator K Z) n cdf k samples st,
    wf_generator raw -> 0 <= counter st < 2 ^ g_bits raw ->
    1 <= n <= zlen cdf -> sorted_finite cdf n -> 0 <= k -> k <= zlen samples ->
    exists samples' st',
      sample_indices_iid64 raw n cdf k samples st = Ok (samples', None, st') /\
      (forall p, ~ 0 <= p < k -> get samples' p = get samples p) /\
      forall t, 0 <= t < k -> exists w s,
        word_of raw st (t / g_len raw) (t mod g_len raw) w /\ get samples' t = Some s /\
        inverts n cdf (B2R (u01_64 (to64 (uneg11_32 w)))) s.
Proof.
  intros K raw n cdf k samples st Hwf Hc Hn Hs Hk Hl.
  assert (forall x, cdf_index64 n cdf x = Ok (match cdf_index64 n cdf x with Ok s => s | _ => 0 end)) as Hd.
  { intros x. unfold cdf_index64.
    destruct (lower_bound_spec Bltb cdf n (u01_64 (to64 x)) ltac:(lia) (sorted_partitioned cdf n _ Hs)) as (s & E & _).
    now rewrite E. }
  destruct (iid_words raw uneg11_32 (cdf_index64 n cdf) _ nonneg32 tt tt k samples None st Hwf Hc Hk Hl I Hd)
    as (s' & r' & st' & E & _ & Fr & D).
  assert (r' = None) as ->.
  { destruct (sample_indices_spec (unif32 raw) (cdf_index64 n cdf) _ nonneg32 tt tt (uneg11_32 0) (wf_unif32 raw Hwf) Hd k samples None st Hc Hk Hl I)
      as (s2 & r2 & E2 & _ & U2). unfold unif32 in E2. rewrite E in E2. injection E2 as <- <- _. destruct r'; [contradiction|reflexivity]. }
  exists s', st'. split; [exact E|]. split; [exact Fr|]. intros t Ht. destruct (D t Ht) as (w & W & G).
  cbn [per_block per_draw] in W. rewrite Z.mul_1_l in W.
  destruct (uneg11_32_spec w) as (_ & Fi & R). destruct (to64_ok _ Fi) as [E6 F6].
  destruct (u01_64_spec (to64 (uneg11_32 w)) F6) as (_ & F1 & _); [now rewrite E6|].
  destruct (lower_bound_inverts n cdf _ Hn Hs F1) as (s & Es & Is).
  exists w, s. split; [exact W|]. split; [|exact Is]. rewrite G. unfold cdf_index64. now rewrite Es.
Qed.
Print Assumptions C21_inverts_cdf_double_partial.

(** The same for a single-precision CDF. *)
Theorem C21_inverts_cdf_float_partial :
  forall {K} (raw : generator K Z) n cdf k samples st,
    wf_generator raw -> 0 <= counter st < 2 ^ g_bits raw ->
    1 <= n <= zlen cdf -> sorted_finite cdf n -> 0 <= k -> k <= zlen samples ->
    exists samples' st',
      sample_indices_iid32 raw n cdf k samples st = Ok (samples', None, st') /\
      (forall p, ~ 0 <= p < k -> get samples' p = get samples p) /\
      forall t, 0 <= t < k -> exists w s,
        word_of raw st (t / g_len raw) (t mod g_len raw) w /\ get samples' t = Some s /\
        inverts n cdf (B2R (u01_32 (uneg11_32 w))) s.
Proof.
  intros K raw n cdf k samples st Hwf Hc Hn Hs Hk Hl.
  assert (forall x, cdf_index32 n cdf x = Ok (match cdf_index32 n cdf x with Ok s => s | _ => 0 end)) as Hd.
  { intros x. unfold cdf_index32.
    destruct (lower_bound_spec Bltb cdf n (u01_32 x) ltac:(lia) (sorted_partitioned cdf n _ Hs)) as (s & E & _).
    now rewrite E. }
  destruct (iid_words raw uneg11_32 (cdf_index32 n cdf) _ nonneg32 tt tt k samples None st Hwf Hc Hk Hl I Hd)
    as (s' & r' & st' & E & _ & Fr & D).
  assert (r' = None) as ->.
  { destruct (sample_indices_spec (unif32 raw) (cdf_index32 n cdf) _ nonneg32 tt tt (uneg11_32 0) (wf_unif32 raw Hwf) Hd k samples None st Hc Hk Hl I)
      as (s2 & r2 & E2 & _ & U2). unfold unif32 in E2. rewrite E in E2. injection E2 as <- <- _. destruct r'; [contradiction|reflexivity]. }
  exists s', st'. split; [exact E|]. split; [exact Fr|]. intros t Ht. destruct (D t Ht) as (w & W & G).
  cbn [per_block per_draw] in W. rewrite Z.mul_1_l in W.
  destruct (uneg11_32_spec w) as (_ & Fi & R).
  destruct (u01_32_spec (uneg11_32 w) Fi R) as (_ & F1 & _).
  destruct (lower_bound_inverts n cdf _ Hn Hs F1) as (s & Es & Is).
  exists w, s. split; [exact W|]. split; [|exact Is]. rewrite G. unfold cdf_index32. now rewrite Es.
Qed.
Print Assumptions C21_inverts_cdf_float_partial.

(** If the last entry is 1, as the documentation requires, every index is in range. *)
Theorem C21_in_range_when_last_entry_is_one :
  forall {K} (raw : generator K Z) n cdf k samples st,
    wf_generator raw -> 0 <= counter st < 2 ^ g_bits raw ->
    1 <= n <= zlen cdf -> sorted_finite cdf n -> entry cdf (n - 1) = 1%R -> 0 <= k -> k <= zlen samples ->
    exists samples' st',
      sample_indices_iid64 raw n cdf k samples st = Ok (samples', None, st') /\
      forall t, 0 <= t < k -> exists s, get samples' t = Some s /\ 0 <= s < n.
Proof.
  intros K raw n cdf k samples st Hwf Hc Hn Hs H1 Hk Hl.
  destruct (C21_inverts_cdf_double_partial raw n cdf k samples st Hwf Hc Hn Hs Hk Hl) as (s' & st' & E & _ & D).
  exists s', st'. split; [exact E|]. intros t Ht. destruct (D t Ht) as (w & s & _ & G & (I1 & _ & _ & I2 & _)).
  exists s. split; [exact G|]. split; [lia|]. apply I2. rewrite H1.
  destruct (uneg11_32_spec w) as (_ & Fi & R). destruct (to64_ok _ Fi) as [E6 F6].
  destruct (u01_64_spec (to64 (uneg11_32 w)) F6) as (_ & _ & B); [now rewrite E6|]. lra.
Qed.
Print Assumptions C21_in_range_when_last_entry_is_one.

(** Refuted parts.  The CDF computed by weights_to_cdf from the single weight 49 ends at
    1 - 2^-53, and the word 2^31-1 (u = 1) then yields index 1 of 1. *)
Theorem C21_in_range_after_weights_to_cdf_refuted :
  exists w cdf (raw : generator unit Z) samples' st',
    weights_to_cdf64 1 w (of_Z64 0) = Ok cdf /\ wf_generator raw /\ words_ok 32 raw /\
    sample_indices_iid64 raw 1 cdf 1 [0] (mk_state 0 tt) = Ok (samples', None, st') /\
    get samples' 0 = Some 1.
Proof.
  exists [of_Z64 49]. eexists. exists (mk_generator unit Z 4 128 (fun _ _ => [2 ^ 31 - 1; 0; 0; 0])). do 2 eexists.
  split; [reflexivity|]. split; [split; cbn; intros; try lia; reflexivity|]. split.
  { intros c k l w G. assert (exists l, get (g_fun _ c k) l = Some w) as J by (exists l; exact G). apply get_In in J. cbn in J. lia. }
  split; [vm_compute; reflexivity|reflexivity].
Qed.
Print Assumptions C21_in_range_after_weights_to_cdf_refuted.

(** The word 2^31 gives u = 0, for which index 0 is returned even if its mass is 0. *)
Theorem C21_never_zero_mass_refuted :
  exists w cdf (raw : generator unit Z) samples' st',
    weights_to_cdf64 2 w (of_Z64 0) = Ok cdf /\ wf_generator raw /\ words_ok 32 raw /\
    sample_indices_iid64 raw 2 cdf 1 [7] (mk_state 0 tt) = Ok (samples', None, st') /\
    get samples' 0 = Some 0 /\ mass cdf 0 = 0%R.
Proof.
  exists [of_Z64 0; of_Z64 1]. eexists. exists (mk_generator unit Z 4 128 (fun _ _ => [2 ^ 31; 0; 0; 0])). do 2 eexists.
  split; [reflexivity|]. split; [split; cbn; intros; try lia; reflexivity|]. split.
  { intros c k l w G. assert (exists l, get (g_fun _ c k) l = Some w) as J by (exists l; exact G). apply get_In in J. cbn in J. lia. }
  split; [vm_compute; reflexivity|]. split; [reflexivity|].
  unfold mass, entry. cbn [get]. vm_compute (get _ 0). cbn. lra.
Qed.
Print Assumptions C21_never_zero_mass_refuted.

(* ------------------------------------------------------------------ *)
(** * C22 *)
(** ** Exact arithmetic *)
Definition Rleb (a b : R) : bool := if Rle_dec a b then true else false.
(** weights_to_cdf over the reals; [eps] stands for numeric_limits<T>::epsilon(). *)
Definition weights_to_cdfR (eps : R) (n : Z) (w : list R) (lo : R) : outcome (list R) :=
  weights_to_cdf Rplus Rmult Rdiv Rleb 0%R 1%R (fun n => (sqrt (IZR n) * eps)%R) n w lo.

(** max(0,v_0) + ... + max(0,v_{i-1}). *)
Definition clipped_sum (w : list R) (i : Z) : R :=
  fold_right Rplus 0%R (map (Rmax 0) (firstn (Z.to_nat i) w)).

Lemma fold_left_clip l a :
  fold_left (fun s v => (s + fmax Rleb v 0)%R) l a = (a + fold_right Rplus 0 (map (Rmax 0) l))%R.
Proof.
  revert a. induction l as [|x l IH]; intros a; cbn [fold_left fold_right map]; [ring|].
  rewrite IH. assert (fmax Rleb x 0%R = Rmax 0 x) as ->; [|ring].
  unfold fmax, Rleb. destruct (Rle_dec 0 x); [now rewrite Rmax_right|rewrite Rmax_left; [reflexivity|lra]].
Qed.
Lemma psumR w i : psum Rplus Rleb 0%R w i = clipped_sum w i.
Proof. unfold psum, clipped_sum. rewrite fold_left_clip. ring. Qed.

Lemma clipped_sum_mono w i j : 0 <= i <= j -> (clipped_sum w i <= clipped_sum w j)%R.
Proof.
  intros H. unfold clipped_sum. replace (Z.to_nat j) with (Z.to_nat i + Z.to_nat (j - i))%nat by lia.
  generalize (Z.to_nat (j - i)). intros q. revert w.
  assert (forall l, (0 <= fold_right Rplus 0 (map (Rmax 0) l))%R) as P.
  { induction l as [|x l IH]; cbn; [lra|]. pose proof (Rmax_l 0 x). lra. }
  induction (Z.to_nat i) as [|k IH]; intros w; cbn [Nat.add firstn map fold_right]; [apply P|].
  destruct w as [|x w]; cbn [firstn map fold_right]; [lra|]. specialize (IH w). lra.
Qed.

Theorem C22_weights_to_cdf_exact_partial :
  forall eps n w lo, (0 < eps)%R -> 1 <= n <= zlen w ->
    (weights_to_cdfR eps n w lo = Throw <->
       (exists i v, 0 <= i < n /\ get w i = Some v /\ (v < lo)%R) \/
       (clipped_sum w n < sqrt (IZR n) * eps)%R) /\
    (weights_to_cdfR eps n w lo <> Throw ->
     exists w', weights_to_cdfR eps n w lo = Ok w' /\ zlen w' = zlen w /\
       (forall i, 0 <= i < n -> get w' i = Some (clipped_sum w (i + 1) / clipped_sum w n)%R) /\
       (forall i, ~ 0 <= i < n -> get w' i = get w i) /\
       (forall i j x y, 0 <= i <= j -> j < n -> get w' i = Some x -> get w' j = Some y -> (0 <= x <= y)%R) /\
       get w' (n - 1) = Some 1%R).
Proof.
  intros eps n w lo He Hn. unfold weights_to_cdfR.
  assert (0 < sqrt (IZR n) * eps)%R as Ht.
  { apply Rmult_lt_0_compat; [|exact He]. apply sqrt_lt_R0. apply IZR_lt. lia. }
  destruct (weights_to_cdf_spec Rplus Rmult Rdiv Rleb 0%R 1%R (fun n => (sqrt (IZR n) * eps)%R) lo n w ltac:(lia))
    as [(Hok & Hs & w' & E & L & G & Fr)|(E & H)].
  - rewrite psumR in Hs. unfold Rleb in Hs. destruct (Rle_dec _ _) as [Hs'|]; [|discriminate]. clear Hs. split.
    + rewrite E. split; [discriminate|]. intros [(i & v & Hi & Gv & Lv)|C]; [|lra].
      specialize (Hok i v Hi Gv). unfold Rleb in Hok. destruct (Rle_dec lo v); [lra|discriminate].
    + intros _. exists w'. split; [exact E|]. split; [exact L|].
      assert (forall i, 0 <= i < n -> get w' i = Some (clipped_sum w (i + 1) / clipped_sum w n)%R) as G'.
      { intros i Hi. rewrite (G i Hi), !psumR. f_equal. unfold Rdiv. ring. }
      assert (0 < / clipped_sum w n)%R as Pi by (apply Rinv_0_lt_compat; lra).
      split; [exact G'|]. split; [exact Fr|]. split.
      * intros i j x y Hij Hj Gx Gy. rewrite G' in Gx, Gy by lia. injection Gx as <-. injection Gy as <-.
        pose proof (clipped_sum_mono w 0 (i + 1) ltac:(lia)) as M0. change (clipped_sum w 0) with 0%R in M0.
        pose proof (clipped_sum_mono w (i + 1) (j + 1) ltac:(lia)) as M1.
        unfold Rdiv. split; [apply Rmult_le_pos; lra|]. apply Rmult_le_compat_r; lra.
      * rewrite G' by lia. f_equal. replace (n - 1 + 1) with n by ring. field. lra.
  - rewrite E. split.
    + split; [intros _|reflexivity]. destruct H as [(i & v & Hi & Gv & Lv)|H].
      * left. exists i, v. split; [exact Hi|]. split; [exact Gv|]. unfold Rleb in Lv. destruct (Rle_dec lo v); [discriminate|lra].
      * right. rewrite psumR in H. unfold Rleb in H. destruct (Rle_dec _ _); [discriminate|lra].
    + congruence.
Qed.
Print Assumptions C22_weights_to_cdf_exact_partial.

(** The full claim asks for an exception only if the clipped sum is not positive: *)
Theorem C22_positive_sum_accepted_refuted :
  exists w, (forall v, In v w -> is_finite v = true /\ (0 < B2R v)%R) /\ 0 < zlen w /\
    weights_to_cdf64 (zlen w) w (of_Z64 0) = Throw.
Proof.
  exists [div64 (of_Z64 1) (of_Z64 (2 ^ 53))]. split; [|split; [reflexivity|vm_compute; reflexivity]].
  intros v [<-|[]]. split; [vm_compute; reflexivity|]. pow_val 52%Z. apply bpow_gt_0.
Qed.
Print Assumptions C22_positive_sum_accepted_refuted.

(** and a last entry of 1, which rounding does not give: *)
Theorem C22_ends_at_one_refuted :
  exists w w', weights_to_cdf64 1 w (of_Z64 0) = Ok w' /\ (entry w' 0 < 1)%R.
Proof.
  exists [of_Z64 49]. eexists. split; [reflexivity|]. unfold entry. cbn [get].
  match goal with |- (match ?g with _ => _ end < 1)%R =>
    assert (option_map B2SF g = Some (SpecFloat.S754_finite false 9007199254740991 (-53))) as E by (vm_compute; reflexivity);
    destruct g as [x|]; [|discriminate] end.
  cbn [option_map] in E. injection E as E. rewrite (B2R_SF x _ E). apply SF_lt_1; [lia|reflexivity].
Qed.
Print Assumptions C22_ends_at_one_refuted.

(** ** Double precision: for finite weights whose (rounded) clipped sum is finite. *)
Definition float_sum64 (w : list b64) (n : Z) : b64 := psum (Bplus mode_NE) Bleb (of_Z64 0) w n.
Definition float_sum32 (w : list b32) (n : Z) : b32 := psum (Bplus mode_NE) Bleb (of_Z32 0) w n.

Theorem C22_weights_to_cdf_double :
  forall n w lo, 1 <= n <= 2 ^ 53 -> n <= zlen w ->
    (weights_to_cdf64 n w lo = Throw <->
       (exists i v, 0 <= i < n /\ get w i = Some v /\ Bleb lo v = false) \/
       Bleb (thr64 n) (float_sum64 w n) = false) /\
    (forall w', weights_to_cdf64 n w lo = Ok w' ->
       zlen w' = zlen w /\ (forall i, ~ 0 <= i < n -> get w' i = get w i) /\
       (all_finite 53 1024 w n -> is_finite (float_sum64 w n) = true ->
          sorted_finite w' n /\
          (forall i x, 0 <= i < n -> get w' i = Some x -> (0 <= B2R x <= 2)%R) /\
          ((B2R (float_sum64 w n) <= bpow radix2 1022)%R ->
           (1 - / IZR (2 ^ 51) <= entry w' (n - 1) <= 1 + / IZR (2 ^ 51))%R))).
Proof.
  intros n w lo Hn Hl. unfold weights_to_cdf64, float_sum64.
  destruct (weights_to_cdf_spec add64 mul64 div64 Bleb (of_Z64 0) (of_Z64 1) thr64 lo n w ltac:(lia))
    as [(Hok & Hs & w' & E & L & G & Fr)|(E & H)]; rewrite E.
  - split.
    + split; [discriminate|]. intros [(i & v & Hi & Gv & Lv)|C].
      * specialize (Hok i v Hi Gv). congruence.
      * change (psum add64) with (psum (Bplus mode_NE : b64 -> b64 -> b64)) in Hs. congruence.
    + intros w2 [= <-]. split; [exact L|]. split; [exact Fr|]. intros Fa Fs.
      change (psum add64) with (psum (Bplus mode_NE : b64 -> b64 -> b64)) in *.
      destruct (thr64_ok n Hn) as [Ft Lt].
      rewrite Bleb_correct in Hs by assumption.
      destruct (Rle_bool_spec (B2R (thr64 n)) (B2R (psum (Bplus mode_NE) Bleb (of_Z64 0) w n))) as [Hs'|]; [|discriminate].
      destruct (scaled_spec 53 1024 ltac:(lia) (of_Z64 0) (of_Z64 1) zero64_ok one64_ok ltac:(lia) w n ltac:(lia) Fa Fs ltac:(lra))
        as (S1 & S2 & S3).
      split; [split|split].
      * intros i x Hi Gx. rewrite (G i Hi) in Gx. injection Gx as <-. apply S1. exact Hi.
      * intros i j x y Hij Hj Gx Gy. rewrite G in Gx, Gy by lia. injection Gx as <-. injection Gy as <-. now apply S2.
      * intros i x Hi Gx. rewrite (G i Hi) in Gx. injection Gx as <-. apply S1. exact Hi.
      * intros Hb. specialize (S3 Hb). unfold entry. rewrite G by lia.
        apply Rabs_le_inv in S3. rewrite IZR_pow, <- bpow_opp by lia. change (2 - 53) with (- (51)) in S3.
        unfold mul64, div64. lra.
  - split; [|discriminate]. split; [intros _; exact H|reflexivity].
Qed.
Print Assumptions C22_weights_to_cdf_double.

Theorem C22_weights_to_cdf_float :
  forall n w lo, 1 <= n <= 2 ^ 53 -> n <= zlen w ->
    (weights_to_cdf32 n w lo = Throw <->
       (exists i v, 0 <= i < n /\ get w i = Some v /\ Bleb lo v = false) \/
       Bleb (thr32 n) (float_sum32 w n) = false) /\
    (forall w', weights_to_cdf32 n w lo = Ok w' ->
       zlen w' = zlen w /\ (forall i, ~ 0 <= i < n -> get w' i = get w i) /\
       (all_finite 24 128 w n -> is_finite (float_sum32 w n) = true ->
          sorted_finite w' n /\
          (forall i x, 0 <= i < n -> get w' i = Some x -> (0 <= B2R x <= 2)%R) /\
          ((B2R (float_sum32 w n) <= bpow radix2 126)%R ->
           (1 - / IZR (2 ^ 22) <= entry w' (n - 1) <= 1 + / IZR (2 ^ 22))%R))).
Proof.
  intros n w lo Hn Hl. unfold weights_to_cdf32, float_sum32.
  destruct (weights_to_cdf_spec add32 mul32 div32 Bleb (of_Z32 0) (of_Z32 1) thr32 lo n w ltac:(lia))
    as [(Hok & Hs & w' & E & L & G & Fr)|(E & H)]; rewrite E.
  - split.
    + split; [discriminate|]. intros [(i & v & Hi & Gv & Lv)|C].
      * specialize (Hok i v Hi Gv). congruence.
      * change (psum add32) with (psum (Bplus mode_NE : b32 -> b32 -> b32)) in Hs. congruence.
    + intros w2 [= <-]. split; [exact L|]. split; [exact Fr|]. intros Fa Fs.
      change (psum add32) with (psum (Bplus mode_NE : b32 -> b32 -> b32)) in *.
      destruct (thr32_ok n Hn) as [Ft Lt].
      rewrite Bleb_correct in Hs by assumption.
      destruct (Rle_bool_spec (B2R (thr32 n)) (B2R (psum (Bplus mode_NE) Bleb (of_Z32 0) w n))) as [Hs'|]; [|discriminate].
      destruct (scaled_spec 24 128 ltac:(lia) (of_Z32 0) (of_Z32 1) zero32_ok one32_ok ltac:(lia) w n ltac:(lia) Fa Fs ltac:(lra))
        as (S1 & S2 & S3).
      split; [split|split].
      * intros i x Hi Gx. rewrite (G i Hi) in Gx. injection Gx as <-. apply S1. exact Hi.
      * intros i j x y Hij Hj Gx Gy. rewrite G in Gx, Gy by lia. injection Gx as <-. injection Gy as <-. now apply S2.
      * intros i x Hi Gx. rewrite (G i Hi) in Gx. injection Gx as <-. apply S1. exact Hi.
      * intros Hb. specialize (S3 Hb). unfold entry. rewrite G by lia.
        apply Rabs_le_inv in S3. rewrite IZR_pow, <- bpow_opp by lia. change (2 - 24) with (- (22)) in S3.
        unfold mul32, div32. lra.
  - split; [|discriminate]. split; [intros _; exact H|reflexivity].
Qed.
Print Assumptions C22_weights_to_cdf_float.

Example C22_case :
  let w := [of_Z64 3; of_Z64 (-1); of_Z64 1; of_Z64 99] in
  all_finite 53 1024 w 3 /\ is_finite (float_sum64 w 3) = true /\
  (w' <- weights_to_cdf64 3 w (of_Z64 (-2)) ;; Ok (map B2SF w')) =
    Ok (map B2SF [div64 (of_Z64 3) (of_Z64 4); div64 (of_Z64 3) (of_Z64 4); of_Z64 1; of_Z64 99]).
Proof.
  split; [|split; vm_compute; reflexivity]. intros i x Hi G.
  assert (exists l, get [of_Z64 3; of_Z64 (-1); of_Z64 1; of_Z64 99] l = Some x) as J by (exists i; exact G).
  apply get_In in J. cbn [In] in J. destruct J as [<-|[<-|[<-|[<-|[]]]]]; vm_compute; reflexivity.
Qed.

(** ** C21 again: sampling from the result of weights_to_cdf (double) *)
(** Every index is in range unless its word is among the 64 largest signed words. *)
Theorem C21_in_range_after_weights_to_cdf_partial :
  forall {K} (raw : generator K Z) n w lo cdf k samples st,
    1 <= n <= 2 ^ 53 -> n <= zlen w ->
    weights_to_cdf64 n w lo = Ok cdf -> all_finite 53 1024 w n ->
    is_finite (float_sum64 w n) = true -> (B2R (float_sum64 w n) <= bpow radix2 1022)%R ->
    wf_generator raw -> words_ok 32 raw -> 0 <= counter st < 2 ^ g_bits raw -> 0 <= k -> k <= zlen samples ->
    exists samples' st',
      sample_indices_iid64 raw n cdf k samples st = Ok (samples', None, st') /\
      forall t, 0 <= t < k -> exists w s,
        word_of raw st (t / g_len raw) (t mod g_len raw) w /\ get samples' t = Some s /\
        (signed 32 w < 2 ^ 31 - 64 -> 0 <= s < n).
Proof.
  intros K raw n w lo cdf k samples st Hn Hl E Fa Fs Hb Hwf Hw Hc Hk Hls.
  destruct (C22_weights_to_cdf_double n w lo Hn Hl) as [_ H]. destruct (H cdf E) as (L & _ & H2).
  destruct (H2 Fa Fs) as (Hsrt & _ & H3). specialize (H3 Hb).
  destruct (C21_inverts_cdf_double_partial raw n cdf k samples st Hwf Hc ltac:(lia) Hsrt Hk Hls) as (s' & st' & E2 & _ & D).
  exists s', st'. split; [exact E2|]. intros t Ht. destruct (D t Ht) as (x & s & W & G & (I1 & _ & _ & I2 & _)).
  exists x, s. split; [exact W|]. split; [exact G|]. intros Hs. split; [lia|]. apply I2.
  apply Rle_trans with (1 - / IZR (2 ^ 51))%R; [|lra].
  destruct (uneg11_32_spec x) as (Ex & Fi & R). destruct (to64_ok _ Fi) as [E6 F6].
  destruct (u01_64_spec (to64 (uneg11_32 x)) F6) as (Eu & _); [now rewrite E6|]. rewrite Eu, E6.
  destruct (uneg11_32_spec (2 ^ 31 - 65)) as (Ey & Fy & Ry). destruct (to64_ok _ Fy) as [E7 F7].
  destruct (u01_64_spec (to64 (uneg11_32 (2 ^ 31 - 65))) F7) as (Ev & _); [now rewrite E7|].
  apply Rle_trans with (u01R 53 1024 (B2R (uneg11_32 (2 ^ 31 - 65)))).
  - apply u01_mono; [typeclasses eauto..|]. rewrite Ex, Ey. apply u11_mono; [typeclasses eauto..|].
    rewrite (to_sint_signed 32 x); [|lia|eapply Hw; exact W].
    change (to_sint 32 (2 ^ 31 - 65)) with (2 ^ 31 - 65). lia.
  - rewrite <- E7, <- Ev. erewrite B2R_SF by (vm_compute; reflexivity). cbn [SF2R cond_Zopp]. unfold F2R, Fnum, Fexp.
    apply Rmult_le_reg_r with (bpow radix2 60); [apply bpow_gt_0|].
    rewrite Rmult_assoc, <- bpow_plus. rewrite <- (IZR_pow 60) by lia.
    match goal with |- (_ * bpow radix2 ?k <= _)%R => replace (bpow radix2 k) with (IZR (2 ^ k)) by (rewrite IZR_pow by lia; reflexivity) end.
    rewrite Rmult_minus_distr_r. replace (/ IZR (2 ^ 51) * IZR (2 ^ 60))%R with (IZR (2 ^ 9)).
    + rewrite Rmult_1_l, <- mult_IZR, <- minus_IZR. apply IZR_le. vm_compute. congruence.
    + rewrite !IZR_pow, <- bpow_opp, <- bpow_plus by lia. reflexivity.
Qed.
Print Assumptions C21_in_range_after_weights_to_cdf_partial.

(** Weights (1,0,3): the CDF is (1/4,1/4,1); the words 2^31, 0 and 2^31-65 draw 0, 2, 2. *)
Example C21_case :
  let raw := mk_generator unit Z 4 128 (fun _ _ => [2 ^ 31; 0; 2 ^ 31 - 65; 2 ^ 31 + 7]) in
  exists cdf, weights_to_cdf64 3 [of_Z64 1; of_Z64 0; of_Z64 3] (of_Z64 0) = Ok cdf /\
    (' (s, _, st) <- sample_indices_iid64 raw 3 cdf 4 [9; 9; 9; 9; 9] (mk_state 5 tt) ;; Ok (s, st)) =
      Ok ([0; 2; 2; 0; 9], mk_state 6 tt).
Proof. eexists. split; [reflexivity|vm_compute; reflexivity]. Qed.
