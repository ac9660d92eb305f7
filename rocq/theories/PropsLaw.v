(** C58: the distribution of indices sampled with replacement (sample_indices_iid_uniform,
    sample_indices_iid) when all sequences of random words are equally likely.

    Definitions read by these statements: [tapes n U] all lists of n elements of U,
    [tape_gen raw c 0 t] the generator that returns the words of t from counter c on,
    [probability] (IsoSpec.v, StatSpec.v); [writes], [is_law], [signs_of] (StatSpec.v);
    [entry cdf s] the real value of cdf[s] (PropsFloat.v). *)
From Verif Require Import Base Spec RngModel DenseModel DenseSpec SparseSkopModel FyProofs SamplerProofs SparseSpec IsoSpec IsoProofs PropsIso StatSpec StatProofs
  FloatModel FloatProofs FloatProofs2 FloatProofs3 CdfProofs PropsFloat DenseIsoProofs DenseIsoProofs2 LawProofs.
From Coq Require Import ZArith Reals Lra Psatz.
From Flocq Require Import Core BinarySingleNaN.
Local Open Scope R_scope.

Lemma words_signed W w : (0 < W)%Z -> (0 <= w < 2 ^ W)%Z -> to_sint W w = signed W w.
Proof. intros H Hw. apply to_sint_signed; assumption. Qed.

Lemma half_words W f : (0 < W)%Z -> (forall w, (0 <= w < 2 ^ W)%Z -> f w = (w <? 2 ^ (W - 1))%Z) -> probability (range 0 (2 ^ W)) f = / 2.
Proof. intros HW H. rewrite <- (half_probability W HW). apply probability_ext. intros w Hw. apply in_range in Hw. now apply H. Qed.

(** One distribution q on 0..n, depending on n only, such that the k indices written by
    sample_indices_iid_uniform are independent with distribution q (first conjunct of the
    second part), and the signs, when requested, are independent fair coins that are
    independent of the indices.  The distribution function of q is within 2^-22 of that of
    the uniform distribution on 0..n-1; the out-of-range value n (C20) has probability
    exactly 2^-26. *)
Theorem C58_uniform_indices_law_partial :
  forall n, (1 <= n <= 2 ^ 53)%Z -> exists q : Z -> R,
    is_law n q /\ q n = / IZR (2 ^ 26) /\
    (forall m, (0 <= m <= n)%Z -> Rabs (Rsum (map q (range 0 m)) - IZR m / IZR n) <= / IZR (2 ^ 22)) /\
    forall (K T : Type) (eqT : forall x y : T, {x = y} + {x <> y}) (raw : generator K Z) (one mone : T) k samples (st : rng_state K) target,
      wf_generator raw -> (0 <= counter st < 2 ^ g_bits raw)%Z -> zlen samples = k -> zlen target = k ->
      let L := g_len raw in
      let words := range 0 (2 ^ 32) in
      let run rad t := sample_indices_iid_uniform32 (tape_gen raw (counter st) 0%Z t) one mone n k samples rad st in
      ((ceil_div k L <= 2 ^ g_bits raw)%Z ->
        probability (tapes (Z.to_nat (ceil_div k L * L)) words) (fun t => writes eqT (run None t) target None) = Rprod (map q target)) /\
      (forall r sg, (ceil_div k (L / 2) <= 2 ^ g_bits raw)%Z -> one <> mone -> zlen r = k -> zlen sg = k ->
        probability (tapes (Z.to_nat (ceil_div k (L / 2) * L)) words) (fun t => writes eqT (run (Some r) t) target (Some (signs_of one mone sg))) =
        Rprod (map q target) * (/ 2) ^ Z.to_nat k).
Proof.
  intros n Hn. set (idx := fun w => uniform_index_32 n (uneg11_32 w)). exists (law 32 idx).
  assert (HI : forall w, (0 <= w < 2 ^ 32)%Z -> (0 <= idx w <= n)%Z) by (intros w _; now apply uniform_index_32_spec).
  split; [apply law_is_law; [lia|lia|exact HI]|]. split.
  { rewrite (law_last 32 idx n 64); [|lia|lia|exact HI|lia|].
    - change (2 ^ 32)%Z with (64 * 2 ^ 26)%Z. rewrite mult_IZR. assert (0 < IZR (2 ^ 26)) by (apply IZR_lt; lia). field. lra.
    - intros w Hw. unfold idx. destruct (uniform_index_32_spec n w Hn) as [_ I2]. rewrite I2, (words_signed 32 w) by lia. reflexivity. }
  split.
  { intros m Hm.
    eapply Rle_trans; [apply (floor_law 32 ltac:(lia) (fun w => B2R (u01_64 (to64 (uneg11_32 w)))) _ u01_wide_close idx n m Hn)|].
    - intros w Hw. destruct (uneg11_32_spec w) as (_ & Fi & Bx). destruct (to64_ok _ Fi) as [E64 F64].
      destruct (u01_64_spec _ F64) as (_ & Fu & Bu); [rewrite E64; exact Bx|]. split; [exact Bu|]. now apply uniform_index_val.
    - exact Hm.
    - rewrite (inv_pow 22 31) by lia. rewrite Rinv_mult, (inv_pow 32 (-22)) by lia.
      change (- (23))%Z with (-23)%Z. change (- (53))%Z with (-53)%Z. cbn. lra. }
  intros K T eqT raw one mone k samples st target Hraw Hc Ls Lt L words run. split.
  - intros Hb. exact (indices_law eqT raw Hraw uneg11_32 (fun x => Ok (uniform_index_32 n x)) (uniform_index_32 n) nonneg32 one mone (fun _ => eq_refl) 32 ltac:(lia) k st samples target Hc Hb Ls Lt).
  - intros r sg Hb Hne Lr Lg.
    apply (signs_law eqT raw Hraw uneg11_32 (fun x => Ok (uniform_index_32 n x)) (uniform_index_32 n) nonneg32 one mone (fun _ => eq_refl) 32 ltac:(lia) k st samples r target sg Hne); auto.
    apply half_words; [lia|]. exact nonneg32_word.
Qed.
Print Assumptions C58_uniform_indices_law_partial.

(** The same for generators of 64-bit words: 2^-50 instead of 2^-22. *)
Theorem C58_uniform_indices_law_64_partial :
  forall n, (1 <= n <= 2 ^ 53)%Z -> exists q : Z -> R,
    is_law n q /\ q n = 1535 / IZR (2 ^ 64) /\
    (forall m, (0 <= m <= n)%Z -> Rabs (Rsum (map q (range 0 m)) - IZR m / IZR n) <= / IZR (2 ^ 50)) /\
    forall (K T : Type) (eqT : forall x y : T, {x = y} + {x <> y}) (raw : generator K Z) (one mone : T) k samples (st : rng_state K) target,
      wf_generator raw -> (0 <= counter st < 2 ^ g_bits raw)%Z -> zlen samples = k -> zlen target = k ->
      let L := g_len raw in
      let words := range 0 (2 ^ 64) in
      let run rad t := sample_indices_iid_uniform64 (tape_gen raw (counter st) 0%Z t) one mone n k samples rad st in
      ((ceil_div k L <= 2 ^ g_bits raw)%Z ->
        probability (tapes (Z.to_nat (ceil_div k L * L)) words) (fun t => writes eqT (run None t) target None) = Rprod (map q target)) /\
      (forall r sg, (ceil_div k (L / 2) <= 2 ^ g_bits raw)%Z -> one <> mone -> zlen r = k -> zlen sg = k ->
        probability (tapes (Z.to_nat (ceil_div k (L / 2) * L)) words) (fun t => writes eqT (run (Some r) t) target (Some (signs_of one mone sg))) =
        Rprod (map q target) * (/ 2) ^ Z.to_nat k).
Proof.
  intros n Hn. set (idx := fun w => uniform_index n (uneg11_64 w)). exists (law 64 idx).
  assert (HI : forall w, (0 <= w < 2 ^ 64)%Z -> (0 <= idx w <= n)%Z) by (intros w _; now apply uniform_index_64_spec).
  split; [apply law_is_law; [lia|lia|exact HI]|]. split.
  { apply (law_last 64 idx n 1535); [lia|lia|exact HI|lia|].
    intros w Hw. unfold idx. destruct (uniform_index_64_spec n w Hn) as [_ I2]. rewrite I2, (words_signed 64 w) by lia. reflexivity. }
  split.
  { intros m Hm.
    eapply Rle_trans; [apply (floor_law 64 ltac:(lia) (fun w => B2R (u01_64 (uneg11_64 w))) _ u01_double_close idx n m Hn)|].
    - intros w Hw. destruct (uneg11_64_spec w) as (_ & Fi & Bx).
      destruct (u01_64_spec _ Fi) as (_ & Fu & Bu); [exact Bx|]. split; [exact Bu|]. now apply uniform_index_val.
    - exact Hm.
    - rewrite (inv_pow 50 3) by lia. rewrite Rinv_mult, (inv_pow 64 (-11)) by lia.
      change (- (50) - 3)%Z with (-53)%Z. change (- (64) - -11)%Z with (-53)%Z. change (- (53))%Z with (-53)%Z.
      pose proof (bpow_gt_0 radix2 (-53)). change (bpow radix2 3) with 8. change (bpow radix2 (-11)) with (/ 2048). lra. }
  intros K T eqT raw one mone k samples st target Hraw Hc Ls Lt L words run. split.
  - intros Hb. exact (indices_law eqT raw Hraw uneg11_64 (fun x => Ok (uniform_index n x)) (uniform_index n) nonneg64 one mone (fun _ => eq_refl) 64 ltac:(lia) k st samples target Hc Hb Ls Lt).
  - intros r sg Hb Hne Lr Lg.
    apply (signs_law eqT raw Hraw uneg11_64 (fun x => Ok (uniform_index n x)) (uniform_index n) nonneg64 one mone (fun _ => eq_refl) 64 ltac:(lia) k st samples r target sg Hne); auto.
    apply half_words; [lia|]. exact nonneg64_word.
Qed.
Print Assumptions C58_uniform_indices_law_64_partial.

(** What fails of "uniform on 0..n-1": with a 32-bit generator, the last index n-1 is never
    drawn when n > 2^25, whatever the generator and the state. *)
Theorem C58_last_index_drawn_refuted :
  forall {K T} (raw : generator K Z) (one mone : T) n k samples rad (st : rng_state K),
    wf_generator raw -> (0 <= counter st < 2 ^ g_bits raw)%Z -> (2 ^ 25 < n <= 2 ^ 53)%Z -> (0 <= k)%Z -> (k <= zlen samples)%Z -> long_opt k rad ->
    exists samples' rad' st',
      sample_indices_iid_uniform32 raw one mone n k samples rad st = Ok (samples', rad', st') /\
      forall t, (0 <= t < k)%Z -> get samples' t <> Some (n - 1)%Z.
Proof.
  intros K T raw one mone n k samples rad st Hwf Hc Hn Hk Hs Hr.
  destruct (iid_words raw uneg11_32 (fun x => Ok (uniform_index_32 n x)) (uniform_index_32 n) nonneg32 one mone
    k samples rad st Hwf Hc Hk Hs Hr (fun _ => eq_refl)) as (s' & r' & st' & E & _ & Fr & D).
  exists s', r', st'. split; [exact E|]. intros t Ht G. destruct (D t Ht) as (w & _ & G'). rewrite G in G'. injection G' as G'.
  symmetry in G'. apply last_index in G'; lia.
Qed.
Print Assumptions C58_last_index_drawn_refuted.

(** The bound 2^25 is exact: up to it the last index is drawn from the word 2^31 - 65. *)
Theorem C58_last_index_drawn_partial :
  forall {K T} (raw : generator K Z) (one mone : T) n k samples rad (st : rng_state K),
    wf_generator raw -> (0 <= counter st < 2 ^ g_bits raw)%Z -> (1 <= n <= 2 ^ 25)%Z -> (0 <= k)%Z -> (k <= zlen samples)%Z -> long_opt k rad ->
    let h := match rad with None => g_len raw | Some _ => (g_len raw / 2)%Z end in
    let s := match rad with None => 1%Z | Some _ => 2%Z end in
    exists samples' rad' st',
      sample_indices_iid_uniform32 raw one mone n k samples rad st = Ok (samples', rad', st') /\
      forall t, (0 <= t < k)%Z -> word_of raw st (t / h) (s * (t mod h)) (2 ^ 31 - 65) -> get samples' t = Some (n - 1)%Z.
Proof.
  intros K T raw one mone n k samples rad st Hwf Hc Hn Hk Hs Hr h s.
  destruct (iid_words raw uneg11_32 (fun x => Ok (uniform_index_32 n x)) (uniform_index_32 n) nonneg32 one mone
    k samples rad st Hwf Hc Hk Hs Hr (fun _ => eq_refl)) as (s' & r' & st' & E & _ & Fr & D).
  exists s', r', st'. split; [exact E|]. intros t Ht Hw. destruct (D t Ht) as (w & Hw' & G').
  assert (w = 2 ^ 31 - 65)%Z as -> by (unfold word_of in *; destruct rad; cbn [per_block per_draw] in Hw'; unfold h, s in Hw; congruence).
  rewrite G'. f_equal. now apply last_index_drawn.
Qed.
Print Assumptions C58_last_index_drawn_partial.

(** Two draws (with signs) out of 5, and the last index of 2^25 and 2^25 + 1. *)
Definition gen4 : generator unit Z := mk_generator unit Z 4 128 (fun _ _ => [2 ^ 31 - 65; 5; 2 ^ 31; 2 ^ 32 - 1]%Z).
Example C58_case : (
  wf_generator gen4 /\ ceil_div 3 (4 / 2) * 4 = 8 /\
  writes Z.eq_dec (sample_indices_iid_uniform32 (tape_gen gen4 7 0 [2 ^ 31 - 65; 5; 2 ^ 31; 2 ^ 32 - 1; 0; 1; 9; 9]) 1 (-1) 5 3 [0; 0; 0] (Some [0; 0; 0]) (mk_state 7 tt))
    [4; 0; 2] (Some (signs_of 1 (-1) [true; false; true])) = true /\
  sample_indices_iid_uniform32 gen4 1 (-1) (2 ^ 25) 2 [0; 0] None (mk_state 7 tt) = Ok ([2 ^ 25 - 1; 2 ^ 24], None, mk_state 8 tt) /\
  sample_indices_iid_uniform32 gen4 1 (-1) (2 ^ 25 + 1) 2 [0; 0] None (mk_state 7 tt) = Ok ([2 ^ 25 - 1; 2 ^ 24], None, mk_state 8 tt))%Z.
Proof. split; [split; cbn; intros; try lia; reflexivity|]. repeat split; vm_compute; reflexivity. Qed.

(* ------------------------------------------------------------------ *)
(** ** Searching a CDF *)
Definition unit_dec (x y : unit) : {x = y} + {x <> y} := match x, y with tt, tt => left eq_refl end.

Lemma entry_bounds {p e} (cdf : list (binary_float p e)) n s : (1 <= n <= zlen cdf)%Z -> sorted_finite cdf n ->
  0 <= entry cdf 0 -> entry cdf (n - 1) <= 1 -> (0 <= s < n)%Z -> 0 <= entry cdf s <= 1.
Proof.
  intros Hn [_ Hm] H0 H1 Hs.
  assert (Mono : forall i j, (0 <= i <= j)%Z -> (j < n)%Z -> entry cdf i <= entry cdf j).
  { intros i j Hij Hj. unfold entry. destruct (get_lt cdf i ltac:(lia)) as [x Gx]. destruct (get_lt cdf j ltac:(lia)) as [y Gy]. rewrite Gx, Gy. now apply (Hm i j). }
  pose proof (Mono 0%Z s ltac:(lia) ltac:(lia)). pose proof (Mono s (n - 1)%Z ltac:(lia) ltac:(lia)). lra.
Qed.

(** Double-precision CDF: the k indices are independent, with one distribution q that depends
    on the CDF only; the probability of an index <= s is within 2^-22 of cdf[s], and every
    index is in range when the last entry is 1. *)
Theorem C58_cdf_indices_law_double :
  forall n (cdf : list b64), (1 <= n <= zlen cdf)%Z -> sorted_finite cdf n -> 0 <= entry cdf 0 -> entry cdf (n - 1) <= 1 -> exists q : Z -> R,
    is_law n q /\ (entry cdf (n - 1) = 1 -> q n = 0) /\
    (forall s, (0 <= s < n)%Z -> Rabs (Rsum (map q (range 0 (s + 1))) - entry cdf s) <= / IZR (2 ^ 22)) /\
    forall (K : Type) (raw : generator K Z) k samples (st : rng_state K) target,
      wf_generator raw -> (0 <= counter st < 2 ^ g_bits raw)%Z -> zlen samples = k -> zlen target = k ->
      let L := g_len raw in
      (ceil_div k L <= 2 ^ g_bits raw)%Z ->
      probability (tapes (Z.to_nat (ceil_div k L * L)) (range 0 (2 ^ 32)))
        (fun t => writes unit_dec (sample_indices_iid64 (tape_gen raw (counter st) 0%Z t) n cdf k samples st) target None)
      = Rprod (map q target).
Proof.
  intros n cdf Hn Hs H0 H1.
  set (dr := fun x => match cdf_index64 n cdf x with Ok s => s | _ => 0%Z end). set (idx := fun w => dr (uneg11_32 w)). exists (law 32 idx).
  assert (Hd : forall x, cdf_index64 n cdf x = Ok (dr x)).
  { intros x. unfold dr, cdf_index64.
    match goal with |- lower_bound _ _ _ ?v = _ => destruct (lower_bound_spec Bltb cdf n v ltac:(lia) (sorted_partitioned cdf n _ Hs)) as (s & E & _) end.
    now rewrite E. }
  assert (HI : forall w, (0 <= w < 2 ^ 32)%Z -> inverts n cdf (B2R (u01_64 (to64 (uneg11_32 w)))) (idx w) /\ B2R (u01_64 (to64 (uneg11_32 w))) <= 1).
  { intros w Hw. destruct (uneg11_32_spec w) as (_ & Fi & R). destruct (to64_ok _ Fi) as [E6 F6]. destruct (u01_64_spec (to64 (uneg11_32 w)) F6) as (_ & F1 & B1); [now rewrite E6|].
    destruct (lower_bound_inverts n cdf _ Hn Hs F1) as (s & Es & Is). unfold idx, dr, cdf_index64. rewrite Es. split; [exact Is|lra]. }
  assert (HB : forall w, (0 <= w < 2 ^ 32)%Z -> (0 <= idx w <= n)%Z) by (intros w Hw; destruct (HI w Hw) as ((B & _) & _); exact B).
  split; [apply law_is_law; [lia|lia|exact HB]|]. split.
  { intros E. apply law_zero. intros w Hw En. destruct (HI w Hw) as ((_ & _ & _ & I2 & _) & B). rewrite E in I2. destruct I2 as [_ I2]. specialize (I2 B). lia. }
  split.
  { intros s Hs'. eapply Rle_trans; [apply (cdf_law 32 ltac:(lia) (fun w => B2R (u01_64 (to64 (uneg11_32 w)))) _ u01_wide_close idx n cdf s Hn Hs)|].
    - intros w Hw. now apply HI.
    - exact Hs'.
    - now apply (entry_bounds cdf n).
    - rewrite (inv_pow 22 31) by lia. rewrite Rinv_mult, (inv_pow 32 (-22)) by lia.
      change (- (23))%Z with (-23)%Z. change (- (53))%Z with (-53)%Z. cbn. lra. }
  intros K raw k samples st target Hraw Hc Ls Lt L Hb.
  exact (indices_law unit_dec raw Hraw uneg11_32 (cdf_index64 n cdf) dr nonneg32 tt tt Hd 32 ltac:(lia) k st samples target Hc Hb Ls Lt).
Qed.
Print Assumptions C58_cdf_indices_law_double.

(** Single-precision CDF: within 2^-21. *)
Theorem C58_cdf_indices_law_float :
  forall n (cdf : list b32), (1 <= n <= zlen cdf)%Z -> sorted_finite cdf n -> 0 <= entry cdf 0 -> entry cdf (n - 1) <= 1 -> exists q : Z -> R,
    is_law n q /\ (entry cdf (n - 1) = 1 -> q n = 0) /\
    (forall s, (0 <= s < n)%Z -> Rabs (Rsum (map q (range 0 (s + 1))) - entry cdf s) <= / IZR (2 ^ 21)) /\
    forall (K : Type) (raw : generator K Z) k samples (st : rng_state K) target,
      wf_generator raw -> (0 <= counter st < 2 ^ g_bits raw)%Z -> zlen samples = k -> zlen target = k ->
      let L := g_len raw in
      (ceil_div k L <= 2 ^ g_bits raw)%Z ->
      probability (tapes (Z.to_nat (ceil_div k L * L)) (range 0 (2 ^ 32)))
        (fun t => writes unit_dec (sample_indices_iid32 (tape_gen raw (counter st) 0%Z t) n cdf k samples st) target None)
      = Rprod (map q target).
Proof.
  intros n cdf Hn Hs H0 H1.
  set (dr := fun x => match cdf_index32 n cdf x with Ok s => s | _ => 0%Z end). set (idx := fun w => dr (uneg11_32 w)). exists (law 32 idx).
  assert (Hd : forall x, cdf_index32 n cdf x = Ok (dr x)).
  { intros x. unfold dr, cdf_index32.
    match goal with |- lower_bound _ _ _ ?v = _ => destruct (lower_bound_spec Bltb cdf n v ltac:(lia) (sorted_partitioned cdf n _ Hs)) as (s & E & _) end.
    now rewrite E. }
  assert (HI : forall w, (0 <= w < 2 ^ 32)%Z -> inverts n cdf (B2R (u01_32 (uneg11_32 w))) (idx w) /\ B2R (u01_32 (uneg11_32 w)) <= 1).
  { intros w Hw. destruct (uneg11_32_spec w) as (_ & Fi & R). destruct (u01_32_spec (uneg11_32 w) Fi R) as (_ & F1 & B1).
    destruct (lower_bound_inverts n cdf _ Hn Hs F1) as (s & Es & Is). unfold idx, dr, cdf_index32. rewrite Es. split; [exact Is|lra]. }
  assert (HB : forall w, (0 <= w < 2 ^ 32)%Z -> (0 <= idx w <= n)%Z) by (intros w Hw; destruct (HI w Hw) as ((B & _) & _); exact B).
  split; [apply law_is_law; [lia|lia|exact HB]|]. split.
  { intros E. apply law_zero. intros w Hw En. destruct (HI w Hw) as ((_ & _ & _ & I2 & _) & B). rewrite E in I2. destruct I2 as [_ I2]. specialize (I2 B). lia. }
  split.
  { intros s Hs'. eapply Rle_trans; [apply (cdf_law 32 ltac:(lia) (fun w => B2R (u01_32 (uneg11_32 w))) _ u01_float_close idx n cdf s Hn Hs)|].
    - intros w Hw. now apply HI.
    - exact Hs'.
    - now apply (entry_bounds cdf n).
    - rewrite (inv_pow 21 31) by lia. rewrite Rinv_mult, (inv_pow 32 (-22)) by lia.
      change (- (24))%Z with (-24)%Z. cbn. lra. }
  intros K raw k samples st target Hraw Hc Ls Lt L Hb.
  exact (indices_law unit_dec raw Hraw uneg11_32 (cdf_index32 n cdf) dr nonneg32 tt tt Hd 32 ltac:(lia) k st samples target Hc Hb Ls Lt).
Qed.
Print Assumptions C58_cdf_indices_law_float.

(** The CDF (1/4, 1/4, 1): hypotheses met, and one tape evaluated. *)
Definition cdf3 : list b64 := [div64 (of_Z64 1) (of_Z64 4); div64 (of_Z64 1) (of_Z64 4); of_Z64 1].
Example C58_case_cdf :
  (1 <= 3 <= zlen cdf3)%Z /\ sorted_finite cdf3 3 /\ entry cdf3 0 = / 4 /\ entry cdf3 2 = 1 /\
  writes unit_dec (sample_indices_iid64 (tape_gen gen4 7 0%Z [2 ^ 31; 3 * 2 ^ 30; 2 ^ 31 - 1; 0]%Z) 3 cdf3 4 [9; 9; 9; 9]%Z (mk_state 7 tt)) [0; 0; 2; 2]%Z None = true.
Proof.
  assert (E0 : entry cdf3 0 = / 4) by (unfold entry; change (get cdf3 0) with (Some (div64 (of_Z64 1) (of_Z64 4))); cbv beta iota; erewrite B2R_SF by (vm_compute; reflexivity); unfold SF2R, F2R; cbn; lra).
  assert (E1 : entry cdf3 1 = / 4) by (unfold entry; change (get cdf3 1) with (Some (div64 (of_Z64 1) (of_Z64 4))); cbv beta iota; erewrite B2R_SF by (vm_compute; reflexivity); unfold SF2R, F2R; cbn; lra).
  assert (E2 : entry cdf3 2 = 1) by (unfold entry; change (get cdf3 2) with (Some (of_Z64 1)); cbv beta iota; erewrite B2R_SF by (vm_compute; reflexivity); unfold SF2R, F2R; cbn; lra).
  split; [cbn; lia|]. split; [|split; [exact E0|split; [exact E2|vm_compute; reflexivity]]].
  split.
  - intros i x Hi G. assert (In x cdf3) as I by (apply get_In; now exists i). clear G. cbn [cdf3 In] in I.
    destruct I as [I|[I|[I|[]]]]; subst x; apply fin_SF; vm_compute; reflexivity.
  - intros i j x y Hij Hj Gi Gj.
    assert (Ex : B2R x = entry cdf3 i) by (unfold entry; now rewrite Gi). assert (Ey : B2R y = entry cdf3 j) by (unfold entry; now rewrite Gj).
    rewrite Ex, Ey. clear - E0 E1 E2 Hij Hj.
    assert (i = 0 \/ i = 1 \/ i = 2)%Z as [->|[->| ->]] by lia; assert (j = 0 \/ j = 1 \/ j = 2)%Z as [->|[->| ->]] by lia; try lia; rewrite ?E0, ?E1, ?E2; lra.
Qed.
