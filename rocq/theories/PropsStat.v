(** Statistical theorems: what the sampled values are distributed like when all sequences
    of random words are equally likely (C56, ...).

    Definitions read by these statements (IsoSpec.v, StatSpec.v): [tapes n U] all lists of n
    elements of U; [tape_gen g c t] the generator that returns the words of t from counter c
    on; [average], [probability]; [falling n k] = n(n-1)...(n-k+1); [outputs]. *)
From Verif Require Import Base Spec RngModel DenseModel DenseSpec DenseProofs SparseSkopModel FySpec FyProofs PropsFy SparseSpec
  IsoSpec IsoProofs PropsIso StatSpec StatProofs Interleave FloatModel DenseProofs2 DenseFloatModel DenseIsoProofs DenseIsoProofs2.
From Coq Require Import ZArith Reals Lra.
From Flocq Require Import Core BinarySingleNaN.
Local Open Scope R_scope.

(* ------------------------------------------------------------------ *)
(** * C56: sampling without replacement is nearly uniform, jointly over all blocks *)
Lemma samples_have_pivots k n Ss : (0 <= k <= n)%Z -> (forall s, In s Ss -> is_ordered_sample k n s) ->
  exists Ps, zlen Ps = zlen Ss /\ (forall p, In p Ps -> is_pivots k n p) /\ map (fy (range 0 n)) Ps = Ss.
Proof.
  intros Hk. induction Ss as [|s Ss IH]; intros H.
  - exists []. repeat split; try reflexivity; destruct H0.
  - destruct IH as (Ps & L & V & E); [intros; apply H; now right|].
    destruct (H s (or_introl eq_refl)) as (Ls & Nd & Hin).
    destruct (fy_surjective (range 0 n) s Nd) as [p [Vp [Lp Ep]]]; [intros x Hx; apply in_range; auto|].
    exists (p :: Ps). rewrite !zlen_cons, L. split; [reflexivity|]. split; [|cbn; congruence].
    intros q [<-|Hq]; [|auto]. rewrite zlen_range in Vp by lia. rewrite Z.sub_0_r in Vp. apply valid_is_pivots in Vp.
    replace (zlen p) with k in Vp; [exact Vp|]. unfold zlen in *. lia.
Qed.

(** The probability that repeated_fisher_yates writes the r given ordered samples (one per
    block) is that of r independent uniform samples, up to a factor (1 +- n/2^W)^(r k). *)
Theorem C56_sampling_without_replacement_nearly_uniform :
  forall {K} (g : generator K Z) (st : rng_state K) sb k n W (Ss : list (list Z)),
    let r := zlen Ss in
    wf_generator g -> (0 <= counter st < 2 ^ g_bits g)%Z -> (r * k <= 2 ^ g_bits g)%Z ->
    fy_sizes sb k n r -> (0 < k)%Z -> (0 < W)%Z -> (n <= 2 ^ W)%Z ->
    (forall s, In s Ss -> is_ordered_sample k n s) ->
    let draws := tapes (Z.to_nat (r * k * g_len g)) (range 0 (2 ^ W)) in
    let run t := fisher_yates_public (tape_gen g (counter st) 0%Z t) sb k n r (repeat 0%Z (Z.to_nat (r * k))) st in
    let p := probability draws (fun t => outputs (run t) (concat Ss)) in
    let u := / falling n k ^ Z.to_nat r in
    let e := IZR n / IZR (2 ^ W) in
    u * (1 - e) ^ Z.to_nat (r * k) <= p <= u * (1 + e) ^ Z.to_nat (r * k).
Proof.
  intros K g st sb k n W Ss r Hg Hc Hb Hs Hk HW Hn HS draws run p u e.
  destruct (samples_have_pivots k n Ss) as (Ps & L & V & E); [destruct Hs as (_ & H & _); lia|exact HS|].
  subst Ss. unfold u, p, draws, run, r. clear u p draws run. unfold r in *. clear r L. rewrite !zlen_map in *.
  rewrite (probability_ext _ _ (good g k n Ps)).
  - apply (joint_probability g Hg sb k n Ps Hs Hk V W HW Hn).
  - intros t _. exact (joint_outputs g st Hg Hc sb k n Ps Hs Hk Hb V t).
Qed.
Print Assumptions C56_sampling_without_replacement_nearly_uniform.

(** Two blocks of 2 out of 3 indices, words of 2 bits, blocks of 2 words: hypotheses met, and
    one tape out of 2^16 evaluated. *)
Definition gen22 : generator unit Z := mk_generator unit Z 2 64 (fun _ _ => [0; 0]%Z).
Example C56_case : (
  wf_generator gen22 /\ fy_sizes 32 2 3 2 /\
  (forall s, In s [[0; 2]; [1; 0]] -> is_ordered_sample 2 3 s) /\
  outputs (fisher_yates_public (tape_gen gen22 5 0 [3; 9; 1; 9; 1; 9; 2; 9]) 32 2 3 2 (repeat 0 4) (mk_state 5 tt)) [0; 2; 1; 0] = true)%Z.
Proof.
  split; [split; cbn; [lia|lia|reflexivity]|]. split; [unfold fy_sizes; cbn; lia|]. split; [|vm_compute; reflexivity].
  intros s [<-|[<-|[]]]; (split; [reflexivity|split; [repeat constructor; cbn; lia|cbn; intros x Hx; lia]]).
Qed.

(* ------------------------------------------------------------------ *)
(** * C57: dense operators are isometries in expectation *)
(** [Bs] are the possible outputs of one generator call, all equally likely, and the calls
    are independent.  Outputs (after casting and scaling) with mean 0, variance 1 and no
    correlation between the lanes of one output make the scaled operator of a distribution
    with the Long major axis an isometry in expectation: E[S^T S] = I for a wide S, E[S S^T] = I
    for a tall one.  (Box-Muller outputs satisfy this only in the ideal; it is a hypothesis.) *)
Theorem C57_dense_long_isometry_in_expectation :
  forall {K W T} (cast : W -> T) (toR : T -> R) (env : dense_env K W T) sched n_rows n_cols fam D (seed : rng_state K)
         (dflt : list W) (w0 : W) (Bs : list (list W)),
    valid_schedule sched -> mk_dense_dist n_rows n_cols fam Long = Ok D -> dense_fits env D seed ->
    let L := g_len (env_gen env fam) in
    let lane l (b : list W) := toR (family_map env fam (cast (nth (Z.to_nat l) b w0))) in
    zlen dflt = L -> Bs <> [] -> (forall b, In b Bs -> zlen b = L) ->
    (forall l, (0 <= l < L)%Z -> average Bs (lane l) = 0) ->
    (forall l l', (0 <= l < L)%Z -> (0 <= l' < L)%Z -> average Bs (fun b => lane l b * lane l' b) = delta l l') ->
    forall a b, (0 <= a < Z.max n_rows n_cols)%Z -> (0 <= b < Z.max n_rows n_cols)%Z ->
      average (tapes (Z.to_nat (dense_blocks D L)) Bs)
        (fun t => dense_iso2 D * long_gram D (dense_sampled cast toR (with_blocks env seed dflt t) sched D seed) a b)
      = delta a b.
Proof.
  intros K W T cast toR env sched nr nc fam D seed dflt w0 Bs Hs HD HF L lane Hd NB HB M1 M2 a b Ha Hb.
  unfold L. rewrite (long_gram_average cast toR env sched nr nc fam Long D seed Hs HD HF dflt w0 Bs Hd HB NB 0 1 M1); auto.
  - pose proof (mk_dense_dist_inv _ _ _ _ _ HD) as (P1 & P2 & _). assert (0 < IZR (Z.min nr nc)) by (apply IZR_lt; lia).
    unfold Rdiv. rewrite Rinv_r by lra. unfold delta. destruct (a =? b)%Z; lra.
  - intros l Hl. etransitivity; [exact (M2 l l Hl Hl)|]. unfold delta. now rewrite Z.eqb_refl.
  - intros l l' Hl Hl' N. etransitivity; [exact (M2 l l' Hl Hl')|]. unfold delta. destruct (Z.eqb_spec l l'); [contradiction|lra].
Qed.
Print Assumptions C57_dense_long_isometry_in_expectation.

(** With the Short major axis the mean is min/max times the identity: never the identity
    unless the operator is square (a finding; see also C09). *)
Theorem C57_dense_short_isometry_refuted :
  forall {K W T} (cast : W -> T) (toR : T -> R) (env : dense_env K W T) sched n_rows n_cols fam D (seed : rng_state K)
         (dflt : list W) (w0 : W) (Bs : list (list W)),
    valid_schedule sched -> mk_dense_dist n_rows n_cols fam Short = Ok D -> dense_fits env D seed ->
    let L := g_len (env_gen env fam) in
    let lane l (b : list W) := toR (family_map env fam (cast (nth (Z.to_nat l) b w0))) in
    zlen dflt = L -> Bs <> [] -> (forall b, In b Bs -> zlen b = L) ->
    (forall l, (0 <= l < L)%Z -> average Bs (lane l) = 0) ->
    (forall l l', (0 <= l < L)%Z -> (0 <= l' < L)%Z -> average Bs (fun b => lane l b * lane l' b) = delta l l') ->
    let mean a b := average (tapes (Z.to_nat (dense_blocks D L)) Bs)
        (fun t => dense_iso2 D * long_gram D (dense_sampled cast toR (with_blocks env seed dflt t) sched D seed) a b) in
    (forall a b, (0 <= a < Z.max n_rows n_cols)%Z -> (0 <= b < Z.max n_rows n_cols)%Z ->
      mean a b = IZR (Z.min n_rows n_cols) / IZR (Z.max n_rows n_cols) * delta a b) /\
    (n_rows <> n_cols -> forall a, (0 <= a < Z.max n_rows n_cols)%Z -> mean a a < 1).
Proof.
  intros K W T cast toR env sched nr nc fam D seed dflt w0 Bs Hs HD HF L lane Hd NB HB M1 M2 mean.
  assert (E : forall a b, (0 <= a < Z.max nr nc)%Z -> (0 <= b < Z.max nr nc)%Z -> mean a b = IZR (Z.min nr nc) / IZR (Z.max nr nc) * delta a b).
  { intros a b Ha Hb. unfold mean, L.
    rewrite (long_gram_average cast toR env sched nr nc fam Short D seed Hs HD HF dflt w0 Bs Hd HB NB 0 1 M1); auto.
    - unfold delta. destruct (a =? b)%Z; f_equal; lra.
    - intros l Hl. etransitivity; [exact (M2 l l Hl Hl)|]. unfold delta. now rewrite Z.eqb_refl.
    - intros l l' Hl Hl' N. etransitivity; [exact (M2 l l' Hl Hl')|]. unfold delta. destruct (Z.eqb_spec l l'); [contradiction|lra]. }
  split; [exact E|]. intros N a Ha. rewrite E by assumption. unfold delta. rewrite Z.eqb_refl.
  pose proof (mk_dense_dist_inv _ _ _ _ _ HD) as (P1 & P2 & _).
  assert (0 < IZR (Z.max nr nc)) by (apply IZR_lt; lia). assert (IZR (Z.min nr nc) < IZR (Z.max nr nc)) by (apply IZR_lt; lia).
  rewrite Rmult_1_r. apply (Rmult_lt_reg_r (IZR (Z.max nr nc))); [assumption|]. unfold Rdiv. rewrite Rmult_assoc, Rinv_l; lra.
Qed.
Print Assumptions C57_dense_short_isometry_refuted.

(** Uniform entries, bit-exact: the generator's 32-bit words are independent and uniform,
    uneg11 and the scaling by (float)sqrt(3) are the float operations of the code.  The Gram
    matrix of the scaled operator is within 2^-18 of the identity on the diagonal and
    within 2^-40 off it. *)
Theorem C57_uniform_float_nearly_isometry :
  forall {K} (env : dense_env K b32 b32) sched n_rows n_cols D (seed : rng_state K) (dflt : list b32),
    valid_schedule sched -> mk_dense_dist n_rows n_cols Uniform Long = Ok D -> dense_fits env D seed ->
    env_scal3 env = scal3_32 ->
    let L := g_len (env_unif env) in
    zlen dflt = L ->
    forall a b, (0 <= a < Z.max n_rows n_cols)%Z -> (0 <= b < Z.max n_rows n_cols)%Z ->
      Rabs (average (tapes (Z.to_nat (dense_blocks D L)) (uneg11_blocks32 L))
        (fun t => dense_iso2 D * long_gram D (dense_sampled (fun x => x) B2R (with_blocks env seed dflt t) sched D seed) a b) - delta a b)
      <= if (a =? b)%Z then / IZR (2 ^ 18) else / IZR (2 ^ 40).
Proof.
  intros K env sched nr nc D seed dflt Hs HD HF E3 L Hd a b Ha Hb. unfold L, uneg11_blocks32.
  eapply Rle_trans; [apply (uniform_gram_average (fun x => x) B2R env sched nr nc D seed Hs HD HF dflt Hd 32 uneg11_32 (/ IZR (2 ^ 20))); auto|].
  - reflexivity.
  - rewrite E3. exact entry_float.
  - destruct (a =? b)%Z; cbn; lra.
Qed.
Print Assumptions C57_uniform_float_nearly_isometry.

(** The same with T = double and 32-bit words (the float values are widened) ... *)
Theorem C57_uniform_double_nearly_isometry :
  forall {K} (env : dense_env K b32 b64) sched n_rows n_cols D (seed : rng_state K) (dflt : list b32),
    valid_schedule sched -> mk_dense_dist n_rows n_cols Uniform Long = Ok D -> dense_fits env D seed ->
    env_scal3 env = scal3_64 ->
    let L := g_len (env_unif env) in
    zlen dflt = L ->
    forall a b, (0 <= a < Z.max n_rows n_cols)%Z -> (0 <= b < Z.max n_rows n_cols)%Z ->
      Rabs (average (tapes (Z.to_nat (dense_blocks D L)) (uneg11_blocks32 L))
        (fun t => dense_iso2 D * long_gram D (dense_sampled to64 B2R (with_blocks env seed dflt t) sched D seed) a b) - delta a b)
      <= if (a =? b)%Z then / IZR (2 ^ 18) else / IZR (2 ^ 40).
Proof.
  intros K env sched nr nc D seed dflt Hs HD HF E3 L Hd a b Ha Hb. unfold L, uneg11_blocks32.
  eapply Rle_trans; [apply (uniform_gram_average to64 B2R env sched nr nc D seed Hs HD HF dflt Hd 32 uneg11_32 (/ IZR (2 ^ 20))); auto|].
  - reflexivity.
  - rewrite E3. exact entry_widened.
  - destruct (a =? b)%Z; cbn; lra.
Qed.
Print Assumptions C57_uniform_double_nearly_isometry.

(** ... and with T = double and 64-bit words. *)
Theorem C57_uniform_wide_words_nearly_isometry :
  forall {K} (env : dense_env K b64 b64) sched n_rows n_cols D (seed : rng_state K) (dflt : list b64),
    valid_schedule sched -> mk_dense_dist n_rows n_cols Uniform Long = Ok D -> dense_fits env D seed ->
    env_scal3 env = scal3_64 ->
    let L := g_len (env_unif env) in
    zlen dflt = L ->
    forall a b, (0 <= a < Z.max n_rows n_cols)%Z -> (0 <= b < Z.max n_rows n_cols)%Z ->
      Rabs (average (tapes (Z.to_nat (dense_blocks D L)) (uneg11_blocks64 L))
        (fun t => dense_iso2 D * long_gram D (dense_sampled (fun x => x) B2R (with_blocks env seed dflt t) sched D seed) a b) - delta a b)
      <= if (a =? b)%Z then / IZR (2 ^ 47) else / IZR (2 ^ 98).
Proof.
  intros K env sched nr nc D seed dflt Hs HD HF E3 L Hd a b Ha Hb. unfold L, uneg11_blocks64.
  eapply Rle_trans; [apply (uniform_gram_average (fun x => x) B2R env sched nr nc D seed Hs HD HF dflt Hd 64 uneg11_64 (/ IZR (2 ^ 49))); auto|].
  - reflexivity.
  - rewrite E3. exact entry_double.
  - destruct (a =? b)%Z; cbn; lra.
Qed.
Print Assumptions C57_uniform_wide_words_nearly_isometry.

(** Hypotheses met: a 2 x 3 operator, blocks of 2 words; for the standardised theorem the
    blocks are the four sign pairs. *)
Definition env_sign : dense_env unit Z Z :=
  {| env_gauss := gen22; env_unif := gen22; env_scal3 := (fun x => x); env_junk := 0%Z |}.
Definition D23 : dense_dist :=
  {| dd_rows := 2; dd_cols := 3; dd_axis := Long; dd_major := 3; dd_minor := 2; dd_iso_inv2 := 2;
     dd_family := Uniform; dd_layout := RowMajor |}.
Definition signs2 : list (list Z) := [[1; 1]; [1; -1]; [-1; 1]; [-1; -1]]%Z.
Lemma gen22_wf {A} (l : list A) : zlen l = 2%Z -> wf_generator (mk_generator unit A 2 64 (fun _ _ => l)).
Proof. intros H. split; cbn; [lia|lia|intros; exact H]. Qed.
Example C57_case :
  mk_dense_dist 2 3 Uniform Long = Ok D23 /\ dense_fits env_sign D23 (mk_state 7 tt) /\ dense_blocks D23 2 = 4%Z /\
  (forall l, (0 <= l < 2)%Z -> average signs2 (fun b => IZR (nth (Z.to_nat l) b 0%Z)) = 0) /\
  (forall l l', (0 <= l < 2)%Z -> (0 <= l' < 2)%Z ->
     average signs2 (fun b => IZR (nth (Z.to_nat l) b 0%Z) * IZR (nth (Z.to_nat l') b 0%Z)) = delta l l').
Proof.
  assert (C : forall l, (0 <= l < 2)%Z -> l = 0%Z \/ l = 1%Z) by lia.
  split; [reflexivity|]. split.
  { split; [split; apply gen22_wf; reflexivity|]. repeat split; cbn; lia. }
  split; [reflexivity|]. split.
  - intros l Hl. destruct (C l Hl) as [-> | ->]; unfold average; rewrite INR_IZR_INZ; change (Z.to_nat 1) with 1%nat; cbn; field.
  - intros l l' Hl Hl'. destruct (C l Hl) as [-> | ->], (C l' Hl') as [-> | ->]; unfold average, delta; rewrite INR_IZR_INZ; change (Z.to_nat 1) with 1%nat; cbn; field.
Qed.
(** The float environment: one entry of an operator sampled from given words. *)
Definition env_float : dense_env unit b32 b32 :=
  {| env_gauss := mk_generator unit b32 2 64 (fun _ _ => [uneg11_32 0; uneg11_32 0]);
     env_unif := mk_generator unit b32 2 64 (fun _ _ => [uneg11_32 0; uneg11_32 0]);
     env_scal3 := scal3_32; env_junk := uneg11_32 0 |}.
Example C57_float_case :
  dense_fits env_float D23 (mk_state 7 tt) /\ B2SF sqrt3_32 = SpecFloat.S754_finite false 14529495 (-23) /\
  B2SF (scal3_32 (uneg11_32 (2 ^ 30))) = SpecFloat.S754_finite false 14529495 (-24).
Proof.
  split.
  { split; [split; apply gen22_wf; reflexivity|]. repeat split; cbn; lia. }
  split; vm_compute; reflexivity.
Qed.
