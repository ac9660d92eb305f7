(** Uniform dense sketches keep distances, subspaces and least-squares problems except with
    exponentially small probability (C72).

    Definitions read by these statements: as for C68 (PropsNorm2.v); [geometry_kept_exp],
    [net_size] and [uniform_slack] (TailSpec.v).

    Entries are the floating-point numbers the code stores; sketches of vectors are computed in
    real numbers (for rounding in the product see C65). *)
From Verif Require Import Base Spec Interleave RngModel DenseModel DenseSpec SparseSkopModel FloatModel FloatProofs3
  IsoSpec IsoProofs PropsIso StatSpec DenseFloatModel DenseIsoProofs DenseIsoProofs2 PropsStat NormSpec NormProofs NormProofs3 NormProofs4 NormProofs5 PropsNorm2
  TailSpec TailProofs TailProofs3 TailProofs4.
From Flocq Require Import BinarySingleNaN.
From Coq Require Import Lra.
Local Open Scope R_scope.

(** T = float, 32-bit words: eps = 2^-20. *)
Theorem C72_uniform_float :
  forall {K} (env : dense_env K b32 b32) sched n_rows n_cols D (seed : rng_state K) (dflt : list b32),
    valid_schedule sched -> mk_dense_dist n_rows n_cols Uniform Long = Ok D -> dense_fits env D seed ->
    env_scal3 env = scal3_32 ->
    let L := g_len (env_unif env) in let d := Z.min n_rows n_cols in let m := Z.max n_rows n_cols in
    zlen dflt = L ->
    geometry_kept_exp (tapes (Z.to_nat (dense_blocks D L)) (uneg11_blocks32 L)) (dense_iso2 D)
      (fun t => sketch_of n_rows n_cols (dense_sampled (fun x => x) B2R (with_blocks env seed dflt t) sched D seed))
      d m (uniform_slack (/ IZR (2 ^ 20)) m).
Proof.
  intros K env sched nr nc D seed dflt Hs HD HF E3 L d m Hd.
  apply (uniform_geometry_exp (fun x => x) B2R env sched nr nc D seed Hs HD HF dflt Hd 32 uneg11_32 (/ IZR (2 ^ 20))).
  - reflexivity.
  - cbn; lra.
  - cbn; lra.
  - rewrite E3. exact entry_float.
Qed.
Print Assumptions C72_uniform_float.

(** T = double, 32-bit words. *)
Theorem C72_uniform_double :
  forall {K} (env : dense_env K b32 b64) sched n_rows n_cols D (seed : rng_state K) (dflt : list b32),
    valid_schedule sched -> mk_dense_dist n_rows n_cols Uniform Long = Ok D -> dense_fits env D seed ->
    env_scal3 env = scal3_64 ->
    let L := g_len (env_unif env) in let d := Z.min n_rows n_cols in let m := Z.max n_rows n_cols in
    zlen dflt = L ->
    geometry_kept_exp (tapes (Z.to_nat (dense_blocks D L)) (uneg11_blocks32 L)) (dense_iso2 D)
      (fun t => sketch_of n_rows n_cols (dense_sampled to64 B2R (with_blocks env seed dflt t) sched D seed))
      d m (uniform_slack (/ IZR (2 ^ 20)) m).
Proof.
  intros K env sched nr nc D seed dflt Hs HD HF E3 L d m Hd.
  apply (uniform_geometry_exp to64 B2R env sched nr nc D seed Hs HD HF dflt Hd 32 uneg11_32 (/ IZR (2 ^ 20))).
  - reflexivity.
  - cbn; lra.
  - cbn; lra.
  - rewrite E3. exact entry_widened.
Qed.
Print Assumptions C72_uniform_double.

(** T = double, 64-bit words: eps = 2^-49. *)
Theorem C72_uniform_wide_words :
  forall {K} (env : dense_env K b64 b64) sched n_rows n_cols D (seed : rng_state K) (dflt : list b64),
    valid_schedule sched -> mk_dense_dist n_rows n_cols Uniform Long = Ok D -> dense_fits env D seed ->
    env_scal3 env = scal3_64 ->
    let L := g_len (env_unif env) in let d := Z.min n_rows n_cols in let m := Z.max n_rows n_cols in
    zlen dflt = L ->
    geometry_kept_exp (tapes (Z.to_nat (dense_blocks D L)) (uneg11_blocks64 L)) (dense_iso2 D)
      (fun t => sketch_of n_rows n_cols (dense_sampled (fun x => x) B2R (with_blocks env seed dflt t) sched D seed))
      d m (uniform_slack (/ IZR (2 ^ 49)) m).
Proof.
  intros K env sched nr nc D seed dflt Hs HD HF E3 L d m Hd.
  apply (uniform_geometry_exp (fun x => x) B2R env sched nr nc D seed Hs HD HF dflt Hd 64 uneg11_64 (/ IZR (2 ^ 49))).
  - reflexivity.
  - cbn; lra.
  - cbn; lra.
  - rewrite E3. exact entry_double.
Qed.
Print Assumptions C72_uniform_wide_words.

(** A 4000 by 100000 float operator, e = 1/4: all squared distances between a million points are
    kept within 26 percent, except with probability at most 1/10000. *)
Example C72_case : forall sched dflt (X : Z -> Z -> R), valid_schedule sched -> zlen dflt = g_len (env_unif env_float) ->
  exists bad : list (list b32) -> bool,
    probability (tapes (Z.to_nat (dense_blocks D4000 2)) (uneg11_blocks32 2)) bad <= / 10000 /\
    forall t, In t (tapes (Z.to_nat (dense_blocks D4000 2)) (uneg11_blocks32 2)) -> bad t = false ->
    forall a b, (0 <= a < 1000000)%Z -> (0 <= b < 1000000)%Z ->
    let x i := X a i - X b i in
    let y := sketch_of 4000 100000 (dense_sampled (fun x => x) B2R (with_blocks env_float (mk_state 7 tt) dflt t) sched D4000 (mk_state 7 tt)) x in
    Rabs (dense_iso2 D4000 * dot 4000 y y - dot 100000 x x) <= 26 / 100 * dot 100000 x x.
Proof.
  intros sched dflt X Hs Hd. destruct C68_case as (HD & HF & _).
  pose proof (C72_uniform_float env_float sched 4000 100000 D4000 (mk_state 7 tt) dflt Hs HD HF eq_refl Hd) as (_ & JL & _).
  specialize (JL 1000000%Z X (/ 4) ltac:(lia) ltac:(lra)). destruct JL as (bad & P & B). exists bad. split.
  - eapply Rle_trans; [exact P|]. change (Z.min 4000 100000) with 4000%Z.
    assert (E : exp (- (4000 * (/ 4) ^ 2 / 6)) <= exp (- INR 41)).
    { destruct (Rle_lt_or_eq_dec (- (4000 * (/ 4) ^ 2 / 6)) (- INR 41)) as [H|H]; [cbn [pow]; rewrite INR_IZR_INZ; change (Z.of_nat 41) with 41%Z; lra|apply Rlt_le, exp_increasing, H|right; now f_equal]. }
    assert (E1 : 2.5 <= exp 1).
    { replace (exp 1) with (exp (/ 8) ^ 8). 2: { rewrite exp_pow. f_equal. cbn [INR]. lra. }
      apply (Rle_trans _ ((9 / 8) ^ 8)); [lra|]. apply pow_incr. pose proof (exp_ineq1_le (/ 8)). lra. }
    assert (E2 : exp (- INR 41) <= / 2.5 ^ 41).
    { rewrite exp_Ropp. apply Rinv_le_contravar; [apply pow_lt; lra|]. rewrite <- (Rmult_1_r (INR 41)), <- exp_pow. apply pow_incr. lra. }
    apply (Rle_trans _ (IZR (1000000 * (1000000 - 1)) * / 2.5 ^ 41)); [apply Rmult_le_compat_l; [apply IZR_le; lia|lra]|].
    change (1000000 * (1000000 - 1))%Z with 999999000000%Z. replace (2.5 ^ 41) with (45474735088646411895751953125 / 2199023255552) by lra. lra.
  - intros t Ht Hb a b Ha Hb'. specialize (B t Ht Hb a b Ha Hb'). cbv zeta in *. eapply Rle_trans; [exact B|]. apply Rmult_le_compat_r; [apply dot_nonneg|].
    change (Z.max 4000 100000) with 100000%Z. unfold uniform_slack.
    assert (S : sqrt 100000 <= 317). { rewrite <- (sqrt_square 317) by lra. apply sqrt_le_1_alt. lra. }
    change (IZR (2 ^ 20)) with 1048576. cbn [pow]. lra.
Qed.
