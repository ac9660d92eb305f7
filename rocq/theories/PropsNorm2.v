(** Dense sketches preserve lengths, angles and least-squares problems with a known
    probability (C68).

    Definitions read by these statements: [tapes n U] all lists of n elements of U;
    [uneg11_blocks32 L] all blocks of L values that uneg11 makes of 32-bit words;
    [with_blocks env seed dflt t] the environment whose generator returns the blocks of t;
    [dense_sampled] the real value of an entry of the operator fill_dense produces (StatSpec.v,
    DenseFloatModel.v); [sketch_of n_rows n_cols S x] S x for a wide operator, S^T x for a tall
    one; [geometry_kept] and [uniform_spread] (NormSpec.v).  [scal3_32], [scal3_64] are the IEEE
    operations of the scaling by sqrt(3).

    Entries are the floating-point numbers the code stores; sketches of vectors are computed in
    real numbers (for rounding in the product see C65). *)
From Verif Require Import Base Spec Interleave RngModel DenseModel DenseSpec SparseSkopModel FloatModel FloatProofs3
  IsoSpec IsoProofs PropsIso StatSpec DenseFloatModel DenseIsoProofs DenseIsoProofs2 PropsStat NormSpec NormProofs NormProofs3 NormProofs4 NormProofs5.
From Flocq Require Import BinarySingleNaN.
From Coq Require Import Lra.
Local Open Scope R_scope.

(** T = float, 32-bit words: eps = 2^-20. *)
Theorem C68_uniform_float :
  forall {K} (env : dense_env K b32 b32) sched n_rows n_cols D (seed : rng_state K) (dflt : list b32),
    valid_schedule sched -> mk_dense_dist n_rows n_cols Uniform Long = Ok D -> dense_fits env D seed ->
    env_scal3 env = scal3_32 ->
    let L := g_len (env_unif env) in let d := Z.min n_rows n_cols in let m := Z.max n_rows n_cols in
    zlen dflt = L ->
    geometry_kept (tapes (Z.to_nat (dense_blocks D L)) (uneg11_blocks32 L)) (dense_iso2 D)
      (fun t => sketch_of n_rows n_cols (dense_sampled (fun x => x) B2R (with_blocks env seed dflt t) sched D seed))
      d m (uniform_spread (/ IZR (2 ^ 20)) d m).
Proof.
  intros K env sched nr nc D seed dflt Hs HD HF E3 L d m Hd.
  apply (uniform_geometry (fun x => x) B2R env sched nr nc D seed Hs HD HF dflt Hd 32 uneg11_32 (/ IZR (2 ^ 20))).
  - reflexivity.
  - cbn; lra.
  - cbn; lra.
  - rewrite E3. exact entry_float.
Qed.
Print Assumptions C68_uniform_float.

(** T = double, 32-bit words. *)
Theorem C68_uniform_double :
  forall {K} (env : dense_env K b32 b64) sched n_rows n_cols D (seed : rng_state K) (dflt : list b32),
    valid_schedule sched -> mk_dense_dist n_rows n_cols Uniform Long = Ok D -> dense_fits env D seed ->
    env_scal3 env = scal3_64 ->
    let L := g_len (env_unif env) in let d := Z.min n_rows n_cols in let m := Z.max n_rows n_cols in
    zlen dflt = L ->
    geometry_kept (tapes (Z.to_nat (dense_blocks D L)) (uneg11_blocks32 L)) (dense_iso2 D)
      (fun t => sketch_of n_rows n_cols (dense_sampled to64 B2R (with_blocks env seed dflt t) sched D seed))
      d m (uniform_spread (/ IZR (2 ^ 20)) d m).
Proof.
  intros K env sched nr nc D seed dflt Hs HD HF E3 L d m Hd.
  apply (uniform_geometry to64 B2R env sched nr nc D seed Hs HD HF dflt Hd 32 uneg11_32 (/ IZR (2 ^ 20))).
  - reflexivity.
  - cbn; lra.
  - cbn; lra.
  - rewrite E3. exact entry_widened.
Qed.
Print Assumptions C68_uniform_double.

(** T = double, 64-bit words: eps = 2^-49. *)
Theorem C68_uniform_wide_words :
  forall {K} (env : dense_env K b64 b64) sched n_rows n_cols D (seed : rng_state K) (dflt : list b64),
    valid_schedule sched -> mk_dense_dist n_rows n_cols Uniform Long = Ok D -> dense_fits env D seed ->
    env_scal3 env = scal3_64 ->
    let L := g_len (env_unif env) in let d := Z.min n_rows n_cols in let m := Z.max n_rows n_cols in
    zlen dflt = L ->
    geometry_kept (tapes (Z.to_nat (dense_blocks D L)) (uneg11_blocks64 L)) (dense_iso2 D)
      (fun t => sketch_of n_rows n_cols (dense_sampled (fun x => x) B2R (with_blocks env seed dflt t) sched D seed))
      d m (uniform_spread (/ IZR (2 ^ 49)) d m).
Proof.
  intros K env sched nr nc D seed dflt Hs HD HF E3 L d m Hd.
  apply (uniform_geometry (fun x => x) B2R env sched nr nc D seed Hs HD HF dflt Hd 64 uneg11_64 (/ IZR (2 ^ 49))).
  - reflexivity.
  - cbn; lra.
  - cbn; lra.
  - rewrite E3. exact entry_double.
Qed.
Print Assumptions C68_uniform_wide_words.

(** A 4000 by 100000 float operator: the squared length of a vector changes by more than 10
    percent with probability at most 5.02 percent. *)
Definition D4000 : dense_dist :=
  {| dd_rows := 4000; dd_cols := 100000; dd_axis := Long; dd_major := 100000; dd_minor := 4000; dd_iso_inv2 := 4000;
     dd_family := Uniform; dd_layout := RowMajor |}.
Example C68_case :
  mk_dense_dist 4000 100000 Uniform Long = Ok D4000 /\ dense_fits env_float D4000 (mk_state 7 tt) /\
  uniform_spread (/ IZR (2 ^ 20)) 4000 100000 / (/ 10) ^ 2 <= 502 / 10000.
Proof.
  split; [reflexivity|]. split.
  { split; [split; apply gen22_wf; reflexivity|]. repeat split; cbn; lia. }
  unfold uniform_spread. replace (100000 / 4000) with (5 * 5) by lra. rewrite sqrt_square by lra.
  assert (B : sqrt (2 / 4000) <= 0.0223608). { rewrite <- (sqrt_square 0.0223608) by lra. apply sqrt_le_1_alt. lra. }
  assert (P : 0 <= sqrt (2 / 4000)) by apply sqrt_pos. set (r := sqrt (2 / 4000)) in *. clearbody r.
  change (IZR (2 ^ 20)) with 1048576. set (a := (1 + 7 * / 1048576) * r + 4 * / 1048576 + 3 * / 1048576 * 5 + (/ 1048576) ^ 2 * 100000).
  assert (A : 0 <= a <= 0.02238) by (unfold a; cbn [pow]; split; lra). clearbody a. cbn [pow]. nra.
Qed.
