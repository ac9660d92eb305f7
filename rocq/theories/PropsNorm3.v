(** Gaussian dense sketches preserve lengths, angles and least-squares problems with a known
    probability (C70).

    Definitions read by these statements: [tapes n U] all lists of n elements of U; the blocks
    are all results of Box-Muller on L random words ([boxmul_block], BoxModel.v, models
    boxmulall); [with_blocks env seed dflt t] the environment whose generator returns the blocks
    of t; [dense_sampled] the real value of an entry of the operator fill_dense produces
    (StatSpec.v, DenseFloatModel.v); [sketch_of n_rows n_cols S x] S x for a wide operator,
    S^T x for a tall one; [libm_accurate], [box_muller] (BoxSpec.v); [geometry_kept] and
    [gaussian_spread] (NormSpec.v).

    Entries are the floating-point numbers the code stores; sketches of vectors are computed in
    real numbers (for rounding in the product see C65). *)
From Coq Require Import ZArith Reals Lra Psatz Lia List.
From Flocq Require Import Core BinarySingleNaN.
From Verif Require Import Base Spec Interleave RngModel DenseModel DenseSpec DenseProofs2 SparseSkopModel FloatModel FloatProofs FloatProofs2
  IsoSpec StatSpec DenseFloatModel DenseIsoProofs2 NormSpec BoxModel BoxSpec BoxProofs BoxProofs4 BoxProofs2 BoxLibm BoxProofs5 LogMoments PropsGauss GaussNorm.
Import ListNotations.
Local Open Scope R_scope.

(** Exact arithmetic, words of W bits (W >= 17 meets the second condition): the mean square
    error of inner products is 2/d up to (W+3)^2 / 2^(W+1). *)
Theorem C70_gaussian_exact :
  forall W, (3 <= W)%Z -> (500 * (W + 3) ^ 2 <= 2 ^ (W + 1))%Z ->
  forall {K} (env : dense_env K R R) sched n_rows n_cols D (seed : rng_state K) (dflt : list R) junk,
    valid_schedule sched -> mk_dense_dist n_rows n_cols Gaussian Long = Ok D -> dense_fits env D seed ->
    let L := g_len (env_gauss env) in let d := Z.min n_rows n_cols in let m := Z.max n_rows n_cols in
    Z.even L = true -> zlen dflt = L ->
    geometry_kept (tapes (Z.to_nat (dense_blocks D L)) (map (boxmul_block (box_muller W) junk) (tapes (Z.to_nat L) (range 0 (2 ^ W))))) (dense_iso2 D)
      (fun t => sketch_of n_rows n_cols (dense_sampled (fun x => x) (fun x => x) (with_blocks env seed dflt t) sched D seed))
      d m (gaussian_spread (IZR ((W + 3) ^ 2) / IZR (2 ^ (W + 1))) d m).
Proof.
  intros W HW HB K env sched nr nc D seed dflt junk Hs HD HF L d m Ev Hd.
  assert (P : 0 < IZR (2 ^ (W + 1))) by (apply IZR_lt, Z.pow_pos_nonneg; lia).
  assert (Q : 9 <= IZR ((W + 3) ^ 2)) by (apply IZR_le; nia).
  assert (Hb : 500 * IZR ((W + 3) ^ 2) <= IZR (2 ^ (W + 1))) by (rewrite <- mult_IZR; now apply IZR_le).
  pose proof (Rinv_0_lt_compat _ P) as IP. set (c := IZR ((W + 3) ^ 2) / IZR (2 ^ (W + 1))).
  assert (C0 : 0 <= c) by (unfold c, Rdiv; apply Rmult_le_pos; lra).
  assert (G : forall x y u, x = y -> (0 <= u < 2 ^ W)%Z -> Rabs (x - y) <= c * (1 + radius2 W u)).
  { intros x y u -> Hu. rewrite Rminus_diag_eq, Rabs_R0 by reflexivity. pose proof (radius2_nonneg W ltac:(lia) u Hu). apply Rmult_le_pos; lra. }
  apply (gauss_geometry (fun x => x) (fun x => x) env sched nr nc D seed Hs HD HF Ev dflt junk Hd W HW (box_muller W) (fun u => sqrt (radius2 W u)) c).
  - intros u0 u1 _ H1. now apply G.
  - intros u0 u1 _ H1. now apply G.
  - intros u Hu. apply G; [|exact Hu]. apply sqrt_sqrt, radius2_nonneg; [lia|exact Hu].
  - split; [exact C0|]. unfold c. apply (Rmult_le_reg_r (IZR (2 ^ (W + 1)))); [exact P|]. replace (IZR ((W + 3) ^ 2) / IZR (2 ^ (W + 1)) * IZR (2 ^ (W + 1))) with (IZR ((W + 3) ^ 2)) by (field; lra). lra.
  - unfold c. rewrite Z.pow_add_r, mult_IZR in P, IP |- * by lia. change (IZR (2 ^ 1)) with 2 in *.
    assert (P' : 0 < IZR (2 ^ W)) by lra. replace (/ IZR (2 ^ W)) with (2 / (IZR (2 ^ W) * 2)) by (field; lra). apply Rmult_le_compat_r; lra.
  - eapply Rle_trans; [apply prim2_half_cell; lia|]. unfold c, half_cell, Rdiv. apply Rmult_le_compat_r; [lra|].
    change ((W + 3) ^ 2)%Z with ((W + 3) ^ (Z.of_nat 2))%Z. rewrite <- pow_IZR. apply pow_incr.
    assert (0 <= IZR (W + 1)) by (apply IZR_le; lia). rewrite !plus_IZR in *. split; lra.
Qed.
Print Assumptions C70_gaussian_exact.

(** Bit-exact, T = float, 32-bit words; of sincosf and logf only an accuracy eps is assumed. *)
Theorem C70_gaussian_float :
  forall {K} (env : dense_env K b32 b32) sched n_rows n_cols D (seed : rng_state K) (dflt : list b32) junk sincosf logf eps,
    valid_schedule sched -> mk_dense_dist n_rows n_cols Gaussian Long = Ok D -> dense_fits env D seed ->
    libm_accurate sincosf logf eps -> 0 <= eps <= / 4096 ->
    let L := g_len (env_gauss env) in let d := Z.min n_rows n_cols in let m := Z.max n_rows n_cols in
    Z.even L = true -> zlen dflt = L ->
    geometry_kept (tapes (Z.to_nat (dense_blocks D L)) (map (boxmul_block (boxmuller_32 sincosf logf) junk) (tapes (Z.to_nat L) (range 0 (2 ^ 32))))) (dense_iso2 D)
      (fun t => sketch_of n_rows n_cols (dense_sampled (fun x => x) B2R (with_blocks env seed dflt t) sched D seed))
      d m (gaussian_spread (79 / IZR (2 ^ 24) + 5 * eps) d m).
Proof.
  intros K env sched nr nc D seed dflt junk sincosf logf eps Hs HD HF Hl He L d m Ev Hd.
  pose proof (close32 sincosf logf eps Hl He) as Q. pose proof (fun u => rho32_near sincosf logf eps u Hl He) as Hr.
  pose proof (prim2_half_cell 32 ltac:(lia)) as HP. unfold half_cell in HP at 2. change (IZR (2 ^ (32 + 1))) with 8589934592 in HP. change (32 + 1)%Z with 33%Z in HP.
  change (bpow radix2 (-24)) with (/ IZR (2 ^ 24)) in Q, Hr.
  apply (gauss_geometry (fun x => x) B2R env sched nr nc D seed Hs HD HF Ev dflt junk Hd 32 ltac:(lia) (boxmuller_32 sincosf logf) (rho32 logf)).
  - intros u0 u1 H0 H1. exact (proj1 (proj1 (proj2 (Q u0 u1 H0 H1)))).
  - intros u0 u1 H0 H1. exact (proj2 (proj1 (proj2 (Q u0 u1 H0 H1)))).
  - exact Hr.
  - change (IZR (2 ^ 24)) with 16777216. lra.
  - change (IZR (2 ^ 24)) with 16777216. change (IZR (2 ^ 32)) with 4294967296. lra.
  - change (IZR (2 ^ 24)) with 16777216. eapply Rle_trans; [exact HP|]. lra.
Qed.
Print Assumptions C70_gaussian_float.

(** T = double, 32-bit words: the float values are widened. *)
Theorem C70_gaussian_double :
  forall {K} (env : dense_env K b32 b64) sched n_rows n_cols D (seed : rng_state K) (dflt : list b32) junk sincosf logf eps,
    valid_schedule sched -> mk_dense_dist n_rows n_cols Gaussian Long = Ok D -> dense_fits env D seed ->
    libm_accurate sincosf logf eps -> 0 <= eps <= / 4096 ->
    let L := g_len (env_gauss env) in let d := Z.min n_rows n_cols in let m := Z.max n_rows n_cols in
    Z.even L = true -> zlen dflt = L ->
    geometry_kept (tapes (Z.to_nat (dense_blocks D L)) (map (boxmul_block (boxmuller_32 sincosf logf) junk) (tapes (Z.to_nat L) (range 0 (2 ^ 32))))) (dense_iso2 D)
      (fun t => sketch_of n_rows n_cols (dense_sampled to64 B2R (with_blocks env seed dflt t) sched D seed))
      d m (gaussian_spread (79 / IZR (2 ^ 24) + 5 * eps) d m).
Proof.
  intros K env sched nr nc D seed dflt junk sincosf logf eps Hs HD HF Hl He L d m Ev Hd.
  pose proof (close32 sincosf logf eps Hl He) as Q. pose proof (fun u => rho32_near sincosf logf eps u Hl He) as Hr.
  pose proof (prim2_half_cell 32 ltac:(lia)) as HP. unfold half_cell in HP at 2. change (IZR (2 ^ (32 + 1))) with 8589934592 in HP. change (32 + 1)%Z with 33%Z in HP.
  change (bpow radix2 (-24)) with (/ IZR (2 ^ 24)) in Q, Hr.
  assert (Wd : forall u0 u1, (0 <= u0 < 2 ^ 32)%Z -> (0 <= u1 < 2 ^ 32)%Z ->
    rbm to64 B2R (boxmuller_32 sincosf logf) u0 u1 = (B2R (fst (boxmuller_32 sincosf logf u0 u1)), B2R (snd (boxmuller_32 sincosf logf u0 u1)))).
  { intros u0 u1 H0 H1. destruct (Q u0 u1 H0 H1) as ([F1 F2] & _). unfold rbm. rewrite (proj1 (to64_ok _ F1)), (proj1 (to64_ok _ F2)). reflexivity. }
  apply (gauss_geometry to64 B2R env sched nr nc D seed Hs HD HF Ev dflt junk Hd 32 ltac:(lia) (boxmuller_32 sincosf logf) (rho32 logf)).
  - intros u0 u1 H0 H1. rewrite Wd by assumption. exact (proj1 (proj1 (proj2 (Q u0 u1 H0 H1)))).
  - intros u0 u1 H0 H1. rewrite Wd by assumption. exact (proj2 (proj1 (proj2 (Q u0 u1 H0 H1)))).
  - exact Hr.
  - change (IZR (2 ^ 24)) with 16777216. lra.
  - change (IZR (2 ^ 24)) with 16777216. change (IZR (2 ^ 32)) with 4294967296. lra.
  - change (IZR (2 ^ 24)) with 16777216. eapply Rle_trans; [exact HP|]. lra.
Qed.
Print Assumptions C70_gaussian_double.

(** T = double, 64-bit words. *)
Theorem C70_gaussian_wide_words :
  forall {K} (env : dense_env K b64 b64) sched n_rows n_cols D (seed : rng_state K) (dflt : list b64) junk sincos log eps,
    valid_schedule sched -> mk_dense_dist n_rows n_cols Gaussian Long = Ok D -> dense_fits env D seed ->
    libm_accurate sincos log eps -> 0 <= eps <= / 4096 ->
    let L := g_len (env_gauss env) in let d := Z.min n_rows n_cols in let m := Z.max n_rows n_cols in
    Z.even L = true -> zlen dflt = L ->
    geometry_kept (tapes (Z.to_nat (dense_blocks D L)) (map (boxmul_block (boxmuller_64 sincos log) junk) (tapes (Z.to_nat L) (range 0 (2 ^ 64))))) (dense_iso2 D)
      (fun t => sketch_of n_rows n_cols (dense_sampled (fun x => x) B2R (with_blocks env seed dflt t) sched D seed))
      d m (gaussian_spread (79 / IZR (2 ^ 53) + 5 * eps) d m).
Proof.
  intros K env sched nr nc D seed dflt junk sincos log eps Hs HD HF Hl He L d m Ev Hd.
  pose proof (close64 sincos log eps Hl He) as Q. pose proof (fun u => rho64_near sincos log eps u Hl He) as Hr.
  pose proof (prim2_half_cell 64 ltac:(lia)) as HP. unfold half_cell in HP at 2. change (IZR (2 ^ (64 + 1))) with 36893488147419103232 in HP. change (64 + 1)%Z with 65%Z in HP.
  change (bpow radix2 (-53)) with (/ IZR (2 ^ 53)) in Q, Hr.
  apply (gauss_geometry (fun x => x) B2R env sched nr nc D seed Hs HD HF Ev dflt junk Hd 64 ltac:(lia) (boxmuller_64 sincos log) (rho64 log)).
  - intros u0 u1 H0 H1. exact (proj1 (proj1 (proj2 (Q u0 u1 H0 H1)))).
  - intros u0 u1 H0 H1. exact (proj2 (proj1 (proj2 (Q u0 u1 H0 H1)))).
  - exact Hr.
  - change (IZR (2 ^ 53)) with 9007199254740992. lra.
  - change (IZR (2 ^ 53)) with 9007199254740992. change (IZR (2 ^ 64)) with 18446744073709551616. lra.
  - change (IZR (2 ^ 53)) with 9007199254740992. eapply Rle_trans; [exact HP|]. lra.
Qed.
Print Assumptions C70_gaussian_wide_words.

(** A 4000 by 100000 float operator, with library functions accurate to 2^-22: the squared
    length of a vector changes by more than 10 percent with probability at most 5.7 percent. *)
Definition D4000g : dense_dist :=
  {| dd_rows := 4000; dd_cols := 100000; dd_axis := Long; dd_major := 100000; dd_minor := 4000; dd_iso_inv2 := 4000;
     dd_family := Gaussian; dd_layout := RowMajor |}.
Example C70_case :
  mk_dense_dist 4000 100000 Gaussian Long = Ok D4000g /\ dense_fits env_gauss32 D4000g (mk_state 7 tt) /\ Z.even (g_len (env_gauss env_gauss32)) = true /\
  libm_accurate (near_sincos 24 128) (near_log 24 128) (/ IZR (2 ^ 22)) /\
  gaussian_spread (79 / IZR (2 ^ 24) + 5 * / IZR (2 ^ 22)) 4000 100000 / (/ 10) ^ 2 <= 57 / 1000 /\
  (500 * (32 + 3) ^ 2 <= 2 ^ (32 + 1))%Z.
Proof.
  split; [reflexivity|]. split.
  { split; [split; apply boxmul_gen_wf, g_words_wf|]. repeat split; cbn; lia. }
  split; [reflexivity|]. split.
  { replace (/ IZR (2 ^ 22)) with (4 * bpow radix2 (- (24))) by (change (bpow radix2 (- (24))) with (/ 16777216); change (IZR (2 ^ 22)) with 4194304; lra). apply accurate_ulp; lia. }
  split; [|cbv; discriminate].
  unfold gaussian_spread. replace (100000 / 4000) with (5 * 5) by lra. rewrite sqrt_square by lra.
  assert (B : sqrt (2 / 4000) <= 0.0223608). { rewrite <- (sqrt_square 0.0223608) by lra. apply sqrt_le_1_alt. lra. }
  assert (P : 0 <= sqrt (2 / 4000)) by apply sqrt_pos. set (r := sqrt (2 / 4000)) in *. clearbody r.
  change (IZR (2 ^ 24)) with 16777216. change (IZR (2 ^ 22)) with 4194304.
  set (c := 79 / 16777216 + 5 * / 4194304). assert (C : c = 99 / 16777216) by (unfold c; lra). rewrite C. clearbody c.
  set (a := (1 + 7 * (99 / 16777216)) * r + 200 * (99 / 16777216) + 7 * (99 / 16777216) * 5 + 10 * (99 / 16777216) ^ 2 * 100000).
  assert (A : 0 <= a <= 0.02384) by (unfold a; cbn [pow]; split; lra). clearbody a. cbn [pow]. nra.
Qed.
