(** Gaussian dense sketches keep distances, subspaces and least-squares problems except with
    exponentially small probability (C73).

    Definitions read by these statements: as for C70 (PropsNorm3.v); [geometry_kept_exp],
    [net_size] and [gaussian_slack] (TailSpec.v).

    Square operators are left out: there the two values of a Box-Muller pair land in
    neighbouring rows of the sketch, so that the rows are not independent.

    Entries are the floating-point numbers the code stores; sketches of vectors are computed in
    real numbers (for rounding in the product see C65). *)
From Coq Require Import ZArith Reals Lra Psatz Lia List.
From Flocq Require Import Core BinarySingleNaN.
From Verif Require Import Base Spec Interleave RngModel DenseModel DenseSpec DenseProofs2 SparseSkopModel FloatModel FloatProofs FloatProofs2
  IsoSpec IsoProofs StatSpec DenseFloatModel DenseIsoProofs2 NormSpec NormProofs3 BoxModel BoxSpec BoxProofs BoxProofs4 BoxProofs2 BoxLibm BoxProofs5 LogMoments PropsGauss GaussMoments GaussNorm PropsNorm3
  TailSpec TailProofs TailProofs2 TailGauss3.
Import ListNotations.
Local Open Scope R_scope.

(** Exact arithmetic, words of W bits (W >= 17 meets the second condition). *)
Theorem C73_gaussian_exact :
  forall W, (3 <= W)%Z -> (500 * (W + 3) ^ 2 <= 2 ^ (W + 1))%Z ->
  forall {K} (env : dense_env K R R) sched n_rows n_cols D (seed : rng_state K) (dflt : list R) junk,
    valid_schedule sched -> mk_dense_dist n_rows n_cols Gaussian Long = Ok D -> dense_fits env D seed -> n_rows <> n_cols ->
    let L := g_len (env_gauss env) in let d := Z.min n_rows n_cols in let m := Z.max n_rows n_cols in
    let c := IZR ((W + 3) ^ 2) / IZR (2 ^ (W + 1)) in
    Z.even L = true -> zlen dflt = L ->
    geometry_kept_exp (tapes (Z.to_nat (dense_blocks D L)) (map (boxmul_block (box_muller W) junk) (tapes (Z.to_nat L) (range 0 (2 ^ W))))) (dense_iso2 D)
      (fun t => sketch_of n_rows n_cols (dense_sampled (fun x => x) (fun x => x) (with_blocks env seed dflt t) sched D seed))
      d m (gaussian_slack c c m).
Proof.
  intros W HW HB K env sched nr nc D seed dflt junk Hs HD HF Hsq L d m c Ev Hd.
  assert (P : 0 < IZR (2 ^ (W + 1))) by (apply IZR_lt, Z.pow_pos_nonneg; lia).
  assert (Q : 9 <= IZR ((W + 3) ^ 2)) by (apply IZR_le; nia).
  assert (Hb : 500 * IZR ((W + 3) ^ 2) <= IZR (2 ^ (W + 1))) by (rewrite <- mult_IZR; now apply IZR_le).
  pose proof (Rinv_0_lt_compat _ P) as IP.
  assert (C0 : 0 < c) by (unfold c, Rdiv; apply Rmult_lt_0_compat; lra).
  assert (EW : (2 ^ (W + 1) = 2 * 2 ^ W)%Z) by (rewrite Z.pow_add_r by lia; lia).
  set (q := (2 ^ W / (2 * (W + 1)))%Z). assert (Hq : (0 < q /\ 2 * (W + 1) * q <= 2 ^ W /\ 2 ^ W <= 2 * (2 * (W + 1) * q))%Z).
  { unfold q. assert (B : (2 * (W + 1) <= 2 ^ W)%Z) by nia. clear - B HW. set (p := (2 ^ W)%Z) in *. clearbody p. pose proof (Z.div_mod p (2 * (W + 1)) ltac:(lia)) as E. pose proof (Z.mod_pos_bound p (2 * (W + 1)) ltac:(lia)) as M.
    assert (1 <= p / (2 * (W + 1)))%Z by (apply Z.div_le_lower_bound; lia). nia. }
  clearbody q. destruct Hq as (Hq0 & Hq1 & Hq2).
  apply (gauss_geometry_exp (fun x => x) (fun x => x) env sched nr nc D seed Hs HD HF Hsq Ev dflt junk Hd W HW (box_muller W) (fun u => sqrt (radius2 W u)) c c C0) with (q := q).
  - intros h p _. unfold vv, gg, box_muller, rbm. destruct h; cbn [fst snd]; match goal with |- Rabs ?z <= _ => replace z with 0 by ring end; rewrite Rabs_R0; lra.
  - intros u Hu. rewrite sqrt_sqrt by (apply radius2_nonneg; [lia|exact Hu]). rewrite Rminus_diag_eq, Rabs_R0 by reflexivity. pose proof (radius2_nonneg W ltac:(lia) u Hu). apply Rmult_le_pos; lra.
  - split; [lra|]. unfold c. apply (Rmult_le_reg_r (IZR (2 ^ (W + 1)))); [exact P|]. replace (IZR ((W + 3) ^ 2) / IZR (2 ^ (W + 1)) * IZR (2 ^ (W + 1))) with (IZR ((W + 3) ^ 2)) by (field; lra). lra.
  - unfold c. rewrite EW, mult_IZR in P, IP |- *.
    assert (P' : 0 < IZR (2 ^ W)) by lra. replace (/ IZR (2 ^ W)) with (2 / (2 * IZR (2 ^ W))) by (field; lra). apply Rmult_le_compat_r; lra.
  - exact Hq0.
  - exact Hq1.
  - unfold c. assert (Pq : 0 < IZR q) by (apply IZR_lt; exact Hq0). assert (N : IZR (2 ^ (W + 1)) <= IZR ((W + 3) ^ 2) * IZR q) by (rewrite <- mult_IZR; apply IZR_le; rewrite EW; nia).
    apply (Rmult_le_reg_r (IZR q * IZR (2 ^ (W + 1)))); [now apply Rmult_lt_0_compat|].
    replace (/ IZR q * (IZR q * IZR (2 ^ (W + 1)))) with (IZR (2 ^ (W + 1))) by (field; lra). replace (IZR ((W + 3) ^ 2) / IZR (2 ^ (W + 1)) * (IZR q * IZR (2 ^ (W + 1)))) with (IZR ((W + 3) ^ 2) * IZR q) by (field; lra). exact N.
Qed.
Print Assumptions C73_gaussian_exact.

(** Bit-exact, T = float, 32-bit words; of sincosf and logf only an accuracy eps is assumed. *)
Theorem C73_gaussian_float :
  forall {K} (env : dense_env K b32 b32) sched n_rows n_cols D (seed : rng_state K) (dflt : list b32) junk sincosf logf eps,
    valid_schedule sched -> mk_dense_dist n_rows n_cols Gaussian Long = Ok D -> dense_fits env D seed -> n_rows <> n_cols ->
    libm_accurate sincosf logf eps -> 0 <= eps <= / 4096 ->
    let L := g_len (env_gauss env) in let d := Z.min n_rows n_cols in let m := Z.max n_rows n_cols in
    let c := 79 / IZR (2 ^ 24) + 5 * eps in
    Z.even L = true -> zlen dflt = L ->
    geometry_kept_exp (tapes (Z.to_nat (dense_blocks D L)) (map (boxmul_block (boxmuller_32 sincosf logf) junk) (tapes (Z.to_nat L) (range 0 (2 ^ 32))))) (dense_iso2 D)
      (fun t => sketch_of n_rows n_cols (dense_sampled (fun x => x) B2R (with_blocks env seed dflt t) sched D seed))
      d m (gaussian_slack c (48 * c) m).
Proof.
  intros K env sched nr nc D seed dflt junk sincosf logf eps Hs HD HF Hsq Hl He L d m c Ev Hd.
  pose proof (close32 sincosf logf eps Hl He) as Q. pose proof (fun u => rho32_near sincosf logf eps u Hl He) as Hr.
  change (bpow radix2 (-24)) with (/ IZR (2 ^ 24)) in Q, Hr.
  assert (C : 79 / 16777216 <= c <= / 500) by (unfold c; change (IZR (2 ^ 24)) with 16777216; lra).
  apply (gauss_geometry_exp (fun x => x) B2R env sched nr nc D seed Hs HD HF Hsq Ev dflt junk Hd 32 ltac:(lia) (boxmuller_32 sincosf logf) (rho32 logf) c (48 * c)) with (q := (2 ^ 25)%Z).
  - lra.
  - apply near_entries; [lia|lra|change (32 + 1)%Z with 33%Z; lra| |].
    + intros u0 u1 H0 H1. exact (proj1 (proj1 (proj2 (Q u0 u1 H0 H1)))).
    + intros u0 u1 H0 H1. exact (proj2 (proj1 (proj2 (Q u0 u1 H0 H1)))).
  - exact Hr.
  - lra.
  - change (IZR (2 ^ 32)) with 4294967296. lra.
  - lia.
  - lia.
  - change (IZR (2 ^ 25)) with 33554432. lra.
Qed.
Print Assumptions C73_gaussian_float.

(** T = double, 32-bit words: the float values are widened. *)
Theorem C73_gaussian_double :
  forall {K} (env : dense_env K b32 b64) sched n_rows n_cols D (seed : rng_state K) (dflt : list b32) junk sincosf logf eps,
    valid_schedule sched -> mk_dense_dist n_rows n_cols Gaussian Long = Ok D -> dense_fits env D seed -> n_rows <> n_cols ->
    libm_accurate sincosf logf eps -> 0 <= eps <= / 4096 ->
    let L := g_len (env_gauss env) in let d := Z.min n_rows n_cols in let m := Z.max n_rows n_cols in
    let c := 79 / IZR (2 ^ 24) + 5 * eps in
    Z.even L = true -> zlen dflt = L ->
    geometry_kept_exp (tapes (Z.to_nat (dense_blocks D L)) (map (boxmul_block (boxmuller_32 sincosf logf) junk) (tapes (Z.to_nat L) (range 0 (2 ^ 32))))) (dense_iso2 D)
      (fun t => sketch_of n_rows n_cols (dense_sampled to64 B2R (with_blocks env seed dflt t) sched D seed))
      d m (gaussian_slack c (48 * c) m).
Proof.
  intros K env sched nr nc D seed dflt junk sincosf logf eps Hs HD HF Hsq Hl He L d m c Ev Hd.
  pose proof (close32 sincosf logf eps Hl He) as Q. pose proof (fun u => rho32_near sincosf logf eps u Hl He) as Hr.
  change (bpow radix2 (-24)) with (/ IZR (2 ^ 24)) in Q, Hr.
  assert (Wd : forall u0 u1, (0 <= u0 < 2 ^ 32)%Z -> (0 <= u1 < 2 ^ 32)%Z ->
    rbm to64 B2R (boxmuller_32 sincosf logf) u0 u1 = (B2R (fst (boxmuller_32 sincosf logf u0 u1)), B2R (snd (boxmuller_32 sincosf logf u0 u1)))).
  { intros u0 u1 H0 H1. destruct (Q u0 u1 H0 H1) as ([F1 F2] & _). unfold rbm. rewrite (proj1 (to64_ok _ F1)), (proj1 (to64_ok _ F2)). reflexivity. }
  assert (C : 79 / 16777216 <= c <= / 500) by (unfold c; change (IZR (2 ^ 24)) with 16777216; lra).
  apply (gauss_geometry_exp to64 B2R env sched nr nc D seed Hs HD HF Hsq Ev dflt junk Hd 32 ltac:(lia) (boxmuller_32 sincosf logf) (rho32 logf) c (48 * c)) with (q := (2 ^ 25)%Z).
  - lra.
  - apply near_entries; [lia|lra|change (32 + 1)%Z with 33%Z; lra| |].
    + intros u0 u1 H0 H1. rewrite Wd by assumption. exact (proj1 (proj1 (proj2 (Q u0 u1 H0 H1)))).
    + intros u0 u1 H0 H1. rewrite Wd by assumption. exact (proj2 (proj1 (proj2 (Q u0 u1 H0 H1)))).
  - exact Hr.
  - lra.
  - change (IZR (2 ^ 32)) with 4294967296. lra.
  - lia.
  - lia.
  - change (IZR (2 ^ 25)) with 33554432. lra.
Qed.
Print Assumptions C73_gaussian_double.

(** T = double, 64-bit words. *)
Theorem C73_gaussian_wide_words :
  forall {K} (env : dense_env K b64 b64) sched n_rows n_cols D (seed : rng_state K) (dflt : list b64) junk sincos log eps,
    valid_schedule sched -> mk_dense_dist n_rows n_cols Gaussian Long = Ok D -> dense_fits env D seed -> n_rows <> n_cols ->
    libm_accurate sincos log eps -> 0 <= eps <= / 4096 ->
    let L := g_len (env_gauss env) in let d := Z.min n_rows n_cols in let m := Z.max n_rows n_cols in
    let c := 79 / IZR (2 ^ 53) + 5 * eps in
    Z.even L = true -> zlen dflt = L ->
    geometry_kept_exp (tapes (Z.to_nat (dense_blocks D L)) (map (boxmul_block (boxmuller_64 sincos log) junk) (tapes (Z.to_nat L) (range 0 (2 ^ 64))))) (dense_iso2 D)
      (fun t => sketch_of n_rows n_cols (dense_sampled (fun x => x) B2R (with_blocks env seed dflt t) sched D seed))
      d m (gaussian_slack c (92 * c) m).
Proof.
  intros K env sched nr nc D seed dflt junk sincos log eps Hs HD HF Hsq Hl He L d m c Ev Hd.
  pose proof (close64 sincos log eps Hl He) as Q. pose proof (fun u => rho64_near sincos log eps u Hl He) as Hr.
  change (bpow radix2 (-53)) with (/ IZR (2 ^ 53)) in Q, Hr.
  assert (C : 79 / 9007199254740992 <= c <= / 500) by (unfold c; change (IZR (2 ^ 53)) with 9007199254740992; lra).
  apply (gauss_geometry_exp (fun x => x) B2R env sched nr nc D seed Hs HD HF Hsq Ev dflt junk Hd 64 ltac:(lia) (boxmuller_64 sincos log) (rho64 log) c (92 * c)) with (q := (2 ^ 56)%Z).
  - lra.
  - apply near_entries; [lia|lra|change (64 + 1)%Z with 65%Z; lra| |].
    + intros u0 u1 H0 H1. exact (proj1 (proj1 (proj2 (Q u0 u1 H0 H1)))).
    + intros u0 u1 H0 H1. exact (proj2 (proj1 (proj2 (Q u0 u1 H0 H1)))).
  - exact Hr.
  - lra.
  - change (IZR (2 ^ 64)) with 18446744073709551616. lra.
  - lia.
  - lia.
  - change (IZR (2 ^ 56)) with 72057594037927936. lra.
Qed.
Print Assumptions C73_gaussian_wide_words.

(** A 4000 by 100000 float operator, with library functions accurate to 2^-22, keeps all
    squared distances between a million points to 53 percent, except with probability 10^-4. *)
Example C73_case : forall sched dflt junk (X : Z -> Z -> R), valid_schedule sched -> zlen dflt = g_len (env_gauss env_gauss32) ->
  let draws := tapes (Z.to_nat (dense_blocks D4000g (g_len (env_gauss env_gauss32))))
    (map (boxmul_block (boxmuller_32 (near_sincos 24 128) (near_log 24 128)) junk) (tapes (Z.to_nat (g_len (env_gauss env_gauss32))) (range 0 (2 ^ 32)))) in
  exists bad : list (list b32) -> bool,
    probability draws bad <= / 10000 /\
    forall t, In t draws -> bad t = false ->
    forall a b, (0 <= a < 1000000)%Z -> (0 <= b < 1000000)%Z ->
    let x i := X a i - X b i in
    let y := sketch_of 4000 100000 (dense_sampled (fun x => x) B2R (with_blocks env_gauss32 (mk_state 7 tt) dflt t) sched D4000g (mk_state 7 tt)) x in
    Rabs (dense_iso2 D4000g * dot 4000 y y - dot 100000 x x) <= 53 / 100 * dot 100000 x x.
Proof.
  intros sched dflt junk X Hs Hd draws. destruct C70_case as (HD & HF & Ev & Hl & _).
  pose proof (C73_gaussian_float env_gauss32 sched 4000 100000 D4000g (mk_state 7 tt) dflt junk (near_sincos 24 128) (near_log 24 128) (/ IZR (2 ^ 22)) Hs HD HF ltac:(discriminate) Hl ltac:(change (IZR (2 ^ 22)) with 4194304; lra) Ev Hd) as (_ & JL & _).
  specialize (JL 1000000%Z X (/ 4) ltac:(lia) ltac:(lra)). destruct JL as (bad & P & B). exists bad. split.
  - eapply Rle_trans; [exact P|]. change (Z.min 4000 100000) with 4000%Z.
    assert (E : exp (- (4000 * (/ 4) ^ 2 / 6)) <= exp (- INR 41)).
    { destruct (Rle_lt_or_eq_dec (- (4000 * (/ 4) ^ 2 / 6)) (- INR 41)) as [H|H]; [cbn [pow]; rewrite INR_IZR_INZ; change (Z.of_nat 41) with 41%Z; lra|apply Rlt_le, exp_increasing, H|right; now f_equal]. }
    assert (E1 : 2.5 <= exp 1).
    { replace (exp 1) with (exp (/ 8) ^ 8). 2: { rewrite exp_pow. f_equal. cbn [INR]. lra. }
      apply (Rle_trans _ ((9 / 8) ^ 8)); [lra|]. apply pow_incr. pose proof (exp_ineq1_le (/ 8)). lra. }
    assert (E2 : exp (- INR 41) <= / 2.5 ^ 41).
    { rewrite exp_Ropp. apply Rinv_le_contravar; [apply pow_lt; lra|]. rewrite <- (Rmult_1_r (INR 41)), <- exp_pow. apply pow_incr. lra. }
    apply (Rle_trans _ (IZR (1000000 * (1000000 - 1)) * / 2.5 ^ 41)); [apply Rmult_le_compat_l; [apply IZR_le; lia|lra]|].
    change (1000000 * (1000000 - 1))%Z with 999999000000%Z. replace (2.5 ^ 41) with (45474735088646411895751953125 / 2199023255552) by lra. lra.
  - intros t Ht Hb a b Ha Hb'. specialize (B t Ht Hb a b Ha Hb'). cbv zeta in *. eapply Rle_trans; [exact B|]. apply Rmult_le_compat_r; [apply dot_nonneg|].
    change (Z.max 4000 100000) with 100000%Z. unfold gaussian_slack.
    assert (S : sqrt 100000 <= 317). { rewrite <- (sqrt_square 317) by lra. apply sqrt_le_1_alt. lra. }
    change (IZR (2 ^ 24)) with 16777216. change (IZR (2 ^ 22)) with 4194304. cbn [pow]. lra.
Qed.
