(** Sparse sketches with short-axis vectors keep distances, subspaces and least-squares problems
    except with exponentially small probability (C75).

    Definitions read by these statements: as for C67 (PropsNorm.v, with its [short_hyps],
    [word_draws] and [drawn_sketch]); [geometry_kept_within], [net_size] and [sparse_failure]
    (TailSpec.v).

    Scalars are real numbers, isometry_scale is the exact number the stored double rounds. *)
From Coq Require Import ZArith Reals Lra Psatz.
From Verif Require Import Base Spec RngModel DenseModel SparseSkopModel FySpec SparseSpec SparseProofs SparseProofs2 IsoSpec IsoProofs StatSpec
  NormSpec NormProofs NormProofs2 NormProofs3 PropsIso PropsNorm TailSpec TailProofs TailProofs3 TailProofs4 TailSparse TailSparse2.
Local Open Scope R_scope.

Section ShortExp.
  Context {K F : Type}.
  Variable env : sparse_env K F R.
  Variable D : sparse_dist.
  Variable seed : rng_state K.
  Variable W : Z.
  Notation d := (Z.min (sd_rows D) (sd_cols D)).
  Notation m := (Z.max (sd_rows D) (sd_cols D)).
  Notation k := (sd_vec_nnz D).
  (** A bound for the probability that a column meets a given row: k/d up to the bias of "word mod (n-j)". *)
  Definition meets : R := IZR k / IZR d * (1 + IZR d / IZR (2 ^ W)) ^ Z.to_nat k.
  Theorem C75_geometry : forall e omega tau, short_hyps env D seed W -> 0 < e <= 1 -> 0 < omega -> 0 < tau ->
    geometry_kept_within (word_draws env D W) (iso2 D) (drawn_sketch env D seed) d m e (sparse_failure d k meets e omega tau).
  Proof.
    intros e omega tau H He Ho Ht. pose proof (sketch_image env D seed W H) as SI. pose proof H as (We & E1 & Em & HD & Hax & Hz & Hs & HW & Hb & Hd).
    destruct (valid_sdist_inv D HD) as (P1 & P2 & P3 & P4 & P5 & P6). rewrite Hax in P5, P6.
    assert (Hiso : iso2 D = / IZR k). { unfold iso2. rewrite (dist_iso2 D HD), Hax. cbn [fst snd]. unfold Rdiv. apply Rmult_1_l. }
    assert (Pos : 0 < INR (length (word_draws env D W))) by (apply tapes_pos; auto using words_nonempty).
    assert (Sf : 0 <= sparse_failure d k meets e omega tau).
    { unfold sparse_failure. pose proof (exp_pos (- (e ^ 2 / (8 * omega)))). set (u := meets * _ - _). pose proof (exp_pos u). clearbody u.
      assert (0 <= IZR d * exp u) by (apply Rmult_le_pos; [apply IZR_le; lia|lra]). lra. }
    apply embed_geometry_within; [apply drawn_linear|lra| |now apply iso2_nonneg].
    intros x. unfold probability, average. apply (Rmult_le_reg_r (INR (length (word_draws env D W)))); [exact Pos|].
    unfold Rdiv at 1. rewrite Rmult_assoc, Rinv_l, Rmult_1_r by lra.
    destruct (Rle_lt_or_eq_dec 0 (dot m x x) (dot_nonneg m x)) as [Hx|Hx].
    - assert (Hx' : 0 < dot (sd_minor D) x x) by (now rewrite P6).
      pose proof (short_tail env D seed We E1 Em HD Hs Hb W HW ltac:(lia) x Hx' tau Ht omega Ho e He) as B.
      rewrite (Rmult_comm _ (INR _)). unfold pmax in B. rewrite P5, P6 in B. fold meets in B. eapply Rle_trans; [|exact B]. right. apply Rsum_ext. intros t _. now rewrite SI, Hiso.
    - rewrite Rsum_zero; [apply Rmult_le_pos; lra|]. intros t _. rewrite exceeds_le; [reflexivity|].
      apply (zero_kept (iso2 D) (drawn_sketch env D seed) d m (drawn_linear env D seed)). now apply dot_zero.
  Qed.
  (** Sizes that suffice for a given failure probability delta. *)
  Theorem C75_sizes : forall e delta, short_hyps env D seed W -> 0 < e <= 1 -> 0 < delta <= 1 -> (2 * (k * d) <= 2 ^ W)%Z ->
    64 * ln (4 / delta) <= e ^ 2 * IZR d -> 16 * (ln (4 / delta) * ln (2 * IZR d / delta)) <= e ^ 2 * IZR k ->
    geometry_kept_within (word_draws env D W) (iso2 D) (drawn_sketch env D seed) d m e delta.
  Proof.
    intros e delta H He Hde Hw Hd2 Hk2. pose proof H as (We & E1 & Em & HD & Hax & Hz & Hs & HW & Hb & Hd).
    destruct (valid_sdist_inv D HD) as (P1 & P2 & P3 & P4 & P5 & P6). rewrite Hax in P5, P6.
    assert (Pk : 0 < IZR k) by (apply IZR_lt; lia). assert (Pd : 0 < IZR d) by (apply IZR_lt; lia). assert (Ep : 0 < e ^ 2) by (apply pow_lt; lra).
    set (la := ln (4 / delta)) in *. set (lb := ln (2 * IZR d / delta)) in *.
    assert (La : 0 < la). { unfold la. rewrite <- ln_1. apply ln_increasing; [lra|]. apply (Rmult_lt_reg_r delta); [lra|]. unfold Rdiv. rewrite Rmult_assoc, Rinv_l; lra. }
    assert (Xa : exp (- la) = delta / 4). { unfold la. rewrite exp_Ropp, exp_ln by (apply Rdiv_lt_0_compat; lra). field. lra. }
    assert (Xb : exp (- lb) = delta / (2 * IZR d)). { unfold lb. rewrite exp_Ropp, exp_ln by (apply Rdiv_lt_0_compat; lra). field. lra. }
    clearbody la lb. set (omega := e ^ 2 / (8 * la)). assert (Ho : 0 < omega) by (apply Rdiv_lt_0_compat; lra).
    pose proof (C75_geometry e omega 1 H He Ho Rlt_0_1) as G.
    assert (Le : sparse_failure d k meets e omega 1 <= delta).
    { unfold sparse_failure. replace (e ^ 2 / (8 * omega)) with la by (unfold omega; field; lra). rewrite Xa.
      assert (C : meets * (exp 1 - 1) - 1 * (omega * IZR k) <= - lb).
      { pose proof (C67_slack d k W ltac:(lia) ltac:(lia) ltac:(lia) Hw) as Sl. unfold meets. set (s := (1 + _) ^ _) in *. assert (Ps : 0 < IZR (2 ^ W)) by (apply IZR_lt, Z.pow_pos_nonneg; lia).
        assert (S2 : s <= 2). { assert (2 * IZR (k * d) / IZR (2 ^ W) <= 1); [|lra]. apply (Rmult_le_reg_r (IZR (2 ^ W))); [exact Ps|]. unfold Rdiv. rewrite Rmult_assoc, Rinv_l, Rmult_1_r, Rmult_1_l by lra. rewrite <- mult_IZR. now apply IZR_le. }
        pose proof exp_le_3 as E3. pose proof (exp_ineq1_le 1) as E2.
        assert (Q1 : IZR k / IZR d * s * (exp 1 - 1) <= IZR k / IZR d * 2 * 2). { assert (0 < IZR k / IZR d) by (apply Rdiv_lt_0_compat; assumption). rewrite !(Rmult_assoc (IZR k / IZR d)). apply Rmult_le_compat_l; [lra|]. nra. }
        assert (Q2 : 8 / IZR d <= omega). { unfold omega. apply (Rmult_le_reg_r (8 * la * IZR d)); [apply Rmult_lt_0_compat; lra|]. replace (8 / IZR d * (8 * la * IZR d)) with (64 * la) by (field; lra). replace (e ^ 2 / (8 * la) * (8 * la * IZR d)) with (e ^ 2 * IZR d) by (field; lra). exact Hd2. }
        assert (Q3 : 2 * lb <= omega * IZR k). { unfold omega. apply (Rmult_le_reg_r (8 * la)); [lra|]. replace (e ^ 2 / (8 * la) * IZR k * (8 * la)) with (e ^ 2 * IZR k) by (field; lra). lra. }
        assert (Q4 : IZR k / IZR d * 2 * 2 <= omega * IZR k / 2). { replace (IZR k / IZR d * 2 * 2) with (8 / IZR d * (IZR k / 2)) by (field; lra). replace (omega * IZR k / 2) with (omega * (IZR k / 2)) by field. apply Rmult_le_compat_r; lra. }
        lra. }
      apply exp_le in C. rewrite Xb in C. apply (Rmult_le_compat_l (IZR d)) in C; [|lra]. replace (IZR d * (delta / (2 * IZR d))) with (delta / 2) in C by (field; lra). lra. }
    apply embed_geometry_within; [apply drawn_linear|lra| |now apply iso2_nonneg]. intros x. eapply Rle_trans; [apply (proj1 G)|exact Le].
  Qed.
End ShortExp.
Print Assumptions C75_sizes.
Print Assumptions C75_geometry.

Lemma exp_one : 27 / 10 <= exp 1.
Proof.
  replace (exp 1) with (exp (/ 128) ^ 128). 2: { rewrite exp_pow. f_equal. rewrite INR_IZR_INZ. change (Z.of_nat 128) with 128%Z. lra. }
  apply (Rle_trans _ ((129 / 128) ^ 128)); [lra|]. apply pow_incr. pose proof (exp_ineq1_le (/ 128)). lra.
Qed.
Lemma ln_small a j : 0 < a -> a <= (27 / 10) ^ j -> ln a <= INR j.
Proof.
  intros Ha H. assert (L : a <= exp (INR j)).
  { eapply Rle_trans; [exact H|]. rewrite <- (Rmult_1_r (INR j)), <- exp_pow. apply pow_incr. pose proof exp_one. lra. }
  rewrite <- (ln_exp (INR j)). destruct L as [L|E]; [apply Rlt_le, ln_increasing; assumption|rewrite E; lra].
Qed.

(** A 40000 by 100000 operator with 8000 nonzeros per column and 32-bit words: the squared length of a vector
    changes by more than half with probability at most one in a million; the sizes C75_sizes asks for
    are met for delta = 1/100. *)
Example C75_case :
  let D := iso_dist 40000 100000 8000 Short in let s := mk_state 7%Z tt in
  short_hyps iso_env D s 32 /\
  sparse_failure 40000 8000 (meets D 32) (/ 2) (/ 800) 4 <= / 1000000 /\
  (forall x, probability (word_draws iso_env D 32) (fun t =>
     exceeds (Rabs (iso2 D * dot 40000 (drawn_sketch iso_env D s t x) (drawn_sketch iso_env D s t x) - dot 100000 x x)) (/ 2 * dot 100000 x x)) <= / 1000000) /\
  geometry_kept_within (word_draws iso_env D 32) (iso2 D) (drawn_sketch iso_env D s) 40000 100000 (/ 2) (/ 100).
Proof.
  cbv zeta. set (D := iso_dist 40000 100000 8000 Short). set (s := mk_state 7%Z tt).
  assert (H : short_hyps iso_env D s 32).
  { split; [exact iso_env_wf|]. split; [reflexivity|]. split; [reflexivity|]. split; [reflexivity|]. split; [reflexivity|].
    split; [split; [|split]; vm_compute; congruence|]. split; [unfold seed_ok; cbn; lia|]. split; [lia|]. split; vm_compute; congruence. }
  split; [exact H|]. assert (G : sparse_failure 40000 8000 (meets D 32) (/ 2) (/ 800) 4 <= / 1000000).
  2: { split; [exact G|]. split.
    2: { apply (C75_sizes iso_env D s 32 (/ 2) (/ 100) H); [lra|lra|vm_compute; congruence| |]; change (Z.min (sd_rows D) (sd_cols D)) with 40000%Z; change (sd_vec_nnz D) with 8000%Z.
      - pose proof (ln_small (4 / / 100) 7 ltac:(lra) ltac:(lra)) as A. rewrite INR_IZR_INZ in A. change (Z.of_nat 7) with 7%Z in A. lra.
      - pose proof (ln_small (4 / / 100) 7 ltac:(lra) ltac:(lra)) as A. pose proof (ln_small (2 * 40000 / / 100) 17 ltac:(lra) ltac:(lra)) as B.
        rewrite INR_IZR_INZ in A, B. change (Z.of_nat 7) with 7%Z in A. change (Z.of_nat 17) with 17%Z in B.
        assert (0 < ln (4 / / 100)) by (rewrite <- ln_1; apply ln_increasing; lra). set (u := ln (4 / / 100)) in *. set (v := ln (2 * 40000 / / 100)) in *. clearbody u v.
        assert (u * v <= 7 * 17) by nra. lra. }
    intros x. eapply Rle_trans; [exact (proj1 (C75_geometry iso_env D s 32 (/ 2) (/ 800) 4 H ltac:(lra) ltac:(lra) ltac:(lra)) x)|exact G]. }
  assert (Sp : meets D 32 <= 23 / 100).
  { unfold meets. change (Z.min (sd_rows D) (sd_cols D)) with 40000%Z. change (sd_vec_nnz D) with 8000%Z.
    pose proof (C67_slack 40000 8000 32 ltac:(lia) ltac:(lia) ltac:(lia) ltac:(lia)) as B.
    change (2 ^ 32)%Z with 4294967296%Z in *. change (8000 * 40000)%Z with 320000000%Z in B.
    set (u := (1 + 40000 / 4294967296) ^ Z.to_nat 8000) in *. clearbody u. lra. }
  set (p := meets D 32) in *. clearbody p. unfold sparse_failure.
  pose proof exp_one as E1.
  assert (E4 : exp 4 <= 59).
  { replace (exp 4) with (exp (/ 32) ^ 128). 2: { rewrite exp_pow. f_equal. rewrite INR_IZR_INZ. change (Z.of_nat 128) with 128%Z. lra. }
    apply (Rle_trans _ ((32 / 31) ^ 128)); [|lra]. apply pow_incr. split; [apply Rlt_le, exp_pos|]. pose proof (exp_ineq1_le (- / 32)) as A. pose proof (exp_pos (/ 32)) as P.
    assert (Q : exp (/ 32) * exp (- / 32) = 1) by (rewrite <- exp_plus, Rplus_opp_r; apply exp_0). nra. }
  assert (En : forall j, exp (- INR j) <= / (27 / 10) ^ j).
  { intros j. rewrite exp_Ropp. apply Rinv_le_contravar; [apply pow_lt; lra|]. rewrite <- (Rmult_1_r (INR j)), <- exp_pow. apply pow_incr. lra. }
  pose proof (En 25%nat) as A. pose proof (En 26%nat) as B. rewrite INR_IZR_INZ in A, B. change (Z.of_nat 25) with 25%Z in A. change (Z.of_nat 26) with 26%Z in B.
  replace (- ((/ 2) ^ 2 / (8 * / 800))) with (- (25)) by field.
  assert (C : p * (exp 4 - 1) - 4 * (/ 800 * 8000) <= - (26)). { pose proof (exp_ineq1_le 4). assert (p * (exp 4 - 1) <= 23 / 100 * (exp 4 - 1)) by (apply Rmult_le_compat_r; lra). lra. }
  apply exp_le in C. lra.
Qed.
