(** Moments of the Box-Muller transform of uniform words, in exact arithmetic. *)
From Coq Require Import ZArith Reals Lra Psatz.
From Flocq Require Import Core.
From Verif Require Import Base Spec SparseSkopModel PropsFloat IsoSpec IsoProofs PropsIso StatSpec DenseIsoProofs DenseIsoProofs2 BoxSpec.
Local Open Scope R_scope.

(** ** Trigonometric sums over equally spaced angles *)
Lemma sum_sin h n lo : 2 * sin h * Rsum (map (fun s => sin (IZR (2 * s + 1) * h)) (zseq lo n)) =
  cos (IZR (2 * lo) * h) - cos (IZR (2 * (lo + Z.of_nat n)) * h).
Proof.
  revert lo. induction n as [|n IH]; intros lo; cbn [zseq map Rsum].
  - replace (lo + Z.of_nat 0)%Z with lo by lia. lra.
  - rewrite Rmult_plus_distr_l, IH. replace (lo + 1 + Z.of_nat n)%Z with (lo + Z.of_nat (S n))%Z by lia.
    replace (IZR (2 * lo) * h) with (IZR (2 * lo + 1) * h - h) by (rewrite plus_IZR; ring).
    replace (IZR (2 * (lo + 1)) * h) with (IZR (2 * lo + 1) * h + h) by (replace (2 * (lo + 1))%Z with (2 * lo + 1 + 1)%Z by ring; rewrite (plus_IZR (2 * lo + 1)); ring).
    rewrite cos_minus, cos_plus. ring.
Qed.
Lemma sum_cos h n lo : 2 * sin h * Rsum (map (fun s => cos (IZR (2 * s + 1) * h)) (zseq lo n)) =
  sin (IZR (2 * (lo + Z.of_nat n)) * h) - sin (IZR (2 * lo) * h).
Proof.
  revert lo. induction n as [|n IH]; intros lo; cbn [zseq map Rsum].
  - replace (lo + Z.of_nat 0)%Z with lo by lia. lra.
  - rewrite Rmult_plus_distr_l, IH. replace (lo + 1 + Z.of_nat n)%Z with (lo + Z.of_nat (S n))%Z by lia.
    replace (IZR (2 * lo) * h) with (IZR (2 * lo + 1) * h - h) by (rewrite plus_IZR; ring).
    replace (IZR (2 * (lo + 1)) * h) with (IZR (2 * lo + 1) * h + h) by (replace (2 * (lo + 1))%Z with (2 * lo + 1 + 1)%Z by ring; rewrite (plus_IZR (2 * lo + 1)); ring).
    rewrite sin_minus, sin_plus. ring.
Qed.

Lemma average_plus {A} (l : list A) f h : average l (fun t => f t + h t) = average l f + average l h.
Proof. unfold average. rewrite Rsum_plus. unfold Rdiv. lra. Qed.
Lemma average_const {A} (l : list A) c : l <> [] -> average l (fun _ => c) = c.
Proof.
  intros H. unfold average. rewrite Rsum_const. field. assert (0 < INR (length l)); [|lra]. apply lt_0_INR. destruct l; [congruence|cbn; lia].
Qed.
Lemma pow_half W : (0 < W)%Z -> (2 ^ W = 2 * 2 ^ (W - 1))%Z.
Proof. intros H. replace W with (Z.succ (W - 1)) at 1 by lia. rewrite Z.pow_succ_r by lia. reflexivity. Qed.
Lemma pow_pos' W : (0 < W)%Z -> (0 < 2 ^ W)%Z.
Proof. intros H. apply Z.pow_pos_nonneg; lia. Qed.
Lemma words_len' W : (0 < W)%Z -> INR (length (range 0 (2 ^ W))) = IZR (2 ^ W).
Proof. intros H. pose proof (pow_pos' W H). rewrite INR_IZR_INZ. f_equal. fold (zlen (range 0 (2 ^ W))). rewrite zlen_range; lia. Qed.
Section Angles.
  Variable W : Z.
  Hypothesis HW : (2 <= W)%Z.
  Notation words := (range 0 (2 ^ W)).
  Let N := IZR (2 ^ W).
  Lemma N_ge : 4 <= N.
  Proof. unfold N. apply IZR_le. change 4%Z with (2 ^ 2)%Z. apply Z.pow_le_mono_r; lia. Qed.
  Lemma angle_signed w : angle W w = IZR (2 * signed W w + 1) * (PI / N).
  Proof. unfold angle, N. unfold Rdiv. ring. Qed.
  (** Sums of a sine and a cosine of k times the angle vanish, k = 1, 2. *)
  Lemma sums_zero k (f : R -> R) : (k = 1 \/ k = 2)%Z -> (f = sin \/ f = cos) -> Rsum (map (fun w => f (IZR k * angle W w)) words) = 0.
  Proof.
    intros Hk Hf. pose proof N_ge as HN. pose proof PI_RGT_0 as HP. set (h := IZR k * (PI / N)).
    assert (K : 1 <= IZR k <= 2) by (destruct Hk as [-> | ->]; lra).
    assert (Hh : 0 < h < PI).
    { assert (P1 : 0 < PI / N) by (apply Rdiv_lt_0_compat; lra).
      assert (P2 : PI / N <= PI / 4) by (apply Rmult_le_compat_l; [lra|apply Rinv_le; lra]). unfold h. split; [apply Rmult_lt_0_compat; lra|].
      apply Rle_lt_trans with (2 * (PI / 4)); [|lra]. apply Rmult_le_compat; lra. }
    assert (SH : 0 < sin h) by (apply sin_gt_0; lra).
    assert (P2W : (0 < 2 ^ W)%Z) by (apply Z.pow_pos_nonneg; lia). pose proof (pow_half W ltac:(lia)) as HPW.
    assert (E1 : IZR (2 * (- 2 ^ (W - 1))) * h = - (IZR k * PI)).
    { replace (2 * (- 2 ^ (W - 1)))%Z with (- 2 ^ W)%Z by lia. rewrite opp_IZR. fold N. unfold h. field. lra. }
    assert (E2 : IZR (2 * (- 2 ^ (W - 1) + Z.of_nat (Z.to_nat (2 ^ W)))) * h = IZR k * PI).
    { rewrite Z2Nat.id by lia. replace (2 * (- 2 ^ (W - 1) + 2 ^ W))%Z with (2 ^ W)%Z by lia. fold N. unfold h. field. lra. }
    assert (F : forall w, IZR k * angle W w = IZR (2 * signed W w + 1) * h) by (intros w; rewrite angle_signed; unfold h; ring).
    apply (Rmult_eq_reg_l (2 * sin h)); [|lra]. rewrite Rmult_0_r.
    destruct Hf as [-> | ->].
    - rewrite (Rsum_ext _ (fun w => (fun s => sin (IZR (2 * s + 1) * h)) (signed W w))) by (intros; now rewrite F).
      rewrite (Rsum_signed W (fun s => sin (IZR (2 * s + 1) * h))) by lia. rewrite sum_sin, E1, E2, cos_neg. lra.
    - rewrite (Rsum_ext _ (fun w => (fun s => cos (IZR (2 * s + 1) * h)) (signed W w))) by (intros; now rewrite F).
      rewrite (Rsum_signed W (fun s => cos (IZR (2 * s + 1) * h))) by lia. rewrite sum_cos, E1, E2, sin_neg.
      destruct Hk as [-> | ->]; [rewrite Rmult_1_l, sin_PI; lra|rewrite sin_2PI; lra].
  Qed.
  Lemma avg_zero k (f : R -> R) : (k = 1 \/ k = 2)%Z -> (f = sin \/ f = cos) -> average words (fun w => f (IZR k * angle W w)) = 0.
  Proof. intros Hk Hf. unfold average. rewrite (sums_zero k f Hk Hf). lra. Qed.
  Lemma mean_sin : average words (fun w => sin (angle W w)) = 0.
  Proof. rewrite <- (avg_zero 1 sin) by auto. apply average_ext. intros; now rewrite Rmult_1_l. Qed.
  Lemma mean_cos : average words (fun w => cos (angle W w)) = 0.
  Proof. rewrite <- (avg_zero 1 cos) by auto. apply average_ext. intros; now rewrite Rmult_1_l. Qed.
  Lemma mean_sin_cos : average words (fun w => sin (angle W w) * cos (angle W w)) = 0.
  Proof.
    rewrite (average_ext _ _ (fun w => / 2 * sin (2 * angle W w))) by (intros; rewrite sin_2a; field).
    rewrite average_const_mul, (avg_zero 2 sin) by auto. lra.
  Qed.
  Lemma words_ne : words <> [].
  Proof. apply words_nonempty. lia. Qed.
  Lemma mean_sin_sq : average words (fun w => sin (angle W w) * sin (angle W w)) = / 2.
  Proof.
    rewrite (average_ext _ _ (fun w => / 2 + (- / 2) * cos (2 * angle W w))) by (intros; rewrite cos_2a_sin; field).
    rewrite average_plus, average_const_mul, (avg_zero 2 cos), average_const by auto using words_ne. lra.
  Qed.
  Lemma mean_cos_sq : average words (fun w => cos (angle W w) * cos (angle W w)) = / 2.
  Proof.
    rewrite (average_ext _ _ (fun w => / 2 + / 2 * cos (2 * angle W w))) by (intros; rewrite cos_2a_cos; field).
    rewrite average_plus, average_const_mul, (avg_zero 2 cos), average_const by auto using words_ne. lra.
  Qed.
End Angles.

(** ** The mean of -ln over the midpoints *)
(** (x+1) ln(x+1) - x ln x - 1 is the integral of ln over [x,x+1]: between the trapezoid and
    the midpoint rule.  Here x is replaced by 2n with step 2. *)
Definition G (x : R) : R := x * ln x - x.
Lemma ln_le_minus x : 0 < x -> ln x <= x - 1.
Proof. intros H. destruct (Req_dec x 1) as [->|N]; [rewrite ln_1; lra|]. pose proof (exp_ineq1 (ln x)) as E. rewrite exp_ln in E by assumption.
  assert (ln x <> 0) as Z. { intros Z. apply N. rewrite <- (exp_ln x H), Z. apply exp_0. } specialize (E Z). lra. Qed.
Lemma d_plus c : derivable_pt_lim (fun x => 1 + x) c 1.
Proof. pose proof (derivable_pt_lim_plus _ _ c 0 1 (derivable_pt_lim_const 1 c) (derivable_pt_lim_id c)) as H. rewrite Rplus_0_l in H. exact H. Qed.
Lemma d_minus c : derivable_pt_lim (fun x => 1 - x) c (-1).
Proof. pose proof (derivable_pt_lim_minus _ _ c 0 1 (derivable_pt_lim_const 1 c) (derivable_pt_lim_id c)) as H. replace (-1) with (0 - 1) by lra. exact H. Qed.
Lemma d_twice c : derivable_pt_lim (fun x => 2 * x) c 2.
Proof. pose proof (derivable_pt_lim_scal _ 2 c 1 (derivable_pt_lim_id c)) as H. rewrite Rmult_1_r in H. exact H. Qed.
Lemma d_ln_plus c : 0 < 1 + c -> derivable_pt_lim (fun x => ln (1 + x)) c (/ (1 + c) * 1).
Proof. intros H. apply (derivable_pt_lim_comp (fun x => 1 + x) ln); [apply d_plus|now apply derivable_pt_lim_ln]. Qed.
Lemma d_ln_minus c : 0 < 1 - c -> derivable_pt_lim (fun x => ln (1 - x)) c (/ (1 - c) * (-1)).
Proof. intros H. apply (derivable_pt_lim_comp (fun x => 1 - x) ln); [apply d_minus|now apply derivable_pt_lim_ln]. Qed.
Lemma ln_div x y : 0 < x -> 0 < y -> ln (x / y) = ln x - ln y.
Proof. intros Hx Hy. unfold Rdiv. rewrite ln_mult, ln_Rinv; [lra|assumption|assumption|now apply Rinv_0_lt_compat]. Qed.
Lemma entropy_le t : 0 <= t < 1 -> (1 + t) * ln (1 + t) - (1 - t) * ln (1 - t) <= 2 * t.
Proof.
  intros [H0 H1]. destruct (Req_dec t 0) as [->|N]; [rewrite Rplus_0_r, Rminus_0_r, ln_1; lra|].
  destruct (MVT_cor2 (fun t => (1 + t) * ln (1 + t) - (1 - t) * ln (1 - t) - 2 * t) (fun t => ln (1 + t) + ln (1 - t)) 0 t) as (c & E & Hc); [lra| |].
  - intros c Hc. replace (ln (1 + c) + ln (1 - c)) with ((1 * ln (1 + c) + (1 + c) * (/ (1 + c) * 1)) - ((-1) * ln (1 - c) + (1 - c) * (/ (1 - c) * (-1))) - 2) by (field; lra).
    pose proof (derivable_pt_lim_mult _ _ c _ _ (d_plus c) (d_ln_plus c ltac:(lra))) as D1.
    pose proof (derivable_pt_lim_mult _ _ c _ _ (d_minus c) (d_ln_minus c ltac:(lra))) as D2.
    exact (derivable_pt_lim_minus _ _ c _ _ (derivable_pt_lim_minus _ _ c _ _ D1 D2) (d_twice c)).
  - rewrite Rplus_0_r, Rminus_0_r, ln_1 in E. rewrite <- ln_mult in E by lra.
    assert (ln ((1 + c) * (1 - c)) <= 0). { rewrite <- ln_1. destruct (Rle_lt_or_eq_dec ((1 + c) * (1 - c)) 1) as [L| ->]; [nra|left; apply ln_increasing; nra|lra]. }
    nra.
Qed.
Lemma atanh_ge t : 0 <= t < 1 -> 2 * t <= ln (1 + t) - ln (1 - t).
Proof.
  intros [H0 H1]. destruct (Req_dec t 0) as [->|N]; [rewrite Rplus_0_r, Rminus_0_r; lra|].
  destruct (MVT_cor2 (fun t => ln (1 + t) - ln (1 - t) - 2 * t) (fun t => / (1 + t) + / (1 - t) - 2) 0 t) as (c & E & Hc); [lra| |].
  - intros c Hc. replace (/ (1 + c) + / (1 - c) - 2) with (/ (1 + c) * 1 - (/ (1 - c) * (-1)) - 2) by (field; lra).
    exact (derivable_pt_lim_minus _ _ c _ _ (derivable_pt_lim_minus _ _ c _ _ (d_ln_plus c ltac:(lra)) (d_ln_minus c ltac:(lra))) (d_twice c)).
  - rewrite Rplus_0_r, Rminus_0_r, ln_1 in E.
    assert (0 <= / (1 + c) + / (1 - c) - 2).
    { replace (/ (1 + c) + / (1 - c) - 2) with (2 * (c * c) * / ((1 + c) * (1 - c))) by (field; lra).
      apply Rmult_le_pos; [nra|]. left. apply Rinv_0_lt_compat. nra. }
    nra.
Qed.
Lemma ln2_ge : 2 / 3 <= ln 2.
Proof.
  pose proof (atanh_ge (/ 3) ltac:(lra)) as H. rewrite <- (ln_div (1 + / 3)) in H by lra.
  replace ((1 + / 3) / (1 - / 3)) with 2 in H by field. lra.
Qed.

(** The sum of ln(2k+1), k < n, is n ln(2n) - n up to at most 1/2. *)
Lemma step_bounds x : 1 <= x ->
  0 <= ln (2 * x + 1) - ((x + 1) * ln (2 * (x + 1)) - x * ln (2 * x) - 1) <= / 8 * (/ x - / (x + 1)).
Proof.
  intros Hx. set (c := 2 * x + 1). set (t := / c).
  assert (Hc : 3 <= c) by (unfold c; lra). assert (Ht : 0 < t <= / 3) by (unfold t; split; [apply Rinv_0_lt_compat; lra|apply Rinv_le; lra]).
  assert (CT : c * t = 1) by (unfold t; field; lra).
  assert (Ea : 2 * (x + 1) = c * (1 + t)) by (unfold c in *; lra). assert (Eb : 2 * x = c * (1 - t)) by (unfold c in *; lra).
  rewrite Ea, Eb, !ln_mult by lra. pose proof (entropy_le t ltac:(lra)) as A. pose proof (atanh_ge t ltac:(lra)) as B.
  set (p := ln (1 + t)) in *. set (m := ln (1 - t)) in *. set (lc := ln c) in *.
  replace x with (c * (1 - t) / 2) by lra. replace (c * (1 - t) / 2 + 1) with (c * (1 + t) / 2) by lra.
  replace (lc - (c * (1 + t) / 2 * (lc + p) - c * (1 - t) / 2 * (lc + m) - 1))
    with (lc * (1 - c * t) + (1 - c / 2 * ((1 + t) * p - (1 - t) * m))) by field.
  rewrite CT. rewrite Rminus_diag_eq, Rmult_0_r, Rplus_0_l by reflexivity.
  assert (L : - (p + m) <= t * t / (1 - t * t)).
  { unfold p, m. rewrite <- ln_mult by lra. replace ((1 + t) * (1 - t)) with (1 - t * t) by ring.
    assert (Q : 0 < 1 - t * t) by nra. pose proof (ln_le_minus (/ (1 - t * t)) (Rinv_0_lt_compat _ Q)) as X. rewrite ln_Rinv in X by exact Q.
    replace (t * t / (1 - t * t)) with (/ (1 - t * t) - 1) by (field; lra). exact X. }
  split.
  - assert (c / 2 * ((1 + t) * p - (1 - t) * m) <= c / 2 * (2 * t)) by (apply Rmult_le_compat_l; lra). lra.
  - replace (/ 8 * (/ (c * (1 - t) / 2) - / (c * (1 + t) / 2))) with (/ 2 * (t * t / (1 - t * t))).
    + assert (c / 2 * (2 * t) <= c / 2 * (p - m)) by (apply Rmult_le_compat_l; lra).
      replace (1 - c / 2 * ((1 + t) * p - (1 - t) * m)) with (1 - c / 2 * (p - m) - (c * t) * (p + m) / 2) by field. rewrite CT. lra.
    + replace c with (/ t) by (unfold t; field; lra). field. repeat split; nra.
Qed.
Lemma log_sum n : (1 <= n)%nat ->
  let P := Rsum (map (fun k => ln (IZR (2 * k + 1))) (zseq 0 n)) - (INR n * ln (2 * INR n) - INR n) in
  0 <= P <= 1 - ln 2 + / 8 * (1 - / INR n).
Proof.
  assert (SP : forall n lo, zseq lo (S n) = zseq lo n ++ [(lo + Z.of_nat n)%Z]).
  { clear. induction n as [|n IH]; intros lo; [cbn; f_equal; lia|]. change (zseq lo (S (S n))) with (lo :: zseq (lo + 1) (S n)). rewrite IH. replace (lo + 1 + Z.of_nat n)%Z with (lo + Z.of_nat (S n))%Z by lia. reflexivity. }
  intros Hn. induction Hn as [|n Hn IH].
  - cbn. rewrite ln_1, !Rmult_1_r, Rinv_1. pose proof ln2_ge. pose proof (ln_le_minus 2 ltac:(lra)). lra.
  - cbv zeta in *. rewrite SP, map_app, Rsum_app. cbn [map Rsum]. rewrite Z.add_0_l.
    assert (X : 1 <= INR n) by (change 1 with (INR 1); now apply le_INR). rewrite S_INR.
    pose proof (step_bounds (INR n) X) as S. replace (IZR (2 * Z.of_nat n + 1)) with (2 * INR n + 1) by (rewrite INR_IZR_INZ, plus_IZR, mult_IZR; reflexivity).
    set (R0 := Rsum _) in *. clearbody R0. lra.
Qed.
Section Radius.
  Variable W : Z.
  Hypothesis HW : (0 < W)%Z.
  Notation words := (range 0 (2 ^ W)).
  Let N := IZR (2 ^ W).
  Lemma N_pos : 1 <= N.
  Proof. unfold N. apply IZR_le. pose proof (pow_pos' W HW). lia. Qed.
  Lemma radius2_eq w : (0 <= w)%Z -> radius2 W w = 2 * ln (2 * N) - 2 * ln (IZR (2 * w + 1)).
  Proof.
    intros Hw. pose proof N_pos. unfold radius2. rewrite Z.pow_add_r, mult_IZR by lia. fold N. change (IZR (2 ^ 1)) with 2.
    assert (0 < IZR (2 * w + 1)) by (apply IZR_lt; lia). rewrite ln_div by lra. rewrite (Rmult_comm N). ring.
  Qed.
  Lemma radius2_nonneg w : (0 <= w < 2 ^ W)%Z -> 0 <= radius2 W w.
  Proof.
    intros Hw. rewrite radius2_eq by lia. pose proof N_pos. assert (0 < IZR (2 * w + 1)) by (apply IZR_lt; lia).
    assert (IZR (2 * w + 1) <= 2 * N) by (unfold N; rewrite <- mult_IZR; apply IZR_le; lia).
    assert (ln (IZR (2 * w + 1)) <= ln (2 * N)) by (destruct (Rle_lt_or_eq_dec _ _ H1) as [L| ->]; [left; apply ln_increasing; lra|lra]). lra.
  Qed.
  Lemma mean_radius2 : 2 - / N <= average words (radius2 W) <= 2.
  Proof.
    pose proof N_pos as HN. pose proof (pow_pos' W HW) as P.
    rewrite (average_ext _ _ (fun w => 2 * ln (2 * N) + (-2) * ln (IZR (2 * w + 1)))) by (intros w Hw; apply in_range in Hw; rewrite radius2_eq by lia; ring).
    rewrite average_plus, average_const by exact (words_nonempty W HW). rewrite average_const_mul.
    unfold average. rewrite (words_len' W HW). fold N. unfold range. rewrite Z.sub_0_r.
    destruct (log_sum (Z.to_nat (2 ^ W))) as [L U]; [lia|]. set (Q := Rsum _) in *. clearbody Q.
    assert (EN : INR (Z.to_nat (2 ^ W)) = N) by (unfold N; rewrite INR_IZR_INZ, Z2Nat.id by lia; reflexivity). rewrite EN in *.
    set (l := ln (2 * N)) in *. clearbody l. pose proof ln2_ge as L2.
    assert (IN : 0 < / N) by (apply Rinv_0_lt_compat; lra). assert (U' : Q - (N * l - N) <= / 2) by lra.
    replace (2 * l + -2 * (Q / N)) with (2 - 2 * ((Q - (N * l - N)) * / N)) by (field; lra).
    assert (0 <= (Q - (N * l - N)) * / N) by (apply Rmult_le_pos; lra).
    assert ((Q - (N * l - N)) * / N <= / 2 * / N) by (apply Rmult_le_compat_r; lra). set (z := (Q - (N * l - N)) * / N) in *. clearbody z. set (i := / N) in *. clearbody i. clear - H H0 IN. split; lra.
  Qed.
End Radius.
