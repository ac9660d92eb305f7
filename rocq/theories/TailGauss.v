(** Moments of Box-Muller pairs of all orders (used by PropsTail2.v). *)
From Coq Require Import ZArith Reals Lra Psatz.
From Verif Require Import Base Spec SparseSkopModel PropsFloat IsoSpec IsoProofs PropsIso StatSpec DenseIsoProofs DenseIsoProofs2 NormSpec NormProofs NormProofs3 NormProofs4 NormProofs5 BoxModel BoxSpec BoxProofs BoxProofs2 BoxProofs4 LogMoments PairProofs PairProofs3 GaussMoments TailProofs TailProofs2.
Local Open Scope R_scope.

(** ** Powers of cosines *)
Lemma polar a b : exists r phi, 0 <= r /\ r * r = a * a + b * b /\ forall t, a * sin t + b * cos t = r * cos (t + phi).
Proof.
  set (r := sqrt (a * a + b * b)). assert (P : 0 <= a * a + b * b) by (pose proof (Rle_0_sqr a); pose proof (Rle_0_sqr b); unfold Rsqr in *; lra).
  assert (RR : r * r = a * a + b * b) by (apply sqrt_sqrt; exact P). assert (R0 : 0 <= r) by apply sqrt_pos.
  destruct (Rle_lt_or_eq_dec _ _ R0) as [Rp|Rz].
  - assert (B : -1 <= b / r <= 1).
    { assert (b * b <= r * r) by (pose proof (Rle_0_sqr a); unfold Rsqr in *; lra). assert (- r <= b <= r) by (split; nra).
      split; apply (Rmult_le_reg_r r); try assumption; unfold Rdiv; rewrite Rmult_assoc, Rinv_l; lra. }
    pose proof (cos_acos (b / r) B) as CA. pose proof (sin_acos (b / r) B) as SA.
    assert (SQ : 1 - (b / r)² = (a / r) * (a / r)). { unfold Rsqr. apply (Rmult_eq_reg_r (r * r)); [|nra]. replace ((1 - b / r * (b / r)) * (r * r)) with (r * r - b * b) by (field; lra). replace (a / r * (a / r) * (r * r)) with (a * a) by (field; lra). lra. }
    rewrite SQ in SA. fold (Rsqr (a / r)) in SA. rewrite sqrt_Rsqr_abs in SA.
    destruct (Rle_dec 0 (a / r)) as [Ap|An].
    + exists r, (- acos (b / r)). split; [exact R0|]. split; [exact RR|]. intros t. rewrite cos_plus, cos_neg, sin_neg, CA, SA, Rabs_pos_eq by exact Ap. field. lra.
    + exists r, (acos (b / r)). split; [exact R0|]. split; [exact RR|]. intros t. rewrite cos_plus, CA, SA, Rabs_left by lra. field. lra.
  - exists r, 0. split; [exact R0|]. split; [exact RR|]. rewrite <- Rz in *. assert (a = 0) by (apply Rsqr_0_uniq; pose proof (Rle_0_sqr b); pose proof (Rle_0_sqr a); unfold Rsqr in *; lra).
    assert (b = 0) by (apply Rsqr_0_uniq; pose proof (Rle_0_sqr b); pose proof (Rle_0_sqr a); unfold Rsqr in *; lra). subst. intros t. lra.
Qed.
Lemma C_0 n : C n 0 = 1.
Proof. unfold C. rewrite Nat.sub_0_r. pose proof (INR_fact_pos n). cbn [fact INR]. field. lra. Qed.
Lemma C_n n : C n n = 1.
Proof. unfold C. rewrite Nat.sub_diag. pose proof (INR_fact_pos n). cbn [fact INR]. field. lra. Qed.
Lemma pascal_sum (g : nat -> R) n : sum_f_R0 (fun i => C n i * (g i + g (S i))) n = sum_f_R0 (fun i => C (S n) i * g i) (S n).
Proof.
  destruct n as [|n].
  - cbn [sum_f_R0]. rewrite !C_0, C_n. lra.
  - rewrite (decomp_sum (fun i => C (S (S n)) i * g i) (S (S n))) by lia. cbn [pred]. rewrite C_0.
    rewrite (tech5 (fun i => C (S (S n)) (S i) * g (S i)) n), C_n.
    rewrite (sum_eq (fun i => C (S (S n)) (S i) * g (S i)) (fun i => C (S n) i * g (S i) + C (S n) (S i) * g (S i)) n) by (intros i Hi; rewrite <- pascal by lia; ring).
    rewrite sum_plus. rewrite (sum_eq (fun i => C (S n) i * (g i + g (S i))) (fun i => C (S n) i * g i + C (S n) i * g (S i)) (S n)) by (intros; ring). rewrite sum_plus.
    rewrite (decomp_sum (fun i => C (S n) i * g i) (S n)) by lia. cbn [pred]. rewrite C_0. rewrite (tech5 (fun i => C (S n) i * g (S i)) n), C_n. ring.
Qed.
Definition freq (n i : nat) : Z := (Z.of_nat n - 2 * Z.of_nat i)%Z.
Lemma cos_pow x n : (2 * cos x) ^ n = sum_f_R0 (fun i => C n i * cos (IZR (freq n i) * x)) n.
Proof.
  induction n as [|n IH].
  - cbn [pow sum_f_R0]. rewrite C_0. change (freq 0 0) with 0%Z. rewrite Rmult_0_l, cos_0. lra.
  - cbn [pow]. rewrite IH, <- (pascal_sum (fun i => cos (IZR (freq (S n) i) * x))), scal_sum. apply sum_eq. intros i _. rewrite Rmult_assoc. f_equal.
    replace (freq (S n) i) with (freq n i + 1)%Z by (unfold freq; lia). replace (freq (S n) (S i)) with (freq n i - 1)%Z by (unfold freq; lia). rewrite plus_IZR, minus_IZR, Rmult_plus_distr_r, Rmult_minus_distr_r, Rmult_1_l, cos_plus, cos_minus. ring.
Qed.
(** The central binomial coefficient over 4^k. *)
Lemma central k : C (2 * k) k / 4 ^ k = dfact k / (2 ^ k * INR (fact k)).
Proof.
  unfold C, dfact. replace (2 * k - k)%nat with k by lia. pose proof (INR_fact_pos k). assert (0 < 2 ^ k) by (apply pow_lt; lra). replace 4 with (2 * 2) by ring. rewrite Rpow_mult_distr. field. lra.
Qed.
Lemma central_ge k : 2 ^ k * INR (fact k) <= (2 * INR k + 1) * dfact k.
Proof.
  induction k as [|k IH]; [rewrite dfact_0; cbn; lra|]. rewrite dfact_S, S_INR. change (fact (S k)) with (S k * fact k)%nat. rewrite mult_INR, S_INR. cbn [pow]. pose proof (pos_INR k).
  assert (X0 : 0 <= (2 * INR k + 1) * dfact k) by (apply Rmult_le_pos; [lra|apply Rlt_le, dfact_pos]). set (X := (2 * INR k + 1) * dfact k) in *. set (f := INR (fact k)) in *. set (p := 2 ^ k) in *. clearbody X f p. replace (2 * p * ((INR k + 1) * f)) with ((2 * INR k + 2) * (p * f)) by ring.
  apply (Rle_trans _ ((2 * INR k + 2) * X)); [apply Rmult_le_compat_l; lra|]. nra.
Qed.
Lemma pow_ge_odd W (q : nat) k : (0 < W)%Z -> (0 < q)%nat -> (2 * (W + 1) * Z.of_nat q <= 2 ^ W)%Z -> (2 ^ W <= 2 * Z.of_nat k)%Z ->
  2 * INR k + 1 <= (1 + / INR q) ^ k.
Proof.
  intros HW Hq HQ Hk. assert (Pq : 0 < INR q) by (apply lt_0_INR; lia). assert (Iq : 0 < / INR q) by (now apply Rinv_0_lt_compat).
  assert (B2 : 2 <= (1 + / INR q) ^ q). { pose proof (poly q (/ INR q) Iq) as P. rewrite Rinv_r in P by lra. lra. }
  set (k0 := Z.to_nat (2 ^ (W - 1))). assert (HH : (2 ^ W = 2 * 2 ^ (W - 1))%Z) by (rewrite <- Z.pow_succ_r by lia; f_equal; lia). assert (K0 : (Z.of_nat k0 = 2 ^ (W - 1))%Z) by (unfold k0; rewrite Z2Nat.id; [reflexivity|apply Z.pow_nonneg; lia]).
  assert (G : forall j, 2 * INR (k0 + j) + 1 <= (1 + / INR q) ^ (k0 + j)).
  { induction j as [|j IH].
    - rewrite Nat.add_0_r. apply (Rle_trans _ ((1 + / INR q) ^ (q * Z.to_nat (W + 1)))).
      + rewrite pow_mult. apply (Rle_trans _ (2 ^ Z.to_nat (W + 1))); [|apply pow_incr; lra]. rewrite INR_IZR_INZ, K0. rewrite pow_IZR, Z2Nat.id by lia. rewrite <- mult_IZR, <- plus_IZR. apply IZR_le. rewrite Z.pow_add_r by lia. assert (1 <= 2 ^ (W - 1))%Z by (apply Zlt_succ_le; change (Z.succ (2 ^ (W - 1))) with (2 ^ (W - 1) + 1)%Z; pose proof (Z.pow_pos_nonneg 2 (W - 1)); lia). lia.
      + apply Rle_pow; [lra|]. lia.
    - rewrite <- plus_n_Sm. cbn [pow]. rewrite S_INR. assert (Q1 : INR q <= INR (k0 + j)) by (apply le_INR; nia). set (n := INR (k0 + j)) in *. set (y := (1 + / INR q) ^ (k0 + j)) in *. clearbody n y.
      assert (Q2 : 1 <= / INR q * n) by (rewrite <- (Rinv_l (INR q)) by lra; apply Rmult_le_compat_l; lra). nra. }
  specialize (G (k - k0)%nat). replace (k0 + (k - k0))%nat with k in G by lia. exact G.
Qed.

Section AnglesAll.
  Variable W : Z.
  Hypothesis HW : (2 <= W)%Z.
  Notation words := (range 0 (2 ^ W)).
  Let N := IZR (2 ^ W).
  Lemma angle_sums j (f : R -> R) : (j mod 2 ^ W <> 0)%Z -> (f = sin \/ f = cos) -> Rsum (map (fun w => f (IZR j * angle W w)) words) = 0.
  Proof using HW.
    intros Hj Hf. assert (P2W : (0 < 2 ^ W)%Z) by (apply Z.pow_pos_nonneg; lia). assert (HN : 0 < N) by (unfold N; apply IZR_lt; exact P2W).
    pose proof PI_RGT_0 as HP. set (h := IZR j * (PI / N)).
    assert (SH : sin h <> 0).
    { intros S0. apply sin_eq_0_0 in S0 as (k & Ek). unfold h in Ek. assert (E : IZR j = IZR (k * 2 ^ W)). { rewrite mult_IZR. fold N. apply (Rmult_eq_reg_r (PI / N)); [rewrite Ek; field; lra|]. apply Rgt_not_eq, Rdiv_lt_0_compat; lra. }
      apply eq_IZR in E. apply Hj. rewrite E. apply Z.mod_mul. lia. }
    pose proof (pow_half W ltac:(lia)) as HPW.
    assert (E1 : IZR (2 * (- 2 ^ (W - 1))) * h = - (IZR j * PI)).
    { replace (2 * (- 2 ^ (W - 1)))%Z with (- 2 ^ W)%Z by lia. rewrite opp_IZR. fold N. unfold h. field. lra. }
    assert (E2 : IZR (2 * (- 2 ^ (W - 1) + Z.of_nat (Z.to_nat (2 ^ W)))) * h = IZR j * PI).
    { rewrite Z2Nat.id by lia. replace (2 * (- 2 ^ (W - 1) + 2 ^ W))%Z with (2 ^ W)%Z by lia. fold N. unfold h. field. lra. }
    assert (F : forall w, IZR j * angle W w = IZR (2 * signed W w + 1) * h) by (intros w; rewrite angle_signed; fold N; unfold h; ring).
    assert (SJ : sin (IZR j * PI) = 0) by (apply sin_eq_0_1; now exists j).
    apply (Rmult_eq_reg_l (2 * sin h)); [|lra]. rewrite Rmult_0_r.
    destruct Hf as [-> | ->].
    - rewrite (Rsum_ext _ (fun w => (fun s => sin (IZR (2 * s + 1) * h)) (signed W w))) by (intros; now rewrite F).
      rewrite (Rsum_signed W (fun s => sin (IZR (2 * s + 1) * h))) by lia. rewrite sum_sin, E1, E2, cos_neg. lra.
    - rewrite (Rsum_ext _ (fun w => (fun s => cos (IZR (2 * s + 1) * h)) (signed W w))) by (intros; now rewrite F).
      rewrite (Rsum_signed W (fun s => cos (IZR (2 * s + 1) * h))) by lia. rewrite sum_cos, E1, E2, sin_neg, SJ. lra.
  Qed.
  Lemma phase_sum j phi : (j mod 2 ^ W <> 0)%Z -> Rsum (map (fun w => cos (IZR j * (angle W w + phi))) words) = 0.
  Proof using HW.
    intros Hj. rewrite (Rsum_ext _ (fun w => cos (IZR j * phi) * cos (IZR j * angle W w) - sin (IZR j * phi) * sin (IZR j * angle W w))) by (intros; rewrite Rmult_plus_distr_l, cos_plus; ring).
    rewrite Rsum_minus, !Rsum_scal, (angle_sums j cos), (angle_sums j sin) by auto. lra.
  Qed.
  Lemma angle_odd phi k : average words (fun w => cos (angle W w + phi) ^ S (2 * k)) = 0.
  Proof using HW.
    assert (E : 2 ^ S (2 * k) * Rsum (map (fun w => cos (angle W w + phi) ^ S (2 * k)) words) = 0).
    { rewrite <- Rsum_scal. rewrite (Rsum_ext _ (fun w => sum_f_R0 (fun i => C (S (2 * k)) i * cos (IZR (freq (S (2 * k)) i) * (angle W w + phi))) (S (2 * k)))) by (intros; rewrite <- Rpow_mult_distr; apply cos_pow).
      rewrite Rsum_sum_f. apply sum_zero. intros i _. rewrite Rsum_scal, phase_sum; [lra|]. intros H.
      assert (P : (2 ^ W = 2 * 2 ^ (W - 1))%Z) by (rewrite <- Z.pow_succ_r by lia; f_equal; lia). assert (0 < 2 ^ (W - 1))%Z by (apply Z.pow_pos_nonneg; lia).
      apply Z.mod_divide in H as (z & Hz); [|lia]. unfold freq in Hz. rewrite P in Hz. clear - Hz. set (y := (2 ^ (W - 1))%Z) in *. clearbody y.
      assert (Z.of_nat (S (2 * k)) = 2 * Z.of_nat k + 1)%Z by lia. assert (Q : (z * (2 * y) = 2 * (z * y))%Z) by ring. lia. }
    apply Rmult_integral in E as [E|E]; [exfalso; revert E; apply pow_nonzero; lra|]. unfold average. rewrite E. lra.
  Qed.
  Lemma angle_even_exact phi k : (2 * Z.of_nat k < 2 ^ W)%Z -> average words (fun w => cos (angle W w + phi) ^ (2 * k)) = C (2 * k) k / 4 ^ k.
  Proof using HW.
    intros Hk. assert (P2W : (0 < 2 ^ W)%Z) by (apply Z.pow_pos_nonneg; lia).
    assert (LN : INR (length words) = IZR (2 ^ W)). { rewrite INR_IZR_INZ. f_equal. pose proof (zlen_range 0 (2 ^ W) ltac:(lia)) as E. unfold zlen in E. lia. }
    assert (E : 4 ^ k * Rsum (map (fun w => cos (angle W w + phi) ^ (2 * k)) words) = C (2 * k) k * IZR (2 ^ W)).
    { rewrite <- Rsum_scal. rewrite (Rsum_ext _ (fun w => sum_f_R0 (fun i => C (2 * k) i * cos (IZR (freq (2 * k) i) * (angle W w + phi))) (2 * k))).
      2: { intros w _. rewrite <- cos_pow. rewrite Rpow_mult_distr, (pow_mult 2). replace (2 ^ 2) with 4 by ring. reflexivity. }
      rewrite Rsum_sum_f. set (term := fun i => _).
      assert (T0 : forall i, (i <= 2 * k)%nat -> i <> k -> term i = 0).
      { intros i Hi Ni. unfold term. rewrite Rsum_scal, phase_sum; [lra|]. intros H. apply Z.mod_divide in H as (z & Hz); [|lia]. unfold freq in Hz. rewrite Nat2Z.inj_mul in Hz. change (Z.of_nat 2) with 2%Z in Hz. clear - Hz Hi Ni Hk. set (p := (2 ^ W)%Z) in *. clearbody p. destruct (Z.lt_trichotomy z 0) as [A|[->|A]]; [assert (z * p <= - p)%Z by nia; lia|lia|assert (p <= z * p)%Z by nia; lia]. }
      assert (Tk : term k = C (2 * k) k * IZR (2 ^ W)).
      { unfold term. rewrite Rsum_scal. f_equal. rewrite (Rsum_ext _ (fun _ => 1)); [rewrite Rsum_const, LN; lra|]. intros w _. replace (freq (2 * k) k) with 0%Z by (unfold freq; lia). rewrite Rmult_0_l. apply cos_0. }
      rewrite <- Tk. clear Tk. clearbody term. clear - T0. assert (G : forall n, (n <= 2 * k)%nat -> sum_f_R0 term n = if le_lt_dec k n then term k else 0).
      { induction n as [|n IH]; intros Hn.
        - cbn [sum_f_R0]. destruct (le_lt_dec k 0) as [L|L]; [now replace k with O by lia|]. apply T0; lia.
        - cbn [sum_f_R0]. rewrite IH by lia. destruct (le_lt_dec k n) as [L|L], (le_lt_dec k (S n)) as [L'|L']; try lia.
          + rewrite (T0 (S n)) by lia. lra.
          + replace k with (S n) by lia. lra.
          + rewrite (T0 (S n)) by lia. lra. }
      rewrite G by lia. destruct (le_lt_dec k (2 * k)); [reflexivity|lia]. }
    unfold average. rewrite LN. assert (P4 : 0 < 4 ^ k) by (apply pow_lt; lra). assert (0 < IZR (2 ^ W)) by (now apply IZR_lt). apply (Rmult_eq_reg_l (4 ^ k)); [|lra]. unfold Rdiv. rewrite <- Rmult_assoc, E. field. lra.
  Qed.
  Variable q : nat.
  Hypothesis Hq0 : (0 < q)%nat.
  Hypothesis HQ : (2 * (W + 1) * Z.of_nat q <= 2 ^ W)%Z.
  Lemma angle_even phi k : 0 <= average words (fun w => cos (angle W w + phi) ^ (2 * k)) <= dfact k / (2 ^ k * INR (fact k)) * (1 + / INR q) ^ k.
  Proof using HW HQ Hq0.
    assert (P : 0 < dfact k / (2 ^ k * INR (fact k))). { apply Rdiv_lt_0_compat; [apply dfact_pos|]. apply Rmult_lt_0_compat; [apply pow_lt; lra|apply INR_fact_pos]. }
    assert (Iq : 0 < / INR q) by (apply Rinv_0_lt_compat, lt_0_INR; lia). assert (NE : words <> []) by (apply words_nonempty; lia). pose proof (length_pos words NE) as LP.
    split.
    - unfold average. apply Rmult_le_pos; [|apply Rlt_le, Rinv_0_lt_compat, LP]. apply Rsum_nonneg. intros w _. apply pow_even_nonneg.
    - destruct (Z_lt_le_dec (2 * Z.of_nat k) (2 ^ W)) as [L|G].
      + rewrite angle_even_exact by exact L. rewrite central. rewrite <- (Rmult_1_r (dfact k / _)) at 1. apply Rmult_le_compat_l; [lra|]. apply pow_R1_Rle. lra.
      + apply (Rle_trans _ 1).
        * rewrite <- (avg_const words 1 NE) at 1. apply average_le. intros w _. rewrite pow_mult. rewrite <- (pow1 k). apply pow_incr. split; [apply pow2_ge_0|]. pose proof (COS_bound (angle W w + phi)). cbn [pow]. nra.
        * pose proof (pow_ge_odd W q k ltac:(lia) Hq0 HQ G) as B. pose proof (central_ge k) as CG. assert (PF : 0 < 2 ^ k * INR (fact k)) by (apply Rmult_lt_0_compat; [apply pow_lt; lra|apply INR_fact_pos]). pose proof (dfact_pos k).
          set (f := 2 ^ k * INR (fact k)) in *. set (y := (1 + / INR q) ^ k) in *. clearbody f y. apply (Rmult_le_reg_r f); [exact PF|]. replace (dfact k / f * y * f) with (dfact k * y) by (field; lra). nra.
  Qed.
End AnglesAll.
