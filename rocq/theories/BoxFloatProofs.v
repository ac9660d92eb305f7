(** The floating-point Box-Muller transform is close to the exact one. *)
From Coq Require Import ZArith Reals Lra Psatz.
From Flocq Require Import Core Relative BinarySingleNaN.
From Verif Require Import Base Spec SparseSkopModel FloatModel FloatProofs FloatProofs2 FloatProofs3 PropsFloat IsoSpec BoxModel BoxSpec BoxPi BoxProofs.
Local Open Scope R_scope.

(** ** Real arithmetic *)
Section Reals.
  Variables h d1 d2 r2 rr : R.
  Hypothesis Hh : 0 <= h <= / 1000.
  Hypothesis H1 : 0 <= d1 <= / 1000.
  Hypothesis H2 : 0 <= d2 <= / 1000.
  Hypothesis Hr : 0 <= r2.
  Hypothesis HR : 0 <= rr.
  Hypothesis HRr : Rabs (rr * rr - r2) <= d2 * (1 + r2).
  Lemma R_sq : rr * rr <= 1.001 * (1 + r2).
  Proof using H2 Hr HRr. clear - H2 Hr HRr. apply Rabs_le_inv in HRr. assert (d2 * (1 + r2) <= / 1000 * (1 + r2)) by (apply Rmult_le_compat_r; lra). lra. Qed.
  Lemma R_le : rr <= 1.001 * (1 + r2).
  Proof using H2 Hr HRr. pose proof R_sq as Q. assert (0 <= (rr - 1) * (rr - 1)) by (apply (Rle_0_sqr _)). lra. Qed.
  Variables s S x c C y : R.
  Hypothesis HS : Rabs S <= 1.
  Hypothesis HC : Rabs C <= 1.
  Hypothesis Hs : Rabs (s - S) <= d1.
  Hypothesis Hc : Rabs (c - C) <= d1.
  Hypothesis Hx : Rabs (x - s * rr) <= h * (Rabs (s * rr) + / 8).
  Hypothesis Hy : Rabs (y - c * rr) <= h * (Rabs (c * rr) + / 8).
  Lemma abs_s (a b : R) : Rabs b <= 1 -> Rabs (a - b) <= d1 -> Rabs a <= 1.001.
  Proof using H1. clear - H1. intros A B. replace a with (b + (a - b)) by ring. eapply Rle_trans; [apply Rabs_triang|]. lra. Qed.
  Lemma abs_sR (a b : R) : Rabs b <= 1 -> Rabs (a - b) <= d1 -> Rabs (a * rr) <= 1.001 * rr.
  Proof using H1 HR. intros A B. rewrite Rabs_mult, (Rabs_pos_eq rr) by exact HR. apply Rmult_le_compat_r; [exact HR|]. exact (abs_s a b A B). Qed.
  Lemma first_near : Rabs (x - S * rr) <= (3 * h + 3 * d1 + d2) * (1 + r2).
  Proof using Hh H1 H2 Hr HR HRr HS Hs Hx.
    clear HC Hc Hy. pose proof (abs_sR s S HS Hs) as Z. pose proof R_le as RL.
    replace (x - S * rr) with ((x - s * rr) + (s - S) * rr) by ring. eapply Rle_trans; [apply Rabs_triang|].
    rewrite (Rabs_mult (s - S)), (Rabs_pos_eq rr) by exact HR.
    assert (A1 : Rabs (s - S) * rr <= d1 * (1.001 * (1 + r2))) by (apply Rmult_le_compat; [apply Rabs_pos|exact HR|exact Hs|exact RL]).
    assert (A2 : h * (Rabs (s * rr) + / 8) <= h * (3 * (1 + r2))) by (apply Rmult_le_compat_l; lra).
    assert (A3 : 0 <= d2 * (1 + r2)) by (apply Rmult_le_pos; lra). assert (A4 : 0 <= d1 * (1 + r2)) by (apply Rmult_le_pos; lra). lra.
  Qed.
  Lemma product_close : Rabs (x * y - S * C * r2) <= (3 * h + 3 * d1 + d2) * (1 + r2).
  Proof.
    pose proof (abs_sR s S HS Hs) as Z. pose proof (abs_sR c C HC Hc) as V. pose proof R_le as RL. pose proof R_sq as RS.
    set (a := 1.001 * rr + / 8). assert (Ha : 0 <= a) by (unfold a; lra).
    assert (Dx : Rabs (x - s * rr) <= h * a) by (eapply Rle_trans; [exact Hx|]; apply Rmult_le_compat_l; unfold a; lra).
    assert (Dy : Rabs (y - c * rr) <= h * a) by (eapply Rle_trans; [exact Hy|]; apply Rmult_le_compat_l; unfold a; lra).
    assert (HA : h * a <= / 1000 * a) by (apply Rmult_le_compat_r; lra).
    assert (Y : Rabs y <= 1.003 * rr + / 1000).
    { replace y with (c * rr + (y - c * rr)) by ring. eapply Rle_trans; [apply Rabs_triang|]. unfold a in *. lra. }
    replace (x * y - S * C * r2) with (((x - s * rr) * y + s * rr * (y - c * rr)) + (((s - S) * c + S * (c - C)) * (rr * rr) + S * C * (rr * rr - r2))) by ring.
    eapply Rle_trans; [apply Rabs_triang|].
    assert (T1 : Rabs ((x - s * rr) * y + s * rr * (y - c * rr)) <= 3 * h * (1 + r2)).
    { eapply Rle_trans; [apply Rabs_triang|]. rewrite (Rabs_mult (x - s * rr)), (Rabs_mult (s * rr)).
      assert (B1 : Rabs (x - s * rr) * Rabs y <= (h * a) * (1.003 * rr + / 1000)) by (apply Rmult_le_compat; try apply Rabs_pos; assumption).
      assert (B2 : Rabs (s * rr) * Rabs (y - c * rr) <= (1.001 * rr) * (h * a)) by (apply Rmult_le_compat; try apply Rabs_pos; assumption).
      assert (B3 : a * (1.003 * rr + / 1000) + 1.001 * rr * a <= 3 * (1 + r2)) by (unfold a; lra).
      assert (B4 : h * (a * (1.003 * rr + / 1000) + 1.001 * rr * a) <= h * (3 * (1 + r2))) by (apply Rmult_le_compat_l; [apply Hh|exact B3]). lra. }
    assert (T2 : Rabs (((s - S) * c + S * (c - C)) * (rr * rr)) <= 3 * d1 * (1 + r2)).
    { rewrite Rabs_mult, (Rabs_pos_eq (rr * rr)) by (apply Rmult_le_pos; exact HR).
      assert (B1 : Rabs ((s - S) * c + S * (c - C)) <= 2.001 * d1).
      { eapply Rle_trans; [apply Rabs_triang|]. rewrite !Rabs_mult. pose proof (abs_s c C HC Hc) as Ac.
        assert (Rabs (s - S) * Rabs c <= d1 * 1.001) by (apply Rmult_le_compat; try apply Rabs_pos; assumption).
        assert (Rabs S * Rabs (c - C) <= 1 * d1) by (apply Rmult_le_compat; try apply Rabs_pos; assumption). lra. }
      assert (B2 : Rabs ((s - S) * c + S * (c - C)) * (rr * rr) <= (2.001 * d1) * (1.001 * (1 + r2))) by (apply Rmult_le_compat; [apply Rabs_pos|apply Rmult_le_pos; exact HR|exact B1|exact RS]).
      assert (A4 : 0 <= d1 * (1 + r2)) by (apply Rmult_le_pos; lra). lra. }
    assert (T3 : Rabs (S * C * (rr * rr - r2)) <= d2 * (1 + r2)).
    { rewrite !Rabs_mult. assert (Rabs S * Rabs C <= 1 * 1) by (apply Rmult_le_compat; try apply Rabs_pos; assumption).
      replace (d2 * (1 + r2)) with (1 * (d2 * (1 + r2))) by ring. apply Rmult_le_compat; try apply Rabs_pos; [apply Rmult_le_pos; apply Rabs_pos|lra|exact HRr]. }
    pose proof (Rabs_triang (((s - S) * c + S * (c - C)) * (rr * rr)) (S * C * (rr * rr - r2))). lra.
  Qed.
End Reals.

Lemma ln_near d : Rabs d <= / 2 -> Rabs (ln (1 + d)) <= 2 * Rabs d.
Proof.
  intros H. pose proof H as H'. apply Rabs_le_inv in H'. apply Rabs_le. split.
  - pose proof (ln_le_minus (/ (1 + d)) ltac:(apply Rinv_0_lt_compat; lra)) as L. rewrite ln_Rinv in L by lra.
    assert (/ (1 + d) - 1 <= 2 * Rabs d); [|lra]. replace (/ (1 + d) - 1) with ((- d) * / (1 + d)) by (field; lra).
    assert (I : 0 < / (1 + d) <= 2) by (split; [apply Rinv_0_lt_compat; lra|replace 2 with (/ / 2) by field; apply Rinv_le; lra]).
    apply Rle_trans with (Rabs d * / (1 + d)); [apply Rmult_le_compat_r; [lra|]; rewrite <- Rabs_Ropp; apply Rle_abs|].
    rewrite Rmult_comm. apply Rmult_le_compat_r; [apply Rabs_pos|lra].
  - pose proof (ln_le_minus (1 + d) ltac:(lra)). pose proof (Rle_abs d). pose proof (Rabs_pos d). lra.
Qed.
Lemma radius_close h eps U d l q R : 0 <= h <= / 1000 -> 0 <= eps <= / 1000 -> 0 < U <= 1 -> Rabs d <= 4 * h -> U * (1 + d) <= 1 ->
  Rabs (l - ln (U * (1 + d))) <= eps * Rabs (ln (U * (1 + d))) ->
  Rabs (q - -2 * l) <= h * Rabs (-2 * l) + / 8 * h -> 0 <= q -> Rabs (R - sqrt q) <= h * sqrt q + / 8 * h ->
  Rabs (R * R - -2 * ln U) <= (22 * h + 2 * eps) * (1 + -2 * ln U).
Proof.
  intros Hh He HU Hd HU1 Hl Hq Q0 HR.
  assert (P1 : 0 < 1 + d) by (apply Rabs_le_inv in Hd; lra).
  assert (LU : ln U <= 0) by (pose proof (ln_le_minus U ltac:(lra)); lra).
  assert (LT : ln (U * (1 + d)) <= 0).
  { pose proof (Rmult_lt_0_compat U (1 + d) ltac:(lra) P1) as P. pose proof (ln_le_minus (U * (1 + d)) P). lra. }
  pose proof (ln_near d ltac:(lra)) as LN. rewrite ln_mult in * by lra. rewrite (Rabs_left1 _ LT) in Hl.
  set (r2 := -2 * ln U) in *. set (A := -2 * (ln U + ln (1 + d))).
  assert (A0 : 0 <= A) by (unfold A; lra). assert (r0 : 0 <= r2) by (unfold r2; lra).
  assert (AR : Rabs (A - r2) <= 16 * h).
  { unfold A, r2. replace (-2 * (ln U + ln (1 + d)) - -2 * ln U) with (-2 * ln (1 + d)) by ring. rewrite Rabs_mult, (Rabs_left1 (-2)) by lra. lra. }
  assert (B1 : Rabs (-2 * l - A) <= eps * A).
  { unfold A. replace (-2 * l - -2 * (ln U + ln (1 + d))) with (-2 * (l - (ln U + ln (1 + d)))) by ring. rewrite Rabs_mult, (Rabs_left1 (-2)) by lra. lra. }
  set (l2 := -2 * l) in *. clearbody l2 A r2. clear l Hl LT LU LN HU HU1 Hd P1 d U.
  apply Rabs_le_inv in AR, B1.
  assert (EA : eps * A <= / 1000 * A) by (apply Rmult_le_compat_r; lra).
  assert (L2 : Rabs l2 <= 1.001 * A) by (apply Rabs_le; lra).
  assert (HL2 : h * Rabs l2 <= h * (1.001 * A)) by (apply Rmult_le_compat_l; lra).
  apply Rabs_le_inv in Hq.
  assert (HA : h * A <= h * (r2 + / 10)) by (apply Rmult_le_compat_l; lra).
  assert (EA2 : eps * A <= eps * (r2 + / 10)) by (apply Rmult_le_compat_l; lra).
  assert (HR2 : 0 <= h * r2) by (apply Rmult_le_pos; lra). assert (ER2 : 0 <= eps * r2) by (apply Rmult_le_pos; lra).
  assert (QR : Rabs (q - r2) <= (17 * h + eps) * (1 + r2)) by (apply Rabs_le; lra).
  assert (HR2' : h * r2 <= / 1000 * r2) by (apply Rmult_le_compat_r; lra). assert (ER2' : eps * r2 <= / 1000 * r2) by (apply Rmult_le_compat_r; lra).
  pose proof (sqrt_pos q) as T0. pose proof (sqrt_sqrt q Q0) as TT. set (t := sqrt q) in *. clearbody t.
  assert (D : Rabs (R - t) <= h * (t + / 8)) by lra.
  assert (HT : h * t <= / 1000 * t) by (apply Rmult_le_compat_r; lra).
  assert (Sm : Rabs (R + t) <= 2.001 * t + / 1000).
  { apply Rabs_le_inv in HR. apply Rabs_le. lra. }
  assert (P : Rabs (R * R - q) <= 2.5 * h * (1 + q)).
  { replace (R * R - q) with ((R - t) * (R + t)) by (rewrite <- TT; ring). rewrite Rabs_mult.
    assert (X : Rabs (R - t) * Rabs (R + t) <= (h * (t + / 8)) * (2.001 * t + / 1000)) by (apply Rmult_le_compat; try apply Rabs_pos; assumption).
    assert (Sq : 0 <= (t - 1) * (t - 1)) by (apply (Rle_0_sqr _)).
    assert (Y : (t + / 8) * (2.001 * t + / 1000) <= 2.5 * (1 + q)) by lra.
    assert (Z : h * ((t + / 8) * (2.001 * t + / 1000)) <= h * (2.5 * (1 + q))) by (apply Rmult_le_compat_l; lra). lra. }
  replace (R * R - r2) with ((R * R - q) + (q - r2)) by ring. eapply Rle_trans; [apply Rabs_triang|].
  assert (HQ : h * (1 + q) <= h * (1.1 * (1 + r2))).
  { apply Rmult_le_compat_l; [lra|]. apply Rabs_le_inv in QR. lra. }
  lra.
Qed.

(** ** Floating point *)
Section Float.
  Variables p e : Z.
  Context {Hp : Prec_gt_0 p} {He : Prec_lt_emax p e}.
  Hypothesis Hbig : (70 < e)%Z.
  Notation bf := (binary_float p e).
  Notation h := (bpow radix2 (- p)).

  Lemma rnd_rel x : x = 0 \/ bpow radix2 (-69) <= Rabs x -> exists d, Rabs d <= h /\ rnd p e x = x * (1 + d).
  Proof.
    intros [->|H].
    - exists 0. rewrite Rabs_R0, Rmult_0_l. split; [apply bpow_ge_0|apply rnd_0].
    - destruct (relative_error_N_FLT_ex radix2 (3 - e - p) p Hp (fun x => negb (Z.even x)) x) as (d & D & E).
      + apply Rle_trans with (2 := H). apply bpow_le. lia.
      + exists d. split; [|exact E]. replace h with (/ 2 * bpow radix2 (- p + 1)); [exact D|]. rewrite bpow_plus. change (bpow radix2 1) with 2. lra.
  Qed.

  (** *** u01 *)
  Variable W : Z.
  Hypothesis HW : (p < W <= 64)%Z.
  Hypothesis Hp10 : (10 <= p)%Z.
  Variables fac hfac : bf.
  Hypothesis Hfac : B2R fac = bpow radix2 (- W) /\ is_finite fac = true.
  Hypothesis Hhfac : B2R hfac = bpow radix2 (- W - 1) /\ is_finite hfac = true.
  Definition w01 (w : Z) : bf := Bplus mode_NE (Bmult mode_NE (binary_normalize p e _ _ mode_NE w 0 false) fac) hfac.
  Notation U w := (IZR (2 * w + 1) / IZR (2 ^ (W + 1))).
  Lemma h_small : 0 <= h <= / 1000.
  Proof using Hp10. clear - Hp10. split; [apply bpow_ge_0|]. apply Rle_trans with (bpow radix2 (-10)); [apply bpow_le; lia|]. cbn. lra. Qed.
  Lemma U_eq w : U w = IZR w * bpow radix2 (- W) + bpow radix2 (- W - 1).
  Proof using HW Hp10.
    clear - HW Hp10. unfold Rdiv. rewrite IZR_pow, <- bpow_opp by lia. rewrite plus_IZR, mult_IZR. replace (- (W + 1))%Z with (- W - 1)%Z by lia.
    replace (- W)%Z with ((- W - 1) + 1)%Z by lia. rewrite (bpow_plus radix2 (- W - 1) 1). replace (- W - 1 + 1 - 1)%Z with (- W - 1)%Z by lia. change (bpow radix2 1) with 2. ring.
  Qed.
  Lemma w01_spec w : (0 <= w < 2 ^ W)%Z -> is_finite (w01 w) = true /\ 0 < B2R (w01 w) <= 1 /\
    exists d, Rabs d <= 4 * h /\ B2R (w01 w) = U w * (1 + d).
  Proof using All.
    intros Hw. destruct Hfac as [Ef Ff], Hhfac as [Eh Fh]. pose proof h_small as HS.
    assert (RW : 0 <= IZR w <= bpow radix2 W) by (rewrite <- IZR_pow by lia; split; apply IZR_le; lia).
    assert (BW : bpow radix2 W <= bpow radix2 70) by (apply bpow_le; lia).
    destruct (of_Z_ok p e Hbig w ltac:(apply Rabs_le; lra)) as [E1 F1].
    assert (A1 : Rabs (rnd p e (IZR w)) <= bpow radix2 W) by (apply (rnd_abs p e Hbig); [lia|apply Rabs_le; lra]).
    assert (A1p : 0 <= rnd p e (IZR w)) by (rewrite <- (rnd_0 p e); apply (rnd_le p e); lra). rewrite Rabs_pos_eq in A1 by exact A1p.
    assert (UW : bpow radix2 W * bpow radix2 (- W) = 1) by (rewrite <- bpow_plus; replace (W + - W)%Z with 0%Z by ring; reflexivity).
    pose proof (bpow_gt_0 radix2 (- W)) as Pf. pose proof (bpow_gt_0 radix2 (- W - 1)) as Pg.
    assert (G1 : bpow radix2 (- W - 1) <= bpow radix2 (- W)) by (apply bpow_le; lia).
    assert (G2 : bpow radix2 (- W) <= 1) by (apply (bpow_le radix2 (- W) 0); lia).
    assert (A2 : 0 <= rnd p e (IZR w) * bpow radix2 (- W) <= 1).
    { split; [apply Rmult_le_pos; lra|]. rewrite <- UW. apply Rmult_le_compat_r; lra. }
    assert (O70 : 2 <= bpow radix2 70) by (now apply (bpow_le radix2 1 70)).
    destruct (mult_ok p e Hbig _ fac F1 Ff) as [E2 F2]; [rewrite E1, Ef; apply Rabs_le; lra|]. rewrite E1, Ef in E2.
    assert (A3 : 0 <= rnd p e (rnd p e (IZR w) * bpow radix2 (- W)) <= 1).
    { split; [rewrite <- (rnd_0 p e); apply (rnd_le p e); lra|]. rewrite <- (rnd_1 p e Hbig). apply (rnd_le p e). lra. }
    destruct (plus_ok p e Hbig _ hfac F2 Fh) as [E3 F3]; [rewrite E2, Eh; apply Rabs_le; lra|]. rewrite E2, Eh in E3.
    unfold w01. rewrite E3. split; [exact F3|].
    assert (Up : rnd p e (rnd p e (rnd p e (IZR w) * bpow radix2 (- W)) + bpow radix2 (- W - 1)) <= 1).
    { rewrite <- (rnd_1_plus p e Hbig W HW). apply (rnd_le p e). lra. }
    assert (Low : bpow radix2 (-69) <= bpow radix2 (- W - 1)) by (apply bpow_le; lia).
    destruct (rnd_rel (IZR w)) as (x1 & D1 & X1).
    { destruct (Z.eq_dec w 0) as [->|N]; [now left|right]. rewrite Rabs_pos_eq by lra. apply Rle_trans with 1; [apply (bpow_le radix2 (-69) 0); lia|]. apply IZR_le. lia. }
    destruct (rnd_rel (rnd p e (IZR w) * bpow radix2 (- W))) as (x2 & D2 & X2).
    { destruct (Z.eq_dec w 0) as [->|N]; [left; rewrite rnd_0; ring|right]. rewrite Rabs_pos_eq by lra.
      apply Rle_trans with (1 * bpow radix2 (- W)); [lra|]. apply Rmult_le_compat_r; [lra|]. rewrite <- (rnd_1 p e Hbig). apply (rnd_le p e). apply IZR_le. lia. }
    destruct (rnd_rel (rnd p e (rnd p e (IZR w) * bpow radix2 (- W)) + bpow radix2 (- W - 1))) as (x3 & D3 & X3).
    { right. rewrite Rabs_pos_eq by lra. lra. }
    rewrite X3, X2, X1 in *. rewrite U_eq. set (f := bpow radix2 (- W)) in *. set (g := bpow radix2 (- W - 1)) in *. set (a := IZR w) in *.
    set (hh := h) in *. clearbody f g a hh. clear - D1 D2 D3 HS Up RW Pf Pg.
    assert (AF : 0 <= a * f) by (apply Rmult_le_pos; lra).
    pose proof D1 as I1. pose proof D2 as I2. pose proof D3 as I3. apply Rabs_le_inv in I1, I2, I3.
    set (m := (1 + x1) * (1 + x2) - 1). assert (M : Rabs m <= 2.01 * hh).
    { unfold m. replace ((1 + x1) * (1 + x2) - 1) with (x1 + x2 + x1 * x2) by ring. eapply Rle_trans; [apply Rabs_triang|].
      pose proof (Rabs_triang x1 x2). rewrite (Rabs_mult x1).
      assert (Rabs x1 * Rabs x2 <= / 1000 * hh) by (apply Rmult_le_compat; try apply Rabs_pos; lra). lra. }
    replace (a * (1 + x1) * f * (1 + x2) + g) with (a * f * (1 + m) + g) in * by (unfold m; ring). clearbody m.
    set (k := a * f * m / (a * f + g)). assert (KE : a * f * (1 + m) + g = (a * f + g) * (1 + k)) by (unfold k; field; lra).
    assert (KB : Rabs k <= 2.01 * hh).
    { unfold k, Rdiv. rewrite (Rabs_mult (a * f * m)), (Rabs_mult (a * f)), (Rabs_pos_eq (/ _)), (Rabs_pos_eq (a * f)) by (try (left; apply Rinv_0_lt_compat); lra).
      apply (Rmult_le_reg_r (a * f + g)); [lra|]. rewrite Rmult_assoc, Rinv_l, Rmult_1_r by lra. rewrite Rmult_comm.
      apply Rmult_le_compat; [apply Rabs_pos|lra|lra|lra]. }
    rewrite KE in *. clearbody k. pose proof KB as KI. apply Rabs_le_inv in KI.
    split; [split; [|exact Up]|].
    - apply Rmult_lt_0_compat; [apply Rmult_lt_0_compat|]; lra.
    - exists ((1 + k) * (1 + x3) - 1). split; [|ring]. replace ((1 + k) * (1 + x3) - 1) with (k + x3 + k * x3) by ring. eapply Rle_trans; [apply Rabs_triang|].
      pose proof (Rabs_triang k x3). rewrite (Rabs_mult k). assert (Rabs k * Rabs x3 <= / 100 * hh) by (apply Rmult_le_compat; try apply Rabs_pos; lra). lra.
  Qed.

  (** *** The radius and the angle *)
  Variables (sincos : bf -> bf * bf) (log : bf -> bf) (eps : R) (pif mtwo : bf) (un : Z -> bf).
  Hypothesis Hlib : libm_accurate sincos log eps.
  Hypothesis Heps : 0 <= eps <= / 4096.
  Hypothesis Hp16 : (16 <= p)%Z.
  Hypothesis Hmtwo : B2R mtwo = -2 /\ is_finite mtwo = true.
  Hypothesis Hpif : is_finite pif = true /\ Rabs (PI - B2R pif) <= 2 * h.
  Hypothesis Hun : forall w, (0 <= w < 2 ^ W)%Z -> is_finite (un w) = true /\ -1 <= B2R (un w) <= 1 /\
    Rabs (B2R (un w) - IZR (2 * signed W w + 1) / IZR (2 ^ W)) <= 4 * h.
  Notation ok u := (0 <= u < 2 ^ W)%Z.
  Lemma h_tiny : 0 <= h <= / 65536.
  Proof using Hp16. clear - Hp16. split; [apply bpow_ge_0|]. apply Rle_trans with (bpow radix2 (-16)); [apply bpow_le; lia|]. cbn. lra. Qed.
  Lemma U_pos w : ok w -> 0 < U w <= 1.
  Proof using HW Hp10. clear - HW Hp10.
    intros Hw. assert (0 < 2 ^ W)%Z by (apply Z.pow_pos_nonneg; lia). rewrite Z.pow_add_r by lia. change (2 ^ 1)%Z with 2%Z.
    assert (0 < IZR (2 ^ W * 2)) by (apply IZR_lt; lia).
    split; [apply Rmult_lt_0_compat; [apply IZR_lt; lia|now apply Rinv_0_lt_compat]|].
    apply (Rmult_le_reg_r (IZR (2 ^ W * 2))); [assumption|]. unfold Rdiv. rewrite Rmult_assoc, Rinv_l, Rmult_1_r, Rmult_1_l by lra. apply IZR_le. lia.
  Qed.
  Lemma radius2_le w : ok w -> 0 <= radius2 W w <= 1.4 * IZR (W + 1).
  Proof using HW Hp10. clear - HW Hp10.
    intros Hw. pose proof (U_pos w Hw) as [P1 P2]. unfold radius2. pose proof (ln_le_minus _ P1). split; [lra|].
    assert (0 < IZR (2 ^ (W + 1))) by (apply IZR_lt, Z.pow_pos_nonneg; lia). assert (0 < IZR (2 * w + 1)) by (apply IZR_lt; lia).
    rewrite ln_div by assumption. assert (0 <= ln (IZR (2 * w + 1))) by (rewrite <- ln_1; destruct (Req_dec 1 (IZR (2 * w + 1))) as [<-|N]; [lra|left; apply ln_increasing; [lra|]; assert (1 <= IZR (2 * w + 1)) by (apply IZR_le; lia); lra]).
    assert (E : ln (IZR (2 ^ (W + 1))) = IZR (W + 1) * ln 2).
    { rewrite <- (Z2Nat.id (W + 1)) by lia. rewrite <- pow_IZR, ln_pow by lra. rewrite INR_IZR_INZ. reflexivity. }
    rewrite E. pose proof ln2_le. assert (0 <= IZR (W + 1)) by (apply IZR_le; lia). assert (IZR (W + 1) * ln 2 <= IZR (W + 1) * (7 / 10)) by (apply Rmult_le_compat_l; lra). lra.
  Qed.
  Definition rad (w : Z) : bf := Bsqrt mode_NE (Bmult mode_NE mtwo (log (w01 w))).
  Lemma rad_spec w : ok w -> is_finite (rad w) = true /\ 0 <= B2R (rad w) /\
    Rabs (B2R (rad w) * B2R (rad w) - radius2 W w) <= (22 * h + 2 * eps) * (1 + radius2 W w).
  Proof using All.
    intros Hw. clear Hun Hpif. destruct (w01_spec w Hw) as (F & P & d & D & E). pose proof h_tiny as HT.
    destruct Hlib as [_ L]. destruct (L _ F P) as [FL AL]. clear L Hlib. pose proof (radius2_le w Hw) as RB. pose proof (U_pos w Hw) as UP.
    assert (W65 : IZR (W + 1) <= 65) by (apply IZR_le; lia).
    rewrite E in AL, P. set (l := B2R (log (w01 w))) in *.
    assert (P1 : 0 < 1 + d) by (apply Rabs_le_inv in D; lra).
    assert (LN : Rabs (ln (1 + d)) <= 2 * Rabs d) by (apply ln_near; lra).
    assert (LT : ln (U w * (1 + d)) <= 0) by (pose proof (ln_le_minus _ (proj1 P)); lra).
    assert (LL : - 46 <= ln (U w * (1 + d))).
    { rewrite ln_mult by lra. apply Rabs_le_inv in LN. unfold radius2 in RB. lra. }
    assert (Lb : -47 <= l <= 0).
    { rewrite (Rabs_left1 _ LT) in AL. apply Rabs_le_inv in AL.
      set (v := - ln (U w * (1 + d))) in *. assert (eps * v <= / 4096 * v) by (apply Rmult_le_compat_r; unfold v; lra).
      assert (0 <= v) by (unfold v; lra). replace (ln (U w * (1 + d))) with (- v) in AL by (unfold v; lra). assert (v <= 46) by (unfold v; lra). lra. }
    assert (O64 : 1000 <= bpow radix2 64) by (apply Rle_trans with (bpow radix2 10); [cbn; lra|apply bpow_le; lia]).
    assert (O70 : bpow radix2 64 <= bpow radix2 70) by (apply bpow_le; lia).
    destruct Hmtwo as [E2 F2].
    destruct (mult_ok p e Hbig mtwo (log (w01 w)) F2 FL) as [EQ FQ]; [rewrite E2; fold l; apply Rabs_le; lra|].
    rewrite E2 in EQ. fold l in EQ. fold (rad w).
    pose proof (rnd_err p e Hbig (-2 * l) ltac:(apply Rabs_le; lra)) as QE.
    assert (Q0 : 0 <= rnd p e (-2 * l)) by (rewrite <- (rnd_0 p e); apply (rnd_le p e); lra).
    destruct (Bsqrt_correct p e _ _ mode_NE (Bmult mode_NE mtwo (log (w01 w)))) as (ES & FS & _).
    fold (rad w) in ES, FS.
    assert (FR : is_finite (rad w) = true).
    { rewrite FS. clear - FQ EQ Q0. rewrite <- EQ in Q0. destruct (Bmult mode_NE mtwo (log (w01 w))) as [s|s| |s m ex B]; try discriminate; auto.
      destruct s; [|reflexivity]. exfalso. cbn [B2R] in Q0. assert (F2R (Float radix2 (cond_Zopp true (Z.pos m)) ex) < 0) by (apply F2R_lt_0; reflexivity). lra. }
    rewrite EQ in ES. change (B2R (rad w) = rnd p e (sqrt (rnd p e (-2 * l)))) in ES.
    set (q := rnd p e (-2 * l)) in *.
    assert (Qb : q <= 100).
    { apply Rabs_le_inv in QE. rewrite Rabs_pos_eq in QE by lra. assert (h * (-2 * l) <= / 65536 * (-2 * l)) by (apply Rmult_le_compat_r; lra). lra. }
    assert (Sb : 0 <= sqrt q <= 10).
    { split; [apply sqrt_pos|]. replace 10 with (sqrt 100) by (replace 100 with (10 * 10) by ring; apply sqrt_square; lra). apply sqrt_le_1_alt. exact Qb. }
    pose proof (rnd_err p e Hbig (sqrt q) ltac:(apply Rabs_le; lra)) as RE. rewrite (Rabs_pos_eq (sqrt q)) in RE by lra. rewrite <- ES in RE.
    split; [exact FR|]. split; [rewrite ES, <- (rnd_0 p e); apply (rnd_le p e); lra|].
    unfold radius2. apply (radius_close h eps (U w) d l q); try lra; try assumption. 
  Qed.
  Lemma abs_sin x : Rabs (sin x) <= Rabs x.
  Proof.
    clear. assert (P : forall x, 0 <= x -> Rabs (sin x) <= x).
    { clear. intros x Hx. destruct (Rle_dec x PI) as [L|L].
      - rewrite Rabs_pos_eq by (apply sin_ge_0; lra). destruct Hx as [H|<-]; [left; now apply sin_lt_x|rewrite sin_0; lra].
      - pose proof (SIN_bound x). pose proof PI2_3_2. apply Rabs_le. lra. }
    destruct (Rle_dec 0 x) as [H|H]; [rewrite (Rabs_pos_eq x) by exact H; now apply P|].
    rewrite <- (Rabs_Ropp (sin x)), <- sin_neg, <- (Rabs_Ropp x), (Rabs_pos_eq (- x)) by lra. apply P. lra.
  Qed.
  Lemma sin_near x y : Rabs (sin x - sin y) <= Rabs (x - y).
  Proof.
    clear. rewrite form4. replace (2 * cos ((x + y) / 2) * sin ((x - y) / 2)) with (cos ((x + y) / 2) * (2 * sin ((x - y) / 2))) by ring.
    rewrite Rabs_mult. pose proof (abs_sin ((x - y) / 2)) as A. pose proof (COS_bound ((x + y) / 2)) as B. apply Rabs_le in B.
    replace (Rabs (x - y)) with (1 * (2 * Rabs ((x - y) / 2))).
    - apply Rmult_le_compat; try apply Rabs_pos; [exact B|]. rewrite Rabs_mult, (Rabs_pos_eq 2) by lra. lra.
    - unfold Rdiv. rewrite (Rabs_mult (x - y)), (Rabs_pos_eq (/ 2)) by lra. field.
  Qed.
  Lemma cos_near x y : Rabs (cos x - cos y) <= Rabs (x - y).
  Proof. clear. rewrite <- !sin_shift. eapply Rle_trans; [apply sin_near|]. right. rewrite <- Rabs_Ropp. f_equal. ring. Qed.
  Lemma angle_spec u : ok u -> is_finite (fst (sincospi sincos pif (un u))) = true /\ is_finite (snd (sincospi sincos pif (un u))) = true /\
    Rabs (B2R (fst (sincospi sincos pif (un u))) - sin (angle W u)) <= 18 * h + eps /\
    Rabs (B2R (snd (sincospi sincos pif (un u))) - cos (angle W u)) <= 18 * h + eps.
  Proof using All.
    intros Hu. destruct (Hun u Hu) as (F & B & A). destruct Hpif as [FP AP]. destruct Hlib as [L _]. clear Hlib. pose proof h_tiny as HT.
    assert (PB : 3 < PI <= 3.15) by (pose proof pi_float as X; apply Rabs_le_inv in X; cbn -[PI] in X; lra).
    set (y := B2R (un u)) in *. set (pf := B2R pif) in *.
    pose proof AP as AP'. apply Rabs_le_inv in AP'.
    assert (PY : Rabs (pf * y) <= 3.2).
    { rewrite Rabs_mult. replace 3.2 with (3.2 * 1) by ring. apply Rmult_le_compat; try apply Rabs_pos; apply Rabs_le; lra. }
    assert (O64 : 1000 <= bpow radix2 64) by (apply Rle_trans with (bpow radix2 10); [cbn; lra|apply bpow_le; lia]).
    assert (O70 : bpow radix2 64 <= bpow radix2 70) by (apply bpow_le; lia).
    destruct (mult_ok p e Hbig pif (un u) FP F) as [E1 F1]; [fold pf y; lra|]. fold pf y in E1.
    pose proof (rnd_err p e Hbig (pf * y) ltac:(lra)) as RE. rewrite <- E1 in RE.
    assert (H1 : h * Rabs (pf * y) <= h * 3.2) by (apply Rmult_le_compat_l; lra).
    set (t := B2R (Bmult mode_NE pif (un u))) in *.
    assert (T4 : Rabs t <= 4) by (apply Rabs_le_inv in RE, PY; apply Rabs_le; lra).
    destruct (L _ F1 T4) as (G1 & G2 & A1 & A2). fold t in A1, A2. unfold sincospi.
    assert (TA : Rabs (t - angle W u) <= 18 * h).
    { unfold angle. set (v := IZR (2 * signed W u + 1) / IZR (2 ^ W)) in *.
      replace (t - PI * v) with ((t - pf * y) + ((pf - PI) * y + PI * (y - v))) by ring.
      eapply Rle_trans; [apply Rabs_triang|].
      assert (X1 : Rabs ((pf - PI) * y) <= 2 * h * 1).
      { rewrite Rabs_mult. apply Rmult_le_compat; try apply Rabs_pos; [rewrite <- Rabs_Ropp; replace (- (pf - PI)) with (PI - pf) by ring; exact AP|apply Rabs_le; lra]. }
      assert (X2 : Rabs (PI * (y - v)) <= 3.15 * (4 * h)).
      { rewrite Rabs_mult. apply Rmult_le_compat; try apply Rabs_pos; [rewrite Rabs_pos_eq by lra; lra|exact A]. }
      pose proof (Rabs_triang ((pf - PI) * y) (PI * (y - v))). lra. }
    split; [exact G1|]. split; [exact G2|].
    split; [pose proof (sin_near t (angle W u)) as N|pose proof (cos_near t (angle W u)) as N].
    - replace (B2R (fst (sincos (Bmult mode_NE pif (un u)))) - sin (angle W u)) with ((B2R (fst (sincos (Bmult mode_NE pif (un u)))) - sin t) + (sin t - sin (angle W u))) by ring.
      eapply Rle_trans; [apply Rabs_triang|]. lra.
    - replace (B2R (snd (sincos (Bmult mode_NE pif (un u)))) - cos (angle W u)) with ((B2R (snd (sincos (Bmult mode_NE pif (un u)))) - cos t) + (cos t - cos (angle W u))) by ring.
      eapply Rle_trans; [apply Rabs_triang|]. lra.
  Qed.

  Notation bm := (boxmuller sincos log pif mtwo un w01).
  Notation cc := (79 * h + 5 * eps).
  Lemma box_close u0 u1 : ok u0 -> ok u1 ->
    let x := fst (bm u0 u1) in let y := snd (bm u0 u1) in let s := sin (angle W u0) in let c := cos (angle W u0) in let r2 := radius2 W u1 in
    (is_finite x = true /\ is_finite y = true) /\
    (Rabs (B2R x - s * B2R (rad u1)) <= cc * (1 + r2) /\ Rabs (B2R y - c * B2R (rad u1)) <= cc * (1 + r2)) /\
    Rabs (B2R x * B2R x - s * s * r2) <= cc * (1 + r2) /\
    Rabs (B2R y * B2R y - c * c * r2) <= cc * (1 + r2) /\
    Rabs (B2R x * B2R y - s * c * r2) <= cc * (1 + r2).
  Proof using All.
    intros H0 H1. destruct (angle_spec u0 H0) as (FS & FC & AS & AC). destruct (rad_spec u1 H1) as (FR & R0 & RR). pose proof (radius2_le u1 H1) as RB.
    pose proof h_tiny as HT. assert (W65 : IZR (W + 1) <= 65) by (apply IZR_le; lia).
    unfold boxmuller. fold (rad u1). destruct (sincospi sincos pif (un u0)) as [xs ys]. cbn [fst snd] in *.
    pose proof (SIN_bound (angle W u0)) as SB. pose proof (COS_bound (angle W u0)) as CB. apply Rabs_le in SB, CB.
    set (S := sin (angle W u0)) in *. set (C := cos (angle W u0)) in *. set (r2 := radius2 W u1) in *. set (r := B2R (rad u1)) in *.
    assert (D1 : 0 <= 18 * h + eps <= / 1000) by lra. assert (D2 : 0 <= 22 * h + 2 * eps <= / 1000) by lra.
    assert (r10 : r <= 93).
    { pose proof (R_le (22 * h + 2 * eps) r2 r D2 (proj1 RB) RR) as X. lra. }
    assert (O64 : 1000 <= bpow radix2 64) by (apply Rle_trans with (bpow radix2 10); [cbn; lra|apply bpow_le; lia]).
    assert (O70 : bpow radix2 64 <= bpow radix2 70) by (apply bpow_le; lia).
    assert (Q : forall (a : bf) A, is_finite a = true -> Rabs A <= 1 -> Rabs (B2R a - A) <= 18 * h + eps ->
      is_finite (Bmult mode_NE a (rad u1)) = true /\ Rabs (B2R (Bmult mode_NE a (rad u1)) - B2R a * r) <= h * (Rabs (B2R a * r) + / 8)).
    { intros a A Fa HA Ha. pose proof (abs_sR _ r D1 R0 (B2R a) A HA Ha) as Z.
      destruct (mult_ok p e Hbig a (rad u1) Fa FR) as [E F]; [fold r; lra|]. fold r in E. split; [exact F|].
      rewrite E. pose proof (rnd_err p e Hbig (B2R a * r) ltac:(lra)). lra. }
    destruct (Q xs S FS SB AS) as [FX EX]. destruct (Q ys C FC CB AC) as [FY EY].
    assert (EC : cc = 3 * h + 3 * (18 * h + eps) + (22 * h + 2 * eps)) by ring. rewrite EC.
    assert (Hh3 : 0 <= h <= / 1000) by lra.
    split; [split; assumption|]. split; [split; eapply first_near; eauto; tauto|].
    split; [|split]; eapply product_close; eauto; tauto.
  Qed.
End Float.
