(** The accuracy assumed of the C library is attainable: correctly truncated functions. *)
From Coq Require Import ZArith Reals Lra Psatz.
From Flocq Require Import Core Relative BinarySingleNaN.
From Verif Require Import Base FloatModel FloatProofs IsoSpec BoxModel BoxSpec BoxPi BoxProofs BoxFloatProofs.
Local Open Scope R_scope.
Section Libm.
  Variables p e : Z.
  Context {Hp : Prec_gt_0 p} {He : Prec_lt_emax p e}.
  Hypothesis Hbig : (70 < e)%Z.
  Hypothesis Hp16 : (16 <= p <= 53)%Z.
  Hypothesis He1024 : (e <= 1024)%Z.
  Notation bf := (binary_float p e).
  Notation h := (bpow radix2 (- p)).
  Definition near (y : R) : bf := binary_normalize p e _ _ mode_NE (Ztrunc (y * bpow radix2 120)) (-120) false.
  Definition near_sincos (x : bf) : bf * bf := (near (sin (B2R x)), near (cos (B2R x))).
  Definition near_log (x : bf) : bf := near (ln (B2R x)).
  Definition cut (y : R) : R := IZR (Ztrunc (y * bpow radix2 120)) * bpow radix2 (-120).
  Lemma cut_near y : Rabs (cut y - y) <= bpow radix2 (-120).
  Proof.
    clear. unfold cut. set (z := y * bpow radix2 120).
    assert (E : y = z * bpow radix2 (-120)) by (unfold z; rewrite Rmult_assoc, <- bpow_plus; cbn; ring).
    rewrite E at 1. rewrite <- Rmult_minus_distr_r, Rabs_mult, (Rabs_pos_eq (bpow _ _)) by apply bpow_ge_0.
    rewrite <- (Rmult_1_l (bpow radix2 (-120))) at 2. apply Rmult_le_compat_r; [apply bpow_ge_0|].
    clearbody z. clear. destruct (Rle_dec 0 z) as [H|H].
    - rewrite Ztrunc_floor by exact H. pose proof (Zfloor_lb z). pose proof (Zfloor_ub z). apply Rabs_le. lra.
    - rewrite Ztrunc_ceil by lra. pose proof (Zceil_ub z). pose proof (Zceil_lb z). apply Rabs_le. lra.
  Qed.
  Lemma near_ok y : Rabs y <= 1000 -> B2R (near y) = rnd p e (cut y) /\ is_finite (near y) = true.
  Proof using Hbig. clear Hp16 He1024.
    intros Hy. pose proof (cut_near y) as C0. assert (S68 : bpow radix2 (-120) <= 1) by (apply (bpow_le radix2 (-120) 0); lia).
    assert (O70 : 2000 <= bpow radix2 70) by (apply Rle_trans with (bpow radix2 11); [cbn; lra|apply bpow_le; lia]).
    assert (B : Rabs (cut y) <= bpow radix2 70).
    { replace (cut y) with ((cut y - y) + y) by ring. eapply Rle_trans; [apply Rabs_triang|]. lra. }
    pose proof (binary_normalize_correct p e _ _ mode_NE (Ztrunc (y * bpow radix2 120)) (-120) false) as C. cbv zeta in C.
    change (round_mode mode_NE) with ZnearestE in C. change (F2R (Float radix2 (Ztrunc (y * bpow radix2 120)) (-120))) with (cut y) in C.
    fold (rnd p e (cut y)) in C. rewrite (no_overflow p e Hbig _ B) in C. tauto.
  Qed.
  Lemma h_ge : bpow radix2 (-53) <= h. Proof using Hp16. apply bpow_le. lia. Qed.
  Lemma near_abs y : Rabs y <= 1 -> is_finite (near y) = true /\ Rabs (B2R (near y) - y) <= 4 * h.
  Proof using Hbig Hp16.
    intros Hy. destruct (near_ok y ltac:(lra)) as [E F]. split; [exact F|]. pose proof (cut_near y) as C0. pose proof h_ge as HG.
    assert (S68 : bpow radix2 (-120) <= bpow radix2 (-53) / 65536) by (cbn; lra).
    assert (HT : 0 <= h <= / 65536) by (split; [apply bpow_ge_0|]; apply Rle_trans with (bpow radix2 (-16)); [apply bpow_le; lia|cbn; lra]).
    assert (Bc : Rabs (cut y) <= 2).
    { replace (cut y) with ((cut y - y) + y) by ring. eapply Rle_trans; [apply Rabs_triang|]. lra. }
    assert (O64 : 1000 <= bpow radix2 64) by (apply Rle_trans with (bpow radix2 10); [cbn; lra|apply bpow_le; lia]).
    pose proof (rnd_err p e Hbig (cut y) ltac:(lra)) as R1. rewrite <- E in R1.
    assert (h * Rabs (cut y) <= h * 2) by (apply Rmult_le_compat_l; lra).
    replace (B2R (near y) - y) with ((B2R (near y) - cut y) + (cut y - y)) by ring. eapply Rle_trans; [apply Rabs_triang|]. lra.
  Qed.
  Lemma accurate_ulp : libm_accurate near_sincos near_log (4 * h).
  Proof using Hbig Hp16 He1024.
    split.
    - intros x Fx Hx. unfold near_sincos. cbn [fst snd].
      destruct (near_abs (sin (B2R x)) ltac:(apply Rabs_le, SIN_bound)) as [F1 E1].
      destruct (near_abs (cos (B2R x)) ltac:(apply Rabs_le, COS_bound)) as [F2 E2]. auto.
    - intros x Fx Hx. unfold near_log. set (v := B2R x) in *. set (l := ln v).
      assert (LO : -1000 <= l <= 0).
      { unfold l. split.
        - assert (M : bpow radix2 (3 - e - p) <= v).
          { pose proof (abs_B2R_ge_emin p e x) as A. rewrite (Rabs_pos_eq (B2R x)) in A by (unfold v in Hx; lra). apply A.
            destruct x; try discriminate; [unfold v in Hx; cbn in Hx; lra|reflexivity]. }
          apply Rle_trans with (ln (bpow radix2 (3 - e - p))).
          + rewrite bpow_exp, ln_exp. change (IZR radix2) with 2. assert (-1100 <= IZR (3 - e - p)) by (apply IZR_le; lia). assert (IZR (3 - e - p) <= 0) by (apply IZR_le; lia).
            pose proof ln2_le. pose proof ln2_ge. assert (-1100 * ln 2 <= IZR (3 - e - p) * ln 2) by (apply Rmult_le_compat_r; lra). lra.
          + destruct (Req_dec (bpow radix2 (3 - e - p)) v) as [<-|N]; [lra|]. left. apply ln_increasing; [apply bpow_gt_0|lra].
        - pose proof (ln_le_minus v ltac:(lra)). lra. }
      destruct (near_ok l ltac:(apply Rabs_le; lra)) as [E F]. split; [exact F|]. rewrite E.
      destruct (Req_dec v 1) as [V1|V1].
      { assert (l = 0) as -> by (unfold l; rewrite V1; apply ln_1). unfold cut. rewrite Rmult_0_l. change (Ztrunc 0) with (Ztrunc (IZR 0)). rewrite Ztrunc_IZR.
        rewrite Rmult_0_l, rnd_0, Rminus_0_r, Rabs_R0. rewrite Rmult_0_r. apply Rle_refl. }
      assert (VP : v <= 1 - bpow radix2 (- p)).
      { assert (G1 : generic_format radix2 (SpecFloat.fexp p e) 1).
        { change 1 with (bpow radix2 0). apply generic_format_bpow. unfold SpecFloat.fexp, SpecFloat.emin. pose proof Hp. unfold Prec_gt_0 in *. lia. }
        pose proof (pred_ge_gt radix2 (SpecFloat.fexp p e) v 1 (generic_format_B2R p e x) G1 ltac:(lra)) as X.
        change 1 with (bpow radix2 0) in X. rewrite pred_bpow in X. change (bpow radix2 0) with 1 in X.
        replace (SpecFloat.fexp p e 0) with (- p)%Z in X; [exact X|]. unfold SpecFloat.fexp, SpecFloat.emin. lia. }
      assert (L1 : bpow radix2 (-53) <= Rabs l).
      { rewrite Rabs_left1 by lra. pose proof (ln_le_minus v ltac:(lra)) as X. fold l in X. assert (bpow radix2 (-53) <= bpow radix2 (- p)) by (apply bpow_le; lia). lra. }
      pose proof (cut_near l) as C0.
      assert (C1 : bpow radix2 (-120) <= / 32768 * Rabs l).
      { apply Rle_trans with (/ 32768 * bpow radix2 (-53)); [|apply Rmult_le_compat_l; lra]. cbn. lra. }
      destruct (rnd_rel p e Hbig (cut l)) as (d & D & X).
      { right. replace (cut l) with (l - (l - cut l)) by ring. eapply Rle_trans; [|apply Rabs_triang_inv]. rewrite Rabs_minus_sym in C0.
        assert (bpow radix2 (-69) <= / 4 * bpow radix2 (-53)) by (cbn; lra). pose proof (bpow_gt_0 radix2 (-53)). set (bb := bpow radix2 (-53)) in *. set (b9 := bpow radix2 (-69)) in *. set (b8 := bpow radix2 (-120)) in *. clearbody bb b9 b8 l. clear - H H0 C0 C1 L1. lra. }
      assert (HT : 0 <= h <= / 65536) by (split; [apply bpow_ge_0|]; apply Rle_trans with (bpow radix2 (-16)); [apply bpow_le; lia|cbn; lra]).
      rewrite X. replace (cut l * (1 + d) - l) with ((cut l - l) + cut l * d) by ring. eapply Rle_trans; [apply Rabs_triang|].
      assert (C3 : Rabs (cut l - l) <= h * Rabs l).
      { eapply Rle_trans; [exact C0|]. apply Rle_trans with (h * bpow radix2 (-53)); [|apply Rmult_le_compat_l; lra].
        apply Rle_trans with (bpow radix2 (-53) * bpow radix2 (-53)); [cbn; lra|]. apply Rmult_le_compat_r; [apply bpow_ge_0|exact h_ge]. }
      set (t := cut l) in *. clearbody t l. clear - C3 D HT. pose proof (Rabs_pos l) as PL.
      assert (C2 : Rabs t <= 2 * Rabs l).
      { replace t with ((t - l) + l) at 1 by ring. eapply Rle_trans; [apply Rabs_triang|]. assert (h * Rabs l <= / 65536 * Rabs l) by (apply Rmult_le_compat_r; lra). lra. }
      rewrite Rabs_mult. assert (Rabs t * Rabs d <= (2 * Rabs l) * h) by (apply Rmult_le_compat; try apply Rabs_pos; lra). assert (0 <= h * Rabs l) by (apply Rmult_le_pos; lra). lra.
  Qed.
  Lemma accurate : libm_accurate near_sincos near_log (/ 4096).
  Proof using Hbig Hp16 He1024.
    destruct accurate_ulp as [A B]. assert (HT : 4 * h <= / 4096) by (apply Rle_trans with (4 * bpow radix2 (-16)); [apply Rmult_le_compat_l; [lra|apply bpow_le; lia]|cbn; lra]). split.
    - intros x F H. destruct (A x F H) as (F1 & F2 & E1 & E2). split; [exact F1|]. split; [exact F2|]. split; lra.
    - intros x F H. destruct (B x F H) as [F1 E]. split; [exact F1|]. eapply Rle_trans; [exact E|]. apply Rmult_le_compat_r; [apply Rabs_pos|exact HT].
  Qed.
End Libm.
