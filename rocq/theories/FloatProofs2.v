(** Instances for binary32 / binary64 and the index computation. *)
From Coq Require Import ZArith Reals Lra Psatz.
From Flocq Require Import Core Relative BinarySingleNaN.
From Verif Require Import Base SparseSkopModel FloatModel FloatProofs.

Open Scope R_scope.

Lemma B2R_SF {p e} (x : binary_float p e) s : B2SF x = s -> B2R x = SF2R radix2 s.
Proof. intros <-. now rewrite SF2R_B2SF. Qed.
Lemma fin_SF {p e} (x : binary_float p e) : is_finite_SF (B2SF x) = true -> is_finite x = true.
Proof. now destruct x. Qed.

Lemma SF_pow s m e k : Zpos m = (2 ^ k)%Z -> (0 <= k)%Z ->
  SF2R radix2 (SpecFloat.S754_finite s m e) = (if s then - bpow radix2 (k + e) else bpow radix2 (k + e)).
Proof.
  intros H Hk. cbn [SF2R]. unfold F2R, Fnum, Fexp. rewrite bpow_plus, <- (IZR_pow k), <- H by exact Hk.
  destruct s; cbn [cond_Zopp]; rewrite ?opp_IZR; ring.
Qed.

Lemma SF_lt_1 m e : (e <= 0)%Z -> (Zpos m < 2 ^ (- e))%Z -> SF2R radix2 (SpecFloat.S754_finite false m e) < 1.
Proof.
  intros He H. cbn [SF2R cond_Zopp]. unfold F2R, Fnum, Fexp.
  apply IZR_lt in H. rewrite IZR_pow in H by lia.
  apply Rmult_lt_compat_r with (r := bpow radix2 e) in H; [|apply bpow_gt_0].
  rewrite <- bpow_plus in H. replace (- e + e)%Z with 0%Z in H by ring. exact H.
Qed.

Ltac pow_val k := erewrite B2R_SF by (vm_compute; reflexivity); rewrite (SF_pow _ _ _ k) by (reflexivity || lia).

Lemma factor32_ok : B2R factor32 = bpow radix2 (1 - 32) /\ is_finite factor32 = true.
Proof. split; [pow_val 23%Z; reflexivity|vm_compute; reflexivity]. Qed.
Lemma hfactor32_ok : B2R (mul32 half32 factor32) = bpow radix2 (- 32) /\ is_finite (mul32 half32 factor32) = true.
Proof. split; [pow_val 23%Z; reflexivity|vm_compute; reflexivity]. Qed.
Lemma factor64_ok : B2R factor64 = bpow radix2 (1 - 64) /\ is_finite factor64 = true.
Proof. split; [pow_val 52%Z; reflexivity|vm_compute; reflexivity]. Qed.
Lemma hfactor64_ok : B2R (mul64 half64 factor64) = bpow radix2 (- 64) /\ is_finite (mul64 half64 factor64) = true.
Proof. split; [pow_val 52%Z; reflexivity|vm_compute; reflexivity]. Qed.
Lemma one32_ok : B2R (of_Z32 1) = 1 /\ is_finite (of_Z32 1) = true.
Proof. split; [pow_val 23%Z; reflexivity|vm_compute; reflexivity]. Qed.
Lemma two32_ok : B2R (of_Z32 2) = 2 /\ is_finite (of_Z32 2) = true.
Proof. split; [pow_val 23%Z; reflexivity|vm_compute; reflexivity]. Qed.
Lemma one64_ok : B2R (of_Z64 1) = 1 /\ is_finite (of_Z64 1) = true.
Proof. split; [pow_val 52%Z; reflexivity|vm_compute; reflexivity]. Qed.
Lemma two64_ok : B2R (of_Z64 2) = 2 /\ is_finite (of_Z64 2) = true.
Proof. split; [pow_val 52%Z; reflexivity|vm_compute; reflexivity]. Qed.

Lemma to_sint_inw b w : (0 < b)%Z -> inw b (to_sint b w).
Proof.
  intros Hb. unfold inw, to_sint.
  assert (2 ^ b = 2 * 2 ^ (b - 1))%Z as E by (replace b with (1 + (b - 1))%Z at 1 by ring; rewrite Z.pow_add_r by lia; reflexivity).
  pose proof (Z.pow_pos_nonneg 2 (b - 1) ltac:(lia) ltac:(lia)).
  pose proof (Z.mod_pos_bound (w + 2 ^ (b - 1)) (2 ^ b) ltac:(lia)). lia.
Qed.

Lemma uneg11_32_spec w :
  B2R (uneg11_32 w) = u11R 24 128 32 (to_sint 32 w) /\ is_finite (uneg11_32 w) = true /\
  -1 <= B2R (uneg11_32 w) <= 1.
Proof.
  destruct (u11_spec 24 128 ltac:(lia) 32 ltac:(lia) factor32 _ factor32_ok hfactor32_ok (to_sint 32 w)
    (to_sint_inw 32 w ltac:(lia))) as (E & Fi & R).
  fold (mul32 half32 factor32) in *. unfold u11 in E, Fi.
  change (Bplus mode_NE _ _) with (uneg11_32 w) in E, Fi. rewrite E. auto.
Qed.

Lemma uneg11_64_spec w :
  B2R (uneg11_64 w) = u11R 53 1024 64 (to_sint 64 w) /\ is_finite (uneg11_64 w) = true /\
  -1 <= B2R (uneg11_64 w) <= 1.
Proof.
  destruct (u11_spec 53 1024 ltac:(lia) 64 ltac:(lia) factor64 _ factor64_ok hfactor64_ok (to_sint 64 w)
    (to_sint_inw 64 w ltac:(lia))) as (E & Fi & R).
  unfold u11 in E, Fi.
  change (Bplus mode_NE _ _) with (uneg11_64 w) in E, Fi. rewrite E. auto.
Qed.

Lemma to64_ok (x : b32) : is_finite x = true -> B2R (to64 x) = B2R x /\ is_finite (to64 x) = true.
Proof.
  intros Fx. destruct x as [s|s| |s m e Hb]; try discriminate; [split; reflexivity|].
  set (x := B754_finite s m e Hb : b32) in *.
  pose proof (generic_format_B2R 24 128 x) as G. pose proof (abs_B2R_lt_emax 24 128 x) as L.
  unfold to64, x. pose proof (binary_normalize_correct 53 1024 _ _ mode_NE (cond_Zopp s (Zpos m)) e s) as C.
  cbv zeta in C. change (F2R _) with (B2R x) in C.
  rewrite round_generic in C; [|typeclasses eauto|].
  - rewrite Rlt_bool_true in C; [tauto|]. apply Rlt_le_trans with (1 := L). apply bpow_le. lia.
  - apply generic_inclusion_mag with (2 := G). intros _. unfold SpecFloat.fexp, SpecFloat.emin. lia.
Qed.

Lemma u01_32_spec (x : b32) : is_finite x = true -> -1 <= B2R x <= 1 ->
  B2R (u01_32 x) = u01R 24 128 (B2R x) /\ is_finite (u01_32 x) = true /\ 0 <= B2R (u01_32 x) <= 1.
Proof.
  intros Fx Bx. destruct (u01_spec 24 128 ltac:(lia) _ _ one32_ok two32_ok x Fx Bx) as (E & Fi & R).
  change (Bdiv mode_NE _ _) with (u01_32 x) in E, Fi. rewrite E. auto.
Qed.
Lemma u01_64_spec (x : b64) : is_finite x = true -> -1 <= B2R x <= 1 ->
  B2R (u01_64 x) = u01R 53 1024 (B2R x) /\ is_finite (u01_64 x) = true /\ 0 <= B2R (u01_64 x) <= 1.
Proof.
  intros Fx Bx. destruct (u01_spec 53 1024 ltac:(lia) _ _ one64_ok two64_ok x Fx Bx) as (E & Fi & R).
  change (Bdiv mode_NE _ _) with (u01_64 x) in E, Fi. rewrite E. auto.
Qed.

(** ** The index floor(n * u) *)
Notation rnd64 := (rnd 53 1024).

Lemma rnd64_le x y : x <= y -> rnd64 x <= rnd64 y.
Proof. apply rnd_le. exact prec64. Qed.

Lemma int_format n : (Z.abs n <= 2 ^ 53)%Z -> generic_format radix2 (SpecFloat.fexp 53 1024) (IZR n).
Proof.
  intros H. change (SpecFloat.fexp 53 1024) with (FLT_exp (3 - 1024 - 53) 53).
  destruct (Z.eq_dec (Z.abs n) (2 ^ 53)) as [E|E].
  - apply generic_format_abs_inv. rewrite <- abs_IZR, E, IZR_pow by lia.
    apply generic_format_bpow. unfold FLT_exp. lia.
  - apply generic_format_FLT. exists (Float radix2 n 0); cbn [Fnum Fexp].
    + unfold F2R. cbn. ring.
    + change (radix_val radix2 ^ 53)%Z with (2 ^ 53)%Z. lia.
    + lia.
Qed.

Lemma of_Z64_exact n : (Z.abs n <= 2 ^ 53)%Z -> B2R (of_Z64 n) = IZR n /\ is_finite (of_Z64 n) = true.
Proof.
  intros H. destruct (of_Z_ok 53 1024 ltac:(lia) n) as [E Fi].
  - rewrite <- abs_IZR. apply Rle_trans with (IZR (2 ^ 53)); [now apply IZR_le|].
    rewrite IZR_pow by lia. apply bpow_le. lia.
  - split; [|exact Fi]. unfold of_Z64. rewrite E. apply round_generic; [typeclasses eauto|]. now apply int_format.
Qed.

Lemma Btrunc_val (x : b64) : Btrunc x = Ztrunc (B2R x).
Proof. apply eq_IZR. rewrite Btrunc_correct by exact emax64. apply round_FIX_IZR. Qed.

Lemma index_spec n (u : b64) : (1 <= n <= 2 ^ 53)%Z -> is_finite u = true -> 0 <= B2R u <= 1 ->
  let i := Btrunc (mul64 (of_Z64 (Btrunc (of_Z64 n))) u) in
  (B2R u < 1 -> (0 <= i < n)%Z) /\ (B2R u = 1 -> i = n).
Proof.
  intros Hn Fu Bu. cbv zeta. rewrite (Btrunc_val (of_Z64 n)).
  destruct (of_Z64_exact n ltac:(lia)) as [En Fn]. rewrite En, Ztrunc_IZR.
  assert (1 <= IZR n) as Rn1 by (apply IZR_le; lia).
  assert (IZR n <= bpow radix2 70) as Rn2.
  { apply Rle_trans with (IZR (2 ^ 53)); [apply IZR_le; lia|]. rewrite IZR_pow by lia. apply bpow_le. lia. }
  destruct (mult_ok 53 1024 ltac:(lia) (of_Z64 n) u Fn Fu) as [Em Fm].
  { rewrite En. rewrite Rabs_pos_eq by nra. nra. }
  fold (mul64 (of_Z64 n) u) in Em, Fm. rewrite Btrunc_val, Em, En. clear Em Fm. split.
  - intros Lu.
    assert (B2R u <= 1 - bpow radix2 (-53)) as Lu'.
    { assert (generic_format radix2 (SpecFloat.fexp 53 1024) 1) as G1.
      { apply (generic_format_bpow radix2 _ 0). discriminate. }
      pose proof (pred_ge_gt radix2 (SpecFloat.fexp 53 1024) (B2R u) 1 (generic_format_B2R _ _ u) G1 Lu) as P.
      replace (pred radix2 (SpecFloat.fexp 53 1024) 1) with (1 - bpow radix2 (-53)) in P; [exact P|].
      change 1 with (bpow radix2 0) at 2. rewrite pred_bpow. reflexivity. }
    assert (0 <= rnd64 (IZR n * B2R u)) as P0.
    { apply Rle_trans with (rnd64 0); [rewrite rnd_0; lra|]. apply rnd64_le. apply Rmult_le_pos; lra. }
    set (h := bpow radix2 (-53)) in *.
    assert (0 < h <= /2) as Hh.
    { unfold h. split; [apply bpow_gt_0|]. apply (bpow_le radix2 (-53) (-1)). discriminate. }
    assert (rnd64 (IZR n * B2R u) < IZR n) as P1.
    { apply Rle_lt_trans with (rnd64 (IZR n * (1 - h))).
      { apply rnd64_le. apply Rmult_le_compat_l; lra. }
      assert (Rabs (rnd64 (IZR n * (1 - h)) - IZR n * (1 - h)) <= h * Rabs (IZR n * (1 - h))) as Er.
      { replace h with (/ 2 * bpow radix2 (- 53 + 1)) at 3.
        - apply (relative_error_N_FLT radix2 (3 - 1024 - 53) 53 ltac:(lia)).
          apply Rle_trans with (bpow radix2 (-1)); [apply bpow_le; lia|].
          change (bpow radix2 (-1)) with (/ 2). rewrite Rabs_pos_eq by nra. nra.
        - unfold h. change (bpow radix2 (-53)) with (bpow radix2 (-1 + (-53 + 1))).
          rewrite (bpow_plus radix2 (-1) (-53 + 1)). reflexivity. }
      rewrite (Rabs_pos_eq (IZR n * (1 - h))) in Er by nra.
      apply Rabs_le_inv in Er. nra. }
    rewrite Ztrunc_floor by exact P0. split.
    + apply Zfloor_lub. exact P0.
    + apply lt_IZR. apply Rle_lt_trans with (2 := P1). apply Zfloor_lb.
  - intros ->. rewrite Rmult_1_r. unfold rnd. rewrite round_generic; [|typeclasses eauto|apply int_format; lia].
    apply Ztrunc_IZR.
Qed.

(** ** Which words give u = 1 *)
Lemma u01_lt_32 (w : Z) : B2R (u01_64 (to64 (uneg11_32 w))) < 1 <-> (to_sint 32 w < 2 ^ 31 - 64)%Z.
Proof.
  destruct (uneg11_32_spec w) as (E & Fi & Bx). destruct (to64_ok _ Fi) as [E64 F64].
  assert (-1 <= B2R (to64 (uneg11_32 w)) <= 1) as B64 by (rewrite E64; exact Bx).
  destruct (u01_64_spec _ F64 B64) as (Eu & Fu & Bu). split.
  - intros L. destruct (Z_lt_le_dec (to_sint 32 w) (2 ^ 31 - 64)) as [H|H]; [exact H|exfalso].
    assert (u11R 24 128 32 (to_sint 32 (2 ^ 31 - 64)) <= u11R 24 128 32 (to_sint 32 w)) as M.
    { apply u11_mono; [typeclasses eauto..|]. exact H. }
    rewrite <- E in M. destruct (uneg11_32_spec (2 ^ 31 - 64)) as (E2 & _ & _).
    rewrite <- E2 in M. assert (B2R (uneg11_32 (2 ^ 31 - 64)) = 1) as E3 by (pow_val 23%Z; reflexivity).
    rewrite E3 in M. assert (B2R (uneg11_32 w) = 1) as E4 by lra.
    rewrite Eu, E64, E4 in L. unfold u01R in L. replace (1 + 1) with 2 in L by ring.
    rewrite rnd_2 in L by (typeclasses eauto || lia). replace (2 / 2) with 1 in L by lra.
    rewrite rnd_1 in L by (typeclasses eauto || lia). lra.
  - intros H. rewrite Eu, E64.
    destruct (uneg11_32_spec (2 ^ 31 - 65)) as (E2 & F2 & B2).
    destruct (to64_ok _ F2) as [E3 F3].
    assert (B2R (uneg11_32 w) <= B2R (uneg11_32 (2 ^ 31 - 65))) as M.
    { rewrite E, E2. apply u11_mono; [typeclasses eauto..|].
      change (to_sint 32 (2 ^ 31 - 65)) with (2 ^ 31 - 65)%Z. lia. }
    apply Rle_lt_trans with (u01R 53 1024 (B2R (uneg11_32 (2 ^ 31 - 65)))).
    { apply u01_mono; [typeclasses eauto..|]. exact M. }
    rewrite <- E3. destruct (u01_64_spec _ F3) as (E4 & _); [rewrite E3; exact B2|].
    rewrite <- E4. erewrite B2R_SF by (vm_compute; reflexivity). apply SF_lt_1; [lia|reflexivity].
Qed.

Lemma u01_lt_64 (w : Z) : B2R (u01_64 (uneg11_64 w)) < 1 <-> (to_sint 64 w < 2 ^ 63 - 1535)%Z.
Proof.
  destruct (uneg11_64_spec w) as (E & Fi & Bx).
  destruct (u01_64_spec _ Fi Bx) as (Eu & Fu & Bu). split.
  - intros L. destruct (Z_lt_le_dec (to_sint 64 w) (2 ^ 63 - 1535)) as [H|H]; [exact H|exfalso].
    destruct (uneg11_64_spec (2 ^ 63 - 1535)) as (E2 & F2 & B2).
    assert (B2R (uneg11_64 (2 ^ 63 - 1535)) <= B2R (uneg11_64 w)) as M.
    { rewrite E, E2. apply u11_mono; [typeclasses eauto..|]. exact H. }
    destruct (u01_64_spec _ F2 B2) as (E3 & _).
    assert (B2R (u01_64 (uneg11_64 (2 ^ 63 - 1535))) = 1) as E4 by (pow_val 52%Z; reflexivity).
    pose proof (u01_mono 53 1024 _ _ M) as M2. rewrite <- E3, E4, <- Eu in M2. lra.
  - intros H. rewrite Eu.
    destruct (uneg11_64_spec (2 ^ 63 - 1536)) as (E2 & F2 & B2).
    assert (B2R (uneg11_64 w) <= B2R (uneg11_64 (2 ^ 63 - 1536))) as M.
    { rewrite E, E2. apply u11_mono; [typeclasses eauto..|].
      change (to_sint 64 (2 ^ 63 - 1536)) with (2 ^ 63 - 1536)%Z. lia. }
    apply Rle_lt_trans with (u01R 53 1024 (B2R (uneg11_64 (2 ^ 63 - 1536)))).
    { apply u01_mono; [typeclasses eauto..|]. exact M. }
    destruct (u01_64_spec _ F2 B2) as (E4 & _).
    rewrite <- E4. erewrite B2R_SF by (vm_compute; reflexivity). apply SF_lt_1; [lia|reflexivity].
Qed.

Close Scope R_scope.
(** The uniform index drawn from a word is in range iff the word is not among the largest. *)
Lemma uniform_index_32_spec n w : (1 <= n <= 2 ^ 53)%Z ->
  (0 <= uniform_index_32 n (uneg11_32 w) <= n)%Z /\
  ((uniform_index_32 n (uneg11_32 w) < n)%Z <-> (to_sint 32 w < 2 ^ 31 - 64)%Z).
Proof.
  intros Hn. rewrite <- u01_lt_32.
  destruct (uneg11_32_spec w) as (E & Fi & Bx). destruct (to64_ok _ Fi) as [E64 F64].
  assert (-1 <= B2R (to64 (uneg11_32 w)) <= 1)%R as B64 by (rewrite E64; exact Bx).
  destruct (u01_64_spec _ F64 B64) as (Eu & Fu & Bu).
  destruct (index_spec n _ Hn Fu Bu) as [I1 I2].
  change (Btrunc _) with (uniform_index_32 n (uneg11_32 w)) in I1, I2.
  destruct (Rlt_le_dec (B2R (u01_64 (to64 (uneg11_32 w)))) 1) as [L|L].
  - specialize (I1 L). split; [lia|]. tauto.
  - rewrite I2 by lra. split; [lia|]. split; [lia|lra].
Qed.

Lemma uniform_index_64_spec n w : (1 <= n <= 2 ^ 53)%Z ->
  (0 <= uniform_index n (uneg11_64 w) <= n)%Z /\
  ((uniform_index n (uneg11_64 w) < n)%Z <-> (to_sint 64 w < 2 ^ 63 - 1535)%Z).
Proof.
  intros Hn. rewrite <- u01_lt_64.
  destruct (uneg11_64_spec w) as (E & Fi & Bx).
  destruct (u01_64_spec _ Fi Bx) as (Eu & Fu & Bu).
  destruct (index_spec n _ Hn Fu Bu) as [I1 I2].
  change (Btrunc _) with (uniform_index n (uneg11_64 w)) in I1, I2.
  destruct (Rlt_le_dec (B2R (u01_64 (uneg11_64 w))) 1) as [L|L].
  - specialize (I1 L). split; [lia|]. tauto.
  - rewrite I2 by lra. split; [lia|]. split; [lia|lra].
Qed.
