(** weights_to_cdf in floating-point arithmetic. *)
From Coq Require Import ZArith Reals Lra Psatz.
From Flocq Require Import Core Relative BinarySingleNaN.
From Verif Require Import Base SparseSkopModel FloatModel FloatProofs FloatProofs2 CdfProofs.

Open Scope R_scope.

Section CdfF.
  Variables p e : Z.
  Context {Hp : Prec_gt_0 p} {He : Prec_lt_emax p e}.
  Hypothesis Hbig : (70 < e)%Z.
  Notation F := (binary_float p e).
  Notation rd_ := (rnd p e).
  #[local] Instance vexp' : Valid_exp (SpecFloat.fexp p e) := fexp_correct p e _.

  Lemma rnd_B2R (x : F) : rd_ (B2R x) = B2R x.
  Proof. apply round_generic; [typeclasses eauto|apply generic_format_B2R]. Qed.

  Lemma not_overflow (x : F) s : B2SF x = binary_overflow p e mode_NE s -> is_finite x = false.
  Proof. clear. unfold binary_overflow; cbn. now destruct x. Qed.

  (** An addition whose result is finite did not overflow. *)
  Lemma plus_fin (x y : F) : is_finite x = true -> is_finite y = true ->
    is_finite (Bplus mode_NE x y) = true -> B2R (Bplus mode_NE x y) = rd_ (B2R x + B2R y).
  Proof.
    intros Fx Fy Fr. pose proof (Bplus_correct p e _ _ mode_NE x y Fx Fy) as C.
    destruct (Rlt_bool _ _); [tauto|]. destruct C as [C _]. apply not_overflow in C. congruence.
  Qed.

  Lemma plus_fin_l (x y : F) : is_finite (Bplus mode_NE x y) = true -> is_finite x = true /\ is_finite y = true.
  Proof. clear. destruct x as [|[]| |], y as [|[]| |]; cbn; auto. Qed.

  Notation ps := (psum (Bplus mode_NE) Bleb).

  Variables zero one : F.
  Hypothesis Hzero : B2R zero = 0 /\ is_finite zero = true.
  Hypothesis Hone : B2R one = 1 /\ is_finite one = true.

  Lemma clip_nonneg (x : F) : is_finite x = true ->
    is_finite (fmax Bleb x zero) = true /\ B2R (fmax Bleb x zero) = Rmax 0 (B2R x).
  Proof.
    intros Fx. unfold fmax. destruct Hzero as [E0 F0]. rewrite Bleb_correct, E0 by assumption.
    destruct (Rle_bool_spec 0 (B2R x)).
    - split; [exact Fx|]. now rewrite Rmax_right.
    - split; [exact F0|]. rewrite E0, Rmax_left; lra.
  Qed.

  Definition all_finite (w : list F) (n : Z) : Prop :=
    forall i x, (0 <= i < n)%Z -> get w i = Some x -> is_finite x = true.

  (** If the last running sum is finite, all are, and they are nondecreasing. *)
  Lemma psum_mono w n : (0 <= n <= zlen w)%Z -> all_finite w n -> is_finite (ps zero w n) = true ->
    (forall i, (0 <= i <= n)%Z -> is_finite (ps zero w i) = true /\ 0 <= B2R (ps zero w i)) /\
    (forall i j, (0 <= i <= j)%Z -> (j <= n)%Z -> B2R (ps zero w i) <= B2R (ps zero w j)).
  Proof.
    intros Hn Hf Hs.
    assert (forall q, (Z.of_nat q <= n)%Z -> is_finite (ps zero w (n - Z.of_nat q)) = true) as D.
    { induction q as [|q IH]; intros Hq.
      - now replace (n - Z.of_nat 0)%Z with n by lia.
      - specialize (IH ltac:(lia)).
        destruct (get_lt w (n - Z.of_nat (S q))) as [x G]; [lia|].
        replace (n - Z.of_nat q)%Z with (n - Z.of_nat (S q) + 1)%Z in IH by lia.
        rewrite (psum_succ _ _ _ w (n - Z.of_nat (S q)) x ltac:(lia) G) in IH. apply plus_fin_l in IH. tauto. }
    assert (forall i, (0 <= i <= n)%Z -> is_finite (ps zero w i) = true) as Fi.
    { intros i Hi. specialize (D (Z.to_nat (n - i)) ltac:(lia)).
      now replace (n - Z.of_nat (Z.to_nat (n - i)))%Z with i in D by lia. }
    assert (forall i, (0 <= i < n)%Z -> B2R (ps zero w i) <= B2R (ps zero w (i + 1))) as St.
    { intros i Hi. destruct (get_lt w i) as [x G]; [lia|].
      pose proof (Fi (i + 1)%Z ltac:(lia)) as Fr.
      rewrite (psum_succ _ _ _ w i x ltac:(lia) G) in Fr |- *.
      destruct (clip_nonneg x (Hf i x ltac:(lia) G)) as [Fc Ec].
      rewrite plus_fin by (assumption || apply Fi; lia).
      rewrite <- (rnd_B2R (ps zero w i)) at 1. apply rnd_le; [exact Hp|]. rewrite Ec.
      pose proof (Rmax_l 0 (B2R x)). lra. }
    assert (forall q i, (0 <= i)%Z -> (i + Z.of_nat q <= n)%Z ->
      B2R (ps zero w i) <= B2R (ps zero w (i + Z.of_nat q))) as M.
    { induction q as [|q IH]; intros i H0 H1.
      - replace (i + Z.of_nat 0)%Z with i by lia. lra.
      - eapply Rle_trans; [apply (IH i); lia|].
        replace (i + Z.of_nat (S q))%Z with (i + Z.of_nat q + 1)%Z by lia. apply St. lia. }
    split.
    - intros i Hi. split; [now apply Fi|].
      specialize (M (Z.to_nat i) 0%Z ltac:(lia) ltac:(lia)).
      replace (0 + Z.of_nat (Z.to_nat i))%Z with i in M by lia.
      rewrite psum_0 in M. destruct Hzero as [E0 _]. lra.
    - intros i j Hij Hj. specialize (M (Z.to_nat (j - i)) i ltac:(lia) ltac:(lia)).
      now replace (i + Z.of_nat (Z.to_nat (j - i)))%Z with j in M by lia.
  Qed.

  Hypothesis Hp2 : (2 <= p)%Z.

  Lemma fmt_bpow k : (3 - e - p <= k)%Z -> rd_ (bpow radix2 k) = bpow radix2 k.
  Proof using Hp2 Hp.
    clear - Hp2 Hp. intros H. apply round_generic; [typeclasses eauto|]. apply generic_format_bpow.
    unfold SpecFloat.fexp, SpecFloat.emin. lia.
  Qed.

  (** Normalisation by a finite sum S >= 2^(1-p). *)
  Lemma recip_spec (S : F) : is_finite S = true -> bpow radix2 (1 - p) <= B2R S ->
    let al := Bdiv mode_NE one S in
    is_finite al = true /\ B2R al = rd_ (1 / B2R S) /\ 0 <= B2R al /\ B2R al * B2R S <= 2.
  Proof.
    intros FS LS. cbv zeta. destruct Hone as [E1 F1].
    pose proof (bpow_gt_0 radix2 (1 - p)) as P.
    assert (0 < B2R S) as PS by lra.
    set (k := mag_val _ _ (mag radix2 (B2R S))).
    pose proof (bpow_mag_le radix2 (B2R S) ltac:(lra)) as K1. fold k in K1.
    pose proof (bpow_mag_gt radix2 (B2R S)) as K2. fold k in K2.
    assert (k <= e)%Z as Ke.
    { apply mag_le_bpow; [lra|]. apply abs_B2R_lt_emax. }
    assert (1 - p <= k - 1)%Z as Kp.
    { assert (1 - p < k)%Z; [|lia]. apply mag_gt_bpow. rewrite Rabs_pos_eq by lra. exact LS. }
    clearbody k. rewrite Rabs_pos_eq in K1, K2 by lra.
    assert (1 / B2R S <= bpow radix2 (1 - k)) as U.
    { replace (1 - k)%Z with (- (k - 1))%Z by ring. rewrite bpow_opp. unfold Rdiv. rewrite Rmult_1_l.
      apply Rinv_le; [apply bpow_gt_0|exact K1]. }
    assert (0 < 1 / B2R S) as PI by (apply Rdiv_lt_0_compat; lra).
    assert (rd_ (1 / B2R S) <= bpow radix2 (1 - k)) as RU.
    { rewrite <- (fmt_bpow (1 - k)) by lia. apply rnd_le; [exact Hp|exact U]. }
    assert (0 <= rd_ (1 / B2R S)) as R0.
    { apply Rle_trans with (rd_ 0); [rewrite rnd_0; lra|]. apply rnd_le; [exact Hp|lra]. }
    pose proof (Bdiv_correct p e _ _ mode_NE one S ltac:(lra)) as C.
    change (round_mode mode_NE) with ZnearestE in C. rewrite E1 in C.
    fold (rd_ (1 / B2R S)) in C. rewrite Rlt_bool_true in C.
    - destruct C as (C1 & C2 & _). rewrite F1 in C2. split; [exact C2|]. split; [exact C1|].
      rewrite C1. split; [exact R0|].
      apply Rle_trans with (bpow radix2 (1 - k) * bpow radix2 k).
      + apply Rmult_le_compat; lra.
      + rewrite <- bpow_plus. replace (1 - k + k)%Z with 1%Z by ring. change (bpow radix2 1) with 2. lra.
    - rewrite Rabs_pos_eq by exact R0. apply Rle_lt_trans with (1 := RU). apply bpow_lt. red in He. lia.
  Qed.

  (** All normalised running sums. *)
  Lemma scaled_spec w n : (1 <= n <= zlen w)%Z -> all_finite w n -> is_finite (ps zero w n) = true ->
    bpow radix2 (1 - p) <= B2R (ps zero w n) ->
    let c i := Bmult mode_NE (Bdiv mode_NE one (ps zero w n)) (ps zero w (i + 1)) in
    (forall i, (0 <= i < n)%Z -> is_finite (c i) = true /\ 0 <= B2R (c i) <= 2) /\
    (forall i j, (0 <= i <= j)%Z -> (j < n)%Z -> B2R (c i) <= B2R (c j)) /\
    (B2R (ps zero w n) <= bpow radix2 (e - 2) -> Rabs (B2R (c (n - 1)%Z) - 1) <= bpow radix2 (2 - p)).
  Proof.
    intros Hn Hf Fs Ls. cbv zeta. set (S := ps zero w n) in *.
    destruct (recip_spec S Fs Ls) as (Fa & Ea & A0 & A2). set (al := Bdiv mode_NE one S) in *.
    destruct (psum_mono w n ltac:(lia) Hf Fs) as [N M].
    assert (2 <= bpow radix2 70) as O71 by (now apply (bpow_le radix2 1 70)).
    assert (forall i, (0 <= i < n)%Z ->
      0 <= B2R al * B2R (ps zero w (i + 1)) <= 2) as Bd.
    { intros i Hi. destruct (N (i + 1)%Z ltac:(lia)) as [_ N0].
      pose proof (M (i + 1)%Z n ltac:(lia) ltac:(lia)) as Mi. fold S in Mi.
      split; [now apply Rmult_le_pos|]. apply Rle_trans with (2 := A2). now apply Rmult_le_compat_l. }
    assert (forall i, (0 <= i < n)%Z -> let c := Bmult mode_NE al (ps zero w (i + 1)) in
      is_finite c = true /\ B2R c = rd_ (B2R al * B2R (ps zero w (i + 1)))) as Ec.
    { intros i Hi. cbv zeta. destruct (N (i + 1)%Z ltac:(lia)) as [Fi _].
      destruct (mult_ok p e Hbig al (ps zero w (i + 1)) Fa Fi) as [E1 E2].
      - specialize (Bd i Hi). rewrite Rabs_pos_eq by lra. lra.
      - auto. }
    split; [|split].
    - intros i Hi. destruct (Ec i Hi) as [E1 E2]. split; [exact E1|]. rewrite E2. specialize (Bd i Hi). split.
      + apply Rle_trans with (rd_ 0); [rewrite rnd_0; lra|]. apply rnd_le; [exact Hp|lra].
      + apply Rle_trans with (rd_ 2); [apply rnd_le; [exact Hp|lra]|]. rewrite rnd_2 by assumption. lra.
    - intros i j Hij Hj. destruct (Ec i ltac:(lia)) as [_ ->]. destruct (Ec j ltac:(lia)) as [_ ->].
      apply rnd_le; [exact Hp|]. apply Rmult_le_compat_l; [exact A0|]. apply M; lia.
    - intros Hb. destruct (Ec (n - 1)%Z ltac:(lia)) as [_ ->]. replace (n - 1 + 1)%Z with n by ring. fold S.
      pose proof (bpow_gt_0 radix2 (1 - p)) as P. assert (0 < B2R S) as PS by lra.
      set (h := bpow radix2 (- p)).
      assert (0 < h <= / 4) as Hh.
      { unfold h. split; [apply bpow_gt_0|]. apply (bpow_le radix2 (- p) (-2)). lia. }
      assert (/ 2 * bpow radix2 (- p + 1) = h) as Eh.
      { unfold h. rewrite bpow_plus. change (bpow radix2 1) with 2. lra. }
      assert (bpow radix2 (2 - p) = 4 * h) as ->.
      { unfold h, Zminus. rewrite bpow_plus. reflexivity. }
      assert (bpow radix2 (3 - e - p + p - 1) <= 1 / B2R S) as L1.
      { replace (3 - e - p + p - 1)%Z with (- (e - 2))%Z by ring. rewrite bpow_opp. unfold Rdiv. rewrite Rmult_1_l.
        apply Rinv_le; [exact PS|exact Hb]. }
      assert (0 < 1 / B2R S) as PI by (apply Rdiv_lt_0_compat; lra).
      destruct (relative_error_N_FLT_ex radix2 (3 - e - p) p ltac:(red in Hp; lia) (fun x => negb (Z.even x)) (1 / B2R S)) as [d1 [D1 X1]].
      { rewrite Rabs_pos_eq by lra. exact L1. }
      rewrite Eh in D1. apply Rabs_le_inv in D1.
      change (rd_ (1 / B2R S) = 1 / B2R S * (1 + d1)) in X1. rewrite X1 in Ea.
      assert (B2R al * B2R S = 1 + d1) as Eal by (rewrite Ea; field; lra).
      destruct (relative_error_N_FLT_ex radix2 (3 - e - p) p ltac:(red in Hp; lia) (fun x => negb (Z.even x)) (B2R al * B2R S)) as [d2 [D2 X2]].
      { rewrite Eal, Rabs_pos_eq by lra. apply Rle_trans with (bpow radix2 (-1)); [apply bpow_le; lia|].
        change (bpow radix2 (-1)) with (/ 2). lra. }
      rewrite Eh in D2. apply Rabs_le_inv in D2.
      change (rd_ (B2R al * B2R S) = B2R al * B2R S * (1 + d2)) in X2. rewrite X2, Eal.
      apply Rabs_le. nra.
  Qed.
End CdfF.
Close Scope R_scope.

Open Scope R_scope.
Lemma to32_ok (x : b64) : is_finite x = true -> Rabs (B2R x) <= bpow radix2 70 ->
  B2R (to32 x) = rnd 24 128 (B2R x) /\ is_finite (to32 x) = true.
Proof.
  intros Fx L. destruct x as [s|s| |s m e Hb]; try discriminate.
  - split; [|reflexivity]. cbn [to32 B2R]. now rewrite rnd_0.
  - set (x := B754_finite s m e Hb : b64) in *.
    unfold to32, x. pose proof (binary_normalize_correct 24 128 _ _ mode_NE (cond_Zopp s (Zpos m)) e s) as C.
    cbv zeta in C. change (F2R _) with (B2R x) in C. change (round_mode mode_NE) with ZnearestE in C.
    fold (rnd 24 128 (B2R x)) in C. rewrite (no_overflow 24 128 ltac:(lia) _ L) in C. tauto.
Qed.

Lemma sqrt_n_ok n : (1 <= n <= 2 ^ 53)%Z ->
  1 <= B2R (Bsqrt mode_NE (of_Z64 n)) <= bpow radix2 53 /\ is_finite (Bsqrt mode_NE (of_Z64 n)) = true.
Proof.
  intros Hn. destruct (of_Z64_exact n ltac:(lia)) as [En Fn].
  assert (1 <= IZR n) as R1 by (apply IZR_le; lia).
  assert (IZR n <= bpow radix2 53) as R2.
  { rewrite <- IZR_pow by lia. apply IZR_le. lia. }
  destruct (Bsqrt_correct 53 1024 _ _ mode_NE (of_Z64 n)) as (C1 & C2 & _).
  rewrite En in C1. change (round_mode mode_NE) with ZnearestE in C1. fold (rnd64 (sqrt (IZR n))) in C1.
  rewrite C1. assert (1 <= sqrt (IZR n) <= bpow radix2 53) as B.
  { split.
    - rewrite <- sqrt_1. now apply sqrt_le_1_alt.
    - apply Rle_trans with (IZR n); [|exact R2]. rewrite <- (Rmult_1_r (sqrt (IZR n))).
      rewrite <- (sqrt_sqrt (IZR n)) at 2 by lra. apply Rmult_le_compat_l; [apply sqrt_pos|].
      rewrite <- sqrt_1. now apply sqrt_le_1_alt. }
  split.
  - split.
    + apply Rle_trans with (rnd64 1); [rewrite rnd_1 by (exact prec64 || exact emax64 || lia); lra|]. apply rnd64_le. lra.
    + apply Rle_trans with (rnd64 (bpow radix2 53)); [apply rnd64_le; lra|].
      rewrite rnd_bpow by (exact prec64 || exact emax64 || lia). lra.
  - rewrite C2. destruct (of_Z64 n) as [s|s| |s m e Hb] eqn:E; try discriminate; [reflexivity|].
    destruct s; [|reflexivity].
    exfalso. assert (B2R (B754_finite true m e Hb : b64) <= 0); [|lra].
    cbn [B2R]. apply F2R_le_0. cbn. lia.
Qed.

Lemma eps64_ok : B2R eps64 = bpow radix2 (1 - 53) /\ is_finite eps64 = true.
Proof. split; [pow_val 52%Z; reflexivity|vm_compute; reflexivity]. Qed.
Lemma eps32_ok : B2R eps32 = bpow radix2 (1 - 24) /\ is_finite eps32 = true.
Proof. split; [pow_val 23%Z; reflexivity|vm_compute; reflexivity]. Qed.

Lemma thr64_ok n : (1 <= n <= 2 ^ 53)%Z -> is_finite (thr64 n) = true /\ bpow radix2 (1 - 53) <= B2R (thr64 n).
Proof.
  intros Hn. destruct (sqrt_n_ok n Hn) as [Bs Fs]. destruct eps64_ok as [Ee Fe].
  pose proof (bpow_gt_0 radix2 (1 - 53)) as P.
  assert (bpow radix2 (1 - 53) <= 1) as P1 by (apply (bpow_le radix2 (1 - 53) 0); lia).
  assert (bpow radix2 53 <= bpow radix2 70) as P2 by (apply bpow_le; lia).
  destruct (mult_ok 53 1024 ltac:(lia) _ eps64 Fs Fe) as [E Fi].
  { rewrite Ee, Rabs_pos_eq by nra. nra. }
  fold (mul64 (Bsqrt mode_NE (of_Z64 n)) eps64) in E, Fi. fold (thr64 n) in E, Fi. split; [exact Fi|].
  rewrite E, Ee. rewrite <- (fmt_bpow 53 1024 ltac:(lia) (1 - 53)) at 1 by lia. apply rnd64_le. nra.
Qed.

Lemma thr32_ok n : (1 <= n <= 2 ^ 53)%Z -> is_finite (thr32 n) = true /\ bpow radix2 (1 - 24) <= B2R (thr32 n).
Proof.
  intros Hn. destruct (sqrt_n_ok n Hn) as [Bs Fs]. destruct eps32_ok as [Ee Fe].
  pose proof (bpow_gt_0 radix2 (1 - 24)) as P.
  assert (bpow radix2 (1 - 24) <= 1) as P1 by (apply (bpow_le radix2 (1 - 24) 0); lia).
  assert (bpow radix2 53 <= bpow radix2 70) as P2 by (apply bpow_le; lia).
  destruct (to32_ok _ Fs) as [Ec Fc]; [rewrite Rabs_pos_eq by lra; lra|].
  assert (1 <= B2R (to32 (Bsqrt mode_NE (of_Z64 n))) <= bpow radix2 53) as Bc.
  { rewrite Ec. split.
    - apply Rle_trans with (rnd 24 128 1); [rewrite rnd_1 by (exact prec32 || exact emax32 || lia); lra|].
      apply rnd_le; [exact prec32|lra].
    - apply Rle_trans with (rnd 24 128 (bpow radix2 53)); [apply rnd_le; [exact prec32|lra]|].
      rewrite rnd_bpow by (exact prec32 || exact emax32 || lia). lra. }
  destruct (mult_ok 24 128 ltac:(lia) _ eps32 Fc Fe) as [E Fi].
  { rewrite Ee, Rabs_pos_eq by nra. nra. }
  fold (mul32 (to32 (Bsqrt mode_NE (of_Z64 n))) eps32) in E, Fi. fold (thr32 n) in E, Fi. split; [exact Fi|].
  rewrite E, Ee. rewrite <- (fmt_bpow 24 128 ltac:(lia) (1 - 24)) at 1 by lia. apply rnd_le; [exact prec32|]. nra.
Qed.

Lemma zero32_ok : B2R (of_Z32 0) = 0 /\ is_finite (of_Z32 0) = true.
Proof. split; reflexivity. Qed.
Lemma zero64_ok : B2R (of_Z64 0) = 0 /\ is_finite (of_Z64 0) = true.
Proof. split; reflexivity. Qed.
Close Scope R_scope.

(** ** Searching a nondecreasing array of finite floats *)
Section Search.
  Context {p e : Z}.
  Definition sorted_finite (cdf : list (binary_float p e)) (n : Z) : Prop :=
    (forall i x, 0 <= i < n -> get cdf i = Some x -> is_finite x = true) /\
    (forall i j x y, 0 <= i <= j -> j < n -> get cdf i = Some x -> get cdf j = Some y -> (B2R x <= B2R y)%R).

  Lemma sorted_partitioned cdf n v : sorted_finite cdf n -> partitioned Bltb cdf n v.
  Proof.
    intros [Hf Hs] i j x y Hij Hj Gi Gj L.
    pose proof (Hf i x ltac:(lia) Gi) as Fx. pose proof (Hf j y ltac:(lia) Gj) as Fy.
    pose proof (Hs i j x y Hij Hj Gi Gj) as Le.
    destruct (is_finite v) eqn:Fv.
    - rewrite Bltb_correct in * by assumption.
      destruct (Rlt_bool_spec (B2R y) (B2R v)); [|discriminate].
      apply Rlt_bool_true. lra.
    - destruct v as [|[]| |]; try discriminate; destruct x as [| | |[]], y as [| | |[]]; cbn in *; congruence.
  Qed.
End Search.
