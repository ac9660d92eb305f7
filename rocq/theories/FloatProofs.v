(** Range and monotonicity of the floating-point transformations of FloatModel.v. *)
From Coq Require Import ZArith Reals Lra Psatz.
From Flocq Require Import Core Relative BinarySingleNaN.
From Verif Require Import Base SparseSkopModel FloatModel.

Open Scope R_scope.

Section Fmt.
  Variables p e : Z.
  Context {Hp : Prec_gt_0 p} {He : Prec_lt_emax p e}.
  Hypothesis Hbig : (70 < e)%Z.

  Definition rnd (r : R) : R := round radix2 (SpecFloat.fexp p e) ZnearestE r.

  Lemma fexp_ok k : (0 <= k)%Z -> (SpecFloat.fexp p e (k + 1) <= k)%Z.
  Proof using Hbig Hp He.
    intros Hk. unfold SpecFloat.fexp, SpecFloat.emin. red in Hp, He. lia.
  Qed.

  #[local] Instance vexp : Valid_exp (SpecFloat.fexp p e) := fexp_correct p e _.

  Lemma rnd_le x y : x <= y -> rnd x <= rnd y.
  Proof. intros H. apply round_le; [typeclasses eauto..|exact H]. Qed.

  Lemma rnd_bpow k : (0 <= k)%Z -> rnd (bpow radix2 k) = bpow radix2 k.
  Proof using Hbig Hp He. intros Hk. apply round_generic; [typeclasses eauto|]. apply generic_format_bpow. now apply fexp_ok. Qed.

  Lemma rnd_opp x : rnd (- x) = - rnd x.
  Proof. apply round_NE_opp. Qed.

  Lemma rnd_0 : rnd 0 = 0.
  Proof. apply round_0. typeclasses eauto. Qed.

  Lemma rnd_1 : rnd 1 = 1.
  Proof using Hbig Hp He. apply (rnd_bpow 0). lia. Qed.
  Lemma rnd_2 : rnd 2 = 2.
  Proof using Hbig Hp He. apply (rnd_bpow 1). lia. Qed.

  Lemma rnd_abs k x : (0 <= k)%Z -> Rabs x <= bpow radix2 k -> Rabs (rnd x) <= bpow radix2 k.
  Proof using Hbig Hp He.
    intros Hk H. apply abs_round_le_generic; [typeclasses eauto..| |exact H].
    apply generic_format_bpow. now apply fexp_ok.
  Qed.

  Lemma no_overflow x : Rabs x <= bpow radix2 70 -> Rlt_bool (Rabs (rnd x)) (bpow radix2 e) = true.
  Proof using Hbig Hp He.
    intros H. apply Rlt_bool_true. apply Rle_lt_trans with (bpow radix2 70).
    - apply rnd_abs; [lia|exact H].
    - apply bpow_lt. lia.
  Qed.

  Lemma plus_ok (x y : binary_float p e) : is_finite x = true -> is_finite y = true ->
    Rabs (B2R x + B2R y) <= bpow radix2 70 ->
    B2R (Bplus mode_NE x y) = rnd (B2R x + B2R y) /\ is_finite (Bplus mode_NE x y) = true.
  Proof using Hbig.
    intros Fx Fy H. pose proof (Bplus_correct p e _ _ mode_NE x y Fx Fy) as C.
    change (round_mode mode_NE) with ZnearestE in C. fold (rnd (B2R x + B2R y)) in C.
    rewrite (no_overflow _ H) in C. tauto.
  Qed.

  Lemma mult_ok (x y : binary_float p e) : is_finite x = true -> is_finite y = true ->
    Rabs (B2R x * B2R y) <= bpow radix2 70 ->
    B2R (Bmult mode_NE x y) = rnd (B2R x * B2R y) /\ is_finite (Bmult mode_NE x y) = true.
  Proof using Hbig.
    intros Fx Fy H. pose proof (Bmult_correct p e _ _ mode_NE x y) as C.
    change (round_mode mode_NE) with ZnearestE in C. fold (rnd (B2R x * B2R y)) in C.
    rewrite (no_overflow _ H), Fx, Fy in C. tauto.
  Qed.

  Lemma div_ok (x y : binary_float p e) : is_finite x = true -> B2R y <> 0 ->
    Rabs (B2R x / B2R y) <= bpow radix2 70 ->
    B2R (Bdiv mode_NE x y) = rnd (B2R x / B2R y) /\ is_finite (Bdiv mode_NE x y) = true.
  Proof using Hbig.
    intros Fx Fy H. pose proof (Bdiv_correct p e _ _ mode_NE x y Fy) as C.
    change (round_mode mode_NE) with ZnearestE in C. fold (rnd (B2R x / B2R y)) in C.
    rewrite (no_overflow _ H), Fx in C. tauto.
  Qed.

  Lemma of_Z_ok z : Rabs (IZR z) <= bpow radix2 70 ->
    B2R (binary_normalize p e _ _ mode_NE z 0 false) = rnd (IZR z) /\
    is_finite (binary_normalize p e _ _ mode_NE z 0 false) = true.
  Proof using Hbig.
    intros H. pose proof (binary_normalize_correct p e _ _ mode_NE z 0 false) as C. cbv zeta in C.
    change (round_mode mode_NE) with ZnearestE in C.
    assert (F2R (Float radix2 z 0) = IZR z) as E by (unfold F2R; cbn; ring).
    rewrite E in C. fold (rnd (IZR z)) in C. rewrite (no_overflow _ H) in C. tauto.
  Qed.

  (** ** The map s |-> s * factor + halffactor on signed words *)
  Variable W : Z.
  Hypothesis HW : (p < W <= 64)%Z.
  Variables fac hfac : binary_float p e.
  Hypothesis Hfac : B2R fac = bpow radix2 (1 - W) /\ is_finite fac = true.
  Hypothesis Hhfac : B2R hfac = bpow radix2 (- W) /\ is_finite hfac = true.

  Definition u11 (s : Z) : binary_float p e :=
    Bplus mode_NE (Bmult mode_NE (binary_normalize p e _ _ mode_NE s 0 false) fac) hfac.

  Definition inw (s : Z) : Prop := (- 2 ^ (W - 1) <= s < 2 ^ (W - 1))%Z.

  Lemma IZR_pow k : (0 <= k)%Z -> IZR (2 ^ k) = bpow radix2 k.
  Proof using. clear. intros H. rewrite bpow_powerRZ. change 2%Z with (radix_val radix2) at 1. rewrite (IZR_Zpower radix2) by exact H. now rewrite bpow_powerRZ. Qed.

  Lemma inw_R s : inw s -> - bpow radix2 (W - 1) <= IZR s <= bpow radix2 (W - 1).
  Proof using HW Hp.
    clear - HW Hp. intros [H1 H2]. red in Hp. rewrite <- IZR_pow by lia. rewrite <- opp_IZR. split; apply IZR_le; lia.
  Qed.

  Definition u11R (s : Z) : R := rnd (rnd (rnd (IZR s) * bpow radix2 (1 - W)) + bpow radix2 (- W)).

  Lemma rnd_1_plus : rnd (1 + bpow radix2 (- W)) = 1.
  Proof using HW Hbig Hp He.
    clear - HW Hbig Hp He.
    apply Rle_antisym.
    - unfold rnd. apply round_N_le_midp; [typeclasses eauto| |].
      + apply (generic_format_bpow radix2 _ 0). now apply fexp_ok.
      + rewrite succ_eq_pos by lra. change 1 with (bpow radix2 0) at 4. rewrite ulp_bpow.
        assert (SpecFloat.fexp p e (0 + 1) = (1 - p)%Z) as ->.
        { unfold SpecFloat.fexp, SpecFloat.emin. red in Hp, He. lia. }
        assert (bpow radix2 (- W) < bpow radix2 (- p)) by (apply bpow_lt; lia).
        assert (bpow radix2 (1 - p) = 2 * bpow radix2 (- p)) as ->.
        { unfold Zminus. rewrite bpow_plus. reflexivity. }
        lra.
    - rewrite <- rnd_1 at 1. apply rnd_le. pose proof (bpow_ge_0 radix2 (- W)). lra.
  Qed.

  Lemma bpow_le_1 k : (k <= 0)%Z -> bpow radix2 k <= 1.
  Proof using. clear. intros H. now apply (bpow_le radix2 k 0). Qed.

  Lemma u11_spec s : inw s -> B2R (u11 s) = u11R s /\ is_finite (u11 s) = true /\ -1 <= u11R s <= 1.
  Proof using All.
    intros Hs. pose proof (inw_R s Hs) as Rs. red in Hp.
    assert (Rabs (IZR s) <= bpow radix2 (W - 1)) as A1 by (apply Rabs_le; lra).
    assert (bpow radix2 (W - 1) <= bpow radix2 70) as A2 by (apply bpow_le; lia).
    destruct (of_Z_ok s ltac:(lra)) as [E1 F1].
    assert (- bpow radix2 (W - 1) <= rnd (IZR s) <= bpow radix2 (W - 1)) as B1.
    { apply Rabs_le_inv. apply rnd_abs; [lia|exact A1]. }
    assert (bpow radix2 (W - 1) * bpow radix2 (1 - W) = 1) as U.
    { rewrite <- bpow_plus. replace (W - 1 + (1 - W))%Z with 0%Z by ring. reflexivity. }
    pose proof (bpow_gt_0 radix2 (1 - W)) as Pf.
    assert (-1 <= rnd (IZR s) * bpow radix2 (1 - W) <= 1) as B2 by (split; nra).
    assert (1 <= bpow radix2 70) as O70 by (now apply (bpow_le radix2 0 70)).
    destruct Hfac as [Ef Ff], Hhfac as [Eh Fh].
    destruct (mult_ok _ fac F1 Ff) as [E2 F2].
    { rewrite E1, Ef. apply Rabs_le. lra. }
    rewrite E1, Ef in E2.
    assert (-1 <= rnd (rnd (IZR s) * bpow radix2 (1 - W)) <= 1) as B3.
    { apply Rabs_le_inv. apply (rnd_abs 0); [lia|]. apply Rabs_le. exact B2. }
    pose proof (bpow_ge_0 radix2 (- W)) as Ph. pose proof (bpow_le_1 (- W) ltac:(lia)) as Ph1.
    assert (2 <= bpow radix2 70) as O71 by (now apply (bpow_le radix2 1 70)).
    destruct (plus_ok _ hfac F2 Fh) as [E3 F3].
    { rewrite E2, Eh. apply Rabs_le. lra. }
    rewrite E2, Eh in E3. unfold u11. split; [exact E3|]. split; [exact F3|]. unfold u11R. split.
    - apply Rle_trans with (rnd (- (1))); [rewrite rnd_opp, rnd_1; lra|]. apply rnd_le. lra.
    - apply Rle_trans with (rnd (1 + bpow radix2 (- W))); [apply rnd_le; lra|]. rewrite rnd_1_plus. lra.
  Qed.

  Lemma u11_mono s t : (s <= t)%Z -> u11R s <= u11R t.
  Proof using Hp He.
    clear - Hp He.
    intros H. unfold u11R. apply rnd_le. apply Rplus_le_compat_r. apply rnd_le.
    apply Rmult_le_compat_r; [apply bpow_ge_0|]. apply rnd_le. now apply IZR_le.
  Qed.
  Lemma rnd_err x : Rabs x <= bpow radix2 64 ->
    Rabs (rnd x - x) <= bpow radix2 (- p) * Rabs x + / 8 * bpow radix2 (- p).
  Proof using Hp Hbig.
    clear - Hp Hbig. intros Hx.
    destruct (error_N_FLT radix2 (3 - e - p) p Hp (fun x => negb (Z.even x)) x) as (d & t & D & T & _ & E).
    change (rnd x = x * (1 + d) + t) in E. rewrite E.
    replace (/ 2 * bpow radix2 (- p + 1)) with (bpow radix2 (- p)) in D.
    2: { rewrite bpow_plus. change (bpow radix2 1) with 2. lra. }
    assert (/ 2 * bpow radix2 (3 - e - p) <= / 8 * bpow radix2 (- p)) as T2.
    { assert (bpow radix2 (3 - e - p) <= bpow radix2 (-2 + - p)) as M by (apply bpow_le; lia).
      rewrite bpow_plus in M. change (bpow radix2 (-2)) with (/ 4) in M. lra. }
    replace (x * (1 + d) + t - x) with (d * x + t) by ring.
    eapply Rle_trans; [apply Rabs_triang|]. rewrite Rabs_mult.
    apply Rplus_le_compat; [|lra]. apply Rmult_le_compat_r; [apply Rabs_pos|exact D].
  Qed.

  (** The result is within 2^(2-p) of (2s+1)/2^W. *)
  Lemma u11_acc s : inw s -> Rabs (u11R s - IZR (2 * s + 1) * bpow radix2 (- W)) <= bpow radix2 (2 - p).
  Proof using HW Hbig Hp He.
    clear - HW Hbig Hp He. intros Hs. pose proof (inw_R s Hs) as Rs. pose proof Hp as Hp0. red in Hp0.
    set (h := bpow radix2 (- p)). set (f := bpow radix2 (1 - W)). set (g := bpow radix2 (- W)).
    set (M := bpow radix2 (W - 1)) in *.
    assert (f = 2 * g) as Ef by (unfold f, g, Zminus; rewrite bpow_plus; reflexivity).
    assert (M * f = 1) as EM.
    { unfold M, f. rewrite <- bpow_plus. replace (W - 1 + (1 - W))%Z with 0%Z by ring. reflexivity. }
    assert (bpow radix2 (2 - p) = 4 * h) as -> by (unfold h, Zminus; rewrite bpow_plus; reflexivity).
    rewrite plus_IZR, mult_IZR.
    replace ((2 * IZR s + 1) * g) with (IZR s * f + g) by (rewrite Ef; ring).
    assert (0 < h) as Ph by apply bpow_gt_0. assert (0 < f) as Pf by apply bpow_gt_0.
    assert (0 < g <= / 2) as Pg by (unfold g; split; [apply bpow_gt_0|apply (bpow_le radix2 (- W) (-1)); lia]).
    assert (h <= / 2) as Ph2 by (unfold h; apply (bpow_le radix2 (- p) (-1)); lia).
    assert (M <= bpow radix2 64) as PM by (unfold M; apply bpow_le; lia).
    assert (1 <= M) as PM1 by (unfold M; apply (bpow_le radix2 0 (W - 1)); lia).
    assert (2 <= bpow radix2 64) as P64 by (now apply (bpow_le radix2 1 64)).
    assert (Rabs (IZR s) <= M) as As by (apply Rabs_le; lra).
    pose proof (rnd_err (IZR s) ltac:(lra)) as E1. fold h in E1.
    assert (Rabs (rnd (IZR s)) <= M) as Aa by (apply rnd_abs; [lia|exact As]).
    assert (Rabs (rnd (IZR s) * f) <= 1) as Ab.
    { rewrite Rabs_mult, (Rabs_pos_eq f) by lra. nra. }
    pose proof (rnd_err (rnd (IZR s) * f) ltac:(lra)) as E2. fold h in E2.
    assert (Rabs (rnd (rnd (IZR s) * f)) <= 1) as Ac by (apply (rnd_abs 0); [lia|exact Ab]).
    assert (Rabs (rnd (rnd (IZR s) * f) + g) <= 3 / 2) as Ad.
    { eapply Rle_trans; [apply Rabs_triang|]. rewrite (Rabs_pos_eq g) by lra. lra. }
    pose proof (rnd_err (rnd (rnd (IZR s) * f) + g) ltac:(lra)) as E3. fold h in E3.
    unfold u11R. fold f g. set (a := rnd (IZR s)) in *. set (b := rnd (a * f)) in *. set (c := rnd (b + g)) in *.
    assert (Rabs (a - IZR s) <= h * M + / 8 * h) as F1 by nra.
    assert (Rabs (b - a * f) <= h + / 8 * h) as F2 by nra.
    assert (Rabs (c - (b + g)) <= 3 / 2 * h + / 8 * h) as F3 by nra.
    replace (c - (IZR s * f + g)) with ((c - (b + g)) + ((b - a * f) + (a - IZR s) * f)) by ring.
    assert (Rabs ((a - IZR s) * f) <= h + / 8 * h).
    { rewrite Rabs_mult, (Rabs_pos_eq f) by lra. nra. }
    eapply Rle_trans; [apply Rabs_triang|].
    pose proof (Rabs_triang (b - a * f) ((a - IZR s) * f)). lra.
  Qed.

  (** ** (x+1)/2 *)
  Variables one two : binary_float p e.
  Hypothesis Hone : B2R one = 1 /\ is_finite one = true.
  Hypothesis Htwo : B2R two = 2 /\ is_finite two = true.

  Definition u01R (x : R) : R := rnd (rnd (x + 1) / 2).

  Lemma u01_spec (x : binary_float p e) : is_finite x = true -> -1 <= B2R x <= 1 ->
    let u := Bdiv mode_NE (Bplus mode_NE x one) two in
    B2R u = u01R (B2R x) /\ is_finite u = true /\ 0 <= u01R (B2R x) <= 1.
  Proof using Hbig Hone Htwo Hp He.
    clear - Hbig Hone Htwo Hp He.
    intros Fx Bx. cbv zeta. destruct Hone as [E1 F1], Htwo as [E2 F2].
    assert (2 <= bpow radix2 70) as O71 by (now apply (bpow_le radix2 1 70)).
    destruct (plus_ok x one Fx F1) as [E3 F3].
    { rewrite E1. apply Rabs_le. lra. }
    rewrite E1 in E3.
    assert (0 <= rnd (B2R x + 1) <= 2) as B.
    { split.
      - apply Rle_trans with (rnd 0); [rewrite rnd_0; lra|apply rnd_le; lra].
      - apply Rle_trans with (rnd 2); [apply rnd_le; lra|rewrite rnd_2; lra]. }
    destruct (div_ok (Bplus mode_NE x one) two F3) as [E4 F4].
    { rewrite E2. lra. }
    { rewrite E2, E3. apply Rabs_le. lra. }
    rewrite E2, E3 in E4. split; [exact E4|]. split; [exact F4|]. unfold u01R.
    split.
    - apply Rle_trans with (rnd 0); [rewrite rnd_0; lra|apply rnd_le; lra].
    - apply Rle_trans with (rnd 1); [apply rnd_le; lra|rewrite rnd_1; lra].
  Qed.

  Lemma u01_mono x y : x <= y -> u01R x <= u01R y.
  Proof using Hp He.
    clear - Hp He.
    intros H. unfold u01R. apply rnd_le. apply Rmult_le_compat_r; [lra|]. apply rnd_le. lra.
  Qed.
End Fmt.
Close Scope R_scope.
