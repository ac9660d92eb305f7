(** A semiring that tracks exact value, magnitude, number of terms and degree, and its relation
    to floating-point arithmetic. *)
From Coq Require Import ZArith Reals Lra Psatz.
From Flocq Require Import Core BinarySingleNaN.
From Verif Require Import Base SpmmModel SpmmSpec RoundModel RoundSpec.

Record tr := { tv : R; ta : R; tn : Z; td : option Z }.
Definition omax (a b : option Z) : option Z := match a, b with Some x, Some y => Some (Z.max x y) | Some x, None => Some x | None, b => b end.
Definition oadd (a b : option Z) : option Z := match a, b with Some x, Some y => Some (x + y) | _, _ => None end.
Definition oz_eqb (a b : option Z) : bool := match a, b with Some x, Some y => x =? y | None, None => true | _, _ => false end.
Definition tadd (x y : tr) : tr := {| tv := tv x + tv y; ta := ta x + ta y; tn := tn x + tn y; td := omax (td x) (td y) |}.
Definition tmul (x y : tr) : tr := {| tv := tv x * tv y; ta := ta x * ta y; tn := tn x * tn y; td := oadd (td x) (td y) |}.
Definition tzero : tr := {| tv := 0; ta := 0; tn := 0; td := None |}.
Definition tone : tr := {| tv := 1; ta := 1; tn := 1; td := Some 0 |}.
Definition teqb (x y : tr) : bool := (if Req_EM_T (tv x) (tv y) then true else false) && (if Req_EM_T (ta x) (ta y) then true else false) && (tn x =? tn y) && oz_eqb (td x) (td y).
Definition trops : ops tr := {| o_add := tadd; o_mul := tmul; o_zero := tzero; o_one := tone; o_eqb := teqb |}.

Lemma oz_eqb_spec a b : oz_eqb a b = true <-> a = b.
Proof. destruct a as [a|], b as [b|]; cbn; split; intros H; try discriminate; auto; [apply Z.eqb_eq in H; now subst|injection H as ->; apply Z.eqb_refl]. Qed.
Lemma tr_eq x y : tv x = tv y -> ta x = ta y -> tn x = tn y -> td x = td y -> x = y.
Proof. destruct x, y; cbn; intros; now subst. Qed.
Lemma trops_semiring : semiring trops.
Proof.
  Ltac go := apply tr_eq; cbn [tadd tmul tzero tone tv ta tn td]; [ring|ring|ring|].
  split; cbn [trops o_add o_mul o_zero o_one o_eqb].
  - intros x y z. go. destruct (td x), (td y), (td z); cbn [omax oadd]; f_equal; lia.
  - intros x y. go. destruct (td x), (td y); cbn [omax oadd]; f_equal; lia.
  - intros x. go. destruct (td x); cbn [omax oadd]; f_equal; lia.
  - intros x y z. go. destruct (td x), (td y), (td z); cbn [omax oadd]; f_equal; lia.
  - intros x y. go. destruct (td x), (td y); cbn [omax oadd]; f_equal; lia.
  - intros x. go. destruct (td x); cbn [omax oadd]; f_equal; lia.
  - intros x. go. reflexivity.
  - intros x y z. go. destruct (td x), (td y), (td z); cbn [omax oadd]; f_equal; lia.
  - intros x y. unfold teqb. split.
    + destruct (Req_EM_T (tv x) (tv y)) as [E1|]; [|discriminate]. destruct (Req_EM_T (ta x) (ta y)) as [E2|]; [|discriminate]. cbn [andb].
      rewrite andb_true_iff, Z.eqb_eq, oz_eqb_spec. intros [E3 E4]. now apply tr_eq.
    + intros ->. destruct (Req_EM_T (tv y) (tv y)); [|congruence]. destruct (Req_EM_T (ta y) (ta y)); [|congruence]. rewrite Z.eqb_refl. cbn [andb]. now apply oz_eqb_spec.
Qed.

Lemma trops_01 : o_eqb trops (o_zero trops) (o_one trops) = false.
Proof. cbn [trops o_eqb o_zero o_one]. unfold teqb. cbn [tzero tone tn]. change (0 =? 1) with false. now rewrite andb_false_r. Qed.

Section Rnd.
  Context {prec emax : Z} {pp : Prec_gt_0 prec} {pe : Prec_lt_emax prec emax}.
  Local Notation bf := (binary_float prec emax).
  Let fexp := SpecFloat.fexp prec emax.
  Let emin := SpecFloat.emin prec emax.
  Local Open Scope R_scope.
  Local Notation rnd := (round radix2 fexp ZnearestE).
  Let u := bpow radix2 (- prec).
  Let q := 1 + u.

  Lemma prec_pos : (0 < prec < emax)%Z.
  Proof. split; [exact pp|exact pe]. Qed.
  Lemma emin_eq : emin = (3 - emax - prec)%Z.
  Proof. reflexivity. Qed.
  Lemma fexp_eq e : fexp e = Z.max (e - prec) emin.
  Proof. reflexivity. Qed.
  Instance vexp : Valid_exp fexp.
  Proof. apply FLT_exp_valid. exact pp. Qed.

  Lemma u_pos : 0 < u <= 1 / 2.
  Proof.
    split; [apply bpow_gt_0|]. unfold u. replace (1 / 2) with (bpow radix2 (-1)) by (cbn; lra). apply bpow_le. pose proof pp as H. red in H. lia.
  Qed.
  Lemma q_ge1 n : 1 <= q ^ n.
  Proof. apply pow_R1_Rle. unfold q. pose proof u_pos. lra. Qed.
  Lemma q_mono n k : (n <= k)%nat -> q ^ n <= q ^ k.
  Proof. intros H. apply Rle_pow; auto. unfold q. pose proof u_pos. lra. Qed.
  Lemma bern n : q ^ n * (1 - INR n * u) <= 1.
  Proof.
    induction n as [|n IH]; [cbn; lra|]. rewrite S_INR. change (q ^ S n) with (q * q ^ n).
    pose proof (q_ge1 n) as G. pose proof u_pos. pose proof (pos_INR n).
    replace (q * q ^ n * (1 - (INR n + 1) * u)) with (q ^ n * (1 - INR n * u) - u * q ^ n * (INR n * u + u)) by (unfold q; ring).
    enough (0 <= u * q ^ n * (INR n * u + u)) by lra. apply Rmult_le_pos; [nra|]. nra.
  Qed.
  Lemma q_le_2 n : (Z.of_nat n <= 2 ^ (prec - 1))%Z -> q ^ n <= 2.
  Proof.
    intros H. pose proof (bern n) as B. pose proof (q_ge1 n). assert (INR n * u <= 1 / 2).
    { apply IZR_le in H. rewrite <- INR_IZR_INZ in H. pose proof pp as Hp. red in Hp. change 2%Z with (radix_val radix2) in H. rewrite IZR_Zpower in H by lia.
      unfold u. replace (1 / 2) with (bpow radix2 (-1)) by (cbn; lra). replace (bpow radix2 (-1)) with (bpow radix2 (prec - 1) * bpow radix2 (- prec)).
      - apply Rmult_le_compat_r; [apply bpow_ge_0|exact H].
      - rewrite <- bpow_plus. f_equal. lia. }
    nra.
  Qed.

  (** Rounding a multiple of a power of two that is not below the smallest subnormal. *)
  Lemma round_step z k e : (emin <= e)%Z -> z = IZR k * bpow radix2 e ->
    Rabs (rnd z - z) <= u * Rabs z /\ exists k', rnd z = IZR k' * bpow radix2 e.
  Proof.
    intros He Ez. destruct (Req_dec z 0) as [->|Nz].
    { rewrite round_0 by apply valid_rnd_N. rewrite Rminus_0_r, Rabs_R0, Rmult_0_r. split; [lra|]. exists 0%Z. lra. }
    destruct (Z.le_gt_cases (cexp radix2 fexp z) e) as [Hc|Hc].
    - assert (G : generic_format radix2 fexp z). { rewrite Ez. apply (generic_format_F2R radix2 fexp k e). intros _. unfold F2R; cbn. now rewrite <- Ez. }
      rewrite round_generic; [|apply valid_rnd_N|exact G]. split; [|now exists k]. replace (z - z) with 0 by ring. rewrite Rabs_R0. pose proof u_pos. pose proof (Rabs_pos z). nra.
    - split.
      + rename Nz into H.
        eapply Rle_trans; [apply error_le_half_ulp; apply vexp|]. rewrite ulp_neq_0 by auto. unfold cexp in *. rewrite fexp_eq in *.
        rewrite Z.max_l by lia. destruct (mag radix2 z) as [em Hm]. cbn [mag_val] in *. specialize (Hm H).
        replace (/ 2 * bpow radix2 (em - prec)) with (u * bpow radix2 (em - 1)).
        * apply Rmult_le_compat_l; [apply bpow_ge_0|]. apply Hm.
        * unfold u. rewrite <- bpow_plus. replace (/ 2) with (bpow radix2 (-1)) by reflexivity. rewrite <- bpow_plus. f_equal. lia.
      + unfold round, F2R. cbn [Fnum Fexp]. set (mm := ZnearestE _). set (c := cexp _ _ _) in *. exists (mm * 2 ^ (c - e))%Z.
        rewrite mult_IZR. change 2%Z with (radix_val radix2). rewrite IZR_Zpower by lia. rewrite Rmult_assoc, <- bpow_plus. do 2 f_equal. lia.
  Qed.
  Lemma round_small z : Rabs z <= bpow radix2 (emax - 1) -> Rabs (rnd z) < bpow radix2 emax.
  Proof.
    intros H. apply Rle_lt_trans with (bpow radix2 (emax - 1)); [|apply bpow_lt; lia].
    apply abs_round_le_generic; auto; [apply vexp|apply valid_rnd_N|]. apply generic_format_bpow. rewrite fexp_eq. rewrite emin_eq. pose proof prec_pos. lia.
  Qed.
  Lemma bmul_ok (x y : bf) : is_finite x = true -> is_finite y = true -> Rabs (B2R x * B2R y) <= bpow radix2 (emax - 1) ->
    is_finite (Bmult mode_NE x y) = true /\ B2R (Bmult mode_NE x y) = rnd (B2R x * B2R y).
  Proof.
    intros Fx Fy H. pose proof (Bmult_correct prec emax pp pe mode_NE x y) as C. cbn [round_mode] in C. rewrite Rlt_bool_true in C by (apply round_small; exact H).
    destruct C as (C1 & C2 & _). rewrite Fx, Fy in C2. auto.
  Qed.
  Lemma badd_ok (x y : bf) : is_finite x = true -> is_finite y = true -> Rabs (B2R x + B2R y) <= bpow radix2 (emax - 1) ->
    is_finite (Bplus mode_NE x y) = true /\ B2R (Bplus mode_NE x y) = rnd (B2R x + B2R y).
  Proof.
    intros Fx Fy H. pose proof (Bplus_correct prec emax pp pe mode_NE x y Fx Fy) as C. cbn [round_mode] in C. rewrite Rlt_bool_true in C by (apply round_small; exact H).
    destruct C as (C1 & C2 & _). auto.
  Qed.

  Variables (g h K D : Z).
  Hypothesis Hg : (0 <= g /\ D * g <= emax + prec - 3)%Z.
  Hypothesis Hh : (0 <= h /\ D * h + K + 2 <= emax)%Z.
  Hypothesis HK : (0 <= K /\ 2 ^ K + D <= 2 ^ (prec - 1))%Z.
  Hypothesis HD : (1 <= D)%Z.

  Definition ex (n d : Z) : nat := Z.to_nat (n + d - 2).
  Definition good (x : bf) (t : tr) (d : Z) : Prop :=
    is_finite x = true /\ Rabs (tv t) <= ta t /\ ta t <= IZR (tn t) * bpow radix2 (h * d) /\
    Rabs (B2R x - tv t) <= (q ^ ex (tn t) d - 1) * ta t /\ exists k, B2R x = IZR k * bpow radix2 (- (g * d)).
  Definition Lf (x : bf) (t : tr) : Prop :=
    (1 <= tn t)%Z /\ exists d, (1 <= d)%Z /\ td t = Some d /\ ((tn t <= 2 ^ K)%Z -> (d <= D)%Z -> good x t d).
  Definition Rf (x : bf) (t : tr) : Prop := (t = tzero /\ is_finite x = true /\ B2R x = 0) \/ Lf x t.

  Lemma err_abs x v a c : Rabs v <= a -> Rabs (x - v) <= (c - 1) * a -> Rabs x <= c * a.
  Proof. clear. intros H1 H2. replace x with ((x - v) + v) by ring. eapply Rle_trans; [apply Rabs_triang|]. lra. Qed.

  (** After an exact operation with exponent E, one rounding raises it to E + 1. *)
  Lemma finish z v a E d N k : Rabs v <= a -> (0 <= E <= 2 ^ (prec - 1))%Z -> (1 <= N <= 2 ^ K)%Z -> (1 <= d <= D)%Z -> a <= IZR N * bpow radix2 (h * d) ->
    Rabs (z - v) <= (q ^ Z.to_nat E - 1) * a -> z = IZR k * bpow radix2 (- (g * d)) ->
    Rabs z <= bpow radix2 (emax - 1) /\ Rabs (rnd z - v) <= (q ^ Z.to_nat (E + 1) - 1) * a /\ exists k', rnd z = IZR k' * bpow radix2 (- (g * d)).
  Proof.
    intros Hv HE HN Hd Ha He Hz. assert (A0 : 0 <= a) by (pose proof (Rabs_pos v); lra).
    pose proof (err_abs z v a _ Hv He) as Az. pose proof (q_le_2 (Z.to_nat E) ltac:(rewrite Z2Nat.id; lia)) as Q2. pose proof (q_ge1 (Z.to_nat E)) as Q1.
    destruct (round_step z k (- (g * d))) as [S1 S2]; [|exact Hz|].
    { rewrite emin_eq. assert (g * d <= D * g)%Z by nia. lia. }
    split; [|split; [|exact S2]].
    - apply Rle_trans with (2 * a); [nra|]. apply Rle_trans with (2 * (bpow radix2 K * bpow radix2 (h * d))).
      + apply Rmult_le_compat_l; [lra|]. eapply Rle_trans; [exact Ha|]. apply Rmult_le_compat_r; [apply bpow_ge_0|].
        rewrite <- IZR_Zpower by lia. apply IZR_le. change (radix_val radix2) with 2%Z. lia.
      + replace 2 with (bpow radix2 1) by reflexivity. rewrite <- !bpow_plus. apply bpow_le. assert (h * d <= D * h)%Z by nia. lia.
    - replace (rnd z - v) with ((rnd z - z) + (z - v)) by ring. eapply Rle_trans; [apply Rabs_triang|].
      rewrite Z2Nat.inj_add by lia. change (Z.to_nat 1) with 1%nat. rewrite Nat.add_1_r. cbn [pow].
      assert (u * Rabs z <= u * (q ^ Z.to_nat E * a)) by (apply Rmult_le_compat_l; [pose proof u_pos; lra|exact Az]).
      replace ((q * q ^ Z.to_nat E - 1) * a) with (u * (q ^ Z.to_nat E * a) + (q ^ Z.to_nat E - 1) * a) by (unfold q; ring). lra.
  Qed.

  Lemma Lf_Rf x t : Lf x t -> Rf x t.
  Proof. now right. Qed.
  Lemma Rf_0 : Rf (B754_zero false) tzero.
  Proof. left. auto. Qed.

  Lemma Lf_mul x t y s : Lf x t -> Lf y s -> Lf (Bmult mode_NE x y) (tmul t s).
  Proof.
    intros (N1 & d1 & P1 & E1 & G1) (N2 & d2 & P2 & E2 & G2). split; [cbn [tmul tn]; nia|]. exists (d1 + d2)%Z. split; [lia|]. split; [cbn [tmul td]; now rewrite E1, E2|].
    cbn [tmul tn]. intros HN Hd'. destruct G1 as (F1 & V1 & A1 & R1 & k1 & M1); [nia|lia|]. destruct G2 as (F2 & V2 & A2 & R2 & k2 & M2); [nia|lia|].
    set (N := (tn t * tn s)%Z) in *. assert (A01 : 0 <= ta t) by (pose proof (Rabs_pos (tv t)); lra). assert (A02 : 0 <= ta s) by (pose proof (Rabs_pos (tv s)); lra).
    pose proof (err_abs _ _ _ _ V2 R2) as B2. pose proof (q_ge1 (ex (tn t) d1)) as Q1. pose proof (q_ge1 (ex (tn s) d2)) as Q2.
    destruct (finish (B2R x * B2R y) (tv t * tv s) (ta t * ta s) (tn t + d1 - 2 + (tn s + d2 - 2)) (d1 + d2) N (k1 * k2)) as (S1 & S2 & S3).
    - rewrite Rabs_mult. apply Rmult_le_compat; auto using Rabs_pos.
    - split; [lia|]. assert (tn t + tn s <= N + 1)%Z by (unfold N; nia). lia.
    - unfold N in *. nia.
    - lia.
    - unfold N. rewrite mult_IZR, Z.mul_add_distr_l, bpow_plus. replace (IZR (tn t) * IZR (tn s) * (bpow radix2 (h * d1) * bpow radix2 (h * d2))) with ((IZR (tn t) * bpow radix2 (h * d1)) * (IZR (tn s) * bpow radix2 (h * d2))) by ring.
      apply Rmult_le_compat; auto.
    - rewrite Z2Nat.inj_add by lia. rewrite pow_add. fold (ex (tn t) d1). fold (ex (tn s) d2).
      replace (B2R x * B2R y - tv t * tv s) with ((B2R x - tv t) * B2R y + tv t * (B2R y - tv s)) by ring.
      eapply Rle_trans; [apply Rabs_triang|]. rewrite !Rabs_mult.
      assert (Rabs (B2R x - tv t) * Rabs (B2R y) <= ((q ^ ex (tn t) d1 - 1) * ta t) * (q ^ ex (tn s) d2 * ta s)) by (apply Rmult_le_compat; auto using Rabs_pos).
      assert (Rabs (tv t) * Rabs (B2R y - tv s) <= ta t * ((q ^ ex (tn s) d2 - 1) * ta s)) by (apply Rmult_le_compat; auto using Rabs_pos).
      replace ((q ^ ex (tn t) d1 * q ^ ex (tn s) d2 - 1) * (ta t * ta s)) with ((q ^ ex (tn t) d1 - 1) * ta t * (q ^ ex (tn s) d2 * ta s) + ta t * ((q ^ ex (tn s) d2 - 1) * ta s)) by ring. lra.
    - rewrite M1, M2, mult_IZR. replace (- (g * (d1 + d2)))%Z with (- (g * d1) + - (g * d2))%Z by ring. rewrite bpow_plus. ring.
    - destruct (bmul_ok x y F1 F2 S1) as [F E]. unfold good. cbn [tmul tv ta tn]. fold N. split; [exact F|]. split; [rewrite Rabs_mult; apply Rmult_le_compat; auto using Rabs_pos|]. split.
      + unfold N. rewrite mult_IZR, Z.mul_add_distr_l, bpow_plus. replace (IZR (tn t) * IZR (tn s) * (bpow radix2 (h * d1) * bpow radix2 (h * d2))) with ((IZR (tn t) * bpow radix2 (h * d1)) * (IZR (tn s) * bpow radix2 (h * d2))) by ring.
        apply Rmult_le_compat; auto.
      + rewrite E. split; [|exact S3]. eapply Rle_trans; [exact S2|]. apply Rmult_le_compat_r; [nra|]. apply Rplus_le_compat_r. apply q_mono. unfold ex. apply Z2Nat.inj_le; unfold N; nia.
  Qed.

  Lemma rnd_B2R (y : bf) : rnd (B2R y) = B2R y.
  Proof. apply round_generic; [apply valid_rnd_N|]. apply generic_format_B2R. Qed.
  Lemma B2R_small (y : bf) z : B2R y = z -> Rabs z < bpow radix2 emax.
  Proof. intros <-. apply abs_B2R_lt_emax. Qed.

  Lemma mult_up k d d' : (d <= d')%Z -> (0 <= g)%Z -> exists k', IZR k * bpow radix2 (- (g * d)) = IZR k' * bpow radix2 (- (g * d')).
  Proof.
    clear. intros H G. exists (k * 2 ^ (g * (d' - d)))%Z. rewrite mult_IZR. change 2%Z with (radix_val radix2). rewrite IZR_Zpower by nia. rewrite Rmult_assoc, <- bpow_plus. do 2 f_equal. ring.
  Qed.

  Lemma Lf_add x t y s : Rf x t -> Lf y s -> Lf (Bplus mode_NE x y) (tadd t s).
  Proof.
    intros [(-> & Fx & Zx)|(N1 & d1 & P1 & E1 & G1)] (N2 & d2 & P2 & E2 & G2).
    - assert (Es : tadd tzero s = s) by apply (sr_add_0_l _ trops_semiring). rewrite Es. split; [exact N2|]. exists d2. split; [exact P2|]. split; [exact E2|]. intros H1 H2. destruct (G2 H1 H2) as (F2 & V2 & A2 & R2 & k2 & M2).
      pose proof (Bplus_correct prec emax pp pe mode_NE x y Fx F2) as C. cbn [round_mode] in C. rewrite Zx, Rplus_0_l in C.
      fold fexp in C. rewrite rnd_B2R in C. rewrite Rlt_bool_true in C by apply abs_B2R_lt_emax. destruct C as (C1 & C2 & _).
      unfold good. rewrite C1. split; [exact C2|]. split; [exact V2|]. split; [exact A2|]. split; [exact R2|]. now exists k2.
    - split; [cbn [tadd tn]; lia|]. exists (Z.max d1 d2). split; [lia|]. split; [cbn [tadd td]; now rewrite E1, E2|].
      cbn [tadd tn]. intros HN Hd'. destruct G1 as (F1 & V1 & A1 & R1 & k1 & M1); [lia|lia|]. destruct G2 as (F2 & V2 & A2 & R2 & k2 & M2); [lia|lia|].
      set (d := Z.max d1 d2) in *. set (N := (tn t + tn s)%Z) in *. assert (A01 : 0 <= ta t) by (pose proof (Rabs_pos (tv t)); lra). assert (A02 : 0 <= ta s) by (pose proof (Rabs_pos (tv s)); lra).
      destruct (mult_up k1 d1 d ltac:(lia) (proj1 Hg)) as [j1 J1]. destruct (mult_up k2 d2 d ltac:(lia) (proj1 Hg)) as [j2 J2].
      assert (AA : ta t + ta s <= IZR N * bpow radix2 (h * d)).
      { unfold N. rewrite plus_IZR, Rmult_plus_distr_r. apply Rplus_le_compat; [eapply Rle_trans; [exact A1|]|eapply Rle_trans; [exact A2|]]; (apply Rmult_le_compat_l; [apply IZR_le; lia|]; apply bpow_le; unfold d; nia). }
      assert (VV : Rabs (tv t + tv s) <= ta t + ta s) by (eapply Rle_trans; [apply Rabs_triang|]; lra).
      set (E := Z.max (tn t + d1 - 2) (tn s + d2 - 2)).
      destruct (finish (B2R x + B2R y) (tv t + tv s) (ta t + ta s) E d N (j1 + j2)) as (S1 & S2 & S3).
      + exact VV.
      + unfold E, N, d in *. lia.
      + unfold N in *. lia.
      + unfold d. lia.
      + exact AA.
      + replace (B2R x + B2R y - (tv t + tv s)) with ((B2R x - tv t) + (B2R y - tv s)) by ring. eapply Rle_trans; [apply Rabs_triang|].
        assert (q ^ ex (tn t) d1 <= q ^ Z.to_nat E) by (apply q_mono; unfold ex; apply Z2Nat.inj_le; unfold E; lia).
        assert (q ^ ex (tn s) d2 <= q ^ Z.to_nat E) by (apply q_mono; unfold ex; apply Z2Nat.inj_le; unfold E; lia).
        rewrite Rmult_plus_distr_l. apply Rplus_le_compat; [eapply Rle_trans; [exact R1|]|eapply Rle_trans; [exact R2|]]; apply Rmult_le_compat_r; lra.
      + rewrite M1, M2, J1, J2, plus_IZR. ring.
      + destruct (badd_ok x y F1 F2 S1) as [F Eq]. unfold good. cbn [tadd tv ta tn]. fold N. split; [exact F|]. split; [exact VV|]. split; [exact AA|]. rewrite Eq. split; [|exact S3].
        eapply Rle_trans; [exact S2|]. apply Rmult_le_compat_r; [lra|]. apply Rplus_le_compat_r. apply q_mono. unfold ex. apply Z2Nat.inj_le; unfold E, N, d; lia.
  Qed.

  (** Embedding of inputs. *)
  Definition okb (x : bf) : bool := is_finite x && (Req_bool (B2R x) 0 || (Rle_bool (bpow radix2 (prec - 1 - g)) (Rabs (B2R x)) && Rle_bool (Rabs (B2R x)) (bpow radix2 h))).
  Lemma okb_spec x : okb x = true <-> moderate (prec - 1 - g) h x.
  Proof.
    clear. unfold okb, moderate. rewrite andb_true_iff, orb_true_iff, andb_true_iff. split; intros [F H]; (split; [exact F|]).
    - destruct H as [H|[H1 H2]]; [left; revert H; case Req_bool_spec; auto; discriminate|right]. revert H1 H2. do 2 case Rle_bool_spec; try discriminate; auto.
    - destruct H as [H|[H1 H2]]; [left; now apply Req_bool_true|right]. split; now apply Rle_bool_true.
  Qed.
  Definition emb (x : bf) : tr := if okb x then {| tv := B2R x; ta := Rabs (B2R x); tn := 1; td := Some 1%Z |} else {| tv := 0; ta := 0; tn := 2 ^ K + 1; td := Some 1%Z |}.
  Definition embs (x : bf) : tr := if Beqb x (B754_zero false) then tzero else if Beqb x Bone then tone else emb x.

  Lemma Lf_emb x : Lf x (emb x).
  Proof.
    unfold emb. destruct (okb x) eqn:E.
    - apply okb_spec in E as [F H]. split; [cbn; lia|]. exists 1%Z. split; [lia|]. split; [reflexivity|]. intros _ _. unfold good. cbn [tv ta tn]. split; [exact F|]. split; [lra|]. split; [|split].
      + rewrite Z.mul_1_r, Rmult_1_l. destruct H as [->|H]; [rewrite Rabs_R0; apply bpow_ge_0|apply H].
      + cbn [ex Z.add Z.sub Z.opp]. replace (B2R x - B2R x) with 0 by ring. rewrite Rabs_R0. cbn. lra.
      + rewrite Z.mul_1_r. destruct H as [->|[H _]]; [exists 0%Z; lra|].
        assert (Nz : B2R x <> 0). { intros Z0. rewrite Z0, Rabs_R0 in H. pose proof (bpow_gt_0 radix2 (prec - 1 - g)). lra. }
        assert (Hm : (prec - g <= mag radix2 (B2R x))%Z). { apply mag_ge_bpow. replace (prec - g - 1)%Z with (prec - 1 - g)%Z by ring. exact H. }
        pose proof (generic_format_B2R prec emax x) as G. red in G. fold fexp in G. set (c := cexp radix2 fexp (B2R x)) in *.
        assert (Hc : (- g <= c)%Z). { unfold c, cexp. rewrite fexp_eq. lia. }
        set (m := Ztrunc _) in G. exists (m * 2 ^ (c + g))%Z. rewrite G at 1. unfold F2R. cbn [Fnum Fexp]. rewrite mult_IZR. change 2%Z with (radix_val radix2). rewrite IZR_Zpower by lia. rewrite Rmult_assoc, <- bpow_plus. do 2 f_equal. lia.
    - split; [cbn; nia|]. exists 1%Z. split; [lia|]. split; [reflexivity|]. cbn [tn]. lia.
  Qed.
  Lemma emb_n x : (1 <= tn (emb x))%Z /\ td (emb x) = Some 1%Z.
  Proof. assert (0 < 2 ^ K)%Z by (apply Z.pow_pos_nonneg; lia). unfold emb. destruct (okb x); cbn [tn td]; split; auto; lia. Qed.

  Lemma embs_0 a : Beqb a (B754_zero false) = teqb (embs a) tzero.
  Proof.
    unfold embs. destruct (Beqb a (B754_zero false)). { symmetry. now apply (sr_eqb _ trops_semiring). }
    symmetry. apply Bool.not_true_iff_false. rewrite (sr_eqb _ trops_semiring). cbn [trops]. destruct (Beqb a Bone); intros H; apply (f_equal tn) in H; [cbn in H; lia|].
    pose proof (emb_n a) as [G _]. cbn [tzero tn] in H. lia.
  Qed.
  Lemma Bone_R : B2R (Bone : bf) = 1.
  Proof. apply Bone_correct. Qed.
  Lemma Beqb_B2R (x y : bf) : is_finite x = true -> is_finite y = true -> Beqb x y = true <-> B2R x = B2R y.
  Proof. clear. intros Fx Fy. rewrite Beqb_correct by assumption. case Req_bool_spec; intros; split; auto; congruence. Qed.
  Lemma Beqb_fin (x y : bf) : is_finite y = true -> Beqb x y = true -> is_finite x = true.
  Proof. clear. destruct x as [[]|[]| |[]], y as [[]|[]| |[]]; cbn; auto; discriminate. Qed.
  Lemma embs_1 a : Beqb a Bone = teqb (embs a) tone.
  Proof.
    unfold embs. destruct (Beqb a (B754_zero false)) eqn:E0.
    - assert (Beqb a Bone = false) as ->.
      { apply Bool.not_true_iff_false. intros E1. pose proof (Beqb_fin _ _ (eq_refl : is_finite (B754_zero false : bf) = true) E0) as F.
        apply Beqb_B2R in E0; auto. apply Beqb_B2R in E1; auto; [|apply is_finite_Bone]. rewrite Bone_R in E1. cbn in E0. lra. }
      symmetry. apply Bool.not_true_iff_false. rewrite (sr_eqb _ trops_semiring). intros H. apply (f_equal tn) in H. cbn in H. lia.
    - destruct (Beqb a Bone). { symmetry. now apply (sr_eqb _ trops_semiring). }
      symmetry. apply Bool.not_true_iff_false. rewrite (sr_eqb _ trops_semiring). intros H. apply (f_equal td) in H. pose proof (emb_n a) as [_ G]. cbn [tone td] in H. congruence.
  Qed.
  Lemma Lf_scale a : Beqb a (B754_zero false) = false -> forall x t, Lf x t -> Lf (Bmult mode_NE a x) (tmul (embs a) t).
  Proof.
    intros E0 x t Hx. unfold embs. rewrite E0. destruct (Beqb a Bone) eqn:E1.
    - rewrite (sr_mul_1_l _ trops_semiring t : tmul tone t = t). destruct Hx as (N & d & P1 & Ed & G). split; [exact N|]. exists d. split; [exact P1|]. split; [exact Ed|]. intros H1 H2.
      destruct (G H1 H2) as (F & V & A & Er & k & M). pose proof (Beqb_fin _ _ (is_finite_Bone prec emax pp pe) E1) as Fa. apply Beqb_B2R in E1; auto; [|apply is_finite_Bone]. rewrite Bone_R in E1.
      pose proof (Bmult_correct prec emax pp pe mode_NE a x) as C. cbn [round_mode] in C. rewrite E1, Rmult_1_l in C. fold fexp in C. rewrite rnd_B2R in C. rewrite Rlt_bool_true in C by apply abs_B2R_lt_emax.
      destruct C as (C1 & C2 & _). unfold good. rewrite C1, C2, Fa, F. split; [reflexivity|]. split; [exact V|]. split; [exact A|]. split; [exact Er|]. now exists k.
    - apply Lf_mul; auto. apply Lf_emb.
  Qed.
End Rnd.
