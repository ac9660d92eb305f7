From Coq Require Import ZArith Reals Lra Psatz.
From Flocq Require Import Core BinarySingleNaN.
From Verif Require Import Base Spec Interleave RngModel DenseModel DenseSpec DenseProofs2 SparseSkopModel FloatModel FloatProofs FloatProofs2 FloatProofs3 PropsFloat
  IsoSpec IsoProofs PropsIso StatSpec DenseFloatModel DenseIsoProofs.
Local Open Scope R_scope.

(** ** Exact moments of (2s+1)/2^W over the signed words *)
Lemma sum_odd lo n : Rsum (map (fun s => IZR (2 * s + 1)) (zseq lo n)) = IZR ((lo + Z.of_nat n) ^ 2 - lo ^ 2).
Proof.
  revert lo. induction n as [|n IH]; intros lo; cbn [zseq map Rsum].
  - replace ((lo + Z.of_nat 0) ^ 2 - lo ^ 2)%Z with 0%Z by (cbn; ring). reflexivity.
  - rewrite IH, <- plus_IZR. f_equal. rewrite Nat2Z.inj_succ. unfold Z.succ. ring.
Qed.
Lemma sum_odd_sq lo n : 6 * Rsum (map (fun s => IZR (2 * s + 1) * IZR (2 * s + 1)) (zseq lo n)) =
  IZR (((2 * (lo + Z.of_nat n)) ^ 3 - 2 * (lo + Z.of_nat n)) - ((2 * lo) ^ 3 - 2 * lo)).
Proof.
  revert lo. induction n as [|n IH]; intros lo; cbn [zseq map Rsum].
  - replace (((2 * (lo + Z.of_nat 0)) ^ 3 - 2 * (lo + Z.of_nat 0)) - ((2 * lo) ^ 3 - 2 * lo))%Z with 0%Z by (cbn [Z.of_nat]; ring). lra.
  - rewrite Rmult_plus_distr_l, IH, <- !mult_IZR, <- plus_IZR. f_equal. rewrite Nat2Z.inj_succ. unfold Z.succ. ring.
Qed.
(** Words in unsigned order are the signed words in another order. *)
Lemma Rsum_signed W (f : Z -> R) : (0 < W)%Z ->
  Rsum (map (fun w => f (signed W w)) (range 0 (2 ^ W))) = Rsum (map f (zseq (- 2 ^ (W - 1)) (Z.to_nat (2 ^ W)))).
Proof.
  intros HW. assert (E : (2 ^ W = 2 ^ (W - 1) + 2 ^ (W - 1))%Z).
  { replace W with (Z.succ (W - 1)) at 1 by lia. rewrite Z.pow_succ_r by lia. lia. }
  assert (P : (0 < 2 ^ (W - 1))%Z) by (apply Z.pow_pos_nonneg; lia).
  assert (SP : forall a b lo, zseq lo (a + b) = zseq lo a ++ zseq (lo + Z.of_nat a) b).
  { induction a as [|a IH]; intros b lo; cbn [Nat.add zseq app]; [f_equal; lia|]. rewrite IH. do 3 f_equal. lia. }
  assert (SH : forall n lo k, zseq (lo + k) n = map (fun x => x + k)%Z (zseq lo n)).
  { induction n as [|n IH]; intros lo k; cbn [zseq map]; [reflexivity|]. rewrite <- IH. do 2 f_equal. lia. }
  unfold range. rewrite Z.sub_0_r. unfold signed. set (h := (2 ^ (W - 1))%Z) in *. rewrite E in *.
  rewrite Z2Nat.inj_add, !SP, !map_app, !Rsum_app by lia. rewrite Rplus_comm. f_equal.
  - rewrite Z.add_0_l, Z2Nat.id by lia. replace (zseq h (Z.to_nat h)) with (zseq (- h + (h + h)) (Z.to_nat h)) by (f_equal; lia). rewrite SH, map_map.
    apply Rsum_ext. intros x Hx. apply in_zseq in Hx. f_equal. destruct (Z.ltb_spec (x + (h + h)) h); lia.
  - rewrite Z2Nat.id by lia. replace (- h + h)%Z with 0%Z by lia. apply Rsum_ext. intros x Hx. apply in_zseq in Hx. f_equal.
    destruct (Z.ltb_spec x h); lia.
Qed.

Section Moments.
  Variable W : Z.
  Hypothesis HW : (0 < W)%Z.
  Definition ideal (w : Z) : R := IZR (2 * signed W w + 1) / IZR (2 ^ W).
  Variable v : Z -> R.
  Variable eps : R.
  Hypothesis Hv : forall w, (0 <= w < 2 ^ W)%Z -> Rabs (v w - sqrt 3 * ideal w) <= eps.
  Notation words := (range 0 (2 ^ W)).

  Lemma pow_pos : (0 < 2 ^ W)%Z. Proof. apply Z.pow_pos_nonneg; lia. Qed.
  Lemma words_len : INR (length words) = IZR (2 ^ W).
  Proof. pose proof pow_pos. rewrite INR_IZR_INZ. f_equal. fold (zlen words). rewrite zlen_range; lia. Qed.
  Lemma half_pow : (2 ^ W = 2 * 2 ^ (W - 1))%Z.
  Proof. replace W with (Z.succ (W - 1)) at 1 by lia. rewrite Z.pow_succ_r by lia. reflexivity. Qed.
  Lemma ideal_mean : average words ideal = 0.
  Proof.
    unfold average, ideal. unfold Rdiv at 2. rewrite (Rsum_ext _ (fun w => / IZR (2 ^ W) * (fun s => IZR (2 * s + 1)) (signed W w))) by (intros; lra).
    rewrite Rsum_scal, (Rsum_signed W (fun s => IZR (2 * s + 1)) HW), sum_odd. pose proof pow_pos. rewrite Z2Nat.id by lia.
    replace ((- 2 ^ (W - 1) + 2 ^ W) ^ 2 - (- 2 ^ (W - 1)) ^ 2)%Z with 0%Z by (rewrite half_pow; ring). lra.
  Qed.
  Lemma ideal_square : average words (fun w => ideal w * ideal w) = (1 - / IZR (2 ^ W) * / IZR (2 ^ W)) / 3.
  Proof.
    unfold average, ideal. pose proof pow_pos. assert (0 < IZR (2 ^ W)) as P by (apply IZR_lt; lia).
    rewrite (Rsum_ext _ (fun w => (/ IZR (2 ^ W) * / IZR (2 ^ W)) * (fun s => IZR (2 * s + 1) * IZR (2 * s + 1)) (signed W w))) by (intros; unfold Rdiv; ring).
    rewrite Rsum_scal, (Rsum_signed W (fun s => IZR (2 * s + 1) * IZR (2 * s + 1)) HW), words_len.
    pose proof (sum_odd_sq (- 2 ^ (W - 1)) (Z.to_nat (2 ^ W))) as S. rewrite Z2Nat.id in S by lia.
    set (X := Rsum _) in *. clearbody X. rewrite half_pow in *. set (h := (2 ^ (W - 1))%Z) in *. clearbody h.
    replace ((2 * (- h + 2 * h)) ^ 3 - 2 * (- h + 2 * h) - ((2 * - h) ^ 3 - 2 * - h))%Z with (2 * (8 * h * h * h - 2 * h))%Z in S by ring.
    rewrite !mult_IZR, minus_IZR, !mult_IZR in S. rewrite mult_IZR in *. set (y := IZR h) in *. clearbody y.
    replace X with ((8 * y * y * y - 2 * y) / 3) by lra. field. lra.
  Qed.
  Lemma ideal_abs w : (0 <= w < 2 ^ W)%Z -> Rabs (ideal w) <= 1.
  Proof.
    intros Hw. unfold ideal. pose proof pow_pos. assert (0 < IZR (2 ^ W)) as P by (apply IZR_lt; lia).
    assert (B : (- 2 ^ W <= 2 * signed W w + 1 <= 2 ^ W)%Z) by (unfold signed; rewrite half_pow in *; destruct (Z.ltb_spec w (2 ^ (W - 1))); lia).
    destruct B as [B1 B2]. apply IZR_le in B1, B2. rewrite opp_IZR in B1. unfold Rdiv. rewrite Rabs_mult, (Rabs_pos_eq (/ _)) by (left; now apply Rinv_0_lt_compat).
    apply (Rmult_le_reg_r (IZR (2 ^ W))); [exact P|]. rewrite Rmult_assoc, Rinv_l by lra. rewrite Rmult_1_r, Rmult_1_l. apply Rabs_le. lra.
  Qed.
  Lemma average_close (f h : Z -> R) c : (forall w, In w words -> Rabs (f w - h w) <= c) -> Rabs (average words f - average words h) <= c.
  Proof.
    intros H. unfold average. rewrite words_len. pose proof pow_pos. assert (0 < IZR (2 ^ W)) as P by (apply IZR_lt; lia).
    assert (S : forall l, (forall w, In w l -> Rabs (f w - h w) <= c) -> Rabs (Rsum (map f l) - Rsum (map h l)) <= INR (length l) * c).
    { induction l as [|x l IH]; intros Hl; [cbn; rewrite Rminus_0_r, Rabs_R0; lra|]. cbn [map Rsum length]. rewrite S_INR.
      specialize (IH (fun w Hw => Hl w (or_intror Hw))). specialize (Hl x (or_introl eq_refl)).
      replace (f x + Rsum (map f l) - (h x + Rsum (map h l))) with ((f x - h x) + (Rsum (map f l) - Rsum (map h l))) by ring.
      eapply Rle_trans; [apply Rabs_triang|]. lra. }
    specialize (S words H). rewrite words_len in S. unfold Rdiv. rewrite <- Rmult_minus_distr_r, Rabs_mult, (Rabs_pos_eq (/ _)) by (left; now apply Rinv_0_lt_compat).
    apply (Rmult_le_reg_r (IZR (2 ^ W))); [exact P|]. rewrite Rmult_assoc, Rinv_l by lra. lra.
  Qed.
  Lemma sqrt3_bounds : 1.7320508 <= sqrt 3 <= 1.7320509.
  Proof.
    split.
    - rewrite <- (sqrt_square 1.7320508) by lra. apply sqrt_le_1_alt. lra.
    - rewrite <- (sqrt_square 1.7320509) by lra. apply sqrt_le_1_alt. lra.
  Qed.
  Lemma mean_small : Rabs (average words v) <= eps.
  Proof.
    pose proof (average_close v (fun w => sqrt 3 * ideal w) eps) as H. rewrite average_const_mul, ideal_mean in H.
    rewrite Rmult_0_r, Rminus_0_r in H. apply H. intros w Hw. apply in_range in Hw. now apply Hv.
  Qed.
  Lemma square_close : Rabs (average words (fun w => v w * v w) - 1) <= / IZR (2 ^ W) * / IZR (2 ^ W) + 3.5 * eps + eps * eps.
  Proof.
    pose proof (average_close (fun w => v w * v w) (fun w => 3 * (ideal w * ideal w)) (3.5 * eps + eps * eps)) as H.
    rewrite average_const_mul, ideal_square in H.
    assert (A : Rabs (average words (fun w => v w * v w) - 3 * ((1 - / IZR (2 ^ W) * / IZR (2 ^ W)) / 3)) <= 3.5 * eps + eps * eps).
    { apply H. intros w Hw. apply in_range in Hw. pose proof (Hv w Hw) as Hvw. pose proof (ideal_abs w Hw) as Ha. pose proof sqrt3_bounds as Hq.
      assert (Q : sqrt 3 * sqrt 3 = 3) by (apply sqrt_sqrt; lra).
      set (q := sqrt 3) in *. set (x := ideal w) in *. set (d := v w - q * x) in *. replace (v w) with (q * x + d) by (unfold d; ring).
      replace ((q * x + d) * (q * x + d) - 3 * (x * x)) with (2 * q * (x * d) + d * d) by (rewrite <- Q; ring).
      eapply Rle_trans; [apply Rabs_triang|]. rewrite !Rabs_mult. rewrite (Rabs_pos_eq 2), (Rabs_pos_eq q) by lra.
      pose proof (Rabs_pos d). pose proof (Rabs_pos x). clearbody d x q.
      assert (Rabs x * Rabs d <= eps) by (rewrite <- (Rmult_1_l eps); apply Rmult_le_compat; assumption).
      assert (Rabs d * Rabs d <= eps * eps) by (apply Rmult_le_compat; assumption).
      assert (2 * q * (Rabs x * Rabs d) <= 3.5 * eps); [|lra]. apply Rmult_le_compat; try lra. apply Rmult_le_pos; assumption. }
    assert (0 <= / IZR (2 ^ W) * / IZR (2 ^ W)).
    { pose proof pow_pos. assert (0 < IZR (2 ^ W)) as P by (apply IZR_lt; lia). apply Rinv_0_lt_compat in P. apply Rmult_le_pos; lra. }
    replace (average words (fun w => v w * v w) - 1) with
      ((average words (fun w => v w * v w) - 3 * ((1 - / IZR (2 ^ W) * / IZR (2 ^ W)) / 3)) + - (/ IZR (2 ^ W) * / IZR (2 ^ W))) by lra.
    eapply Rle_trans; [apply Rabs_triang|]. rewrite Rabs_Ropp, (Rabs_pos_eq (_ * _)) by assumption. lra.
  Qed.
End Moments.

(** ** The constants (T)std::sqrt(3) and the values of uniform entries *)
Lemma sqrt3_near c d : 0 <= c -> 0 <= d <= 1 -> c <= 2 -> 3 - d <= c * c <= 3 + d -> Rabs (c - sqrt 3) <= d.
Proof.
  intros Hc Hd Hc2 H. assert (Q : sqrt 3 * sqrt 3 = 3) by (apply sqrt_sqrt; lra). assert (B : 1.7 <= sqrt 3).
  { rewrite <- (sqrt_square 1.7) by lra. apply sqrt_le_1_alt. lra. }
  set (q := sqrt 3) in *. clearbody q. apply Rabs_le. split; nra.
Qed.
Lemma sqrt3_64_ok : is_finite sqrt3_64 = true /\ Rabs (B2R sqrt3_64 - sqrt 3) <= / IZR (2 ^ 51) /\ 0 <= B2R sqrt3_64 <= 2.
Proof.
  assert (E : B2R sqrt3_64 = 7800463371553962 * / IZR (2 ^ 52)).
  { rewrite (B2R_SF sqrt3_64 (SpecFloat.S754_finite false 7800463371553962 (-52))); [|vm_compute; reflexivity].
    unfold SF2R, F2R. cbn [cond_Zopp Fnum Fexp]. reflexivity. }
  split; [vm_compute; reflexivity|]. rewrite E. assert (B : 0 <= 7800463371553962 * / IZR (2 ^ 52) <= 2) by (cbn; lra).
  split; [|exact B]. apply sqrt3_near; cbn; lra.
Qed.
Lemma sqrt3_32_ok : is_finite sqrt3_32 = true /\ Rabs (B2R sqrt3_32 - sqrt 3) <= / IZR (2 ^ 23) /\ 0 <= B2R sqrt3_32 <= 2.
Proof.
  assert (E : B2R sqrt3_32 = 14529495 * / IZR (2 ^ 23)).
  { rewrite (B2R_SF sqrt3_32 (SpecFloat.S754_finite false 14529495 (-23))); [|vm_compute; reflexivity].
    unfold SF2R, F2R. cbn [cond_Zopp Fnum Fexp]. reflexivity. }
  split; [vm_compute; reflexivity|]. rewrite E. assert (B : 0 <= 14529495 * / IZR (2 ^ 23) <= 2) by (cbn; lra).
  split; [|exact B]. apply sqrt3_near; cbn; lra.
Qed.
Section Scal3.
  Variables p e : Z.
  Context {Hp : Prec_gt_0 p} {He : Prec_lt_emax p e}.
  Hypothesis Hbig : (70 < e)%Z.
  Lemma scal3_close (c x : binary_float p e) y d d' : is_finite c = true -> is_finite x = true ->
    0 <= B2R c <= 2 -> -1 <= B2R x <= 1 -> Rabs (B2R c - sqrt 3) <= d' -> Rabs (B2R x - y) <= d ->
    Rabs (B2R (Bmult mode_NE c x) - sqrt 3 * y) <= 1.74 * d + d' + 2.125 * bpow radix2 (- p).
  Proof.
    intros Fc Fx Bc Bx Hc Hx. assert (BM : Rabs (B2R c * B2R x) <= 2) by (apply Rabs_le; nra).
    assert (B64 : 2 <= bpow radix2 64) by (change 2 with (bpow radix2 1); apply bpow_le; lia).
    destruct (mult_ok p e Hbig c x Fc Fx) as [E _].
    { apply Rle_trans with (1 := BM). change 2 with (bpow radix2 1). apply bpow_le. lia. }
    rewrite E. pose proof (rnd_err p e Hbig (B2R c * B2R x) ltac:(lra)) as R. pose proof (bpow_gt_0 radix2 (- p)) as P.
    set (b := bpow radix2 (- p)) in *. set (z := B2R c * B2R x) in *.
    assert (T1 : b * Rabs z <= b * 2) by (apply Rmult_le_compat_l; lra).
    replace (rnd p e z - sqrt 3 * y) with ((rnd p e z - z) + ((B2R c - sqrt 3) * B2R x + sqrt 3 * (B2R x - y))) by (unfold z; ring).
    eapply Rle_trans; [apply Rabs_triang|]. eapply Rle_trans; [apply Rplus_le_compat_l, Rabs_triang|]. rewrite !Rabs_mult.
    assert (Q : 0 <= sqrt 3 <= 1.74) by (pose proof sqrt3_bounds; lra). rewrite (Rabs_pos_eq (sqrt 3)) by lra.
    assert (A1 : Rabs (B2R x) <= 1) by (apply Rabs_le; lra). pose proof (Rabs_pos (B2R x)). pose proof (Rabs_pos (B2R c - sqrt 3)). pose proof (Rabs_pos (B2R x - y)).
    assert (Rabs (B2R c - sqrt 3) * Rabs (B2R x) <= d') by (rewrite <- (Rmult_1_r d'); apply Rmult_le_compat; assumption).
    assert (sqrt 3 * Rabs (B2R x - y) <= 1.74 * d) by (apply Rmult_le_compat; lra). lra.
  Qed.
End Scal3.

Lemma entry_float w : (0 <= w < 2 ^ 32)%Z -> Rabs (B2R (scal3_32 (uneg11_32 w)) - sqrt 3 * ideal 32 w) <= / IZR (2 ^ 20).
Proof.
  intros Hw. destruct (C11_uniform_transformation_float w Hw) as (F & B & A & _). destruct sqrt3_32_ok as (F3 & A3 & B3).
  eapply Rle_trans; [apply (scal3_close 24 128 ltac:(lia) sqrt3_32 (uneg11_32 w) (ideal 32 w) (/ IZR (2 ^ 22)) (/ IZR (2 ^ 23)) F3 F B3 B A3 A)|].
  cbn. lra.
Qed.
Lemma entry_double w : (0 <= w < 2 ^ 64)%Z -> Rabs (B2R (scal3_64 (uneg11_64 w)) - sqrt 3 * ideal 64 w) <= / IZR (2 ^ 49).
Proof.
  intros Hw. destruct (C11_uniform_transformation_double w Hw) as (F & B & A & _). destruct sqrt3_64_ok as (F3 & A3 & B3).
  eapply Rle_trans; [apply (scal3_close 53 1024 ltac:(lia) sqrt3_64 (uneg11_64 w) (ideal 64 w) (/ IZR (2 ^ 51)) (/ IZR (2 ^ 51)) F3 F B3 B A3 A)|].
  cbn. lra.
Qed.
Lemma entry_widened w : (0 <= w < 2 ^ 32)%Z -> Rabs (B2R (scal3_64 (to64 (uneg11_32 w))) - sqrt 3 * ideal 32 w) <= / IZR (2 ^ 20).
Proof.
  intros Hw. destruct (C11_uniform_transformation_float w Hw) as (F & B & A & _). destruct sqrt3_64_ok as (F3 & A3 & B3).
  destruct (to64_ok _ F) as [E64 F64]. rewrite <- E64 in B, A.
  eapply Rle_trans; [apply (scal3_close 53 1024 ltac:(lia) sqrt3_64 (to64 (uneg11_32 w)) (ideal 32 w) (/ IZR (2 ^ 22)) (/ IZR (2 ^ 51)) F3 F64 B3 B A3 A)|].
  cbn. lra.
Qed.

(** ** Blocks of independent words *)
Lemma average_map {A B} (f : A -> B) l h : average (map f l) h = average l (fun x => h (f x)).
Proof. unfold average. now rewrite map_map, map_length. Qed.
Section Lanes.
  Context {U X : Type}.
  Variable tr : U -> X.
  Variable val : X -> R.
  Variable words : list U.
  Hypothesis HU : words <> [].
  Variable L : Z.
  Variables (w0 : X) (u0 : U).
  Notation Bs := (map (map tr) (tapes (Z.to_nat L) words)).
  Notation ln l b := (val (nth (Z.to_nat l) b w0)).
  Notation v := (fun u => val (tr u)).

  Lemma block_nth l t : In t (tapes (Z.to_nat L) words) -> (0 <= l < L)%Z -> nth (Z.to_nat l) (map tr t) w0 = tr (nth (Z.to_nat l) t u0).
  Proof. intros Ht Hl. rewrite (nth_indep _ w0 (tr u0)); [apply map_nth|]. rewrite map_length, (tapes_len _ _ _ Ht). lia. Qed.
  Lemma block_len b : (0 <= L)%Z -> In b Bs -> zlen b = L.
  Proof using Type. clear val w0 u0. intros HL Hb. apply in_map_iff in Hb as [t [<- Ht]]. rewrite zlen_map. unfold zlen. rewrite (tapes_len _ _ _ Ht). lia. Qed.
  Lemma blocks_nonempty : Bs <> [].
  Proof using HU. clear val w0 u0. intros E. apply map_eq_nil in E. pose proof (tapes_pos (Z.to_nat L) words HU) as P. rewrite E in P. cbn in P. lra. Qed.
  Lemma lane_mean l : (0 <= l < L)%Z -> average Bs (fun b => ln l b) = average words v.
  Proof.
    intros Hl. rewrite average_map. rewrite (average_ext _ _ (fun t => v (nth (Z.to_nat l) t u0))) by (intros t Ht; now rewrite block_nth).
    apply (average_one words (Z.to_nat L) (Z.to_nat l) u0 v); (assumption || lia).
  Qed.
  Lemma lane_square l : (0 <= l < L)%Z -> average Bs (fun b => ln l b * ln l b) = average words (fun w => v w * v w).
  Proof.
    intros Hl. rewrite average_map. rewrite (average_ext _ _ (fun t => (fun w => v w * v w) (nth (Z.to_nat l) t u0))) by (intros t Ht; now rewrite block_nth).
    apply (average_one words (Z.to_nat L) (Z.to_nat l) u0 (fun w => v w * v w)); (assumption || lia).
  Qed.
  Lemma lane_cross l l' : (0 <= l < L)%Z -> (0 <= l' < L)%Z -> l <> l' -> average Bs (fun b => ln l b * ln l' b) = average words v * average words v.
  Proof.
    intros Hl Hl' N. rewrite average_map. rewrite (average_ext _ _ (fun t => v (nth (Z.to_nat l) t u0) * v (nth (Z.to_nat l') t u0))) by (intros t Ht; now rewrite !block_nth).
    apply (average_two words (Z.to_nat L) (Z.to_nat l) (Z.to_nat l') u0 v v); (assumption || lia).
  Qed.
End Lanes.

(** ** The Gram matrix of the scaled operator *)
Section LongGram.
  Context {K W T : Type}.
  Variables (cast : W -> T) (toR : T -> R) (env : dense_env K W T) (sched : schedule T).
  Variables (nr nc : Z) (fam : DenseModel.family) (ax : axis) (D : dense_dist) (seed : rng_state K).
  Hypothesis Hs : valid_schedule sched.
  Hypothesis HD : mk_dense_dist nr nc fam ax = Ok D.
  Hypothesis HF : dense_fits env D seed.
  Notation L := (g_len (env_gen env fam)).
  Variables (dflt : list W) (w0 : W) (Bs : list (list W)).
  Hypothesis Hd : zlen dflt = L.
  Hypothesis HB : forall b, In b Bs -> zlen b = L.
  Hypothesis HBs : Bs <> [].
  Notation val x := (toR (family_map env fam (cast x))).
  Notation ln l b := (val (nth (Z.to_nat l) b w0)).
  Variables m1 m2 : R.
  Hypothesis M1 : forall l, (0 <= l < L)%Z -> average Bs (fun b => ln l b) = m1.
  Hypothesis M2 : forall l, (0 <= l < L)%Z -> average Bs (fun b => ln l b * ln l b) = m2.
  Hypothesis M11 : forall l l', (0 <= l < L)%Z -> (0 <= l' < L)%Z -> l <> l' -> average Bs (fun b => ln l b * ln l' b) = m1 * m1.

  Lemma long_gram_average a b : (0 <= a < Z.max nr nc)%Z -> (0 <= b < Z.max nr nc)%Z ->
    average (tapes (Z.to_nat (dense_blocks D L)) Bs)
      (fun t => dense_iso2 D * long_gram D (dense_sampled cast toR (with_blocks env seed dflt t) sched D seed) a b) =
    IZR (Z.min nr nc) / IZR (match ax with Long => Z.min nr nc | Short => Z.max nr nc end) * (if (a =? b)%Z then m2 else m1 * m1).
  Proof.
    intros Ha Hb. destruct HF as (We & Hgl & Hsz & Hc & Hn).
    assert (V : valid_dist D) by (exists nr, nc, fam, ax; exact HD).
    pose proof (mk_dense_dist_inv _ _ _ _ _ HD) as (P1 & P2 & ER & EC & _ & EF & _).
    rewrite average_const_mul. unfold long_gram, dense_iso2.
    assert (EI : dd_iso_inv2 D = match ax with Long => Z.min nr nc | Short => Z.max nr nc end).
    { unfold mk_dense_dist in HD. destruct (nr >? 0)%Z; [|discriminate]. destruct (nc >? 0)%Z; [|discriminate]. injection HD as <-. destruct ax; reflexivity. }
    rewrite EI. unfold dense_blocks in *. rewrite EF in *.
    pose proof (gram_cols_average cast toR env sched D seed Hs We V) as GC. pose proof (gram_rows_average cast toR env sched D seed Hs We V) as GR.
    unfold lane, value in GC, GR. rewrite EF, ER, EC in *.
    destruct (Z.leb_spec nr nc).
    - rewrite (GC Hsz Hc Hn Hgl dflt Hd w0 Bs HB HBs m1 m2 M1 M2 M11 a b) by lia. rewrite Z.min_l by lia. unfold Rdiv. ring.
    - rewrite (GR Hsz Hc Hn Hgl dflt Hd w0 Bs HB HBs m1 m2 M1 M2 M11 a b) by lia. rewrite Z.min_r by lia. unfold Rdiv. ring.
  Qed.
End LongGram.

Section UniformGram.
  Context {K X T : Type}.
  Variables (cast : X -> T) (toR : T -> R) (env : dense_env K X T) (sched : schedule T).
  Variables (nr nc : Z) (D : dense_dist) (seed : rng_state K).
  Hypothesis Hs : valid_schedule sched.
  Hypothesis HD : mk_dense_dist nr nc Uniform Long = Ok D.
  Hypothesis HF : dense_fits env D seed.
  Notation L := (g_len (env_unif env)).
  Variables (dflt : list X).
  Hypothesis Hd : zlen dflt = L.
  Variables (W : Z) (tr : Z -> X) (eps : R).
  Hypothesis HW : (0 < W)%Z.
  Hypothesis Hv : forall w, (0 <= w < 2 ^ W)%Z -> Rabs (toR (env_scal3 env (cast (tr w))) - sqrt 3 * ideal W w) <= eps.
  Lemma uniform_gram_average a b : (0 <= a < Z.max nr nc)%Z -> (0 <= b < Z.max nr nc)%Z ->
    Rabs (average (tapes (Z.to_nat (dense_blocks D L)) (map (map tr) (tapes (Z.to_nat L) (range 0 (2 ^ W)))))
      (fun t => dense_iso2 D * long_gram D (dense_sampled cast toR (with_blocks env seed dflt t) sched D seed) a b) - delta a b) <=
    if (a =? b)%Z then / IZR (2 ^ W) * / IZR (2 ^ W) + 3.5 * eps + eps * eps else eps * eps.
  Proof.
    intros Ha Hb. pose proof (words_nonempty W HW) as NW.
    pose proof (mean_small W HW (fun w => toR (env_scal3 env (cast (tr w)))) eps Hv) as S1.
    pose proof (square_close W HW (fun w => toR (env_scal3 env (cast (tr w)))) eps Hv) as S2.
    clear Hv. cbv beta in S1, S2. revert NW S1 S2. generalize (range 0 (2 ^ W)) as words. intros words NW S1 S2.
    assert (HL : (2 <= L)%Z) by (destruct HF as ([_ [A _ _]] & _); lia).
    assert (P : (0 < Z.min nr nc)%Z) by (pose proof (mk_dense_dist_inv _ _ _ _ _ HD) as (P1 & P2 & _); lia).
    assert (L0 : (0 <= L)%Z) by lia.
    pose proof (long_gram_average cast toR env sched nr nc Uniform Long D seed Hs HD HF dflt (tr 0) _ Hd
      (fun b => block_len tr words L b L0) (blocks_nonempty tr words NW L) _ _
      (fun l => lane_mean tr (fun x => toR (env_scal3 env (cast x))) words NW L (tr 0%Z) 0%Z l)
      (fun l => lane_square tr (fun x => toR (env_scal3 env (cast x))) words NW L (tr 0%Z) 0%Z l)
      (fun l l' => lane_cross tr (fun x => toR (env_scal3 env (cast x))) words NW L (tr 0%Z) 0%Z l l') a b Ha Hb) as LG.
    cbn [env_gen] in LG. rewrite LG. clear LG.
    assert (PR : 0 < IZR (Z.min nr nc)) by (apply IZR_lt; lia). unfold Rdiv. rewrite Rinv_r by lra. rewrite Rmult_1_l. unfold delta.
    destruct (a =? b)%Z; [exact S2|]. rewrite Rminus_0_r, Rabs_mult. pose proof (Rabs_pos (average words (fun u => toR (env_scal3 env (cast (tr u)))))).
    apply Rmult_le_compat; assumption.
  Qed.
End UniformGram.
