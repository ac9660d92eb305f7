(** Distribution of the indices drawn by sample_indices_iid and sample_indices_iid_uniform. *)
From Verif Require Import Base Spec RngModel DenseModel DenseSpec SparseSkopModel FyProofs SamplerProofs SparseSpec IsoSpec IsoProofs PropsIso StatSpec StatProofs
  FloatModel FloatProofs FloatProofs2 FloatProofs3 CdfProofs PropsFloat DenseIsoProofs DenseIsoProofs2.
From Coq Require Import ZArith Reals Lra Psatz.
From Flocq Require Import Core BinarySingleNaN.
Local Open Scope R_scope.

(** ** Counting words *)
Lemma count_below N m : (0 <= m <= N)%Z -> count (fun j => j <? m)%Z (range 0 N) = m.
Proof.
  intros H. unfold count.
  assert (G : forall n lo, (lo <= m <= lo + Z.of_nat n)%Z -> zlen (filter (fun j => j <? m)%Z (zseq lo n)) = (m - lo)%Z).
  { clear N H. induction n as [|n IH]; intros lo H; cbn [zseq filter].
    - cbn. unfold zlen. cbn. lia.
    - destruct (Z.ltb_spec lo m).
      + rewrite zlen_cons, IH by lia. lia.
      + assert (m = lo) by lia. subst m. clear H0 H. unfold zlen.
        assert (E : filter (fun j => j <? lo)%Z (zseq (lo + 1) n) = []).
        { assert (X : forall x, In x (zseq (lo + 1) n) -> (x <? lo)%Z = false) by (intros x Hx; apply in_zseq in Hx; lia).
          induction (zseq (lo + 1) n) as [|x l IHl]; [reflexivity|]. cbn [filter]. rewrite X by now left. apply IHl. intros y Hy. apply X. now right. }
        rewrite E. cbn. lia. }
  unfold range. rewrite Z.sub_0_r. rewrite G by lia. lia.
Qed.

Section Words.
  Variable W : Z.
  Hypothesis HW : (0 < W)%Z.
  Notation N := (2 ^ W)%Z.
  (** The ideal value in (0,1) of a word: the middle of its cell. *)
  Definition mid (w : Z) : R := (ideal W w + 1) / 2.

  Lemma N_pos : 0 < IZR N.
  Proof using HW. apply IZR_lt. apply Z.pow_pos_nonneg; lia. Qed.

  Lemma mid_le_iff w x : mid w <= x <-> (signed W w + 2 ^ (W - 1) < Zfloor (IZR N * x + / 2))%Z.
  Proof using HW.
    pose proof N_pos as P. unfold mid, ideal. rewrite plus_IZR, mult_IZR.
    assert (E : IZR N = 2 * IZR (2 ^ (W - 1))).
    { rewrite <- mult_IZR. f_equal. replace W with (Z.succ (W - 1)) at 1 by lia. rewrite Z.pow_succ_r by lia. reflexivity. }
    set (j := (signed W w + 2 ^ (W - 1))%Z).
    assert (Ej : IZR j = IZR (signed W w) + IZR (2 ^ (W - 1))) by (unfold j; apply plus_IZR).
    assert (Em : ((2 * IZR (signed W w) + 1) / IZR N + 1) / 2 = (2 * IZR j + 1) / (2 * IZR N)).
    { rewrite Ej. replace (2 * (IZR (signed W w) + IZR (2 ^ (W - 1)))) with (2 * IZR (signed W w) + IZR N) by lra. field. lra. }
    rewrite Em. clear Em Ej E. split; intros H.
    - assert (2 * IZR j + 1 <= x * (2 * IZR N)).
      { apply (Rmult_le_compat_r (2 * IZR N)) in H; [|lra]. unfold Rdiv in H. rewrite Rmult_assoc, Rinv_l, Rmult_1_r in H by lra. exact H. }
      enough (j + 1 <= Zfloor (IZR N * x + / 2))%Z by lia. apply Zfloor_lub. rewrite plus_IZR. lra.
    - assert (j + 1 <= Zfloor (IZR N * x + / 2))%Z as H1 by lia. apply IZR_le in H1. rewrite plus_IZR in H1. pose proof (Zfloor_lb (IZR N * x + / 2)).
      apply (Rmult_le_reg_r (2 * IZR N)); [lra|]. unfold Rdiv. rewrite Rmult_assoc, Rinv_l, Rmult_1_r by lra. lra.
  Qed.

  Lemma mid_probability x : 0 <= x <= 1 -> Rabs (probability (range 0 N) (fun w => if Rle_dec (mid w) x then true else false) - x) <= / (2 * IZR N).
  Proof using HW.
    intros Hx. pose proof N_pos as P. set (m := Zfloor (IZR N * x + / 2)).
    assert (Hm : (0 <= m <= N)%Z).
    { split; [apply Zfloor_lub; nra|]. apply le_IZR. enough (IZR m < IZR N + 1). { apply IZR_le. apply Z.lt_succ_r. apply lt_IZR. unfold Z.succ. rewrite plus_IZR. lra. }
      pose proof (Zfloor_lb (IZR N * x + / 2)) as B. fold m in B. nra. }
    assert (E : probability (range 0 N) (fun w => if Rle_dec (mid w) x then true else false) = IZR m / IZR N).
    { unfold probability, average. f_equal.
      - rewrite (Rsum_ext _ (fun w => (fun s => if (s + 2 ^ (W - 1) <? m)%Z then 1 else 0) (signed W w))).
        + etransitivity; [exact (Rsum_signed W (fun s => if (s + 2 ^ (W - 1) <? m)%Z then 1 else 0) HW)|].
          assert (SH : forall n lo k, zseq (lo + k) n = map (fun x => x + k)%Z (zseq lo n)).
          { induction n as [|n IH]; intros lo k; cbn [zseq map]; [reflexivity|]. rewrite <- IH. do 2 f_equal. lia. }
          transitivity (Rsum (map (fun j => if (j <? m)%Z then 1 else 0) (range 0 N))).
          * unfold range. rewrite Z.sub_0_r. replace (zseq 0 (Z.to_nat N)) with (zseq (- 2 ^ (W - 1) + 2 ^ (W - 1)) (Z.to_nat N)) by (f_equal; lia). rewrite SH, map_map. reflexivity.
          * rewrite Rsum_count. now rewrite count_below.
        + intros w _. unfold indicator. pose proof (mid_le_iff w x) as I. fold m in I. destruct (Rle_dec (mid w) x) as [C|C], (Z.ltb_spec (signed W w + 2 ^ (W - 1)) m) as [C'|C']; try reflexivity; exfalso; [apply I in C; lia|now apply C, I].
      - rewrite INR_IZR_INZ. f_equal. fold (zlen (range 0 N)). rewrite zlen_range; lia. }
    rewrite E. pose proof (Zfloor_lb (IZR N * x + / 2)) as B1. pose proof (Zfloor_ub (IZR N * x + / 2)) as B2. fold m in B1, B2.
    replace (IZR m / IZR N - x) with ((IZR m - IZR N * x) / IZR N) by (field; lra).
    unfold Rdiv. rewrite Rabs_mult, (Rabs_pos_eq (/ IZR N)) by (left; now apply Rinv_0_lt_compat). rewrite Rinv_mult.
    apply Rmult_le_compat_r; [left; now apply Rinv_0_lt_compat|]. apply Rabs_le. lra.
  Qed.

  Lemma probability_le {A} (l : list A) P Q : (forall w, In w l -> P w = true -> Q w = true) -> probability l P <= probability l Q.
  Proof using.
    intros H. unfold probability, average. destruct (length l) as [|n] eqn:El.
    - destruct l; [|discriminate]. cbn. unfold Rdiv. lra.
    - apply Rmult_le_compat_r; [left; apply Rinv_0_lt_compat, lt_0_INR; lia|]. clear El n. induction l as [|x l IH]; cbn [map Rsum]; [lra|].
      assert (indicator (P x) <= indicator (Q x)).
      { specialize (H x (or_introl eq_refl)). unfold indicator. destruct (P x); [rewrite H by reflexivity; lra|destruct (Q x); lra]. }
      assert (Rsum (map (fun t => indicator (P t)) l) <= Rsum (map (fun t => indicator (Q t)) l)) by (apply IH; intros; apply H; auto; now right). lra.
  Qed.
  Lemma probability_range {A} (l : list A) P : 0 <= probability l P <= 1.
  Proof using.
    destruct l as [|a l].
    - unfold probability, average. cbn. unfold Rdiv. lra.
    - split.
      + unfold probability, average. apply Rmult_le_pos.
        * induction (a :: l) as [|x r IH]; cbn [map Rsum]; [lra|]. unfold indicator at 1. destruct (P x); lra.
        * left. apply Rinv_0_lt_compat, lt_0_INR. cbn. lia.
      + rewrite <- (probability_true (a :: l)) by discriminate. apply probability_le. reflexivity.
  Qed.

  (** A set of words that agrees with {mid <= x} up to d has probability x up to d. *)
  Lemma sandwich (P : Z -> bool) x d : 0 <= x <= 1 -> 0 <= d ->
    (forall w, (0 <= w < N)%Z -> P w = true -> mid w <= x + d) ->
    (forall w, (0 <= w < N)%Z -> mid w <= x - d -> P w = true) ->
    Rabs (probability (range 0 N) P - x) <= d + / (2 * IZR N).
  Proof using HW.
    intros Hx Hd Hu Hl. pose proof N_pos as HP. assert (0 < / (2 * IZR N)) by (apply Rinv_0_lt_compat; lra).
    pose proof (probability_range (range 0 N) P) as PR. apply Rabs_le. split.
    - destruct (Rle_lt_dec (x - d) 0) as [C|C]; [lra|].
      pose proof (mid_probability (x - d) ltac:(lra)) as M. apply Rabs_le_inv in M.
      assert (probability (range 0 N) (fun w => if Rle_dec (mid w) (x - d) then true else false) <= probability (range 0 N) P) as L.
      { apply probability_le. intros w Hw. apply in_range in Hw. destruct (Rle_dec (mid w) (x - d)); [|discriminate]. intros _. now apply Hl. }
      lra.
    - destruct (Rle_lt_dec 1 (x + d)) as [C|C]; [lra|].
      pose proof (mid_probability (x + d) ltac:(lra)) as M. apply Rabs_le_inv in M.
      assert (probability (range 0 N) P <= probability (range 0 N) (fun w => if Rle_dec (mid w) (x + d) then true else false)) as L.
      { apply probability_le. intros w Hw HP'. apply in_range in Hw. destruct (Rle_dec (mid w) (x + d)) as [|C']; [reflexivity|]. exfalso. now apply C', Hu. }
      lra.
  Qed.
End Words.

(** ** Values used as random numbers in [0,1] *)
Lemma u01_close p e {Hp : Prec_gt_0 p} {He : Prec_lt_emax p e} (Hbig : (70 < e)%Z) x : -1 <= x <= 1 ->
  Rabs (u01R p e x - (x + 1) / 2) <= 35 / 16 * bpow radix2 (- p).
Proof.
  intros Hx. assert (B64 : 2 <= bpow radix2 64) by (change 2 with (bpow radix2 1); apply bpow_le; lia).
  pose proof (rnd_err p e Hbig (x + 1)) as R1. rewrite (Rabs_pos_eq (x + 1)) in R1 by lra. specialize (R1 ltac:(lra)).
  assert (B : 0 <= rnd p e (x + 1) <= 2).
  { split.
    - apply Rle_trans with (rnd p e 0); [rewrite rnd_0; lra|apply rnd_le; try typeclasses eauto; lra].
    - apply Rle_trans with (rnd p e 2); [apply rnd_le; try typeclasses eauto; lra|]. rewrite rnd_2 by (typeclasses eauto || lia). lra. }
  pose proof (rnd_err p e Hbig (rnd p e (x + 1) / 2)) as R2. rewrite (Rabs_pos_eq (_ / 2)) in R2 by lra. specialize (R2 ltac:(lra)).
  unfold u01R. pose proof (bpow_gt_0 radix2 (- p)) as P. set (h := bpow radix2 (- p)) in *. set (a := rnd p e (x + 1)) in *. set (b := rnd p e (a / 2)) in *.
  apply Rabs_le_inv in R1, R2. apply Rabs_le. split; nra.
Qed.

Lemma inv_pow a b : (0 <= a)%Z -> / IZR (2 ^ a) = bpow radix2 b * bpow radix2 (- a - b).
Proof. intros H. rewrite IZR_pow, <- bpow_opp, <- bpow_plus by lia. f_equal. lia. Qed.
Lemma u01_float_close w : (0 <= w < 2 ^ 32)%Z -> Rabs (B2R (u01_32 (uneg11_32 w)) - mid 32 w) <= 67 / 16 * bpow radix2 (- 24).
Proof.
  intros Hw. destruct (uneg11_32_spec w) as (E & Fi & R). destruct (u01_32_spec (uneg11_32 w) Fi R) as (Eu & _). rewrite Eu.
  pose proof (u01_close 24 128 ltac:(lia) _ R) as C. destruct (C11_uniform_transformation_float w Hw) as (_ & _ & A & _).
  unfold mid, ideal. replace (/ IZR (2 ^ 22)) with (4 * bpow radix2 (- 24)) in A by (now rewrite (inv_pow 22 2) by lia).
  set (x := B2R (uneg11_32 w)) in *. set (y := IZR (2 * signed 32 w + 1) / IZR (2 ^ 32)) in *. change (- (24))%Z with (-24)%Z in *. change (- (53))%Z with (-53)%Z in *. change (- (23))%Z with (-23)%Z in *.
  set (h := bpow radix2 (-24)) in *. set (h' := bpow radix2 (-53)) in *. set (h'' := bpow radix2 (-23)) in *. clearbody h h' h'' x y. clear - A C. apply Rabs_le_inv in A, C. apply Rabs_le. lra.
Qed.
Lemma u01_wide_close w : (0 <= w < 2 ^ 32)%Z -> Rabs (B2R (u01_64 (to64 (uneg11_32 w))) - mid 32 w) <= bpow radix2 (- 23) + 35 / 16 * bpow radix2 (- 53).
Proof.
  intros Hw. destruct (uneg11_32_spec w) as (E & Fi & R). destruct (to64_ok _ Fi) as [E6 F6]. rewrite <- E6 in R. destruct (u01_64_spec _ F6 R) as (Eu & _). rewrite Eu.
  pose proof (u01_close 53 1024 ltac:(lia) _ R) as C. destruct (C11_uniform_transformation_float w Hw) as (_ & _ & A & _). rewrite E6 in *.
  unfold mid, ideal. replace (/ IZR (2 ^ 22)) with (2 * bpow radix2 (- 23)) in A by (now rewrite (inv_pow 22 1) by lia).
  set (x := B2R (uneg11_32 w)) in *. set (y := IZR (2 * signed 32 w + 1) / IZR (2 ^ 32)) in *. change (- (24))%Z with (-24)%Z in *. change (- (53))%Z with (-53)%Z in *. change (- (23))%Z with (-23)%Z in *.
  set (h := bpow radix2 (-24)) in *. set (h' := bpow radix2 (-53)) in *. set (h'' := bpow radix2 (-23)) in *. clearbody h h' h'' x y. clear - A C. apply Rabs_le_inv in A, C. apply Rabs_le. lra.
Qed.
Lemma u01_double_close w : (0 <= w < 2 ^ 64)%Z -> Rabs (B2R (u01_64 (uneg11_64 w)) - mid 64 w) <= 67 / 16 * bpow radix2 (- 53).
Proof.
  intros Hw. destruct (uneg11_64_spec w) as (E & Fi & R). destruct (u01_64_spec _ Fi R) as (Eu & _). rewrite Eu.
  pose proof (u01_close 53 1024 ltac:(lia) _ R) as C. destruct (C11_uniform_transformation_double w Hw) as (_ & _ & A & _).
  unfold mid, ideal. replace (/ IZR (2 ^ 51)) with (4 * bpow radix2 (- 53)) in A by (now rewrite (inv_pow 51 2) by lia).
  set (x := B2R (uneg11_64 w)) in *. set (y := IZR (2 * signed 64 w + 1) / IZR (2 ^ 64)) in *. change (- (24))%Z with (-24)%Z in *. change (- (53))%Z with (-53)%Z in *. change (- (23))%Z with (-23)%Z in *.
  set (h := bpow radix2 (-24)) in *. set (h' := bpow radix2 (-53)) in *. set (h'' := bpow radix2 (-23)) in *. clearbody h h' h'' x y. clear - A C. apply Rabs_le_inv in A, C. apply Rabs_le. lra.
Qed.

(** ** Laws on the indices *)
Definition law (W : Z) (idx : Z -> Z) (s : Z) : R := probability (range 0 (2 ^ W)) (fun w => idx w =? s)%Z.

Lemma law_nonneg W idx s : 0 <= law W idx s.
Proof. apply probability_range. Qed.
Lemma law_sum W idx m : (forall w, (0 <= w < 2 ^ W)%Z -> (0 <= idx w)%Z) -> (0 <= m)%Z ->
  Rsum (map (law W idx) (range 0 m)) = probability (range 0 (2 ^ W)) (fun w => idx w <? m)%Z.
Proof.
  intros Hp Hm. unfold law, probability, average. unfold Rdiv. rewrite (Rsum_ext _ (fun s => / INR (length (range 0 (2 ^ W))) * Rsum (map (fun t => indicator (idx t =? s)%Z) (range 0 (2 ^ W))))) by (intros; apply Rmult_comm).
  rewrite Rsum_scal, Rmult_comm. f_equal. rewrite Rsum_swap. apply Rsum_ext. intros w Hw. apply in_range in Hw. specialize (Hp w Hw).
  destruct (Z.ltb_spec (idx w) m).
  - rewrite (Rsum_one _ _ (idx w)); [unfold indicator; now rewrite Z.eqb_refl|apply NoDup_range|apply in_range; lia|].
    intros y _ Hy. unfold indicator. destruct (Z.eqb_spec (idx w) y); [congruence|reflexivity].
  - rewrite Rsum_zero; [reflexivity|]. intros y Hy. apply in_range in Hy. unfold indicator. destruct (Z.eqb_spec (idx w) y); [lia|reflexivity].
Qed.
Lemma law_zero W idx s : (forall w, (0 <= w < 2 ^ W)%Z -> idx w <> s) -> law W idx s = 0.
Proof.
  intros H. unfold law, probability, average. rewrite Rsum_zero; [unfold Rdiv; apply Rmult_0_l|]. intros w Hw. apply in_range in Hw. unfold indicator. destruct (Z.eqb_spec (idx w) s); [exfalso; now apply (H w)|reflexivity].
Qed.

Section Indices.
  Variable W : Z.
  Hypothesis HW : (0 < W)%Z.
  Variable u : Z -> R.
  Variable d : R.
  Hypothesis Hu : forall w, (0 <= w < 2 ^ W)%Z -> Rabs (u w - mid W w) <= d.

  Lemma d_nonneg : 0 <= d.
  Proof using HW Hu. eapply Rle_trans; [apply Rabs_pos|apply (Hu 0)]. split; [lia|apply Z.pow_pos_nonneg; lia]. Qed.

  (** Searching a CDF. *)
  Lemma cdf_law {p e} (idx : Z -> Z) n (cdf : list (binary_float p e)) s : (1 <= n <= zlen cdf)%Z -> sorted_finite cdf n ->
    (forall w, (0 <= w < 2 ^ W)%Z -> inverts n cdf (u w) (idx w)) ->
    (0 <= s < n)%Z -> 0 <= entry cdf s <= 1 ->
    Rabs (Rsum (map (law W idx) (range 0 (s + 1))) - entry cdf s) <= d + / (2 * IZR (2 ^ W)).
  Proof using HW Hu.
    intros Hn [Hf Hm] Hi Hs He.
    assert (Mono : forall i j, (0 <= i <= j)%Z -> (j < n)%Z -> entry cdf i <= entry cdf j).
    { intros i j Hij Hj. unfold entry. destruct (get_lt cdf i ltac:(lia)) as [x Gx]. destruct (get_lt cdf j ltac:(lia)) as [y Gy]. rewrite Gx, Gy. now apply (Hm i j). }
    rewrite law_sum by (try lia; intros w Hw; destruct (Hi w Hw) as (B & _); lia).
    apply sandwich; auto; [apply d_nonneg| |]; intros w Hw H; destruct (Hi w Hw) as (B & H1 & H2 & _); pose proof (Hu w Hw) as C; apply Rabs_le_inv in C.
    - assert (idx w <= s)%Z by lia. pose proof (H2 ltac:(lia)). pose proof (Mono (idx w) s ltac:(lia) ltac:(lia)). lra.
    - destruct (Z.ltb_spec (idx w) (s + 1)) as [L|L]; [reflexivity|exfalso].
      pose proof (H1 ltac:(lia)) as H1'. pose proof (Mono s (idx w - 1)%Z ltac:(lia) ltac:(lia)).
      assert (u w <= entry cdf s) by lra. lra.
  Qed.

  (** floor(n u), computed in double. *)
  Lemma floor_law (idx : Z -> Z) n m : (1 <= n <= 2 ^ 53)%Z ->
    (forall w, (0 <= w < 2 ^ W)%Z -> 0 <= u w <= 1 /\ idx w = Ztrunc (rnd64 (IZR n * u w))) ->
    (0 <= m <= n)%Z ->
    Rabs (Rsum (map (law W idx) (range 0 m)) - IZR m / IZR n) <= d + 5 / 4 * bpow radix2 (- 53) + / (2 * IZR (2 ^ W)).
  Proof using HW Hu.
    intros Hn Hi Hm. pose proof (bpow_gt_0 radix2 (- 53)) as Ph. set (h := bpow radix2 (- 53)) in *.
    assert (Pn : 1 <= IZR n) by (apply IZR_le; lia).
    assert (Hr : forall w, (0 <= w < 2 ^ W)%Z -> 0 <= rnd64 (IZR n * u w) /\ Rabs (rnd64 (IZR n * u w) - IZR n * u w) <= 9 / 8 * h * IZR n).
    { intros w Hw. destruct (Hi w Hw) as [B _]. split.
      - apply Rle_trans with (rnd64 0); [rewrite rnd_0; lra|]. apply rnd64_le. apply Rmult_le_pos; lra.
      - assert (B64 : IZR n <= bpow radix2 64).
        { apply Rle_trans with (IZR (2 ^ 53)); [apply IZR_le; lia|]. rewrite IZR_pow by lia. apply bpow_le. lia. }
        pose proof (rnd_err 53 1024 ltac:(lia) (IZR n * u w)) as E. rewrite (Rabs_pos_eq (IZR n * u w)) in E by nra. specialize (E ltac:(nra)). change (- (53))%Z with (-53)%Z in E. fold h in E.
        eapply Rle_trans; [exact E|]. assert (IZR n * u w <= IZR n) by nra. assert (h * (IZR n * u w) <= h * IZR n) by (apply Rmult_le_compat_l; lra). assert (h * 1 <= h * IZR n) by (apply Rmult_le_compat_l; lra). replace (9 / 8 * h * IZR n) with (h * IZR n + / 8 * (h * IZR n)) by field. lra. }
    clearbody h.
    rewrite law_sum.
    - assert (Hx : 0 <= IZR m / IZR n <= 1).
      { assert (0 <= IZR m <= IZR n) by (split; apply IZR_le; lia). split.
        - apply Rmult_le_pos; [lra|]. left. apply Rinv_0_lt_compat. lra.
        - apply (Rmult_le_reg_r (IZR n)); [lra|]. unfold Rdiv. rewrite Rmult_assoc, Rinv_l; lra. }
      assert (Ex : IZR m = IZR m / IZR n * IZR n) by (field; lra). set (x := IZR m / IZR n) in *.
      replace (d + 5 / 4 * h + / (2 * IZR (2 ^ W))) with ((d + 5 / 4 * h) + / (2 * IZR (2 ^ W))) by ring.
      apply sandwich; auto; [pose proof d_nonneg; lra| |]; intros w Hw H; destruct (Hi w Hw) as (B & E); destruct (Hr w Hw) as (R0 & R1); pose proof (Hu w Hw) as C; apply Rabs_le_inv in C, R1.
      + rewrite E, Ztrunc_floor in H by exact R0. assert (Zfloor (rnd64 (IZR n * u w)) + 1 <= m)%Z as Hf by lia. apply IZR_le in Hf. rewrite plus_IZR in Hf.
        pose proof (Zfloor_ub (rnd64 (IZR n * u w))). assert (IZR n * u w < (x + 9 / 8 * h) * IZR n) by lra.
        assert (u w < x + 9 / 8 * h) by (apply (Rmult_lt_reg_l (IZR n)); lra). lra.
      + apply Z.ltb_lt. rewrite E, Ztrunc_floor by exact R0. apply lt_IZR. eapply Rle_lt_trans; [apply Zfloor_lb|].
        assert (u w <= x - 5 / 4 * h) by lra. assert (IZR n * u w <= IZR n * (x - 5 / 4 * h)) by (apply Rmult_le_compat_l; lra). nra.
    - intros w Hw. destruct (Hi w Hw) as (B & ->). destruct (Hr w Hw) as (R0 & _). rewrite Ztrunc_floor by exact R0. apply Zfloor_lub. exact R0.
    - lia.
  Qed.
End Indices.

(** ** The samplers *)
Section TapePos.
  Context {K : Type}.
  Variable raw : generator K Z.
  Notation L := (g_len raw).
  (** Position on the tape of word e of draw i, with h draws per block and s words per draw. *)
  Definition tpos (h s : Z) (i e : Z) : nat := Z.to_nat (i / h * L + (s * (i mod h) + e)).

  Lemma tpos_inj h s i i' e e' : (1 <= h)%Z -> (1 <= s)%Z -> (s * h <= L)%Z -> (0 <= i)%Z -> (0 <= i')%Z -> (0 <= e < s)%Z -> (0 <= e' < s)%Z ->
    tpos h s i e = tpos h s i' e' -> i = i' /\ e = e'.
  Proof.
    intros Hh Hs HL Hi Hi' He He' E. unfold tpos in E.
    pose proof (Z.mod_pos_bound i h ltac:(lia)) as M. pose proof (Z.mod_pos_bound i' h ltac:(lia)) as M'.
    pose proof (Z.div_mod i h ltac:(lia)) as D. pose proof (Z.div_mod i' h ltac:(lia)) as D'.
    pose proof (Z.div_pos i h Hi ltac:(lia)) as P. pose proof (Z.div_pos i' h Hi' ltac:(lia)) as P'.
    set (a := (i / h)%Z) in *. set (b := (i mod h)%Z) in *. set (a' := (i' / h)%Z) in *. set (b' := (i' mod h)%Z) in *. clearbody a b a' b'.
    assert (B : (0 <= s * b + e < L)%Z) by nia. assert (B' : (0 <= s * b' + e' < L)%Z) by nia.
    assert (Q : (a * L + (s * b + e) = a' * L + (s * b' + e'))%Z) by nia. clear E.
    assert (a = a') by nia. subst a'. assert (s * b + e = s * b' + e')%Z by lia. assert (b = b') by nia. subst b'. split; [nia|lia].
  Qed.
  Lemma tpos_lt h s i e k : (1 <= h)%Z -> (1 <= s)%Z -> (s * h <= L)%Z -> (0 <= i < k)%Z -> (0 <= e < s)%Z ->
    (tpos h s i e < Z.to_nat (ceil_div k h * L))%nat.
  Proof.
    intros Hh Hs HL Hi He. unfold tpos. pose proof (Z.mod_pos_bound i h ltac:(lia)) as M.
    pose proof (Z.div_pos i h ltac:(lia) ltac:(lia)) as P.
    assert (i / h + 1 <= ceil_div k h)%Z as C.
    { enough (i / h < ceil_div k h)%Z by lia. apply Z.div_lt_upper_bound; [lia|]. unfold ceil_div. pose proof (Z.div_mod (k + h - 1) h ltac:(lia)). pose proof (Z.mod_pos_bound (k + h - 1) h ltac:(lia)). nia. }
    set (a := (i / h)%Z) in *. set (b := (i mod h)%Z) in *. set (c := ceil_div k h) in *. clearbody a b c. nia.
  Qed.
  Lemma tape_word st t blk lane w : (0 <= counter st < 2 ^ g_bits raw)%Z -> (0 <= blk < 2 ^ g_bits raw)%Z -> (0 <= lane < L)%Z ->
    word_of (tape_gen raw (counter st) 0%Z t) st blk lane w -> w = nth (Z.to_nat (blk * L + lane)) t 0%Z.
  Proof.
    intros Hc Hb Hl H. unfold word_of in H. cbn [g_bits tape_gen] in H.
    pose proof (tape_block raw (counter st) 0%Z t (key st) blk lane Hc Hb Hl) as E. unfold tape_gen in H, E. cbn [g_bits] in E. rewrite E in H. congruence.
  Qed.
End TapePos.

  Definition at_ {A} (d : A) (l : list A) (i : Z) : A := match get l i with Some x => x | None => d end.
  Lemma map_at {A B} (f : A -> B) d (l : list A) k : zlen l = k -> map (fun i => f (at_ d l i)) (range 0 k) = map f l.
  Proof.
    intros E. pose proof (zlen_nonneg l) as P. apply list_ext_get.
    - rewrite !zlen_map, zlen_range by lia. lia.
    - intros q Hq. rewrite zlen_map, zlen_range in Hq by lia. rewrite !get_map, get_range by lia. cbn. unfold at_. rewrite ?Z.add_0_l. destruct (get_lt l q) as [x G]; [lia|]. now rewrite G.
  Qed.

  Lemma forallb_map_c {A B} (f : A -> B) (p : B -> bool) l : forallb p (map f l) = forallb (fun x => p (f x)) l.
  Proof. induction l as [|x l IH]; cbn; [reflexivity|now rewrite IH]. Qed.
  Lemma NoDup_app_disjoint {A} (l1 l2 : list A) : NoDup l1 -> NoDup l2 -> (forall x, In x l1 -> In x l2 -> False) -> NoDup (l1 ++ l2).
  Proof.
    intros N1 N2 D. induction l1 as [|x l IH]; cbn; [exact N2|]. inversion N1 as [|? ? N3 N4]; subst. constructor.
    - intros Hx. apply in_app_or in Hx as [Hx|Hx]; [auto|]. apply (D x); [now left|exact Hx].
    - apply IH; [exact N4|]. intros y Hy. apply D. now right.
  Qed.


Section Sampler.
  Context {K F T : Type}.
  Variable eqT : forall x y : T, {x = y} + {x <> y}.
  Variable raw : generator K Z.
  Hypothesis Hraw : wf_generator raw.
  Variables (tr : Z -> F) (draw : F -> outcome Z) (dr : F -> Z) (nonneg : F -> bool) (one mone : T).
  Hypothesis Hd : forall x, draw x = Ok (dr x).
  Variable W : Z.
  Hypothesis HW : (0 < W)%Z.
  Notation L := (g_len raw).
  Notation words := (range 0 (2 ^ W)).
  Definition gen_of (st : rng_state K) (t : list Z) : generator K F :=
    mk_generator K F L (g_bits raw) (fun c k => map tr (g_fun (tape_gen raw (counter st) 0%Z t) c k)).

  Lemma writes_indices k st samples target t :
    (0 <= counter st < 2 ^ g_bits raw)%Z -> (ceil_div k L <= 2 ^ g_bits raw)%Z -> zlen samples = k -> zlen target = k ->
    writes eqT (sample_indices (gen_of st t) draw nonneg one mone k samples None st) target None =
    forallb (fun i => dr (tr (nth (tpos raw L 1 i 0) t 0%Z)) =? at_ 0 target i)%Z (range 0 k).
  Proof using Hraw Hd.
    intros Hc Hb Ls Lt. pose proof (zlen_nonneg samples) as Pk. pose proof Hraw as [HL _ _].
    pose proof (tape_gen_wf raw Hraw (counter st) 0%Z t) as Hg.
    destruct (iid_words (tape_gen raw (counter st) 0%Z t) tr draw dr nonneg one mone k samples None st Hg Hc ltac:(lia) ltac:(lia) I Hd) as (s' & r' & st' & E & L1 & _ & D).
    assert (r' = None) as ->.
    { assert (wf_generator (gen_of st t)) as Hg2.
      { destruct Hg as [G1 G2 G3]. split; [exact G1|exact G2|]. intros c ky. cbn [gen_of g_fun]. unfold zlen in *. rewrite map_length. apply G3. }
      destruct (sample_indices_spec (gen_of st t) draw dr nonneg one mone (tr 0%Z) Hg2 Hd k samples None st Hc ltac:(lia) ltac:(lia) I) as (s2 & r2 & E2 & _ & U2).
      change (gen_of st t) with (mk_generator K F (g_len (tape_gen raw (counter st) 0%Z t)) (g_bits (tape_gen raw (counter st) 0%Z t)) (fun c k => map tr (g_fun (tape_gen raw (counter st) 0%Z t) c k))) in E2.
      cbv zeta in E. rewrite E in E2. injection E2 as <- <- _. destruct r'; [contradiction|reflexivity]. }
    change (gen_of st t) with (mk_generator K F (g_len (tape_gen raw (counter st) 0%Z t)) (g_bits (tape_gen raw (counter st) 0%Z t)) (fun c k => map tr (g_fun (tape_gen raw (counter st) 0%Z t) c k))).
    cbv zeta in E. rewrite E. unfold writes. rewrite andb_true_r.
    assert (V : forall i, (0 <= i < k)%Z -> get s' i = Some (dr (tr (nth (tpos raw L 1 i 0) t 0%Z)))).
    { intros i Hi. destruct (D i Hi) as (w & Hw & G). rewrite G. do 3 f_equal. cbn [per_block per_draw tape_gen g_len] in Hw.
      pose proof (Z.mod_pos_bound i L ltac:(lia)). pose proof (Z.div_pos i L ltac:(lia) ltac:(lia)).
      assert (i / L < ceil_div k L)%Z.
      { apply Z.div_lt_upper_bound; [lia|]. unfold ceil_div. pose proof (Z.div_mod (k + L - 1) L ltac:(lia)). pose proof (Z.mod_pos_bound (k + L - 1) L ltac:(lia)). nia. }
      apply tape_word in Hw; [|exact Hc|lia|lia]. rewrite Hw. unfold tpos. do 2 f_equal. lia. }
    destruct (list_eq_dec Z.eq_dec s' target) as [->|N]; symmetry.
    - apply forallb_forall. intros i Hi. apply in_range in Hi. apply Z.eqb_eq. unfold at_. now rewrite V.
    - apply not_true_is_false. intros A. apply N. rewrite forallb_forall in A. apply list_ext_get; [lia|].
      intros i Hi. rewrite L1, Ls in Hi. rewrite V by exact Hi. specialize (A i). rewrite in_range, Z.eqb_eq in A. rewrite A by exact Hi.
      unfold at_. destruct (get_lt target i) as [x G]; [lia|]. now rewrite G.
  Qed.

  Lemma indices_law k st samples target :
    (0 <= counter st < 2 ^ g_bits raw)%Z -> (ceil_div k L <= 2 ^ g_bits raw)%Z -> zlen samples = k -> zlen target = k ->
    probability (tapes (Z.to_nat (ceil_div k L * L)) words) (fun t => writes eqT (sample_indices (gen_of st t) draw nonneg one mone k samples None st) target None) =
    Rprod (map (law W (fun w => dr (tr w))) target).
  Proof using Hraw Hd HW.
    intros Hc Hb Ls Lt. pose proof Hraw as [HL _ _]. erewrite probability_ext by (intros t _; apply writes_indices; assumption).
    etransitivity; [apply (probability_all words _ 0%Z (fun i => tpos raw L 1 i 0) (fun i w => dr (tr w) =? at_ 0 target i)%Z)|].
    - now apply words_nonempty.
    - intros i Hi. apply in_range in Hi. apply tpos_lt; lia.
    - apply NoDup_map_inj; [|apply NoDup_range]. intros x y Hx Hy E. apply in_range in Hx, Hy. apply tpos_inj in E; lia.
    - f_equal. apply (map_at (law W (fun w => dr (tr w))) 0%Z target k Lt).
  Qed.

  (** With signs: two words per draw. *)
  Lemma writes_signs k st samples r target sg t : one <> mone -> 
    (0 <= counter st < 2 ^ g_bits raw)%Z -> (ceil_div k (L / 2) <= 2 ^ g_bits raw)%Z -> zlen samples = k -> zlen r = k -> zlen target = k -> zlen sg = k ->
    writes eqT (sample_indices (gen_of st t) draw nonneg one mone k samples (Some r) st) target (Some (map (fun b : bool => if b then one else mone) sg)) =
    forallb (fun i => dr (tr (nth (tpos raw (L / 2) 2 i 0) t 0%Z)) =? at_ 0 target i)%Z (range 0 k) &&
    forallb (fun i => eqb (nonneg (tr (nth (tpos raw (L / 2) 2 i 1) t 0%Z))) (at_ false sg i)) (range 0 k).
  Proof using Hraw Hd.
    intros Hne Hc Hb Ls Lr Lt Lg. pose proof (zlen_nonneg samples) as Pk. pose proof Hraw as [HL _ _].
    pose proof (tape_gen_wf raw Hraw (counter st) 0%Z t) as Hg.
    destruct (iid_words (tape_gen raw (counter st) 0%Z t) tr draw dr nonneg one mone k samples (Some r) st Hg Hc ltac:(lia) ltac:(lia) ltac:(cbn; lia) Hd) as (s' & r1 & st1 & E & L1 & _ & D).
    destruct (iid_signs (tape_gen raw (counter st) 0%Z t) tr draw dr nonneg one mone k samples r st Hg Hc ltac:(lia) ltac:(lia) ltac:(lia) Hd) as (s2 & r' & st' & E' & L2 & _ & D').
    cbv zeta in E, E'. rewrite E in E'. injection E' as <- -> <-.
    change (gen_of st t) with (mk_generator K F (g_len (tape_gen raw (counter st) 0%Z t)) (g_bits (tape_gen raw (counter st) 0%Z t)) (fun c k => map tr (g_fun (tape_gen raw (counter st) 0%Z t) c k))).
    rewrite E. unfold writes. cbn [per_block per_draw tape_gen g_len] in D, D'.
    assert (H1 : (1 <= L / 2)%Z) by (apply Z.div_le_lower_bound; lia). assert (H2 : (2 * (L / 2) <= L)%Z) by (apply Z.mul_div_le; lia).
    set (h := (L / 2)%Z) in *.
    assert (Bk : forall i, (0 <= i < k)%Z -> (0 <= i / h < 2 ^ g_bits raw)%Z /\ (0 <= i mod h < h)%Z).
    { intros i Hi. pose proof (Z.mod_pos_bound i h ltac:(lia)). pose proof (Z.div_pos i h ltac:(lia) ltac:(lia)).
      assert (i / h < ceil_div k h)%Z.
      { apply Z.div_lt_upper_bound; [lia|]. unfold ceil_div. pose proof (Z.div_mod (k + h - 1) h ltac:(lia)). pose proof (Z.mod_pos_bound (k + h - 1) h ltac:(lia)). nia. }
      lia. }
    assert (V : forall i, (0 <= i < k)%Z -> get s' i = Some (dr (tr (nth (tpos raw h 2 i 0) t 0%Z)))).
    { intros i Hi. destruct (D i Hi) as (w & Hw & G). rewrite G. do 3 f_equal. destruct (Bk i Hi) as [B1 B2].
      apply tape_word in Hw; [|exact Hc|exact B1|lia]. rewrite Hw. unfold tpos. do 2 f_equal. lia. }
    assert (V' : forall i, (0 <= i < k)%Z -> get r' i = Some (if nonneg (tr (nth (tpos raw h 2 i 1) t 0%Z)) then one else mone)).
    { intros i Hi. destruct (D' i Hi) as (w & Hw & G). rewrite G. f_equal. destruct (Bk i Hi) as [B1 B2].
      apply tape_word in Hw; [|exact Hc|exact B1|lia]. rewrite Hw. reflexivity. }
    f_equal.
    - destruct (list_eq_dec Z.eq_dec s' target) as [->|N]; symmetry.
      + apply forallb_forall. intros i Hi. apply in_range in Hi. apply Z.eqb_eq. unfold at_. now rewrite V.
      + apply not_true_is_false. intros A. apply N. rewrite forallb_forall in A. apply list_ext_get; [lia|].
        intros i Hi. rewrite L1, Ls in Hi. rewrite V by exact Hi. specialize (A i). rewrite in_range, Z.eqb_eq in A. rewrite A by exact Hi.
        unfold at_. destruct (get_lt target i) as [x G]; [lia|]. now rewrite G.
    - destruct (list_eq_dec eqT r' _) as [E1|N]; symmetry.
      + apply forallb_forall. intros i Hi. apply in_range in Hi. specialize (V' i Hi). rewrite E1, get_map in V'. unfold at_.
        destruct (get_lt sg i) as [x G]; [lia|]. rewrite G in *. cbn in V'. injection V' as V'.
        destruct x, (nonneg _); cbn; congruence.
      + apply not_true_is_false. intros A. apply N. rewrite forallb_forall in A. apply list_ext_get; [rewrite zlen_map; lia|].
        intros i Hi. rewrite L2, Lr in Hi. rewrite V' by exact Hi. specialize (A i). rewrite in_range in A. specialize (A Hi). apply eqb_prop in A. rewrite A.
        rewrite get_map. unfold at_. destruct (get_lt sg i) as [x G]; [lia|]. rewrite G. reflexivity.
  Qed.

  Lemma signs_law k st samples r target sg : one <> mone -> probability words (fun w => nonneg (tr w)) = / 2 ->
    (0 <= counter st < 2 ^ g_bits raw)%Z -> (ceil_div k (L / 2) <= 2 ^ g_bits raw)%Z -> zlen samples = k -> zlen r = k -> zlen target = k -> zlen sg = k ->
    probability (tapes (Z.to_nat (ceil_div k (L / 2) * L)) words)
      (fun t => writes eqT (sample_indices (gen_of st t) draw nonneg one mone k samples (Some r) st) target (Some (map (fun b : bool => if b then one else mone) sg))) =
    Rprod (map (law W (fun w => dr (tr w))) target) * (/ 2) ^ Z.to_nat k.
  Proof using Hraw Hd HW.
    intros Hne Hhalf Hc Hb Ls Lr Lt Lg. pose proof Hraw as [HL _ _]. pose proof (zlen_nonneg samples) as Pk.
    erewrite probability_ext by (intros t _; apply writes_signs; assumption).
    assert (H1 : (1 <= L / 2)%Z) by (apply Z.div_le_lower_bound; lia). assert (H2 : (2 * (L / 2) <= L)%Z) by (apply Z.mul_div_le; lia).
    set (h := (L / 2)%Z) in *.
    set (P := fun (q : Z * Z) (w : Z) => if (snd q =? 0)%Z then (dr (tr w) =? at_ 0 target (fst q))%Z else eqb (nonneg (tr w)) (at_ false sg (fst q))).
    set (qs := map (fun i => (i, 0%Z)) (range 0 k) ++ map (fun i => (i, 1%Z)) (range 0 k)).
    erewrite (probability_ext _ _ (fun t => forallb (fun q => P q (nth (tpos raw h 2 (fst q) (snd q)) t 0%Z)) qs)).
    2: { intros t _. unfold qs. rewrite forallb_app. f_equal; rewrite forallb_map_c; reflexivity. }
    rewrite (probability_all words _ 0%Z (fun q => tpos raw h 2 (fst q) (snd q)) P qs).
    - unfold qs. rewrite map_app, Rprod_app, !map_map. f_equal.
      + f_equal. apply (map_at (law W (fun w => dr (tr w))) 0%Z target k Lt).
      + rewrite (Rprod_ext _ (fun _ => / 2)).
        * rewrite Rprod_const. f_equal. fold (range 0 k). pose proof (zlen_range 0 k ltac:(lia)) as Z0. unfold zlen in Z0. lia.
        * intros i _. unfold P. cbn [fst snd]. replace (1 =? 0)%Z with false by reflexivity. destruct (at_ false sg i).
          -- rewrite <- Hhalf. apply probability_ext. intros w _. now destruct (nonneg (tr w)).
          -- pose proof (words_nonempty W HW) as NW. pose proof (probability_true words NW) as T1.
             assert (S : probability words (fun w => nonneg (tr w)) + probability words (fun w => eqb (nonneg (tr w)) false) = 1).
             { rewrite <- T1. unfold probability, average, Rdiv. rewrite <- Rmult_plus_distr_r. f_equal. rewrite <- Rsum_plus. apply Rsum_ext. intros w _. unfold indicator. destruct (nonneg (tr w)); cbn; lra. }
             lra.
    - now apply words_nonempty.
    - intros q Hq. unfold qs in Hq. apply in_app_or in Hq as [Hq|Hq]; apply in_map_iff in Hq as (i & <- & Hi); apply in_range in Hi; cbn [fst snd]; apply tpos_lt; lia.
    - apply NoDup_map_inj.
      + intros x y Hx Hy E.
        assert (forall q, In q qs -> (0 <= fst q < k)%Z /\ (0 <= snd q < 2)%Z) as B.
        { intros q Hq. unfold qs in Hq. apply in_app_or in Hq as [Hq|Hq]; apply in_map_iff in Hq as (i & <- & Hi); apply in_range in Hi; cbn; lia. }
        destruct (B x Hx), (B y Hy). apply tpos_inj in E; try lia. destruct x, y; cbn in *. destruct E; congruence.
      + unfold qs. clear. assert (ND : forall c : Z, NoDup (map (fun i : Z => (i, c)) (range 0 k))) by (intros c; apply NoDup_map_inj; [congruence|apply NoDup_range]).
        apply NoDup_app_disjoint; auto. intros x Hx Hy. apply in_map_iff in Hx as (i & <- & _). apply in_map_iff in Hy as (j & E & _). congruence.
  Qed.
End Sampler.

(** ** Words among the largest *)
Lemma signed_probability W m : (0 < W)%Z -> (- 2 ^ (W - 1) <= m <= 2 ^ (W - 1))%Z ->
  probability (range 0 (2 ^ W)) (fun w => signed W w <? m)%Z = IZR (m + 2 ^ (W - 1)) / IZR (2 ^ W).
Proof.
  intros HW Hm.
  assert (E2 : (2 ^ W = 2 * 2 ^ (W - 1))%Z) by (replace W with (Z.succ (W - 1)) at 1 by lia; rewrite Z.pow_succ_r by lia; reflexivity).
  unfold probability, average. f_equal.
  - rewrite (Rsum_ext _ (fun w => (fun s => if (s + 2 ^ (W - 1) <? m + 2 ^ (W - 1))%Z then 1 else 0) (signed W w))).
    + etransitivity; [exact (Rsum_signed W (fun s => if (s + 2 ^ (W - 1) <? m + 2 ^ (W - 1))%Z then 1 else 0) HW)|].
      assert (SH : forall n lo k, zseq (lo + k) n = map (fun x => x + k)%Z (zseq lo n)).
      { induction n as [|n IH]; intros lo k; cbn [zseq map]; [reflexivity|]. rewrite <- IH. do 2 f_equal. lia. }
      transitivity (Rsum (map (fun j => if (j <? m + 2 ^ (W - 1))%Z then 1 else 0) (range 0 (2 ^ W)))).
      * unfold range. rewrite Z.sub_0_r. replace (zseq 0 (Z.to_nat (2 ^ W))) with (zseq (- 2 ^ (W - 1) + 2 ^ (W - 1)) (Z.to_nat (2 ^ W))) by (f_equal; lia). rewrite SH, map_map. reflexivity.
      * rewrite Rsum_count. rewrite count_below by lia. reflexivity.
    + intros w _. unfold indicator. destruct (Z.ltb_spec (signed W w) m), (Z.ltb_spec (signed W w + 2 ^ (W - 1)) (m + 2 ^ (W - 1))); try reflexivity; lia.
  - rewrite INR_IZR_INZ. f_equal. fold (zlen (range 0 (2 ^ W))). rewrite zlen_range; [lia|]. apply Z.pow_nonneg. lia.
Qed.

Lemma half_probability W : (0 < W)%Z -> probability (range 0 (2 ^ W)) (fun w => w <? 2 ^ (W - 1))%Z = / 2.
Proof.
  intros HW. pose proof (Z.pow_pos_nonneg 2 (W - 1) ltac:(lia) ltac:(lia)) as P.
  assert (E2 : (2 ^ W = 2 * 2 ^ (W - 1))%Z) by (replace W with (Z.succ (W - 1)) at 1 by lia; rewrite Z.pow_succ_r by lia; reflexivity).
  rewrite probability_count. rewrite zlen_range by lia. unfold count. change (zlen (filter (fun w => w <? 2 ^ (W - 1))%Z (range 0 (2 ^ W)))) with (count (fun w => w <? 2 ^ (W - 1))%Z (range 0 (2 ^ W))).
  rewrite count_below by lia. rewrite Z.sub_0_r, E2, mult_IZR. apply IZR_lt in P. field. lra.
Qed.

(** The laws are probability distributions on 0..n. *)
Lemma law_is_law W idx n : (0 < W)%Z -> (0 <= n)%Z -> (forall w, (0 <= w < 2 ^ W)%Z -> (0 <= idx w <= n)%Z) -> is_law n (law W idx).
Proof.
  intros HW Hn H. split; [intros s; apply law_nonneg|]. split.
  - intros s Hs. apply law_zero. intros w Hw E. specialize (H w Hw). lia.
  - rewrite law_sum by (try lia; intros w Hw; specialize (H w Hw); lia).
    rewrite <- (probability_true (range 0 (2 ^ W)) (words_nonempty W HW)). apply probability_ext. intros w Hw. apply in_range in Hw. specialize (H w Hw). lia.
Qed.
Lemma range_snoc n : (0 <= n)%Z -> range 0 (n + 1) = range 0 n ++ [n].
Proof.
  intros H. unfold range. rewrite !Z.sub_0_r. replace (Z.to_nat (n + 1)) with (Z.to_nat n + 1)%nat by lia.
  assert (G : forall a lo, zseq lo (a + 1) = zseq lo a ++ [lo + Z.of_nat a]%Z).
  { induction a as [|a IH]; intros lo; cbn [zseq Nat.add app]; [do 2 f_equal; cbn; lia|]. rewrite IH. do 3 f_equal. lia. }
  rewrite G. do 2 f_equal. lia.
Qed.
Lemma law_last W idx n m : (0 < W)%Z -> (0 <= n)%Z -> (forall w, (0 <= w < 2 ^ W)%Z -> (0 <= idx w <= n)%Z) ->
  (- 2 ^ (W - 1) <= 2 ^ (W - 1) - m <= 2 ^ (W - 1))%Z ->
  (forall w, (0 <= w < 2 ^ W)%Z -> (idx w < n)%Z <-> (signed W w < 2 ^ (W - 1) - m)%Z) -> law W idx n = IZR m / IZR (2 ^ W).
Proof.
  intros HW Hn H Hm HI. pose proof (N_pos W HW) as P.
  destruct (law_is_law W idx n HW Hn H) as (_ & _ & S). rewrite range_snoc, map_app, Rsum_app in S by exact Hn. cbn [map Rsum] in S. rewrite Rplus_0_r in S.
  rewrite law_sum in S by (try lia; intros w Hw; specialize (H w Hw); lia).
  rewrite (probability_ext _ _ (fun w => signed W w <? 2 ^ (W - 1) - m)%Z) in S.
  - rewrite signed_probability in S by assumption.
    assert (E2 : (2 ^ W = 2 * 2 ^ (W - 1))%Z) by (replace W with (Z.succ (W - 1)) at 1 by lia; rewrite Z.pow_succ_r by lia; reflexivity).
    replace (2 ^ (W - 1) - m + 2 ^ (W - 1))%Z with (2 ^ W - m)%Z in S by lia. rewrite minus_IZR in S.
    assert (IZR m / IZR (2 ^ W) = 1 - (IZR (2 ^ W) - IZR m) / IZR (2 ^ W)) by (field; lra). lra.
  - intros w Hw. apply in_range in Hw. specialize (HI w Hw). destruct (Z.ltb_spec (idx w) n), (Z.ltb_spec (signed W w) (2 ^ (W - 1) - m)); try reflexivity; lia.
Qed.

Lemma uniform_index_val n (x : b64) : (1 <= n <= 2 ^ 53)%Z -> is_finite (u01_64 x) = true -> 0 <= B2R (u01_64 x) <= 1 ->
  uniform_index n x = Ztrunc (rnd64 (IZR n * B2R (u01_64 x))).
Proof.
  intros Hn Fu Bu. unfold uniform_index. rewrite (Btrunc_val (of_Z64 n)).
  destruct (of_Z64_exact n ltac:(lia)) as [En Fn]. rewrite En, Ztrunc_IZR.
  assert (1 <= IZR n) as Rn1 by (apply IZR_le; lia).
  assert (IZR n <= bpow radix2 70) as Rn2.
  { apply Rle_trans with (IZR (2 ^ 53)); [apply IZR_le; lia|]. rewrite IZR_pow by lia. apply bpow_le. lia. }
  destruct (mult_ok 53 1024 ltac:(lia) (of_Z64 n) (u01_64 x) Fn Fu) as [Em Fm].
  { rewrite En. rewrite Rabs_pos_eq by nra. nra. }
  fold (mul64 (of_Z64 n) (u01_64 x)) in Em, Fm. now rewrite Btrunc_val, Em, En.
Qed.

(** ** The last index *)
(** The largest u below 1 that a 32-bit word gives is 1 - 2^-25. *)
Lemma top_u : B2R (u01_64 (to64 (uneg11_32 (2 ^ 31 - 65)))) = 1 - bpow radix2 (-25).
Proof.
  erewrite B2R_SF by (vm_compute; reflexivity). unfold SF2R, F2R. cbn [Fnum Fexp cond_Zopp].
  change (bpow radix2 (-25)) with (/ 33554432). cbn. lra.
Qed.
Lemma u_below w : B2R (u01_64 (to64 (uneg11_32 w))) < 1 -> B2R (u01_64 (to64 (uneg11_32 w))) <= 1 - bpow radix2 (-25).
Proof.
  intros H. apply u01_lt_32 in H. rewrite <- top_u.
  destruct (uneg11_32_spec w) as (E & Fi & Bx). destruct (to64_ok _ Fi) as [E64 F64].
  destruct (u01_64_spec _ F64) as (Eu & _); [rewrite E64; exact Bx|].
  destruct (uneg11_32_spec (2 ^ 31 - 65)) as (E2 & F2 & B2). destruct (to64_ok _ F2) as [E3 F3].
  destruct (u01_64_spec _ F3) as (E4 & _); [rewrite E3; exact B2|].
  rewrite Eu, E4, E64, E3. apply u01_mono; [typeclasses eauto..|]. rewrite E, E2. apply u11_mono; [typeclasses eauto..|].
  change (to_sint 32 (2 ^ 31 - 65)) with (2 ^ 31 - 65)%Z. lia.
Qed.
Lemma top_product n : (1 <= n <= 2 ^ 27)%Z -> rnd64 (IZR n * (1 - bpow radix2 (-25))) = IZR n - IZR n * bpow radix2 (-25).
Proof.
  intros Hn. replace (IZR n * (1 - bpow radix2 (-25))) with (IZR n - IZR n * bpow radix2 (-25)) by ring.
  unfold rnd. apply round_generic; [typeclasses eauto|]. change (SpecFloat.fexp 53 1024) with (FLT_exp (3 - 1024 - 53) 53).
  apply generic_format_FLT. exists (Float radix2 (n * (2 ^ 25 - 1)) (-25)); cbn [Fnum Fexp].
  - unfold F2R. cbn [Fnum Fexp]. rewrite mult_IZR, minus_IZR. change (IZR (2 ^ 25)) with (bpow radix2 25).
    replace (IZR n * (bpow radix2 25 - 1) * bpow radix2 (-25)) with (IZR n * (bpow radix2 25 * bpow radix2 (-25)) - IZR n * bpow radix2 (-25)) by ring.
    rewrite <- bpow_plus. cbn. ring.
  - change (radix_val radix2 ^ 53)%Z with (2 ^ 53)%Z. nia.
  - lia.
Qed.
Lemma last_index n w : (1 <= n <= 2 ^ 53)%Z -> (uniform_index_32 n (uneg11_32 w) = n - 1)%Z -> (n <= 2 ^ 25)%Z.
Proof.
  intros Hn E. destruct (Z_le_gt_dec n (2 ^ 25)) as [|G]; [assumption|exfalso].
  destruct (uneg11_32_spec w) as (_ & Fi & Bx). destruct (to64_ok _ Fi) as [E64 F64].
  destruct (u01_64_spec _ F64) as (Eu & Fu & Bu); [rewrite E64; exact Bx|].
  unfold uniform_index_32 in E. rewrite (uniform_index_val n _ Hn Fu Bu) in E.
  assert (1 <= IZR n) as Rn1 by (apply IZR_le; lia).
  destruct (Rle_lt_or_eq_dec _ _ (proj2 Bu)) as [L|L].
  - apply u_below in L. set (u := B2R (u01_64 (to64 (uneg11_32 w)))) in *.
    assert (P0 : 0 <= rnd64 (IZR n * u)).
    { apply Rle_trans with (rnd64 0); [rewrite rnd_0; lra|]. apply rnd64_le. apply Rmult_le_pos; lra. }
    rewrite Ztrunc_floor in E by exact P0.
    assert (P1 : rnd64 (IZR n * u) <= rnd64 (IZR n * (1 - bpow radix2 (-25)))) by (apply rnd64_le; apply Rmult_le_compat_l; lra).
    assert (P2 : rnd64 (IZR n * (1 - bpow radix2 (-25))) < IZR n - 1).
    { destruct (Z_le_gt_dec n (2 ^ 27)) as [H|H].
      - rewrite top_product by lia. assert (IZR (2 ^ 25) < IZR n) by (apply IZR_lt; lia). change (IZR (2 ^ 25)) with (bpow radix2 25) in H0.
        assert (bpow radix2 25 * bpow radix2 (-25) = 1) by (rewrite <- bpow_plus; reflexivity). pose proof (bpow_gt_0 radix2 (-25)). nra.
      - apply Rle_lt_trans with (rnd64 (IZR (n - 2))).
        + apply rnd64_le. rewrite minus_IZR. assert (IZR (2 ^ 27) <= IZR n) by (apply IZR_le; lia). change (IZR (2 ^ 27)) with (bpow radix2 27) in H0.
          assert (bpow radix2 27 * bpow radix2 (-25) = 4) by (rewrite <- bpow_plus; reflexivity). pose proof (bpow_gt_0 radix2 (-25)). nra.
        + unfold rnd. rewrite round_generic; [|typeclasses eauto|apply int_format; lia]. rewrite minus_IZR. lra. }
    pose proof (Zfloor_lb (rnd64 (IZR n * u))) as B. rewrite E, minus_IZR in B. lra.
  - rewrite L, Rmult_1_r in E. unfold rnd in E. rewrite round_generic in E; [|typeclasses eauto|apply int_format; lia]. rewrite Ztrunc_IZR in E. lia.
Qed.
Lemma last_index_drawn n : (1 <= n <= 2 ^ 25)%Z -> (uniform_index_32 n (uneg11_32 (2 ^ 31 - 65)) = n - 1)%Z.
Proof.
  intros Hn. destruct (uneg11_32_spec (2 ^ 31 - 65)) as (_ & Fi & Bx). destruct (to64_ok _ Fi) as [E64 F64].
  destruct (u01_64_spec _ F64) as (Eu & Fu & Bu); [rewrite E64; exact Bx|].
  unfold uniform_index_32. rewrite (uniform_index_val n _ ltac:(lia) Fu Bu), top_u, top_product by lia.
  assert (1 <= IZR n <= bpow radix2 25) as Rn1. { split; [apply IZR_le; lia|]. change (bpow radix2 25) with (IZR (2 ^ 25)). apply IZR_le. lia. }
  assert (bpow radix2 25 * bpow radix2 (-25) = 1) by (rewrite <- bpow_plus; reflexivity). pose proof (bpow_gt_0 radix2 (-25)).
  assert (IZR n * bpow radix2 (-25) <= 1) by nra. assert (0 < IZR n * bpow radix2 (-25)) by nra.
  rewrite Ztrunc_floor by lra. apply Zfloor_imp. rewrite plus_IZR, minus_IZR. lra.
Qed.
