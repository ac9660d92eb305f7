(** Moments of sums of independent symmetric terms, and of the values uneg11 makes of a word
    in exact arithmetic (used by PropsTail.v). *)
From Coq Require Import ZArith Reals Lra Psatz.
From Verif Require Import Base Spec PropsFloat IsoSpec IsoProofs PropsIso StatSpec StatProofs DenseIsoProofs2 NormSpec NormProofs NormProofs3 NormProofs4 TailProofs.
Local Open Scope R_scope.

Lemma pow_even_nonneg x k : 0 <= x ^ (2 * k). Proof. rewrite pow_mult. apply pow_le, pow2_ge_0. Qed.
Lemma parity n : exists k, n = (2 * k)%nat \/ n = S (2 * k).
Proof. induction n as [|n (k & [->| ->])]; [exists O; now left|exists k; now right|exists (S k); left; lia]. Qed.
Lemma INR_odd k : INR (S (2 * k)) = 2 * INR k + 1.
Proof. rewrite S_INR, mult_INR. change (INR 2) with 2. reflexivity. Qed.
Lemma C_pos n i : 0 < C n i.
Proof. unfold C. apply Rdiv_lt_0_compat; [apply INR_fact_pos|]. apply Rmult_lt_0_compat; apply INR_fact_pos. Qed.

(** ** Sums of independent symmetric terms *)
Section Terms.
  Context {T : Type}.
  Variable ts : list T.
  Variables d q : Z.
  (** Term i of row r, and the relation between draws that differ in that term only. *)
  Variable w : T -> Z -> Z -> R.
  Variable res : Z -> Z -> T -> T -> Prop.
  Hypothesis Hres : forall r i r' i' t t', (0 <= r < d)%Z -> (0 <= i < q)%Z -> (0 <= r' < d)%Z -> (0 <= i' < q)%Z -> (r, i) <> (r', i') ->
    In t ts -> res r i t t' -> w t' r' i' = w t r' i'.
  Definition indep (r i : Z) (G : T -> R) : Prop := forall t t', In t ts -> res r i t t' -> G t' = G t.
  Variable M : Z -> Z -> nat -> R.
  Hypothesis Hind : forall r i n G, (0 <= r < d)%Z -> (0 <= i < q)%Z -> indep r i G ->
    Rsum (map (fun t => w t r i ^ n * G t) ts) = M r i n * Rsum (map G ts).
  Variable a : Z -> R.
  Hypothesis Ha : forall i, (0 <= i < q)%Z -> 0 <= a i.
  Hypothesis Hodd : forall r i k, (0 <= r < d)%Z -> (0 <= i < q)%Z -> M r i (S (2 * k)) = 0.
  Hypothesis Heven : forall r i k, (0 <= r < d)%Z -> (0 <= i < q)%Z -> 0 <= M r i (2 * k) <= dfact k * a i ^ k.
  Definition partial_sum (t : T) (r j : Z) : R := Rsum (map (fun i => w t r i) (range 0 j)).
  Definition total (j : Z) : R := Rsum (map a (range 0 j)).
  Lemma partial_S t r j : (0 <= j)%Z -> partial_sum t r (j + 1) = partial_sum t r j + w t r j.
  Proof. intros H. unfold partial_sum. rewrite range_snoc, map_app, Rsum_app by lia. cbn [map Rsum]. lra. Qed.
  Lemma total_S j : (0 <= j)%Z -> total (j + 1) = total j + a j.
  Proof. intros H. unfold total. rewrite range_snoc, map_app, Rsum_app by lia. cbn [map Rsum]. lra. Qed.
  Lemma total_nonneg j : (0 <= j <= q)%Z -> 0 <= total j.
  Proof. intros H. apply Rsum_nonneg. intros i Hi. apply in_range in Hi. apply Ha. lia. Qed.
  Lemma partial_indep r i r' j : (0 <= r < d)%Z -> (0 <= i < q)%Z -> (0 <= r' < d)%Z -> (0 <= j <= q)%Z -> (r <> r' \/ j <= i)%Z -> indep r i (fun t => partial_sum t r' j).
  Proof. intros Hr Hi Hr' Hj N t t' Ht Hres'. unfold partial_sum. apply Rsum_ext. intros x Hx. apply in_range in Hx. apply (Hres r i); auto; try lia. intros E. injection E as <- <-. lia. Qed.
  Lemma expand r j n G : (0 <= r < d)%Z -> (0 <= j < q)%Z -> indep r j G ->
    Rsum (map (fun t => partial_sum t r (j + 1) ^ n * G t) ts) =
    sum_f_R0 (fun i => C n i * (M r j (n - i) * Rsum (map (fun t => partial_sum t r j ^ i * G t) ts))) n.
  Proof.
    intros Hr Hj HG. rewrite (Rsum_ext _ (fun t => sum_f_R0 (fun i => C n i * (w t r j ^ (n - i) * (partial_sum t r j ^ i * G t))) n)).
    2: { intros t _. rewrite partial_S by lia. rewrite binomial, Rmult_comm, scal_sum. apply sum_eq. intros i _. ring. }
    rewrite Rsum_sum_f. apply sum_eq. intros i _. rewrite Rsum_scal. f_equal. apply (Hind r j (n - i)); auto.
    intros t t' Ht HR. rewrite (HG t t' Ht HR). rewrite (partial_indep r j r j Hr Hj Hr ltac:(lia) ltac:(right; lia) t t' Ht HR). reflexivity.
  Qed.
  Lemma sum_moments r G : (0 <= r < d)%Z -> (forall i, (0 <= i < q)%Z -> indep r i G) -> (forall t, In t ts -> 0 <= G t) ->
    forall j, (0 <= j <= q)%Z ->
    (forall k, Rsum (map (fun t => partial_sum t r j ^ S (2 * k) * G t) ts) = 0) /\
    (forall k, Rsum (map (fun t => partial_sum t r j ^ (2 * k) * G t) ts) <= dfact k * total j ^ k * Rsum (map G ts)).
  Proof.
    intros Hr HG HP j Hj. assert (SG : 0 <= Rsum (map G ts)) by (now apply Rsum_nonneg).
    assert (Gn : forall n, (Z.of_nat n <= q)%Z ->
      (forall k, Rsum (map (fun t => partial_sum t r (Z.of_nat n) ^ S (2 * k) * G t) ts) = 0) /\
      (forall k, Rsum (map (fun t => partial_sum t r (Z.of_nat n) ^ (2 * k) * G t) ts) <= dfact k * total (Z.of_nat n) ^ k * Rsum (map G ts))).
    2: { specialize (Gn (Z.to_nat j) ltac:(lia)). rewrite Z2Nat.id in Gn by lia. exact Gn. }
    induction n as [|n IH]; intros Hn.
    - change (Z.of_nat 0) with 0%Z. unfold partial_sum, total. change (range 0 0) with (@nil Z). cbn [map Rsum]. split.
      + intros k. rewrite (Rsum_ext _ (fun _ => 0)); [rewrite Rsum_const; lra|]. intros t _. rewrite pow_ne_zero by lia. lra.
      + intros [|k]; [rewrite dfact_0; change (2 * 0)%nat with 0%nat; cbn [pow]; right; transitivity (Rsum (map G ts)); [apply Rsum_ext; intros; ring|ring]|].
        rewrite (pow_ne_zero (S k)) by lia. rewrite (Rsum_ext _ (fun _ => 0)); [rewrite Rsum_const; lra|]. intros t _. rewrite pow_ne_zero by lia. lra.
    - destruct IH as [IO IE]; [lia|]. rewrite Nat2Z.inj_succ. unfold Z.succ. set (j0 := Z.of_nat n) in *. assert (J : (0 <= j0 < q)%Z) by lia. split.
      + intros k. rewrite expand by auto. apply sum_zero. intros i Hi. destruct (parity i) as (p & [->| ->]).
        * replace (S (2 * k) - 2 * p)%nat with (S (2 * (k - p))) by lia. rewrite Hodd by assumption. lra.
        * rewrite IO. lra.
      + intros k. rewrite expand by auto. rewrite sum_even by (intros i; rewrite IO; lra). rewrite total_S by lia. rewrite binomial.
        rewrite (Rmult_comm (dfact k)), Rmult_assoc, (Rmult_comm _ (dfact k * _)), scal_sum. apply sum_Rle. intros i Hi.
        replace (2 * k - 2 * i)%nat with (2 * (k - i))%nat by lia. destruct (Heven r j0 (k - i) Hr J) as [E0 E1].
        assert (PP : 0 <= Rsum (map (fun t => partial_sum t r j0 ^ (2 * i) * G t) ts)) by (apply Rsum_nonneg; intros t Ht; apply Rmult_le_pos; [apply pow_even_nonneg|auto]).
        apply (Rle_trans _ (C (2 * k) (2 * i) * (dfact (k - i) * a j0 ^ (k - i) * (dfact i * total j0 ^ i * Rsum (map G ts))))).
        * apply Rmult_le_compat_l; [apply Rlt_le, C_pos|]. apply Rmult_le_compat; auto.
        * right. replace (C (2 * k) (2 * i) * (dfact (k - i) * a j0 ^ (k - i) * (dfact i * total j0 ^ i * Rsum (map G ts)))) with
            (C (2 * k) (2 * i) * (dfact i * dfact (k - i)) * (a j0 ^ (k - i) * total j0 ^ i * Rsum (map G ts))) by ring. rewrite dfact_conv by lia. ring.
  Qed.
  Variable v : R.
  Hypothesis Hvar : forall r i, (0 <= r < d)%Z -> (0 <= i < q)%Z -> v * a i <= M r i 2.
  Lemma sum_variance r G : (0 <= r < d)%Z -> (forall i, (0 <= i < q)%Z -> indep r i G) -> (forall t, In t ts -> 0 <= G t) ->
    forall j, (0 <= j <= q)%Z -> v * total j * Rsum (map G ts) <= Rsum (map (fun t => partial_sum t r j ^ 2 * G t) ts).
  Proof.
    intros Hr HG HP j Hj. assert (SG : 0 <= Rsum (map G ts)) by (now apply Rsum_nonneg).
    assert (Gn : forall n, (Z.of_nat n <= q)%Z -> v * total (Z.of_nat n) * Rsum (map G ts) <= Rsum (map (fun t => partial_sum t r (Z.of_nat n) ^ 2 * G t) ts)).
    2: { specialize (Gn (Z.to_nat j) ltac:(lia)). rewrite Z2Nat.id in Gn by lia. exact Gn. }
    induction n as [|n IH]; intros Hn.
    - change (Z.of_nat 0) with 0%Z. unfold total. change (range 0 0) with (@nil Z). cbn [map Rsum]. rewrite Rmult_0_r, Rmult_0_l. apply Rsum_nonneg. intros t Ht. apply Rmult_le_pos; [apply pow2_ge_0|auto].
    - specialize (IH ltac:(lia)). rewrite Nat2Z.inj_succ. unfold Z.succ. set (j0 := Z.of_nat n) in *. assert (J : (0 <= j0 < q)%Z) by lia.
      rewrite expand by auto. cbn [sum_f_R0 Nat.sub]. pose proof (sum_moments r G Hr HG HP j0 ltac:(lia)) as [IO _]. pose proof (IO O) as I1. change (S (2 * 0)) with 1%nat in I1.
      rewrite I1, total_S by lia. assert (C20 : C 2 0 = 1) by (unfold C; cbn; lra). assert (C22 : C 2 2 = 1) by (unfold C; cbn; lra). rewrite C20, C22.
      assert (M0 : M r j0 0 * Rsum (map (fun t => partial_sum t r j0 ^ 2 * G t) ts) = Rsum (map (fun t => partial_sum t r j0 ^ 2 * G t) ts)).
      { rewrite <- (Hind r j0 0); auto. { apply Rsum_ext. intros; cbn [pow]; lra. }
        intros t t' Ht HR. rewrite (HG j0 J t t' Ht HR). rewrite (partial_indep r j0 r j0 Hr J Hr ltac:(lia) ltac:(right; lia) t t' Ht HR). reflexivity. }
      rewrite M0. assert (E0 : Rsum (map (fun t => partial_sum t r j0 ^ 0 * G t) ts) = Rsum (map G ts)) by (apply Rsum_ext; intros; cbn [pow]; lra). rewrite E0.
      pose proof (Rmult_le_compat_r _ _ _ SG (Hvar r j0 Hr J)). lra.
  Qed.
  (** The hypotheses of the Chernoff bounds. *)
  Lemma energy_indep r i c : (0 <= r < d)%Z -> (0 <= i < q)%Z -> indep r i (fun t => exp (c * energy (fun t r => partial_sum t r q) r t)).
  Proof.
    intros Hr Hi t t' Ht HR. do 2 f_equal. unfold energy. apply Rsum_ext. intros s Hs. apply in_range in Hs. f_equal.
    apply (partial_indep r i s q Hr Hi ltac:(lia) ltac:(lia) ltac:(left; lia) t t' Ht HR).
  Qed.
  Lemma energy_moments r k c : (0 <= q)%Z -> (0 <= r < d)%Z -> let z t r := partial_sum t r q in
    Rsum (map (fun t => z t r ^ (2 * k) * exp (c * energy z r t)) ts) <= dfact k * total q ^ k * Rsum (map (fun t => exp (c * energy z r t)) ts).
  Proof.
    intros Hq Hr z. apply (sum_moments r (fun t => exp (c * energy z r t)) Hr); [|intros; apply Rlt_le, exp_pos|lia]. intros i Hi. now apply energy_indep.
  Qed.
  Lemma energy_variance r c : (0 <= q)%Z -> (0 <= r < d)%Z -> let z t r := partial_sum t r q in
    v * total q * Rsum (map (fun t => exp (c * energy z r t)) ts) <= Rsum (map (fun t => z t r ^ 2 * exp (c * energy z r t)) ts).
  Proof.
    intros Hq Hr z. apply (sum_variance r (fun t => exp (c * energy z r t)) Hr); [|intros; apply Rlt_le, exp_pos|lia]. intros i Hi. now apply energy_indep.
  Qed.
End Terms.

(** ** Moments of sqrt(3) (2s+1)/2^W over the signed words *)
Lemma odd_pow_gap x k : 2 * INR (S (2 * k)) * x ^ (2 * k) <= (x + 1) ^ S (2 * k) - (x - 1) ^ S (2 * k) /\
  2 * x ^ (2 * S k) <= x * ((x + 1) ^ S (2 * k) + (x - 1) ^ S (2 * k)).
Proof.
  induction k as [|k [ID IS]]; [cbn; split; nra|].
  assert (E : forall y, y ^ S (2 * S k) = y * y * y ^ S (2 * k)) by (intros y; replace (S (2 * S k)) with (2 + S (2 * k))%nat by lia; rewrite pow_add; ring).
  rewrite !E. set (D := (x + 1) ^ S (2 * k) - (x - 1) ^ S (2 * k)) in *. set (S' := (x + 1) ^ S (2 * k) + (x - 1) ^ S (2 * k)) in *.
  replace ((x + 1) * (x + 1) * (x + 1) ^ S (2 * k) - (x - 1) * (x - 1) * (x - 1) ^ S (2 * k)) with ((x * x + 1) * D + 2 * (x * S')) by (unfold D, S'; ring).
  replace (x * ((x + 1) * (x + 1) * (x + 1) ^ S (2 * k) + (x - 1) * (x - 1) * (x - 1) ^ S (2 * k))) with ((x * x + 1) * (x * S') + 2 * (x * x) * D) by (unfold D, S'; ring).
  clearbody D S'. replace (x ^ (2 * S (S k))) with (x * x * x ^ (2 * S k)) by (replace (2 * S (S k))%nat with (2 + 2 * S k)%nat by lia; rewrite pow_add; ring).
  assert (E2 : x ^ (2 * S k) = x * x * x ^ (2 * k)) by (replace (2 * S k)%nat with (2 + 2 * k)%nat by lia; rewrite pow_add; ring). rewrite E2 in *.
  pose proof (pow_even_nonneg x k) as P. replace (INR (S (2 * S k))) with (INR (S (2 * k)) + 2) by (rewrite !INR_odd, S_INR; lra).
  assert (IN : 0 <= INR (S (2 * k))) by apply pos_INR. set (n := INR (S (2 * k))) in *. clearbody n. set (p := x ^ (2 * k)) in *. clearbody p. set (xS := x * S') in *. clearbody xS.
  assert (X2 : 0 <= x * x) by nra. set (u := x * x) in *. clearbody u. assert (0 <= D) by (pose proof (Rmult_le_pos _ _ IN P); lra).
  split.
  - pose proof (Rmult_le_compat_l u _ _ X2 ID). lra.
  - pose proof (Rmult_le_compat_l u _ _ X2 IS). pose proof (Rmult_le_pos _ _ X2 H). pose proof (Rmult_le_pos _ _ X2 P). lra.
Qed.
Lemma sum_odd_pow lo n k : 2 * INR (S (2 * k)) * Rsum (map (fun s => IZR (2 * s + 1) ^ (2 * k)) (zseq lo n)) <= IZR (2 * (lo + Z.of_nat n)) ^ S (2 * k) - IZR (2 * lo) ^ S (2 * k).
Proof.
  revert lo. induction n as [|n IH]; intros lo; cbn [zseq map Rsum].
  - replace (lo + Z.of_nat 0)%Z with lo by lia. lra.
  - specialize (IH (lo + 1)%Z). replace (lo + 1 + Z.of_nat n)%Z with (lo + Z.of_nat (S n))%Z in IH by lia.
    destruct (odd_pow_gap (IZR (2 * lo + 1)) k) as [G _]. replace (IZR (2 * lo + 1) + 1) with (IZR (2 * (lo + 1))) in G by (rewrite <- plus_IZR; f_equal; lia).
    replace (IZR (2 * lo + 1) - 1) with (IZR (2 * lo)) in G by (rewrite <- minus_IZR; f_equal; lia). lra.
Qed.
Lemma sum_odd_odd lo n k : (2 * lo + Z.of_nat n = 0)%Z -> Rsum (map (fun s => IZR (2 * s + 1) ^ S (2 * k)) (zseq lo n)) = 0.
Proof.
  intros H. set (f := fun s => IZR (2 * s + 1) ^ S (2 * k)).
  assert (F : forall s, f (- 1 - s)%Z = - f s).
  { intros s. unfold f. replace (2 * (-1 - s) + 1)%Z with (- (2 * s + 1))%Z by lia. rewrite opp_IZR. set (y := IZR (2 * s + 1)). cbn [pow]. rewrite !pow_mult. replace ((- y) ^ 2) with (y ^ 2) by ring. ring. }
  assert (Z1 : forall m l, zseq l (S m) = zseq l m ++ [(l + Z.of_nat m)%Z]).
  { induction m as [|m IHm]; intros l; cbn [zseq app]; [f_equal; lia|]. f_equal. change (zseq (l + 1) (S m) = zseq (l + 1) m ++ [(l + Z.of_nat (S m))%Z]). rewrite IHm. replace (l + 1 + Z.of_nat m)%Z with (l + Z.of_nat (S m))%Z by lia. reflexivity. }
  assert (R : forall m l, Rsum (map f (zseq l m)) = Rsum (map (fun s => f (2 * l + Z.of_nat m - 1 - s)%Z) (zseq l m))).
  { induction m as [|m IHm]; intros l; [reflexivity|]. rewrite Z1 at 1. cbn [zseq map Rsum]. rewrite map_app, Rsum_app, IHm. cbn [map Rsum].
    replace (2 * l + Z.of_nat (S m) - 1 - l)%Z with (l + Z.of_nat m)%Z by lia.
    assert (Sh : forall n l h, Rsum (map h (zseq (l + 1) n)) = Rsum (map (fun s => h (s + 1)%Z) (zseq l n))).
    { clear. induction n as [|n IHn]; intros l h; [reflexivity|]. cbn [zseq map Rsum]. now rewrite IHn. }
    rewrite Sh. rewrite (Rsum_ext (fun s => f (2 * l + Z.of_nat (S m) - 1 - (s + 1))%Z) (fun s => f (2 * l + Z.of_nat m - 1 - s)%Z)); [lra|]. intros s _. f_equal. lia. }
  pose proof (R n lo) as E. rewrite (Rsum_ext (fun s => f (2 * lo + Z.of_nat n - 1 - s)%Z) (fun s => -1 * f s)) in E.
  - rewrite Rsum_scal in E. lra.
  - intros s _. rewrite H. replace (0 - 1 - s)%Z with (- 1 - s)%Z by lia. rewrite F. lra.
Qed.
Lemma three_dfact k : 3 ^ k / INR (S (2 * k)) <= dfact k.
Proof.
  induction k as [|k IH]; [rewrite dfact_0; cbn; lra|]. rewrite dfact_S. cbn [pow]. pose proof (pos_INR k) as P. assert (P3 : 0 < 3 ^ k) by (apply pow_lt; lra).
  replace (INR (S (2 * S k))) with (2 * INR k + 3) by (rewrite INR_odd, S_INR; lra).
  replace (INR (S (2 * k))) with (2 * INR k + 1) in IH by (rewrite INR_odd; lra).
  set (n := INR k) in *. clearbody n. apply (Rle_trans _ ((2 * n + 1) * (3 ^ k / (2 * n + 1)))); [|apply Rmult_le_compat_l; lra].
  replace ((2 * n + 1) * (3 ^ k / (2 * n + 1))) with (3 ^ k) by (field; lra). apply (Rmult_le_reg_r (2 * n + 3)); [lra|].
  replace (3 * 3 ^ k / (2 * n + 3) * (2 * n + 3)) with (3 * 3 ^ k) by (field; lra). rewrite (Rmult_comm 3). apply Rmult_le_compat_l; lra.
Qed.
Section Grid.
  Variable W : Z.
  Hypothesis HW : (0 < W)%Z.
  Notation words := (range 0 (2 ^ W)).
  Definition unif (w : Z) : R := sqrt 3 * ideal W w.
  Lemma triv w : (0 <= w < 2 ^ W)%Z -> Rabs (unif w - sqrt 3 * ideal W w) <= 0.
  Proof. intros _. unfold unif. rewrite Rminus_eq_0, Rabs_R0. lra. Qed.
  Lemma unif_odd k : average words (fun w => unif w ^ S (2 * k)) = 0.
  Proof.
    pose proof (pow_pos W HW unif 0 triv) as P. unfold average. rewrite (Rsum_ext _ (fun w => (sqrt 3 * / IZR (2 ^ W)) ^ S (2 * k) * (fun s => IZR (2 * s + 1) ^ S (2 * k)) (signed W w))).
    2: { intros w _. unfold unif, ideal, Rdiv. rewrite <- Rpow_mult_distr. f_equal. ring. }
    rewrite Rsum_scal, (Rsum_signed W (fun s => IZR (2 * s + 1) ^ S (2 * k)) HW), sum_odd_odd; [lra|]. rewrite Z2Nat.id by lia. rewrite (half_pow W HW unif 0 triv). lia.
  Qed.
  Lemma unif_even k : 0 <= average words (fun w => unif w ^ (2 * k)) <= dfact k.
  Proof.
    pose proof (pow_pos W HW unif 0 triv) as P. assert (PR : 0 < IZR (2 ^ W)) by (apply IZR_lt; lia). split.
    - unfold average. rewrite (words_len W HW unif 0 triv). apply Rmult_le_pos; [|apply Rlt_le, Rinv_0_lt_compat, PR]. apply Rsum_nonneg. intros w _. apply pow_even_nonneg.
    - eapply Rle_trans; [|apply three_dfact]. unfold average. rewrite (words_len W HW unif 0 triv).
      rewrite (Rsum_ext _ (fun w => (3 ^ k * / IZR (2 ^ W) ^ (2 * k)) * (fun s => IZR (2 * s + 1) ^ (2 * k)) (signed W w))).
      2: { intros w _. unfold unif, ideal, Rdiv. rewrite !Rpow_mult_distr, (pow_mult (sqrt 3)), pow_inv. replace (sqrt 3 ^ 2) with 3 by (cbn [pow]; rewrite Rmult_1_r, sqrt_sqrt; lra). ring. }
      rewrite Rsum_scal, (Rsum_signed W (fun s => IZR (2 * s + 1) ^ (2 * k)) HW). pose proof (sum_odd_pow (- 2 ^ (W - 1)) (Z.to_nat (2 ^ W)) k) as G. rewrite Z2Nat.id in G by lia.
      set (X := Rsum _) in *. replace (2 * (- 2 ^ (W - 1) + 2 ^ W))%Z with (2 ^ W)%Z in G by (rewrite (half_pow W HW unif 0 triv); lia). replace (2 * - 2 ^ (W - 1))%Z with (- 2 ^ W)%Z in G by (rewrite (half_pow W HW unif 0 triv); lia).
      rewrite opp_IZR in G. replace ((- IZR (2 ^ W)) ^ S (2 * k)) with (- IZR (2 ^ W) ^ S (2 * k)) in G.
      2: { set (y := IZR (2 ^ W)). cbn [pow]. rewrite !pow_mult. replace ((- y) ^ 2) with (y ^ 2) by ring. ring. }
      set (y := IZR (2 ^ W)) in *. clearbody X y. assert (0 < 3 ^ k) by (apply pow_lt; lra). assert (Y : 0 < y ^ (2 * k)) by (apply pow_lt; lra). assert (N0 : 0 < INR (S (2 * k))) by (apply lt_0_INR; lia).
      cbn [pow] in G. set (n := INR (S (2 * k))) in *. clearbody n. apply (Rmult_le_reg_r (y ^ (2 * k) * y * n)); [apply Rmult_lt_0_compat; [now apply Rmult_lt_0_compat|exact N0]|].
      replace (3 ^ k * / y ^ (2 * k) * X / y * (y ^ (2 * k) * y * n)) with (3 ^ k * (n * X)) by (field; lra).
      replace (3 ^ k / n * (y ^ (2 * k) * y * n)) with (3 ^ k * (y * y ^ (2 * k))) by (field; lra). apply Rmult_le_compat_l; [lra|]. lra.
  Qed.
  Lemma unif_var : average words (fun w => unif w ^ 2) = 1 - / IZR (2 ^ W) * / IZR (2 ^ W).
  Proof.
    pose proof (ideal_square W HW unif 0 triv) as E. unfold average in *. rewrite (Rsum_ext _ (fun w => 3 * (ideal W w * ideal W w))).
    - rewrite Rsum_scal. unfold Rdiv in *. rewrite Rmult_assoc, E. field. pose proof (pow_pos W HW unif 0 triv). apply IZR_neq. lia.
    - intros w _. unfold unif. replace ((sqrt 3 * ideal W w) ^ 2) with (sqrt 3 * sqrt 3 * (ideal W w * ideal W w)) by ring. rewrite sqrt_sqrt by lra. reflexivity.
  Qed.
End Grid.
