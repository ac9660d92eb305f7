(** Exponential tail bounds for sums of squares (used by PropsTail.v): the even moments of a
    Gaussian variable, the moment generating function of its square, Chernoff bounds. *)
From Coq Require Import ZArith Reals Lra Psatz.
From Verif Require Import Base Spec IsoSpec IsoProofs PropsIso StatSpec StatProofs NormSpec NormProofs NormProofs3 NormProofs4.
Local Open Scope R_scope.

(** ** Even moments of the Gaussian distribution *)
Definition dfact (k : nat) : R := INR (fact (2 * k)) / (2 ^ k * INR (fact k)).
Lemma INR_fact_pos n : 0 < INR (fact n). Proof. apply lt_0_INR, lt_O_fact. Qed.
Lemma dfact_pos k : 0 < dfact k.
Proof. unfold dfact. apply Rdiv_lt_0_compat; [apply INR_fact_pos|]. apply Rmult_lt_0_compat; [apply pow_lt; lra|apply INR_fact_pos]. Qed.
Lemma dfact_0 : dfact 0 = 1. Proof. unfold dfact. cbn. lra. Qed.
Lemma dfact_S k : dfact (S k) = (2 * INR k + 1) * dfact k.
Proof.
  unfold dfact. replace (2 * S k)%nat with (S (S (2 * k))) by lia. pose proof (INR_fact_pos k). pose proof (INR_fact_pos (2 * k)).
  assert (0 < 2 ^ k) by (apply pow_lt; lra). change (fact (S (S (2 * k)))) with (S (S (2 * k)) * (S (2 * k) * fact (2 * k)))%nat.
  change (fact (S k)) with (S k * fact k)%nat. rewrite !mult_INR, !S_INR, !mult_INR. cbn [pow]. change (INR 2) with 2. pose proof (pos_INR k). field. repeat split; lra.
Qed.
Lemma dfact_conv k j : (j <= k)%nat -> C (2 * k) (2 * j) * (dfact j * dfact (k - j)) = dfact k * C k j.
Proof.
  intros H. unfold C, dfact. replace (2 * k - 2 * j)%nat with (2 * (k - j))%nat by lia. replace (2 ^ k) with (2 ^ j * 2 ^ (k - j)) by (rewrite <- pow_add; f_equal; lia).
  pose proof (INR_fact_pos k). pose proof (INR_fact_pos j). pose proof (INR_fact_pos (k - j)). pose proof (INR_fact_pos (2 * j)). pose proof (INR_fact_pos (2 * (k - j))).
  assert (0 < 2 ^ j) by (apply pow_lt; lra). assert (0 < 2 ^ (k - j)) by (apply pow_lt; lra). field. repeat split; lra.
Qed.
Lemma sum_even f k : (forall i, f (S (2 * i)) = 0) -> sum_f_R0 f (2 * k) = sum_f_R0 (fun j => f (2 * j)%nat) k.
Proof.
  intros H. induction k as [|k IH]; [reflexivity|]. replace (2 * S k)%nat with (S (S (2 * k))) by lia. cbn [sum_f_R0]. rewrite IH, H. replace (2 * S k)%nat with (S (S (2 * k))) by lia. lra.
Qed.
Lemma sum_zero f n : (forall i, (i <= n)%nat -> f i = 0) -> sum_f_R0 f n = 0.
Proof. intros H. induction n as [|n IH]; cbn [sum_f_R0]; [apply H; lia|]. rewrite IH, H by (intros; auto; lia). lra. Qed.

(** ** The series of 1 / sqrt(1 - 2h) *)
Definition cf (k : nat) : R := dfact k / INR (fact k).
Lemma cf_pos k : 0 < cf k. Proof. apply Rdiv_lt_0_compat; [apply dfact_pos|apply INR_fact_pos]. Qed.
Lemma cf_S k : INR (S k) * cf (S k) = (2 * INR k + 1) * cf k.
Proof. unfold cf. rewrite dfact_S. change (fact (S k)) with (S k * fact k)%nat. rewrite mult_INR. pose proof (INR_fact_pos k). rewrite S_INR. pose proof (pos_INR k). field. lra. Qed.
Fixpoint pser (n : nat) (h : R) : R := match n with O => 1 | S j => pser j h + cf (S j) * h ^ S j end.
Fixpoint qser (n : nat) (h : R) : R := match n with O => 0 | S j => qser j h + cf (S j) * (INR (S j) * h ^ j) end.
Lemma pser_sum n h : pser n h = sum_f_R0 (fun k => cf k * h ^ k) n.
Proof. induction n as [|n IH]; cbn [pser sum_f_R0]; [unfold cf; rewrite dfact_0; cbn; lra|]. now rewrite IH. Qed.
Lemma pser_deriv n h : derivable_pt_lim (pser n) h (qser n h).
Proof.
  induction n as [|n IH]; [exact (derivable_pt_lim_const 1 h)|]. cbn [pser qser].
  pose proof (derivable_pt_lim_scal (fun y => y ^ S n) (cf (S n)) h _ (derivable_pt_lim_pow h (S n))) as D. cbn [pred] in D. exact (derivable_pt_lim_plus _ _ h _ _ IH D).
Qed.
Lemma pser_pos n h : 0 <= h -> 1 <= pser n h.
Proof. intros H. induction n as [|n IH]; cbn [pser]; [lra|]. assert (0 <= cf (S n) * h ^ S n) by (apply Rmult_le_pos; [apply Rlt_le, cf_pos|now apply pow_le]). lra. Qed.
Lemma pq n h : (1 - 2 * h) * qser n h = pser n h - (2 * INR n + 1) * cf n * h ^ n.
Proof.
  induction n as [|n IH]; [cbn [pser qser]; unfold cf; rewrite dfact_0; cbn; lra|]. cbn [pser qser]. rewrite Rmult_plus_distr_l, IH. pose proof (cf_S n) as E.
  replace ((1 - 2 * h) * (cf (S n) * (INR (S n) * h ^ n))) with ((1 - 2 * h) * h ^ n * (INR (S n) * cf (S n))) by ring. rewrite E.
  replace ((2 * INR (S n) + 1) * cf (S n)) with (2 * ((2 * INR n + 1) * cf n) + cf (S n)) by lra. cbn [pow]. ring.
Qed.
Lemma pser_bound n h : 0 <= h < / 2 -> pser n h <= / sqrt (1 - 2 * h).
Proof.
  intros H. assert (Main : pser n h * pser n h * (1 - 2 * h) <= 1).
  { set (F := fun y => pser n y * pser n y * (1 - 2 * y)). destruct (Rle_lt_or_eq_dec _ _ (proj1 H)) as [P|<-].
    2: { assert (E : pser n 0 = 1). { induction n as [|k IH]; [reflexivity|]. cbn [pser]. rewrite IH, pow_ne_zero by discriminate. lra. } rewrite E. lra. }
    destruct (MVT_cor2 F (fun y => (qser n y * pser n y + pser n y * qser n y) * (1 - 2 * y) + pser n y * pser n y * (- (2))) 0 h P) as (c & E & Hc).
    { intros c _. unfold F. apply (derivable_pt_lim_mult (fun y => pser n y * pser n y) (fun y => 1 - 2 * y)).
      - apply (derivable_pt_lim_mult (pser n) (pser n)); apply pser_deriv.
      - replace (- (2)) with (0 - 2 * 1) by lra. apply (derivable_pt_lim_minus (fun _ => 1) (fun y => 2 * y)); [apply derivable_pt_lim_const|]. apply (derivable_pt_lim_scal id), derivable_pt_lim_id. }
    assert (E0 : F 0 = 1). { unfold F. assert (E1 : pser n 0 = 1). { clear. induction n as [|k IH]; [reflexivity|]. cbn [pser]. rewrite IH, pow_ne_zero by discriminate. lra. } rewrite E1. lra. }
    assert (Np : (qser n c * pser n c + pser n c * qser n c) * (1 - 2 * c) + pser n c * pser n c * - (2) <= 0).
    { replace _ with (2 * pser n c * ((1 - 2 * c) * qser n c - pser n c)) by ring. rewrite pq. pose proof (pser_pos n c ltac:(lra)).
      assert (0 <= (2 * INR n + 1) * cf n * c ^ n). { apply Rmult_le_pos; [apply Rmult_le_pos; [pose proof (pos_INR n); lra|apply Rlt_le, cf_pos]|apply pow_le; lra]. }
      nra. }
    change (F h <= 1). nra. }
  pose proof (pser_pos n h ltac:(lra)) as P1. assert (S0 : 0 < sqrt (1 - 2 * h)) by (apply sqrt_lt_R0; lra).
  apply (Rmult_le_reg_r (sqrt (1 - 2 * h))); [exact S0|]. rewrite Rinv_l by lra.
  assert (S2 : sqrt (1 - 2 * h) * sqrt (1 - 2 * h) = 1 - 2 * h) by (apply sqrt_sqrt; lra). nra.
Qed.

(** ** Sums of exponentials as limits *)
Lemma cv_le u l b : Un_cv u l -> (forall n, u n <= b) -> l <= b.
Proof. intros H B. destruct (Rle_or_lt l b) as [|L]; [assumption|]. destruct (H (l - b) ltac:(lra)) as [n Hn]. specialize (Hn n ltac:(lia)). specialize (B n). unfold R_dist in Hn. apply Rabs_def2 in Hn. lra. Qed.
Lemma exp_series x : Un_cv (fun n => sum_f_R0 (fun k => / INR (fact k) * x ^ k) n) (exp x).
Proof. unfold exp. destruct (exist_exp x) as [l Hl]. exact Hl. Qed.
Lemma sum_exp_series {T} (ts : list T) (G y : T -> R) :
  Un_cv (fun n => Rsum (map (fun t => G t * sum_f_R0 (fun k => / INR (fact k) * y t ^ k) n) ts)) (Rsum (map (fun t => G t * exp (y t)) ts)).
Proof.
  induction ts as [|t ts IH]; cbn [map Rsum]; [intros e He; exists O; intros; unfold R_dist; rewrite Rminus_eq_0, Rabs_R0; exact He|].
  apply CV_plus; [|exact IH]. apply (CV_mult (fun _ => G t)); [|apply exp_series]. intros e He. exists O. intros. unfold R_dist. rewrite Rminus_eq_0, Rabs_R0. exact He.
Qed.
Lemma Rsum_sum_f {T} (ts : list T) (f : T -> nat -> R) n : Rsum (map (fun t => sum_f_R0 (f t) n) ts) = sum_f_R0 (fun k => Rsum (map (fun t => f t k) ts)) n.
Proof. induction n as [|n IH]; [reflexivity|]. cbn [sum_f_R0]. rewrite <- IH. apply Rsum_plus. Qed.

Lemma mgf_bound {T} (ts : list T) (z F : T -> R) s h :
  0 <= s -> (forall k, Rsum (map (fun t => z t ^ (2 * k) * F t) ts) <= dfact k * s ^ k * Rsum (map F ts)) -> 0 <= Rsum (map F ts) -> 0 <= h -> 2 * (h * s) < 1 ->
  Rsum (map (fun t => F t * exp (h * z t ^ 2)) ts) <= / sqrt (1 - 2 * (h * s)) * Rsum (map F ts).
Proof.
  intros Hs Hm HF Hh H1. eapply cv_le; [apply (sum_exp_series ts F (fun t => h * z t ^ 2))|]. intros n. cbv beta.
  assert (HS : 0 <= h * s) by (now apply Rmult_le_pos).
  apply (Rle_trans _ (pser n (h * s) * Rsum (map F ts))); [|apply Rmult_le_compat_r; [exact HF|apply pser_bound; lra]].
  rewrite (Rsum_ext _ (fun t => sum_f_R0 (fun k => / INR (fact k) * h ^ k * (z t ^ (2 * k) * F t)) n)).
  2: { intros t _. rewrite scal_sum. apply sum_eq. intros k _. rewrite Rpow_mult_distr, pow_mult. ring. }
  rewrite Rsum_sum_f, pser_sum, Rmult_comm, scal_sum. apply sum_Rle. intros k _. rewrite Rsum_scal. unfold cf. rewrite Rpow_mult_distr.
  pose proof (INR_fact_pos k). pose proof (Rinv_0_lt_compat _ (INR_fact_pos k)).
  apply (Rle_trans _ (/ INR (fact k) * h ^ k * (dfact k * s ^ k * Rsum (map F ts)))); [|right; field; lra].
  apply Rmult_le_compat_l; [apply Rmult_le_pos; [lra|now apply pow_le]|apply Hm].
Qed.

Lemma exp_neg_quad y : 0 <= y -> exp (- y) <= 1 - y + y ^ 2 / 2.
Proof.
  intros H. destruct (Rle_lt_or_eq_dec _ _ H) as [P|<-]; [|rewrite Ropp_0, exp_0; lra].
  set (f := fun x => 1 - x + x ^ 2 / 2 - exp (- x)).
  assert (D : forall c, derivable_pt_lim f c (-1 + c + exp (- c))).
  { intros c. unfold f. replace (-1 + c + exp (- c)) with (0 - 1 + / 2 * (INR 2 * c ^ 1) - exp (- c) * - (1)) by (cbn; field).
    apply (derivable_pt_lim_minus (fun x => 1 - x + x ^ 2 / 2) (fun x => exp (- x))).
    - apply (derivable_pt_lim_plus (fun x => 1 - x) (fun x => x ^ 2 / 2)).
      + apply (derivable_pt_lim_minus (fun _ => 1) id); [apply derivable_pt_lim_const|apply derivable_pt_lim_id].
      + assert (E : (fun x => x ^ 2 / 2) = mult_real_fct (/ 2) (fun x => x ^ 2)) by (apply FunctionalExtensionality.functional_extensionality; intros x; unfold mult_real_fct; field).
        rewrite E. apply derivable_pt_lim_scal. exact (derivable_pt_lim_pow c 2).
    - apply (derivable_pt_lim_comp (fun x => - x) exp); [apply (derivable_pt_lim_opp id), derivable_pt_lim_id|apply derivable_pt_lim_exp]. }
  destruct (MVT_cor2 f (fun c => -1 + c + exp (- c)) 0 y P ltac:(intros; apply D)) as (c & E & Hc).
  assert (F0 : f 0 = 0) by (unfold f; rewrite Ropp_0, exp_0; lra). pose proof (exp_ineq1_le (- c)) as Ex.
  assert (0 <= f y). { rewrite F0 in E. nra. } unfold f in *. lra.
Qed.

(** ** Chernoff bounds for d squares drawn one after the other *)
Section Chernoff.
  Context {T : Type}.
  Variable ts : list T.
  Hypothesis Hts : ts <> [].
  Variable z : T -> Z -> R.
  Variable d : Z.
  Hypothesis Hd : (0 < d)%Z.
  Definition energy (r : Z) (t : T) : R := Rsum (map (fun i => z t i ^ 2) (range 0 r)).
  Variables s v : R.
  Hypothesis Hs : 0 < s.
  Hypothesis Hmom : forall r k c, (0 <= r < d)%Z ->
    Rsum (map (fun t => z t r ^ (2 * k) * exp (c * energy r t)) ts) <= dfact k * s ^ k * Rsum (map (fun t => exp (c * energy r t)) ts).
  Hypothesis Hvar : forall r c, (0 <= r < d)%Z ->
    v * Rsum (map (fun t => exp (c * energy r t)) ts) <= Rsum (map (fun t => z t r ^ 2 * exp (c * energy r t)) ts).
  Notation N := (INR (length ts)).
  Lemma energy_S r t : (0 <= r)%Z -> energy (r + 1) t = energy r t + z t r ^ 2.
  Proof. intros H. unfold energy. rewrite range_snoc by lia. rewrite map_app, Rsum_app. cbn [map Rsum]. replace (r + 1 - 1)%Z with r by lia. lra. Qed.
  Lemma N_pos : 0 < N. Proof using Hts. now apply length_pos. Qed.
  Lemma sums_pos c r : 0 <= Rsum (map (fun t => exp (c * energy r t)) ts).
  Proof. apply Rsum_nonneg. intros t _. apply Rlt_le, exp_pos. Qed.
  Lemma step_up h r : 0 <= h -> 2 * (h * s) < 1 -> (0 <= r < d)%Z ->
    Rsum (map (fun t => exp (h * energy (r + 1) t)) ts) <= / sqrt (1 - 2 * (h * s)) * Rsum (map (fun t => exp (h * energy r t)) ts).
  Proof.
    intros Hh H1 Hr. pose proof (mgf_bound ts (fun t => z t r) (fun t => exp (h * energy r t)) s h ltac:(lra) (fun k => Hmom r k h Hr) (sums_pos h r) Hh H1) as G.
    eapply Rle_trans; [|exact G]. right. apply Rsum_ext. intros t _. rewrite <- exp_plus. f_equal. rewrite energy_S by lia. ring.
  Qed.
  Lemma step_down h r : 0 <= h -> (0 <= r < d)%Z ->
    Rsum (map (fun t => exp (- h * energy (r + 1) t)) ts) <= exp (- h * v + 3 / 2 * (h * s) ^ 2) * Rsum (map (fun t => exp (- h * energy r t)) ts).
  Proof.
    intros Hh Hr. set (F := fun t => exp (- h * energy r t)).
    apply (Rle_trans _ (Rsum (map (fun t => F t - h * (z t r ^ 2 * F t) + h ^ 2 / 2 * (z t r ^ (2 * 2) * F t)) ts))).
    - apply Rsum_le. intros t _. rewrite energy_S by lia. replace (- h * (energy r t + z t r ^ 2)) with (- h * energy r t + - (h * z t r ^ 2)) by ring. rewrite exp_plus. fold (F t).
      pose proof (exp_neg_quad (h * z t r ^ 2) ltac:(apply Rmult_le_pos; [lra|apply pow2_ge_0])) as Q. assert (0 < F t) by apply exp_pos.
      apply (Rle_trans _ (F t * (1 - h * z t r ^ 2 + (h * z t r ^ 2) ^ 2 / 2))); [apply Rmult_le_compat_l; lra|]. right. rewrite pow_mult. field.
    - rewrite !Rsum_plus, !Rsum_minus, !Rsum_scal. pose proof (Hvar r (- h) Hr) as V. pose proof (Hmom r 2 (- h) Hr) as M. fold F in V, M. pose proof (sums_pos (- h) r) as P. fold F in P.
      assert (D2 : dfact 2 = 3) by (rewrite !dfact_S, dfact_0; cbn; lra). rewrite D2 in M. set (SF := Rsum (map F ts)) in *.
      apply (Rle_trans _ ((1 + (- h * v + 3 / 2 * (h * s) ^ 2)) * SF)).
      + pose proof (Rmult_le_compat_l h _ _ Hh V). assert (0 <= h ^ 2 / 2) as H2 by (pose proof (pow2_ge_0 h); lra). pose proof (Rmult_le_compat_l _ _ _ H2 M). change (fun t : T => z t r ^ 2 * exp (- h * energy r t)) with (fun t : T => z t r ^ 2 * F t) in *. change (fun t : T => z t r ^ (2 * 2) * exp (- h * energy r t)) with (fun t : T => z t r ^ (2 * 2) * F t) in *. lra.
      + apply Rmult_le_compat_r; [exact P|]. apply exp_ineq1_le.
  Qed.
  Lemma all_up h : 0 <= h -> 2 * (h * s) < 1 -> forall r, (0 <= r <= d)%Z -> Rsum (map (fun t => exp (h * energy r t)) ts) <= (/ sqrt (1 - 2 * (h * s))) ^ Z.to_nat r * N.
  Proof.
    intros Hh H1 r Hr. assert (G : forall n, (Z.of_nat n <= d)%Z -> Rsum (map (fun t => exp (h * energy (Z.of_nat n) t)) ts) <= (/ sqrt (1 - 2 * (h * s))) ^ n * N).
    { induction n as [|n IH]; intros Hn.
      - change (Z.of_nat 0) with 0%Z. cbn [pow]. right. rewrite (Rsum_ext _ (fun _ => 1)); [rewrite Rsum_const; lra|]. intros t _. unfold energy. change (range 0 0) with (@nil Z). cbn. rewrite Rmult_0_r. apply exp_0.
      - rewrite Nat2Z.inj_succ. unfold Z.succ. eapply Rle_trans; [apply step_up; auto; lia|]. cbn [pow]. rewrite Rmult_assoc. apply Rmult_le_compat_l; [|apply IH; lia].
        apply Rlt_le, Rinv_0_lt_compat, sqrt_lt_R0. lra. }
    specialize (G (Z.to_nat r) ltac:(lia)). rewrite Z2Nat.id in G by lia. exact G.
  Qed.
  Lemma all_down h : 0 <= h -> forall r, (0 <= r <= d)%Z -> Rsum (map (fun t => exp (- h * energy r t)) ts) <= exp (- h * v + 3 / 2 * (h * s) ^ 2) ^ Z.to_nat r * N.
  Proof.
    intros Hh r Hr. assert (G : forall n, (Z.of_nat n <= d)%Z -> Rsum (map (fun t => exp (- h * energy (Z.of_nat n) t)) ts) <= exp (- h * v + 3 / 2 * (h * s) ^ 2) ^ n * N).
    { induction n as [|n IH]; intros Hn.
      - change (Z.of_nat 0) with 0%Z. rewrite pow_O. right. rewrite (Rsum_ext _ (fun _ => 1)); [rewrite Rsum_const; lra|]. intros t _. unfold energy. change (range 0 0) with (@nil Z). cbn. rewrite Rmult_0_r. apply exp_0.
      - rewrite Nat2Z.inj_succ. unfold Z.succ. eapply Rle_trans; [apply step_down; auto; lia|]. generalize (exp (- h * v + 3 / 2 * (h * s) ^ 2)) (exp_pos (- h * v + 3 / 2 * (h * s) ^ 2)) IH; clear IH; intros x Px IH. cbn [pow]. rewrite Rmult_assoc. apply Rmult_le_compat_l; [|apply IH; lia].
        lra. }
    specialize (G (Z.to_nat r) ltac:(lia)). rewrite Z2Nat.id in G by lia. exact G.
  Qed.
  Lemma exp_pow x n : exp x ^ n = exp (INR n * x).
  Proof. induction n as [|n IH]; [cbn; rewrite Rmult_0_l, exp_0; reflexivity|]. cbn [pow]. rewrite IH, <- exp_plus. f_equal. rewrite S_INR. ring. Qed.
  Lemma INR_d : INR (Z.to_nat d) = IZR d. Proof using Hd. clear - Hd. rewrite INR_IZR_INZ, Z2Nat.id by lia. reflexivity. Qed.
  Lemma chernoff_up e : 0 < e -> probability ts (fun t => exceeds (energy d t) ((1 + e) * s * IZR d)) <= exp (- (IZR d / 2 * (e - ln (1 + e)))).
  Proof.
    intros He. set (h := e / (2 * (1 + e) * s)). assert (Dp : 0 < IZR d) by (apply IZR_lt; lia).
    assert (Hh : 0 < h). { unfold h. apply Rdiv_lt_0_compat; [lra|]. apply Rmult_lt_0_compat; lra. }
    assert (Hhs : 2 * (h * s) = e / (1 + e)) by (unfold h; field; lra).
    assert (E1 : 1 - 2 * (h * s) = / (1 + e)) by (rewrite Hhs; field; lra).
    assert (H1 : 2 * (h * s) < 1) by (pose proof (Rinv_0_lt_compat (1 + e) ltac:(lra)); lra).
    apply (Rle_trans _ (probability ts (fun t => exceeds (exp (h * energy d t)) (exp (h * ((1 + e) * s * IZR d)))))).
    { apply average_le. intros t _. unfold exceeds, indicator. destruct (Rlt_dec _ _) as [A|A]; [|destruct (Rlt_dec _ _); lra]. destruct (Rlt_dec _ _) as [B|B]; [lra|]. exfalso. apply B. apply exp_increasing. now apply Rmult_lt_compat_l. }
    eapply Rle_trans; [apply markov; [apply exp_pos|intros; apply Rlt_le, exp_pos]|]. unfold average.
    pose proof (all_up h ltac:(lra) H1 d ltac:(lia)) as U. rewrite E1 in U.
    assert (Sq : / sqrt (/ (1 + e)) = exp (/ 2 * ln (1 + e))).
    { assert (Q : sqrt (/ (1 + e)) = exp (- (/ 2 * ln (1 + e)))).
      { apply sqrt_lem_1; [apply Rlt_le, Rinv_0_lt_compat; lra|apply Rlt_le, exp_pos|]. rewrite <- exp_plus. replace (- (/ 2 * ln (1 + e)) + - (/ 2 * ln (1 + e))) with (- ln (1 + e)) by field. rewrite exp_Ropp, exp_ln by lra. reflexivity. }
      rewrite Q, <- exp_Ropp. f_equal. ring. }
    rewrite Sq, exp_pow, INR_d in U. pose proof N_pos as NP. pose proof (exp_pos (h * ((1 + e) * s * IZR d))) as XP.
    apply (Rmult_le_reg_r (exp (h * ((1 + e) * s * IZR d)) * N)); [now apply Rmult_lt_0_compat|].
    replace (Rsum (map (fun t => exp (h * energy d t)) ts) / N / exp (h * ((1 + e) * s * IZR d)) * (exp (h * ((1 + e) * s * IZR d)) * N)) with (Rsum (map (fun t => exp (h * energy d t)) ts)) by (field; lra).
    rewrite <- Rmult_assoc, <- exp_plus. eapply Rle_trans; [exact U|]. right. f_equal. f_equal. unfold h. field. lra.
  Qed.
  Lemma chernoff_down e : 0 < e -> probability ts (fun t => exceeds ((v - e * s) * IZR d) (energy d t)) <= exp (- (IZR d * e ^ 2 / 6)).
  Proof.
    intros He. set (h := e / (3 * s)). assert (Dp : 0 < IZR d) by (apply IZR_lt; lia).
    assert (Hh : 0 < h) by (unfold h; apply Rdiv_lt_0_compat; lra).
    apply (Rle_trans _ (probability ts (fun t => exceeds (exp (- h * energy d t)) (exp (- h * ((v - e * s) * IZR d)))))).
    { apply average_le. intros t _. unfold exceeds, indicator. destruct (Rlt_dec _ _) as [A|A]; [|destruct (Rlt_dec _ _); lra]. destruct (Rlt_dec _ _) as [B|B]; [lra|]. exfalso. apply B. apply exp_increasing.
      pose proof (Rmult_lt_compat_l h _ _ Hh A). lra. }
    eapply Rle_trans; [apply markov; [apply exp_pos|intros; apply Rlt_le, exp_pos]|]. unfold average.
    pose proof (all_down h ltac:(lra) d ltac:(lia)) as U. rewrite exp_pow, INR_d in U. pose proof N_pos as NP. pose proof (exp_pos (- h * ((v - e * s) * IZR d))) as XP.
    apply (Rmult_le_reg_r (exp (- h * ((v - e * s) * IZR d)) * N)); [now apply Rmult_lt_0_compat|].
    replace (Rsum (map (fun t => exp (- h * energy d t)) ts) / N / exp (- h * ((v - e * s) * IZR d)) * (exp (- h * ((v - e * s) * IZR d)) * N)) with (Rsum (map (fun t => exp (- h * energy d t)) ts)) by (field; lra).
    rewrite <- Rmult_assoc, <- exp_plus. eapply Rle_trans; [exact U|]. right. f_equal. f_equal. unfold h. field. lra.
  Qed.
  Lemma log_gap e : 0 < e <= / 2 -> e ^ 2 / 3 <= e - ln (1 + e).
  Proof.
    intros He. set (f := fun x => x - x ^ 2 / 3 - ln (1 + x)).
    assert (D : forall c, 0 <= c -> derivable_pt_lim f c (1 - / 3 * (INR 2 * c ^ 1) - / (1 + c) * (0 + 1))).
    { intros c Hc. unfold f. apply (derivable_pt_lim_minus (fun x => x - x ^ 2 / 3) (fun x => ln (1 + x))).
      - apply (derivable_pt_lim_minus id (fun x => x ^ 2 / 3)); [apply derivable_pt_lim_id|].
        assert (E : (fun x => x ^ 2 / 3) = mult_real_fct (/ 3) (fun x => x ^ 2)) by (apply FunctionalExtensionality.functional_extensionality; intros x; unfold mult_real_fct; field).
        rewrite E. apply derivable_pt_lim_scal. exact (derivable_pt_lim_pow c 2).
      - apply (derivable_pt_lim_comp (fun x => 1 + x) ln); [apply (derivable_pt_lim_plus (fun _ => 1) id); [apply derivable_pt_lim_const|apply derivable_pt_lim_id]|apply derivable_pt_lim_ln; lra]. }
    destruct (MVT_cor2 f (fun c => 1 - / 3 * (INR 2 * c ^ 1) - / (1 + c) * (0 + 1)) 0 e ltac:(lra)) as (c & E & Hc).
    { intros c Hc. apply D. lra. }
    assert (F0 : f 0 = 0) by (unfold f; rewrite Rplus_0_r, ln_1; lra).
    assert (Np : 0 <= 1 - / 3 * (INR 2 * c ^ 1) - / (1 + c) * (0 + 1)).
    { change (INR 2) with 2. replace (1 - / 3 * (2 * c ^ 1) - / (1 + c) * (0 + 1)) with (c * (1 - 2 * c) / (3 * (1 + c))) by (field; lra).
      apply Rmult_le_pos; [nra|]. apply Rlt_le, Rinv_0_lt_compat. lra. }
    assert (0 <= f e). { rewrite F0 in E. nra. } unfold f in *. lra.
  Qed.
  Lemma chernoff_up_simple e : 0 < e <= / 2 -> probability ts (fun t => exceeds (energy d t) ((1 + e) * s * IZR d)) <= exp (- (IZR d * e ^ 2 / 6)).
  Proof.
    intros He. eapply Rle_trans; [apply chernoff_up; lra|]. pose proof (log_gap e He) as G. assert (Dp : 0 < IZR d) by (apply IZR_lt; lia).
    assert (H : - (IZR d / 2 * (e - ln (1 + e))) <= - (IZR d * e ^ 2 / 6)). { apply Ropp_le_contravar. pose proof (Rmult_le_compat_l (IZR d / 2) _ _ ltac:(lra) G). lra. }
    destruct (Rle_lt_or_eq_dec _ _ H) as [L| ->]; [apply Rlt_le, exp_increasing, L|lra].
  Qed.
End Chernoff.
