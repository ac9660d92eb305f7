(** Moments of -ln over the midpoints of equal cells of (0,1]: the k-th is at most k!, and
    the second is at least 2 minus a term of the order of the cell width. *)
From Coq Require Import ZArith Reals Lra Psatz.
From Verif Require Import Base Spec SparseSkopModel PropsFloat IsoSpec IsoProofs PropsIso StatSpec DenseIsoProofs DenseIsoProofs2 BoxSpec BoxProofs.
Local Open Scope R_scope.

Definition nl (x : R) : R := - ln x.
Fixpoint prim (k : nat) (x : R) : R := match k with O => x | S j => x * nl x ^ S j + INR (S j) * prim j x end.

Lemma nl_pos x : 0 < x <= 1 -> 0 <= nl x.
Proof. intros [A B]. unfold nl. destruct (Rle_lt_or_eq_dec _ _ B) as [L| ->]; [|rewrite ln_1; lra]. pose proof (ln_increasing x 1 A L). rewrite ln_1 in *. lra. Qed.
Lemma nl_anti x y : 0 < x <= y -> nl y <= nl x.
Proof. intros [A B]. unfold nl. destruct (Rle_lt_or_eq_dec _ _ B) as [L| ->]; [|lra]. pose proof (ln_increasing x y A L). lra. Qed.
Lemma prim_one k : prim k 1 = INR (fact k).
Proof. induction k as [|k IH]; [cbn; lra|]. cbn [prim]. unfold nl. rewrite ln_1, Ropp_0, pow_ne_zero by discriminate. rewrite IH. change (fact (S k)) with (S k * fact k)%nat. rewrite mult_INR. lra. Qed.
Lemma prim_nonneg k x : 0 < x <= 1 -> 0 <= prim k x.
Proof. intros H. pose proof (nl_pos x H). induction k as [|k IH]; cbn [prim]; [lra|]. apply Rplus_le_le_0_compat; apply Rmult_le_pos; auto using pos_INR; try lra. apply pow_le; lra. Qed.
Lemma prim_deriv k x : 0 < x -> derivable_pt_lim (prim k) x (nl x ^ k).
Proof.
  intros Hx. induction k as [|k IH]; [exact (derivable_pt_lim_id x)|]. cbn [prim].
  assert (DN : derivable_pt_lim nl x (- / x)) by (exact (derivable_pt_lim_opp ln x (/ x) (derivable_pt_lim_ln x Hx))).
  pose proof (derivable_pt_lim_comp nl (fun y => y ^ S k) x _ _ DN (derivable_pt_lim_pow (nl x) (S k))) as DP. cbn [pred] in DP.
  pose proof (derivable_pt_lim_mult id (fun y => nl y ^ S k) x _ _ (derivable_pt_lim_id x) DP) as DM.
  pose proof (derivable_pt_lim_scal (prim k) (INR (S k)) x _ IH) as DS.
  pose proof (derivable_pt_lim_plus _ _ x _ _ DM DS) as G.
  replace (nl x ^ S k) with (1 * nl x ^ S k + id x * (INR (S k) * nl x ^ k * - / x) + INR (S k) * nl x ^ k); [exact G|]. unfold id. field. lra.
Qed.

Lemma pow_gap a c k : 0 <= a -> 0 <= c -> (a + c) ^ S k <= a ^ S k + INR (S k) * c * (a + c) ^ k.
Proof.
  intros Ha Hc. induction k as [|k IH]; [cbn; lra|].
  assert (P : 0 <= (a + c) ^ k) by (apply pow_le; lra). assert (P1 : 0 <= (a + c) ^ S k) by (apply pow_le; lra).
  change ((a + c) ^ S (S k)) with ((a + c) * (a + c) ^ S k). change (a ^ S (S k)) with (a * a ^ S k).
  assert (A : a * (a + c) ^ S k <= a * (a ^ S k + INR (S k) * c * (a + c) ^ k)) by (apply Rmult_le_compat_l; lra).
  assert (B : a * (INR (S k) * c * (a + c) ^ k) <= INR (S k) * c * (a + c) ^ S k).
  { replace (a * (INR (S k) * c * (a + c) ^ k)) with (INR (S k) * c * (a * (a + c) ^ k)) by ring. apply Rmult_le_compat_l; [apply Rmult_le_pos; [apply pos_INR|lra]|].
    change ((a + c) ^ S k) with ((a + c) * (a + c) ^ k). apply Rmult_le_compat_r; lra. }
  rewrite (S_INR (S k)). lra.
Qed.
Lemma pow_mid u v k : 0 <= u -> 0 <= v -> 2 * ((u + v) / 2) ^ k <= u ^ k + v ^ k.
Proof.
  intros Hu Hv. induction k as [|k IH]; [cbn; lra|]. cbn [pow].
  assert (A : (u + v) / 2 * (2 * ((u + v) / 2) ^ k) <= (u + v) / 2 * (u ^ k + v ^ k)) by (apply Rmult_le_compat_l; lra).
  assert (B : 0 <= (u - v) * (u ^ k - v ^ k)).
  { destruct (Rle_lt_dec v u) as [L|L].
    - pose proof (pow_incr v u k (conj Hv L)). apply Rmult_le_pos; lra.
    - pose proof (pow_incr u v k (conj Hu (Rlt_le _ _ L))). replace ((u - v) * (u ^ k - v ^ k)) with ((v - u) * (v ^ k - u ^ k)) by ring. apply Rmult_le_pos; lra. }
  lra.
Qed.
Lemma nl_mid a t : 0 <= t < a -> a + t <= 1 -> nl a <= (nl (a + t) + nl (a - t)) / 2.
Proof.
  intros [H0 H1] H2. unfold nl. assert (L : ln ((a + t) * (a - t)) <= ln (a * a)).
  { assert (Q : 0 < (a + t) * (a - t)) by (apply Rmult_lt_0_compat; lra). assert (E : (a + t) * (a - t) <= a * a) by nra.
    destruct (Rle_lt_or_eq_dec _ _ E) as [X| ->]; [left; now apply ln_increasing|lra]. }
  rewrite !ln_mult in L by lra. lra.
Qed.
(** A cell: the midpoint rule underestimates the integral of a convex function. *)
Lemma cell_mid k a h : 0 < h < a -> a + h <= 1 -> 2 * h * nl a ^ k <= prim k (a + h) - prim k (a - h).
Proof.
  intros [H0 H1] H2.
  set (phi := fun t => prim k (a + t) - prim k (a - t) - 2 * t * nl a ^ k).
  set (phi' := fun t => nl (a + t) ^ k + nl (a - t) ^ k - 2 * nl a ^ k).
  destruct (MVT_cor2 phi phi' 0 h H0) as (c & E & C).
  - intros t Ht. unfold phi, phi'.
    assert (D1 : derivable_pt_lim (fun t => a + t) t 1).
    { replace 1 with (0 + 1) by lra. exact (derivable_pt_lim_plus _ _ t 0 1 (derivable_pt_lim_const a t) (derivable_pt_lim_id t)). }
    assert (D2 : derivable_pt_lim (fun t => a - t) t (-1)).
    { replace (-1) with (0 - 1) by lra. exact (derivable_pt_lim_minus _ _ t 0 1 (derivable_pt_lim_const a t) (derivable_pt_lim_id t)). }
    pose proof (derivable_pt_lim_comp _ (prim k) t _ _ D1 (prim_deriv k (a + t) ltac:(lra))) as E1.
    pose proof (derivable_pt_lim_comp _ (prim k) t _ _ D2 (prim_deriv k (a - t) ltac:(lra))) as E2.
    assert (D3 : derivable_pt_lim (fun t => 2 * t * nl a ^ k) t (2 * nl a ^ k)).
    { pose proof (derivable_pt_lim_scal id (2 * nl a ^ k) t 1 (derivable_pt_lim_id t)) as X. rewrite Rmult_1_r in X.
      intros e He. destruct (X e He) as [d Hd]. exists d. intros z Z1 Z2. specialize (Hd z Z1 Z2). unfold mult_real_fct, id in Hd. replace ((2 * (t + z) * nl a ^ k - 2 * t * nl a ^ k) / z) with ((2 * nl a ^ k * (t + z) - 2 * nl a ^ k * t) / z) by (field; exact Z1). exact Hd. }
    pose proof (derivable_pt_lim_minus _ _ t _ _ (derivable_pt_lim_minus _ _ t _ _ E1 E2) D3) as G.
    replace (nl (a + t) ^ k + nl (a - t) ^ k - 2 * nl a ^ k) with (nl (a + t) ^ k * 1 - nl (a - t) ^ k * -1 - 2 * nl a ^ k) by ring. exact G.
  - assert (P : 0 <= phi' c).
    { unfold phi'. pose proof (nl_mid a c ltac:(lra) ltac:(lra)) as M. pose proof (nl_pos (a + c) ltac:(lra)). pose proof (nl_pos (a - c) ltac:(lra)). pose proof (nl_pos a ltac:(lra)).
      pose proof (pow_incr (nl a) ((nl (a + c) + nl (a - c)) / 2) k ltac:(lra)). pose proof (pow_mid (nl (a + c)) (nl (a - c)) k ltac:(lra) ltac:(lra)). lra. }
    assert (0 <= phi' c * (h - 0)) by (apply Rmult_le_pos; lra). unfold phi in E. rewrite Rplus_0_r, Rminus_0_r in E. lra.
Qed.
Lemma cell_first k h : 0 < h -> 2 * h <= 1 -> 2 * h * nl h ^ k <= prim k (2 * h).
Proof.
  intros H0 H1. set (x := 2 * h) in *. set (c := ln 2). pose proof (nl_pos x ltac:(unfold x in *; lra)) as N.
  assert (C : 0 <= c <= 1). { unfold c. pose proof (ln_le_minus 2 ltac:(lra)). pose proof (ln_increasing 1 2 ltac:(lra) ltac:(lra)). rewrite ln_1 in *. lra. }
  assert (E : nl h = nl x + c) by (unfold nl, x, c; rewrite ln_mult by lra; lra). rewrite E.
  induction k as [|k IH]; [cbn; lra|]. cbn [prim].
  pose proof (pow_gap (nl x) c k N ltac:(lra)) as G. assert (P : 0 <= (nl x + c) ^ k) by (apply pow_le; lra).
  assert (X0 : 0 < x) by (unfold x; lra).
  assert (A : INR (S k) * c * (nl x + c) ^ k <= INR (S k) * (nl x + c) ^ k).
  { apply Rmult_le_compat_r; [exact P|]. rewrite <- (Rmult_1_r (INR (S k))) at 2. apply Rmult_le_compat_l; [apply pos_INR|lra]. }
  assert (B : x * (nl x + c) ^ S k <= x * (nl x ^ S k + INR (S k) * (nl x + c) ^ k)) by (apply Rmult_le_compat_l; lra).
  assert (D : INR (S k) * (x * (nl x + c) ^ k) <= INR (S k) * prim k x) by (apply Rmult_le_compat_l; [apply pos_INR|exact IH]). lra.
Qed.
Lemma cell_decr k a b : 0 < a < b -> b <= 1 -> prim k b - prim k a <= (b - a) * nl a ^ k.
Proof.
  intros [H0 H1] H2. destruct (MVT_cor2 (prim k) (fun x => nl x ^ k) a b H1) as (c & E & C).
  - intros c Hc. apply prim_deriv. lra.
  - rewrite E, Rmult_comm. apply Rmult_le_compat_l; [lra|]. apply pow_incr. split; [apply nl_pos; lra|apply nl_anti; lra].
Qed.
Lemma zseq_snoc n : forall lo, zseq lo (S n) = zseq lo n ++ [(lo + Z.of_nat n)%Z].
Proof. induction n as [|n IH]; intros lo; [cbn; f_equal; lia|]. change (zseq lo (S (S n))) with (lo :: zseq (lo + 1) (S n)). rewrite IH. replace (lo + 1 + Z.of_nat n)%Z with (lo + Z.of_nat (S n))%Z by lia. reflexivity. Qed.
Lemma sum_upper k h n : 0 < h -> (1 <= n)%nat -> 2 * INR n * h <= 1 -> Rsum (map (fun w => 2 * h * nl (IZR (2 * w + 1) * h) ^ k) (zseq 0 n)) <= prim k (2 * INR n * h).
Proof.
  intros H0 Hn. induction Hn as [|n Hn IH]; intros H1.
  - cbn [INR] in *. cbn [zseq map Rsum]. replace (IZR (2 * 0 + 1) * h) with h by (cbn; lra). replace (2 * 1 * h) with (2 * h) in * by lra. pose proof (cell_first k h H0 H1). lra.
  - rewrite S_INR in *. rewrite zseq_snoc, map_app, Rsum_app. cbn [map Rsum]. rewrite Z.add_0_l, plus_IZR, mult_IZR, <- INR_IZR_INZ.
    assert (X : 1 <= INR n) by (change 1 with (INR 1); now apply le_INR). assert (Y : h <= INR n * h) by nra.
    specialize (IH ltac:(lra)). pose proof (cell_mid k ((2 * INR n + 1) * h) h ltac:(lra) ltac:(lra)) as C.
    replace ((2 * INR n + 1) * h + h) with (2 * (INR n + 1) * h) in C by ring. replace ((2 * INR n + 1) * h - h) with (2 * INR n * h) in C by ring. lra.
Qed.
Lemma sum_lower k h n : 0 < h -> (2 * INR n + 1) * h <= 1 -> prim k ((2 * INR n + 1) * h) - prim k h <= Rsum (map (fun w => 2 * h * nl (IZR (2 * w + 1) * h) ^ k) (zseq 0 n)).
Proof.
  intros H0. induction n as [|n IH]; intros H1.
  - cbn [INR zseq map Rsum]. replace ((2 * 0 + 1) * h) with h by lra. lra.
  - rewrite S_INR in *. rewrite zseq_snoc, map_app, Rsum_app. cbn [map Rsum]. rewrite Z.add_0_l, plus_IZR, mult_IZR, <- INR_IZR_INZ.
    assert (X : 0 <= INR n) by apply pos_INR. assert (Y : 0 <= INR n * h) by (apply Rmult_le_pos; lra).
    specialize (IH ltac:(lra)). pose proof (cell_decr k ((2 * INR n + 1) * h) ((2 * (INR n + 1) + 1) * h) ltac:(lra) ltac:(lra)) as C.
    replace ((2 * (INR n + 1) + 1) * h - (2 * INR n + 1) * h) with (2 * h) in C by ring. lra.
Qed.

Section Radius.
  Variable W : Z.
  Hypothesis HW : (0 < W)%Z.
  Notation words := (range 0 (2 ^ W)).
  Definition half_cell : R := / IZR (2 ^ (W + 1)).
  Let N := IZR (2 ^ W).
  Definition ell (w : Z) : R := radius2 W w / 2.
  Lemma half_cell_eq : half_cell = / (2 * N).
  Proof. unfold half_cell, N. rewrite Z.pow_add_r, mult_IZR by lia. f_equal. change (IZR (2 ^ 1)) with 2. ring. Qed.
  Lemma ell_nl w : (0 <= w)%Z -> ell w = nl (IZR (2 * w + 1) * half_cell).
  Proof.
    intros Hw. pose proof (N_pos W HW) as HN. fold N in HN. unfold ell. rewrite radius2_eq by assumption. fold N. rewrite half_cell_eq. unfold nl.
    assert (0 < IZR (2 * w + 1)) by (apply IZR_lt; lia). rewrite (ln_mult (IZR (2 * w + 1)) (/ (2 * N))), ln_Rinv by (try apply Rinv_0_lt_compat; lra). lra.
  Qed.
  Lemma mean_ell k : average words (fun w => ell w ^ k) = Rsum (map (fun w => 2 * half_cell * nl (IZR (2 * w + 1) * half_cell) ^ k) (zseq 0 (Z.to_nat (2 ^ W)))).
  Proof.
    pose proof (N_pos W HW) as HN. fold N in HN. unfold average. rewrite (words_len' W HW). fold N. unfold range. rewrite Z.sub_0_r.
    rewrite Rsum_scal. replace (2 * half_cell) with (/ N) by (rewrite half_cell_eq; field; lra).
    unfold Rdiv. rewrite Rmult_comm. f_equal. apply Rsum_ext. intros w Hw. f_equal. apply ell_nl.
    assert (X : In w (range 0 (2 ^ W))) by (unfold range; now rewrite Z.sub_0_r). apply in_range in X. lia.
  Qed.
  Lemma INR_words : INR (Z.to_nat (2 ^ W)) = N.
  Proof. pose proof (pow_pos' W HW). unfold N. rewrite INR_IZR_INZ, Z2Nat.id by lia. reflexivity. Qed.
  Lemma mean_ell_le k : average words (fun w => ell w ^ k) <= INR (fact k).
  Proof.
    pose proof (N_pos W HW) as HN. fold N in HN. pose proof (pow_pos' W HW) as P. rewrite mean_ell, <- prim_one.
    assert (E : 2 * N * half_cell = 1) by (rewrite half_cell_eq; field; lra).
    pose proof (sum_upper k half_cell (Z.to_nat (2 ^ W))) as U. rewrite INR_words, E in U. apply U; [|lia|lra].
    rewrite half_cell_eq. apply Rinv_0_lt_compat. lra.
  Qed.
  Lemma mean_ell2_ge : 2 - prim 2 half_cell <= average words (fun w => ell w ^ 2).
  Proof.
    pose proof (N_pos W HW) as HN. fold N in HN. pose proof (pow_pos' W HW) as P. rewrite mean_ell.
    assert (E : 2 * N * half_cell = 1) by (rewrite half_cell_eq; field; lra).
    assert (HP : 0 < half_cell) by (rewrite half_cell_eq; apply Rinv_0_lt_compat; lra).
    destruct (Z.to_nat (2 ^ W)) as [|n] eqn:En; [lia|]. pose proof INR_words as IW. rewrite En, S_INR in IW.
    assert (EN : (2 * INR n + 1) * half_cell = 1 - half_cell) by (replace (INR n) with (N - 1) by lra; lra).
    pose proof (sum_lower 2 half_cell n HP ltac:(lra)) as L. rewrite EN in L.
    rewrite zseq_snoc, map_app, Rsum_app. cbn [map Rsum]. rewrite Z.add_0_l, plus_IZR, mult_IZR, <- INR_IZR_INZ, EN.
    assert (HS : half_cell <= / 2) by (rewrite half_cell_eq; apply Rinv_le_contravar; lra).
    pose proof (cell_decr 2 (1 - half_cell) 1 ltac:(lra) ltac:(lra)) as C. replace (1 - (1 - half_cell)) with half_cell in C by lra.
    assert (0 <= nl (1 - half_cell) ^ 2) by (apply pow_le, nl_pos; lra).
    assert (0 <= half_cell * nl (1 - half_cell) ^ 2) by (apply Rmult_le_pos; lra). pose proof (prim_one 2) as P1. cbn [fact Nat.mul Nat.add INR] in P1. lra.
  Qed.
End Radius.
