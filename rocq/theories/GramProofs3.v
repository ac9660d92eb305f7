(** Constants of the floating-point bound, and the combined statement (for PropsGram.v). *)
From Coq Require Import ZArith Reals Lra Psatz.
From Flocq Require Import Core BinarySingleNaN.
From Verif Require Import Base Spec RngModel DenseModel SparseSkopModel SparseSpec IsoSpec IsoProofs StatSpec StatProofs NormSpec NormProofs NormProofs3 NormProofs4
  RoundSpec RoundSpec2 GramProofs GramProofs2.
Local Open Scope R_scope.

Lemma pow_near u : 0 <= u -> forall n : nat, INR n * u <= 1 -> (1 + u) ^ n <= 1 + INR n * u + (INR n * u) * (INR n * u).
Proof.
  intros Hu. induction n as [|n IH]; intros H; [cbn; lra|]. rewrite S_INR in *. pose proof (pos_INR n) as Pn. cbn [pow].
  specialize (IH ltac:(nra)). set (z := INR n) in *. clearbody z. assert (Z1 : z * u <= 1) by nra.
  apply (Rle_trans _ ((1 + u) * (1 + z * u + z * u * (z * u)))); [apply Rmult_le_compat_l; lra|].
  assert (Q : 0 <= u * u * (z * (1 - z * u))) by (apply Rmult_le_pos; [nra|apply Rmult_le_pos; lra]). nra.
Qed.

Section Constants.
  Variables u m bb tau A : R.
  Hypothesis U0 : 0 < u.
  Hypothesis U1 : u <= / 1048576.
  Hypothesis M0 : 0 <= m.
  Hypothesis Mu : (m + 2) * (m + 2) * u <= 1.
  Hypothesis B1 : 1 <= bb.
  Hypothesis A0 : 0 <= A.
  Hypothesis AA : A * A = bb * m.
  Variable g : R.
  Hypothesis G0 : 0 <= g.
  Hypothesis Gs : g <= (m + 2) * u + ((m + 2) * u) * ((m + 2) * u).
  Let s := (m + 2) * u.
  Lemma s_facts : 0 <= s /\ s * s <= u /\ s <= / 1024.
  Proof using U0 U1 M0 Mu.
    unfold s. split; [nra|]. split; [nra|]. destruct (Rle_dec ((m + 2) * u) (/ 1024)); [assumption|]. exfalso.
    assert (/ 1024 * / 1024 < (m + 2) * u * ((m + 2) * u)) by (apply Rmult_le_0_lt_compat; lra). nra.
  Qed.
  Lemma gam_small : 0 <= gam (8 * u) g <= s + 10 * u.
  Proof using U0 U1 M0 Mu G0 Gs.
    destruct s_facts as (S0 & S1 & S2). fold s in Gs. clearbody s. unfold gam. split; [nra|]. nra.
  Qed.
  Lemma kappa_small : 0 <= tau <= u * u ->
    let rho := gam (8 * u) g * A + tau in 2 * A * rho + rho * rho <= bb * (2 * (m + 12) * (m + 12) * u).
  Proof using U0 U1 M0 Mu G0 Gs A0 AA B1.
    intros [T0 T1] rho. destruct gam_small as [C0 C1]. set (c := gam (8 * u) g) in *. destruct s_facts as (S0 & S1 & S2).
    unfold rho. replace (2 * A * (c * A + tau) + (c * A + tau) * (c * A + tau)) with ((2 * c + c * c) * (A * A) + (2 * tau * (1 + c)) * A + tau * tau) by ring.
    rewrite AA. assert (A1 : A <= bb * (m + 1)) by (clear - A0 AA B1 M0; nra). assert (Su : (m + 2) * u = s) by reflexivity. clearbody s c.
    assert (Bm : 0 <= bb * m) by nra.
    assert (C2 : c * c <= 2 * u) by nra.
    assert (P1 : (2 * c + c * c) * (bb * m) <= (2 * s + 22 * u) * (bb * m)) by (apply Rmult_le_compat_r; lra).
    assert (T2 : 2 * tau * (1 + c) <= u).
    { apply (Rle_trans _ (2 * (u * u) * 2)); [|nra]. apply Rmult_le_compat; nra. }
    assert (P2 : 2 * tau * (1 + c) * A <= u * (bb * (m + 1))) by (apply Rmult_le_compat; nra).
    assert (P3 : tau * tau <= u).
    { apply (Rle_trans _ (u * u * (u * u))); [apply Rmult_le_compat; lra|]. assert (0 < u * u) by nra. assert (u * u <= 1) by nra. nra. }
    assert (P4 : (2 * s + 22 * u) * (bb * m) = bb * (2 * m * (m + 13) * u)) by (rewrite <- Su; ring).
    assert (P5 : bb * (2 * (m + 12) * (m + 12) * u) = bb * (2 * m * (m + 13) * u) + (bb * u) * (22 * m + 288)) by ring.
    assert (P6 : u <= bb * u) by nra. assert (P7 : 0 <= bb * u) by nra. assert (P8 : 0 <= bb * u * m) by nra. nra.
  Qed.
End Constants.

Lemma Rsum_member {A} (f : A -> R) l a : (forall x, 0 <= f x) -> In a l -> f a <= Rsum (map f l).
Proof.
  intros P. induction l as [|x l IH]; intros H; [destruct H|]. cbn [map Rsum]. pose proof (P x). pose proof (Rsum_nonneg f l ltac:(auto)).
  destruct H as [->|H]; [lra|]. specialize (IH H). lra.
Qed.

Section Gram.
  Context {prec emax : Z}.
  Local Notation bf := (binary_float prec emax).
  Context {T : Type}.
  Variable ts : list T.
  (** Entries of the operator, data (m x n), results (d x n). *)
  Variable ent : T -> Z -> Z -> list bf.
  Variable b : Z -> Z -> bf.
  Variable out : T -> Z -> Z -> bf.
  Variables d m n : Z.
  Variables sc cs bb bd v : R.
  Variable alpha : bf.
  Variable zs : bool.
  Variable old : Z -> Z -> bf.
  Notation u := (bpow radix2 (- prec)).
  Notation X := (fun j k => B2R (b k j)).
  Notation F := (frob2 n m X).
  Notation S t := (fun r k => value (ent t r k)).
  Notation om := (2 * (@half_tiny prec emax * (IZR m * (3 + bd + sqrt F) + 1))).
  Hypothesis Hd : (0 <= d)%Z.
  Hypothesis Hm : (0 <= m)%Z.
  Hypothesis Hn : (0 <= n)%Z.
  Hypothesis Hsc : 0 <= sc <= 1.
  Hypothesis HIP : inner_products_kept ts sc (fun t => act m (S t)) d m v.
  Hypothesis Hbd : 0 <= bd.
  Hypothesis Hent : forall t r k, In t ts -> (0 <= r < d)%Z -> (0 <= k < m)%Z -> ent t r k = [] \/ exists w, ent t r k = [w] /\ is_finite w = true /\ Rabs (B2R w) <= bd.
  Hypothesis Hcs : forall t k, In t ts -> (0 <= k < m)%Z -> Rsum (map (fun r => value (ent t r k) * value (ent t r k)) (range 0 d)) <= cs.
  Hypothesis Hbb : sc * cs <= bb.
  Hypothesis Hbb1 : 1 <= bb.
  Hypothesis Hb : forall k j, (0 <= k < m)%Z -> (0 <= j < n)%Z -> is_finite (b k j) = true.
  Hypothesis Fal : is_finite alpha = true.
  Hypothesis Hal : Rabs (B2R alpha - sqrt sc) <= 8 * u * sqrt sc.
  Hypothesis Hprec : (20 <= prec)%Z.
  Hypothesis Hmu : (IZR m + 2) * (IZR m + 2) * u <= 1.
  Hypothesis HF : 0 < F.
  Hypothesis Hover : 2 * (3 * (IZR m * ((1 + bd) * (1 + sqrt F)))) <= bpow radix2 (emax - 1).
  Hypothesis Hunder : om * om * (IZR n * IZR d) <= u * u * (u * u) * F.
  Hypothesis Hout : forall t r j, In t ts -> (0 <= r < d)%Z -> (0 <= j < n)%Z -> surely_near alpha (terms (ent t) b m r j) (B754_zero zs) (old r j) (out t r j).

  Lemma u_small : 0 < u <= / 1048576.
  Proof.
    split; [apply bpow_gt_0|]. apply (Rle_trans _ (bpow radix2 (-20))); [apply bpow_le; lia|]. right. cbn. lra.
  Qed.
  Lemma m_nonneg : 0 <= IZR m. Proof. now apply IZR_le. Qed.
  Lemma pow_m : (1 + u) ^ Z.to_nat (m + 2) <= 1 + (IZR m + 2) * u + (IZR m + 2) * u * ((IZR m + 2) * u).
  Proof.
    assert (U0 : 0 <= u) by apply bpow_ge_0. pose proof m_nonneg as M0. pose proof (pow_near u U0 (Z.to_nat (m + 2))) as B.
    assert (Em : INR (Z.to_nat (m + 2)) = IZR m + 2) by (rewrite INR_IZR_INZ, Z2Nat.id by lia; apply plus_IZR).
    rewrite Em in B. apply B. generalize dependent u. intros. nra.
  Qed.
  Lemma pow_2 : (1 + u) ^ Z.to_nat (m + 2) <= 2.
  Proof.
    eapply Rle_trans; [apply pow_m|]. destruct u_small as [U0 U1]. destruct (s_facts u (IZR m) U0 U1 m_nonneg Hmu) as (S0 & S1 & S2).
    set (s := (IZR m + 2) * u) in *. clearbody s. lra.
  Qed.
  Lemma entry_le_frob k j : (0 <= k < m)%Z -> (0 <= j < n)%Z -> Rabs (B2R (b k j)) <= sqrt F.
  Proof.
    intros Hk Hj. rewrite <- (sqrt_Rsqr_abs (B2R (b k j))). apply sqrt_le_1_alt. unfold Rsqr.
    apply (Rle_trans _ (dot m (X j) (X j))).
    - unfold dot. apply (Rsum_member (fun i => B2R (b i j) * B2R (b i j))); [intros; apply Rle_0_sqr|now apply in_range].
    - unfold frob2. apply (Rsum_member (fun j => dot m (X j) (X j))); [intros; apply dot_nonneg|now apply in_range].
  Qed.
  Lemma alpha_2 : Rabs (B2R alpha) <= 2.
  Proof.
    destruct u_small as [U0 U1]. assert (Q : 0 <= sqrt sc <= 1). { split; [apply sqrt_pos|]. rewrite <- sqrt_1. apply sqrt_le_1_alt. lra. }
    replace (B2R alpha) with ((B2R alpha - sqrt sc) + sqrt sc) by ring. eapply Rle_trans; [apply Rabs_triang|]. rewrite (Rabs_pos_eq (sqrt sc)) by lra. nra.
  Qed.
  Lemma out_error t r j : In t ts -> (0 <= r < d)%Z -> (0 <= j < n)%Z -> is_finite (out t r j) = true /\
    Rabs (B2R (out t r j) - B2R alpha * act m (S t) (X j) r) <= ((1 + u) ^ Z.to_nat (m + 2) - 1) * (Rabs (B2R alpha) * weight m (S t) (X j) r) + om.
  Proof.
    intros Ht Hr Hj. apply (cell_error (ent t) b m Hm r j bd) with (nx := sqrt F) (s := zs) (c := old r j).
    all: try assumption; auto using sqrt_pos, alpha_2, pow_2. intros k Hk. now apply entry_le_frob.
  Qed.
  Lemma float_gram e : 0 < e ->
    probability ts (fun t => exceeds (gram_gap n d (fun j r => B2R (out t r j)) m X) ((e + bb * (2 * (IZR m + 12) * (IZR m + 12) * u)) * F)) <= v / e ^ 2.
  Proof.
    intros He. destruct u_small as [U0 U1]. pose proof m_nonneg as M0. set (g := (1 + u) ^ Z.to_nat (m + 2) - 1).
    assert (Bm : 0 <= bb * IZR m) by (apply Rmult_le_pos; lra).
    set (A := sqrt (bb * IZR m)). assert (A0 : 0 <= A) by apply sqrt_pos. assert (AA : A * A = bb * IZR m) by now apply sqrt_sqrt.
    assert (G0 : 0 <= g). { unfold g. assert (1 <= (1 + u) ^ Z.to_nat (m + 2)) by (apply pow_R1_Rle; lra). lra. }
    assert (Gs : g <= (IZR m + 2) * u + (IZR m + 2) * u * ((IZR m + 2) * u)) by (pose proof pow_m; unfold g; lra).
    set (rho := gam (8 * u) g * A + u * u).
    pose proof (kappa_small u (IZR m) bb (u * u) A U0 U1 M0 Hmu Hbb1 A0 AA g G0 Gs ltac:(nra)) as Kp. cbv zeta in Kp. fold rho in Kp.
    assert (R0 : 0 <= rho). { unfold rho. destruct (gam_small u (IZR m) U0 U1 M0 Hmu g G0 Gs) as [C0 _]. assert (0 <= gam (8 * u) g * A) by now apply Rmult_le_pos. nra. }
    assert (HcA : sc * (cs * IZR m) <= A * A). { rewrite AA. replace (sc * (cs * IZR m)) with (sc * cs * IZR m) by ring. now apply Rmult_le_compat_r. }
    apply (Rle_trans _ (probability ts (fun t => exceeds (gram_gap n d (fun j r => B2R (out t r j)) m X) ((e + (2 * A * rho + rho * rho)) * F)))).
    - apply average_le. intros t _. unfold exceeds, indicator. destruct (Rlt_dec _ _) as [L|L]; [|destruct (Rlt_dec _ _); lra].
      destruct (Rlt_dec _ _) as [L'|L']; [lra|]. exfalso. apply L'. eapply Rle_lt_trans; [|exact L]. apply Rmult_le_compat_r; lra.
    - apply (gram_computed ts sc (fun t => act m (S t)) d m n v (proj1 Hsc) HIP X (fun t j r => B2R (out t r j)) A rho HF A0 R0); [| |exact He].
      + intros t Ht. apply (act_total d m n Hm (S t) cs (fun k Hk => Hcs t k Ht Hk) sc A X (proj1 Hsc) HcA).
      + intros t Ht. apply (error_total d m n Hm Hd Hn (S t) cs (fun k Hk => Hcs t k Ht Hk) sc (8 * u) g om A (u * u) (B2R alpha) X (fun j r => B2R (out t r j))); auto; try lra.
        * nra.
        * intros j r Hj Hr. now apply out_error.
  Qed.
  Lemma float_close t z : In t ts ->
    let y := combine n (fun j r => B2R (out t r j)) z in let x := act m (S t) (combine n X z) in
    Rabs (dot d y y - sc * dot d x x) <= bb * (2 * (IZR m + 12) * (IZR m + 12) * u) * F * dot n z z.
  Proof using Hd Hm Hn Hsc Hbd Hent Hcs Hbb Hbb1 Hb Fal Hal Hprec Hmu HF Hover Hunder Hout.
    intros Ht y x. destruct u_small as [U0 U1]. pose proof m_nonneg as M0. set (g := (1 + u) ^ Z.to_nat (m + 2) - 1).
    assert (Bm : 0 <= bb * IZR m) by (apply Rmult_le_pos; lra).
    set (A := sqrt (bb * IZR m)). assert (A0 : 0 <= A) by apply sqrt_pos. assert (AA : A * A = bb * IZR m) by now apply sqrt_sqrt.
    assert (G0 : 0 <= g). { unfold g. assert (1 <= (1 + u) ^ Z.to_nat (m + 2)) by (apply pow_R1_Rle; lra). lra. }
    assert (Gs : g <= (IZR m + 2) * u + (IZR m + 2) * u * ((IZR m + 2) * u)) by (pose proof pow_m; unfold g; lra).
    set (rho := gam (8 * u) g * A + u * u).
    pose proof (kappa_small u (IZR m) bb (u * u) A U0 U1 M0 Hmu Hbb1 A0 AA g G0 Gs ltac:(nra)) as Kp. cbv zeta in Kp. fold rho in Kp.
    assert (R0 : 0 <= rho). { unfold rho. destruct (gam_small u (IZR m) U0 U1 M0 Hmu g G0 Gs) as [C0 _]. assert (0 <= gam (8 * u) g * A) by now apply Rmult_le_pos. nra. }
    assert (HcA : sc * (cs * IZR m) <= A * A). { rewrite AA. replace (sc * (cs * IZR m)) with (sc * cs * IZR m) by ring. now apply Rmult_le_compat_r. }
    pose proof (act_total d m n Hm (S t) cs (fun k Hk => Hcs t k Ht Hk) sc A X (proj1 Hsc) HcA) as T1.
    assert (T2 : frob2 n d (fun j i => B2R (out t i j) - sqrt sc * act m (S t) (X j) i) <= rho * rho * F).
    { apply (error_total d m n Hm Hd Hn (S t) cs (fun k Hk => Hcs t k Ht Hk) sc (8 * u) g om A (u * u) (B2R alpha) X (fun j r => B2R (out t r j))); auto; try lra.
      - nra.
      - intros j r Hj Hr. now apply out_error. }
    assert (SS : sqrt sc * sqrt sc = sc) by (apply sqrt_sqrt; lra).
    pose proof (perturb n d (fun j i => sqrt sc * act m (S t) (X j) i) (fun j i => B2R (out t i j) - sqrt sc * act m (S t) (X j) i) F A rho (Rlt_le _ _ HF) A0 R0) as P.
    assert (T1' : frob2 n d (fun j i => sqrt sc * act m (S t) (X j) i) <= A * A * F).
    { eapply Rle_trans; [|exact T1]. right. unfold frob2. rewrite <- Rsum_scal. apply Rsum_ext. intros j _. rewrite dot_scal, SS. reflexivity. }
    specialize (P T1' T2).
    assert (K0 : 0 <= (2 * A * rho + rho * rho) * F) by (apply Rmult_le_pos; [|lra]; nra).
    pose proof (combine_gap n d d (fun j i => sqrt sc * act m (S t) (X j) i + (B2R (out t i j) - sqrt sc * act m (S t) (X j) i)) (fun j i => sqrt sc * act m (S t) (X j) i) z _ K0 P) as Q.
    assert (Ey : dot d (combine n (fun j i => sqrt sc * act m (S t) (X j) i + (B2R (out t i j) - sqrt sc * act m (S t) (X j) i)) z) (combine n (fun j i => sqrt sc * act m (S t) (X j) i + (B2R (out t i j) - sqrt sc * act m (S t) (X j) i)) z) = dot d y y).
    { apply dot_ext; intros i _; unfold y, combine; apply Rsum_ext; intros j _; ring. }
    assert (Ex : dot d (combine n (fun j i => sqrt sc * act m (S t) (X j) i) z) (combine n (fun j i => sqrt sc * act m (S t) (X j) i) z) = sc * dot d x x).
    { transitivity (sqrt sc * sqrt sc * dot d x x); [|now rewrite SS]. rewrite <- dot_scal. assert (E : forall i, combine n (fun j i => sqrt sc * act m (S t) (X j) i) z i = sqrt sc * x i).
      { intros i. unfold x, act. rewrite dot_sym, dot_combine. unfold combine. rewrite <- Rsum_scal. apply Rsum_ext. intros j _. rewrite (dot_sym _ (X j)). ring. }
      apply dot_ext; intros i _; apply E. }
    cbv beta in Q, Ey, Ex. rewrite Ey, Ex in Q. eapply Rle_trans; [exact Q|]. apply Rmult_le_compat_r; [apply dot_nonneg|]. apply Rmult_le_compat_r; [lra|exact Kp].
  Qed.
End Gram.
