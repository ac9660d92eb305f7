(** Entries computed in floating-point arithmetic against exact sketches (for PropsGram.v). *)
From Coq Require Import ZArith Reals Lra Psatz.
From Flocq Require Import Core BinarySingleNaN.
From Verif Require Import Base Spec RngModel DenseModel SparseSkopModel SparseSpec IsoSpec IsoProofs StatSpec StatProofs NormSpec NormProofs NormProofs3 NormProofs4
  RoundSpec RoundSpec2 GramProofs.
Local Open Scope R_scope.

(** ** Exact sketches *)
Section Exact.
  Variables d m n : Z.
  Hypothesis Hm : (0 <= m)%Z.
  Hypothesis Hd : (0 <= d)%Z.
  Hypothesis Hn : (0 <= n)%Z.
  Variable S : Z -> Z -> R.
  Definition act (x : Z -> R) (r : Z) : R := dot m (fun i => S r i) x.
  Definition weight (x : Z -> R) (r : Z) : R := Rsum (map (fun i => Rabs (S r i) * Rabs (x i)) (range 0 m)).
  Lemma weight_nonneg x r : 0 <= weight x r.
  Proof. apply Rsum_nonneg. intros i _. apply Rmult_le_pos; apply Rabs_pos. Qed.
  Lemma act_weight x r : Rabs (act x r) <= weight x r.
  Proof. unfold act, weight, dot. eapply Rle_trans; [apply Rsum_abs|]. right. apply Rsum_ext. intros i _. apply Rabs_mult. Qed.
  Variable cs : R.
  Hypothesis Hcol : forall i, (0 <= i < m)%Z -> Rsum (map (fun r => S r i * S r i) (range 0 d)) <= cs.
  Lemma weight_sq x : dot d (weight x) (weight x) <= cs * IZR m * dot m x x.
  Proof.
    apply (Rle_trans _ (Rsum (map (fun r => IZR m * Rsum (map (fun i => S r i * S r i * (x i * x i)) (range 0 m))) (range 0 d)))).
    - apply Rsum_le. intros r _. unfold weight. eapply Rle_trans; [apply sum_sq; exact Hm|]. right. f_equal. apply Rsum_ext. intros i _.
      replace (Rabs (S r i) * Rabs (x i) * (Rabs (S r i) * Rabs (x i))) with ((Rabs (S r i) * Rabs (S r i)) * (Rabs (x i) * Rabs (x i))) by ring.
      rewrite <- !Rabs_mult. apply Rabs_pos_eq. apply Rmult_le_pos; apply Rle_0_sqr.
    - rewrite Rsum_scal, Rsum_swap. replace (cs * IZR m * dot m x x) with (IZR m * (cs * dot m x x)) by ring.
      apply Rmult_le_compat_l; [apply IZR_le; assumption|]. unfold dot. rewrite <- Rsum_scal. apply Rsum_le. intros i Hi. apply in_range in Hi.
      rewrite <- Rsum_mul_r. apply Rmult_le_compat_r; [apply Rle_0_sqr|now apply Hcol].
  Qed.

  Variables (sc eta g om A tau : R) (al : R).
  Variable X Y : Z -> Z -> R.
  Notation F := (frob2 n m X).
  Hypothesis Hsc : 0 <= sc.
  Hypothesis HA : 0 <= A.
  Hypothesis Heta : 0 <= eta.
  Hypothesis Hg : 0 <= g.
  Hypothesis Hom : 0 <= om.
  Hypothesis Htau : 0 <= tau.
  Hypothesis HcA : sc * (cs * IZR m) <= A * A.
  Hypothesis Hal : Rabs (al - sqrt sc) <= eta * sqrt sc.
  Hypothesis Hy : forall j r, (0 <= j < n)%Z -> (0 <= r < d)%Z -> Rabs (Y j r - al * act (X j) r) <= g * (Rabs al * weight (X j) r) + om.
  Hypothesis Hot : om * om * (IZR n * IZR d) <= tau * tau * F.
  Definition gam : R := (1 + eta) * (1 + g) - 1.
  Lemma weights_total : sc * frob2 n d (fun j => weight (X j)) <= A * A * F.
  Proof.
    apply (Rle_trans _ (sc * (cs * IZR m * F))).
    - apply Rmult_le_compat_l; [exact Hsc|]. unfold frob2. rewrite <- Rsum_scal. apply Rsum_le. intros j _. apply weight_sq.
    - replace (sc * (cs * IZR m * F)) with (sc * (cs * IZR m) * F) by ring. apply Rmult_le_compat_r; [apply frob2_nonneg|exact HcA].
  Qed.
  Lemma act_total : sc * frob2 n d (fun j => act (X j)) <= A * A * F.
  Proof.
    eapply Rle_trans; [|apply weights_total]. apply Rmult_le_compat_l; [exact Hsc|]. apply Rsum_le. intros j _. apply Rsum_le. intros r _.
    pose proof (act_weight (X j) r) as B. apply abs_bounds in B. nra.
  Qed.
  Lemma error_total : frob2 n d (fun j i => Y j i - sqrt sc * act (X j) i) <= (gam * A + tau) * (gam * A + tau) * F.
  Proof.
    pose proof (sqrt_pos sc) as Ps. assert (Hgam : 0 <= gam) by (unfold gam; nra).
    assert (E1 : forall j r, (0 <= j < n)%Z -> (0 <= r < d)%Z -> Rabs (Y j r - sqrt sc * act (X j) r) <= gam * (sqrt sc * weight (X j) r) + om).
    { intros j r Hj Hr. replace (Y j r - sqrt sc * act (X j) r) with ((Y j r - al * act (X j) r) + (al - sqrt sc) * act (X j) r) by ring.
      eapply Rle_trans; [apply Rabs_triang|]. rewrite Rabs_mult. pose proof (Hy j r Hj Hr) as B. pose proof (act_weight (X j) r) as B2. pose proof (weight_nonneg (X j) r) as W0.
      assert (Aal : Rabs al <= (1 + eta) * sqrt sc).
      { replace al with ((al - sqrt sc) + sqrt sc) by ring. eapply Rle_trans; [apply Rabs_triang|]. rewrite (Rabs_pos_eq (sqrt sc)) by exact Ps. lra. }
      assert (Rabs (al - sqrt sc) * Rabs (act (X j) r) <= eta * sqrt sc * weight (X j) r).
      { apply Rmult_le_compat; try assumption; apply Rabs_pos. }
      assert (g * (Rabs al * weight (X j) r) <= g * ((1 + eta) * sqrt sc * weight (X j) r)) by (apply Rmult_le_compat_l; [exact Hg|]; apply Rmult_le_compat_r; assumption).
      unfold gam. lra. }
    set (L := list_prod (range 0 n) (range 0 d)).
    assert (U : forall f : Z -> Z -> R, frob2 n d f = Rsum (map (fun p => f (fst p) (snd p) * f (fst p) (snd p)) L)).
    { intros f. unfold L. rewrite Rsum_prod. apply Rsum_ext. intros j _. apply Rsum_ext. intros r _. reflexivity. }
    set (P := fun p : Z * Z => gam * (sqrt sc * weight (X (fst p)) (snd p))). set (Q := fun p : Z * Z => om).
    apply (Rle_trans _ (Rsum (map (fun p => (P p + Q p) * (P p + Q p)) L))).
    - rewrite U. apply Rsum_le. intros [j r] Hp. unfold L in Hp. apply in_prod_iff in Hp as [Hj Hr]. apply in_range in Hj, Hr. cbn [fst snd].
      specialize (E1 j r Hj Hr). unfold P, Q. cbn [fst snd].
      set (z := Y j r - sqrt sc * act (X j) r) in *. set (b := gam * (sqrt sc * weight (X j) r) + om) in *. apply abs_bounds in E1. clearbody z b. nra.
    - assert (B1 : Rsum (map (fun p => P p * P p) L) <= F * ((gam * A) * (gam * A))).
      { rewrite (Rsum_ext _ (fun p => gam * gam * sc * (weight (X (fst p)) (snd p) * weight (X (fst p)) (snd p)))).
        - rewrite (Rsum_scal (gam * gam * sc)), <- (U (fun j => weight (X j))). replace (F * (gam * A * (gam * A))) with (gam * gam * (A * A * F)) by ring. rewrite Rmult_assoc.
          apply Rmult_le_compat_l; [nra|]. apply weights_total.
        - intros p _. unfold P. replace sc with (sqrt sc * sqrt sc) at 3 by now apply sqrt_sqrt. ring. }
      assert (B2 : Rsum (map (fun p => Q p * Q p) L) <= F * (tau * tau)).
      { unfold Q, L. rewrite Rsum_prod. rewrite (Rsum_ext _ (fun _ => IZR d * (om * om))) by (intros; apply Rsum_range_const; exact Hd).
        rewrite Rsum_range_const by exact Hn. lra. }
      pose proof (minkowski L P Q (gam * A) tau F (frob2_nonneg n m X) ltac:(now apply Rmult_le_pos) Htau B1 B2) as M. lra.
  Qed.
End Exact.

(** ** Entries as lists of stored values *)
Lemma Rtotal_Rsum l : Rtotal l = Rsum l.
Proof. induction l; cbn; [reflexivity|]. now rewrite <- IHl. Qed.
Lemma Rsum_app l l' : Rsum (l ++ l') = Rsum l + Rsum l'.
Proof. induction l as [|x l IH]; cbn; [lra|]. rewrite IH. lra. Qed.
Lemma Rsum_flat {A B} (f : A -> list B) (h : B -> R) l : Rsum (map h (flat_map f l)) = Rsum (map (fun a => Rsum (map h (f a))) l).
Proof. induction l as [|a l IH]; [reflexivity|]. cbn [flat_map map Rsum]. rewrite map_app, Rsum_app, IH. reflexivity. Qed.

Section Cells.
  Context {prec emax : Z}.
  Local Notation bf := (binary_float prec emax).
  Variable ent : Z -> Z -> list bf.
  Variable b : Z -> Z -> bf.
  Variable m : Z.
  Hypothesis Hm : (0 <= m)%Z.
  Variables i j : Z.
  Variable bd : R.
  Hypothesis Hbd : 0 <= bd.
  Hypothesis Hent : forall k, (0 <= k < m)%Z -> ent i k = [] \/ exists v, ent i k = [v] /\ is_finite v = true /\ Rabs (B2R v) <= bd.
  Hypothesis Hb : forall k, (0 <= k < m)%Z -> is_finite (b k j) = true.
  Notation p := (terms ent b m i j).
  Definition value (l : list bf) : R := Rsum (map B2R l).
  Notation S := (fun r k => value (ent r k)).
  Notation x := (fun k => B2R (b k j)).
  Lemma terms_length : (zlen p <= m)%Z.
  Proof.
    unfold terms. assert (X : forall r, (forall k, In k r -> 0 <= k < m)%Z -> (length (flat_map (fun k => map (fun v => (v, b k j)) (ent i k)) r) <= length r)%nat).
    { induction r as [|k r IH]; intros Hr; [reflexivity|]. cbn [flat_map length]. rewrite app_length, map_length. specialize (IH (fun k0 h => Hr k0 (or_intror h))).
      destruct (Hent k (Hr k (or_introl eq_refl))) as [->|(v & -> & _)]; cbn [length]; lia. }
    specialize (X (range 0 m) ltac:(intros k Hk; now apply in_range)). pose proof (zlen_range 0 m ltac:(lia)) as Lr. unfold zlen in *. lia.
  Qed.
  Lemma exact_terms alpha s c : exact_cell alpha p (B754_zero s) c = B2R alpha * act m S x i.
  Proof.
    unfold exact_cell. rewrite Rtotal_Rsum. unfold terms. rewrite Rsum_flat. cbn [B2R]. rewrite Rmult_0_l, Rplus_0_r. f_equal.
    unfold act, dot. apply Rsum_ext. intros k Hk. apply in_range in Hk. unfold value. destruct (Hent k Hk) as [->|(v & -> & _)]; cbn; ring.
  Qed.
  Lemma size_terms alpha s c : size_cell alpha p (B754_zero s) c = Rabs (B2R alpha) * weight m S x i.
  Proof.
    unfold size_cell. rewrite Rtotal_Rsum. unfold terms. rewrite Rsum_flat. cbn [B2R]. rewrite Rabs_R0, Rmult_0_l, Rplus_0_r. f_equal.
    unfold weight. apply Rsum_ext. intros k Hk. apply in_range in Hk. unfold value. destruct (Hent k Hk) as [->|(v & -> & _)]; cbn; [rewrite Rabs_R0; ring|].
    rewrite !Rplus_0_r. reflexivity.
  Qed.
  Variable nx : R.
  Hypothesis Hx : forall k, (0 <= k < m)%Z -> Rabs (x k) <= nx.
  Hypothesis Hnx : 0 <= nx.
  Lemma terms_sum_le (f : bf * bf -> R) c : 0 <= c -> (forall v k, (0 <= k < m)%Z -> Rabs (B2R v) <= bd -> f (v, b k j) <= c) -> Rtotal (map f p) <= IZR m * c.
  Proof.
    intros Hc Hf. rewrite Rtotal_Rsum. unfold terms. rewrite Rsum_flat. rewrite <- (Rsum_range_const c m) by exact Hm. apply Rsum_le. intros k Hk. apply in_range in Hk.
    destruct (Hent k Hk) as [->|(v & -> & _ & V)]; cbn; [exact Hc|]. rewrite Rplus_0_r. now apply Hf.
  Qed.
  Lemma underflow_terms alpha : Rabs (B2R alpha) <= 2 -> underflow alpha p <= @half_tiny prec emax * (IZR m * (3 + bd + nx) + 1).
  Proof.
    intros Ha. unfold underflow. apply Rmult_le_compat_l; [apply bpow_ge_0|]. apply Rplus_le_compat_r. apply terms_sum_le; [lra|].
    intros v k Hk Hv. cbn [fst snd]. specialize (Hx k Hk). cbv beta in Hx. lra.
  Qed.
  Lemma total_terms alpha s c : Rabs (B2R alpha) <= 2 -> total_size alpha p (B754_zero s) c <= 3 * (IZR m * ((1 + bd) * (1 + nx))).
  Proof.
    intros Ha. unfold total_size. cbn [unless_zero]. rewrite Rplus_0_r.
    assert (B : (1 + Rabs (B2R alpha)) * Rtotal (map (fun q => (1 + Rabs (B2R (fst q))) * (1 + Rabs (B2R (snd q)))) p) <= 3 * (IZR m * ((1 + bd) * (1 + nx)))).
    { pose proof (Rabs_pos (B2R alpha)). apply Rmult_le_compat; [lra| |lra|].
      - rewrite Rtotal_Rsum. apply Rsum_nonneg. intros q _. pose proof (Rabs_pos (B2R (fst q))). pose proof (Rabs_pos (B2R (snd q))). apply Rmult_le_pos; lra.
      - apply terms_sum_le; [apply Rmult_le_pos; lra|]. intros v k Hk Hv. cbn [fst snd]. specialize (Hx k Hk). cbv beta in Hx. pose proof (Rabs_pos (B2R v)). pose proof (Rabs_pos (B2R (b k j))). apply Rmult_le_compat; lra. }
    destruct alpha; cbn [unless_zero]; try exact B. apply Rmult_le_pos; [lra|]. apply Rmult_le_pos; [apply IZR_le; assumption|]. apply Rmult_le_pos; lra.
  Qed.
  Lemma used_terms alpha s c : is_finite alpha = true -> used_finite alpha p (B754_zero s) c.
  Proof.
    intros Ha. split; [|left; now exists s]. right. right. split; [exact Ha|]. intros v y Hv. unfold terms in Hv. apply in_flat_map in Hv as (k & Hk & Hv).
    apply in_range in Hk. apply in_map_iff in Hv as (w & Ew & Hw). apply pair_equal_spec in Ew as [<- <-]. split; [|now apply Hb].
    destruct (Hent k Hk) as [E|(v' & E & Fv & _)]; rewrite E in Hw; [destruct Hw|]. destruct Hw as [<-|[]]. exact Fv.
  Qed.

  (** The error of a computed entry. *)
  Notation u := (bpow radix2 (- prec)).
  Hypothesis Hover : 2 * (3 * (IZR m * ((1 + bd) * (1 + nx)))) <= bpow radix2 (emax - 1).
  Hypothesis Hq : (1 + u) ^ Z.to_nat (m + 2) <= 2.
  Lemma cell_error alpha s c y : is_finite alpha = true -> Rabs (B2R alpha) <= 2 -> surely_near alpha p (B754_zero s) c y ->
    is_finite y = true /\
    Rabs (B2R y - B2R alpha * act m S x i) <=
      ((1 + u) ^ Z.to_nat (m + 2) - 1) * (Rabs (B2R alpha) * weight m S x i) + 2 * (@half_tiny prec emax * (IZR m * (3 + bd + nx) + 1)).
  Proof.
    intros Fa Ha Hs. assert (U0 : 0 <= u) by apply bpow_ge_0.
    assert (Q : 1 <= (1 + u) ^ Z.to_nat (zlen p + 2) <= (1 + u) ^ Z.to_nat (m + 2)).
    { split; [apply pow_R1_Rle; lra|]. apply Rle_pow; [lra|]. pose proof terms_length. pose proof (zlen_nonneg p). lia. }
    set (q := (1 + u) ^ Z.to_nat (zlen p + 2)) in *. set (q' := (1 + u) ^ Z.to_nat (m + 2)) in *.
    destruct (Hs (used_terms alpha s c Fa)) as [Fy Ny].
    { unfold no_overflow. fold q. eapply Rle_trans; [|exact Hover]. apply (Rle_trans _ (q * (3 * (IZR m * ((1 + bd) * (1 + nx)))))).
      - apply Rmult_le_compat_l; [lra|]. now apply total_terms.
      - apply Rmult_le_compat_r; [|lra]. apply Rmult_le_pos; [lra|]. apply Rmult_le_pos; [apply IZR_le; assumption|]. apply Rmult_le_pos; lra. }
    split; [exact Fy|]. unfold near in Ny. fold q in Ny. rewrite exact_terms, size_terms in Ny. eapply Rle_trans; [exact Ny|].
    apply Rplus_le_compat.
    - apply Rmult_le_compat_r; [|lra]. apply Rmult_le_pos; [apply Rabs_pos|]. apply weight_nonneg.
    - apply Rmult_le_compat; [lra| |lra|now apply underflow_terms]. unfold underflow. apply Rmult_le_pos; [apply bpow_ge_0|].
      apply Rplus_le_le_0_compat; [|lra]. rewrite Rtotal_Rsum. apply Rsum_nonneg. intros z _. pose proof (Rabs_pos (B2R alpha)). pose proof (Rabs_pos (B2R (fst z))). pose proof (Rabs_pos (B2R (snd z))). lra.
  Qed.
End Cells.
