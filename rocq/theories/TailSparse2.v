(** Exponential tail bounds for operators with short-axis vectors (used by PropsTail4.v). *)
From Coq Require Import ZArith Reals Lra Psatz.
From Verif Require Import Base Spec RngModel DenseModel DenseSpec SparseSkopModel FySpec FyProofs SparseSpec LasoProofs
  SparseProofs SparseProofs2 PairProofs IsoSpec IsoProofs StatSpec StatProofs NormSpec NormProofs NormProofs2 NormProofs3 TailSpec TailProofs TailSparse.
Local Open Scope R_scope.

(** exp lies below its chord on [0, tau]. *)
Lemma exp_chord tau u : 0 <= u <= 1 -> exp (tau * u) <= 1 + u * (exp tau - 1).
Proof.
  intros Hu. set (y := tau * u). pose proof (exp_ineq1_le (tau - y)) as A. pose proof (exp_ineq1_le (- y)) as B. pose proof (exp_pos y) as P.
  assert (A' : exp y * (1 + (tau - y)) <= exp tau). { replace (exp tau) with (exp y * exp (tau - y)) by (rewrite <- exp_plus; f_equal; ring). apply Rmult_le_compat_l; [apply Rlt_le, P|exact A]. }
  assert (B' : exp y * (1 + - y) <= 1). { apply (Rle_trans _ (exp y * exp (- y))); [apply Rmult_le_compat_l; [apply Rlt_le, P|exact B]|]. rewrite <- exp_plus, Rplus_opp_r, exp_0. lra. }
  replace (1 + u * (exp tau - 1)) with ((1 - u) * 1 + u * exp tau) by ring. apply (Rle_trans _ ((1 - u) * (exp y * (1 + - y)) + u * (exp y * (1 + (tau - y))))).
  - right. unfold y. ring.
  - apply Rplus_le_compat; apply Rmult_le_compat_l; try assumption; destruct Hu; lra.
Qed.
Lemma indicator_nonneg b : 0 <= indicator b. Proof. destruct b; cbn [indicator]; lra. Qed.
Lemma indicator_exp a b l : 0 < l -> indicator (exceeds a b) <= exp (l * (a - b)).
Proof.
  intros Hl. unfold exceeds, indicator. destruct (Rlt_dec b a) as [H|H]; [|apply Rlt_le, exp_pos]. rewrite <- exp_0. apply exp_le. apply Rmult_le_pos; lra.
Qed.

Section SparseTail.
  Context {K F : Type}.
  Variable env : sparse_env K F R.
  Variable D : sparse_dist.
  Variable seed : rng_state K.
  Hypothesis We : wf_senv env.
  Hypothesis H1 : se_one env = 1.
  Hypothesis Hm1 : se_mone env = -1.
  Hypothesis HD : valid_sdist D.
  Hypothesis Hseed : seed_ok env seed.
  Hypothesis Hblocks : (sd_full_nnz D <= 2 ^ g_bits (se_raw env))%Z.
  Variable W : Z.
  Hypothesis HW : (0 < W)%Z.
  Hypothesis HdW : (sd_major D <= 2 ^ W)%Z.
  Notation L := (g_len (se_raw env)).
  Notation k := (sd_vec_nnz D).
  Notation d := (sd_major D).
  Notation m := (sd_minor D).
  Notation "'E' t" := (with_words env seed t) (at level 10, t at level 9).
  Notation U := (range 0 (2 ^ W)).
  Notation n := (Z.to_nat (sd_full_nnz D * L)).
  Notation draws := (tapes n U).
  Notation sg := (fun w : Z => if (w mod 2 =? 0)%Z then 1 else -1).
  Notation inc := (fun t s a => indicator (mem s (short_sample (E t) D seed a))).
  Notation N := (INR (length draws)).
  Notation p := (pmax D W).
  Variable x : Z -> R.
  Notation X := (dot m x x).

  Definition os : list (Z * Z) := list_prod (range 0 m) (range 0 k).
  Definition spos (o : Z * Z) : nat := sign_pos env (fst o * k + snd o).
  Definition srow (t : list Z) (o : Z * Z) : Z := match get (short_sample (E t) D seed (fst o)) (snd o) with Some s => s | None => 0%Z end.
  Definition sc (o : Z * Z) : R := x (fst o).
  Lemma in_os i j : In (i, j) os -> (0 <= i < m)%Z /\ (0 <= j < k)%Z.
  Proof. intros H. apply in_prod_iff in H as [A B]. apply in_range in A, B. split; assumption. Qed.
  Lemma row_hit t i j s : (0 <= i < m)%Z -> (0 <= j < k)%Z -> IsoSpec.delta (srow t (i, j)) s = if hit env D seed t i j s then 1 else 0.
  Proof.
    intros Hi Hj. destruct (short_sample_facts (E t) D seed i HD) as (Ll & _ & _). unfold srow, hit, IsoSpec.delta. cbn [fst snd].
    destruct (get_lt (short_sample (E t) D seed i) j ltac:(lia)) as [y ->]. reflexivity.
  Qed.
  Lemma hits_inc t i s : (0 <= i < m)%Z -> Rsum (map (fun j => if hit env D seed t i j s then 1 else 0) (range 0 k)) = inc t s i.
  Proof.
    intros Hi. destruct (short_sample_facts (E t) D seed i HD) as (Ll & Nd & _). destruct (mem s (short_sample (E t) D seed i)) eqn:M; cbn [indicator].
    - apply mem_in, get_In in M as (j & Hj). pose proof (get_Some_lt _ _ _ Hj). rewrite (Rsum_one _ _ j); [|apply NoDup_range|apply in_range; lia|].
      + unfold hit. now rewrite Hj, Z.eqb_refl.
      + intros j' _ Nj. unfold hit. destruct (get (short_sample (E t) D seed i) j') as [y|] eqn:G; [|reflexivity]. destruct (Z.eqb_spec y s) as [->|]; [|reflexivity].
        exfalso. apply Nj. eapply get_inj_NoDup; eauto.
    - apply Rsum_zero. intros j _. unfold hit. destruct (get (short_sample (E t) D seed i) j) as [y|] eqn:G; [|reflexivity]. destruct (Z.eqb_spec y s) as [->|]; [|reflexivity].
      exfalso. apply get_Some_In, mem_in in G. congruence.
  Qed.
  Definition share (t : list Z) (s : Z) : R := Rsum (map (fun i => inc t s i * (x i * x i)) (range 0 m)).
  Lemma part_image t s : part sg spos srow sc os t s = image env D seed t x s.
  Proof.
    unfold part, os, image. rewrite Rsum_prod. apply Rsum_ext. intros i Hi. apply in_range in Hi. rewrite (val_sum env D seed HD) by exact Hi. rewrite Rsum_mul_r. apply Rsum_ext. intros j Hj. apply in_range in Hj.
    rewrite row_hit by assumption. unfold spos, sc. cbn [fst snd]. rewrite <- (sign_value env D seed We H1 Hm1 HD Hseed Hblocks) by assumption. destruct (hit _ _ _ _ _ _ _); lra.
  Qed.
  Lemma rest_share t s : rest srow sc os t s = share t s.
  Proof.
    unfold rest, os, share. rewrite Rsum_prod. apply Rsum_ext. intros i Hi. apply in_range in Hi. rewrite <- hits_inc by exact Hi. rewrite Rsum_mul_r. apply Rsum_ext. intros j Hj. apply in_range in Hj.
    rewrite row_hit by assumption. reflexivity.
  Qed.
  Lemma share_nonneg t s : 0 <= share t s.
  Proof. apply Rsum_nonneg. intros i _. assert (0 <= x i * x i) by apply Rle_0_sqr. unfold indicator. destruct (mem _ _); lra. Qed.
  Lemma share_total t : Rsum (map (share t) (range 0 d)) = IZR k * X.
  Proof.
    unfold share. rewrite Rsum_swap. unfold dot. rewrite <- Rsum_scal. apply Rsum_ext. intros i Hi. apply in_range in Hi. rewrite <- Rsum_mul_r. f_equal.
    exact (inc_total env D seed We H1 Hm1 HD Hseed Hblocks W HW t i Hi).
  Qed.
  Lemma N_pos : 0 < N.
  Proof. rewrite tapes_length. apply lt_0_INR. apply Nat.neq_0_lt_0. apply Nat.pow_nonzero. pose proof (NormProofs2.U_ne env W HW). destruct U; [congruence|discriminate]. Qed.
  Lemma p_nonneg : 0 <= p.
  Proof.
    destruct (valid_sdist_inv D HD) as (_ & _ & Hk & _). unfold pmax. apply Rmult_le_pos.
    - apply Rmult_le_pos; [apply IZR_le; lia|]. apply Rlt_le, Rinv_0_lt_compat, IZR_lt. lia.
    - apply pow_le. assert (0 <= IZR d / IZR (2 ^ W)); [|lra]. apply Rmult_le_pos; [apply IZR_le; lia|]. apply Rlt_le, Rinv_0_lt_compat, IZR_lt, Z.pow_pos_nonneg; lia.
  Qed.

  (** ** The share of one row *)
  Hypothesis HX : 0 < X.
  Variable tau : R.
  Hypothesis Htau : 0 < tau.
  Lemma share_exp s cs : (0 <= s < d)%Z -> NoDup cs -> (forall i, In i cs -> (0 <= i < m)%Z) ->
    Rsum (map (fun t => exp (tau / X * Rsum (map (fun i => inc t s i * (x i * x i)) cs))) draws) <=
    N * exp (p * (exp tau - 1) * (Rsum (map (fun i => x i * x i) cs) / X)).
  Proof.
    intros Hs. assert (T1 : 0 <= exp tau - 1) by (pose proof (exp_ineq1_le tau); lra). pose proof p_nonneg as P0.
    induction cs as [|b cs IH]; intros Nd Hin.
    - cbn [map Rsum]. rewrite !Rmult_0_r. unfold Rdiv. rewrite Rmult_0_l, Rmult_0_r, exp_0, Rsum_const. lra.
    - inversion Nd as [|b0 cs0 Nb Nd']. subst b0 cs0. specialize (IH Nd' (fun i Hi => Hin i (or_intror Hi))). assert (Hb : (0 <= b < m)%Z) by (apply Hin; now left).
      set (gg := fun t => exp (tau / X * Rsum (map (fun i => inc t s i * (x i * x i)) cs))) in *.
      assert (Xb : 0 <= x b * x b / X <= 1).
      { assert (0 <= x b * x b) by apply Rle_0_sqr. split; [apply Rmult_le_pos; [assumption|apply Rlt_le, Rinv_0_lt_compat, HX]|]. apply (Rmult_le_reg_r X); [exact HX|]. unfold Rdiv. rewrite Rmult_assoc, Rinv_l, Rmult_1_r, Rmult_1_l by lra.
        unfold dot. apply in_range in Hb. revert Hb. generalize (range 0 m). clear. induction l as [|a l IH]; intros Hb; [destruct Hb|destruct Hb as [->|Hb]]; cbn [map Rsum].
        - assert (0 <= Rsum (map (fun i => x i * x i) l)) by (apply Rsum_nonneg; intros; apply Rle_0_sqr). lra.
        - specialize (IH Hb). assert (0 <= x a * x a) by apply Rle_0_sqr. lra. }
      pose proof (exp_chord tau _ Xb) as Ch. set (u := x b * x b / X) in *.
      assert (Hgf : pivot_free env D b gg).
      { intros j t v Hj Ht. unfold gg. f_equal. f_equal. apply Rsum_ext. intros i Hi. f_equal. assert (i <> b) by (intros ->; contradiction).
        exact (pivot_free_inc env D seed We HD Hseed Hblocks W HW s i b (Hin i (or_intror Hi)) Hb H j t v Hj Ht). }
      pose proof (inclusion_free env D seed We HD Hseed Hblocks W HW HdW s b gg Hb Hs (fun t _ => Rlt_le _ _ (exp_pos _)) Hgf) as Bd.
      rewrite (Rsum_ext _ (fun t => gg t + (exp (tau * u) - 1) * (gg t * inc t s b))).
      2: { intros t _. cbn [map Rsum]. rewrite Rmult_plus_distr_l, exp_plus. fold (gg t). unfold indicator. destruct (mem _ _).
           - replace (tau / X * (1 * (x b * x b))) with (tau * u) by (unfold u; field; lra). ring.
           - rewrite Rmult_0_l, Rmult_0_r, exp_0. ring. }
      rewrite Rsum_plus, Rsum_scal. set (Sg := Rsum (map gg draws)) in *. set (Si := Rsum (map (fun t => gg t * inc t s b) draws)) in *.
      assert (Sg0 : 0 <= Sg) by (apply Rsum_nonneg; intros; apply Rlt_le, exp_pos).
      assert (Si0 : 0 <= Si). { apply Rsum_nonneg. intros t _. apply Rmult_le_pos; [apply Rlt_le, exp_pos|]. unfold indicator. destruct (mem _ _); lra. }
      assert (E0 : 0 <= exp (tau * u) - 1). { pose proof (exp_ineq1_le (tau * u)). assert (0 <= tau * u) by (apply Rmult_le_pos; lra). lra. }
      cbn [map Rsum]. replace ((x b * x b + Rsum (map (fun i => x i * x i) cs)) / X) with (u + Rsum (map (fun i => x i * x i) cs) / X) by (unfold u; field; lra).
      rewrite Rmult_plus_distr_l, exp_plus. set (Ex := exp (p * (exp tau - 1) * (Rsum (map (fun i => x i * x i) cs) / X))) in *.
      apply (Rle_trans _ (Sg * (1 + p * (exp tau - 1) * u))).
      + assert ((exp (tau * u) - 1) * Si <= u * (exp tau - 1) * (p * Sg)) by (apply Rmult_le_compat; lra). lra.
      + pose proof (exp_ineq1_le (p * (exp tau - 1) * u)) as Q. assert (0 <= p * (exp tau - 1) * u) by (apply Rmult_le_pos; [apply Rmult_le_pos|]; lra).
        replace (N * (exp (p * (exp tau - 1) * u) * Ex)) with (N * Ex * exp (p * (exp tau - 1) * u)) by ring. apply Rmult_le_compat; lra.
  Qed.
  Variable omega : R.
  Hypothesis Hom : 0 < omega.
  Notation w := (omega * (IZR k * X)).
  Lemma share_tail s : (0 <= s < d)%Z -> Rsum (map (fun t => indicator (exceeds (share t s) w)) draws) <= N * exp (p * (exp tau - 1) - tau * (omega * IZR k)).
  Proof.
    intros Hs. assert (Tx : 0 < tau / X) by (apply Rdiv_lt_0_compat; assumption).
    apply (Rle_trans _ (Rsum (map (fun t => exp (- (tau * (omega * IZR k))) * exp (tau / X * share t s)) draws))).
    - apply Rsum_le. intros t _. eapply Rle_trans; [apply (indicator_exp _ _ _ Tx)|]. right. rewrite <- exp_plus. f_equal. field. lra.
    - rewrite Rsum_scal. pose proof (share_exp s (range 0 m) Hs (NoDup_range 0 m) (fun i Hi => proj1 (in_range _ _ _) Hi)) as B.
      change (Rsum (map (fun i => x i * x i) (range 0 m))) with X in B. replace (X / X) with 1 in B by (field; lra). rewrite Rmult_1_r in B.
      replace (exp (p * (exp tau - 1) - tau * (omega * IZR k))) with (exp (p * (exp tau - 1)) * exp (- (tau * (omega * IZR k)))) by (rewrite <- exp_plus; reflexivity). pose proof (exp_pos (- (tau * (omega * IZR k)))). unfold share.
      apply (Rmult_le_compat_l _ _ _ (Rlt_le _ _ H)) in B. lra.
  Qed.

  (** ** Signs *)
  Definition even (t : list Z) : R := indicator (forallb (fun s => negb (exceeds (share t s) w)) (range 0 d)).
  Lemma even_spec t : 0 < even t -> forall s, (0 <= s < d)%Z -> share t s <= w.
  Proof.
    unfold even, indicator. destruct (forallb _ _) eqn:Ef; [|lra]. intros _ s Hs. rewrite forallb_forall in Ef. specialize (Ef s (proj2 (in_range _ _ _) Hs)). unfold exceeds in Ef. destruct (Rlt_dec w (share t s)); [discriminate|lra].
  Qed.
  Lemma even_range t : 0 <= even t <= 1. Proof. unfold even, indicator. destruct (forallb _ _); lra. Qed.
  Lemma row_keep t u o o' : In o os -> In o' os -> srow (set_nth t (spos o) u) o' = srow t o'.
  Proof.
    destruct o as [i j], o' as [i' j']. intros A B. apply in_os in A as [A1 A2], B as [B1 B2]. unfold srow, spos. cbn [fst snd]. pose proof (block_lt env D HD i j A1 A2).
    rewrite (sample_keep env D seed We HD Hseed Hblocks) by lia. reflexivity.
  Qed.
  Lemma share_keep t u o s : In o os -> share (set_nth t (spos o) u) s = share t s.
  Proof. intros Ho. rewrite <- !rest_share. apply Rsum_ext. intros o' Ho'. now rewrite row_keep. Qed.
  Lemma even_keep t u o : In o os -> even (set_nth t (spos o) u) = even t.
  Proof. intros Ho. unfold even. f_equal. induction (range 0 d) as [|s l IH]; [reflexivity|]. cbn [forallb]. now rewrite share_keep, IH. Qed.
  Lemma row_range t o : In o os -> (0 <= srow t o < d)%Z.
  Proof.
    destruct o as [i j]. intros Ho. apply in_os in Ho as [Hi Hj]. destruct (short_sample_facts (E t) D seed i HD) as (Ll & _ & Hin). unfold srow. cbn [fst snd].
    destruct (get_lt (short_sample (E t) D seed i) j ltac:(lia)) as [y Hy]. rewrite Hy. apply Hin. eapply get_Some_In; eauto.
  Qed.
  Lemma pos_nodup : NoDup (map spos os).
  Proof.
    apply NoDup_map_inj; [|apply NoDup_prod; apply NoDup_range]. intros [i j] [i' j'] A B Eq. apply in_os in A as [A1 A2], B as [B1 B2]. unfold spos, sign_pos in Eq. cbn [fst snd] in Eq.
    pose proof (block_lt env D HD i j A1 A2). pose proof (block_lt env D HD i' j' B1 B2). pose proof (L_ge env We).
    destruct (Z.eq_dec (i * k + j) (i' * k + j')) as [Q|Q]; [|exfalso; revert Eq; apply (pos_ne env We); lia].
    assert (R : ((i * k + j) / k = (i' * k + j') / k)%Z) by congruence. rewrite !Z.div_add_l, !(Z.div_small _ k) in R by lia. assert (i = i') by lia. subst i'. f_equal. lia.
  Qed.
  Lemma pos_lt o : In o os -> (spos o < n)%nat.
  Proof. destruct o as [i j]. intros A. apply in_os in A as [A1 A2]. unfold spos. cbn [fst snd]. now apply (sign_pos_lt env D We HD W). Qed.
  Lemma sg_pm : forall v, sg v = 1 \/ sg v = -1. Proof. intros v. cbv beta. destruct (_ =? _)%Z; auto. Qed.
  Notation Q := (fun t => dot d (image env D seed t x) (image env D seed t x)).
  Lemma kX_pos : 0 < IZR k * X.
  Proof. destruct (valid_sdist_inv D HD) as (_ & _ & Hk & _). apply Rmult_lt_0_compat; [apply IZR_lt; lia|exact HX]. Qed.
  Lemma w_pos : 0 < w.
  Proof. destruct (valid_sdist_inv D HD) as (_ & _ & Hk & _). apply Rmult_lt_0_compat; [exact Hom|]. apply Rmult_lt_0_compat; [apply IZR_lt; lia|exact HX]. Qed.
  Lemma even_sum (c1 c2 : R) (GG : R -> R) t : 0 <= c2 -> (forall V, GG V = c1 * V + c2 * (V * V)) -> 0 < even t ->
    Rsum (map (fun s => GG (share t s)) (range 0 d)) <= c1 * (IZR k * X) + c2 * (w * (IZR k * X)).
  Proof.
    intros Hc2 HGG He. rewrite (Rsum_ext _ (fun s => c1 * share t s + c2 * (share t s * share t s))) by (intros s _; apply HGG).
    rewrite Rsum_plus, !Rsum_scal, share_total. apply Rplus_le_compat_l. apply Rmult_le_compat_l; [exact Hc2|]. rewrite <- (share_total t) at 2. rewrite <- Rsum_scal.
    apply Rsum_le. intros s Hs. apply in_range in Hs. apply Rmult_le_compat_r; [apply share_nonneg|]. now apply even_spec.
  Qed.
  Lemma even_signs (G H : R -> R) (c1 c2 : R) : 0 <= c2 -> (forall V, G V = c1 * V + c2 * (V * V)) ->
    (forall V y, 0 <= V -> 0 <= y -> V + y <= w -> G V + H V * y <= G (V + y)) ->
    (forall V y, 0 <= V -> 0 <= y -> V + y <= w -> H V + 2 * H V * H V * y <= H (V + y)) ->
    Rsum (map (fun t => even t * exp (H 0 * Q t)) draws) <= N * exp (c1 * (IZR k * X) + c2 * (w * (IZR k * X))).
  Proof.
    intros Hc2 HGG HG HH.
    pose proof (signs_exp U (NormProofs2.U_ne env W HW) sg sg_pm (sign_words W HW) n spos os pos_nodup pos_lt d srow row_range
      (fun t u o o' A B _ => row_keep t u o o' A B) sc w G H HG HH even (fun t _ => proj1 (even_range t))
      (fun t _ P r Hr => eq_ind_r (fun z => z <= w) (even_spec t P r Hr) (rest_share t r)) (fun t u o A _ => even_keep t u o A)) as B.
    specialize (B ltac:(rewrite HGG; ring)).
    rewrite (Rsum_ext _ (fun t => even t * exp (H 0 * Q t))) in B.
    2: { intros t _. f_equal. f_equal. f_equal. unfold dot. apply Rsum_ext. intros r _. now rewrite part_image. }
    eapply Rle_trans; [exact B|]. rewrite <- Rsum_const. apply Rsum_le. intros t _. destruct (even_range t) as [E0 E1].
    destruct (Rle_lt_or_eq_dec _ _ E0) as [Ep|Ez]; [|rewrite <- Ez, Rmult_0_l; apply Rlt_le, exp_pos].
    apply (Rle_trans _ (1 * exp (Rsum (map (fun r => G (rest srow sc os t r)) (range 0 d))))); [apply Rmult_le_compat_r; [apply Rlt_le, exp_pos|exact E1]|].
    rewrite Rmult_1_l. apply exp_le. rewrite (Rsum_ext _ (fun r => G (share t r))) by (intros r _; now rewrite rest_share). now apply even_sum.
  Qed.
  Variable e : R.
  Hypothesis He : 0 < e <= 1.
  Notation l := (e / (4 * w)).
  Lemma l_facts : 0 < l /\ 4 * (l * w) <= 1.
  Proof.
    pose proof w_pos as P. set (ww := w) in *. clearbody ww. split; [apply Rdiv_lt_0_compat; lra|]. replace (4 * (e / (4 * ww) * ww)) with e by (field; lra). lra.
  Qed.
  Lemma up_tail : Rsum (map (fun t => even t * indicator (exceeds (Q t) ((1 + e) * (IZR k * X)))) draws) <= N * exp (- (e ^ 2 / (8 * omega))).
  Proof.
    destruct l_facts as [L0 L1]. assert (L2 : 0 <= 2 * (l * l)) by (apply Rmult_le_pos; [clear; lra|apply Rle_0_sqr]). assert (Ho : omega <> 0) by (apply Rgt_not_eq, Hom). pose proof w_pos as P. pose proof kX_pos as HB. set (B := IZR k * X) in *.
    apply (Rle_trans _ (Rsum (map (fun t => exp (- (l * ((1 + e) * B))) * (even t * exp (up_H l 0 * Q t))) draws))).
    - apply Rsum_le. intros t _. destruct (even_range t) as [E0 _]. apply (Rle_trans _ (even t * exp (l * (Q t - (1 + e) * B)))); [apply Rmult_le_compat_l; [exact E0|now apply indicator_exp]|].
      right. replace (exp (- (l * ((1 + e) * B))) * (even t * exp (up_H l 0 * Q t))) with (even t * (exp (- (l * ((1 + e) * B))) * exp (up_H l 0 * Q t))) by ring. rewrite <- exp_plus. f_equal. f_equal.
      unfold up_H. rewrite !Rmult_0_r, Rminus_0_r. unfold Rdiv at 3. rewrite Rinv_1, Rmult_1_r. ring.
    - rewrite Rsum_scal. pose proof (even_signs (up_G l) (up_H l) l (2 * (l * l)) L2 ltac:(intros V; unfold up_G; ring)
        (up_G_ok l w (Rlt_le _ _ L0) L1) (up_H_ok l w (Rlt_le _ _ L0) L1)) as S.
      apply (Rmult_le_compat_l (exp (- (l * ((1 + e) * B))))) in S; [|apply Rlt_le, exp_pos]. eapply Rle_trans; [exact S|]. right.
      rewrite <- Rmult_assoc, (Rmult_comm _ N), Rmult_assoc, <- exp_plus. f_equal. f_equal. fold B. field. lra.
  Qed.
  Lemma dn_tail : Rsum (map (fun t => even t * indicator (exceeds ((1 - e) * (IZR k * X)) (Q t))) draws) <= N * exp (- (e ^ 2 / (8 * omega))).
  Proof.
    destruct l_facts as [L0 L1]. assert (L2 : 0 <= l * l) by apply Rle_0_sqr. assert (Ho : omega <> 0) by (apply Rgt_not_eq, Hom). pose proof w_pos as P. pose proof kX_pos as HB. set (B := IZR k * X) in *.
    apply (Rle_trans _ (Rsum (map (fun t => exp (l * ((1 - e) * B)) * (even t * exp (dn_H l 0 * Q t))) draws))).
    - apply Rsum_le. intros t _. destruct (even_range t) as [E0 _]. apply (Rle_trans _ (even t * exp (l * ((1 - e) * B - Q t)))); [apply Rmult_le_compat_l; [exact E0|now apply indicator_exp]|].
      right. replace (exp (l * ((1 - e) * B)) * (even t * exp (dn_H l 0 * Q t))) with (even t * (exp (l * ((1 - e) * B)) * exp (dn_H l 0 * Q t))) by ring. rewrite <- exp_plus. f_equal. f_equal.
      unfold dn_H. ring.
    - rewrite Rsum_scal. pose proof (even_signs (dn_G l) (dn_H l) (- l) (l * l) L2 ltac:(intros V; unfold dn_G; ring)
        (dn_G_ok l w) (dn_H_ok l w (Rlt_le _ _ L0) L1)) as S.
      apply (Rmult_le_compat_l (exp (l * ((1 - e) * B)))) in S; [|apply Rlt_le, exp_pos]. eapply Rle_trans; [exact S|].
      rewrite <- Rmult_assoc, (Rmult_comm _ N), Rmult_assoc, <- exp_plus. apply Rmult_le_compat_l; [apply Rlt_le, N_pos|]. apply exp_le. fold B.
      match goal with |- ?z <= _ => replace z with (- (3 / 2 * (e ^ 2 / (8 * omega)))) by (field; split; first [exact Ho|apply Rgt_not_eq, HB]) end.
      assert (0 < e ^ 2 / (8 * omega)) as Pe by (apply Rdiv_lt_0_compat; [apply pow_lt; exact (proj1 He)|clear - Hom; lra]). revert Pe. generalize (e ^ 2 / (8 * omega)). clear. intros r Pe. lra.
  Qed.
  Lemma cover t : indicator (exceeds (Rabs (/ IZR k * Q t - X)) (e * X)) <=
    even t * indicator (exceeds (Q t) ((1 + e) * (IZR k * X))) + even t * indicator (exceeds ((1 - e) * (IZR k * X)) (Q t)) + Rsum (map (fun s => indicator (exceeds (share t s) w)) (range 0 d)).
  Proof.
    destruct (valid_sdist_inv D HD) as (_ & _ & Hk & _). assert (Kp : 0 < IZR k) by (apply IZR_lt; lia).
    assert (S0 : 0 <= Rsum (map (fun s => indicator (exceeds (share t s) w)) (range 0 d))) by (apply Rsum_nonneg; intros s _; unfold indicator; destruct (exceeds _ _); lra).
    unfold even. destruct (forallb _ _) eqn:Ef; cbn [indicator].
    - rewrite !Rmult_1_l. set (q := Q t). clearbody q. set (rs := Rsum _) in *. clearbody rs. unfold exceeds at 1. destruct (Rlt_dec _ _) as [Lt|_]; cbn [indicator].
      2: { unfold indicator. destruct (exceeds q _), (exceeds _ q); lra. }
      assert (Eq : q = IZR k * (/ IZR k * q)) by (field; lra). set (z := / IZR k * q) in *. assert (Kx : 0 < IZR k * X) by (apply Rmult_lt_0_compat; assumption).
      unfold Rabs in Lt. destruct (Rcase_abs _) as [Ng|Ps].
      + assert (Y : q < (1 - e) * (IZR k * X)). { rewrite Eq. replace ((1 - e) * (IZR k * X)) with (IZR k * ((1 - e) * X)) by ring. apply Rmult_lt_compat_l; lra. }
        unfold exceeds at 2. destruct (Rlt_dec q ((1 - e) * (IZR k * X))); [|contradiction]. unfold indicator. destruct (exceeds q _); lra.
      + assert (Y : (1 + e) * (IZR k * X) < q). { rewrite Eq. replace ((1 + e) * (IZR k * X)) with (IZR k * ((1 + e) * X)) by ring. apply Rmult_lt_compat_l; lra. }
        unfold exceeds at 1. destruct (Rlt_dec ((1 + e) * (IZR k * X)) q); [|contradiction]. unfold indicator. destruct (exceeds _ q); lra.
    - rewrite !Rmult_0_l. assert (1 <= Rsum (map (fun s => indicator (exceeds (share t s) w)) (range 0 d))); [|set (rs := Rsum _) in *; clearbody rs; destruct (exceeds (Rabs _) _); cbn [indicator]; lra].
      clear S0. revert Ef. generalize (range 0 d). intros ls. induction ls as [|s r IH]; intros Ef; cbn [forallb] in Ef; [discriminate|]. cbn [map Rsum].
      assert (0 <= Rsum (map (fun s => indicator (exceeds (share t s) w)) r)) by (apply Rsum_nonneg; intros s' _; apply indicator_nonneg).
      destruct (exceeds (share t s) w); cbn [negb andb indicator] in *; [lra|]. specialize (IH Ef). lra.
  Qed.
  Lemma short_tail : Rsum (map (fun t => indicator (exceeds (Rabs (/ IZR k * Q t - X)) (e * X))) draws) <= N * sparse_failure d k p e omega tau.
  Proof.
    eapply Rle_trans; [apply Rsum_le; intros t _; apply cover|]. rewrite !Rsum_plus. pose proof up_tail as A. pose proof dn_tail as B.
    assert (C : Rsum (map (fun t => Rsum (map (fun s => indicator (exceeds (share t s) w)) (range 0 d))) draws) <= N * (IZR d * exp (p * (exp tau - 1) - tau * (omega * IZR k)))).
    { rewrite Rsum_swap. eapply Rle_trans; [apply Rsum_le; intros s Hs; apply in_range in Hs; apply (share_tail s Hs)|]. right. rewrite Rsum_const.
      destruct (valid_sdist_inv D HD) as (_ & _ & Hk & _). pose proof (zlen_range 0 d ltac:(lia)) as Zl. unfold zlen in Zl. rewrite INR_IZR_INZ, Zl, Z.sub_0_r. ring. }
    unfold sparse_failure. lra.
  Qed.
End SparseTail.
