(** Second moments for operators with short-axis vectors (used by PropsNorm.v). *)
From Verif Require Import Base Spec RngModel DenseModel DenseSpec SparseSkopModel FySpec FyProofs SparseSpec LasoProofs
  SparseProofs SparseProofs2 IsoSpec IsoProofs StatSpec StatProofs NormSpec NormProofs.
From Coq Require Import Lra Permutation.
Local Open Scope R_scope.

Section ShortNorm.
  Context {K F : Type}.
  Variable env : sparse_env K F R.
  Variable D : sparse_dist.
  Variable seed : rng_state K.
  Hypothesis We : wf_senv env.
  Hypothesis H1 : se_one env = 1.
  Hypothesis Hm1 : se_mone env = -1.
  Hypothesis HD : valid_sdist D.
  Hypothesis Hax : sd_axis D = Short.
  Hypothesis Hseed : seed_ok env seed.
  Hypothesis Hblocks : (sd_full_nnz D <= 2 ^ g_bits (se_raw env))%Z.
  Variable W : Z.
  Hypothesis HW : (0 < W)%Z.
  Hypothesis HdW : (sd_major D <= 2 ^ W)%Z.
  Notation L := (g_len (se_raw env)).
  Notation k := (sd_vec_nnz D).
  Notation d := (sd_major D).
  Notation m := (sd_minor D).
  Notation "'E' t" := (with_words env seed t) (at level 10, t at level 9).
  Notation v := (val env D seed).
  Notation U := (range 0 (2 ^ W)).
  Notation n := (Z.to_nat (sd_full_nnz D * L)).
  Notation draws := (tapes n U).
  Notation sg := (fun w : Z => if (w mod 2 =? 0)%Z then 1 else -1).
  Notation inc := (fun t s a => indicator (mem s (short_sample (E t) D seed a))).

  Lemma U_ne : U <> [].
  Proof. intros H. assert (In 0%Z U) as J by (apply in_range; split; [lia|apply Z.pow_pos_nonneg; lia]). rewrite H in J. exact J. Qed.

  Lemma val_sq t s a : (0 <= a < m)%Z -> v t s a * v t s a = inc t s a.
  Proof.
    intros Ha. destruct (short_sample_facts (E t) D seed a HD) as (Ll & Nd & Hin). unfold val, short_entry.
    destruct (find _ (range 0 k)) as [j|] eqn:Ef.
    - apply find_some in Ef as [Hj Ej]. apply in_range in Hj. destruct (get (short_sample (E t) D seed a) j) as [x|] eqn:G; [|discriminate].
      apply Z.eqb_eq in Ej. subst x. apply get_Some_In in G. apply mem_in in G. rewrite G. cbn [Rsum indicator].
      rewrite (sign_value env D seed We H1 Hm1 HD Hseed Hblocks) by auto. cbv beta. destruct (_ =? 0)%Z; lra.
    - destruct (mem s (short_sample (E t) D seed a)) eqn:M; cbn [Rsum indicator]; [|lra]. exfalso.
      apply mem_in, get_In in M as (j & Hj). pose proof (get_Some_lt _ _ _ Hj).
      pose proof (find_none _ _ Ef j) as N. cbn beta in N. rewrite Hj, Z.eqb_refl in N. discriminate N. apply in_range. lia.
  Qed.

  Definition sign_free (a : Z) (g : list Z -> R) : Prop :=
    forall j t u, (0 <= j < k)%Z -> length t = n -> g (set_nth t (sign_pos env (a * k + j)) u) = g t.
  Lemma sign_free_val a b s : (0 <= a < m)%Z -> (0 <= b < m)%Z -> a <> b -> sign_free a (fun t => v t s b).
  Proof.
    intros Ha Hb N j t u Hj _. pose proof (block_lt env D HD a j Ha Hj). apply (val_keep env D seed We HD Hseed Hblocks); auto; [lia|].
    intros j' Hj' Eq. apply N. assert (Q : ((a * k + j) / k = (b * k + j') / k)%Z) by congruence. rewrite !Z.div_add_l, !(Z.div_small _ k) in Q by lia. lia.
  Qed.
  Lemma sign_free_mul a f g : sign_free a f -> sign_free a g -> sign_free a (fun t => f t * g t).
  Proof. intros A B j t u Hj Ht. rewrite A, B by assumption. reflexivity. Qed.
  Lemma sign_pos_lt a j : (0 <= a < m)%Z -> (0 <= j < k)%Z -> (sign_pos env (a * k + j) < n)%nat.
  Proof.
    intros Ha Hj. pose proof (L_ge env We). pose proof (block_lt env D HD a j Ha Hj).
    unfold sign_pos. apply Z2Nat.inj_lt; [assert (0 <= (a * k + j) * L)%Z by (apply Z.mul_nonneg_nonneg; lia); lia|apply Z.mul_nonneg_nonneg; lia|].
    assert ((a * k + j + 1) * L <= sd_full_nnz D * L)%Z by (apply Z.mul_le_mono_nonneg_r; lia). lia.
  Qed.

  Lemma lone_zero s a g : (0 <= a < m)%Z -> sign_free a g -> Rsum (map (fun t => v t s a * g t) draws) = 0.
  Proof.
    intros Ha Hg.
    rewrite (Rsum_ext _ (fun t => Rsum (map (fun j => sg (nth (sign_pos env (a * k + j)) t 0%Z) * ((if hit env D seed t a j s then 1 else 0) * g t)) (range 0 k)))).
    - rewrite Rsum_swap. apply Rsum_zero. intros j Hj. apply in_range in Hj. pose proof (block_lt env D HD a j Ha Hj) as Ho.
      apply (odd_zero U n (sign_pos env (a * k + j)) 0%Z sg (fun t => (if hit env D seed t a j s then 1 else 0) * g t));
        [now apply sign_pos_lt|exact U_ne|now apply sign_words|].
      intros t u Ht. rewrite (hit_keep env D seed We HD Hseed Hblocks) by (auto; lia). now rewrite Hg.
    - intros t _. rewrite (val_sum env D seed HD) by exact Ha. rewrite Rsum_mul_r. apply Rsum_ext. intros j Hj. apply in_range in Hj.
      rewrite <- (sign_value env D seed We H1 Hm1 HD Hseed Hblocks) by auto. destruct (hit env D seed t a j s); lra.
  Qed.

  Lemma pair_zero s s' a g : (0 <= a < m)%Z -> s <> s' -> sign_free a g -> Rsum (map (fun t => v t s a * v t s' a * g t) draws) = 0.
  Proof.
    intros Ha Ns Hg.
    rewrite (Rsum_ext _ (fun t => Rsum (map (fun j => Rsum (map (fun j' => sg (nth (sign_pos env (a * k + j)) t 0%Z) *
       (if Z.eqb j j' then 0 else (if hit env D seed t a j s then 1 else 0) * (if hit env D seed t a j' s' then 1 else 0) * short_sign (E t) D seed a j' * g t)) (range 0 k))) (range 0 k)))).
    - rewrite Rsum_swap. apply Rsum_zero. intros j Hj. apply in_range in Hj. rewrite Rsum_swap. apply Rsum_zero. intros j' Hj'. apply in_range in Hj'.
      pose proof (block_lt env D HD a j Ha Hj) as Ho.
      apply (odd_zero U n (sign_pos env (a * k + j)) 0%Z sg (fun t => if Z.eqb j j' then 0 else (if hit env D seed t a j s then 1 else 0) * (if hit env D seed t a j' s' then 1 else 0) * short_sign (E t) D seed a j' * g t));
        [now apply sign_pos_lt|exact U_ne|now apply sign_words|].
      intros t u Ht. destruct (Z.eqb_spec j j') as [|Nj]; [reflexivity|].
      rewrite !(hit_keep env D seed We HD Hseed Hblocks) by (auto; lia). rewrite (sign_keep env D seed We HD Hseed Hblocks) by (auto; lia). now rewrite Hg.
    - intros t _. rewrite !(val_sum env D seed HD) by exact Ha. rewrite Rsum_mul, Rsum_mul_r. apply Rsum_ext. intros j Hj. apply in_range in Hj.
      rewrite Rsum_mul_r. apply Rsum_ext. intros j' Hj'. apply in_range in Hj'. rewrite <- (sign_value env D seed We H1 Hm1 HD Hseed Hblocks) by auto.
      destruct (Z.eqb_spec j j') as [<-|Nj].
      + unfold hit. destruct (get _ j) as [x|]; [|lra]. destruct (Z.eqb_spec x s), (Z.eqb_spec x s'); try lra. congruence.
      + destruct (hit env D seed t a j s), (hit env D seed t a j' s'); lra.
  Qed.

  (** ** Inclusion *)
  Definition pmax : R := IZR k / IZR d * (1 + IZR d / IZR (2 ^ W)) ^ Z.to_nat k.
  Definition pivot_pos (b j : Z) : nat := Z.to_nat ((b * k + j) * L + 0).
  Lemma sample_pivots t b : (0 <= b < m)%Z ->
    short_sample (E t) D seed b = fy (range 0 d) (pivots d (map (fun p => nth p t 0%Z) (map (pivot_pos b) (range 0 k)))).
  Proof.
    intros Hb. destruct (valid_sdist_inv D HD) as (_ & _ & Hk & _). pose proof (L_ge env We).
    unfold short_sample. f_equal. rewrite map_map, pivots_map by lia. apply map_ext_in. intros j Hj. apply in_range in Hj. f_equal.
    rewrite (word_tape env D seed Hseed Hblocks); [reflexivity|now apply (block_lt env D HD)|lia].
  Qed.
  Definition pivot_free (b : Z) (g : list Z -> R) : Prop := forall j t u, (0 <= j < k)%Z -> length t = n -> g (set_nth t (pivot_pos b j) u) = g t.
  Lemma pivot_free_inc s a b : (0 <= a < m)%Z -> (0 <= b < m)%Z -> a <> b -> pivot_free b (fun t => inc t s a).
  Proof.
    intros Ha Hb Nab j t u Hj _. cbv beta. pose proof (L_ge env We) as HL. do 2 f_equal. rewrite !sample_pivots by exact Ha. do 2 f_equal. rewrite !map_map.
    apply map_ext_in. intros j' Hj'. apply in_range in Hj'. apply nth_set_ne.
    pose proof (block_lt env D HD b j Hb Hj). pose proof (block_lt env D HD a j' Ha Hj'). unfold pivot_pos. apply (pos_ne env We); try lia. left. intros Eq.
    apply Nab. assert (Q : ((a * k + j') / k = (b * k + j) / k)%Z) by congruence. rewrite !Z.div_add_l, !(Z.div_small _ k) in Q by lia. lia.
  Qed.
  Lemma inclusion_free s b g : (0 <= b < m)%Z -> (0 <= s < d)%Z -> (forall t, In t draws -> 0 <= g t) -> pivot_free b g ->
    Rsum (map (fun t => g t * inc t s b) draws) <= pmax * Rsum (map g draws).
  Proof.
    intros Hb Hs Hg Hfree. destruct (valid_sdist_inv D HD) as (_ & _ & Hk & _). pose proof (L_ge env We) as HL.
    set (ps := map (pivot_pos b) (range 0 k)).
    assert (Lps : length ps = Z.to_nat k). { unfold ps. rewrite map_length. pose proof (zlen_range 0 k ltac:(lia)) as Q. unfold zlen in Q. lia. }
    assert (Nps : NoDup ps).
    { apply NoDup_map_inj; [|apply NoDup_range]. intros x y Hx Hy Eq. apply in_range in Hx, Hy.
      pose proof (block_lt env D HD b x Hb Hx). pose proof (block_lt env D HD b y Hb Hy).
      destruct (Z.eq_dec x y) as [|N]; [assumption|]. exfalso. revert Eq. apply (pos_ne env We); lia. }
    assert (Lt : forall p, In p ps -> (p < n)%nat).
    { intros p Hp. apply in_map_iff in Hp as (j & <- & Hj). apply in_range in Hj. pose proof (block_lt env D HD b j Hb Hj). unfold pivot_pos.
      apply Z2Nat.inj_lt; [assert (0 <= (b * k + j) * L)%Z by (apply Z.mul_nonneg_nonneg; lia); lia|apply Z.mul_nonneg_nonneg; lia|].
      assert ((b * k + j + 1) * L <= sd_full_nnz D * L)%Z by (apply Z.mul_le_mono_nonneg_r; lia). lia. }
    assert (Fr : forall p t u, In p ps -> length t = n -> g (set_nth t p u) = g t).
    { intros p t u Hp Ht. apply in_map_iff in Hp as (j & <- & Hj). apply in_range in Hj. now apply Hfree. }
    pose proof (indep_product U n 0%Z ps Nps Lt g (fun ws => indicator (mem s (fy (range 0 d) (pivots d ws)))) Fr) as Q.
    rewrite Lps in Q. rewrite (Rsum_ext (fun t => g t * indicator (mem s (fy (range 0 d) (pivots d (map (fun p => nth p t 0%Z) ps))))) (fun t => g t * inc t s b)) in Q
      by (intros t _; now rewrite (sample_pivots t b Hb)).
    assert (Zd : zlen (range 0 d) = d) by (rewrite zlen_range; lia).
    pose proof (fy_inclusion W d ltac:(lia) HdW (Z.to_nat k) (range 0 d) s (NoDup_range 0 d) ltac:(apply in_range; lia) ltac:(lia)) as B.
    rewrite Zd in B. replace (INR (Z.to_nat k)) with (IZR k) in B by (rewrite INR_IZR_INZ, Z2Nat.id; [reflexivity|lia]). change (IZR k / IZR d * (1 + IZR d / IZR (2 ^ W)) ^ Z.to_nat k) with pmax in B.
    set (X := Rsum (map (fun t => g t * inc t s b) draws)) in *. set (Y := Rsum (map g draws)) in *.
    assert (HY : 0 <= Y) by (now apply Rsum_nonneg).
    set (u := INR (length U) ^ Z.to_nat k) in *.
    assert (Pu : 0 < u). { apply pow_lt, lt_0_INR. pose proof U_ne. destruct U; [congruence|cbn; lia]. }
    apply (Rmult_le_reg_l u); [exact Pu|]. rewrite Q. apply (Rmult_le_compat_l Y) in B; [|exact HY]. lra.
  Qed.
  Lemma inclusion_bound s a b : (0 <= a < m)%Z -> (0 <= b < m)%Z -> a <> b -> (0 <= s < d)%Z ->
    Rsum (map (fun t => inc t s a * inc t s b) draws) <= pmax * Rsum (map (fun t => inc t s a) draws).
  Proof.
    intros Ha Hb Nab Hs. apply (inclusion_free s b (fun t => inc t s a)); auto; [|now apply pivot_free_inc].
    intros t _. unfold indicator. destruct (mem _ _); lra.
  Qed.
  Lemma inc_total t a : (0 <= a < m)%Z -> Rsum (map (fun s => inc t s a) (range 0 d)) = IZR k.
  Proof. intros Ha. rewrite <- (diagonal env D seed We H1 Hm1 HD Hseed Hblocks t a Ha). apply Rsum_ext. intros s _. symmetry. now apply val_sq. Qed.

  (** ** Inner products of columns *)
  Definition G (t : list Z) (i j : Z) : R := Rsum (map (fun s => v t s i * v t s j) (range 0 d)).
  Lemma G_sym t i j : G t i j = G t j i.
  Proof. apply Rsum_ext. intros; lra. Qed.
  Lemma G_sq i j : (0 <= i < m)%Z -> (0 <= j < m)%Z -> i <> j ->
    0 <= Rsum (map (fun t => G t i j * G t i j) draws) <= INR (length draws) * (IZR k * pmax).
  Proof.
    intros Hi Hj Nij. split; [apply Rsum_nonneg; intros t _; apply Rle_0_sqr|].
    rewrite (Rsum_ext _ (fun t => Rsum (map (fun s => Rsum (map (fun s' => v t s i * v t s' i * (v t s j * v t s' j)) (range 0 d))) (range 0 d)))).
    2: { intros t _. unfold G. rewrite Rsum_mul. apply Rsum_ext. intros s _. apply Rsum_ext. intros s' _. lra. }
    rewrite Rsum_swap. rewrite (Rsum_ext _ (fun s => Rsum (map (fun t => inc t s i * inc t s j) draws))).
    - eapply Rle_trans; [apply Rsum_le; intros s Hs; apply in_range in Hs; apply inclusion_bound; auto|]. cbv beta. rewrite Rsum_scal, <- Rsum_swap.
      rewrite (Rsum_ext _ (fun _ => IZR k)) by (intros t _; now apply inc_total). rewrite Rsum_const. lra.
    - intros s Hs. rewrite Rsum_swap. rewrite (Rsum_one _ _ s (NoDup_range 0 d) Hs).
      + apply Rsum_ext. intros t _. rewrite <- !val_sq by assumption. lra.
      + intros s' _ N. apply pair_zero; [assumption|congruence|]. apply sign_free_mul; now apply sign_free_val.
  Qed.
  Lemma G_lone a b i j : (0 <= a < m)%Z -> (0 <= b < m)%Z -> (0 <= i < m)%Z -> (0 <= j < m)%Z -> a <> b -> a <> i -> a <> j ->
    Rsum (map (fun t => G t a b * G t i j) draws) = 0.
  Proof.
    intros Ha Hb Hi Hj N1 N2 N3.
    rewrite (Rsum_ext _ (fun t => Rsum (map (fun s => Rsum (map (fun s' => v t s a * (v t s b * (v t s' i * v t s' j))) (range 0 d))) (range 0 d)))).
    2: { intros t _. unfold G. rewrite Rsum_mul. apply Rsum_ext. intros s _. apply Rsum_ext. intros s' _. lra. }
    rewrite Rsum_swap. apply Rsum_zero. intros s _. rewrite Rsum_swap. apply Rsum_zero. intros s' _. apply lone_zero; [assumption|].
    repeat apply sign_free_mul; now apply sign_free_val.
  Qed.
  Notation dl := IsoSpec.delta.
  Lemma G_cov i j i' j' : (0 <= i < m)%Z -> (0 <= j < m)%Z -> (0 <= i' < m)%Z -> (0 <= j' < m)%Z -> i <> j -> i' <> j' ->
    Rabs (Rsum (map (fun t => G t i j * G t i' j') draws)) <= INR (length draws) * (IZR k * pmax) * (dl i' i * dl j' j + dl i' j * dl j' i).
  Proof.
    intros Hi Hj Hi' Hj' N N'. set (Q := INR (length draws) * (IZR k * pmax)). unfold IsoSpec.delta.
    destruct (Z.eqb_spec i' i) as [->|A1], (Z.eqb_spec j' j) as [->|A2].
    - destruct (Z.eqb_spec i j); [contradiction|]. pose proof (G_sq i j Hi Hj N) as B. fold Q in B. rewrite Rabs_right; lra.
    - rewrite (Rsum_ext _ (fun t => G t j i * G t i j')) by (intros t _; now rewrite (G_sym t i j)). rewrite G_lone by (auto; congruence).
      rewrite Rabs_R0. destruct (Z.eqb_spec i j); [contradiction|]. cbn. lra.
    - rewrite G_lone by (auto; congruence). rewrite Rabs_R0. destruct (Z.eqb_spec j i); [congruence|]. lra.
    - destruct (Z.eqb_spec i' j) as [->|B1], (Z.eqb_spec j' i) as [->|B2].
      + rewrite (Rsum_ext _ (fun t => G t i j * G t i j)) by (intros t _; now rewrite (G_sym t j i)).
        pose proof (G_sq i j Hi Hj N) as B. fold Q in B. rewrite Rabs_right; lra.
      + rewrite G_lone by (auto; congruence). rewrite Rabs_R0. lra.
      + rewrite (Rsum_ext _ (fun t => G t j i * G t i' i)) by (intros t _; now rewrite (G_sym t i j)). rewrite G_lone by (auto; congruence). rewrite Rabs_R0. lra.
      + rewrite G_lone by (auto; congruence). rewrite Rabs_R0. lra.
  Qed.

  (** ** Inner products of sketches *)
  Definition image (t : list Z) (x : Z -> R) (s : Z) : R := Rsum (map (fun i => v t s i * x i) (range 0 m)).
  Definition dev (t : list Z) (x y : Z -> R) : R := dot d (image t x) (image t y) - IZR k * dot m x y.
  Definition cf (x y : Z -> R) (i j : Z) : R := if (i =? j)%Z then 0 else x i * y j.
  Lemma dev_expand t x y : dev t x y = Rsum (map (fun i => Rsum (map (fun j => cf x y i j * G t i j) (range 0 m))) (range 0 m)).
  Proof.
    unfold dev, dot, image.
    assert (A : Rsum (map (fun s => Rsum (map (fun i => v t s i * x i) (range 0 m)) * Rsum (map (fun i => v t s i * y i) (range 0 m))) (range 0 d)) =
                Rsum (map (fun i => Rsum (map (fun j => x i * y j * G t i j) (range 0 m))) (range 0 m))).
    { rewrite (Rsum_ext _ (fun s => Rsum (map (fun i => Rsum (map (fun j => x i * y j * (v t s i * v t s j)) (range 0 m))) (range 0 m)))).
      - rewrite Rsum_swap. apply Rsum_ext. intros i _. rewrite Rsum_swap. apply Rsum_ext. intros j _. unfold G. now rewrite Rsum_scal.
      - intros s _. rewrite Rsum_mul. apply Rsum_ext. intros i _. apply Rsum_ext. intros j _. lra. }
    rewrite A, <- Rsum_scal, <- Rsum_minus. apply Rsum_ext. intros i Hi. pose proof Hi as Hi'. apply in_range in Hi'.
    assert (Bq : IZR k * (x i * y i) = Rsum (map (fun j => dl j i * (x i * y j * IZR k)) (range 0 m))) by (rewrite Rsum_delta by assumption; lra).
    rewrite Bq, <- Rsum_minus. apply Rsum_ext. intros j _. unfold cf, IsoSpec.delta. rewrite (Z.eqb_sym j i). destruct (Z.eqb_spec i j) as [<-|]; [|lra].
    unfold G. rewrite (diagonal env D seed We H1 Hm1 HD Hseed Hblocks t i Hi'). lra.
  Qed.
  Lemma dev_sq x y : Rsum (map (fun t => dev t x y * dev t x y) draws) <= INR (length draws) * (IZR k * pmax) * (2 * (dot m x x * dot m y y)).
  Proof.
    destruct (valid_sdist_inv D HD) as (_ & _ & Hk & _).
    set (Q := INR (length draws) * (IZR k * pmax)).
    assert (HQ : 0 <= Q).
    { unfold Q, pmax. apply Rmult_le_pos; [apply pos_INR|]. apply Rmult_le_pos; [apply IZR_le; lia|]. apply Rmult_le_pos.
      - apply Rmult_le_pos; [apply IZR_le; lia|]. apply Rlt_le, Rinv_0_lt_compat, IZR_lt. lia.
      - apply pow_le. assert (0 <= IZR d / IZR (2 ^ W)); [|lra]. apply Rmult_le_pos; [apply IZR_le; lia|]. apply Rlt_le, Rinv_0_lt_compat, IZR_lt, Z.pow_pos_nonneg; lia. }
    set (I := range 0 m).
    rewrite (Rsum_ext _ (fun t => Rsum (map (fun i => Rsum (map (fun j => Rsum (map (fun i' => Rsum (map (fun j' => cf x y i j * cf x y i' j' * (G t i j * G t i' j')) I)) I)) I)) I))).
    2: { intros t _. rewrite dev_expand. fold I. rewrite Rsum_mul_r. apply Rsum_ext. intros i _. rewrite Rsum_mul_r. apply Rsum_ext. intros j _.
         rewrite Rmult_comm, Rsum_mul_r. apply Rsum_ext. intros i' _. rewrite Rsum_mul_r. apply Rsum_ext. intros j' _. lra. }
    rewrite Rsum_swap.
    apply (Rle_trans _ (Rsum (map (fun i => Rsum (map (fun j => Rsum (map (fun i' => Rsum (map (fun j' =>
        Q * (dl i' i * dl j' j * (cf x y i j * cf x y i j) + dl i' j * dl j' i * ((cf x y i j * cf x y i j + cf x y j i * cf x y j i) / 2))) I)) I)) I)) I))).
    - apply Rsum_le. intros i Hi. rewrite Rsum_swap. apply Rsum_le. intros j Hj. rewrite Rsum_swap. apply Rsum_le. intros i' Hi'. rewrite Rsum_swap. apply Rsum_le. intros j' Hj'.
      apply in_range in Hi, Hj, Hi', Hj'. rewrite Rsum_scal. unfold cf at 1 2.
      destruct (Z.eqb_spec i j) as [->|N]; [|destruct (Z.eqb_spec i' j') as [->|N']].
      + rewrite !Rmult_0_l. apply Rmult_le_pos; [exact HQ|]. unfold cf. rewrite Z.eqb_refl. unfold IsoSpec.delta. destruct (_ =? _)%Z, (_ =? _)%Z; lra.
      + rewrite Rmult_0_r, Rmult_0_l. apply Rmult_le_pos; [exact HQ|]. pose proof (Rle_0_sqr (cf x y i j)). pose proof (Rle_0_sqr (cf x y j i)). unfold Rsqr in *. unfold IsoSpec.delta.
        repeat destruct (_ =? _)%Z; lra.
      + pose proof (G_cov i j i' j' Hi Hj Hi' Hj' N N') as B. fold Q in B. set (S := Rsum (map (fun t => G t i j * G t i' j') draws)) in *.
        assert (Bs : - (Q * (dl i' i * dl j' j + dl i' j * dl j' i)) <= S <= Q * (dl i' i * dl j' j + dl i' j * dl j' i)).
        { revert B. unfold Rabs. destruct (Rcase_abs S); intros; split; lra. }
        clearbody S. clear B. unfold cf. rewrite (Z.eqb_sym j i). destruct (Z.eqb_spec i j); [contradiction|]. unfold IsoSpec.delta in *.
        destruct (Z.eqb_spec i' i) as [->|A1], (Z.eqb_spec j' j) as [->|A2].
        * destruct (Z.eqb_spec i j); [contradiction|]. pose proof (Rle_0_sqr (x i * y j)) as Sq. unfold Rsqr in Sq. nra.
        * destruct (Z.eqb_spec i j); [contradiction|]. replace S with 0 by lra. lra.
        * destruct (Z.eqb_spec j i); [congruence|]. replace S with 0 by lra. lra.
        * destruct (Z.eqb_spec i' j) as [->|B1], (Z.eqb_spec j' i) as [->|B2]; try (replace S with 0 by lra; lra).
          assert (Sq : 0 <= (x i * y j - x j * y i) * (x i * y j - x j * y i)) by apply Rle_0_sqr.
          assert (Sq2 : 0 <= (x i * y j + x j * y i) * (x i * y j + x j * y i)) by apply Rle_0_sqr.
          set (a := x i * y j) in *. set (b := x j * y i) in *. clearbody a b. assert (- Q <= S <= Q) by lra. clear Bs.
          replace (Q * (0 * 0 * (a * a) + 1 * 1 * ((a * a + b * b) / 2))) with (Q * ((a * a + b * b) / 2)) by lra.
          assert (0 <= (a * a + b * b) / 2) by nra.
          destruct (Rle_dec 0 (a * b)) as [Pab|Pab].
          -- apply (Rle_trans _ (a * b * Q)); [apply Rmult_le_compat_l; lra|]. nra.
          -- apply (Rle_trans _ ((- (a * b)) * Q)); [nra|]. nra.
    - assert (C : forall i j, In i I -> In j I -> Rsum (map (fun i' => Rsum (map (fun j' =>
        Q * (dl i' i * dl j' j * (cf x y i j * cf x y i j) + dl i' j * dl j' i * ((cf x y i j * cf x y i j + cf x y j i * cf x y j i) / 2))) I)) I) =
        Q * (cf x y i j * cf x y i j + (cf x y i j * cf x y i j + cf x y j i * cf x y j i) / 2)).
      { intros i j Hi Hj. apply in_range in Hi, Hj.
        rewrite (Rsum_ext _ (fun i' => dl i' i * (Q * (cf x y i j * cf x y i j)) + dl i' j * (Q * ((cf x y i j * cf x y i j + cf x y j i * cf x y j i) / 2)))).
        - unfold I. rewrite Rsum_plus, (Rsum_delta (fun _ => Q * (cf x y i j * cf x y i j))), (Rsum_delta (fun _ => Q * ((cf x y i j * cf x y i j + cf x y j i * cf x y j i) / 2))) by assumption. lra.
        - intros i' _. rewrite (Rsum_ext _ (fun j' => dl j' j * (dl i' i * (Q * (cf x y i j * cf x y i j))) + dl j' i * (dl i' j * (Q * ((cf x y i j * cf x y i j + cf x y j i * cf x y j i) / 2))))).
          + unfold I. rewrite Rsum_plus, (Rsum_delta (fun _ => dl i' i * (Q * (cf x y i j * cf x y i j)))), (Rsum_delta (fun _ => dl i' j * (Q * ((cf x y i j * cf x y i j + cf x y j i * cf x y j i) / 2)))) by assumption. reflexivity.
          + intros j' _. lra. }
      rewrite (Rsum_ext _ (fun i => Rsum (map (fun j => Q * (cf x y i j * cf x y i j + (cf x y i j * cf x y i j + cf x y j i * cf x y j i) / 2)) I))) by (intros i Hi; apply Rsum_ext; intros j Hj; auto).
      set (T1 := Rsum (map (fun i => Rsum (map (fun j => cf x y i j * cf x y i j) I)) I)).
      assert (T2 : Rsum (map (fun i => Rsum (map (fun j => cf x y j i * cf x y j i) I)) I) = T1) by (unfold T1; rewrite Rsum_swap; reflexivity).
      assert (T3 : Rsum (map (fun i => Rsum (map (fun j => Q * (cf x y i j * cf x y i j + (cf x y i j * cf x y i j + cf x y j i * cf x y j i) / 2)) I)) I) = Q * (2 * T1)).
      { rewrite (Rsum_ext _ (fun i => Q * (3 / 2) * Rsum (map (fun j => cf x y i j * cf x y i j) I) + Q / 2 * Rsum (map (fun j => cf x y j i * cf x y j i) I))).
        - rewrite Rsum_plus, !Rsum_scal, T2. fold T1. lra.
        - intros i _. rewrite <- !Rsum_scal, <- Rsum_plus. apply Rsum_ext. intros j _. lra. }
      rewrite T3. apply Rmult_le_compat_l; [exact HQ|]. apply Rmult_le_compat_l; [lra|].
      unfold T1, dot. fold I. rewrite Rsum_mul. apply Rsum_le. intros i _. apply Rsum_le. intros j _. unfold cf.
      pose proof (Rle_0_sqr (x i * y j)) as Sq. unfold Rsqr in Sq. destruct (_ =? _)%Z; lra.
  Qed.
End ShortNorm.
