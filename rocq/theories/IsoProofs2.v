From Verif Require Import Base Spec RngModel DenseModel DenseSpec SparseSkopModel FySpec FyProofs SparseSpec LasoProofs SparseProofs SparseProofs2 IsoSpec IsoProofs.
From Coq Require Import Lra Permutation.
Local Open Scope R_scope.

Lemma first_ext (x y : Z -> Z) k ell : (forall t, (0 <= t < k)%Z -> x t = y t) -> first x k ell = first y k ell.
Proof.
  intros H. unfold first. assert (H' : forall t, In t (range 0 k) -> x t = y t) by (intros t Ht; apply in_range in Ht; auto).
  revert H'. generalize (range 0 k) as l. induction l as [|t l IH]; intros H'; cbn; [reflexivity|].
  rewrite (H' t (or_introl eq_refl)). destruct (y t =? ell); [reflexivity|]. apply IH. intros u Hu. apply H'. now right.
Qed.
Lemma mult_ext (x y : Z -> Z) k ell : (forall t, (0 <= t < k)%Z -> x t = y t) -> mult x k ell = mult y k ell.
Proof. intros H. unfold mult. f_equal. apply filter_ext_in. intros t Ht. apply in_range in Ht. now rewrite H. Qed.

Section Long.
  Context {K F : Type}.
  Variable env : sparse_env K F R.
  Variable D : sparse_dist.
  Variable seed : rng_state K.
  Variable d : F.
  Hypothesis We : wf_senv env.
  Hypothesis H1 : se_one env = 1.
  Hypothesis Hm1 : se_mone env = -1.
  Hypothesis Hsq : forall c v, se_sqrtmul env c v = sqrt (IZR c) * v.
  Hypothesis HD : valid_sdist D.
  Hypothesis Hax : sd_axis D = Long.
  Hypothesis Hseed : seed_ok env seed.
  Notation L := (g_len (se_raw env)).
  Notation k := (sd_vec_nnz D).
  Notation h := (g_len (se_raw env) / 2)%Z.
  Notation Bk := (ceil_div (sd_vec_nnz D) (g_len (se_raw env) / 2)).
  Hypothesis Hblocks : (sd_minor D * Bk <= 2 ^ g_bits (se_raw env))%Z.
  Notation "'E' t" := (with_values env seed d t) (at level 10, t at level 9).

  Lemma with_values_wf t : wf_senv (E t).
  Proof. destruct We as [A B C Dd Ee Ff Gg Hh]. split; auto. apply tape_gen_wf. exact B. Qed.
  Lemma h_pos : (1 <= h)%Z /\ (L = 2 * h)%Z.
  Proof. destruct We as [[A _ _] _ _ _ Ee _ _ _]. clear - A Ee. pose proof (Z.div_mod L 2 ltac:(lia)). lia. Qed.
  Lemma ceil_ge : (k <= Bk * h)%Z /\ (0 < Bk)%Z.
  Proof.
    destruct (valid_sdist_inv D HD) as (_ & _ & Hk & _). destruct h_pos as [Hh _]. revert Hk Hh. unfold ceil_div. generalize (sd_vec_nnz D) (g_len (se_raw env) / 2)%Z.
    clear. intros kk hh Hk Hh. pose proof (Z.div_mod (kk + hh - 1) hh ltac:(lia)) as Q. pose proof (Z.mod_pos_bound (kk + hh - 1) hh ltac:(lia)).
    set (q := ((kk + hh - 1) / hh)%Z) in *. clearbody q. split; nia.
  Qed.
  Lemma half_tape t : half (E t) = h.
  Proof. unfold half. cbn. destruct We as [_ _ -> _ _ _ _ _]. reflexivity. Qed.
  (** Position on the tape of lane e of draw tau of vector i. *)
  Definition pos (i tau e : Z) : nat := Z.to_nat (2 * (i * Bk * h + tau) + e).
  Lemma lane_tape t i tau e : (0 <= i < sd_minor D)%Z -> (0 <= tau < k)%Z -> (0 <= e < 2)%Z ->
    unif_lane (E t) seed (i * Bk + tau / h) (2 * (tau mod h) + e) = Some (nth (pos i tau e) t d).
  Proof.
    intros Hi Ht He. unfold unif_lane. cbn [with_values se_unif]. change (g_bits (tape_gen (se_unif env) (counter seed) d t)) with (g_bits (se_unif env)).
    pose proof We as [_ Wu Wl Wb _ _ _ _]. destruct h_pos as [Hh HL]. destruct ceil_ge as [Hc Hb].
    pose proof (Z.div_mod tau h ltac:(lia)) as Dm. pose proof (Z.mod_pos_bound tau h ltac:(lia)) as Mb.
    assert (Q : (0 <= tau / h < Bk)%Z) by (split; [apply Z.div_pos; lia|apply Z.div_lt_upper_bound; lia]).
    assert (Ho : (0 <= i * Bk + tau / h < sd_minor D * Bk)%Z).
    { assert ((i + 1) * Bk <= sd_minor D * Bk)%Z by (apply Z.mul_le_mono_nonneg_r; lia). assert (0 <= i * Bk)%Z by (apply Z.mul_nonneg_nonneg; lia). lia. }
    rewrite tape_block; auto.
    - do 2 f_equal. unfold pos. f_equal. rewrite Wl.
      set (hh := h) in *. set (q := (tau / hh)%Z) in *. set (m := (tau mod hh)%Z) in *. rewrite HL, Dm. ring.
    - rewrite Wb. exact Hseed.
    - rewrite Wb. lia.
    - rewrite Wl. lia.
  Qed.
  Lemma index_tape t i tau : (0 <= i < sd_minor D)%Z -> (0 <= tau < k)%Z ->
    long_index (E t) D seed i tau = se_draw env (sd_major D) (nth (pos i tau 0) t d).
  Proof.
    intros Hi Ht. unfold long_index. rewrite half_tape. replace (2 * (tau mod h))%Z with (2 * (tau mod h) + 0)%Z by lia. rewrite lane_tape by lia. reflexivity.
  Qed.
  Definition sgn (u : F) : R := if se_nonneg env u then 1 else -1.
  Lemma sign_tape t i tau : (0 <= i < sd_minor D)%Z -> (0 <= tau < k)%Z -> long_sign (E t) D seed i tau = sgn (nth (pos i tau 1) t d).
  Proof. intros Hi Ht. unfold long_sign. rewrite half_tape, lane_tape by lia. cbn. unfold sgn. now rewrite H1, Hm1. Qed.

  Lemma pos_ne i i' tau tau' e e' : (0 <= i < sd_minor D)%Z -> (0 <= i' < sd_minor D)%Z -> (0 <= tau < k)%Z -> (0 <= tau' < k)%Z -> (0 <= e < 2)%Z -> (0 <= e' < 2)%Z ->
    (i <> i' \/ tau <> tau' \/ e <> e') -> pos i tau e <> pos i' tau' e'.
  Proof.
    intros Hi Hi' Ht Ht' He He' N. unfold pos. destruct ceil_ge as [Hc Hb]. destruct h_pos as [Hh _].
    set (w := (Bk * h)%Z) in *. replace (i * Bk * h)%Z with (i * w)%Z by (unfold w; ring). replace (i' * Bk * h)%Z with (i' * w)%Z by (unfold w; ring).
    clearbody w. assert (0 <= i * w)%Z by (apply Z.mul_nonneg_nonneg; lia). assert (0 <= i' * w)%Z by (apply Z.mul_nonneg_nonneg; lia).
    intros Eq. assert (e = e') by lia. assert (Q : (i * w + tau = i' * w + tau')%Z) by lia.
    assert (i = i'). { assert (Q' : ((i * w + tau) / w = (i' * w + tau') / w)%Z) by congruence. clear - Q' Hc Ht Ht'. rewrite !Z.div_add_l, !(Z.div_small _ w) in Q' by lia. lia. }
    subst. lia.
  Qed.
  Lemma pos_lt i tau e : (0 <= i < sd_minor D)%Z -> (0 <= tau < k)%Z -> (0 <= e < 2)%Z -> (pos i tau e < Z.to_nat (sd_minor D * Bk * L))%nat.
  Proof.
    intros Hi Ht He. unfold pos. destruct ceil_ge as [Hc Hb]. destruct h_pos as [Hh HL].
    replace (sd_minor D * Bk * L)%Z with (2 * (sd_minor D * (Bk * h)))%Z by (set (hh := h) in *; rewrite HL; ring).
    replace (i * Bk * h)%Z with (i * (Bk * h))%Z by ring. set (w := (Bk * h)%Z) in *. clearbody w.
    assert (0 <= i * w)%Z by (apply Z.mul_nonneg_nonneg; lia). assert ((i + 1) * w <= sd_minor D * w)%Z by (apply Z.mul_le_mono_nonneg_r; lia). lia.
  Qed.

  Definition lval t ell i : R := Rsum (long_entry (E t) D seed ell i).
  Lemma lval_eq t ell i : lval t ell i =
    match first (long_index (E t) D seed i) k ell with
    | None => 0 | Some tau => sqrt (IZR (mult (long_index (E t) D seed i) k ell)) * long_sign (E t) D seed i tau end.
  Proof. unfold lval, long_entry, merged. destruct (first _ k ell); cbn; [rewrite Hsq; lra|reflexivity]. Qed.

  (** Drawing the sign of (i,tau) again. *)
  Lemma index_keep t i tau u i' tau' : (0 <= i < sd_minor D)%Z -> (0 <= tau < k)%Z -> (0 <= i' < sd_minor D)%Z -> (0 <= tau' < k)%Z ->
    long_index (E (set_nth t (pos i tau 1) u)) D seed i' tau' = long_index (E t) D seed i' tau'.
  Proof. intros. rewrite !index_tape by auto. rewrite nth_set_ne; [reflexivity|]. apply pos_ne; auto; lia. Qed.
  Lemma sign_keep_long t i tau u i' tau' : (0 <= i < sd_minor D)%Z -> (0 <= tau < k)%Z -> (0 <= i' < sd_minor D)%Z -> (0 <= tau' < k)%Z -> tau <> tau' ->
    long_sign (E (set_nth t (pos i tau 1) u)) D seed i' tau' = long_sign (E t) D seed i' tau'.
  Proof. intros. rewrite !sign_tape by auto. rewrite nth_set_ne; [reflexivity|]. apply pos_ne; auto; lia. Qed.

  Variable U : list F.
  Hypothesis HU : U <> [].
  Notation n := (Z.to_nat (sd_minor D * Bk * L)).

  Lemma long_off_diagonal i a b : Rsum (map sgn U) = 0 -> (0 <= i < sd_minor D)%Z -> a <> b ->
    Rsum (map (fun t => lval t a i * lval t b i) (tapes n U)) = 0.
  Proof.
    intros Hodd Hi Nab.
    set (rest := fun tau t => (match first (long_index (E t) D seed i) k a with Some tau' => if tau' =? tau then sqrt (IZR (mult (long_index (E t) D seed i) k a)) else 0 | None => 0 end) * lval t b i).
    rewrite (Rsum_ext _ (fun t => Rsum (map (fun tau => sgn (nth (pos i tau 1) t d) * rest tau t) (range 0 k)))).
    - rewrite Rsum_swap. apply Rsum_zero. intros tau Ht. apply in_range in Ht.
      apply (odd_zero U n (pos i tau 1) d sgn (rest tau)); auto; [apply pos_lt; auto; lia|]. intros t u _. unfold rest.
      rewrite (first_ext (long_index (E (set_nth t (pos i tau 1) u)) D seed i) (long_index (E t) D seed i) k a) by (intros; apply index_keep; auto).
      rewrite (mult_ext (long_index (E (set_nth t (pos i tau 1) u)) D seed i) (long_index (E t) D seed i) k a) by (intros; apply index_keep; auto).
      destruct (first (long_index (E t) D seed i) k a) as [ta|] eqn:Fa; [|lra]. destruct (Z.eqb_spec ta tau) as [->|]; [|lra]. f_equal.
      rewrite !lval_eq.
      rewrite (first_ext (long_index (E (set_nth t (pos i tau 1) u)) D seed i) (long_index (E t) D seed i) k b) by (intros; apply index_keep; auto).
      rewrite (mult_ext (long_index (E (set_nth t (pos i tau 1) u)) D seed i) (long_index (E t) D seed i) k b) by (intros; apply index_keep; auto).
      destruct (first (long_index (E t) D seed i) k b) as [tb|] eqn:Fb; [|reflexivity]. f_equal.
      apply first_Some in Fa as [_ Fa]. apply first_Some in Fb as [Hb Fb]. apply sign_keep_long; auto. intros ->. congruence.
    - intros t _. unfold rest. rewrite (lval_eq t a i). destruct (first (long_index (E t) D seed i) k a) as [ta|] eqn:Fa.
      + apply first_Some in Fa as [Hta _]. rewrite (Rsum_one _ _ ta); [|apply NoDup_range|apply in_range; exact Hta|].
        * rewrite Z.eqb_refl, sign_tape by auto. lra.
        * intros y _ Ny. destruct (Z.eqb_spec ta y); [congruence|lra].
      + symmetry. rewrite Rmult_0_l. apply Rsum_zero. intros tau _. lra.
  Qed.
  Lemma sgn_sq u : sgn u * sgn u = 1. Proof. unfold sgn. destruct (se_nonneg env u); lra. Qed.
  Lemma lval_sq t a i : (0 <= i < sd_minor D)%Z -> lval t a i * lval t a i = IZR (mult (long_index (E t) D seed i) k a).
  Proof.
    intros Hi. rewrite lval_eq. destruct (first (long_index (E t) D seed i) k a) as [tau|] eqn:Fa.
    - apply first_Some in Fa as [Ht _]. rewrite sign_tape by auto.
      replace (_ * _ * _) with ((sqrt (IZR (mult (long_index (E t) D seed i) k a)) * sqrt (IZR (mult (long_index (E t) D seed i) k a))) * (sgn (nth (pos i tau 1) t d) * sgn (nth (pos i tau 1) t d))) by ring.
      rewrite sgn_sq, sqrt_sqrt; [lra|]. apply IZR_le. unfold mult, zlen. lia.
    - rewrite mult_0 by exact Fa. lra.
  Qed.
  (** Expected multiplicity: k times the probability of the index. *)
  Lemma long_diagonal i a : (0 <= i < sd_minor D)%Z ->
    INR (length U) * Rsum (map (fun t => lval t a i * lval t a i) (tapes n U)) =
    INR (length (tapes n U)) * (IZR k * IZR (count (fun u => se_draw env (sd_major D) u =? a) U)).
  Proof.
    intros Hi. destruct (valid_sdist_inv D HD) as (_ & _ & Hk & _).
    rewrite (Rsum_ext _ (fun t => Rsum (map (fun tau => if se_draw env (sd_major D) (nth (pos i tau 0) t d) =? a then 1 else 0) (range 0 k)))).
    - rewrite Rsum_swap, <- Rsum_scal. rewrite (Rsum_ext _ (fun _ => INR (length (tapes n U)) * IZR (count (fun u => se_draw env (sd_major D) u =? a) U))).
      + rewrite Rsum_const. pose proof (zlen_range 0 k ltac:(lia)) as Z0. unfold zlen in Z0. rewrite (INR_IZR_INZ (length (range 0 k))), Z0, Z.sub_0_r. ring.
      + intros tau Ht. apply in_range in Ht. rewrite (resample_value U n (pos i tau 0) (fun u => if se_draw env (sd_major D) u =? a then 1 else 0)); auto; [|apply pos_lt; auto; lia].
        rewrite Rsum_count. reflexivity.
    - intros t _. rewrite lval_sq by exact Hi. unfold mult. fold (count (fun tau => long_index (E t) D seed i tau =? a) (range 0 k)). rewrite <- Rsum_count.
      apply Rsum_ext. intros tau Ht. apply in_range in Ht. rewrite index_tape by auto. reflexivity.
  Qed.
End Long.
