(** Moments of values that approximate the Box-Muller transform, and the Gram matrix. *)
From Coq Require Import ZArith Reals Lra Psatz.
From Verif Require Import Base Spec Interleave RngModel DenseModel DenseSpec DenseProofs DenseProofs2 DenseProofs3 SparseSkopModel SparseSpec PropsFloat
  IsoSpec IsoProofs PropsIso StatSpec DenseIsoProofs DenseIsoProofs2 BoxModel BoxSpec BoxProofs BoxProofs2 BoxProofs3.
Local Open Scope R_scope.

Lemma average_near {A} (l : list A) (f h b : A -> R) : l <> [] -> (forall x, In x l -> Rabs (f x - h x) <= b x) ->
  Rabs (average l f - average l h) <= average l b.
Proof.
  intros HL H. assert (0 < INR (length l)) as P by (apply lt_0_INR; destruct l; [congruence|cbn; lia]).
  assert (G : Rabs (Rsum (map f l) - Rsum (map h l)) <= Rsum (map b l)).
  { clear - H. induction l as [|x l IH]; [cbn; rewrite Rminus_0_r, Rabs_R0; lra|]. cbn [map Rsum].
    replace (f x + Rsum (map f l) - (h x + Rsum (map h l))) with ((f x - h x) + (Rsum (map f l) - Rsum (map h l))) by ring.
    eapply Rle_trans; [apply Rabs_triang|]. specialize (IH (fun y Hy => H y (or_intror Hy))). specialize (H x (or_introl eq_refl)). lra. }
  unfold average, Rdiv. rewrite <- Rmult_minus_distr_r, Rabs_mult, (Rabs_pos_eq (/ _)) by (left; now apply Rinv_0_lt_compat).
  apply Rmult_le_compat_r; [left; now apply Rinv_0_lt_compat|exact G].
Qed.
Lemma in_pairs {A} (U : list A) p : In p (pairs U) -> In (fst p) U /\ In (snd p) U.
Proof. destruct p as [a b]. unfold pairs. intros H. now apply in_prod_iff in H. Qed.

Section PairMoments.
  Variable W : Z.
  Hypothesis HW : (2 <= W)%Z.
  Notation words := (range 0 (2 ^ W)).
  Variable bm : Z -> Z -> R * R.
  Variable rho : Z -> R.
  Variable c : R.
  Notation ok u := (0 <= u < 2 ^ W)%Z.
  Hypothesis Hx : forall u0 u1, ok u0 -> ok u1 -> Rabs (fst (bm u0 u1) - sin (angle W u0) * rho u1) <= c * (1 + radius2 W u1).
  Hypothesis Hy : forall u0 u1, ok u0 -> ok u1 -> Rabs (snd (bm u0 u1) - cos (angle W u0) * rho u1) <= c * (1 + radius2 W u1).
  Hypothesis Hxx : forall u0 u1, ok u0 -> ok u1 ->
    Rabs (fst (bm u0 u1) * fst (bm u0 u1) - sin (angle W u0) * sin (angle W u0) * radius2 W u1) <= c * (1 + radius2 W u1).
  Hypothesis Hyy : forall u0 u1, ok u0 -> ok u1 ->
    Rabs (snd (bm u0 u1) * snd (bm u0 u1) - cos (angle W u0) * cos (angle W u0) * radius2 W u1) <= c * (1 + radius2 W u1).
  Hypothesis Hxy : forall u0 u1, ok u0 -> ok u1 ->
    Rabs (fst (bm u0 u1) * snd (bm u0 u1) - sin (angle W u0) * cos (angle W u0) * radius2 W u1) <= c * (1 + radius2 W u1).
  Hypothesis Hc : 0 <= c.
  Definition variance : R := average words (radius2 W) / 2.

  Lemma wne : words <> []. Proof using HW. clear - HW. apply words_nonempty. lia. Qed.
  Lemma variance_bounds : 1 - / IZR (2 ^ (W + 1)) <= variance <= 1.
  Proof using HW. clear - HW.
    pose proof (mean_radius2 W ltac:(lia)) as H. unfold variance. replace (/ IZR (2 ^ (W + 1))) with (/ IZR (2 ^ W) / 2); [lra|].
    rewrite Z.pow_add_r, mult_IZR by lia. change (IZR (2 ^ 1)) with 2.
    assert (0 < IZR (2 ^ W)) by (apply IZR_lt; apply pow_pos'; lia). field. lra.
  Qed.
  (** A function of both words close to (a zero-mean function of the angle) times (anything). *)
  Lemma pair_near (f h : Z * Z -> R) : (forall p, ok (fst p) -> ok (snd p) -> Rabs (f p - h p) <= c * (1 + radius2 W (snd p))) ->
    Rabs (average (pairs words) f - average (pairs words) h) <= 3 * c.
  Proof using HW Hc. clear - HW Hc.
    intros H. eapply Rle_trans; [apply (average_near _ f h (fun p => c * (1 + radius2 W (snd p))))|].
    - apply pairs_nonempty, wne.
    - intros p Hp. apply in_pairs in Hp as [H0 H1]. apply in_range in H0, H1. now apply H.
    - rewrite (average_pairs words (fun _ b => c * (1 + radius2 W b)) wne).
      rewrite (average_ext _ _ (fun b => c * (1 + radius2 W b))) by (intros; apply average_const, wne).
      rewrite average_const_mul, (average_plus _ (fun _ => 1)), average_const by apply wne.
      pose proof (mean_radius2 W ltac:(lia)) as [_ U]. rewrite (Rmult_comm 3). apply Rmult_le_compat_l; lra.
  Qed.
  Lemma pair_sep (s : Z -> R) (h : Z -> R) m : average words s = m -> average (pairs words) (fun p => s (fst p) * h (snd p)) = m * average words h.
  Proof using HW. clear - HW.
    intros H. rewrite (average_pairs words (fun a b => s a * h b) wne).
    rewrite (average_ext _ _ (fun b => m * h b)); [apply average_const_mul|].
    intros b _. rewrite (average_ext _ _ (fun a => h b * s a)) by (intros; ring). rewrite average_const_mul, H. ring.
  Qed.
  Notation X := (fun p : Z * Z => fst (bm (fst p) (snd p))).
  Notation Y := (fun p : Z * Z => snd (bm (fst p) (snd p))).
  Lemma mean_x : Rabs (average (pairs words) X) <= 3 * c.
  Proof using HW Hx Hc. clear - HW Hx Hc.
    pose proof (pair_near X (fun p => sin (angle W (fst p)) * rho (snd p)) (fun p H0 H1 => Hx _ _ H0 H1)) as P.
    rewrite (pair_sep (fun a => sin (angle W a)) rho 0 (mean_sin W HW)), Rmult_0_l, Rminus_0_r in P. exact P.
  Qed.
  Lemma mean_y : Rabs (average (pairs words) Y) <= 3 * c.
  Proof using HW Hy Hc. clear - HW Hy Hc.
    pose proof (pair_near Y (fun p => cos (angle W (fst p)) * rho (snd p)) (fun p H0 H1 => Hy _ _ H0 H1)) as P.
    rewrite (pair_sep (fun a => cos (angle W a)) rho 0 (mean_cos W HW)), Rmult_0_l, Rminus_0_r in P. exact P.
  Qed.
  Lemma mean_xx : Rabs (average (pairs words) (fun p => X p * X p) - variance) <= 3 * c.
  Proof using HW Hxx Hc. clear - HW Hxx Hc.
    pose proof (pair_near (fun p => X p * X p) (fun p => sin (angle W (fst p)) * sin (angle W (fst p)) * radius2 W (snd p)) (fun p H0 H1 => Hxx _ _ H0 H1)) as P.
    rewrite (pair_sep (fun a => sin (angle W a) * sin (angle W a)) (radius2 W) (/ 2) (mean_sin_sq W HW)) in P.
    unfold variance. replace (average words (radius2 W) / 2) with (/ 2 * average words (radius2 W)) by lra. exact P.
  Qed.
  Lemma mean_yy : Rabs (average (pairs words) (fun p => Y p * Y p) - variance) <= 3 * c.
  Proof using HW Hyy Hc. clear - HW Hyy Hc.
    pose proof (pair_near (fun p => Y p * Y p) (fun p => cos (angle W (fst p)) * cos (angle W (fst p)) * radius2 W (snd p)) (fun p H0 H1 => Hyy _ _ H0 H1)) as P.
    rewrite (pair_sep (fun a => cos (angle W a) * cos (angle W a)) (radius2 W) (/ 2) (mean_cos_sq W HW)) in P.
    unfold variance. replace (average words (radius2 W) / 2) with (/ 2 * average words (radius2 W)) by lra. exact P.
  Qed.
  Lemma mean_xy : Rabs (average (pairs words) (fun p => X p * Y p)) <= 3 * c.
  Proof using HW Hxy Hc. clear - HW Hxy Hc.
    pose proof (pair_near (fun p => X p * Y p) (fun p => sin (angle W (fst p)) * cos (angle W (fst p)) * radius2 W (snd p)) (fun p H0 H1 => Hxy _ _ H0 H1)) as P.
    rewrite (pair_sep (fun a => sin (angle W a) * cos (angle W a)) (radius2 W) 0 (mean_sin_cos W HW)), Rmult_0_l, Rminus_0_r in P. exact P.
  Qed.
End PairMoments.

Section GaussGram.
  Context {K F T : Type}.
  Variables (cast : F -> T) (toR : T -> R) (env : dense_env K F T) (sched : schedule T).
  Variables (nr nc : Z) (D : dense_dist) (seed : rng_state K).
  Hypothesis Hs : valid_schedule sched.
  Hypothesis HD : mk_dense_dist nr nc Gaussian Long = Ok D.
  Hypothesis HF : dense_fits env D seed.
  Notation L := (g_len (env_gauss env)).
  Hypothesis Ev : Z.even L = true.
  Variables (dflt : list F) (junk : F).
  Hypothesis Hd : zlen dflt = L.
  Variable W : Z.
  Hypothesis HW : (2 <= W)%Z.
  Variable fbm : Z -> Z -> F * F.
  Definition rbm (u0 u1 : Z) : R * R := (toR (cast (fst (fbm u0 u1))), toR (cast (snd (fbm u0 u1)))).
  Variable rho : Z -> R.
  Variable c : R.
  Notation ok u := (0 <= u < 2 ^ W)%Z.
  Hypothesis Hx : forall u0 u1, ok u0 -> ok u1 -> Rabs (fst (rbm u0 u1) - sin (angle W u0) * rho u1) <= c * (1 + radius2 W u1).
  Hypothesis Hy : forall u0 u1, ok u0 -> ok u1 -> Rabs (snd (rbm u0 u1) - cos (angle W u0) * rho u1) <= c * (1 + radius2 W u1).
  Hypothesis Hxx : forall u0 u1, ok u0 -> ok u1 ->
    Rabs (fst (rbm u0 u1) * fst (rbm u0 u1) - sin (angle W u0) * sin (angle W u0) * radius2 W u1) <= c * (1 + radius2 W u1).
  Hypothesis Hyy : forall u0 u1, ok u0 -> ok u1 ->
    Rabs (snd (rbm u0 u1) * snd (rbm u0 u1) - cos (angle W u0) * cos (angle W u0) * radius2 W u1) <= c * (1 + radius2 W u1).
  Hypothesis Hxy : forall u0 u1, ok u0 -> ok u1 ->
    Rabs (fst (rbm u0 u1) * snd (rbm u0 u1) - sin (angle W u0) * cos (angle W u0) * radius2 W u1) <= c * (1 + radius2 W u1).
  Hypothesis Hc : 0 <= c <= / 3.
  Notation Bs := (map (boxmul_block fbm junk) (tapes (Z.to_nat L) (range 0 (2 ^ W)))).

  Lemma gauss_gram_near a b : (0 <= a < Z.max nr nc)%Z -> (0 <= b < Z.max nr nc)%Z ->
    Rabs (average (tapes (Z.to_nat (dense_blocks D L)) Bs)
      (fun t => dense_iso2 D * long_gram D (dense_sampled cast toR (with_blocks env seed dflt t) sched D seed) a b) - variance W * delta a b) <= 3 * c.
  Proof.
    intros Ha Hb. assert (L0 : (0 <= L)%Z) by (destruct HF as ([[A _ _] _] & _); lia).
    pose proof (wne W HW) as NW.
    assert (Hc0 : 0 <= c) by lra.
    pose proof (mean_x W HW rbm rho c Hx Hc0) as MX. pose proof (mean_y W HW rbm rho c Hy Hc0) as MY.
    pose proof (mean_xx W HW rbm c Hxx Hc0) as MXX. pose proof (mean_yy W HW rbm c Hyy Hc0) as MYY. pose proof (mean_xy W HW rbm c Hxy Hc0) as MXY.
    clear Hx Hy Hxx Hyy Hxy.
    assert (PV1 : forall l, Rabs (average (pairs (range 0 (2 ^ W))) (pv fbm (fun x => toR (cast x)) l)) <= 3 * c).
    { intros l. unfold pv, half. destruct (Z.even l); assumption. }
    pose proof (gram_near cast toR env sched nr nc Gaussian D seed Hs HD HF dflt junk Bs Hd
      (fun b => bblock_len fbm junk (range 0 (2 ^ W)) L L0 b) (bblocks_nonempty fbm junk (range 0 (2 ^ W)) NW L) (variance W) (3 * c) (3 * c) (3 * c)) as G.
    cbn [env_gen family_map] in G.
    eapply Rle_trans; [apply G|]; auto.
    - intros l Hl. eapply Rle_trans; [|apply (PV1 l)]. right. f_equal.
      exact (bmean fbm junk (fun x => toR (cast x)) (range 0 (2 ^ W)) NW L L0 Ev junk 0%Z l Hl).
    - intros l Hl. pose proof (bproduct fbm junk (fun x => toR (cast x)) (range 0 (2 ^ W)) NW L L0 Ev junk 0%Z l l Hl Hl) as P.
      unfold bblocks in P. rewrite P, Z.eqb_refl. unfold pv, half. destruct (Z.even l); assumption.
    - intros l l' Hl Hl' N. pose proof (bproduct fbm junk (fun x => toR (cast x)) (range 0 (2 ^ W)) NW L L0 Ev junk 0%Z l l' Hl Hl') as P.
      unfold bblocks in P. rewrite P. destruct (Z.eqb_spec (l / 2) (l' / 2)) as [E|_].
      + unfold pv, half. assert (X : Z.even l <> Z.even l').
        { intros X. apply N. rewrite (Z.div_mod l 2), (Z.div_mod l' 2) by lia. rewrite E. f_equal. rewrite !Zmod_even, X. reflexivity. }
        destruct (Z.even l), (Z.even l'); try congruence; [exact MXY|].
        rewrite (average_ext _ _ (fun p => fst (rbm (fst p) (snd p)) * snd (rbm (fst p) (snd p)))) by (intros; unfold rbm; cbn [fst snd]; ring). exact MXY.
      + rewrite Rabs_mult. eapply Rle_trans; [apply Rmult_le_compat; [apply Rabs_pos|apply Rabs_pos|apply PV1|apply PV1]|]. nra.
    - nra.
    - destruct (a =? b)%Z; lra.
  Qed.
End GaussGram.
