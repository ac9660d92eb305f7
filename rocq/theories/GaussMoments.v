(** Second and fourth moments of values near a Box-Muller transform, in the form PairProofs3.v
    asks for. *)
From Coq Require Import ZArith Reals Lra Psatz.
From Verif Require Import Base Spec SparseSkopModel PropsFloat IsoSpec IsoProofs PropsIso StatSpec DenseIsoProofs DenseIsoProofs2 NormSpec NormProofs3 NormProofs5 BoxModel BoxSpec BoxProofs BoxProofs2 BoxProofs4 LogMoments PairProofs PairProofs3.
Local Open Scope R_scope.

Section Angles4.
  Variable W : Z.
  Hypothesis HW : (3 <= W)%Z.
  Notation words := (range 0 (2 ^ W)).
  Let N := IZR (2 ^ W).
  Lemma sin_4PI : sin (4 * PI) = 0.
  Proof. replace (4 * PI) with (2 * (2 * PI)) by ring. rewrite (sin_2a (2 * PI)), sin_2PI. ring. Qed.
  Lemma sums_zero4 (f : R -> R) : (f = sin \/ f = cos) -> Rsum (map (fun w => f (4 * angle W w)) words) = 0.
  Proof.
    intros Hf. assert (HN : 8 <= N). { unfold N. apply IZR_le. change 8%Z with (2 ^ 3)%Z. apply Z.pow_le_mono_r; lia. }
    pose proof PI_RGT_0 as HP. set (h := 4 * (PI / N)).
    assert (Hh : 0 < h < PI).
    { assert (P1 : 0 < PI / N) by (apply Rdiv_lt_0_compat; lra).
      assert (P2 : PI / N <= PI / 8) by (apply Rmult_le_compat_l; [lra|apply Rinv_le_contravar; lra]). unfold h. lra. }
    assert (SH : 0 < sin h) by (apply sin_gt_0; lra).
    assert (P2W : (0 < 2 ^ W)%Z) by (apply Z.pow_pos_nonneg; lia). pose proof (pow_half W ltac:(lia)) as HPW.
    assert (E1 : IZR (2 * (- 2 ^ (W - 1))) * h = - (4 * PI)).
    { replace (2 * (- 2 ^ (W - 1)))%Z with (- 2 ^ W)%Z by lia. rewrite opp_IZR. fold N. unfold h. field. lra. }
    assert (E2 : IZR (2 * (- 2 ^ (W - 1) + Z.of_nat (Z.to_nat (2 ^ W)))) * h = 4 * PI).
    { rewrite Z2Nat.id by lia. replace (2 * (- 2 ^ (W - 1) + 2 ^ W))%Z with (2 ^ W)%Z by lia. fold N. unfold h. field. lra. }
    assert (F : forall w, 4 * angle W w = IZR (2 * signed W w + 1) * h) by (intros w; rewrite angle_signed; fold N; unfold h; ring).
    apply (Rmult_eq_reg_l (2 * sin h)); [|lra]. rewrite Rmult_0_r.
    destruct Hf as [-> | ->].
    - rewrite (Rsum_ext _ (fun w => (fun s => sin (IZR (2 * s + 1) * h)) (signed W w))) by (intros; now rewrite F).
      rewrite (Rsum_signed W (fun s => sin (IZR (2 * s + 1) * h))) by lia. rewrite sum_sin, E1, E2, cos_neg. lra.
    - rewrite (Rsum_ext _ (fun w => (fun s => cos (IZR (2 * s + 1) * h)) (signed W w))) by (intros; now rewrite F).
      rewrite (Rsum_signed W (fun s => cos (IZR (2 * s + 1) * h))) by lia. rewrite sum_cos, E1, E2, sin_neg, sin_4PI. lra.
  Qed.
  Lemma avg_zero4 (f : R -> R) : (f = sin \/ f = cos) -> average words (fun w => f (4 * angle W w)) = 0.
  Proof. intros Hf. unfold average. rewrite (sums_zero4 f Hf). lra. Qed.
  Let HW2 : (2 <= W)%Z. Proof. lia. Qed.
  Let wn : words <> []. Proof. apply words_nonempty. lia. Qed.
  Lemma c4 t : cos (4 * t) = 1 - 8 * (sin t * sin t * (cos t * cos t)).
  Proof. replace (4 * t) with (2 * (2 * t)) by ring. rewrite cos_2a_sin, (sin_2a t). ring. Qed.
  Lemma s4 t : sin (4 * t) = 4 * (sin t * cos t) * (cos t * cos t - sin t * sin t).
  Proof. replace (4 * t) with (2 * (2 * t)) by ring. rewrite (sin_2a (2 * t)), (sin_2a t), cos_2a. ring. Qed.
  Lemma pyth t : sin t * sin t = 1 - cos t * cos t.
  Proof. pose proof (sin2_cos2 t) as H. unfold Rsqr in H. lra. Qed.
  Lemma mean_s2c2 : average words (fun w => sin (angle W w) * sin (angle W w) * (cos (angle W w) * cos (angle W w))) = / 8.
  Proof.
    rewrite (average_ext _ _ (fun w => / 8 + (- / 8) * cos (4 * angle W w))) by (intros; rewrite c4; field).
    rewrite average_plus, average_const_mul, (avg_zero4 cos), average_const by auto. lra.
  Qed.
  Lemma mean_s4 : average words (fun w => sin (angle W w) * sin (angle W w) * (sin (angle W w) * sin (angle W w))) = 3 / 8.
  Proof.
    rewrite (average_ext _ _ (fun w => sin (angle W w) * sin (angle W w) + (-1) * (sin (angle W w) * sin (angle W w) * (cos (angle W w) * cos (angle W w))))) by (intros; rewrite (pyth (angle W t)); ring).
    rewrite average_plus, average_const_mul, mean_s2c2, (mean_sin_sq W HW2). lra.
  Qed.
  Lemma mean_c4 : average words (fun w => cos (angle W w) * cos (angle W w) * (cos (angle W w) * cos (angle W w))) = 3 / 8.
  Proof.
    rewrite (average_ext _ _ (fun w => cos (angle W w) * cos (angle W w) + (-1) * (sin (angle W w) * sin (angle W w) * (cos (angle W w) * cos (angle W w))))) by (intros; rewrite (pyth (angle W t)); ring).
    rewrite average_plus, average_const_mul, mean_s2c2, (mean_cos_sq W HW2). lra.
  Qed.
  Lemma mean_s3c : average words (fun w => sin (angle W w) * sin (angle W w) * (sin (angle W w) * cos (angle W w))) = 0.
  Proof.
    rewrite (average_ext _ _ (fun w => / 2 * (sin (angle W w) * cos (angle W w)) + (- / 8) * sin (4 * angle W w))).
    - rewrite average_plus, !average_const_mul, (avg_zero4 sin), (mean_sin_cos W HW2) by auto. lra.
    - intros w _. rewrite s4. set (s := sin (angle W w)). set (k := cos (angle W w)). assert (P : k * k = 1 - s * s) by (unfold k, s; pose proof (pyth (angle W w)); lra). rewrite P. field.
  Qed.
  Lemma mean_c3s : average words (fun w => cos (angle W w) * cos (angle W w) * (cos (angle W w) * sin (angle W w))) = 0.
  Proof.
    rewrite (average_ext _ _ (fun w => / 2 * (sin (angle W w) * cos (angle W w)) + / 8 * sin (4 * angle W w))).
    - rewrite average_plus, !average_const_mul, (avg_zero4 sin), (mean_sin_cos W HW2) by auto. lra.
    - intros w _. rewrite s4. set (s := sin (angle W w)). set (k := cos (angle W w)). assert (P : s * s = 1 - k * k) by (unfold k, s; apply (pyth (angle W w))). rewrite P. field.
  Qed.
End Angles4.

Section BoxNear.
  Variable W : Z.
  Hypothesis HW : (3 <= W)%Z.
  Notation words := (range 0 (2 ^ W)).
  Variable bm : Z -> Z -> R * R.
  Variable rho : Z -> R.
  Variable c : R.
  Notation ok u := (0 <= u < 2 ^ W)%Z.
  Hypothesis Hx : forall u0 u1, ok u0 -> ok u1 -> Rabs (fst (bm u0 u1) - sin (angle W u0) * rho u1) <= c * (1 + radius2 W u1).
  Hypothesis Hy : forall u0 u1, ok u0 -> ok u1 -> Rabs (snd (bm u0 u1) - cos (angle W u0) * rho u1) <= c * (1 + radius2 W u1).
  Hypothesis Hr : forall u, ok u -> Rabs (rho u * rho u - radius2 W u) <= c * (1 + radius2 W u).
  Hypothesis Hc : 0 <= c <= / 500.
  Hypothesis HcW : / IZR (2 ^ W) <= c.
  Hypothesis HcP : prim 2 (half_cell W) <= c.
  Definition U2 : list (Z * Z) := pairs words.
  Definition vv (h : bool) (p : Z * Z) : R := if h then fst (bm (fst p) (snd p)) else snd (bm (fst p) (snd p)).
  Definition gg (h : bool) (p : Z * Z) : R := (if h then sin (angle W (fst p)) else cos (angle W (fst p))) * rho (snd p).
  Definition R2 : R := average words (fun u => rho u * rho u).
  Definition R4 : R := average words (fun u => rho u * rho u * (rho u * rho u)).
  Let HW2 : (2 <= W)%Z. Proof. clear - HW; lia. Qed.
  Let HW0 : (0 < W)%Z. Proof. clear - HW; lia. Qed.
  Let wn : words <> []. Proof. now apply words_nonempty. Qed.
  Lemma U2_ne : U2 <> []. Proof using HW. apply pairs_nonempty, words_nonempty. exact HW0. Qed.
  Lemma sep (s h : Z -> R) q : average words s = q -> average U2 (fun p => s (fst p) * h (snd p)) = q * average words h.
  Proof using HW. exact (pair_sep W HW2 s h q). Qed.
  Lemma sep' (s h : Z -> R) (f : Z * Z -> R) q : average words s = q -> (forall p, f p = s (fst p) * h (snd p)) -> average U2 f = q * average words h.
  Proof using HW. intros E H. rewrite <- (sep s h q E). apply average_ext. intros p _. apply H. Qed.
  Lemma g1 h : average U2 (gg h) = 0.
  Proof using HW. destruct h; [rewrite (sep' _ rho (gg true) _ (mean_sin W HW2))|rewrite (sep' _ rho (gg false) _ (mean_cos W HW2))]; try lra; intros; reflexivity. Qed.
  Notation q2 := (fun u => rho u * rho u).
  Notation q4 := (fun u => rho u * rho u * (rho u * rho u)).
  Lemma g2 h h' : average U2 (fun p => gg h p * gg h' p) = if Bool.eqb h h' then R2 / 2 else 0.
  Proof using HW.
    destruct h, h'; cbn [Bool.eqb].
    - rewrite (sep' _ q2 _ _ (mean_sin_sq W HW2)) by (intros; unfold gg; ring). unfold R2. lra.
    - rewrite (sep' _ q2 _ _ (mean_sin_cos W HW2)) by (intros; unfold gg; ring). lra.
    - rewrite (sep' _ q2 _ _ (mean_sin_cos W HW2)) by (intros; unfold gg; ring). lra.
    - rewrite (sep' _ q2 _ _ (mean_cos_sq W HW2)) by (intros; unfold gg; ring). unfold R2. lra.
  Qed.
  Lemma g4 h : average U2 (fun p => gg h p * gg h p * (gg h p * gg h p)) = 3 / 8 * R4.
  Proof using HW.
    destruct h.
    - rewrite (sep' _ q4 _ _ (mean_s4 W HW)) by (intros; unfold gg; ring). reflexivity.
    - rewrite (sep' _ q4 _ _ (mean_c4 W HW)) by (intros; unfold gg; ring). reflexivity.
  Qed.
  Lemma g31 h : average U2 (fun p => gg h p * gg h p * (gg h p * gg (negb h) p)) = 0.
  Proof using HW.
    destruct h; cbn [negb].
    - rewrite (sep' _ q4 _ _ (mean_s3c W HW)) by (intros; unfold gg; ring). lra.
    - rewrite (sep' _ q4 _ _ (mean_c3s W HW)) by (intros; unfold gg; ring). lra.
  Qed.
  Lemma g22 : average U2 (fun p => gg true p * gg true p * (gg false p * gg false p)) = R4 / 8.
  Proof using HW. rewrite (sep' _ q4 _ _ (mean_s2c2 W HW)) by (intros; unfold gg; ring). unfold R4. lra. Qed.
  (** *** Moments of the radius *)
  Notation r2 := (radius2 W).
  Lemma r2_mean : 2 - c <= average words r2 <= 2.
  Proof using HW HcW. pose proof (mean_radius2 W HW0). lra. Qed.
  Lemma ell_r2 u : ell W u = r2 u / 2. Proof. reflexivity. Qed.
  Lemma r2_sq_mean : 8 - 4 * c <= average words (fun u => r2 u * r2 u) <= 8.
  Proof using HW HcP.
    rewrite (average_ext _ _ (fun u => 4 * ell W u ^ 2)) by (intros; rewrite ell_r2; field). rewrite average_const_mul.
    pose proof (mean_ell_le W HW0 2) as A. pose proof (mean_ell2_ge W HW0) as B. replace (INR (fact 2)) with 2 in A by (cbn; lra). lra.
  Qed.
  Lemma R2_near : Rabs (R2 / 2 - 1) <= 2 * c.
  Proof using HW Hr Hc HcW.
    pose proof (average_near words (fun u => rho u * rho u) r2 (fun u => c * (1 + r2 u)) wn) as A. cbv beta in A.
    assert (B : Rabs (R2 - average words r2) <= 3 * c).
    { eapply Rle_trans; [apply A; intros u Hu; apply in_range in Hu; now apply Hr|]. rewrite average_const_mul, (average_plus _ (fun _ => 1)), average_const by exact wn. pose proof r2_mean as [_ M]. nra. }
    pose proof r2_mean. apply abs_bounds in B. apply Rabs_le. lra.
  Qed.
  Lemma R4_near : Rabs (R4 / 8 - 1) <= 4 * c.
  Proof using HW Hr Hc HcW HcP.
    pose proof (average_near words (fun u => rho u * rho u * (rho u * rho u)) (fun u => r2 u * r2 u) (fun u => c * (1 + 3 * r2 u + 2.01 * (r2 u * r2 u))) wn) as A. cbv beta in A.
    pose proof r2_mean as [_ M]. pose proof r2_sq_mean as M2.
    assert (B : Rabs (R4 - average words (fun u => r2 u * r2 u)) <= c * 24).
    { eapply Rle_trans; [apply A|].
      - intros u Hu. apply in_range in Hu. pose proof (Hr u Hu) as H. pose proof (radius2_nonneg W HW0 u Hu) as P.
        set (q := rho u * rho u) in *. set (s := r2 u) in *. clearbody q s. set (D := q - s) in *. replace (q * q - s * s) with (D * (2 * s + D)) by (unfold D; ring). clearbody D. clear - H P Hc.
        rewrite Rabs_mult. assert (E : c * s <= / 500 * s) by (apply Rmult_le_compat_r; lra).
        apply (Rle_trans _ (c * (1 + s) * (2.01 * s + 0.01))).
        + apply Rmult_le_compat; try apply Rabs_pos; [exact H|]. apply abs_bounds in H. apply Rabs_le. lra.
        + assert (0 <= c * s) by (apply Rmult_le_pos; lra). lra.
      - rewrite average_const_mul. apply Rmult_le_compat_l; [lra|]. rewrite (average_plus _ (fun u => 1 + 3 * r2 u)), (average_plus _ (fun _ => 1)), !average_const_mul, average_const by exact wn. lra. }
    apply abs_bounds in B. apply Rabs_le. lra.
  Qed.
  (** *** The difference between the values and the ideal ones *)
  Lemma diff h p : ok (fst p) -> ok (snd p) -> Rabs (vv h p - gg h p) <= c * (1 + r2 (snd p)).
  Proof using Hx Hy. intros A B. destruct h; [now apply Hx|now apply Hy]. Qed.
  Lemma in_U2 p : In p U2 -> ok (fst p) /\ ok (snd p).
  Proof. intros H. apply in_pairs in H as [A B]. apply in_range in A, B. now split. Qed.
  Lemma off_small h : Rabs (off U2 vv gg h) <= 3 * c.
  Proof using HW Hx Hy Hc.
    pose proof (pair_near W HW2 c (proj1 Hc) (fun p => vv h p - gg h p) (fun _ => 0)) as A. cbv beta in A.
    unfold off, U2. rewrite (average_const (pairs words) 0) in A by exact U2_ne. rewrite Rminus_0_r in A. apply A. intros p A1 A2. rewrite Rminus_0_r. now apply diff.
  Qed.
  Lemma ell_nonneg u : ok u -> 0 <= ell W u.
  Proof using HW. intros Hu. unfold ell. pose proof (radius2_nonneg W HW0 u Hu). lra. Qed.
  Lemma gam_small h : average U2 (fun w => gam U2 vv gg h w * gam U2 vv gg h w * (gam U2 vv gg h w * gam U2 vv gg h w)) <= (8 * c) * (8 * c) * ((8 * c) * (8 * c)).
  Proof using HW Hx Hy Hc.
    set (c4 := c * c * (c * c)). assert (C4 : 0 <= c4) by (unfold c4; apply Rmult_le_pos; apply Rmult_le_pos; lra).
    set (F := fun u => 16 * (16 + 32 * ell W u + 24 * ell W u ^ 2 + 8 * ell W u ^ 3 + ell W u ^ 4)).
    apply (Rle_trans _ (average U2 (fun p => c4 * F (snd p)))).
    - apply average_le. intros p Hp. apply in_U2 in Hp as [A B]. pose proof (diff h p A B) as D. pose proof (off_small h) as O. pose proof (ell_nonneg (snd p) B) as L.
      replace (radius2 W (snd p)) with (2 * ell W (snd p)) in D by (unfold ell; field).
      assert (G : Rabs (gam U2 vv gg h p) <= c * (2 * (2 + ell W (snd p)))).
      { unfold gam. apply abs_bounds in D, O. apply Rabs_le. lra. }
      unfold F. set (e := ell W (snd p)) in *. set (g0 := gam U2 vv gg h p) in *. clearbody e g0. clear - G L Hc.
      assert (S : g0 * g0 <= c * (2 * (2 + e)) * (c * (2 * (2 + e)))).
      { apply (Rle_trans _ (Rabs g0 * Rabs g0)); [rewrite <- Rabs_mult; apply Rle_abs|]. pose proof (Rabs_pos g0). apply Rmult_le_compat; lra. }
      apply (Rle_trans _ ((c * (2 * (2 + e)) * (c * (2 * (2 + e)))) * (c * (2 * (2 + e)) * (c * (2 * (2 + e)))))).
      + pose proof (Rle_0_sqr g0) as P. unfold Rsqr in P. apply Rmult_le_compat; lra.
      + apply Req_le. unfold c4. ring.
    - rewrite average_const_mul. replace (8 * c * (8 * c) * (8 * c * (8 * c))) with (c4 * 4096) by (unfold c4; ring). apply Rmult_le_compat_l; [exact C4|].
      rewrite (sep' (fun _ => 1) F (fun p => F (snd p)) 1 (average_const words 1 wn) (fun p => eq_sym (Rmult_1_l (F (snd p))))). unfold F. rewrite Rmult_1_l, average_const_mul.
      rewrite (average_plus _ (fun u => 16 + 32 * ell W u + 24 * ell W u ^ 2 + 8 * ell W u ^ 3)), (average_plus _ (fun u => 16 + 32 * ell W u + 24 * ell W u ^ 2)), (average_plus _ (fun u => 16 + 32 * ell W u)), (average_plus _ (fun u => 16)), !average_const_mul, average_const by exact wn.
      pose proof (mean_ell_le W HW0 1) as M1. pose proof (mean_ell_le W HW0 2) as M2. pose proof (mean_ell_le W HW0 3) as M3. pose proof (mean_ell_le W HW0 4) as M4.
      replace (INR (fact 1)) with 1 in M1 by (cbn; lra). replace (INR (fact 2)) with 2 in M2 by (cbn; lra). replace (INR (fact 3)) with 6 in M3 by (cbn; lra). replace (INR (fact 4)) with 24 in M4 by (cbn; lra).
      rewrite (average_ext _ (fun w => ell W w ^ 1) (ell W)) in M1 by (intros; ring). lra.
  Qed.

  (** *** The mean square error *)
  Variables n L : nat.
  Variable u0 : Z * Z.
  Variables d m : Z.
  Hypothesis Hd : (0 < d)%Z.
  Hypothesis Hm : (0 < m)%Z.
  Variable pb pl : Z -> Z -> nat.
  Variable ph : Z -> Z -> bool.
  Hypothesis Hpos : forall a, inside d m a -> (fst (sc pb pl a) < n)%nat /\ (snd (sc pb pl a) < L)%nat.
  Hypothesis Hinj : forall a b, inside d m a -> inside d m b -> sc pb pl a = sc pb pl b -> sh ph a = sh ph b -> a = b.
  Lemma gauss_moment x y : average (tapes n (tapes L U2)) (fun t => (/ IZR d * dot d (act u0 m pb pl ph vv t x) (act u0 m pb pl ph vv t y) - dot m x y) ^ 2)
    <= gaussian_spread c d m * (dot m x x * dot m y y).
  Proof.
    pose proof R2_near as N2. pose proof R4_near as N4. apply abs_bounds in N2, N4.
    set (sg := R2 / 2) in *. set (kp := R4 / 8) in *. assert (S1 : 1 - 4 * c <= sg * sg <= 1 + 5 * c) by (split; nra).
    assert (Q1 : sg * sg <= 1 + 8 * c) by lra.
    assert (Q2 : Rabs (3 / 8 * R4 - sg * sg) <= 2 * (1 + 8 * c)) by (apply Rabs_le; unfold kp in N4; lra).
    assert (Q3 : 0 <= kp <= 1 + 8 * c) by lra.
    assert (Q4 : Rabs (kp - sg * sg) <= 9 * c) by (apply Rabs_le; lra).
    assert (SG : 0 <= sg) by lra.
    assert (BE : 3 / 8 * R4 <= 3 / 2 * (3 / 2) * (3 / 2 * (3 / 2))) by (unfold kp in N4; lra).
    assert (Hbe : 0 <= 3 / 2) by lra. assert (Hal : 0 <= 8 * c) by lra.
    pose proof (near_moment U2 U2_ne n L u0 d m Hd Hm pb pl ph Hpos Hinj vv gg sg (3 / 8 * R4) kp (1 + 8 * c) (9 * c) g1 g2 g4 g31 g22 Q1 Q2 Q3 Q4 SG (8 * c) (3 / 2) (3 * c) Hbe Hal BE gam_small off_small x y) as G.
    eapply Rle_trans; [exact G|]. apply Rmult_le_compat_r; [apply Rmult_le_pos; apply (dot_nonneg m)|].
    unfold slack, gaussian_spread. clear G.
    assert (D0 : 0 < IZR d) by (apply IZR_lt; exact Hd). assert (M0 : 0 < IZR m) by (apply IZR_lt; exact Hm).
    assert (T1 : sqrt ((2 * (1 + 8 * c) + 9 * c) / IZR d) <= (1 + 7 * c) * sqrt (2 / IZR d)).
    { replace ((2 * (1 + 8 * c) + 9 * c) / IZR d) with ((1 + 25 / 2 * c) * (2 / IZR d)) by (field; lra).
      assert (0 <= 2 / IZR d) by (apply Rlt_le, Rdiv_lt_0_compat; lra).
      rewrite sqrt_mult by lra. apply Rmult_le_compat_r; [apply sqrt_pos|]. rewrite <- (sqrt_Rsqr (1 + 7 * c)) by lra. apply sqrt_le_1_alt. unfold Rsqr. nra. }
    assert (T2 : Rabs (sg - 1) <= 2 * c) by (apply Rabs_le; lra).
    assert (T3 : 2 * (3 * c * sqrt (sg * IZR m / IZR d)) <= 7 * c * sqrt (IZR m / IZR d)).
    { replace (sg * IZR m / IZR d) with (sg * (IZR m / IZR d)) by (field; lra).
      assert (0 <= IZR m / IZR d) by (apply Rlt_le, Rdiv_lt_0_compat; lra). rewrite sqrt_mult by lra.
      assert (sqrt sg <= 7 / 6). { rewrite <- (sqrt_Rsqr (7 / 6)) by lra. apply sqrt_le_1_alt. unfold Rsqr. lra. }
      pose proof (sqrt_pos (IZR m / IZR d)). assert (0 <= c * sqrt (IZR m / IZR d)) by (apply Rmult_le_pos; lra). nra. }
    assert (T4 : 6 * (8 * c * (3 * c) * sqrt (IZR m)) <= c ^ 2 * IZR m + 11 * c).
    { pose proof (sqrt_sqrt (IZR m) (Rlt_le _ _ M0)) as E. set (q := sqrt (IZR m)) in *. rewrite <- E.
      assert (0 <= c * (q - 72) * (c * (q - 72))) by apply Rle_0_sqr. assert (c * c <= / 500 * c) by (apply Rmult_le_compat_r; lra). nra. }
    assert (T5 : 7 * (8 * c * (8 * c)) <= c) by nra.
    pose proof (sqrt_pos ((2 * (1 + 8 * c) + 9 * c) / IZR d)). pose proof (Rabs_pos (sg - 1)).
    assert (0 <= 2 * (3 * c * sqrt (sg * IZR m / IZR d))) by (repeat apply Rmult_le_pos; try lra; apply sqrt_pos).
    assert (0 <= 6 * (8 * c * (3 * c) * sqrt (IZR m))) by (repeat apply Rmult_le_pos; try lra; apply sqrt_pos).
    assert (0 <= 3 * c * (3 * c) * IZR m) by (repeat apply Rmult_le_pos; lra).
    assert (0 <= c * c) by (apply Rmult_le_pos; lra).
    apply pow_incr. split; [lra|]. lra.
  Qed.
End BoxNear.
