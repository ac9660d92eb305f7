(** Entries drawn in pairs, concluded: the mean-square error of sketched inner products when the
    values drawn are near ideal ones whose odd moments vanish (used by PropsNorm3.v). *)
From Verif Require Import Base Spec RngModel DenseModel FyProofs IsoSpec IsoProofs PropsIso StatSpec StatProofs DenseIsoProofs NormSpec NormProofs NormProofs3 NormProofs4 PairProofs PairProofs2.
From Coq Require Import Lra Psatz.
Local Open Scope R_scope.

Section MeanSquare.
  Context {T : Type}.
  Variable ts : list T.
  Hypothesis PN : 0 < INR (length ts).
  Definition ms (f : T -> R) (B : R) : Prop := 0 <= B /\ Rsum (map (fun t => f t * f t) ts) <= INR (length ts) * (B * B).
  Lemma ms_plus f g B C : ms f B -> ms g C -> ms (fun t => f t + g t) (B + C).
  Proof using PN. intros [B0 HB] [C0 HC]. split; [lra|]. apply minkowski; auto. lra. Qed.
  Lemma ms_ext f g B : (forall t, In t ts -> f t = g t) -> ms f B -> ms g B.
  Proof. intros E [B0 H]. split; [exact B0|]. rewrite (Rsum_ext _ (fun t => f t * f t)); [exact H|]. intros t Ht. now rewrite E. Qed.
  Lemma ms_scal c f B : 0 <= c -> ms f B -> ms (fun t => c * f t) (c * B).
  Proof using PN.
    intros Hc [B0 H]. split; [now apply Rmult_le_pos|]. rewrite (Rsum_ext _ (fun t => c * c * (f t * f t))) by (intros; ring). rewrite Rsum_scal.
    apply (Rmult_le_compat_l (c * c)) in H; [|now apply Rmult_le_pos]. lra.
  Qed.
  Lemma ms_const c B : Rabs c <= B -> ms (fun _ => c) B.
  Proof using PN.
    intros H. pose proof (Rabs_pos c). split; [lra|]. rewrite Rsum_const. apply Rmult_le_compat_l; [lra|].
    apply (Rle_trans _ (Rabs c * Rabs c)); [rewrite <- Rabs_mult; apply Rle_abs|]. apply Rmult_le_compat; lra.
  Qed.
  Lemma ms_weaken f B C : B <= C -> ms f B -> ms f C.
  Proof using PN. intros L [B0 H]. split; [lra|]. eapply Rle_trans; [exact H|]. apply Rmult_le_compat_l; [lra|]. apply Rmult_le_compat; lra. Qed.
End MeanSquare.

Section Near.
  Context {A : Type}.
  Variable U : list A.
  Hypothesis HU : U <> [].
  Variables n L : nat.
  Notation ts := (tapes n (tapes L U)).
  Notation N := (INR (length ts)).
  Variable u0 : A.
  Variables d m : Z.
  Hypothesis Hd : (0 < d)%Z.
  Hypothesis Hm : (0 < m)%Z.
  Variable pb pl : Z -> Z -> nat.
  Variable ph : Z -> Z -> bool.
  Notation inside := (inside d m).
  Notation sc := (sc pb pl).
  Notation sh := (sh ph).
  Notation ent := (ent u0 pb pl ph).
  Notation act := (act u0 m pb pl ph).
  Hypothesis Hpos : forall a, inside a -> (fst (sc a) < n)%nat /\ (snd (sc a) < L)%nat.
  Hypothesis Hinj : forall a b, inside a -> inside b -> sc a = sc b -> sh a = sh b -> a = b.

  Variables v g : bool -> A -> R.
  Variables sg k4 kp Q eta : R.
  Hypothesis G1 : forall h, average U (g h) = 0.
  Hypothesis G2 : forall h h', average U (fun w => g h w * g h' w) = if Bool.eqb h h' then sg else 0.
  Hypothesis G4 : forall h, average U (fun w => g h w * g h w * (g h w * g h w)) = k4.
  Hypothesis G31 : forall h, average U (fun w => g h w * g h w * (g h w * g (negb h) w)) = 0.
  Hypothesis G22 : average U (fun w => g true w * g true w * (g false w * g false w)) = kp.
  Hypothesis Q1 : sg * sg <= Q.
  Hypothesis Q2 : Rabs (k4 - sg * sg) <= 2 * Q.
  Hypothesis Q3 : 0 <= kp <= Q.
  Hypothesis Q4 : Rabs (kp - sg * sg) <= eta.
  Hypothesis SG : 0 <= sg.
  Variables al be mu : R.
  Hypothesis Hbe : 0 <= be.
  Hypothesis Hal : 0 <= al.
  Hypothesis BE : k4 <= be * be * (be * be).
  Definition off (h : bool) : R := average U (fun w => v h w - g h w).
  Definition gam (h : bool) (w : A) : R := v h w - g h w - off h.
  Hypothesis AL : forall h, average U (fun w => gam h w * gam h w * (gam h w * gam h w)) <= al * al * (al * al).
  Hypothesis MU : forall h, Rabs (off h) <= mu.

  Lemma gam_zero h : average U (gam h) = 0.
  Proof using HU. unfold gam, average. rewrite Rsum_minus, Rsum_const. unfold off, average. pose proof (length_pos U HU). field. lra. Qed.
  Definition mean (x : Z -> R) (r : Z) : R := Rsum (map (fun i => off (sh (r, i)) * x i) (range 0 m)).
  Lemma act_three t x r : act v t x r = act g t x r + act gam t x r + mean x r.
  Proof. unfold PairProofs.act, mean. rewrite <- !Rsum_plus. apply Rsum_ext. intros i _. unfold PairProofs.ent, gam. ring. Qed.
  Lemma mu_nonneg : 0 <= mu. Proof using MU. pose proof (MU true). pose proof (Rabs_pos (off true)). lra. Qed.
  Lemma mean_sq x : dot d (mean x) (mean x) <= IZR d * (mu * mu * (IZR m * dot m x x)).
  Proof using Hd Hm MU.
    unfold dot at 1. rewrite <- (Rsum_range_const (mu * mu * (IZR m * dot m x x))) by lia. apply Rsum_le. intros r _. unfold mean.
    pose proof (cauchy_schwarz (fun i => off (sh (r, i))) x (range 0 m)) as C. cbv beta in C. eapply Rle_trans; [exact C|]. rewrite <- Rmult_assoc. apply Rmult_le_compat_r; [apply (dot_nonneg m x)|].
    rewrite <- (Rmult_comm (IZR m)), <- (Rsum_range_const (mu * mu)) by lia. apply Rsum_le. intros i _. pose proof (MU (sh (r, i))) as B. pose proof (Rabs_pos (off (sh (r, i)))).
    apply (Rle_trans _ (Rabs (off (sh (r, i))) * Rabs (off (sh (r, i))))); [rewrite <- Rabs_mult; apply Rle_abs|]. apply Rmult_le_compat; lra.
  Qed.
  Definition slack : R := sqrt ((2 * Q + eta) / IZR d) + Rabs (sg - 1) + 14 * (be * al) + 7 * (al * al) + 2 * (mu * sqrt (sg * IZR m / IZR d)) + 6 * (al * mu * sqrt (IZR m)) + mu * mu * IZR m.

  Section Vectors.
    Variables x y : Z -> R.
    Let r := sqrt (dot m x x) * sqrt (dot m y y).
    Lemma r_nonneg : 0 <= r. Proof. apply Rmult_le_pos; apply sqrt_pos. Qed.
    Lemma r_sq : r * r = dot m x x * dot m y y.
    Proof. unfold r. replace (sqrt (dot m x x) * sqrt (dot m y y) * (sqrt (dot m x x) * sqrt (dot m y y))) with ((sqrt (dot m x x) * sqrt (dot m x x)) * (sqrt (dot m y y) * sqrt (dot m y y))) by ring. rewrite !sqrt_sqrt by apply dot_nonneg. reflexivity. Qed.
    Notation ms := (ms ts).
    Notation D := (IZR d).
    Let Pd : 0 < D. Proof. apply IZR_lt; lia. Qed.
    Let Pm : 0 < IZR m. Proof. apply IZR_lt; lia. Qed.
    Let PN := N_pos U HU n L.
    Lemma t_main : ms (fun t => dot d (act g t x) (act g t y) - D * (sg * dot m x y)) (D * (sqrt ((2 * Q + eta) / D) * r)).
    Proof using All.
      pose proof r_nonneg as R0. pose proof (Rabs_pos (kp - sg * sg)) as EN. assert (P : 0 <= (2 * Q + eta) / D) by (apply Rmult_le_pos; [lra|left; now apply Rinv_0_lt_compat]).
      split; [apply Rmult_le_pos; [lra|]; apply Rmult_le_pos; [apply sqrt_pos|exact R0]|].
      eapply Rle_trans; [apply (ideal_moment U HU n L u0 d m Hd pb pl ph Hpos Hinj g sg k4 kp Q eta G1 G2 G4 G31 G22 Q1 Q2 Q3 Q4)|]. apply Rmult_le_compat_l; [lra|].
      rewrite <- r_sq. replace (D * (sqrt ((2 * Q + eta) / D) * r) * (D * (sqrt ((2 * Q + eta) / D) * r))) with (D * D * (sqrt ((2 * Q + eta) / D) * sqrt ((2 * Q + eta) / D)) * (r * r)) by ring. rewrite sqrt_sqrt by exact P. right. field. lra.
    Qed.
    Lemma dot_r : Rabs (dot m x y) <= r.
    Proof.
      apply sqrt_unique_le; [apply Rabs_pos|apply r_nonneg|]. rewrite r_sq, <- Rabs_mult, Rabs_right by (apply Rle_ge, Rle_0_sqr). apply cauchy_schwarz.
    Qed.
    Lemma t_scale : ms (fun _ => D * ((sg - 1) * dot m x y)) (D * (Rabs (sg - 1) * r)).
    Proof using All. apply ms_const; [exact PN|]. rewrite !Rabs_mult, (Rabs_right D) by lra. apply Rmult_le_compat_l; [lra|]. apply Rmult_le_compat_l; [apply Rabs_pos|apply dot_r]. Qed.
    Lemma t_cross f f' a b w z : 0 <= a -> 0 <= b -> (forall h, average U (f h) = 0) -> (forall h, average U (fun w => f h w * f h w * (f h w * f h w)) <= a * a * (a * a)) ->
      (forall h, average U (f' h) = 0) -> (forall h, average U (fun w => f' h w * f' h w * (f' h w * f' h w)) <= b * b * (b * b)) ->
      dot m w w * dot m z z = r * r -> ms (fun t => dot d (act f t w) (act f' t z)) (D * (7 * (a * b) * r)).
    Proof using All.
      intros Ha Hb F1 F4 E1 E4 R. pose proof r_nonneg as R0. split; [apply Rmult_le_pos; [lra|]; apply Rmult_le_pos; [|exact R0]; apply Rmult_le_pos; [lra|]; now apply Rmult_le_pos|].
      eapply Rle_trans; [apply (cross U HU n L u0 d m Hd pb pl ph Hpos Hinj f f' a b w z Ha Hb F1 F4 E1 E4)|]. rewrite R. right. ring.
    Qed.
    Lemma t_linear w z : dot m w w * dot m z z = r * r -> ms (fun t => dot d (act g t w) (mean z)) (D * (mu * sqrt (sg * IZR m / D) * r)).
    Proof using All.
      intros R. pose proof r_nonneg as R0. pose proof mu_nonneg as M0. assert (P : 0 <= sg * IZR m / D) by (apply Rmult_le_pos; [apply Rmult_le_pos; lra|left; now apply Rinv_0_lt_compat]).
      split; [apply Rmult_le_pos; [lra|]; apply Rmult_le_pos; [|exact R0]; apply Rmult_le_pos; [exact M0|apply sqrt_pos]|].
      rewrite (ideal_linear U HU n L u0 d m pb pl ph Hpos Hinj g sg G1 G2). apply Rmult_le_compat_l; [lra|].
      replace (D * (mu * sqrt (sg * IZR m / D) * r) * (D * (mu * sqrt (sg * IZR m / D) * r))) with (D * D * (mu * mu) * (sqrt (sg * IZR m / D) * sqrt (sg * IZR m / D)) * (r * r)) by ring. rewrite sqrt_sqrt, <- R by exact P.
      pose proof (mean_sq z) as B. assert (P2 : 0 <= sg * dot m w w) by (apply Rmult_le_pos; [exact SG|apply dot_nonneg]). apply (Rmult_le_compat_l _ _ _ P2) in B.
      replace (D * D * (mu * mu) * (sg * IZR m / D) * (dot m w w * dot m z z)) with (sg * dot m w w * (D * (mu * mu * (IZR m * dot m z z)))) by (field; lra). lra.
    Qed.
    Lemma t_small w z : dot m w w * dot m z z = r * r -> ms (fun t => dot d (act gam t w) (mean z)) (D * (3 * (al * mu * sqrt (IZR m)) * r)).
    Proof using All.
      intros R. pose proof r_nonneg as R0. pose proof mu_nonneg as M0.
      split; [apply Rmult_le_pos; [lra|]; apply Rmult_le_pos; [|exact R0]; apply Rmult_le_pos; [lra|]; apply Rmult_le_pos; [now apply Rmult_le_pos|apply sqrt_pos]|].
      apply (Rle_trans _ (Rsum (map (fun t => dot d (mean z) (mean z) * dot d (act gam t w) (act gam t w)) ts))).
      - apply Rsum_le. intros t _. rewrite (Rmult_comm (dot d (mean z) (mean z))). apply cauchy_schwarz.
      - rewrite Rsum_scal. pose proof (norm_two U HU n L u0 d m Hd pb pl ph Hpos Hinj gam al gam_zero AL w) as B1. pose proof (mean_sq z) as B2.
        eapply Rle_trans; [apply Rmult_le_compat; [apply dot_nonneg|apply Rsum_nonneg; intros; apply dot_nonneg|exact B2|exact B1]|].
        replace (D * (3 * (al * mu * sqrt (IZR m)) * r) * (D * (3 * (al * mu * sqrt (IZR m)) * r))) with (9 * (D * D * (al * al) * (mu * mu)) * (sqrt (IZR m) * sqrt (IZR m)) * (r * r)) by ring. rewrite sqrt_sqrt, <- R by lra.
        assert (P : 0 <= N * (D * D * (al * al) * (mu * mu) * IZR m * (dot m w w * dot m z z))).
        { apply Rmult_le_pos; [lra|]. apply Rmult_le_pos; [|apply Rmult_le_pos; apply dot_nonneg]. apply Rmult_le_pos; [|lra]. apply Rmult_le_pos; [|now apply Rmult_le_pos]. apply Rmult_le_pos; [|now apply Rmult_le_pos]. apply Rmult_le_pos; lra. } lra.
    Qed.
    Lemma t_means : ms (fun _ => dot d (mean x) (mean y)) (D * (mu * mu * IZR m * r)).
    Proof using All.
      apply ms_const; [exact PN|]. pose proof r_nonneg as R0. pose proof mu_nonneg as M0.
      apply sqrt_unique_le; [apply Rabs_pos|apply Rmult_le_pos; [lra|]; apply Rmult_le_pos; [|exact R0]; apply Rmult_le_pos; [now apply Rmult_le_pos|lra]|].
      rewrite <- Rabs_mult, Rabs_right by (apply Rle_ge, Rle_0_sqr). eapply Rle_trans; [apply cauchy_schwarz|]. eapply Rle_trans; [apply Rmult_le_compat; [apply (dot_nonneg d (mean x))|apply (dot_nonneg d (mean y))|apply mean_sq|apply mean_sq]|].
      right. replace (D * (mu * mu * IZR m * r) * (D * (mu * mu * IZR m * r))) with (D * D * (mu * mu) * (mu * mu) * (IZR m * IZR m) * (r * r)) by ring. rewrite r_sq. ring.
    Qed.
    Lemma near_moment : average ts (fun t => (/ D * dot d (act v t x) (act v t y) - dot m x y) ^ 2) <= slack ^ 2 * (dot m x x * dot m y y).
    Proof using All.
      pose proof r_sq as RS. assert (R2 : dot m y y * dot m x x = r * r) by (rewrite RS; ring). symmetry in RS.
      assert (BE' : forall h, average U (fun w => g h w * g h w * (g h w * g h w)) <= be * be * (be * be)) by (intros h; rewrite G4; exact BE).
      pose proof (ms_plus ts PN _ _ _ _ t_main t_scale) as M1.
      pose proof (ms_plus ts PN _ _ _ _ M1 (t_cross g gam be al x y Hbe Hal G1 BE' gam_zero AL RS)) as M2.
      pose proof (ms_plus ts PN _ _ _ _ M2 (t_cross g gam be al y x Hbe Hal G1 BE' gam_zero AL R2)) as M3.
      pose proof (ms_plus ts PN _ _ _ _ M3 (t_cross gam gam al al x y Hal Hal gam_zero AL gam_zero AL RS)) as M4.
      pose proof (ms_plus ts PN _ _ _ _ M4 (t_linear x y RS)) as M5. pose proof (ms_plus ts PN _ _ _ _ M5 (t_linear y x R2)) as M6.
      pose proof (ms_plus ts PN _ _ _ _ M6 (t_small x y RS)) as M7. pose proof (ms_plus ts PN _ _ _ _ M7 (t_small y x R2)) as M8.
      pose proof (ms_plus ts PN _ _ _ _ M8 t_means) as M9. clear M1 M2 M3 M4 M5 M6 M7 M8.
      assert (Pi : 0 <= / D) by (left; now apply Rinv_0_lt_compat).
      apply (ms_scal ts PN (/ D) _ _ Pi) in M9. destruct M9 as [_ M]. cbv beta in M.
      unfold average. apply (Rmult_le_reg_r N); [exact PN|]. unfold Rdiv at 1. rewrite Rmult_assoc, Rinv_l, Rmult_1_r by lra.
      eapply Rle_trans; [|eapply Rle_trans; [exact M|]].
      - right. apply Rsum_ext. intros t _. cbn [pow].
        assert (E : dot d (act v t x) (act v t y) = dot d (act g t x) (act g t y) + dot d (act g t x) (act gam t y) + dot d (act g t y) (act gam t x) + dot d (act gam t x) (act gam t y)
          + dot d (act g t x) (mean y) + dot d (act g t y) (mean x) + dot d (act gam t x) (mean y) + dot d (act gam t y) (mean x) + dot d (mean x) (mean y)).
        { unfold dot. rewrite <- !Rsum_plus. apply Rsum_ext. intros q _. rewrite !act_three. ring. }
        rewrite E. field. lra.
      - right. rewrite RS. unfold slack. generalize (sqrt ((2 * Q + eta) / D)) (sqrt (sg * IZR m / D)) (sqrt (IZR m)) (Rabs (sg - 1)) r. intros q0 q1 q2 q3 q4. field. lra.
    Qed.
  End Vectors.
End Near.
