(** Fused multiply-add and any order of summation. *)
From Coq Require Import ZArith Reals Lra Psatz Permutation.
From Flocq Require Import Core BinarySingleNaN Plus_error Relative.
From Verif Require Import Base Spec SparseSkopModel SparseSpec SpFmtModel SpFmtSpec SpmmModel SpmmSpec RoundModel RoundSpec RoundSpec2 RoundSpec3 RoundProofs RoundProofs6.
Local Open Scope R_scope.

Section Fma.
  Context {prec emax : Z} {pp : Prec_gt_0 prec} {pe : Prec_lt_emax prec emax}.
  Local Notation bf := (binary_float prec emax).
  Let fexp := SpecFloat.fexp prec emax.
  Let emin := SpecFloat.emin prec emax.
  Local Notation rnd := (round radix2 fexp ZnearestE).
  Let u := bpow radix2 (- prec).
  Let q := 1 + u.
  Let eta := bpow radix2 (emin - 1).

  Lemma rnd_err z : Rabs (rnd z - z) <= u * Rabs z + eta.
  Proof.
    destruct (Rle_lt_dec (bpow radix2 (emin + prec - 1)) (Rabs z)) as [H|H].
    - destruct (relative_error_N_FLT_ex radix2 emin prec pp (fun t => negb (Z.even t)) z H) as (eps & He & Er). change (FLT_exp emin prec) with fexp in Er.
      rewrite Er. rewrite (u_half (prec := prec)) in He. fold u in He. replace (z * (1 + eps) - z) with (z * eps) by ring. rewrite Rabs_mult. pose proof (eta_pos (prec := prec) (emax := emax)) as Ep. fold emin in Ep. fold eta in Ep.
      assert (Rabs z * Rabs eps <= Rabs z * u) by (apply Rmult_le_compat_l; [apply Rabs_pos|exact He]). lra.
    - assert (U : ulp radix2 fexp z = bpow radix2 emin). { apply (ulp_FLT_small radix2 emin prec). eapply Rlt_trans; [exact H|]. apply bpow_lt. lia. }
      pose proof (error_le_half_ulp radix2 fexp (fun t => negb (Z.even t)) z) as Er. rewrite U in Er.
      assert (E2 : eta = / 2 * bpow radix2 emin). { unfold eta, Zminus. rewrite bpow_plus. change (bpow radix2 (- (1))) with (/ 2). apply Rmult_comm. }
      rewrite E2. assert (0 <= u * Rabs z) by (apply Rmult_le_pos; [apply bpow_ge_0|apply Rabs_pos]). lra.
  Qed.

  Lemma fma_args (x y z : bf) : is_finite (Bfma mode_NE x y z) = true -> is_finite x = true /\ is_finite y = true /\ is_finite z = true.
  Proof. intros F. destruct x as [sx|sx| |sx mx ex Hx], y as [sy|sy| |sy my ey Hy], z as [sz|sz| |sz mz ez Hz]; cbn in F |- *; try discriminate; auto; destruct (Bool.eqb _ _); discriminate. Qed.
  Lemma fma_fin (x y z : bf) : is_finite (Bfma mode_NE x y z) = true -> B2R (Bfma mode_NE x y z) = rnd (B2R x * B2R y + B2R z).
  Proof.
    intros F. destruct (fma_args x y z F) as (Fx & Fy & Fz). pose proof (Bfma_correct prec emax pp pe mode_NE x y z Fx Fy Fz) as C. cbn [round_mode] in C. fold fexp in C. cbv zeta in C.
    destruct (Rlt_bool _ _); [apply C|]. exfalso. destruct (Bfma mode_NE x y z); cbn in C, F; discriminate.
  Qed.
  Lemma fma_ok (x y z : bf) : is_finite x = true -> is_finite y = true -> is_finite z = true -> Rabs (B2R x * B2R y + B2R z) <= bpow radix2 (emax - 1) -> is_finite (Bfma mode_NE x y z) = true.
  Proof.
    intros Fx Fy Fz H. pose proof (Bfma_correct prec emax pp pe mode_NE x y z Fx Fy Fz) as C. cbn [round_mode] in C. cbv zeta in C. rewrite fmax in C by exact H. apply C.
  Qed.

  (** The exact product of two tracked values. *)
  Lemma prod_bound (x y : bf) t s d1 d2 : (1 <= d1)%Z -> (1 <= d2)%Z -> (d1 + d2 <= 3)%Z -> (1 <= un t)%Z -> (1 <= un s)%Z -> ugood x t d1 -> ugood y s d2 ->
    exists W E, 0 <= W /\ W + eta <= eta * uw (umul t s) /\ (E + 1 <= ex (un t * un s) (d1 + d2))%nat /\
      Rabs (B2R x * B2R y - uv t * uv s) <= (q ^ E - 1) * (u0 t * u0 s) + q ^ E * W.
  Proof.
    intros P1 P2 Hd N1 N2 (V1 & A1 & B1 & C1 & D11 & D12 & D13 & R1) (V2 & A2 & B2 & C2 & D21 & D22 & D23 & R2).
    fold u q in R1, R2. fold emin in R1, R2. fold eta in R1, R2.
    set (c1 := q ^ ex (un t) d1) in *. set (c2 := q ^ ex (un s) d2) in *.
    pose proof (q_ge1 (prec := prec) (emax := emax) (pp := pp) (ex (un t) d1)) as Q1. pose proof (q_ge1 (prec := prec) (emax := emax) (pp := pp) (ex (un s) d2)) as Q2. fold u q in Q1, Q2. fold c1 in Q1. fold c2 in Q2.
    pose proof (eta_pos (prec := prec) (emax := emax)) as He. fold emin in He. fold eta in He.
    assert (T0 : 0 <= u0 t) by (pose proof (Rabs_pos (uv t)); lra). assert (S0 : 0 <= u0 s) by (pose proof (Rabs_pos (uv s)); lra).
    assert (WW : uw t = 0 \/ uw s = 0). { unfold uw. assert (d1 = 1 \/ d2 = 1)%Z as [X|X] by lia; [left; destruct (D11 X) as (_ & -> & ->)|right; destruct (D21 X) as (_ & -> & ->)]; ring. }
    assert (Wt : 0 <= uw t) by (unfold uw; lra). assert (Ws : 0 <= uw s) by (unfold uw; lra).
    assert (one : 1 <= u1 t * u1 s + u1 t * u2 s + u2 t * u1 s).
    { assert (0 <= u1 t * u1 s) by now apply Rmult_le_pos. assert (0 <= u1 t * u2 s) by now apply Rmult_le_pos. assert (0 <= u2 t * u1 s) by now apply Rmult_le_pos.
      assert (d1 = 1 /\ d2 = 1 \/ d1 = 1 /\ d2 = 2 \/ d1 = 2 /\ d2 = 1)%Z as [[X Y]|[[X Y]|[X Y]]] by lia;
      [destruct (D11 X) as [M1 _], (D21 Y) as [M2 _]|destruct (D11 X) as [M1 _], (D22 Y) as [M2 _]|destruct (D12 X) as [M1 _], (D21 Y) as [M2 _]]; pose proof (mul_ge1 _ _ M1 M2); lra. }
    exists (eta * (u0 t * uw s + uw t * u0 s)), (ex (un t) d1 + ex (un s) d2)%nat.
    assert (W0 : 0 <= u0 t * uw s + uw t * u0 s) by (apply Rplus_le_le_0_compat; now apply Rmult_le_pos).
    split; [apply Rmult_le_pos; lra|]. split.
    { unfold uw. cbn [umul u2 u3]. assert (eta * 1 <= eta * (u1 t * u1 s + u1 t * u2 s + u2 t * u1 s)) by (apply Rmult_le_compat_l; lra). lra. }
    split; [unfold ex; clear - P1 P2 N1 N2; nia|]. rewrite pow_add. fold c1 c2.
    replace (B2R x * B2R y - uv t * uv s) with ((B2R x - uv t) * uv s + B2R x * (B2R y - uv s)) by ring. eapply Rle_trans; [apply Rabs_triang|]. rewrite !Rabs_mult.
    assert (EW : 0 <= eta * uw t) by (apply Rmult_le_pos; lra).
    pose proof (uabs (B2R x) (uv t) (u0 t) (eta * uw t) c1 EW V1 R1) as Ax.
    assert (Rabs (B2R x - uv t) * Rabs (uv s) <= ((c1 - 1) * u0 t + c1 * (eta * uw t)) * u0 s) by (apply Rmult_le_compat; auto using Rabs_pos).
    assert (Rabs (B2R x) * Rabs (B2R y - uv s) <= (c1 * (u0 t + eta * uw t)) * ((c2 - 1) * u0 s + c2 * (eta * uw s))) by (apply Rmult_le_compat; auto using Rabs_pos).
    assert (c1 * c2 * (eta * uw t) * (eta * uw s) = 0) by (destruct WW as [-> | ->]; ring). lra.
  Qed.

  Lemma ugood_shape (x : bf) t d : ugood x t d -> ushape t d.
  Proof. intros (V & A & B & C & D1 & D2 & D3 & _). unfold ushape. auto 10. Qed.

  Lemma good_of_shape (x : bf) t d : ushape t d -> Rabs (B2R x - uv t) <= (q ^ ex (un t) d - 1) * u0 t + q ^ ex (un t) d * (eta * uw t) -> ugood x t d.
  Proof. intros (V & A & B & C & D1 & D2 & D3) H. unfold ugood. fold emin eta u q. auto 10. Qed.
  Lemma fma_zero (x y z : bf) : is_finite (Bfma mode_NE x y z) = true -> B2R x * B2R y = 0 -> B2R (Bfma mode_NE x y z) = B2R z.
  Proof. intros F H. rewrite (fma_fin _ _ _ F), H, Rplus_0_l. apply rnd_B2R. Qed.

  Lemma Uf_fma (x y z : bf) t s r : Uf x t -> Uf y s -> Uf z r -> Uf (Bfma mode_NE x y z) (uadd (umul t s) r).
  Proof.
    intros H1 H2 H3 F. destruct (fma_args x y z F) as (Fx & Fy & Fz). specialize (H1 Fx). specialize (H2 Fy). specialize (H3 Fz).
    assert (Z0 : forall w, w = uzero -> B2R x * B2R y = 0 -> (uadd w r = uzero /\ B2R (Bfma mode_NE x y z) = 0) \/
      exists d, (1 <= d)%Z /\ (1 <= un (uadd w r))%Z /\ ud (uadd w r) = Some (d, true) /\ ((d <= 3)%Z -> ugood (Bfma mode_NE x y z) (uadd w r) d)).
    { intros w -> Z. pose proof (sr_add_0_l _ urops_semiring r : uadd uzero r = r) as ->. pose proof (fma_zero x y z F Z) as V.
      destruct H3 as [(-> & Zz)|(d & P & N & E & G)]; [left; split; [reflexivity|now rewrite V]|right]. exists d. do 3 (split; [assumption|]). intros Hd. specialize (G Hd). unfold ugood in *. now rewrite V. }
    destruct H1 as [(-> & Zx)|(d1 & P1 & N1 & E1 & G1)]. { apply Z0; [exact (sr_mul_0_l _ urops_semiring s)|]. rewrite Zx. ring. }
    destruct H2 as [(-> & Zy)|(d2 & P2 & N2 & E2 & G2)].
    { apply Z0; [pose proof (sr_mul_comm _ urops_semiring t uzero : umul t uzero = umul uzero t) as ->; exact (sr_mul_0_l _ urops_semiring t)|]. rewrite Zy. ring. }
    clear Z0. right. pose proof (fma_fin x y z F) as Er. pose proof (rnd_err (B2R x * B2R y + B2R z)) as Er2. rewrite <- Er in Er2. clear Er.
    pose proof (eta_pos (prec := prec) (emax := emax)) as He. fold emin in He. fold eta in He.
    assert (Nm : (1 <= un t * un s)%Z) by (clear - N1 N2; nia).
    destruct H3 as [(-> & Zz)|(d3 & P3 & N3 & E3 & G3)].
    { pose proof (eq_trans (sr_add_comm _ urops_semiring (umul t s) uzero) (sr_add_0_l _ urops_semiring (umul t s)) : uadd (umul t s) uzero = umul t s) as ->.
      exists (d1 + d2)%Z. split; [lia|]. split; [exact Nm|]. split; [cbn [umul ud]; now rewrite E1, E2|]. intros Hd. specialize (G1 ltac:(lia)). specialize (G2 ltac:(lia)).
      destruct (prod_bound x y t s d1 d2 P1 P2 Hd N1 N2 G1 G2) as (W & E & W0 & W1 & HE & Hp).
      destruct (shape_mul t s d1 d2 P1 P2 Hd (ugood_shape _ _ _ G1) (ugood_shape _ _ _ G2)) as [S3 _]. apply good_of_shape; [exact S3|].
      rewrite Zz, Rplus_0_r in Er2. cbn [umul uv u0 un]. set (n := q ^ ex (un t * un s) (d1 + d2)).
      pose proof (q_ge1 (prec := prec) (emax := emax) (pp := pp) E) as Q1. fold u q in Q1.
      assert (Q : q ^ E * (1 + u) <= n). { change (1 + u) with q. rewrite Rmult_comm. rewrite tech_pow_Rmult. apply (@q_mono prec emax pp). clear - HE. lia. }
      pose proof (q_ge1 (prec := prec) (emax := emax) (pp := pp) (ex (un t * un s) (d1 + d2))) as Q3. fold u q in Q3. fold n in Q3.
      eapply Rle_trans; [apply (step (prec := prec) (B2R x * B2R y) _ (uv t * uv s) (u0 t * u0 s) W eta (q ^ E) n); auto; try lra; apply S3|].
      apply Rplus_le_compat_l. apply Rmult_le_compat_l; [lra|exact W1]. }
    exists (Z.max (d1 + d2) d3). split; [lia|]. split; [cbn [uadd umul un]; lia|]. split; [cbn [uadd umul ud]; now rewrite E1, E2, E3|]. intros Hd. specialize (G1 ltac:(lia)). specialize (G2 ltac:(lia)). specialize (G3 ltac:(lia)).
    destruct (prod_bound x y t s d1 d2 P1 P2 ltac:(lia) N1 N2 G1 G2) as (W & E & W0 & W1 & HE & Hp).
    destruct (shape_mul t s d1 d2 P1 P2 ltac:(lia) (ugood_shape _ _ _ G1) (ugood_shape _ _ _ G2)) as [S3 _].
    destruct (shape_add (umul t s) r (d1 + d2) d3 ltac:(lia) P3 ltac:(lia) ltac:(lia) S3 (ugood_shape _ _ _ G3)) as [S4 _]. apply good_of_shape; [exact S4|].
    destruct G3 as (V3 & A3 & B3 & C3 & _ & _ & _ & R3). fold emin in R3. fold eta in R3. fold u q in R3.
    set (c := q ^ Nat.max E (ex (un r) d3)).
    assert (Q1 : q ^ E <= c) by (apply (@q_mono prec emax pp); lia). assert (Q2 : q ^ ex (un r) d3 <= c) by (apply (@q_mono prec emax pp); lia).
    pose proof (q_ge1 (prec := prec) (emax := emax) (pp := pp) E) as Q3. fold u q in Q3. set (n := q ^ ex (un (uadd (umul t s) r)) (Z.max (d1 + d2) d3)).
    assert (Q : c * (1 + u) <= n).
    { change (1 + u) with q. rewrite Rmult_comm. unfold c. rewrite tech_pow_Rmult. apply (@q_mono prec emax pp). cbn [uadd umul un]. clear - HE N3 P3 Nm P1 P2. unfold ex in *. nia. }
    assert (W3 : 0 <= eta * uw r) by (apply Rmult_le_pos; unfold uw; lra).
    assert (X0 : 0 <= u0 t * u0 s) by (destruct S3 as [V _]; cbn [umul uv u0] in V; pose proof (Rabs_pos (uv t * uv s)); lra). assert (X1 : 0 <= u0 r) by (pose proof (Rabs_pos (uv r)); lra).
    assert (X : Rabs (B2R x * B2R y + B2R z - (uv t * uv s + uv r)) <= (c - 1) * (u0 t * u0 s + u0 r) + c * (W + eta * uw r)).
    { replace (B2R x * B2R y + B2R z - (uv t * uv s + uv r)) with ((B2R x * B2R y - uv t * uv s) + (B2R z - uv r)) by ring. eapply Rle_trans; [apply Rabs_triang|].
      assert ((q ^ E - 1) * (u0 t * u0 s) <= (c - 1) * (u0 t * u0 s)) by (apply Rmult_le_compat_r; lra).
      assert ((q ^ ex (un r) d3 - 1) * u0 r <= (c - 1) * u0 r) by (apply Rmult_le_compat_r; lra).
      assert (q ^ E * W <= c * W) by (apply Rmult_le_compat_r; lra).
      assert (q ^ ex (un r) d3 * (eta * uw r) <= c * (eta * uw r)) by (apply Rmult_le_compat_r; lra). lra. }
    assert (VV : Rabs (uv t * uv s + uv r) <= u0 t * u0 s + u0 r) by exact (proj1 S4).
    assert (P : 0 < u) by apply bpow_gt_0. assert (1 <= n) by (eapply Rle_trans; [|exact Q]; apply mul_ge1; lra).
    change (uv (uadd (umul t s) r)) with (uv t * uv s + uv r). change (u0 (uadd (umul t s) r)) with (u0 t * u0 s + u0 r).
    eapply Rle_trans; [apply (step (prec := prec) (B2R x * B2R y + B2R z) _ (uv t * uv s + uv r) (u0 t * u0 s + u0 r) (W + eta * uw r) eta c n); auto; lra|].
    apply Rplus_le_compat_l. apply Rmult_le_compat_l; [lra|].
    replace (eta * uw (uadd (umul t s) r)) with (eta * uw (umul t s) + eta * uw r) by (unfold uw; cbn [uadd umul u2 u3]; ring). lra.
  Qed.

  Lemma Lh_fma (x y z : bf) t s r : Lh x t -> Lh y s -> Rh z r -> Lh (Bfma mode_NE x y z) (uadd (umul t s) r).
  Proof.
    intros H1 H2 HR. split; [apply Uf_fma; [apply H1|apply H2|now apply Rh_Uf]|]. destruct H1 as (U1 & d1 & f1 & P1 & N1 & E1 & G1), H2 as (U2 & d2 & f2 & P2 & N2 & E2 & G2).
    assert (Nm : (1 <= un t * un s)%Z) by (clear - N1 N2; nia).
    (** the factors are finite and bounded *)
    assert (K : forall e M, (d1 + d2 <= 3)%Z -> f1 = true -> f2 = true -> (ex (un t * un s) (d1 + d2) <= e)%nat -> um (umul t s) <= M -> q ^ e * M <= bpow radix2 (emax - 1) ->
      is_finite x = true /\ is_finite y = true /\ Rabs (B2R x * B2R y) <= q ^ e * um (umul t s)).
    { intros e M Hd -> -> He HM Hb. destruct G1 as [S1 G1]; [lia|]. destruct G2 as [S2 G2]; [lia|]. fold u q in G1, G2. destruct (shape_mul t s d1 d2 P1 P2 Hd S1 S2) as [S3 M3]. rewrite M3 in *.
      pose proof (um_ge1 t d1 ltac:(lia) S1) as M1. pose proof (um_ge1 s d2 ltac:(lia) S2) as M2.
      set (c1 := q ^ ex (un t) d1) in *. set (c2 := q ^ ex (un s) d2) in *.
      pose proof (q_ge1 (prec := prec) (emax := emax) (pp := pp) (ex (un t) d1)) as Q1. pose proof (q_ge1 (prec := prec) (emax := emax) (pp := pp) (ex (un s) d2)) as Q2. fold u q in Q1, Q2. fold c1 in Q1. fold c2 in Q2.
      assert (Q : c1 * c2 <= q ^ e). { unfold c1, c2. rewrite <- pow_add. apply (@q_mono prec emax pp). eapply Nat.le_trans; [|exact He]. unfold ex. clear - P1 P2 N1 N2. nia. }
      assert (MM : 1 <= um t * um s) by now apply mul_ge1. assert (Qe : 1 <= q ^ e) by (eapply Rle_trans; [|exact Q]; now apply mul_ge1).
      assert (T0 : c1 * um t * (c2 * um s) <= q ^ e * (um t * um s)). { replace (c1 * um t * (c2 * um s)) with (c1 * c2 * (um t * um s)) by ring. apply Rmult_le_compat_r; lra. }
      assert (T : c1 * um t * (c2 * um s) <= bpow radix2 (emax - 1)). { eapply Rle_trans; [exact T0|]. eapply Rle_trans; [|exact Hb]. apply Rmult_le_compat_l; lra. }
      assert (K1 : 1 <= c1 * um t) by (apply mul_ge1; lra). assert (K2 : 1 <= c2 * um s) by (apply mul_ge1; lra).
      assert (L1 : c1 * um t <= c1 * um t * (c2 * um s)) by (rewrite <- (Rmult_1_r (c1 * um t)) at 1; apply Rmult_le_compat_l; lra).
      assert (L2 : c2 * um s <= c1 * um t * (c2 * um s)) by (rewrite <- (Rmult_1_l (c2 * um s)) at 1; apply Rmult_le_compat_r; lra).
      assert (Fx : is_finite x = true) by (apply G1; [reflexivity|lra]). assert (Fy : is_finite y = true) by (apply G2; [reflexivity|lra]). do 2 (split; [assumption|]).
      pose proof (abs_um x t d1 Fx U1 E1 ltac:(lia)) as Ax. pose proof (abs_um y s d2 Fy U2 E2 ltac:(lia)) as Ay. fold u q in Ax, Ay. fold c1 in Ax. fold c2 in Ay.
      eapply Rle_trans; [|exact T0]. rewrite Rabs_mult. apply Rmult_le_compat; auto using Rabs_pos. }
    destruct HR as [(-> & Fz & Zz)|(U3 & d3 & f3 & P3 & N3 & E3 & G3)].
    { pose proof (eq_trans (sr_add_comm _ urops_semiring (umul t s) uzero) (sr_add_0_l _ urops_semiring (umul t s)) : uadd (umul t s) uzero = umul t s) as ->.
      exists (d1 + d2)%Z, (f1 && f2). split; [lia|]. split; [exact Nm|]. split; [cbn [umul ud]; now rewrite E1, E2|]. intros Hd. split; [apply shape_mul; auto; [apply G1|apply G2]; lia|].
      intros Hf Hb. apply andb_true_iff in Hf as [F1 F2]. fold u q in Hb. cbn [umul un] in Hb. destruct (K (ex (un t * un s) (d1 + d2)) (um (umul t s)) Hd F1 F2 (le_n _) (Rle_refl _) Hb) as (Fx & Fy & Ab).
      apply fma_ok; auto. rewrite Zz, Rplus_0_r. lra. }
    exists (Z.max (d1 + d2) d3), (f1 && f2 && f3). split; [lia|]. split; [cbn [uadd umul un]; lia|]. split; [cbn [uadd umul ud]; now rewrite E1, E2, E3|]. intros Hd.
    destruct (shape_mul t s d1 d2 P1 P2 ltac:(lia) (proj1 (G1 ltac:(lia))) (proj1 (G2 ltac:(lia)))) as [S3 M3]. destruct G3 as [S4 G3]; [lia|].
    destruct (shape_add (umul t s) r (d1 + d2) d3 ltac:(lia) P3 ltac:(lia) ltac:(lia) S3 S4) as [S5 M5]. split; [exact S5|]. intros Hf Hb. fold u q in Hb, G3. apply andb_true_iff in Hf as [Hf ->]. apply andb_true_iff in Hf as [F1 F2].
    assert (D12 : (1 <= d1 + d2 <= 3)%Z) by lia. pose proof (um_ge1 _ _ D12 S3) as M1. pose proof (um_ge1 r d3 ltac:(lia) S4) as M2. set (e := ex (un (uadd (umul t s) r)) (Z.max (d1 + d2) d3)) in *.
    pose proof (q_ge1 (prec := prec) (emax := emax) (pp := pp) e) as Qe. fold u q in Qe.
    assert (He : (ex (un t * un s) (d1 + d2) <= e)%nat) by (unfold e, ex; cbn [uadd umul un]; lia).
    assert (Q3 : q ^ ex (un r) d3 <= q ^ e) by (apply (@q_mono prec emax pp); unfold e, ex; cbn [uadd umul un]; lia).
    rewrite M5 in Hb. destruct (K e (um (umul t s) + um r) ltac:(lia) F1 F2 He ltac:(lra) Hb) as (Fx & Fy & Ab).
    assert (T3 : q ^ ex (un r) d3 * um r <= q ^ e * um r) by (apply Rmult_le_compat_r; lra).
    assert (0 <= q ^ e * um (umul t s)) by (apply Rmult_le_pos; lra).
    assert (Fz : is_finite z = true) by (apply G3; [reflexivity|lra]). pose proof (abs_um z r d3 Fz U3 E3 ltac:(lia)) as Az. fold u q in Az.
    apply fma_ok; auto. eapply Rle_trans; [apply Rabs_triang|]. lra.
  Qed.
End Fma.
