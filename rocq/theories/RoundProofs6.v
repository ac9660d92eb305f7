(** A semiring that tracks exact value, magnitude, underflow weight, number of terms, degree and
    finiteness, and its relation to floating-point arithmetic without range assumptions. *)
From Coq Require Import ZArith Reals Lra Psatz.
From Flocq Require Import Core BinarySingleNaN Plus_error Relative.
From Verif Require Import Base Interleave Spec SparseSkopModel SparseSpec SpFmtModel SpFmtSpec PropsSpFmt SpmmModel SpmmSpec RoundModel RoundSpec RoundSpec2 RoundProofs RoundProofs2 RoundProofs3.

(** [u0] to [u3] are the coefficients of a polynomial: a value x counts as |x| + z, products and
    sums as usual, z^4 dropped.  The coefficients of z^2 and z^3 bound the number of underflow
    errors, each weighted by the factors it is multiplied with later. *)
Record ur := { uv : R; u0 : R; u1 : R; u2 : R; u3 : R; un : Z; ud : option (Z * bool) }.
Definition umax (a b : option (Z * bool)) : option (Z * bool) :=
  match a, b with Some (x, f), Some (y, g) => Some (Z.max x y, f && g) | Some x, None => Some x | None, b => b end.
Definition uplus (a b : option (Z * bool)) : option (Z * bool) :=
  match a, b with Some (x, f), Some (y, g) => Some (x + y, f && g) | _, _ => None end.
Definition ud_eqb (a b : option (Z * bool)) : bool := match a, b with Some (x, f), Some (y, g) => (x =? y) && Bool.eqb f g | None, None => true | _, _ => false end.
Local Open Scope R_scope.
Definition uadd (x y : ur) : ur :=
  {| uv := uv x + uv y; u0 := u0 x + u0 y; u1 := u1 x + u1 y; u2 := u2 x + u2 y; u3 := u3 x + u3 y; un := un x + un y; ud := umax (ud x) (ud y) |}.
Definition umul (x y : ur) : ur :=
  {| uv := uv x * uv y; u0 := u0 x * u0 y; u1 := u0 x * u1 y + u1 x * u0 y; u2 := u0 x * u2 y + u1 x * u1 y + u2 x * u0 y;
     u3 := u0 x * u3 y + u1 x * u2 y + u2 x * u1 y + u3 x * u0 y; un := un x * un y; ud := uplus (ud x) (ud y) |}.
Definition uzero : ur := {| uv := 0; u0 := 0; u1 := 0; u2 := 0; u3 := 0; un := 0; ud := None |}.
Definition uone : ur := {| uv := 1; u0 := 1; u1 := 0; u2 := 0; u3 := 0; un := 1; ud := Some (0%Z, true) |}.
Definition Reqb (x y : R) : bool := if Req_EM_T x y then true else false.
Definition ueqb (x y : ur) : bool :=
  Reqb (uv x) (uv y) && Reqb (u0 x) (u0 y) && Reqb (u1 x) (u1 y) && Reqb (u2 x) (u2 y) && Reqb (u3 x) (u3 y) && (un x =? un y)%Z && ud_eqb (ud x) (ud y).
Definition urops : ops ur := {| o_add := uadd; o_mul := umul; o_zero := uzero; o_one := uone; o_eqb := ueqb |}.

Lemma ud_eqb_spec a b : ud_eqb a b = true <-> a = b.
Proof.
  destruct a as [[a f]|], b as [[b g]|]; cbn; split; intros H; try discriminate; auto.
  - apply andb_true_iff in H as [H1 H2]. apply Z.eqb_eq in H1. apply Bool.eqb_prop in H2. now subst.
  - injection H as -> ->. now rewrite Z.eqb_refl, Bool.eqb_reflx.
Qed.
Lemma Reqb_spec x y : Reqb x y = true <-> x = y.
Proof. unfold Reqb. destruct (Req_EM_T x y); split; congruence. Qed.
Lemma ur_eq x y : uv x = uv y -> u0 x = u0 y -> u1 x = u1 y -> u2 x = u2 y -> u3 x = u3 y -> un x = un y -> ud x = ud y -> x = y.
Proof. destruct x, y; cbn; intros; now subst. Qed.
Lemma urops_semiring : semiring urops.
Proof.
  Ltac go := apply ur_eq; cbn [uadd umul uzero uone uv u0 u1 u2 u3 un ud]; [ring|ring|ring|ring|ring|ring|].
  Ltac dd := repeat match goal with |- context [ud ?x] => destruct (ud x) as [[? ?]|] end; cbn [umax uplus]; try reflexivity; try (f_equal; f_equal; [lia|]);
    repeat match goal with b : bool |- _ => destruct b end; reflexivity.
  split; cbn [urops o_add o_mul o_zero o_one o_eqb].
  - intros x y z. go. dd.
  - intros x y. go. dd.
  - intros x. go. dd.
  - intros x y z. go. dd.
  - intros x y. go. dd.
  - intros x. go. dd.
  - intros x. go. reflexivity.
  - intros x y z. go. dd.
  - intros x y. unfold ueqb. rewrite !andb_true_iff, !Reqb_spec, Z.eqb_eq, ud_eqb_spec. split; [|intros ->; tauto]. intros ((((((? & ?) & ?) & ?) & ?) & ?) & ?). now apply ur_eq.
Qed.
Lemma urops_01 : o_eqb urops (o_zero urops) (o_one urops) = false.
Proof. cbn [urops o_eqb o_zero o_one]. unfold ueqb. cbn [uzero uone un]. change (0 =? 1)%Z with false. now rewrite andb_false_r. Qed.

Section Rnd.
  Context {prec emax : Z} {pp : Prec_gt_0 prec} {pe : Prec_lt_emax prec emax}.
  Local Notation bf := (binary_float prec emax).
  Let fexp := SpecFloat.fexp prec emax.
  Let emin := SpecFloat.emin prec emax.
  Local Notation rnd := (round radix2 fexp ZnearestE).
  Let u := bpow radix2 (- prec).
  Let q := 1 + u.
  (** Half the smallest positive number. *)
  Let eta := bpow radix2 (emin - 1).

  Lemma u_half : / 2 * bpow radix2 (- prec + 1) = u.
  Proof. unfold u. rewrite bpow_plus. change (bpow radix2 1) with 2. lra. Qed.
  Lemma eta_pos : 0 < eta.
  Proof. apply bpow_gt_0. Qed.

  Lemma mul_fin (x y : bf) : is_finite (Bmult mode_NE x y) = true -> is_finite x = true /\ is_finite y = true /\
    Rabs (B2R (Bmult mode_NE x y) - B2R x * B2R y) <= u * Rabs (B2R x * B2R y) + eta.
  Proof.
    intros F. pose proof (Bmult_correct prec emax pp pe mode_NE x y) as C. cbn [round_mode] in C. fold fexp in C. destruct (Rlt_bool _ _).
    - destruct C as (C1 & C2 & _). rewrite F in C2. symmetry in C2. apply andb_true_iff in C2 as [Fx Fy]. split; [exact Fx|]. split; [exact Fy|]. rewrite C1. set (z := B2R x * B2R y).
      destruct (Rle_lt_dec (bpow radix2 (emin + prec - 1)) (Rabs z)) as [H|H].
      + destruct (relative_error_N_FLT_ex radix2 emin prec pp (fun t => negb (Z.even t)) z H) as (eps & He & Er). change (FLT_exp emin prec) with fexp in Er.
        rewrite Er. rewrite u_half in He. replace (z * (1 + eps) - z) with (z * eps) by ring. rewrite Rabs_mult. pose proof eta_pos. assert (Rabs z * Rabs eps <= Rabs z * u) by (apply Rmult_le_compat_l; [apply Rabs_pos|exact He]). lra.
      + assert (U : ulp radix2 fexp z = bpow radix2 emin). { apply (ulp_FLT_small radix2 emin prec). eapply Rlt_trans; [exact H|]. apply bpow_lt. lia. }
        pose proof (error_le_half_ulp radix2 fexp (fun t => negb (Z.even t)) z) as Er. rewrite U in Er.
        assert (E2 : eta = / 2 * bpow radix2 emin). { unfold eta, Zminus. rewrite bpow_plus. change (bpow radix2 (- (1))) with (/ 2). apply Rmult_comm. }
        rewrite E2. assert (0 <= u * Rabs z) by (apply Rmult_le_pos; [apply bpow_ge_0|apply Rabs_pos]). lra.
    - exfalso. destruct (Bmult mode_NE x y); cbn in C, F; discriminate.
  Qed.
  Lemma add_fin (x y : bf) : is_finite (Bplus mode_NE x y) = true -> is_finite x = true /\ is_finite y = true /\
    Rabs (B2R (Bplus mode_NE x y) - (B2R x + B2R y)) <= u * Rabs (B2R x + B2R y).
  Proof.
    intros F. assert (Fxy : is_finite x = true /\ is_finite y = true). { destruct x as [[]|[]| |[]], y as [[]|[]| |[]]; cbn in F |- *; auto; discriminate. }
    destruct Fxy as [Fx Fy]. split; [exact Fx|]. split; [exact Fy|]. pose proof (Bplus_correct prec emax pp pe mode_NE x y Fx Fy) as C. cbn [round_mode] in C. fold fexp in C. destruct (Rlt_bool _ _).
    - destruct C as (C1 & _). rewrite C1. destruct (FLT_plus_error_N_ex radix2 emin prec (fun t => negb (Z.even t)) (B2R x) (B2R y)) as (eps & He & Er); [apply generic_format_B2R..|].
      change (FLT_exp emin prec) with fexp in Er. rewrite Er. set (z := B2R x + B2R y). replace (z * (1 + eps) - z) with (eps * z) by ring. rewrite Rabs_mult. apply Rmult_le_compat_r; [apply Rabs_pos|].
      eapply Rle_trans; [exact He|]. unfold u_ro. rewrite u_half. pose proof (bpow_gt_0 radix2 (- prec)) as P. fold u in P.
      apply Rle_trans with (u / 1); [|lra]. apply Rmult_le_compat_l; [lra|]. apply Rinv_le; lra.
    - exfalso. destruct C as [C _]. destruct (Bplus mode_NE x y); cbn in C, F; discriminate.
  Qed.

  Definition uw (t : ur) : R := u2 t + u3 t.
  Definition ugood (x : bf) (t : ur) (d : Z) : Prop :=
    Rabs (uv t) <= u0 t /\ 0 <= u1 t /\ 0 <= u2 t /\ 0 <= u3 t /\
    (d = 1%Z -> 1 <= u1 t /\ u2 t = 0 /\ u3 t = 0) /\ (d = 2%Z -> 1 <= u2 t /\ u3 t = 0) /\ (d = 3%Z -> 1 <= u3 t) /\
    Rabs (B2R x - uv t) <= (q ^ ex (un t) d - 1) * u0 t + q ^ ex (un t) d * (eta * uw t).
  (** What is known of a computed value, provided it is finite. *)
  Definition Uf (x : bf) (t : ur) : Prop := is_finite x = true ->
    (t = uzero /\ B2R x = 0) \/ (exists d, (1 <= d)%Z /\ (1 <= un t)%Z /\ ud t = Some (d, true) /\ ((d <= 3)%Z -> ugood x t d)).

  Lemma Uf_0 : Uf (B754_zero false) uzero.
  Proof. intros _. left. auto. Qed.

  Lemma uabs x v a w c : 0 <= w -> Rabs v <= a -> Rabs (x - v) <= (c - 1) * a + c * w -> Rabs x <= c * (a + w).
  Proof. clear. intros H0 H1 H2. replace x with ((x - v) + v) by ring. eapply Rle_trans; [apply Rabs_triang|]. lra. Qed.

  Lemma mul_ge1 a b : 1 <= a -> 1 <= b -> 1 <= a * b.
  Proof. clear. intros. nra. Qed.
  (** One more rounding. *)
  Lemma step z r v a w w' c n : 0 <= w -> Rabs v <= a -> 1 <= c -> c * (1 + u) <= n -> Rabs (z - v) <= (c - 1) * a + c * w -> Rabs (r - z) <= u * Rabs z + w' -> 0 <= w' ->
    Rabs (r - v) <= (n - 1) * a + n * (w + w').
  Proof.
    intros W V C N H1 H2 W'. pose proof (uabs z v a w c W V H1) as Az. assert (P : 0 < u) by apply bpow_gt_0. assert (A0 : 0 <= a) by (pose proof (Rabs_pos v); lra).
    replace (r - v) with ((r - z) + (z - v)) by ring. eapply Rle_trans; [apply Rabs_triang|].
    assert (u * Rabs z <= u * (c * (a + w))) by (apply Rmult_le_compat_l; lra).
    assert (c * (1 + u) * (a + w) <= n * (a + w)) by (apply Rmult_le_compat_r; lra).
    assert (w' <= n * w') by (assert (1 <= n) by nra; nra). lra.
  Qed.

  Lemma Uf_mul x t y s : Uf x t -> Uf y s -> Uf (Bmult mode_NE x y) (umul t s).
  Proof.
    intros H1 H2 F. destruct (mul_fin x y F) as (Fx & Fy & Er). specialize (H1 Fx). specialize (H2 Fy).
    assert (Z0 : B2R x * B2R y = 0 -> B2R (Bmult mode_NE x y) = 0).
    { intros Z. pose proof (Bmult_correct prec emax pp pe mode_NE x y) as C. cbn [round_mode] in C. rewrite Z, round_0, Rabs_R0, Rlt_bool_true in C by (apply bpow_gt_0 || apply valid_rnd_N). apply C. }
    destruct H1 as [(-> & Zx)|(d1 & P1 & N1 & E1 & G1)].
    { left. split; [exact (sr_mul_0_l _ urops_semiring s)|]. apply Z0. rewrite Zx. ring. }
    destruct H2 as [(-> & Zy)|(d2 & P2 & N2 & E2 & G2)].
    { left. split; [pose proof (sr_mul_comm _ urops_semiring t uzero : umul t uzero = umul uzero t) as ->; exact (sr_mul_0_l _ urops_semiring t)|]. apply Z0. rewrite Zy. ring. }
    right. exists (d1 + d2)%Z. split; [lia|]. split; [cbn [umul un]; nia|]. split; [cbn [umul ud]; now rewrite E1, E2|]. intros Hd.
    destruct G1 as (V1 & A1 & B1 & C1 & D11 & D12 & D13 & R1); [lia|]. destruct G2 as (V2 & A2 & B2 & C2 & D21 & D22 & D23 & R2); [lia|].
    set (c1 := q ^ ex (un t) d1) in *. set (c2 := q ^ ex (un s) d2) in *.
    pose proof (q_ge1 (prec := prec) (emax := emax) (pp := pp) (ex (un t) d1)) as Q1. pose proof (q_ge1 (prec := prec) (emax := emax) (pp := pp) (ex (un s) d2)) as Q2. fold u q in Q1, Q2. fold c1 in Q1. fold c2 in Q2.
    pose proof eta_pos as He.
    assert (T0 : 0 <= u0 t) by (pose proof (Rabs_pos (uv t)); lra). assert (S0 : 0 <= u0 s) by (pose proof (Rabs_pos (uv s)); lra).
    assert (WW : uw t = 0 \/ uw s = 0). { unfold uw. assert (d1 = 1 \/ d2 = 1)%Z as [X|X] by lia; [left; destruct (D11 X) as (_ & -> & ->)|right; destruct (D21 X) as (_ & -> & ->)]; ring. }
    assert (Wt : 0 <= uw t) by (unfold uw; lra). assert (Ws : 0 <= uw s) by (unfold uw; lra).
    assert (VV : Rabs (uv t * uv s) <= u0 t * u0 s) by (rewrite Rabs_mult; apply Rmult_le_compat; auto using Rabs_pos).
    assert (one : 1 <= u1 t * u1 s + u1 t * u2 s + u2 t * u1 s).
    { assert (0 <= u1 t * u1 s) by now apply Rmult_le_pos. assert (0 <= u1 t * u2 s) by now apply Rmult_le_pos. assert (0 <= u2 t * u1 s) by now apply Rmult_le_pos.
      assert (d1 = 1 /\ d2 = 1 \/ d1 = 1 /\ d2 = 2 \/ d1 = 2 /\ d2 = 1)%Z as [[X Y]|[[X Y]|[X Y]]] by lia;
      [destruct (D11 X) as [M1 _], (D21 Y) as [M2 _]|destruct (D11 X) as [M1 _], (D22 Y) as [M2 _]|destruct (D12 X) as [M1 _], (D21 Y) as [M2 _]]; pose proof (mul_ge1 _ _ M1 M2); lra. }
    assert (W3 : eta * (u0 t * uw s + uw t * u0 s) + eta <= eta * uw (umul t s)).
    { unfold uw. cbn [umul u2 u3]. assert (eta * 1 <= eta * (u1 t * u1 s + u1 t * u2 s + u2 t * u1 s)) by (apply Rmult_le_compat_l; lra). lra. }
    assert (Xp : Rabs (B2R x * B2R y - uv t * uv s) <= (c1 * c2 - 1) * (u0 t * u0 s) + (c1 * c2) * (eta * (u0 t * uw s + uw t * u0 s))).
    { replace (B2R x * B2R y - uv t * uv s) with ((B2R x - uv t) * uv s + B2R x * (B2R y - uv s)) by ring. eapply Rle_trans; [apply Rabs_triang|]. rewrite !Rabs_mult.
      pose proof (uabs (B2R x) (uv t) (u0 t) (eta * uw t) c1 ltac:(apply Rmult_le_pos; lra) V1 R1) as Ax.
      assert (Rabs (B2R x - uv t) * Rabs (uv s) <= ((c1 - 1) * u0 t + c1 * (eta * uw t)) * u0 s) by (apply Rmult_le_compat; auto using Rabs_pos).
      assert (Rabs (B2R x) * Rabs (B2R y - uv s) <= (c1 * (u0 t + eta * uw t)) * ((c2 - 1) * u0 s + c2 * (eta * uw s))) by (apply Rmult_le_compat; auto using Rabs_pos).
      assert (c1 * c2 * (eta * uw t) * (eta * uw s) = 0) by (destruct WW as [-> | ->]; ring). lra. }
    assert (W0 : 0 <= u0 t * uw s + uw t * u0 s) by (apply Rplus_le_le_0_compat; now apply Rmult_le_pos).
    assert (Wp : forall a b, 0 <= a -> 0 <= b -> 0 <= a * b) by (intros; now apply Rmult_le_pos).
    assert (Q : c1 * c2 * (1 + u) <= q ^ ex (un t * un s) (d1 + d2)).
    { unfold c1, c2. rewrite <- pow_add. change (1 + u) with q. rewrite Rmult_comm. rewrite tech_pow_Rmult. apply (@q_mono prec emax pp). unfold ex. nia. }
    unfold ugood. cbn [umul uv u0 un]. split; [exact VV|]. cbn [umul u1 u2 u3]. split; [repeat apply Rplus_le_le_0_compat; auto|]. split; [repeat apply Rplus_le_le_0_compat; auto|]. split; [repeat apply Rplus_le_le_0_compat; auto|].
    split; [lia|]. split.
    { intros X. assert (d1 = 1 /\ d2 = 1)%Z as [X1 X2] by lia. destruct (D11 X1) as (M1 & -> & ->), (D21 X2) as (M2 & -> & ->). pose proof (mul_ge1 _ _ M1 M2). split; [lra|ring]. }
    split.
    { intros X. assert (d1 = 1 /\ d2 = 2 \/ d1 = 2 /\ d2 = 1)%Z as [[X1 X2]|[X1 X2]] by lia; [destruct (D11 X1) as (M1 & -> & ->), (D22 X2) as (M2 & ->)|destruct (D12 X1) as (M1 & ->), (D21 X2) as (M2 & -> & ->)]; pose proof (mul_ge1 _ _ M1 M2); lra. }
    set (N := q ^ ex (un t * un s) (d1 + d2)) in *. assert (P : 0 < u) by apply bpow_gt_0. assert (C12 : 1 <= c1 * c2) by now apply mul_ge1. assert (1 <= N) by (eapply Rle_trans; [|exact Q]; apply mul_ge1; lra).
    eapply Rle_trans; [apply (step (B2R x * B2R y) _ (uv t * uv s) (u0 t * u0 s) (eta * (u0 t * uw s + uw t * u0 s)) eta (c1 * c2) N); auto; try lra; apply Wp; lra|].
    apply Rplus_le_compat_l. apply Rmult_le_compat_l; [lra|exact W3].
  Qed.

  Lemma Uf_add x t y s : Uf x t -> Uf y s -> Uf (Bplus mode_NE x y) (uadd t s).
  Proof.
    intros H1 H2 F. destruct (add_fin x y F) as (Fx & Fy & Er). specialize (H1 Fx). specialize (H2 Fy).
    assert (EX : B2R x = 0 -> B2R (Bplus mode_NE x y) = B2R y).
    { intros Z. pose proof (Bplus_correct prec emax pp pe mode_NE x y Fx Fy) as C. cbn [round_mode] in C. rewrite Z, Rplus_0_l, rnd_B2R, Rlt_bool_true in C by apply abs_B2R_lt_emax. apply C. }
    assert (EY : B2R y = 0 -> B2R (Bplus mode_NE x y) = B2R x).
    { intros Z. pose proof (Bplus_correct prec emax pp pe mode_NE x y Fx Fy) as C. cbn [round_mode] in C. rewrite Z, Rplus_0_r, rnd_B2R, Rlt_bool_true in C by apply abs_B2R_lt_emax. apply C. }
    destruct H1 as [(-> & Zx)|(d1 & P1 & N1 & E1 & G1)].
    { pose proof (sr_add_0_l _ urops_semiring s : uadd uzero s = s) as ->. destruct H2 as [(-> & Zy)|(d2 & P2 & N2 & E2 & G2)]; [left; split; [reflexivity|]; now rewrite EX|].
      right. exists d2. do 3 (split; [assumption|]). intros Hd. specialize (G2 Hd). unfold ugood in *. now rewrite EX. }
    destruct H2 as [(-> & Zy)|(d2 & P2 & N2 & E2 & G2)].
    { pose proof (eq_trans (sr_add_comm _ urops_semiring t uzero) (sr_add_0_l _ urops_semiring t) : uadd t uzero = t) as ->.
      right. exists d1. do 3 (split; [assumption|]). intros Hd. specialize (G1 Hd). unfold ugood in *. now rewrite EY. }
    right. exists (Z.max d1 d2). split; [lia|]. split; [cbn [uadd un]; lia|]. split; [cbn [uadd ud]; now rewrite E1, E2|]. intros Hd.
    destruct G1 as (V1 & A1 & B1 & C1 & D11 & D12 & D13 & R1); [lia|]. destruct G2 as (V2 & A2 & B2 & C2 & D21 & D22 & D23 & R2); [lia|].
    pose proof eta_pos as He.
    set (E := Z.to_nat (Z.max (un t + d1 - 2) (un s + d2 - 2))).
    assert (Q1 : q ^ ex (un t) d1 <= q ^ E) by (apply (@q_mono prec emax pp); unfold ex, E; lia).
    assert (Q2 : q ^ ex (un s) d2 <= q ^ E) by (apply (@q_mono prec emax pp); unfold ex, E; lia).
    pose proof (q_ge1 (prec := prec) (emax := emax) (pp := pp) E) as Q3. fold u q in Q3.
    assert (T0 : 0 <= u0 t) by (pose proof (Rabs_pos (uv t)); lra). assert (S0 : 0 <= u0 s) by (pose proof (Rabs_pos (uv s)); lra).
    assert (Wt : 0 <= eta * uw t) by (unfold uw; nra). assert (Ws : 0 <= eta * uw s) by (unfold uw; nra).
    assert (VV : Rabs (uv t + uv s) <= u0 t + u0 s) by (eapply Rle_trans; [apply Rabs_triang|]; lra).
    set (c := q ^ E) in *.
    assert (X : Rabs (B2R x + B2R y - (uv t + uv s)) <= (c - 1) * (u0 t + u0 s) + c * (eta * uw t + eta * uw s)).
    { replace (B2R x + B2R y - (uv t + uv s)) with ((B2R x - uv t) + (B2R y - uv s)) by ring. eapply Rle_trans; [apply Rabs_triang|].
      assert ((q ^ ex (un t) d1 - 1) * u0 t <= (c - 1) * u0 t) by (apply Rmult_le_compat_r; lra).
      assert ((q ^ ex (un s) d2 - 1) * u0 s <= (c - 1) * u0 s) by (apply Rmult_le_compat_r; lra).
      assert (q ^ ex (un t) d1 * (eta * uw t) <= c * (eta * uw t)) by (apply Rmult_le_compat_r; lra).
      assert (q ^ ex (un s) d2 * (eta * uw s) <= c * (eta * uw s)) by (apply Rmult_le_compat_r; lra). lra. }
    assert (Q : c * (1 + u) <= q ^ ex (un t + un s) (Z.max d1 d2)).
    { unfold c. change (1 + u) with q. rewrite Rmult_comm. rewrite tech_pow_Rmult. apply (@q_mono prec emax pp). unfold ex, E. lia. }
    unfold ugood. cbn [uadd uv u0 un u1 u2 u3]. split; [exact VV|]. do 3 (split; [lra|]).
    split. { intros Y. assert (d1 = 1 /\ d2 = 1)%Z as [Y1 Y2] by lia. destruct (D11 Y1) as (? & ? & ?), (D21 Y2) as (? & ? & ?). repeat split; lra. }
    split. { intros Y. assert ((d1 = 2 \/ d1 = 1) /\ (d2 = 2 \/ d2 = 1) /\ (d1 = 2 \/ d2 = 2))%Z as (Y1 & Y2 & Y3) by lia.
      assert (u3 t = 0) by (destruct Y1 as [Y1|Y1]; [now apply D12|now apply D11]). assert (u3 s = 0) by (destruct Y2 as [Y2|Y2]; [now apply D22|now apply D21]).
      split; [|lra]. destruct Y3 as [Y3|Y3]; [destruct (D12 Y3)|destruct (D22 Y3)]; lra. }
    split. { intros Y. assert (d1 = 3 \/ d2 = 3)%Z as [Y1|Y1] by lia; [pose proof (D13 Y1)|pose proof (D23 Y1)]; lra. }
    replace (eta * uw (uadd t s)) with (eta * uw t + eta * uw s + 0) by (unfold uw; cbn [uadd u2 u3]; ring).
    apply (step (B2R x + B2R y) _ _ _ _ 0 c); auto; lra.
  Qed.

  (** Embedding of inputs: any value, finite or not. *)
  Definition ue (x : bf) : ur := {| uv := B2R x; u0 := Rabs (B2R x); u1 := 1; u2 := 0; u3 := 0; un := 1; ud := Some (1%Z, is_finite x) |}.
  Definition ues (x : bf) : ur := if Beqb x (B754_zero false) then uzero else if Beqb x Bone then uone else ue x.
  Lemma Uf_e x : Uf x (ue x).
  Proof.
    intros F. right. exists 1%Z. split; [lia|]. split; [cbn; lia|]. split; [cbn; now rewrite F|]. intros _. unfold ugood, uw. cbn [ue uv u0 u1 u2 u3 un]. repeat split; try lra; try lia.
    replace (B2R x - B2R x) with 0 by ring. rewrite Rabs_R0. change (ex 1 1) with 0%nat. cbn [pow]. lra.
  Qed.
  Lemma ues_0 a : Beqb a (B754_zero false) = ueqb (ues a) uzero.
  Proof.
    unfold ues. destruct (Beqb a (B754_zero false)). { symmetry. now apply (sr_eqb _ urops_semiring). }
    symmetry. apply Bool.not_true_iff_false. rewrite (sr_eqb _ urops_semiring). cbn [urops o_zero]. destruct (Beqb a Bone); intros H; apply (f_equal un) in H; cbn in H; lia.
  Qed.
  Lemma ues_1 a : Beqb a Bone = ueqb (ues a) uone.
  Proof.
    unfold ues. destruct (Beqb a (B754_zero false)) eqn:E0.
    - assert (Beqb a Bone = false) as ->.
      { apply Bool.not_true_iff_false. intros E1. pose proof (Beqb_fin _ _ (eq_refl : is_finite (B754_zero false : bf) = true) E0) as F.
        apply Beqb_B2R in E0; auto. apply Beqb_B2R in E1; auto; [|apply is_finite_Bone]. rewrite Bone_R in E1. cbn in E0. lra. }
      symmetry. apply Bool.not_true_iff_false. rewrite (sr_eqb _ urops_semiring). intros H. apply (f_equal un) in H. cbn in H. lia.
    - destruct (Beqb a Bone). { symmetry. now apply (sr_eqb _ urops_semiring). }
      symmetry. apply Bool.not_true_iff_false. rewrite (sr_eqb _ urops_semiring). intros H. apply (f_equal ud) in H. cbn in H. congruence.
  Qed.
  Lemma Uf_scale a : Beqb a (B754_zero false) = false -> forall x t, Uf x t -> Uf (Bmult mode_NE a x) (umul (ues a) t).
  Proof.
    intros E0 x t Hx. unfold ues. rewrite E0. destruct (Beqb a Bone) eqn:E1.
    - rewrite (sr_mul_1_l _ urops_semiring t : umul uone t = t). intros F. destruct (mul_fin a x F) as (Fa & Fx & _). specialize (Hx Fx).
      apply Beqb_B2R in E1; auto; [|apply is_finite_Bone]. rewrite Bone_R in E1.
      pose proof (Bmult_correct prec emax pp pe mode_NE a x) as C. cbn [round_mode] in C. rewrite E1, Rmult_1_l, rnd_B2R, Rlt_bool_true in C by apply abs_B2R_lt_emax.
      destruct C as (C1 & _). destruct Hx as [(-> & Zx)|(d & P & N & E & G)]; [left; split; [reflexivity|]; now rewrite C1|].
      right. exists d. do 3 (split; [assumption|]). intros Hd. specialize (G Hd). unfold ugood in *. now rewrite C1.
    - apply Uf_mul; auto. apply Uf_e.
  Qed.

  (** ** When nothing overflows *)
  Definition um (t : ur) : R := u0 t + u1 t + u2 t + u3 t.
  Definition ushape (t : ur) (d : Z) : Prop :=
    Rabs (uv t) <= u0 t /\ 0 <= u1 t /\ 0 <= u2 t /\ 0 <= u3 t /\
    (d = 1%Z -> 1 <= u1 t /\ u2 t = 0 /\ u3 t = 0) /\ (d = 2%Z -> 1 <= u2 t /\ u3 t = 0) /\ (d = 3%Z -> 1 <= u3 t).
  Lemma um_ge1 t d : (1 <= d <= 3)%Z -> ushape t d -> 1 <= um t.
  Proof.
    clear. intros Hd (V & A & B & C & D1 & D2 & D3). pose proof (Rabs_pos (uv t)). unfold um.
    assert (d = 1 \/ d = 2 \/ d = 3)%Z as [X|[X|X]] by lia; [destruct (D1 X)|destruct (D2 X)|pose proof (D3 X)]; lra.
  Qed.
  Lemma shape_mul t s d1 d2 : (1 <= d1)%Z -> (1 <= d2)%Z -> (d1 + d2 <= 3)%Z -> ushape t d1 -> ushape s d2 -> ushape (umul t s) (d1 + d2) /\ um (umul t s) = um t * um s.
  Proof.
    clear. intros P1 P2 Hd (V1 & A1 & B1 & C1 & D11 & D12 & D13) (V2 & A2 & B2 & C2 & D21 & D22 & D23).
    assert (T0 : 0 <= u0 t) by (pose proof (Rabs_pos (uv t)); lra). assert (S0 : 0 <= u0 s) by (pose proof (Rabs_pos (uv s)); lra).
    assert (Wp : forall a b, 0 <= a -> 0 <= b -> 0 <= a * b) by (intros; now apply Rmult_le_pos).
    unfold ushape, um. cbn [umul uv u0 u1 u2 u3]. split; [split|].
    - rewrite Rabs_mult; apply Rmult_le_compat; auto using Rabs_pos.
    - do 3 (split; [repeat apply Rplus_le_le_0_compat; auto|]). split; [lia|]. split.
      + intros X. assert (d1 = 1 /\ d2 = 1)%Z as [X1 X2] by lia. destruct (D11 X1) as (M1 & -> & ->), (D21 X2) as (M2 & -> & ->). pose proof (mul_ge1 _ _ M1 M2). split; [lra|ring].
      + intros X. assert (d1 = 1 /\ d2 = 2 \/ d1 = 2 /\ d2 = 1)%Z as [[X1 X2]|[X1 X2]] by lia; [destruct (D11 X1) as (M1 & -> & ->), (D22 X2) as (M2 & ->)|destruct (D12 X1) as (M1 & ->), (D21 X2) as (M2 & -> & ->)]; pose proof (mul_ge1 _ _ M1 M2); lra.
    - assert (d1 = 1 /\ d2 = 1 \/ d1 = 1 /\ d2 = 2 \/ d1 = 2 /\ d2 = 1)%Z as [[X1 X2]|[[X1 X2]|[X1 X2]]] by lia;
      [destruct (D11 X1) as (M1 & -> & ->), (D21 X2) as (M2 & -> & ->)|destruct (D11 X1) as (M1 & -> & ->), (D22 X2) as (M2 & ->)|destruct (D12 X1) as (M1 & ->), (D21 X2) as (M2 & -> & ->)]; ring.
  Qed.
  Lemma shape_add t s d1 d2 : (1 <= d1)%Z -> (1 <= d2)%Z -> (d1 <= 3)%Z -> (d2 <= 3)%Z -> ushape t d1 -> ushape s d2 -> ushape (uadd t s) (Z.max d1 d2) /\ um (uadd t s) = um t + um s.
  Proof.
    clear. intros P1 P2 Hd1 Hd2 (V1 & A1 & B1 & C1 & D11 & D12 & D13) (V2 & A2 & B2 & C2 & D21 & D22 & D23).
    unfold ushape, um. cbn [uadd uv u0 u1 u2 u3]. split; [|ring]. split; [eapply Rle_trans; [apply Rabs_triang|]; lra|]. do 3 (split; [lra|]).
    split. { intros Y. assert (d1 = 1 /\ d2 = 1)%Z as [Y1 Y2] by lia. destruct (D11 Y1) as (? & ? & ?), (D21 Y2) as (? & ? & ?). repeat split; lra. }
    split. { intros Y. assert ((d1 = 2 \/ d1 = 1) /\ (d2 = 2 \/ d2 = 1) /\ (d1 = 2 \/ d2 = 2))%Z as (Y1 & Y2 & Y3) by lia.
      assert (u3 t = 0) by (destruct Y1 as [Y1|Y1]; [now apply D12|now apply D11]). assert (u3 s = 0) by (destruct Y2 as [Y2|Y2]; [now apply D22|now apply D21]).
      split; [|lra]. destruct Y3 as [Y3|Y3]; [destruct (D12 Y3)|destruct (D22 Y3)]; lra. }
    intros Y. assert (d1 = 3 \/ d2 = 3)%Z as [Y1|Y1] by lia; [pose proof (D13 Y1)|pose proof (D23 Y1)]; lra.
  Qed.

  Definition Lh (x : bf) (t : ur) : Prop := Uf x t /\ exists d f, (1 <= d)%Z /\ (1 <= un t)%Z /\ ud t = Some (d, f) /\
    ((d <= 3)%Z -> ushape t d /\ (f = true -> q ^ ex (un t) d * um t <= bpow radix2 (emax - 1) -> is_finite x = true)).
  Definition Rh (x : bf) (t : ur) : Prop := (t = uzero /\ is_finite x = true /\ B2R x = 0) \/ Lh x t.
  Lemma Rh_Uf x t : Rh x t -> Uf x t.
  Proof. intros [(-> & F & Z)|H]; [intros _; now left|apply H]. Qed.

  Lemma fmax z : Rabs z <= bpow radix2 (emax - 1) -> Rlt_bool (Rabs (rnd z)) (bpow radix2 emax) = true.
  Proof.
    intros H. apply Rlt_bool_true. apply Rle_lt_trans with (bpow radix2 (emax - 1)); [|apply bpow_lt; lia].
    apply abs_round_le_generic; [typeclasses eauto..| |exact H]. apply generic_format_bpow. unfold fexp, SpecFloat.fexp, SpecFloat.emin.
    assert (0 < prec)%Z by exact pp. assert (prec < emax)%Z by exact pe. lia.
  Qed.
  Lemma eta_le1 : eta <= 1.
  Proof. change 1 with (bpow radix2 0). apply bpow_le. unfold emin, SpecFloat.emin. assert (0 < prec)%Z by exact pp. assert (prec < emax)%Z by exact pe. lia. Qed.
  (** The size of a finite value. *)
  Lemma abs_um x t d : is_finite x = true -> Uf x t -> ud t = Some (d, true) -> (d <= 3)%Z -> Rabs (B2R x) <= q ^ ex (un t) d * um t.
  Proof.
    intros F H E Hd. specialize (H F). destruct H as [(-> & Z)|(d' & P & N & E' & G)]; [discriminate|]. rewrite E in E'. injection E' as <-.
    destruct (G Hd) as (V & A & B & C & _ & _ & _ & R). pose proof eta_pos. pose proof eta_le1.
    pose proof (q_ge1 (prec := prec) (emax := emax) (pp := pp) (ex (un t) d)) as Q. fold u q in Q.
    assert (W : 0 <= eta * uw t) by (apply Rmult_le_pos; unfold uw; lra). eapply Rle_trans; [apply (uabs (B2R x) (uv t) (u0 t) (eta * uw t) _ W V R)|].
    apply Rmult_le_compat_l; [lra|]. unfold um. assert (eta * uw t <= 1 * uw t) by (apply Rmult_le_compat_r; unfold uw; lra). unfold uw in *. lra.
  Qed.

  Lemma Lh_mul x t y s : Lh x t -> Lh y s -> Lh (Bmult mode_NE x y) (umul t s).
  Proof.
    intros (U1 & d1 & f1 & P1 & N1 & E1 & G1) (U2 & d2 & f2 & P2 & N2 & E2 & G2). split; [now apply Uf_mul|].
    exists (d1 + d2)%Z, (f1 && f2). split; [lia|]. split; [cbn [umul un]; nia|]. split; [cbn [umul ud]; now rewrite E1, E2|]. intros Hd.
    destruct G1 as [S1 G1]; [lia|]. destruct G2 as [S2 G2]; [lia|]. destruct (shape_mul t s d1 d2 P1 P2 Hd S1 S2) as [S3 M3]. split; [exact S3|]. intros Hf Hb. apply andb_true_iff in Hf as [-> ->].
    pose proof (um_ge1 t d1 ltac:(lia) S1) as M1. pose proof (um_ge1 s d2 ltac:(lia) S2) as M2. rewrite M3 in Hb.
    set (c1 := q ^ ex (un t) d1) in *. set (c2 := q ^ ex (un s) d2) in *. pose proof (q_ge1 (prec := prec) (emax := emax) (pp := pp) (ex (un t) d1)) as Q1. pose proof (q_ge1 (prec := prec) (emax := emax) (pp := pp) (ex (un s) d2)) as Q2. fold u q in Q1, Q2. fold c1 in Q1. fold c2 in Q2.
    assert (Q : c1 * c2 <= q ^ ex (un t * un s) (d1 + d2)).
    { unfold c1, c2. rewrite <- pow_add. apply (@q_mono prec emax pp). unfold ex. nia. }
    cbn [umul un] in Hb. assert (T : c1 * um t * (c2 * um s) <= bpow radix2 (emax - 1)).
    { eapply Rle_trans; [|exact Hb]. replace (c1 * um t * (c2 * um s)) with (c1 * c2 * (um t * um s)) by ring. apply Rmult_le_compat_r; [|exact Q]. apply Rmult_le_pos; lra. }
    assert (K1 : 1 <= c1 * um t) by (apply mul_ge1; lra). assert (K2 : 1 <= c2 * um s) by (apply mul_ge1; lra).
    assert (L1 : c1 * um t <= c1 * um t * (c2 * um s)) by (rewrite <- (Rmult_1_r (c1 * um t)) at 1; apply Rmult_le_compat_l; lra).
    assert (L2 : c2 * um s <= c1 * um t * (c2 * um s)) by (rewrite <- (Rmult_1_l (c2 * um s)) at 1; apply Rmult_le_compat_r; lra).
    assert (Fx : is_finite x = true) by (apply G1; [reflexivity|lra]). assert (Fy : is_finite y = true) by (apply G2; [reflexivity|lra]).
    pose proof (abs_um x t d1 Fx U1 E1 ltac:(lia)) as Ax. pose proof (abs_um y s d2 Fy U2 E2 ltac:(lia)) as Ay. fold c1 in Ax. fold c2 in Ay.
    pose proof (Bmult_correct prec emax pp pe mode_NE x y) as C. cbn [round_mode] in C. fold fexp in C. rewrite fmax in C.
    - destruct C as (_ & C & _). now rewrite C, Fx, Fy.
    - rewrite Rabs_mult. eapply Rle_trans; [|exact T]. apply Rmult_le_compat; auto using Rabs_pos.
  Qed.
  Lemma Lh_add x t y s : Rh x t -> Lh y s -> Lh (Bplus mode_NE x y) (uadd t s).
  Proof.
    intros HR HL. assert (U3 : Uf (Bplus mode_NE x y) (uadd t s)) by (apply Uf_add; [now apply Rh_Uf|apply HL]). destruct HL as (U2 & d2 & f2 & P2 & N2 & E2 & G2). split; [exact U3|].
    destruct HR as [(-> & Fx & Zx)|(U1 & d1 & f1 & P1 & N1 & E1 & G1)].
    { assert (Es : uadd uzero s = s) by apply (sr_add_0_l _ urops_semiring). rewrite Es. exists d2, f2. do 3 (split; [assumption|]). intros Hd. destruct (G2 Hd) as [S2 H2]. split; [exact S2|]. intros Hf Hb. specialize (H2 Hf Hb).
      pose proof (Bplus_correct prec emax pp pe mode_NE x y Fx H2) as C. cbn [round_mode] in C. rewrite Zx, Rplus_0_l, rnd_B2R, Rlt_bool_true in C by apply abs_B2R_lt_emax. apply C. }
    exists (Z.max d1 d2), (f1 && f2). split; [lia|]. split; [cbn [uadd un]; lia|]. split; [cbn [uadd ud]; now rewrite E1, E2|]. intros Hd.
    destruct G1 as [S1 G1]; [lia|]. destruct G2 as [S2 G2]; [lia|]. destruct (shape_add t s d1 d2 P1 P2 ltac:(lia) ltac:(lia) S1 S2) as [S3 M3]. split; [exact S3|]. intros Hf Hb. apply andb_true_iff in Hf as [-> ->].
    pose proof (um_ge1 t d1 ltac:(lia) S1) as M1. pose proof (um_ge1 s d2 ltac:(lia) S2) as M2. rewrite M3 in Hb. cbn [uadd un] in Hb. set (E := ex (un t + un s) (Z.max d1 d2)) in *.
    pose proof (q_ge1 (prec := prec) (emax := emax) (pp := pp) E) as Q. fold u q in Q.
    assert (Q1 : q ^ ex (un t) d1 <= q ^ E) by (apply (@q_mono prec emax pp); unfold ex, E, ex; lia).
    assert (Q2 : q ^ ex (un s) d2 <= q ^ E) by (apply (@q_mono prec emax pp); unfold ex, E, ex; lia).
    assert (T1 : q ^ ex (un t) d1 * um t <= q ^ E * um t) by (apply Rmult_le_compat_r; lra). assert (T2 : q ^ ex (un s) d2 * um s <= q ^ E * um s) by (apply Rmult_le_compat_r; lra).
    assert (0 <= q ^ E * um t) by (apply Rmult_le_pos; lra). assert (0 <= q ^ E * um s) by (apply Rmult_le_pos; lra).
    assert (Fx : is_finite x = true) by (apply G1; [reflexivity|lra]). assert (Fy : is_finite y = true) by (apply G2; [reflexivity|lra]).
    pose proof (abs_um x t d1 Fx U1 E1 ltac:(lia)) as Ax. pose proof (abs_um y s d2 Fy U2 E2 ltac:(lia)) as Ay.
    pose proof (Bplus_correct prec emax pp pe mode_NE x y Fx Fy) as C. cbn [round_mode] in C. fold fexp in C. rewrite fmax in C; [apply C|].
    eapply Rle_trans; [apply Rabs_triang|]. lra.
  Qed.
  Lemma shape_e x : ushape (ue x) 1.
  Proof. unfold ushape. cbn [ue uv u0 u1 u2 u3]. repeat split; try lra; lia. Qed.
  Lemma Lh_e x : Lh x (ue x).
  Proof. split; [apply Uf_e|]. exists 1%Z, (is_finite x). split; [lia|]. split; [cbn; lia|]. split; [reflexivity|]. intros _. split; [apply shape_e|auto]. Qed.
  Lemma Lh_scale a : Beqb a (B754_zero false) = false -> forall x t, Lh x t -> Lh (Bmult mode_NE a x) (umul (ues a) t).
  Proof.
    intros E0 x t Hx. split; [apply Uf_scale; [exact E0|apply Hx]|]. unfold ues. rewrite E0. destruct (Beqb a Bone) eqn:E1.
    - rewrite (sr_mul_1_l _ urops_semiring t : umul uone t = t). destruct Hx as (_ & d & f & P & N & E & G). exists d, f. do 3 (split; [assumption|]). intros Hd. destruct (G Hd) as [S H]. split; [exact S|]. intros Hf Hb. specialize (H Hf Hb).
      pose proof (Beqb_fin _ _ (is_finite_Bone prec emax pp pe) E1) as Fa. apply Beqb_B2R in E1; auto; [|apply is_finite_Bone]. rewrite Bone_R in E1.
      pose proof (Bmult_correct prec emax pp pe mode_NE a x) as C. cbn [round_mode] in C. rewrite E1, Rmult_1_l, rnd_B2R, Rlt_bool_true in C by apply abs_B2R_lt_emax. destruct C as (_ & C & _). now rewrite C, Fa, H.
    - destruct (Lh_mul a (ue a) x t (Lh_e a) Hx) as [_ H]. exact H.
  Qed.

  (** ** From the tracked entry to the bound *)
  Local Notation usum p := (sumT urops (map (fun r => umul (ue (fst r)) (ue (snd r))) p)).
  Definition fins (p : list (bf * bf)) : bool := forallb (fun r => is_finite (fst r) && is_finite (snd r)) p.
  Lemma sum_u (p : list (bf * bf)) :
    uv (usum p) = Rtotal (map (fun r => B2R (fst r) * B2R (snd r)) p) /\ u0 (usum p) = Rtotal (map (fun r => Rabs (B2R (fst r)) * Rabs (B2R (snd r))) p) /\
    u1 (usum p) = Rtotal (map (fun r => Rabs (B2R (fst r)) + Rabs (B2R (snd r))) p) /\ u2 (usum p) = Rtotal (map (fun _ => 1) p) /\ u3 (usum p) = 0 /\ un (usum p) = zlen p /\
    ud (usum p) = match p with [] => None | _ => Some (2%Z, fins p) end.
  Proof.
    induction p as [|[v x] p (I1 & I2 & I3 & I4 & I5 & I6 & I7)]; [repeat split|]. cbn [map sumT fold_right Rtotal fst snd]. change (fold_right (o_add urops) (o_zero urops) ?z) with (sumT urops z).
    change (fold_right Rplus 0 ?z) with (Rtotal z). cbn [urops o_add uadd umul uv u0 u1 u2 u3 un ud ue]. rewrite I1, I2, I3, I4, I5, I6, I7, zlen_cons. repeat split; try ring; try lia.
    destruct p; cbn [uplus umax fins forallb fst snd]; [now rewrite andb_true_r|reflexivity].
  Qed.

  Lemma Beqb_zero (x : bf) : Beqb x (B754_zero false) = true <-> zero_f x.
  Proof. unfold zero_f. destruct x as [s|s| |s m e H]; cbn; split; intros X; try discriminate; try (now exists s); try reflexivity; try (destruct X; discriminate); destruct s; discriminate. Qed.
  Lemma zero_f_R (x : bf) : zero_f x -> B2R x = 0.
  Proof. now intros [s ->]. Qed.

  Lemma read_u (alpha beta c y : bf) (p : list (bf * bf)) : Uf y (uadd (umul (ues alpha) (usum p)) (umul (ues beta) (ue c))) -> finite_near alpha p beta c y.
  Proof.
    intros HU F. specialize (HU F). destruct (sum_u p) as (S1 & S2 & S3 & S4 & S5 & S6 & S7). set (S := usum p) in *. clearbody S. pose proof (zlen_nonneg p) as Lp.
    pose proof eta_pos as He. assert (Eh : half_tiny (prec := prec) (emax := emax) = eta) by (unfold half_tiny, eta, emin, SpecFloat.emin; f_equal; lia).
    set (t1 := umul (ues alpha) S) in *. set (t2 := umul (ues beta) (ue c)) in *.
    (* the part with alpha *)
    assert (N0 : 0 <= Rtotal (map (fun _ : bf * bf => 1) p)) by (clear; induction p; cbn; [lra|change (fold_right Rplus 0 ?z) with (Rtotal z); lra]).
    assert (SX : Rtotal (map (fun r => 1 + Rabs (B2R alpha) + Rabs (B2R (fst r)) + Rabs (B2R (snd r))) p) = Rabs (B2R alpha) * u2 S + u1 S + u2 S).
    { rewrite S3, S4. clear. induction p as [|[v x] p IH]; cbn; change (fold_right Rplus 0 ?z) with (Rtotal z); [ring|rewrite IH; ring]. }
    assert (U1 : 0 <= u1 S). { rewrite S3. clear. induction p as [|[v x] p IH]; cbn; [lra|]. change (fold_right Rplus 0 ?z) with (Rtotal z). pose proof (Rabs_pos (B2R v)). pose proof (Rabs_pos (B2R x)). cbn in *. lra. }
    assert (A : uv t1 = B2R alpha * Rtotal (map (fun r => B2R (fst r) * B2R (snd r)) p) /\ u0 t1 = Rabs (B2R alpha) * Rtotal (map (fun r => Rabs (B2R (fst r)) * Rabs (B2R (snd r))) p) /\
      (0 <= un t1 <= zlen p)%Z /\ u2 t1 + u3 t1 <= Rabs (B2R alpha) * u2 S + u1 S + u2 S /\
      match ud t1 with None => zero_f alpha \/ p = [] | Some (d, f) => (d <= 3)%Z /\ (f = true -> is_finite alpha = true /\ fins p = true) end).
    { pose proof (Rabs_pos (B2R alpha)) as Pa. rewrite S4 in *. set (N := Rtotal (map (fun _ => 1) p)) in *. assert (0 <= Rabs (B2R alpha) * N) by now apply Rmult_le_pos.
      unfold t1, ues. destruct (Beqb alpha (B754_zero false)) eqn:E0.
      - apply Beqb_zero in E0. rewrite (zero_f_R _ E0), Rabs_R0 in *. cbn [umul uzero uv u0 u1 u2 u3 un ud uplus]. rewrite Z.mul_0_l. repeat split; try ring; try lia; [lra|now left].
      - destruct (Beqb alpha Bone) eqn:E1.
        + pose proof (Beqb_fin _ _ (is_finite_Bone prec emax pp pe) E1) as Fa. apply Beqb_B2R in E1; auto; [|apply is_finite_Bone]. rewrite Bone_R in E1. rewrite E1, Rabs_R1 in *.
          cbn [umul uone uv u0 u1 u2 u3 un ud]. rewrite S1, S2, S4, S5, S6, S7. repeat split; try ring; try lia; [lra|]. destruct p; cbn [uplus]; [now right|]. split; [lia|]. now rewrite andb_true_l.
        + cbn [umul ue uv u0 u1 u2 u3 un ud]. rewrite S1, S2, S4, S5, S6, S7. repeat split; try ring; try lia; [lra|]. destruct p; cbn [uplus]; [now right|]. split; [lia|]. apply andb_true_iff. }
    assert (B : uv t2 = B2R beta * B2R c /\ u0 t2 = Rabs (B2R beta) * Rabs (B2R c) /\ (0 <= un t2 <= 1)%Z /\ u2 t2 + u3 t2 <= 1 /\
      match ud t2 with None => zero_f beta | Some (d, f) => (d <= 3)%Z /\ (f = true -> is_finite beta = true /\ is_finite c = true) end).
    { unfold t2, ues. destruct (Beqb beta (B754_zero false)) eqn:E0.
      - apply Beqb_zero in E0. rewrite (zero_f_R _ E0), Rabs_R0 in *. cbn [umul uzero ue uv u0 u1 u2 u3 un ud uplus]. rewrite Z.mul_0_l. split; [ring|]. split; [ring|]. split; [lia|]. split; [lra|exact E0].
      - destruct (Beqb beta Bone) eqn:E1.
        + pose proof (Beqb_fin _ _ (is_finite_Bone prec emax pp pe) E1) as Fa. apply Beqb_B2R in E1; auto; [|apply is_finite_Bone]. rewrite Bone_R in E1. rewrite E1, Rabs_R1 in *.
          cbn [umul uone ue uv u0 u1 u2 u3 un ud uplus]. repeat split; try ring; try lia; try lra; assumption.
        + cbn [umul ue uv u0 u1 u2 u3 un ud uplus]. repeat split; try ring; try lia; try lra; now apply andb_true_iff in H. }
    destruct A as (A1 & A2 & A3 & A4 & A5). destruct B as (B1 & B2 & B3 & B4 & B5).
    assert (Ud : match ud (uadd t1 t2) with None => (zero_f alpha \/ p = []) /\ zero_f beta | Some (d, f) => (d <= 3)%Z /\ (f = true -> used_finite alpha p beta c) end).
    { assert (FP : fins p = true -> forall v x, In (v, x) p -> is_finite v = true /\ is_finite x = true).
      { intros H v x Hin. unfold fins in H. rewrite forallb_forall in H. apply H in Hin. now apply andb_true_iff in Hin. }
      cbn [uadd ud]. unfold used_finite. destruct (ud t1) as [[d1 f1]|], (ud t2) as [[d2 f2]|]; cbn [umax].
      - destruct A5 as [? A5], B5 as [? B5]. split; [lia|]. intros H1. apply andb_true_iff in H1 as [H1 H2]. destruct (A5 H1), (B5 H2). auto 10.
      - destruct A5 as [? A5]. split; [lia|]. intros H1. destruct (A5 H1). auto 10.
      - destruct B5 as [? B5]. split; [lia|]. intros H1. destruct (B5 H1). tauto.
      - auto. }
    assert (EE : uv (uadd t1 t2) = exact_cell alpha p beta c /\ u0 (uadd t1 t2) = size_cell alpha p beta c).
    { cbn [uadd uv u0]. unfold exact_cell, size_cell. now rewrite A1, A2, B1, B2. }
    destruct EE as [EV EA]. assert (EW : eta * uw (uadd t1 t2) <= underflow alpha p).
    { unfold underflow. rewrite Eh, SX. unfold uw. cbn [uadd u2 u3]. apply Rmult_le_compat_l; lra. }
    assert (Sz : 0 <= underflow alpha p).
    { unfold underflow. rewrite Eh, SX. apply Rmult_le_pos; [lra|]. pose proof (Rabs_pos (B2R alpha)). assert (0 <= Rabs (B2R alpha) * u2 S) by (apply Rmult_le_pos; lra). lra. }
    pose proof (q_ge1 (prec := prec) (emax := emax) (pp := pp) (Z.to_nat (zlen p + 2))) as Q. fold u q in Q.
    unfold near. rewrite <- EV, <- EA. fold u q. destruct HU as [(T0 & Zy)|(d & P1 & N1 & E & G)].
    - rewrite T0 in *. cbn [uzero ud uv u0] in *. split; [unfold used_finite; tauto|]. rewrite Zy, Rminus_0_r, Rabs_R0, Rmult_0_r. rewrite Rplus_0_l. apply Rmult_le_pos; lra.
    - rewrite E in Ud. destruct Ud as [Hd HF]. split; [now apply HF|]. destruct (G Hd) as (V & _ & P2 & P3 & _ & _ & _ & Er). eapply Rle_trans; [exact Er|].
      assert (Qm : q ^ ex (un (uadd t1 t2)) d <= q ^ Z.to_nat (zlen p + 2)). { apply (@q_mono prec emax pp). unfold ex. cbn [uadd un] in *. apply Z2Nat.inj_le; lia. }
      assert (0 <= u0 (uadd t1 t2)) by (pose proof (Rabs_pos (uv (uadd t1 t2))); lra).
      pose proof (q_ge1 (prec := prec) (emax := emax) (pp := pp) (ex (un (uadd t1 t2)) d)) as Q'. fold u q in Q'.
      assert (0 <= eta * uw (uadd t1 t2)) by (apply Rmult_le_pos; unfold uw; lra).
      apply Rplus_le_compat; [apply Rmult_le_compat_r; lra|]. apply Rmult_le_compat; lra.
  Qed.

  Lemma um_mul_small t s : u2 t = 0 -> u3 t = 0 -> u3 s = 0 -> um (umul t s) = um t * um s.
  Proof. intros H1 H2 H3. unfold um. cbn [umul u0 u1 u2 u3]. rewrite H1, H2, H3. ring. Qed.
  Lemma ues_um a : zero_f a \/ um (ues a) <= 1 + Rabs (B2R a) /\ u2 (ues a) = 0 /\ u3 (ues a) = 0.
  Proof.
    unfold ues, um. destruct (Beqb a (B754_zero false)) eqn:E0; [left; now apply Beqb_zero|right]. pose proof (Rabs_pos (B2R a)).
    destruct (Beqb a Bone) eqn:E1; cbn [uone ue u0 u1 u2 u3]; repeat split; lra.
  Qed.
  Lemma nonzero_unless (a : bf) r : ~ zero_f a -> unless_zero a r = r.
  Proof. intros H. destruct a; try reflexivity. exfalso. apply H. now exists s. Qed.
  Lemma read_h (alpha beta c y : bf) (p : list (bf * bf)) : Rh y (uadd (umul (ues alpha) (usum p)) (umul (ues beta) (ue c))) -> surely_near alpha p beta c y.
  Proof.
    intros HR HF HN. assert (F : is_finite y = true); [|split; [exact F|]; now apply (read_u alpha beta c y p (Rh_Uf _ _ HR))].
    destruct HR as [(_ & F & _)|(_ & d & f & P & N & E & G)]; [exact F|].
    destruct (sum_u p) as (S1 & S2 & S3 & S4 & S5 & S6 & S7).
    assert (MS : um (usum p) = Rtotal (map (fun q => (1 + Rabs (B2R (fst q))) * (1 + Rabs (B2R (snd q)))) p)).
    { unfold um. rewrite S2, S3, S4, S5. clear. induction p as [|[v x] p IH]; cbn; change (fold_right Rplus 0 ?z) with (Rtotal z); [ring|]. cbn in IH. change (fold_right Rplus 0 ?z) with (Rtotal z) in IH. rewrite <- IH. ring. }
    assert (PS : 0 <= um (usum p)).
    { rewrite MS. clear. induction p as [|[v x] p IH]; cbn; [lra|]. change (fold_right Rplus 0 ?z) with (Rtotal z). cbn in IH. pose proof (Rabs_pos (B2R v)). pose proof (Rabs_pos (B2R x)). assert (0 <= (1 + Rabs (B2R v)) * (1 + Rabs (B2R x))) by (apply Rmult_le_pos; lra). lra. }
    set (S := usum p) in *. clearbody S.
    assert (A : um (umul (ues alpha) S) <= unless_zero alpha ((1 + Rabs (B2R alpha)) * um S) /\ (0 <= un (umul (ues alpha) S) <= zlen p)%Z /\
      match ud (umul (ues alpha) S) with None => True | Some (d, f) => (d <= 3)%Z /\ f = true end).
    { pose proof (zlen_nonneg p). destruct (ues_um alpha) as [Z|(M & Z2 & Z3)].
      - assert (Ez : ues alpha = uzero) by (unfold ues; now rewrite (proj2 (Beqb_zero alpha) Z)). destruct Z as [s ->]. rewrite Ez. unfold um. cbn [umul uzero u0 u1 u2 u3 un ud uplus unless_zero]. rewrite Z.mul_0_l. split; [lra|]. split; [lia|exact I].
      - assert (NZ : Beqb alpha (B754_zero false) = true \/ ~ zero_f alpha) by (destruct (Beqb alpha (B754_zero false)) eqn:E0; [now left|right; rewrite <- Beqb_zero; congruence]).
        destruct NZ as [NZ|NZ].
        { unfold ues in *. rewrite NZ in *. apply Beqb_zero in NZ as [s ->]. unfold um. cbn [umul uzero u0 u1 u2 u3 un ud uplus unless_zero]. rewrite Z.mul_0_l. split; [lra|]. split; [lia|exact I]. }
        rewrite (nonzero_unless alpha _ NZ), (um_mul_small _ S Z2 Z3 S5). split; [now apply Rmult_le_compat_r|].
        cbn [umul un ud]. rewrite S6, S7. destruct HF as [[HF|[HF|[HF HF2]]] _]; [contradiction| |].
        + subst p. unfold ues. destruct (Beqb alpha (B754_zero false)); [split; [cbn; lia|exact I]|]. destruct (Beqb alpha Bone); (split; [cbn; lia|exact I]).
        + assert (FP : fins p = true) by (unfold fins; apply forallb_forall; intros [v x] Hin; apply andb_true_iff; now apply HF2). rewrite FP.
          unfold ues. destruct (Beqb alpha (B754_zero false)); [cbn [uzero un ud uplus]; split; [lia|exact I]|]. destruct (Beqb alpha Bone); cbn [uone ue un ud]; rewrite ?HF; (split; [lia|]); destruct p; cbn [uplus]; auto; split; auto; lia. }
    assert (B : um (umul (ues beta) (ue c)) <= unless_zero beta ((1 + Rabs (B2R beta)) * (1 + Rabs (B2R c))) /\ (0 <= un (umul (ues beta) (ue c)) <= 1)%Z /\
      match ud (umul (ues beta) (ue c)) with None => True | Some (d, f) => (d <= 3)%Z /\ f = true end).
    { assert (NZ : Beqb beta (B754_zero false) = true \/ ~ zero_f beta) by (destruct (Beqb beta (B754_zero false)) eqn:E0; [now left|right; rewrite <- Beqb_zero; congruence]).
      destruct NZ as [NZ|NZ].
      { unfold ues. rewrite NZ. apply Beqb_zero in NZ as [s ->]. unfold um. cbn [umul uzero ue u0 u1 u2 u3 un ud uplus unless_zero]. rewrite Z.mul_0_l. split; [lra|]. split; [lia|exact I]. }
      destruct (ues_um beta) as [Z|(M & Z2 & Z3)]; [contradiction|]. rewrite (nonzero_unless beta _ NZ), (um_mul_small _ (ue c) Z2 Z3 eq_refl). split.
      { replace (um (ue c)) with (1 + Rabs (B2R c)) by (unfold um; cbn [ue u0 u1 u2 u3]; ring). apply Rmult_le_compat_r; [pose proof (Rabs_pos (B2R c)); lra|exact M]. }
      destruct HF as [_ [HF|[HF HF2]]]; [contradiction|]. unfold ues. destruct (Beqb beta (B754_zero false)); [cbn; split; [lia|exact I]|]. destruct (Beqb beta Bone); cbn [umul uone ue un ud uplus]; rewrite ?HF, ?HF2; (split; [lia|]); split; auto; lia. }
    destruct A as (A1 & A2 & A3), B as (B1 & B2 & B3). set (t1 := umul (ues alpha) S) in *. set (t2 := umul (ues beta) (ue c)) in *.
    assert (Hd : (d <= 3)%Z /\ f = true).
    { cbn [uadd ud] in E. destruct (ud t1) as [[d1 f1]|], (ud t2) as [[d2 f2]|]; cbn [umax] in E; try discriminate; injection E as <- <-; try assumption. destruct A3 as [? ->], B3 as [? ->]. split; [lia|reflexivity]. }
    destruct Hd as [Hd Hf]. destruct (G Hd) as [Sh H]. apply H; [exact Hf|]. eapply Rle_trans; [|exact HN]. unfold total_size. rewrite <- MS. fold u q.
    pose proof (q_ge1 (prec := prec) (emax := emax) (pp := pp) (ex (un (uadd t1 t2)) d)) as Q. fold u q in Q.
    pose proof (um_ge1 _ _ (conj P Hd) Sh). apply Rmult_le_compat; [lra|lra| |].
    - apply (@q_mono prec emax pp). unfold ex. cbn [uadd un] in *. apply Z2Nat.inj_le; lia.
    - replace (um (uadd t1 t2)) with (um t1 + um t2) by (unfold um; cbn [uadd u0 u1 u2 u3]; ring). lra.
  Qed.

  Theorem left_finite (alpha beta : bf) sched nt ss l opA opB d n m (A : spmat bf) ro co B ldb C ldc :
    valid_schedule sched -> sort_ok ss -> valid_sp A -> sp_base A = BZero -> (0 <= d)%Z -> (0 <= n)%Z -> (0 <= m)%Z -> window_ok A (rows_before opA d m) (cols_before opA d m) ro co ->
    (zero_f alpha \/ sp_safe nt l opA opB d n m A ro co) ->
    fits_buffer l ldb (rows_before opB m n) (cols_before opB m n) (zlen B) -> fits_buffer l ldc d n (zlen C) ->
    exists A' C', left_spmm (fops prec emax) sched ss nt nt l opA opB d n m alpha A ro co B ldb beta C ldc = Ok (A', C') /\ same_sp A A' /\ others_kept l d n C ldc C' /\
      forall i j c p, (0 <= i < d)%Z -> (0 <= j < n)%Z -> get C (addr l ldc i j) = Some c ->
      p = terms (op_ent opA (fun i k => at_pos A (ro + i) (co + k))) (op_ent opB (cell (fops prec emax) l ldb B)) m i j ->
      exists y, get C' (addr l ldc i j) = Some y /\ finite_near alpha p beta c y.
  Proof.
    intros Hs Hss HV HB Hd Hn Hm HW Hsafe FB FC.
    pose proof (left_transfer (fops prec emax) urops Uf Uf urops_semiring (fun x t H => H) Uf_0 Uf_mul Uf_add
      alpha beta (ues alpha) (ues beta) (ues_0 alpha) (ues_1 alpha) (Uf_scale alpha) (ues_0 beta) (Uf_scale beta)
      ue Uf_e urops_01 ss Hss (@isort _) (isort_ok _) sched nt l opA opB d n m A ro co B ldb C ldc Hs HV HB Hd Hn Hm HW) as Q.
    destruct Q as (A' & C' & E & Lc & SA & Fr & G); [|exact FB|exact FC|].
    { destruct Hsafe as [H|H]; [left; now apply Beqb_zero|right; split; [exact H|left; apply Uf_0]]. }
    exists A', C'. do 2 (split; [assumption|]). split; [split; assumption|]. intros i j c p Hi Hj Gc ->. destruct (G i j c Hi Hj Gc) as (y & Gy & Ry). exists y. split; [exact Gy|].
    apply read_u. exact Ry.
  Qed.

  Theorem left_sure (alpha beta : bf) sched nt ss l opA opB d n m (A : spmat bf) ro co B ldb C ldc :
    valid_schedule sched -> sort_ok ss -> valid_sp A -> sp_base A = BZero -> (0 <= d)%Z -> (0 <= n)%Z -> (0 <= m)%Z -> window_ok A (rows_before opA d m) (cols_before opA d m) ro co ->
    (zero_f alpha \/ sp_safe nt l opA opB d n m A ro co /\ tight A opA ro co d n m) ->
    fits_buffer l ldb (rows_before opB m n) (cols_before opB m n) (zlen B) -> fits_buffer l ldc d n (zlen C) ->
    exists A' C', left_spmm (fops prec emax) sched ss nt nt l opA opB d n m alpha A ro co B ldb beta C ldc = Ok (A', C') /\ same_sp A A' /\ others_kept l d n C ldc C' /\
      forall i j c p, (0 <= i < d)%Z -> (0 <= j < n)%Z -> get C (addr l ldc i j) = Some c ->
      p = terms (op_ent opA (fun i k => at_pos A (ro + i) (co + k))) (op_ent opB (cell (fops prec emax) l ldb B)) m i j ->
      exists y, get C' (addr l ldc i j) = Some y /\ finite_near alpha p beta c y /\ surely_near alpha p beta c y.
  Proof.
    intros Hs Hss HV HB Hd Hn Hm HW Hsafe FB FC.
    pose proof (left_transfer (fops prec emax) urops Rh Lh urops_semiring (fun x t H => or_intror H) (or_introl (conj eq_refl (conj eq_refl eq_refl))) Lh_mul Lh_add
      alpha beta (ues alpha) (ues beta) (ues_0 alpha) (ues_1 alpha) (Lh_scale alpha) (ues_0 beta) (Lh_scale beta)
      ue Lh_e urops_01 ss Hss (@isort _) (isort_ok _) sched nt l opA opB d n m A ro co B ldb C ldc Hs HV HB Hd Hn Hm HW) as Q.
    destruct Q as (A' & C' & E & Lc & SA & Fr & G); [|exact FB|exact FC|].
    { destruct Hsafe as [H|[H Ht]]; [left; now apply Beqb_zero|right; split; [exact H|now right]]. }
    exists A', C'. do 2 (split; [assumption|]). split; [split; assumption|]. intros i j c p Hi Hj Gc ->. destruct (G i j c Hi Hj Gc) as (y & Gy & Ry). exists y. split; [exact Gy|].
    split; [apply read_u; apply Rh_Uf; exact Ry|apply read_h; exact Ry].
  Qed.
End Rnd.
