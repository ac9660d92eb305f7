(** Instances of the Box-Muller analysis for float and double, and lanes of filled operators. *)
From Coq Require Import ZArith Reals Lra Psatz Lia List.
From Flocq Require Import Core BinarySingleNaN.
From Verif Require Import Base Spec RngModel DenseModel DenseSpec DenseProofs DenseProofs2 DenseProofs3 SparseSkopModel FloatModel FloatProofs FloatProofs2 PropsFloat IsoSpec IsoProofs StatSpec
  DenseIsoProofs2 BoxModel BoxSpec BoxPi BoxProofs BoxProofs2 BoxProofs4 BoxFloatProofs.
Import ListNotations.
Local Open Scope R_scope.

Lemma ufactor32_ok : B2R ufactor32 = bpow radix2 (- 32) /\ is_finite ufactor32 = true.
Proof. split; [|vm_compute; reflexivity]. rewrite (B2R_SF ufactor32 (SpecFloat.S754_finite false 8388608 (-55))) by (vm_compute; reflexivity). unfold SF2R, F2R. cbn. lra. Qed.
Lemma uhalf32_ok : B2R (mul32 half32 ufactor32) = bpow radix2 (- 32 - 1) /\ is_finite (mul32 half32 ufactor32) = true.
Proof. split; [|vm_compute; reflexivity]. rewrite (B2R_SF _ (SpecFloat.S754_finite false 8388608 (-56))) by (vm_compute; reflexivity). unfold SF2R, F2R. cbn. lra. Qed.
Lemma ufactor64_ok : B2R ufactor64 = bpow radix2 (- 64) /\ is_finite ufactor64 = true.
Proof. split; [|vm_compute; reflexivity]. rewrite (B2R_SF ufactor64 (SpecFloat.S754_finite false 4503599627370496 (-116))) by (vm_compute; reflexivity). unfold SF2R, F2R. cbn. lra. Qed.
Lemma uhalf64_ok : B2R (mul64 half64 ufactor64) = bpow radix2 (- 64 - 1) /\ is_finite (mul64 half64 ufactor64) = true.
Proof. split; [|vm_compute; reflexivity]. rewrite (B2R_SF _ (SpecFloat.S754_finite false 4503599627370496 (-117))) by (vm_compute; reflexivity). unfold SF2R, F2R. cbn. lra. Qed.
Lemma mtwo32_ok : B2R (of_Z32 (-2)) = -2 /\ is_finite (of_Z32 (-2)) = true.
Proof. split; [|vm_compute; reflexivity]. rewrite (B2R_SF _ (SpecFloat.S754_finite true 8388608 (-22))) by (vm_compute; reflexivity). unfold SF2R, F2R. cbn. lra. Qed.
Lemma mtwo64_ok : B2R (of_Z64 (-2)) = -2 /\ is_finite (of_Z64 (-2)) = true.
Proof. split; [|vm_compute; reflexivity]. rewrite (B2R_SF _ (SpecFloat.S754_finite true 4503599627370496 (-51))) by (vm_compute; reflexivity). unfold SF2R, F2R. cbn. lra. Qed.
Lemma pi32_ok : is_finite pi32 = true /\ Rabs (PI - B2R pi32) <= 2 * bpow radix2 (- 24).
Proof.
  split; [reflexivity|]. pose proof pi_float as H. rewrite (B2R_SF _ (SpecFloat.S754_finite false 13176795 (-22))) by (vm_compute; reflexivity).
  replace (SF2R radix2 (SpecFloat.S754_finite false 13176795 (-22))) with (13176795 * / IZR (2 ^ 22)) by (unfold SF2R, F2R; cbn; lra).
  eapply Rle_trans; [exact H|]. cbn. lra.
Qed.
Lemma pi64_ok : is_finite pi64 = true /\ Rabs (PI - B2R pi64) <= 2 * bpow radix2 (- 53).
Proof.
  split; [reflexivity|]. pose proof pi_double as H. rewrite (B2R_SF _ (SpecFloat.S754_finite false 7074237752028440 (-51))) by (vm_compute; reflexivity).
  replace (SF2R radix2 (SpecFloat.S754_finite false 7074237752028440 (-51))) with (7074237752028440 * / IZR (2 ^ 51)) by (unfold SF2R, F2R; cbn; lra).
  eapply Rle_trans; [exact H|]. cbn. lra.
Qed.
Lemma un32_ok w : (0 <= w < 2 ^ 32)%Z -> is_finite (uneg11_32 w) = true /\ -1 <= B2R (uneg11_32 w) <= 1 /\
    Rabs (B2R (uneg11_32 w) - IZR (2 * signed 32 w + 1) / IZR (2 ^ 32)) <= 4 * bpow radix2 (- 24).
Proof. intros H. destruct (C11_uniform_transformation_float w H) as (A & B & C & _). split; [exact A|]. split; [exact B|]. eapply Rle_trans; [exact C|]. cbn. lra. Qed.
Lemma un64_ok w : (0 <= w < 2 ^ 64)%Z -> is_finite (uneg11_64 w) = true /\ -1 <= B2R (uneg11_64 w) <= 1 /\
    Rabs (B2R (uneg11_64 w) - IZR (2 * signed 64 w + 1) / IZR (2 ^ 64)) <= 4 * bpow radix2 (- 53).
Proof. intros H. destruct (C11_uniform_transformation_double w H) as (A & B & C & _). split; [exact A|]. split; [exact B|]. eapply Rle_trans; [exact C|]. cbn. lra. Qed.

Section B32.
  Variables (sincosf : b32 -> b32 * b32) (logf : b32 -> b32) (eps : R).
  Hypothesis Hl : libm_accurate sincosf logf eps.
  Hypothesis He : 0 <= eps <= / 4096.
  Definition rho32 (u : Z) : R := B2R (rad 24 128 ufactor32 (mul32 half32 ufactor32) logf (of_Z32 (-2)) u).
  Lemma close32 u0 u1 : (0 <= u0 < 2 ^ 32)%Z -> (0 <= u1 < 2 ^ 32)%Z ->
    let x := fst (boxmuller_32 sincosf logf u0 u1) in let y := snd (boxmuller_32 sincosf logf u0 u1) in
    let s := sin (angle 32 u0) in let c := cos (angle 32 u0) in let r2 := radius2 32 u1 in let cc := 79 * bpow radix2 (- 24) + 5 * eps in
    (is_finite x = true /\ is_finite y = true) /\
    (Rabs (B2R x - s * rho32 u1) <= cc * (1 + r2) /\ Rabs (B2R y - c * rho32 u1) <= cc * (1 + r2)) /\
    Rabs (B2R x * B2R x - s * s * r2) <= cc * (1 + r2) /\
    Rabs (B2R y * B2R y - c * c * r2) <= cc * (1 + r2) /\
    Rabs (B2R x * B2R y - s * c * r2) <= cc * (1 + r2).
  Proof using Hl He.
    intros H0 H1. exact (box_close 24 128 ltac:(lia) 32 ltac:(lia) ltac:(lia) ufactor32 (mul32 half32 ufactor32) ufactor32_ok uhalf32_ok
      sincosf logf eps pi32 (of_Z32 (-2)) uneg11_32 Hl He ltac:(lia) mtwo32_ok pi32_ok un32_ok u0 u1 H0 H1).
  Qed.
End B32.
Section B64.
  Variables (sincos : b64 -> b64 * b64) (log : b64 -> b64) (eps : R).
  Hypothesis Hl : libm_accurate sincos log eps.
  Hypothesis He : 0 <= eps <= / 4096.
  Definition rho64 (u : Z) : R := B2R (rad 53 1024 ufactor64 (mul64 half64 ufactor64) log (of_Z64 (-2)) u).
  Lemma close64 u0 u1 : (0 <= u0 < 2 ^ 64)%Z -> (0 <= u1 < 2 ^ 64)%Z ->
    let x := fst (boxmuller_64 sincos log u0 u1) in let y := snd (boxmuller_64 sincos log u0 u1) in
    let s := sin (angle 64 u0) in let c := cos (angle 64 u0) in let r2 := radius2 64 u1 in let cc := 79 * bpow radix2 (- 53) + 5 * eps in
    (is_finite x = true /\ is_finite y = true) /\
    (Rabs (B2R x - s * rho64 u1) <= cc * (1 + r2) /\ Rabs (B2R y - c * rho64 u1) <= cc * (1 + r2)) /\
    Rabs (B2R x * B2R x - s * s * r2) <= cc * (1 + r2) /\
    Rabs (B2R y * B2R y - c * c * r2) <= cc * (1 + r2) /\
    Rabs (B2R x * B2R y - s * c * r2) <= cc * (1 + r2).
  Proof using Hl He.
    intros H0 H1. exact (box_close 53 1024 ltac:(lia) 64 ltac:(lia) ltac:(lia) ufactor64 (mul64 half64 ufactor64) ufactor64_ok uhalf64_ok
      sincos log eps pi64 (of_Z64 (-2)) uneg11_64 Hl He ltac:(lia) mtwo64_ok pi64_ok un64_ok u0 u1 H0 H1).
  Qed.
End B64.

(** ** Bounded entries *)
Lemma bound_of_square x s r2 c b : 0 <= b -> 0 <= r2 -> 0 <= c -> Rabs s <= 1 -> Rabs (x * x - s * s * r2) <= c * (1 + r2) -> r2 + c * (1 + r2) <= b * b -> -b <= x <= b.
Proof.
  intros Hb Hr Hc Hs H HB. apply Rabs_le_inv in H. assert (s * s <= 1).
  { rewrite <- (Rabs_pos_eq (s * s)) by apply (Rle_0_sqr s). rewrite Rabs_mult. replace 1 with (1 * 1) by ring. apply Rmult_le_compat; try apply Rabs_pos; assumption. }
  assert (s * s * r2 <= 1 * r2) by (apply Rmult_le_compat_r; assumption). assert (Q : x * x <= b * b) by lra.
  apply Rabs_le_inv. rewrite <- (Rabs_pos_eq b) by exact Hb. apply Rsqr_le_abs_0. exact Q.
Qed.
Lemma finite32 sincosf logf eps u0 u1 : libm_accurate sincosf logf eps -> 0 <= eps <= / 4096 -> (0 <= u0 < 2 ^ 32)%Z -> (0 <= u1 < 2 ^ 32)%Z -> forall l,
  let x := half l (boxmuller_32 sincosf logf u0 u1) in is_finite x = true /\ -7 <= B2R x <= 7.
Proof.
  intros Hl He H0 H1 l. destruct (close32 sincosf logf eps Hl He u0 u1 H0 H1) as ([FX FY] & _ & X & Y & _). unfold half.
  pose proof (radius2_le 24 32 ltac:(lia) ltac:(lia) u1 H1) as RB. change (IZR (32 + 1)) with 33 in RB.
  pose proof (SIN_bound (angle 32 u0)) as SB. pose proof (COS_bound (angle 32 u0)) as CB. apply Rabs_le in SB, CB.
  set (c := 79 * bpow radix2 (- 24) + 5 * eps) in *. assert (C1 : 0 <= c <= / 100) by (unfold c; cbn; lra).
  assert (Q : radius2 32 u1 + c * (1 + radius2 32 u1) <= 7 * 7).
  { assert (c * (1 + radius2 32 u1) <= / 100 * (1 + radius2 32 u1)) by (apply Rmult_le_compat_r; lra). lra. }
  destruct (Z.even l); (split; [assumption|]); eapply bound_of_square; try exact X; try exact Y; try assumption; lra.
Qed.
Lemma finite64 sincos log eps u0 u1 : libm_accurate sincos log eps -> 0 <= eps <= / 4096 -> (0 <= u0 < 2 ^ 64)%Z -> (0 <= u1 < 2 ^ 64)%Z -> forall l,
  let x := half l (boxmuller_64 sincos log u0 u1) in is_finite x = true /\ -10 <= B2R x <= 10.
Proof.
  intros Hl He H0 H1 l. destruct (close64 sincos log eps Hl He u0 u1 H0 H1) as ([FX FY] & _ & X & Y & _). unfold half.
  pose proof (radius2_le 53 64 ltac:(lia) ltac:(lia) u1 H1) as RB. change (IZR (64 + 1)) with 65 in RB.
  pose proof (SIN_bound (angle 64 u0)) as SB. pose proof (COS_bound (angle 64 u0)) as CB. apply Rabs_le in SB, CB.
  set (c := 79 * bpow radix2 (- 53) + 5 * eps) in *. assert (C1 : 0 <= c <= / 100) by (unfold c; cbn; lra).
  assert (Q : radius2 64 u1 + c * (1 + radius2 64 u1) <= 10 * 10).
  { assert (c * (1 + radius2 64 u1) <= / 100 * (1 + radius2 64 u1)) by (apply Rmult_le_compat_r; lra). lra. }
  destruct (Z.even l); (split; [assumption|]); eapply bound_of_square; try exact X; try exact Y; try assumption; lra.
Qed.

(** ** Lanes of blocks *)
Section Lane.
  Context {W F : Type}.
  Variables (bm : W -> W -> F * F) (junk : F).
  Lemma pair_get ps t t' i : (0 <= i < zlen ps)%Z -> exists a b,
    get (flat ps ++ t) (2 * i) = Some a /\ get (flat ps ++ t) (2 * i + 1) = Some b /\
    get (pairwise bm ps ++ t') (2 * i) = Some (fst (bm a b)) /\ get (pairwise bm ps ++ t') (2 * i + 1) = Some (snd (bm a b)).
  Proof.
    clear. revert i. induction ps as [|[a b] ps IH]; intros i Hi; [cbn in Hi; lia|]. rewrite zlen_cons in Hi. destruct (Z.eq_dec i 0) as [->|N].
    - exists a, b. repeat split; reflexivity.
    - destruct (IH (i - 1)%Z ltac:(lia)) as (a' & b' & A & B & C & D). exists a', b'. cbn [flat pairwise app].
      rewrite !get_cons_S by lia. replace (2 * i - 1 - 1)%Z with (2 * (i - 1))%Z by ring. replace (2 * i + 1 - 1 - 1)%Z with (2 * (i - 1) + 1)%Z by ring. auto.
  Qed.
  Lemma block_pairs ri : exists ro, boxmulall bm junk ri = Ok ro /\ zlen ro = zlen ri /\
    (forall i, (0 <= i)%Z -> (2 * i + 1 < zlen ri)%Z -> exists u0 u1, get ri (2 * i) = Some u0 /\ get ri (2 * i + 1) = Some u1 /\
       get ro (2 * i) = Some (fst (bm u0 u1)) /\ get ro (2 * i + 1) = Some (snd (bm u0 u1))) /\
    (Z.even (zlen ri) = false -> get ro (zlen ri - 1) = Some junk).
  Proof.
    destruct (Nat.Even_or_Odd (length ri)) as [[n E]|[n E]].
    - destruct (unflat n ri E) as (ps & -> & <-). exists (pairwise bm ps). split; [apply boxmulall_flat|].
      assert (Lf : zlen (flat ps) = (2 * zlen ps)%Z) by (unfold zlen; rewrite flat_len; lia).
      split; [unfold zlen; now rewrite pairwise_len, flat_len|]. split.
      + intros i Hi Hl. rewrite Lf in Hl. pose proof (pair_get ps [] [] i ltac:(lia)) as P. rewrite !app_nil_r in P. exact P.
      + rewrite Lf, Z.even_mul. discriminate.
    - assert (H : exists l x, ri = l ++ [x] /\ length l = (2 * n)%nat).
      { destruct (exists_last (l := ri)) as (l & x & ->); [intros ->; cbn in E; lia|]. exists l, x. split; [reflexivity|]. rewrite app_length in E. cbn in E. lia. }
      destruct H as (l & x & -> & EL). destruct (unflat n l EL) as (ps & -> & Ep). exists (pairwise bm ps ++ [junk]).
      assert (Lf : zlen (flat ps) = (2 * zlen ps)%Z) by (unfold zlen; rewrite flat_len; lia).
      assert (Lp : zlen (pairwise bm ps) = (2 * zlen ps)%Z) by (unfold zlen; rewrite pairwise_len; lia).
      split; [apply boxmulall_odd|]. rewrite !zlen_app, Lf, Lp. change (zlen [x]) with 1%Z. change (zlen [junk]) with 1%Z. split; [reflexivity|]. split.
      + intros i Hi Hl. apply pair_get. lia.
      + intros _. rewrite get_app_r by lia. rewrite Lp. replace (2 * zlen ps + 1 - 1 - 2 * zlen ps)%Z with 0%Z by ring. reflexivity.
  Qed.
  (** Every lane of a block of even length is a value of the transformation. *)
  Lemma block_lane ri x : Z.even (zlen ri) = true -> In x (boxmul_block bm junk ri) -> exists l u0 u1, In u0 ri /\ In u1 ri /\ x = half l (bm u0 u1).
  Proof.
    intros Ev. unfold boxmul_block. destruct (block_pairs ri) as (ro & -> & Lr & P & _). intros Hx. apply get_In in Hx as [l Hl]. pose proof (get_Some_lt _ _ _ Hl) as R1. rewrite Lr in R1.
    apply Z.even_spec in Ev as [n En]. pose proof (Z.div_mod l 2 ltac:(lia)) as DM. pose proof (Z.mod_pos_bound l 2 ltac:(lia)) as MB.
    destruct (P (l / 2)%Z ltac:(lia) ltac:(lia)) as (u0 & u1 & A & B & C & D). exists l, u0, u1.
    split; [apply get_In; eauto|]. split; [apply get_In; eauto|]. unfold half. rewrite (Zmod_even l) in *. destruct (Z.even l).
    - replace (2 * (l / 2))%Z with l in C by lia. congruence.
    - replace (2 * (l / 2) + 1)%Z with l in D by lia. congruence.
  Qed.
End Lane.

(** ** Entries of filled windows *)
Lemma gauss_entry {K F T} (cast : F -> T) (env : dense_env K F T) D seed i j v :
  dd_family D = Gaussian -> dense_entry cast env D seed i j = Some v -> exists c x, In x (g_fun (env_gauss env) c (key seed)) /\ v = cast x.
Proof.
  intros HG. unfold dense_entry. rewrite HG. cbn [env_gen family_map]. destruct (entry_block _ _ _ _) as [blk lane].
  destruct (get _ _) as [x|] eqn:E; [|discriminate]. intros [= <-]. eexists _, x. split; [apply get_In; eexists; exact E|reflexivity].
Qed.
Lemma window_entries {K F T} (cast : F -> T) (env : dense_env K F T) sched lay D nr nc ro co (buff : list T) (seed : rng_state K) (P : T -> Prop) :
  Interleave.valid_schedule sched -> wf_env env -> valid_dist D -> size_ok D (g_len (env_gauss env)) -> dd_family D = Gaussian ->
  (1 <= nr)%Z -> (1 <= nc)%Z -> (0 <= ro)%Z -> (0 <= co)%Z -> (ro + nr <= dd_rows D)%Z -> (co + nc <= dd_cols D)%Z -> (nr * nc <= zlen buff)%Z ->
  (forall c x, In x (g_fun (env_gauss env) c (key seed)) -> P (cast x)) ->
  exists buff' st, fill_dense_unpacked cast env sched lay D nr nc ro co buff seed = Ok (buff', st) /\
    forall i j, (0 <= i < nr)%Z -> (0 <= j < nc)%Z -> exists x, mat lay (min_ld lay nr nc) 0 buff' i j = Some x /\ P x.
Proof.
  intros Hs Hwf HD Hsz HG H1 H2 H3 H4 H5 H6 Hb HP.
  destruct (fill_dense_unpacked_spec cast env sched lay D nr nc ro co buff seed) as [b' [E [_ [G _]]]]; auto.
  { rewrite HG. exact Hsz. }
  exists b', (window_state env D nr nc ro co seed). split; [exact E|].
  intros i j Hi Hj. specialize (G i j Hi Hj). destruct (dense_entry_Some cast env D seed (ro + i) (co + j) Hwf HD) as [v Hv]. rewrite Hv in G.
  exists v. split; [exact G|]. destruct (gauss_entry cast env D seed _ _ v HG Hv) as (c & x & Hx & ->). exact (HP c x Hx).
Qed.
