(** Second moments for dense operators with Gaussian entries (used by PropsNorm3.v). *)
From Coq Require Import ZArith Reals Lra Psatz Lia List.
From Flocq Require Import Core BinarySingleNaN.
From Verif Require Import Base Spec Interleave RngModel DenseModel DenseSpec DenseProofs DenseProofs2 DenseProofs3 SparseSkopModel SparseSpec FloatModel
  IsoSpec IsoProofs PropsIso StatSpec DenseFloatModel DenseIsoProofs DenseIsoProofs2 NormSpec NormProofs NormProofs3 NormProofs4 NormProofs5
  BoxPi BoxModel BoxSpec BoxProofs BoxProofs2 BoxProofs4 BoxFloatProofs BoxProofs5 LogMoments PairProofs PairProofs3 GaussMoments.
Import ListNotations.
Local Open Scope R_scope.

Section GaussNorm.
  Context {K F T : Type}.
  Variables (cast : F -> T) (toR : T -> R) (env : dense_env K F T) (sched : schedule T).
  Variables (nr nc : Z) (D : dense_dist) (seed : rng_state K).
  Hypothesis Hs : valid_schedule sched.
  Hypothesis HD : mk_dense_dist nr nc Gaussian Long = Ok D.
  Hypothesis HF : dense_fits env D seed.
  Notation L := (g_len (env_gauss env)).
  Hypothesis Ev : Z.even L = true.
  Variables (dflt : list F) (junk : F).
  Hypothesis Hd : zlen dflt = L.
  Variable W : Z.
  Hypothesis HW : (3 <= W)%Z.
  Variable fbm : Z -> Z -> F * F.
  Notation rbm := (rbm cast toR fbm).
  Notation words := (range 0 (2 ^ W)).
  Notation nb := (Z.to_nat (dense_blocks D L)).
  Notation d := (Z.min nr nc).
  Notation m := (Z.max nr nc).
  Notation place := (place env nr nc Gaussian D).
  Definition gpb r i : nat := Z.to_nat (fst (place r i)).
  Definition gpl r i : nat := Z.to_nat (snd (place r i) / 2).
  Definition gph r i : bool := Z.even (snd (place r i)).
  Notation drawn := (fun t => sketch_of nr nc (dense_sampled cast toR (with_blocks env seed dflt t) sched D seed)).

  Let L2 : (2 <= L)%Z.
  Proof. destruct (dims cast toR env nr nc Gaussian D seed HD HF (fun x => x) junk) as (_ & _ & _ & _ & _ & _ & H & _). exact H. Qed.
  Lemma gplace_range r i : (0 <= r < d)%Z -> (0 <= i < m)%Z -> (0 <= fst (place r i) < dense_blocks D L)%Z /\ (0 <= snd (place r i) < L)%Z.
  Proof using HD HF junk cast toR. exact (place_range cast toR env nr nc Gaussian D seed HD HF (fun x => x) junk r i). Qed.
  Lemma gpos a : inside d m a -> (fst (sc gpb gpl a) < nb)%nat /\ (snd (sc gpb gpl a) < Z.to_nat (L / 2))%nat.
  Proof.
    intros [A B]. destruct a as [r i]. cbn [fst snd] in A, B. unfold sc, gpb, gpl. cbn [fst snd].
    destruct (gplace_range r i A B) as [P1 P2]. split; [lia|now apply half_lt].
  Qed.
  Lemma ginj a b : inside d m a -> inside d m b -> sc gpb gpl a = sc gpb gpl b -> sh gph a = sh gph b -> a = b.
  Proof.
    intros [A1 A2] [B1 B2] E H. destruct a as [r i], b as [r' i']. unfold sc, sh, gpb, gpl, gph in *. cbn [fst snd] in *. injection E as E1 E2.
    destruct (gplace_range r i A1 A2) as [P1 P2]. destruct (gplace_range r' i' B1 B2) as [P1' P2'].
    assert (X : snd (place r i) = snd (place r' i')).
    { set (l := snd (place r i)) in *. set (l' := snd (place r' i')) in *. pose proof (Z.div_pos l 2). pose proof (Z.div_pos l' 2).
      rewrite (Z.div_mod l 2), (Z.div_mod l' 2), !Zmod_even, H by lia. apply Z2Nat.inj in E2; lia. }
    destruct (place_inj cast toR env nr nc Gaussian D seed HD HF (fun x => x) junk r i r' i' A1 A2 B1 B2) as [-> ->]; [|reflexivity].
    unfold place_b, place_l. now rewrite E1, X.
  Qed.
  Lemma gsampled t i j : In t (tapes nb (tapes (Z.to_nat (L / 2)) (pairs words))) -> (0 <= i < nr)%Z -> (0 <= j < nc)%Z ->
    dense_sampled cast toR (with_blocks env seed dflt (map (pairwise fbm) t)) sched D seed i j =
    vv rbm (Z.even (snd (entry_block D L i j))) (cell (0, 0)%Z t (Z.to_nat (fst (entry_block D L i j))) (Z.to_nat (snd (entry_block D L i j) / 2))).
  Proof.
    intros Ht Hi Hj. destruct (dims cast toR env nr nc Gaussian D seed HD HF (fun x => x) junk) as (P1 & P2 & ER & EC & EF & V & HL & _). cbn [env_gen] in HL. pose proof HF as (We & Hgl & Hsz & Hc & Hn).
    pose proof (sampled_entry_value cast toR env sched D seed Hs We V Hsz Hc Hn Hgl dflt) as SV. unfold lane, value, dense_blocks in *. rewrite EF, ER, EC in SV. cbn [env_gen family_map] in SV.
    assert (L0 : (0 <= L)%Z) by (clear - HL; lia).
    pose proof (bblocks_eq fbm junk words L L0 Ev) as BE.
    rewrite (SV Hd junk (map (pairwise fbm) (tapes (Z.to_nat (L / 2)) (pairs words)))) with (t := map (pairwise fbm) t) (i := i) (j := j); auto.
    2: { intros b Hb. rewrite <- BE in Hb. exact (bblock_len fbm junk words L L0 b Hb). }
    2: { rewrite tapes_map. now apply in_map. }
    pose proof (entry_block_range D L i j V HL ltac:(lia) ltac:(lia)) as [R1 R2]. destruct (entry_block D L i j) as [b l]. cbn [fst snd] in *.
    pose proof (tapes_len _ _ _ Ht) as Lt. assert (Hb : (Z.to_nat b < length t)%nat) by lia.
    rewrite (nth_indep _ dflt (pairwise fbm [])) by (rewrite map_length; exact Hb). rewrite map_nth.
    assert (Hin : In (nth (Z.to_nat b) t []) (tapes (Z.to_nat (L / 2)) (pairs words))) by (apply (tapes_in _ _ _ Ht), nth_In; exact Hb).
    pose proof (lane_of fbm (fun x => toR (cast x)) words L Ev junk 0%Z (nth (Z.to_nat b) t []) l Hin R2) as LO. rewrite LO.
    unfold pv, vv, half, cell, BoxProofs4.rbm. destruct (Z.even l); reflexivity.
  Qed.
  Lemma gdrawn t x r : In t (tapes nb (tapes (Z.to_nat (L / 2)) (pairs words))) -> (0 <= r < d)%Z ->
    drawn (map (pairwise fbm) t) x r = act (0, 0)%Z m gpb gpl gph (vv rbm) t x r.
  Proof.
    intros Ht Hr. unfold sketch_of, act, ent, sc, sh, dot, gpb, gpl, gph, NormProofs5.place. cbn [fst snd env_gen].
    destruct (Z.leb_spec nr nc) as [Q|Q].
    - rewrite Z.max_r by lia. apply Rsum_ext. intros i Hi. apply in_range in Hi. rewrite gsampled by (auto; lia). reflexivity.
    - rewrite Z.max_l by lia. apply Rsum_ext. intros i Hi. apply in_range in Hi. rewrite gsampled by (auto; lia). reflexivity.
  Qed.

  Variable rho : Z -> R.
  Variable c : R.
  Notation ok u := (0 <= u < 2 ^ W)%Z.
  Hypothesis Hx : forall u0 u1, ok u0 -> ok u1 -> Rabs (fst (rbm u0 u1) - sin (angle W u0) * rho u1) <= c * (1 + radius2 W u1).
  Hypothesis Hy : forall u0 u1, ok u0 -> ok u1 -> Rabs (snd (rbm u0 u1) - cos (angle W u0) * rho u1) <= c * (1 + radius2 W u1).
  Hypothesis Hr : forall u, ok u -> Rabs (rho u * rho u - radius2 W u) <= c * (1 + radius2 W u).
  Hypothesis Hc : 0 <= c <= / 500.
  Hypothesis HcW : / IZR (2 ^ W) <= c.
  Hypothesis HcP : prim 2 (half_cell W) <= c.
  Lemma gauss_geometry :
    geometry_kept (tapes nb (map (boxmul_block fbm junk) (tapes (Z.to_nat L) words))) (dense_iso2 D) drawn d m (gaussian_spread c d m).
  Proof.
    destruct (dims cast toR env nr nc Gaussian D seed HD HF (fun x => x) junk) as (P1 & P2 & ER & EC & EF & V & HL & EI).
    assert (D0 : (0 < d)%Z) by (clear - P1 P2; lia). assert (M0 : (0 < m)%Z) by (clear - P1 P2; lia).
    assert (L0 : (0 <= L)%Z) by (clear - L2; lia).
    pose proof (gauss_moment W HW rbm rho c Hx Hy Hr Hc HcW HcP nb (Z.to_nat (L / 2)) (0, 0)%Z d m D0 M0 gpb gpl gph gpos ginj) as G.
    pose proof gdrawn as GD. pose proof (bblocks_eq fbm junk words L L0 Ev) as BE. unfold bblocks in BE. rewrite BE. clear BE.
    apply embed_geometry.
    - intros t. apply sketch_of_linear.
    - intros x y. eapply Rle_trans; [|exact (G x y)]. apply Req_le. rewrite tapes_map, average_map. apply average_ext. intros t Ht.
      unfold dense_iso2. rewrite EI. do 3 f_equal. apply dot_ext; intros r Hr0; now apply GD.
    - unfold dense_iso2. rewrite EI. apply Rlt_le, Rinv_0_lt_compat, IZR_lt. exact D0.
  Qed.
End GaussNorm.

(** ** The radius, bit-exact *)
Lemma rho32_near sincosf logf eps u : libm_accurate sincosf logf eps -> 0 <= eps <= / 4096 -> (0 <= u < 2 ^ 32)%Z ->
  Rabs (rho32 logf u * rho32 logf u - radius2 32 u) <= (79 * bpow radix2 (- 24) + 5 * eps) * (1 + radius2 32 u).
Proof.
  intros Hl He Hu.
  pose proof (rad_spec 24 128 ltac:(lia) 32 ltac:(lia) ltac:(lia) ufactor32 (mul32 half32 ufactor32) ufactor32_ok uhalf32_ok
      sincosf logf eps pi32 (of_Z32 (-2)) uneg11_32 Hl He ltac:(lia) mtwo32_ok pi32_ok un32_ok u Hu) as (_ & _ & A).
  eapply Rle_trans; [exact A|]. pose proof (radius2_nonneg 32 ltac:(lia) u Hu). apply Rmult_le_compat_r; [lra|]. change (Z.opp 24) with (-24)%Z. pose proof (bpow_ge_0 radix2 (- 24)). lra.
Qed.
Lemma rho64_near sincos log eps u : libm_accurate sincos log eps -> 0 <= eps <= / 4096 -> (0 <= u < 2 ^ 64)%Z ->
  Rabs (rho64 log u * rho64 log u - radius2 64 u) <= (79 * bpow radix2 (- 53) + 5 * eps) * (1 + radius2 64 u).
Proof.
  intros Hl He Hu.
  pose proof (rad_spec 53 1024 ltac:(lia) 64 ltac:(lia) ltac:(lia) ufactor64 (mul64 half64 ufactor64) ufactor64_ok uhalf64_ok
      sincos log eps pi64 (of_Z64 (-2)) uneg11_64 Hl He ltac:(lia) mtwo64_ok pi64_ok un64_ok u Hu) as (_ & _ & A).
  eapply Rle_trans; [exact A|]. pose proof (radius2_nonneg 64 ltac:(lia) u Hu). apply Rmult_le_compat_r; [lra|]. change (Z.opp 53) with (-53)%Z. pose proof (bpow_ge_0 radix2 (- 53)). lra.
Qed.
(** The mass of the cell next to 0, where the logarithm is large. *)
Lemma nl_half_cell W : (0 < W)%Z -> 0 <= nl (half_cell W) <= 7 / 10 * IZR (W + 1).
Proof.
  intros HW. unfold nl, half_cell. assert (E : ln (IZR (2 ^ (W + 1))) = IZR (W + 1) * ln 2).
  { rewrite <- (Z2Nat.id (W + 1)) by lia. rewrite <- pow_IZR, ln_pow by lra. rewrite INR_IZR_INZ. reflexivity. }
  assert (P : 0 < IZR (2 ^ (W + 1))) by (apply IZR_lt, Z.pow_pos_nonneg; lia).
  rewrite ln_Rinv, Ropp_involutive, E by exact P. pose proof BoxPi.ln2_le. pose proof ln_lt_2. assert (0 <= IZR (W + 1)) by (apply IZR_le; lia). nra.
Qed.
Lemma prim2_half_cell W : (0 < W)%Z -> prim 2 (half_cell W) <= (7 / 10 * IZR (W + 1) + 2) ^ 2 * half_cell W.
Proof.
  intros HW. pose proof (nl_half_cell W HW) as N. assert (P : 0 < half_cell W) by (apply Rinv_0_lt_compat, IZR_lt, Z.pow_pos_nonneg; lia).
  set (l := nl (half_cell W)) in *. cbn [prim]. fold l. set (h := half_cell W) in *. clearbody l h. replace (INR 2) with 2 by (cbn; lra). replace (INR 1) with 1 by reflexivity. cbn [pow].
  assert (l * l <= (7 / 10 * IZR (W + 1)) * (7 / 10 * IZR (W + 1))) by (apply Rmult_le_compat; lra).
  assert (h * (l * l) <= h * ((7 / 10 * IZR (W + 1)) * (7 / 10 * IZR (W + 1)))) by (apply Rmult_le_compat_l; lra). assert (h * l <= h * (7 / 10 * IZR (W + 1))) by (apply Rmult_le_compat_l; lra). nra.
Qed.
