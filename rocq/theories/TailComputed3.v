(** Supporting proofs for the numbers that dense operators compute, whatever driver calls them: sparse data is dense data with
    zeros; the hypotheses about random blocks hold for all generators (C77, C78). *)
From Coq Require Import ZArith Reals Lra Psatz.
From Flocq Require Import Core BinarySingleNaN.
From Verif Require Import Base Interleave Spec RngModel DenseModel DenseSpec DenseProofs2 SparseSkopModel SparseSpec SpFmtModel SpFmtSpec SpmmModel SpmmSpec PropsSpFmt
  FloatModel FloatProofs FloatProofs2 FloatProofs3 SketchModel SketchSpec RoundModel RoundSpec RoundSpec2 RoundSpec3 GemmModel GemmSpec GemmProofs BlasProofs PropsBlas
  IsoSpec IsoProofs PropsIso StatSpec StatProofs DenseFloatModel DenseIsoProofs2 PropsStat BoxModel BoxSpec BoxProofs2 BoxProofs5 BoxLibm PropsGauss
  NormSpec NormProofs NormProofs3 PropsNorm2 PropsNorm3 GramSpec GramProofs GramProofs2 GramProofs3 GramProofs5 PropsRound PropsGram PropsFloat PropsRoundFinite PropsGram2
  TailSpec TailProofs PropsTail PropsTail2 TailComputed PropsTail3.
Import ListNotations.
Local Open Scope R_scope.

(** ** Zeros may be added to a sum of products *)
Section Pad.
  Context {prec emax : Z}.
  Local Notation bf := (binary_float prec emax).
  (** The stored value at a position, zero if there is none. *)
  Definition sole (l : list bf) : bf := match l with [] => B754_zero false | v :: _ => v end.
  Variables (s : Z -> list bf) (e : Z -> bf).
  Hypothesis One : forall k, (length (s k) <= 1)%nat.
  Notation part ks := (flat_map (fun k => map (fun v => (v, e k)) (s k)) ks).
  Notation whole ks := (map (fun k => (sole (s k), e k)) ks).
  Lemma pad_le (f : bf * bf -> R) ks : (forall q, 0 <= f q) -> Rtotal (map f (part ks)) <= Rtotal (map f (whole ks)).
  Proof.
    intros Hf. induction ks as [|k ks IH]; [cbn; lra|]. cbn [flat_map map]. pose proof (One k) as L1. unfold Rtotal in *. destruct (s k) as [|v [|w r]]; cbn [length] in L1; [| |lia].
    - cbn [map app fold_right]. pose proof (Hf (sole [], e k)). lra.
    - cbn [map app fold_right sole]. lra.
  Qed.
  Lemma pad_eq (f : bf * bf -> R) ks : (forall x, f (B754_zero false, x) = 0) -> Rtotal (map f (part ks)) = Rtotal (map f (whole ks)).
  Proof.
    intros Hf. induction ks as [|k ks IH]; [reflexivity|]. cbn [flat_map map]. pose proof (One k) as L1. unfold Rtotal in *. destruct (s k) as [|v [|w r]]; cbn [length] in L1; [| |lia].
    - cbn [map app fold_right sole]. rewrite Hf. lra.
    - cbn [map app fold_right sole]. now f_equal.
  Qed.
  Lemma pad_len ks : (zlen (part ks) <= zlen (whole ks))%Z.
  Proof.
    induction ks as [|k ks IH]; [reflexivity|]. cbn [flat_map map]. pose proof (One k) as L1. unfold zlen in *. rewrite app_length, map_length. cbn [length] in *. lia.
  Qed.
  Lemma surely_near_pad (alpha : bf) ks beta c y : surely_near alpha (part ks) beta c y -> surely_near alpha (whole ks) beta c y.
  Proof.
    intros H U N.
    assert (E1 : exact_cell alpha (part ks) beta c = exact_cell alpha (whole ks) beta c).
    { unfold exact_cell. rewrite (pad_eq (fun q => B2R (fst q) * B2R (snd q)) ks); [reflexivity|]. intros x. cbn [fst snd B2R]. lra. }
    assert (E2 : size_cell alpha (part ks) beta c = size_cell alpha (whole ks) beta c).
    { unfold size_cell. rewrite (pad_eq (fun q => Rabs (B2R (fst q)) * Rabs (B2R (snd q))) ks); [reflexivity|]. intros x. cbn [fst snd B2R]. rewrite Rabs_R0. lra. }
    assert (Tiny : 0 <= @half_tiny prec emax) by apply bpow_ge_0.
    assert (E3 : 0 <= underflow alpha (part ks) <= underflow alpha (whole ks)).
    { unfold underflow. assert (P : forall q : bf * bf, 0 <= 1 + Rabs (B2R alpha) + Rabs (B2R (fst q)) + Rabs (B2R (snd q))).
      { intros q. pose proof (Rabs_pos (B2R alpha)). pose proof (Rabs_pos (B2R (fst q))). pose proof (Rabs_pos (B2R (snd q))). lra. }
      pose proof (pad_le (fun q => 1 + Rabs (B2R alpha) + Rabs (B2R (fst q)) + Rabs (B2R (snd q))) ks P) as Q. split.
      - apply Rmult_le_pos; [exact Tiny|]. assert (0 <= Rtotal (map (fun q => 1 + Rabs (B2R alpha) + Rabs (B2R (fst q)) + Rabs (B2R (snd q))) (part ks))); [|lra].
        generalize (part ks). intros p. unfold Rtotal. induction p as [|q p IH]; cbn [map fold_right]; [lra|]. specialize (P q). lra.
      - apply Rmult_le_compat_l; [exact Tiny|]. lra. }
    assert (E4 : 0 <= total_size alpha (part ks) beta c <= total_size alpha (whole ks) beta c).
    { unfold total_size. assert (P : forall q : bf * bf, 0 <= (1 + Rabs (B2R (fst q))) * (1 + Rabs (B2R (snd q)))).
      { intros q. pose proof (Rabs_pos (B2R (fst q))). pose proof (Rabs_pos (B2R (snd q))). nra. }
      pose proof (pad_le (fun q => (1 + Rabs (B2R (fst q))) * (1 + Rabs (B2R (snd q)))) ks P) as Q.
      assert (Q0 : 0 <= Rtotal (map (fun q => (1 + Rabs (B2R (fst q))) * (1 + Rabs (B2R (snd q)))) (part ks))).
      { generalize (part ks). intros p. unfold Rtotal. induction p as [|q p IH]; cbn [map fold_right]; [lra|]. specialize (P q). lra. }
      assert (B0 : 0 <= unless_zero beta ((1 + Rabs (B2R beta)) * (1 + Rabs (B2R c)))).
      { pose proof (Rabs_pos (B2R beta)). pose proof (Rabs_pos (B2R c)). unfold unless_zero. destruct beta; try lra; nra. }
      pose proof (Rabs_pos (B2R alpha)) as A0. revert B0. generalize (unless_zero beta ((1 + Rabs (B2R beta)) * (1 + Rabs (B2R c)))). intros rb B0.
      revert A0. generalize (Rabs (B2R alpha)). intros a A0. unfold unless_zero. destruct alpha; nra. }
    pose proof (pad_len ks) as E5. assert (L0 : (0 <= zlen (part ks))%Z) by (unfold zlen; lia).
    assert (G1 : 1 <= 1 + bpow radix2 (- prec)) by (pose proof (bpow_ge_0 radix2 (- prec)); lra).
    assert (Gm : (1 + bpow radix2 (- prec)) ^ Z.to_nat (zlen (part ks) + 2) <= (1 + bpow radix2 (- prec)) ^ Z.to_nat (zlen (whole ks) + 2)) by (apply Rle_pow; [exact G1|lia]).
    assert (Gp : 1 <= (1 + bpow radix2 (- prec)) ^ Z.to_nat (zlen (part ks) + 2)) by (apply pow_R1_Rle; exact G1).
    assert (Sz : 0 <= size_cell alpha (whole ks) beta c).
    { rewrite <- E2. unfold size_cell. assert (P : forall p : list (bf * bf), 0 <= Rtotal (map (fun q => Rabs (B2R (fst q)) * Rabs (B2R (snd q))) p)).
      { intros p. unfold Rtotal. induction p as [|q p IH]; cbn [map fold_right]; [lra|]. assert (0 <= Rabs (B2R (fst q)) * Rabs (B2R (snd q))) by (apply Rmult_le_pos; apply Rabs_pos). lra. }
      specialize (P (part ks)). pose proof (Rmult_le_pos _ _ (Rabs_pos (B2R alpha)) P). pose proof (Rmult_le_pos _ _ (Rabs_pos (B2R beta)) (Rabs_pos (B2R c))). lra. }
    destruct H as [Fy Ny].
    - destruct U as [U1 U2]. split; [|exact U2]. destruct U1 as [U1|[E|[Fa U1]]]; [now left| |].
      + right. left. destruct ks; [reflexivity|discriminate].
      + right. right. split; [exact Fa|]. intros v x Hin. apply U1. apply in_flat_map in Hin as (k & Hk & Hin). apply in_map_iff in Hin as (w & Eq & Hw).
        injection Eq as <- <-. apply in_map_iff. exists k. split; [|exact Hk]. pose proof (One k) as L1. destruct (s k) as [|z [|z' r]]; cbn [length] in L1; [destruct Hw| |lia]. destruct Hw as [->|[]]. reflexivity.
    - unfold no_overflow in *. eapply Rle_trans; [|exact N]. apply Rmult_le_compat; lra.
    - split; [exact Fy|]. unfold RoundSpec2.near in *. cbv zeta in Ny |- *. rewrite E1, E2 in Ny. eapply Rle_trans; [exact Ny|]. apply Rplus_le_compat.
      + apply Rmult_le_compat_r; [exact Sz|]. lra.
      + apply Rmult_le_compat; lra.
  Qed.
End Pad.

(** ** Any driver: results near the exact products of the operator with the data *)
Section Any.
Context {prec emax : Z} {pp : Prec_gt_0 prec} {pe : Prec_lt_emax prec emax}.
Local Notation bf := (binary_float prec emax).
Context {Kt Wt : Type}.
Variables (cast : Wt -> bf) (env : dense_env Kt Wt bf) (fsched : schedule bf).
Variables (nr nc : Z) (fam : DenseModel.family) (D : dense_dist) (seed : rng_state Kt) (dflt : list Wt).
Variable blocks : list (list Wt).
Variables (n : Z) (alpha : bf) (zs : bool).
Notation d := (Z.min nr nc).
Notation m := (Z.max nr nc).
Notation u := (bpow radix2 (- prec)).
Notation L := (g_len (env_gen env fam)).
Notation draws := (tapes (Z.to_nat (dense_blocks D L)) blocks).
Notation sampled := (fun t => sketch_of nr nc (dense_sampled cast B2R (with_blocks env seed dflt t) fsched D seed)).

(** What is known about the random blocks. *)
Definition ready (bd v slack : R) : Prop :=
  (forall b, In b blocks -> zlen b = L) /\
  (forall b x, In b blocks -> In x b -> is_finite (family_map env fam (cast x)) = true /\ Rabs (B2R (family_map env fam (cast x))) <= bd) /\
  inner_products_kept draws (dense_iso2 D) sampled d m v /\
  0 <= slack /\ geometry_kept_exp draws (dense_iso2 D) sampled d m slack.
(** The precision is large enough for sizes 2^em and data between 2^lo and 2^hi. *)
Definition ranges_ok (em lo hi : Z) (bd : R) : Prop :=
  (20 <= prec)%Z /\ (0 <= em)%Z /\ (2 * em <= prec)%Z /\ (lo <= 0)%Z /\ (0 <= hi)%Z /\
  (2 * (5 + (3 - emax - prec - 1) + em - lo) + (63 + em) <= 4 * - prec)%Z /\ (8 + em + hi <= emax - 1)%Z /\ 1 <= bd <= 10.

Lemma any_driver em lo hi bd v slack : valid_schedule fsched -> mk_dense_dist nr nc fam Long = Ok D -> dense_fits env D seed -> zlen dflt = L ->
  ready bd v slack -> scale_ok D alpha -> ranges_ok em lo hi bd ->
  forall b out old, (0 <= n)%Z -> (forall k j, (0 <= k < m)%Z -> (0 <= j < n)%Z -> is_finite (b k j) = true) ->
  sizes_ok nr nc n em lo hi (fun j k => B2R (b k j)) ->
  (forall t r j, In t draws -> (0 <= r < d)%Z -> (0 <= j < n)%Z ->
     surely_near alpha (map (fun k => (ent cast env nr nc D seed dflt t r k, b k j)) (range 0 m)) (B754_zero zs) (old r j) (out t r j)) ->
  let round := bd * bd * (2 * (IZR m + 12) * (IZR m + 12) * u) in let X := fun j k => B2R (b k j) in let Y := fun t j r => B2R (out t r j) in
  (forall t r j, In t draws -> (0 <= r < d)%Z -> (0 <= j < n)%Z -> is_finite (out t r j) = true) /\
  (forall e, 0 < e -> probability draws (fun t => exceeds (gram_gap n d (Y t) m X) ((e + round) * frob2 n m X)) <= v / e ^ 2) /\
  computed_distances_kept draws d m n X Y slack round (bpow radix2 (2 * lo)) /\
  computed_combinations_kept draws d m n X Y slack round /\
  (forall t z, In t draws -> let y := combine n (Y t) z in let x := sampled t (combine n X z) in
     Rabs (dot d y y - dense_iso2 D * dot d x x) <= round * frob2 n m X * dot n z z).
Proof.
  intros Hf HD HF Hdf (HBl & HBf & HIP & Hsl & _ & JL & SE & _) [Fal Hal] (Hp & He0 & Hep & Hlo & Hhi & H1 & H2 & Hbd).
  assert (M0 : (0 <= m)%Z). { destruct (mk_dense_dist_inv _ _ _ _ _ HD) as (P1 & P2 & _). lia. }
  assert (One : 1 = bpow radix2 0) by reflexivity.
  set (sk := fun t => sketch_of nr nc (dense_sampled cast B2R (with_blocks env seed dflt t) fsched D seed)) in *.
  set (rd := bd * bd * (2 * (IZR m + 12) * (IZR m + 12) * u)).
  assert (M1 : 0 <= IZR m) by now apply IZR_le.
  assert (R0 : 0 <= rd). { unfold rd. assert (0 < u) by apply bpow_gt_0. assert (0 <= 2 * (IZR m + 12) * (IZR m + 12)) by nra. apply Rmult_le_pos; [nra|]. apply Rmult_le_pos; lra. }
  assert (Main : forall q b out old, (0 <= q)%Z -> (forall k j, (0 <= k < m)%Z -> (0 <= j < q)%Z -> is_finite (b k j) = true) ->
    sizes_ok nr nc q em lo hi (fun j k => B2R (b k j)) ->
    (forall t r j, In t draws -> (0 <= r < d)%Z -> (0 <= j < q)%Z ->
       surely_near alpha (map (fun k => (ent cast env nr nc D seed dflt t r k, b k j)) (range 0 m)) (B754_zero zs) (old r j) (out t r j)) ->
    forall t z, In t draws -> let y := combine q (fun j r => B2R (out t r j)) z in let x := sk t (combine q (fun j k => B2R (b k j)) z) in
      Rabs (dot d y y - dense_iso2 D * dot d x x) <= rd * frob2 q m (fun j k => B2R (b k j)) * dot q z z).
  { intros q b out old Hn Hb (Z1 & Z2 & Z3) Ho t z Ht. destruct (size_pow m em ltac:(lia) He0) as [S1 S2].
    apply (dense_float_close cast env fsched Hf nr nc fam D seed dflt HD HF Hdf blocks bd v HBl Hbd HBf HIP b q out old alpha zs Hn Hb Fal Hal Hp) with
      (M := bpow radix2 em) (lo := bpow radix2 lo) (hi := bpow radix2 hi) (N := bpow radix2 63); auto.
    - apply (Rle_trans _ (bpow radix2 (2 * em) * bpow radix2 (- prec))); [apply Rmult_le_compat_r; [apply bpow_ge_0|exact S1]|]. rewrite <- bpow_plus, One. apply bpow_le. lia.
    - rewrite One. apply bpow_le. lia.
    - rewrite <- IZR_Zpower by lia. apply IZR_le. exact Z2.
    - split; [apply bpow_gt_0|]. rewrite One. apply bpow_le. lia.
    - rewrite One. apply bpow_le. lia.
    - rewrite <- !bpow_plus. replace (lo + lo)%Z with (2 * lo)%Z by lia. replace (hi + hi)%Z with (2 * hi)%Z by lia. exact Z3.
    - rewrite u_pow. unfold half_tiny, Rdiv. rewrite <- bpow_opp. change 32 with (bpow radix2 5). rewrite <- !bpow_plus. apply bpow_le. lia.
    - change 256 with (bpow radix2 8). rewrite <- !bpow_plus. apply bpow_le. lia. }
  assert (Both : forall b out old, (0 <= n)%Z -> (forall k j, (0 <= k < m)%Z -> (0 <= j < n)%Z -> is_finite (b k j) = true) ->
    sizes_ok nr nc n em lo hi (fun j k => B2R (b k j)) ->
    (forall t r j, In t draws -> (0 <= r < d)%Z -> (0 <= j < n)%Z ->
       surely_near alpha (map (fun k => (ent cast env nr nc D seed dflt t r k, b k j)) (range 0 m)) (B754_zero zs) (old r j) (out t r j)) ->
    computed_distances_kept draws d m n (fun j k => B2R (b k j)) (fun t j r => B2R (out t r j)) slack rd (bpow radix2 (2 * lo)) /\
    computed_combinations_kept draws d m n (fun j k => B2R (b k j)) (fun t j r => B2R (out t r j)) slack rd).
  { intros b out old Hn Hb Hsz Ho. assert (Lin : forall t, linear m (sk t)) by (intros t; apply sketch_of_linear). split.
    - apply (computed_distances draws (dense_iso2 D) sk d m n slack); auto.
      intros t i j Ht Hi Hj N x y norms Hl. destruct Hsz as (Z1 & Z2 & Z3 & Z4).
      pose proof (Main 2%Z (fun k s => b k (pick i j s)) (fun t r s => out t r (pick i j s)) (fun r s => old r (pick i j s)) ltac:(lia)) as G.
      assert (I : forall s, (0 <= pick i j s < n)%Z) by (intros s; unfold pick; destruct (s =? 0)%Z; assumption).
      assert (Fr : frob2 2 m (fun s k => B2R (b k (pick i j s))) = norms) by exact (pick_frob m (fun s k => B2R (b k s)) i j).
      specialize (G (fun k s Hk _ => Hb k _ Hk (I s))).
      assert (SZ : sizes_ok nr nc 2 em lo hi (fun s k => B2R (b k (pick i j s)))).
      { split; [exact Z1|]. split; [lia|]. rewrite Fr. split; [exact Hl|]. eapply Rle_trans; [|exact Z4]. now apply (frob2_two n m (fun s k => B2R (b k s))). }
      specialize (G SZ (fun t r s Ht Hr _ => Ho t r _ Ht Hr (I s)) t minus Ht). cbv zeta beta in G. rewrite minus_norm, Fr in G.
      assert (Ey : dot d (combine 2 (fun s r => B2R (out t r (pick i j s))) minus) (combine 2 (fun s r => B2R (out t r (pick i j s))) minus) = dot d y y)
        by (apply dot_ext; intros r _; exact (pick_minus (fun s r => B2R (out t r s)) i j r)).
      assert (Ex : dot d (sk t (combine 2 (fun s k => B2R (b k (pick i j s))) minus)) (sk t (combine 2 (fun s k => B2R (b k (pick i j s))) minus)) = dot d (sk t x) (sk t x))
        by (apply dot_ext; intros r _; apply (proj2 (Lin t)); intros k _; exact (pick_minus (fun s k => B2R (b k s)) i j k)).
      rewrite Ey, Ex in G. eapply Rle_trans; [exact G|]. right. ring.
    - apply (computed_combinations draws (dense_iso2 D) sk d m n slack); auto.
      intros t z Ht. exact (Main n b out old Hn Hb Hsz Ho t z Ht). }
  assert (GMain : forall b out old, (0 <= n)%Z -> (forall k j, (0 <= k < m)%Z -> (0 <= j < n)%Z -> is_finite (b k j) = true) ->
    sizes_ok nr nc n em lo hi (fun j k => B2R (b k j)) ->
    (forall t r j, In t draws -> (0 <= r < d)%Z -> (0 <= j < n)%Z ->
       surely_near alpha (map (fun k => (ent cast env nr nc D seed dflt t r k, b k j)) (range 0 m)) (B754_zero zs) (old r j) (out t r j)) ->
    (forall t r j, In t draws -> (0 <= r < d)%Z -> (0 <= j < n)%Z -> is_finite (out t r j) = true) /\
    forall e, 0 < e -> probability draws (fun t => exceeds (gram_gap n d (fun j r => B2R (out t r j)) m (fun j k => B2R (b k j)))
      ((e + bd * bd * (2 * (IZR m + 12) * (IZR m + 12) * u)) * frob2 n m (fun j k => B2R (b k j)))) <= v / e ^ 2).
  { intros b out old Hn Hb (Z1 & Z2 & Z3) Ho. destruct (size_pow m em ltac:(lia) He0) as [S1 S2].
    apply (dense_float_gram cast env fsched Hf nr nc fam D seed dflt HD HF Hdf blocks bd v HBl Hbd HBf HIP b n out old alpha zs Hn Hb Fal Hal Hp) with
      (M := bpow radix2 em) (lo := bpow radix2 lo) (hi := bpow radix2 hi) (N := bpow radix2 63); auto.
    - apply (Rle_trans _ (bpow radix2 (2 * em) * bpow radix2 (- prec))); [apply Rmult_le_compat_r; [apply bpow_ge_0|exact S1]|]. rewrite <- bpow_plus, One. apply bpow_le. lia.
    - rewrite One. apply bpow_le. lia.
    - rewrite <- IZR_Zpower by lia. apply IZR_le. exact Z2.
    - split; [apply bpow_gt_0|]. rewrite One. apply bpow_le. lia.
    - rewrite One. apply bpow_le. lia.
    - rewrite <- !bpow_plus. replace (lo + lo)%Z with (2 * lo)%Z by lia. replace (hi + hi)%Z with (2 * hi)%Z by lia. exact Z3.
    - rewrite u_pow. unfold half_tiny, Rdiv. rewrite <- bpow_opp. change 32 with (bpow radix2 5). rewrite <- !bpow_plus. apply bpow_le. lia.
    - change 256 with (bpow radix2 8). rewrite <- !bpow_plus. apply bpow_le. lia. }
  intros b out old Hn Hb Hsz Ho round X Y. destruct (GMain b out old Hn Hb Hsz Ho) as [G1 G2]. destruct (Both b out old Hn Hb Hsz Ho) as [G3 G4].
  exact (conj G1 (conj G2 (conj G3 (conj G4 (Main n b out old Hn Hb Hsz Ho))))).
Qed.
End Any.

(** ** All generators *)
Lemma ready_uniform_float {Kt} (env : dense_env Kt b32 b32) fsched nr nc D seed dflt : let L := g_len (env_unif env) in 
  valid_schedule fsched -> mk_dense_dist nr nc Uniform Long = Ok D -> dense_fits env D seed -> zlen dflt = L -> env_scal3 env = scal3_32 -> 
  ready (fun x => x) env fsched nr nc Uniform D seed dflt (uneg11_blocks32 L) 2 (uniform_spread (/ IZR (2 ^ 20)) (Z.min nr nc) (Z.max nr nc)) (uniform_slack (/ IZR (2 ^ 20)) (Z.max nr nc)).
Proof.
  intros L Hf HD HF Hdf E3.
  pose proof (L_nonneg env Uniform nr nc D seed HD HF) as L0. cbn [env_gen] in L0.
  destruct (C68_uniform_float env fsched nr nc D seed dflt Hf HD HF E3 Hdf) as [HIP _]. pose proof (C72_uniform_float env fsched nr nc D seed dflt Hf HD HF E3 Hdf) as GE.
  split; [|split; [|split; [exact HIP|split; [|exact GE]]]].
  - intros b Hb. exact (proj1 (tape_blocks (map uneg11_32) _ L b (fun ri => zlen_map _ ri) L0 Hb)).
  - intros b x Hb Hx. destruct (tape_blocks (map uneg11_32) _ L b (fun ri => zlen_map _ ri) L0 Hb) as (_ & ri & -> & _ & Hw).
    apply in_map_iff in Hx as (w & <- & Hin). cbn [family_map]. rewrite E3. apply unif_float. apply in_range. now apply Hw.
  - apply (uniform_slack_nonneg env seed _ nr nc Uniform D HD HF). apply Rlt_le, Rinv_0_lt_compat, IZR_lt. reflexivity.
Qed.
Lemma ready_uniform_double {Kt} (env : dense_env Kt b32 b64) fsched nr nc D seed dflt : let L := g_len (env_unif env) in 
  valid_schedule fsched -> mk_dense_dist nr nc Uniform Long = Ok D -> dense_fits env D seed -> zlen dflt = L -> env_scal3 env = scal3_64 -> 
  ready to64 env fsched nr nc Uniform D seed dflt (uneg11_blocks32 L) 2 (uniform_spread (/ IZR (2 ^ 20)) (Z.min nr nc) (Z.max nr nc)) (uniform_slack (/ IZR (2 ^ 20)) (Z.max nr nc)).
Proof.
  intros L Hf HD HF Hdf E3.
  pose proof (L_nonneg env Uniform nr nc D seed HD HF) as L0. cbn [env_gen] in L0.
  destruct (C68_uniform_double env fsched nr nc D seed dflt Hf HD HF E3 Hdf) as [HIP _]. pose proof (C72_uniform_double env fsched nr nc D seed dflt Hf HD HF E3 Hdf) as GE.
  split; [|split; [|split; [exact HIP|split; [|exact GE]]]].
  - intros b Hb. exact (proj1 (tape_blocks (map uneg11_32) _ L b (fun ri => zlen_map _ ri) L0 Hb)).
  - intros b x Hb Hx. destruct (tape_blocks (map uneg11_32) _ L b (fun ri => zlen_map _ ri) L0 Hb) as (_ & ri & -> & _ & Hw).
    apply in_map_iff in Hx as (w & <- & Hin). cbn [family_map]. rewrite E3. apply unif_widened. apply in_range. now apply Hw.
  - apply (uniform_slack_nonneg env seed _ nr nc Uniform D HD HF). apply Rlt_le, Rinv_0_lt_compat, IZR_lt. reflexivity.
Qed.
Lemma ready_uniform_wide_words {Kt} (env : dense_env Kt b64 b64) fsched nr nc D seed dflt : let L := g_len (env_unif env) in 
  valid_schedule fsched -> mk_dense_dist nr nc Uniform Long = Ok D -> dense_fits env D seed -> zlen dflt = L -> env_scal3 env = scal3_64 -> 
  ready (fun x => x) env fsched nr nc Uniform D seed dflt (uneg11_blocks64 L) 2 (uniform_spread (/ IZR (2 ^ 49)) (Z.min nr nc) (Z.max nr nc)) (uniform_slack (/ IZR (2 ^ 49)) (Z.max nr nc)).
Proof.
  intros L Hf HD HF Hdf E3.
  pose proof (L_nonneg env Uniform nr nc D seed HD HF) as L0. cbn [env_gen] in L0.
  destruct (C68_uniform_wide_words env fsched nr nc D seed dflt Hf HD HF E3 Hdf) as [HIP _]. pose proof (C72_uniform_wide_words env fsched nr nc D seed dflt Hf HD HF E3 Hdf) as GE.
  split; [|split; [|split; [exact HIP|split; [|exact GE]]]].
  - intros b Hb. exact (proj1 (tape_blocks (map uneg11_64) _ L b (fun ri => zlen_map _ ri) L0 Hb)).
  - intros b x Hb Hx. destruct (tape_blocks (map uneg11_64) _ L b (fun ri => zlen_map _ ri) L0 Hb) as (_ & ri & -> & _ & Hw).
    apply in_map_iff in Hx as (w & <- & Hin). cbn [family_map]. rewrite E3. apply unif_double. apply in_range. now apply Hw.
  - apply (uniform_slack_nonneg env seed _ nr nc Uniform D HD HF). apply Rlt_le, Rinv_0_lt_compat, IZR_lt. reflexivity.
Qed.
Lemma ready_gaussian_float {Kt} (env : dense_env Kt b32 b32) fsched nr nc D seed dflt junk sincosf logf eps : let L := g_len (env_gauss env) in let blocks := map (boxmul_block (boxmuller_32 sincosf logf) junk) (tapes (Z.to_nat L) (range 0 (2 ^ 32))) in 
  valid_schedule fsched -> mk_dense_dist nr nc Gaussian Long = Ok D -> dense_fits env D seed -> zlen dflt = L -> nr <> nc -> Z.even L = true -> libm_accurate sincosf logf eps -> 0 <= eps <= / 4096 -> 
  ready (fun x => x) env fsched nr nc Gaussian D seed dflt blocks 7 (gaussian_spread (79 / IZR (2 ^ 24) + 5 * eps) (Z.min nr nc) (Z.max nr nc)) (gaussian_slack (79 / IZR (2 ^ 24) + 5 * eps) (48 * (79 / IZR (2 ^ 24) + 5 * eps)) (Z.max nr nc)).
Proof.
  intros L blocks Hf HD HF Hdf Hsq Ev Hl He.
  pose proof (L_nonneg env Gaussian nr nc D seed HD HF) as L0. cbn [env_gen] in L0.
  destruct (C70_gaussian_float env fsched nr nc D seed dflt junk sincosf logf eps Hf HD HF Hl He Ev Hdf) as [HIP _]. pose proof (C73_gaussian_float env fsched nr nc D seed dflt junk sincosf logf eps Hf HD HF Hsq Hl He Ev Hdf) as GE.
  split; [|split; [|split; [exact HIP|split; [|exact GE]]]].
  - intros b Hb. exact (proj1 (tape_blocks _ _ L b (block_len _ junk) L0 Hb)).
  - intros b x Hb Hx. destruct (tape_blocks _ _ L b (block_len _ junk) L0 Hb) as (_ & ri & -> & Lr & Hw).
    apply block_lane in Hx as (k & u0 & u1 & I0 & I1 & ->); [|now rewrite Lr]. cbn [family_map].
    destruct (finite32 sincosf logf eps u0 u1 Hl He (proj1 (in_range _ _ _) (Hw u0 I0)) (proj1 (in_range _ _ _) (Hw u1 I1)) k) as [F Bd]. split; [exact F|]. apply Rabs_le. exact Bd.
  - apply (gaussian_slack_nonneg env seed _ _ nr nc Gaussian D HD HF); cbn [Z.pow Z.pow_pos Pos.iter Z.mul Pos.mul]; lra.
Qed.
Lemma ready_gaussian_double {Kt} (env : dense_env Kt b32 b64) fsched nr nc D seed dflt junk sincosf logf eps : let L := g_len (env_gauss env) in let blocks := map (boxmul_block (boxmuller_32 sincosf logf) junk) (tapes (Z.to_nat L) (range 0 (2 ^ 32))) in 
  valid_schedule fsched -> mk_dense_dist nr nc Gaussian Long = Ok D -> dense_fits env D seed -> zlen dflt = L -> nr <> nc -> Z.even L = true -> libm_accurate sincosf logf eps -> 0 <= eps <= / 4096 -> 
  ready to64 env fsched nr nc Gaussian D seed dflt blocks 7 (gaussian_spread (79 / IZR (2 ^ 24) + 5 * eps) (Z.min nr nc) (Z.max nr nc)) (gaussian_slack (79 / IZR (2 ^ 24) + 5 * eps) (48 * (79 / IZR (2 ^ 24) + 5 * eps)) (Z.max nr nc)).
Proof.
  intros L blocks Hf HD HF Hdf Hsq Ev Hl He.
  pose proof (L_nonneg env Gaussian nr nc D seed HD HF) as L0. cbn [env_gen] in L0.
  destruct (C70_gaussian_double env fsched nr nc D seed dflt junk sincosf logf eps Hf HD HF Hl He Ev Hdf) as [HIP _]. pose proof (C73_gaussian_double env fsched nr nc D seed dflt junk sincosf logf eps Hf HD HF Hsq Hl He Ev Hdf) as GE.
  split; [|split; [|split; [exact HIP|split; [|exact GE]]]].
  - intros b Hb. exact (proj1 (tape_blocks _ _ L b (block_len _ junk) L0 Hb)).
  - intros b x Hb Hx. destruct (tape_blocks _ _ L b (block_len _ junk) L0 Hb) as (_ & ri & -> & Lr & Hw).
    apply block_lane in Hx as (k & u0 & u1 & I0 & I1 & ->); [|now rewrite Lr]. cbn [family_map].
    destruct (finite32 sincosf logf eps u0 u1 Hl He (proj1 (in_range _ _ _) (Hw u0 I0)) (proj1 (in_range _ _ _) (Hw u1 I1)) k) as [F Bd].
    destruct (to64_ok _ F) as [E64 F64]. split; [exact F64|]. rewrite E64. apply Rabs_le. exact Bd.
  - apply (gaussian_slack_nonneg env seed _ _ nr nc Gaussian D HD HF); cbn [Z.pow Z.pow_pos Pos.iter Z.mul Pos.mul]; lra.
Qed.
Lemma ready_gaussian_wide_words {Kt} (env : dense_env Kt b64 b64) fsched nr nc D seed dflt junk sincos log eps : let L := g_len (env_gauss env) in let blocks := map (boxmul_block (boxmuller_64 sincos log) junk) (tapes (Z.to_nat L) (range 0 (2 ^ 64))) in 
  valid_schedule fsched -> mk_dense_dist nr nc Gaussian Long = Ok D -> dense_fits env D seed -> zlen dflt = L -> nr <> nc -> Z.even L = true -> libm_accurate sincos log eps -> 0 <= eps <= / 4096 -> 
  ready (fun x => x) env fsched nr nc Gaussian D seed dflt blocks 10 (gaussian_spread (79 / IZR (2 ^ 53) + 5 * eps) (Z.min nr nc) (Z.max nr nc)) (gaussian_slack (79 / IZR (2 ^ 53) + 5 * eps) (92 * (79 / IZR (2 ^ 53) + 5 * eps)) (Z.max nr nc)).
Proof.
  intros L blocks Hf HD HF Hdf Hsq Ev Hl He.
  pose proof (L_nonneg env Gaussian nr nc D seed HD HF) as L0. cbn [env_gen] in L0.
  destruct (C70_gaussian_wide_words env fsched nr nc D seed dflt junk sincos log eps Hf HD HF Hl He Ev Hdf) as [HIP _]. pose proof (C73_gaussian_wide_words env fsched nr nc D seed dflt junk sincos log eps Hf HD HF Hsq Hl He Ev Hdf) as GE.
  split; [|split; [|split; [exact HIP|split; [|exact GE]]]].
  - intros b Hb. exact (proj1 (tape_blocks _ _ L b (block_len _ junk) L0 Hb)).
  - intros b x Hb Hx. destruct (tape_blocks _ _ L b (block_len _ junk) L0 Hb) as (_ & ri & -> & Lr & Hw).
    apply block_lane in Hx as (k & u0 & u1 & I0 & I1 & ->); [|now rewrite Lr]. cbn [family_map].
    destruct (finite64 sincos log eps u0 u1 Hl He (proj1 (in_range _ _ _) (Hw u0 I0)) (proj1 (in_range _ _ _) (Hw u1 I1)) k) as [F Bd]. split; [exact F|]. apply Rabs_le. exact Bd.
  - apply (gaussian_slack_nonneg env seed _ _ nr nc Gaussian D HD HF); cbn [Z.pow Z.pow_pos Pos.iter Z.mul Pos.mul]; lra.
Qed.
