(** The numbers sketch_general computes with dense operators keep distances, combinations of
    columns and least-squares problems except with exponentially small probability (C74).

    Definitions read by these statements: as for C71 (PropsGram2.v): [dense_hyps] (the operator is valid and
    drawn from random blocks, the BLAS keeps its promise), [scale_ok] (alpha is the isometry scale), [left_hyps], [right_hyps],
    [sizes_ok], [left_data], [right_data], [sketch_left], [sketch_right]; [computed_distances_kept],
    [computed_combinations_kept], [uniform_slack], [gaussian_slack], [net_size] (TailSpec.v).

    Everything is floating-point: the entries of the operator, products, sums, the scaling by alpha. *)
From Coq Require Import ZArith Reals Lra Psatz.
From Flocq Require Import Core BinarySingleNaN.
From Verif Require Import Base Interleave Spec RngModel DenseModel DenseSpec DenseProofs2 SparseSkopModel SparseSpec SpFmtModel SpFmtSpec SpmmModel SpmmSpec PropsSpFmt
  FloatModel FloatProofs FloatProofs2 FloatProofs3 SketchModel SketchSpec RoundModel RoundSpec RoundSpec2 RoundSpec3 GemmModel GemmSpec GemmProofs BlasProofs PropsBlas
  IsoSpec IsoProofs PropsIso StatSpec StatProofs DenseFloatModel DenseIsoProofs2 PropsStat BoxModel BoxSpec BoxProofs2 BoxProofs5 BoxLibm PropsGauss
  NormSpec NormProofs NormProofs3 PropsNorm2 PropsNorm3 GramSpec GramProofs GramProofs3 GramProofs5 PropsRound PropsGram PropsFloat PropsRoundFinite PropsGram2
  TailSpec TailProofs PropsTail PropsTail2 TailComputed.
Import ListNotations.
Local Open Scope R_scope.

Section Computed.
Context {prec emax : Z} {pp : Prec_gt_0 prec} {pe : Prec_lt_emax prec emax}.
Local Notation bf := (binary_float prec emax).
Context {Kt Wt Ft : Type}.
Variables (cast : Wt -> bf) (env : dense_env Kt Wt bf) (fsched : schedule bf).
Variable senv : sparse_env Kt Ft bf.
Variables (jT : bf) (jZ : Z).
Variable sched : schedule (list bf).
Variable ssort : (Z * Z * bf -> Z * Z * bf -> bool) -> list (Z * Z * bf) -> list (Z * Z * bf).
Variable nt : Z.
Variable blas : blas_gemm bf.
Variables (nr nc : Z) (fam : DenseModel.family) (D : dense_dist) (seed : rng_state Kt) (dflt : list Wt).
Variable blocks : list (list Wt).
Variables (l : layout) (opA : op) (n : Z) (alpha : bf) (zs : bool) (A : list bf) (lda : Z) (B : list bf) (ldb : Z).
Variable S : list (list Wt) -> dense_skop Kt bf.
Notation d := (Z.min nr nc).
Notation m := (Z.max nr nc).
Notation O := (fops prec emax).
Notation u := (bpow radix2 (- prec)).
Notation L := (g_len (env_gen env fam)).
Notation draws := (tapes (Z.to_nat (dense_blocks D L)) blocks).
Notation cell := SpmmSpec.cell.
Notation sketch_left := (sketch_left cast env fsched senv jT jZ sched ssort nt blas nr nc seed dflt l opA n alpha zs A lda B ldb S).
Notation sketch_right := (sketch_right cast env fsched senv jT jZ sched ssort nt blas nr nc seed dflt l opA n alpha zs A lda B ldb S).
Notation left_hyps := (left_hyps nr nc l opA n A lda B ldb).
Notation right_hyps := (right_hyps nr nc l opA n A lda B ldb).
Notation left_data := (left_data l opA A lda).
Notation right_data := (right_data l opA A lda).
(** Column j (row j, from the right) of the computed sketch, as real numbers. *)
Definition left_columns (t : list (list Wt)) : Z -> Z -> R := fun j r => B2R (cell O l ldb (output (sketch_left t)) r j).
Definition right_columns (t : list (list Wt)) : Z -> Z -> R := fun j r => B2R (cell O l ldb (output (sketch_right t)) j r).
(** [em], [lo], [hi] bound sizes as in C71; w is 4 for uniform entries, 49 or 100 for Gaussian ones. *)
Definition both_kept_exp (em lo hi : Z) (w slack : R) : Prop :=
  let round := w * (2 * (IZR m + 12) * (IZR m + 12) * u) in let least := bpow radix2 (2 * lo) in
  (left_hyps -> sizes_ok nr nc n em lo hi left_data ->
     computed_distances_kept draws d m n left_data left_columns slack round least /\
     computed_combinations_kept draws d m n left_data left_columns slack round) /\
  (right_hyps -> sizes_ok nr nc n em lo hi right_data ->
     computed_distances_kept draws d m n right_data right_columns slack round least /\
     computed_combinations_kept draws d m n right_data right_columns slack round).

Lemma both_exp em lo hi bd v slack : dense_hyps cast env fsched blas nr nc fam D seed dflt blocks S -> scale_ok D alpha -> (20 <= prec)%Z -> (0 <= em)%Z -> (2 * em <= prec)%Z -> (lo <= 0)%Z -> (0 <= hi)%Z ->
  (2 * (5 + (3 - emax - prec - 1) + em - lo) + (63 + em) <= 4 * - prec)%Z -> (8 + em + hi <= emax - 1)%Z -> 1 <= bd <= 10 ->
  (forall b, In b blocks -> zlen b = L) ->
  (forall b x, In b blocks -> In x b -> is_finite (family_map env fam (cast x)) = true /\ Rabs (B2R (family_map env fam (cast x))) <= bd) ->
  inner_products_kept draws (dense_iso2 D) (fun t => sketch_of nr nc (dense_sampled cast B2R (with_blocks env seed dflt t) fsched D seed)) d m v ->
  0 <= slack -> geometry_kept_exp draws (dense_iso2 D) (fun t => sketch_of nr nc (dense_sampled cast B2R (with_blocks env seed dflt t) fsched D seed)) d m slack ->
  both_kept_exp em lo hi (bd * bd) slack.
Proof.
  intros (HB & Hf & HD & HF & Hdf & HS) [Fal Hal] Hp He0 Hep Hlo Hhi H1 H2 Hbd HBl HBf HIP Hsl (_ & JL & SE & _).
  assert (M0 : (0 <= m)%Z). { destruct (mk_dense_dist_inv _ _ _ _ _ HD) as (P1 & P2 & _). lia. }
  assert (One : 1 = bpow radix2 0) by reflexivity.
  set (sk := fun t => sketch_of nr nc (dense_sampled cast B2R (with_blocks env seed dflt t) fsched D seed)) in *.
  set (rd := bd * bd * (2 * (IZR m + 12) * (IZR m + 12) * u)).
  assert (M1 : 0 <= IZR m) by now apply IZR_le.
  assert (R0 : 0 <= rd). { unfold rd. assert (0 < u) by apply bpow_gt_0. assert (0 <= 2 * (IZR m + 12) * (IZR m + 12)) by nra. apply Rmult_le_pos; [nra|]. apply Rmult_le_pos; lra. }
  assert (Main : forall q b out old, (0 <= q)%Z -> (forall k j, (0 <= k < m)%Z -> (0 <= j < q)%Z -> is_finite (b k j) = true) ->
    sizes_ok nr nc q em lo hi (fun j k => B2R (b k j)) ->
    (forall t r j, In t draws -> (0 <= r < d)%Z -> (0 <= j < q)%Z ->
       surely_near alpha (map (fun k => (ent cast env nr nc D seed dflt t r k, b k j)) (range 0 m)) (B754_zero zs) (old r j) (out t r j)) ->
    forall t z, In t draws -> let y := combine q (fun j r => B2R (out t r j)) z in let x := sk t (combine q (fun j k => B2R (b k j)) z) in
      Rabs (dot d y y - dense_iso2 D * dot d x x) <= rd * frob2 q m (fun j k => B2R (b k j)) * dot q z z).
  { intros q b out old Hn Hb (Z1 & Z2 & Z3) Ho t z Ht. destruct (size_pow m em ltac:(lia) He0) as [S1 S2].
    apply (dense_float_close cast env fsched Hf nr nc fam D seed dflt HD HF Hdf blocks bd v HBl Hbd HBf HIP b q out old alpha zs Hn Hb Fal Hal Hp) with
      (M := bpow radix2 em) (lo := bpow radix2 lo) (hi := bpow radix2 hi) (N := bpow radix2 63); auto.
    - apply (Rle_trans _ (bpow radix2 (2 * em) * bpow radix2 (- prec))); [apply Rmult_le_compat_r; [apply bpow_ge_0|exact S1]|]. rewrite <- bpow_plus, One. apply bpow_le. lia.
    - rewrite One. apply bpow_le. lia.
    - rewrite <- IZR_Zpower by lia. apply IZR_le. exact Z2.
    - split; [apply bpow_gt_0|]. rewrite One. apply bpow_le. lia.
    - rewrite One. apply bpow_le. lia.
    - rewrite <- !bpow_plus. replace (lo + lo)%Z with (2 * lo)%Z by lia. replace (hi + hi)%Z with (2 * hi)%Z by lia. exact Z3.
    - rewrite u_pow. unfold half_tiny, Rdiv. rewrite <- bpow_opp. change 32 with (bpow radix2 5). rewrite <- !bpow_plus. apply bpow_le. lia.
    - change 256 with (bpow radix2 8). rewrite <- !bpow_plus. apply bpow_le. lia. }
  assert (Both : forall b out old, (0 <= n)%Z -> (forall k j, (0 <= k < m)%Z -> (0 <= j < n)%Z -> is_finite (b k j) = true) ->
    sizes_ok nr nc n em lo hi (fun j k => B2R (b k j)) ->
    (forall t r j, In t draws -> (0 <= r < d)%Z -> (0 <= j < n)%Z ->
       surely_near alpha (map (fun k => (ent cast env nr nc D seed dflt t r k, b k j)) (range 0 m)) (B754_zero zs) (old r j) (out t r j)) ->
    computed_distances_kept draws d m n (fun j k => B2R (b k j)) (fun t j r => B2R (out t r j)) slack rd (bpow radix2 (2 * lo)) /\
    computed_combinations_kept draws d m n (fun j k => B2R (b k j)) (fun t j r => B2R (out t r j)) slack rd).
  { intros b out old Hn Hb Hsz Ho. assert (Lin : forall t, linear m (sk t)) by (intros t; apply sketch_of_linear). split.
    - apply (computed_distances draws (dense_iso2 D) sk d m n slack); auto.
      intros t i j Ht Hi Hj N x y norms Hl. destruct Hsz as (Z1 & Z2 & Z3 & Z4).
      pose proof (Main 2%Z (fun k s => b k (pick i j s)) (fun t r s => out t r (pick i j s)) (fun r s => old r (pick i j s)) ltac:(lia)) as G.
      assert (I : forall s, (0 <= pick i j s < n)%Z) by (intros s; unfold pick; destruct (s =? 0)%Z; assumption).
      assert (Fr : frob2 2 m (fun s k => B2R (b k (pick i j s))) = norms) by exact (pick_frob m (fun s k => B2R (b k s)) i j).
      specialize (G (fun k s Hk _ => Hb k _ Hk (I s))).
      assert (SZ : sizes_ok nr nc 2 em lo hi (fun s k => B2R (b k (pick i j s)))).
      { split; [exact Z1|]. split; [lia|]. rewrite Fr. split; [exact Hl|]. eapply Rle_trans; [|exact Z4]. now apply (frob2_two n m (fun s k => B2R (b k s))). }
      specialize (G SZ (fun t r s Ht Hr _ => Ho t r _ Ht Hr (I s)) t minus Ht). cbv zeta beta in G. rewrite minus_norm, Fr in G.
      assert (Ey : dot d (combine 2 (fun s r => B2R (out t r (pick i j s))) minus) (combine 2 (fun s r => B2R (out t r (pick i j s))) minus) = dot d y y)
        by (apply dot_ext; intros r _; exact (pick_minus (fun s r => B2R (out t r s)) i j r)).
      assert (Ex : dot d (sk t (combine 2 (fun s k => B2R (b k (pick i j s))) minus)) (sk t (combine 2 (fun s k => B2R (b k (pick i j s))) minus)) = dot d (sk t x) (sk t x))
        by (apply dot_ext; intros r _; apply (proj2 (Lin t)); intros k _; exact (pick_minus (fun s k => B2R (b k s)) i j k)).
      rewrite Ey, Ex in G. eapply Rle_trans; [exact G|]. right. ring.
    - apply (computed_combinations draws (dense_iso2 D) sk d m n slack); auto.
      intros t z Ht. exact (Main n b out old Hn Hb Hsz Ho t z Ht). }
  split.
  - intros (Hn & FA & FB & Hfin) Hsz.
    pose proof (fun t Ht => left_ok cast env fsched senv jT jZ sched ssort nt blas HB Hf nr nc fam D seed dflt HD HF Hdf blocks bd v HBl HBf HIP l opA n alpha (B754_zero zs) A lda B ldb t (S t) Ht (HS t Ht) Hn FA FB) as Q.
    apply (Both (fun k j => op_ent opA (cell O l lda A) k j) (fun t r j => cell O l ldb (output (sketch_left t)) r j) (cell O l ldb B) Hn Hfin Hsz).
    intros t r j Ht Hr Hj. destruct (Q t Ht) as (B' & E & _ & G). unfold left_call in E. unfold PropsGram2.sketch_left. rewrite E. cbn [output]. now apply G.
  - intros (Hn & FA & FB & Hfin) Hsz.
    pose proof (fun t Ht => right_ok cast env fsched senv jT jZ sched ssort nt blas HB Hf nr nc fam D seed dflt HD HF Hdf blocks bd v HBl HBf HIP l opA n alpha (B754_zero zs) A lda B ldb t (S t) Ht (HS t Ht) Hn FA FB) as Q.
    apply (Both (fun k j => op_ent opA (cell O l lda A) j k) (fun t r j => cell O l ldb (output (sketch_right t)) j r) (fun r j => cell O l ldb B j r) Hn Hfin Hsz).
    intros t r j Ht Hr Hj. destruct (Q t Ht) as (B' & E & _ & G). unfold right_call in E. unfold PropsGram2.sketch_right. rewrite E. cbn [output]. now apply G.
Qed.
End Computed.

Lemma uniform_slack_nonneg {K W T} (env : dense_env K W T) seed eps nr nc fam D : mk_dense_dist nr nc fam Long = Ok D -> dense_fits env D seed -> 0 <= eps -> 0 <= uniform_slack eps (Z.max nr nc).
Proof.
  intros HD _ He. destruct (mk_dense_dist_inv _ _ _ _ _ HD) as (P1 & P2 & _). unfold uniform_slack.
  assert (0 <= IZR (Z.max nr nc)) by (apply IZR_le; lia). assert (0 <= eps * sqrt (IZR (Z.max nr nc))) by (apply Rmult_le_pos; [exact He|apply sqrt_pos]).
  assert (0 <= eps ^ 2 * IZR (Z.max nr nc)) by (apply Rmult_le_pos; [apply pow2_ge_0|assumption]). lra.
Qed.
Lemma gaussian_slack_nonneg {K W T} (env : dense_env K W T) seed c eps nr nc fam D : mk_dense_dist nr nc fam Long = Ok D -> dense_fits env D seed -> 0 <= c -> 0 <= eps -> 0 <= gaussian_slack c eps (Z.max nr nc).
Proof.
  intros HD _ Hc He. destruct (mk_dense_dist_inv _ _ _ _ _ HD) as (P1 & P2 & _). unfold gaussian_slack.
  assert (0 <= IZR (Z.max nr nc)) by (apply IZR_le; lia). assert (0 <= eps * sqrt (IZR (Z.max nr nc))) by (apply Rmult_le_pos; [exact He|apply sqrt_pos]).
  assert (0 <= eps ^ 2 * IZR (Z.max nr nc)) by (apply Rmult_le_pos; [apply pow2_ge_0|assumption]). lra.
Qed.

(** * Uniform entries *)
Theorem C74_uniform_float :
  forall {Kt Ft} (env : dense_env Kt b32 b32) fsched (senv : sparse_env Kt Ft b32) jT jZ sched ssort nt blas nr nc D seed dflt l opA n alpha zs A lda B ldb S,
    let L := g_len (env_unif env) in
    dense_hyps (fun x => x) env fsched blas nr nc Uniform D seed dflt (uneg11_blocks32 L) S -> env_scal3 env = scal3_32 -> scale_ok D alpha ->
    both_kept_exp (fun x => x) env fsched senv jT jZ sched ssort nt blas nr nc Uniform D seed dflt (uneg11_blocks32 L) l opA n alpha zs A lda B ldb S
      12 (-40) 100 4 (uniform_slack (/ IZR (2 ^ 20)) (Z.max nr nc)).
Proof.
  intros Kt Ft env fsched senv jT jZ sched ssort nt blas nr nc D seed dflt l opA n alpha zs A lda B ldb S L HO E3 Hsc.
  pose proof HO as (HB & Hf & HD & HF & Hdf & HS). pose proof (L_nonneg env Uniform nr nc D seed HD HF) as L0. cbn [env_gen] in L0, Hdf.
  destruct (C68_uniform_float env fsched nr nc D seed dflt Hf HD HF E3 Hdf) as [HIP _]. pose proof (C72_uniform_float env fsched nr nc D seed dflt Hf HD HF E3 Hdf) as GE.
  replace 4 with (2 * 2) by lra. eapply both_exp; [exact HO|exact Hsc|lia|lia|lia|lia|lia|lia|lia|lra| | |exact HIP| |exact GE].
  - intros b Hb. exact (proj1 (tape_blocks (map uneg11_32) _ L b (fun ri => zlen_map _ ri) L0 Hb)).
  - intros b x Hb Hx. destruct (tape_blocks (map uneg11_32) _ L b (fun ri => zlen_map _ ri) L0 Hb) as (_ & ri & -> & _ & Hw).
    apply in_map_iff in Hx as (w & <- & Hin). cbn [family_map]. rewrite E3. apply unif_float. apply in_range. now apply Hw.
  - apply (uniform_slack_nonneg env seed _ nr nc Uniform D HD HF). apply Rlt_le, Rinv_0_lt_compat, IZR_lt. reflexivity.
Qed.
Print Assumptions C74_uniform_float.
(** T = double, 32-bit words. *)
Theorem C74_uniform_double :
  forall {Kt Ft} (env : dense_env Kt b32 b64) fsched (senv : sparse_env Kt Ft b64) jT jZ sched ssort nt blas nr nc D seed dflt l opA n alpha zs A lda B ldb S,
    let L := g_len (env_unif env) in
    dense_hyps to64 env fsched blas nr nc Uniform D seed dflt (uneg11_blocks32 L) S -> env_scal3 env = scal3_64 -> scale_ok D alpha ->
    both_kept_exp to64 env fsched senv jT jZ sched ssort nt blas nr nc Uniform D seed dflt (uneg11_blocks32 L) l opA n alpha zs A lda B ldb S
      26 (-850) 950 4 (uniform_slack (/ IZR (2 ^ 20)) (Z.max nr nc)).
Proof.
  intros Kt Ft env fsched senv jT jZ sched ssort nt blas nr nc D seed dflt l opA n alpha zs A lda B ldb S L HO E3 Hsc.
  pose proof HO as (HB & Hf & HD & HF & Hdf & HS). pose proof (L_nonneg env Uniform nr nc D seed HD HF) as L0. cbn [env_gen] in L0, Hdf.
  destruct (C68_uniform_double env fsched nr nc D seed dflt Hf HD HF E3 Hdf) as [HIP _]. pose proof (C72_uniform_double env fsched nr nc D seed dflt Hf HD HF E3 Hdf) as GE.
  replace 4 with (2 * 2) by lra. eapply both_exp; [exact HO|exact Hsc|lia|lia|lia|lia|lia|lia|lia|lra| | |exact HIP| |exact GE].
  - intros b Hb. exact (proj1 (tape_blocks (map uneg11_32) _ L b (fun ri => zlen_map _ ri) L0 Hb)).
  - intros b x Hb Hx. destruct (tape_blocks (map uneg11_32) _ L b (fun ri => zlen_map _ ri) L0 Hb) as (_ & ri & -> & _ & Hw).
    apply in_map_iff in Hx as (w & <- & Hin). cbn [family_map]. rewrite E3. apply unif_widened. apply in_range. now apply Hw.
  - apply (uniform_slack_nonneg env seed _ nr nc Uniform D HD HF). apply Rlt_le, Rinv_0_lt_compat, IZR_lt. reflexivity.
Qed.
Print Assumptions C74_uniform_double.
(** T = double, 64-bit words. *)
Theorem C74_uniform_wide_words :
  forall {Kt Ft} (env : dense_env Kt b64 b64) fsched (senv : sparse_env Kt Ft b64) jT jZ sched ssort nt blas nr nc D seed dflt l opA n alpha zs A lda B ldb S,
    let L := g_len (env_unif env) in
    dense_hyps (fun x => x) env fsched blas nr nc Uniform D seed dflt (uneg11_blocks64 L) S -> env_scal3 env = scal3_64 -> scale_ok D alpha ->
    both_kept_exp (fun x => x) env fsched senv jT jZ sched ssort nt blas nr nc Uniform D seed dflt (uneg11_blocks64 L) l opA n alpha zs A lda B ldb S
      26 (-850) 950 4 (uniform_slack (/ IZR (2 ^ 49)) (Z.max nr nc)).
Proof.
  intros Kt Ft env fsched senv jT jZ sched ssort nt blas nr nc D seed dflt l opA n alpha zs A lda B ldb S L HO E3 Hsc.
  pose proof HO as (HB & Hf & HD & HF & Hdf & HS). pose proof (L_nonneg env Uniform nr nc D seed HD HF) as L0. cbn [env_gen] in L0, Hdf.
  destruct (C68_uniform_wide_words env fsched nr nc D seed dflt Hf HD HF E3 Hdf) as [HIP _]. pose proof (C72_uniform_wide_words env fsched nr nc D seed dflt Hf HD HF E3 Hdf) as GE.
  replace 4 with (2 * 2) by lra. eapply both_exp; [exact HO|exact Hsc|lia|lia|lia|lia|lia|lia|lia|lra| | |exact HIP| |exact GE].
  - intros b Hb. exact (proj1 (tape_blocks (map uneg11_64) _ L b (fun ri => zlen_map _ ri) L0 Hb)).
  - intros b x Hb Hx. destruct (tape_blocks (map uneg11_64) _ L b (fun ri => zlen_map _ ri) L0 Hb) as (_ & ri & -> & _ & Hw).
    apply in_map_iff in Hx as (w & <- & Hin). cbn [family_map]. rewrite E3. apply unif_double. apply in_range. now apply Hw.
  - apply (uniform_slack_nonneg env seed _ nr nc Uniform D HD HF). apply Rlt_le, Rinv_0_lt_compat, IZR_lt. reflexivity.
Qed.
Print Assumptions C74_uniform_wide_words.

(** * Gaussian entries; of sincos and log only an accuracy eps is assumed *)
Theorem C74_gaussian_float :
  forall {Kt Ft} (env : dense_env Kt b32 b32) fsched (senv : sparse_env Kt Ft b32) jT jZ sched ssort nt blas nr nc D seed dflt l opA n alpha zs A lda B ldb S junk sincosf logf eps,
    let L := g_len (env_gauss env) in let blocks := map (boxmul_block (boxmuller_32 sincosf logf) junk) (tapes (Z.to_nat L) (range 0 (2 ^ 32))) in
    dense_hyps (fun x => x) env fsched blas nr nc Gaussian D seed dflt blocks S -> nr <> nc -> Z.even L = true -> libm_accurate sincosf logf eps -> 0 <= eps <= / 4096 -> scale_ok D alpha ->
    both_kept_exp (fun x => x) env fsched senv jT jZ sched ssort nt blas nr nc Gaussian D seed dflt blocks l opA n alpha zs A lda B ldb S
      12 (-40) 100 49 (gaussian_slack (79 / IZR (2 ^ 24) + 5 * eps) (48 * (79 / IZR (2 ^ 24) + 5 * eps)) (Z.max nr nc)).
Proof.
  intros Kt Ft env fsched senv jT jZ sched ssort nt blas nr nc D seed dflt l opA n alpha zs A lda B ldb S junk sincosf logf eps L blocks HO Hsq Ev Hl He Hsc.
  pose proof HO as (HB & Hf & HD & HF & Hdf & HS). pose proof (L_nonneg env Gaussian nr nc D seed HD HF) as L0. cbn [env_gen] in L0, Hdf.
  destruct (C70_gaussian_float env fsched nr nc D seed dflt junk sincosf logf eps Hf HD HF Hl He Ev Hdf) as [HIP _]. pose proof (C73_gaussian_float env fsched nr nc D seed dflt junk sincosf logf eps Hf HD HF Hsq Hl He Ev Hdf) as GE.
  replace 49 with (7 * 7) by lra. eapply both_exp; [exact HO|exact Hsc|lia|lia|lia|lia|lia|lia|lia|lra| | |exact HIP| |exact GE].
  - intros b Hb. exact (proj1 (tape_blocks _ _ L b (block_len _ junk) L0 Hb)).
  - intros b x Hb Hx. destruct (tape_blocks _ _ L b (block_len _ junk) L0 Hb) as (_ & ri & -> & Lr & Hw).
    apply block_lane in Hx as (k & u0 & u1 & I0 & I1 & ->); [|now rewrite Lr]. cbn [family_map].
    destruct (finite32 sincosf logf eps u0 u1 Hl He (proj1 (in_range _ _ _) (Hw u0 I0)) (proj1 (in_range _ _ _) (Hw u1 I1)) k) as [F Bd]. split; [exact F|]. apply Rabs_le. exact Bd.
  - apply (gaussian_slack_nonneg env seed _ _ nr nc Gaussian D HD HF); cbn [Z.pow Z.pow_pos Pos.iter Z.mul Pos.mul]; lra.
Qed.
Print Assumptions C74_gaussian_float.
(** T = double, 32-bit words. *)
Theorem C74_gaussian_double :
  forall {Kt Ft} (env : dense_env Kt b32 b64) fsched (senv : sparse_env Kt Ft b64) jT jZ sched ssort nt blas nr nc D seed dflt l opA n alpha zs A lda B ldb S junk sincosf logf eps,
    let L := g_len (env_gauss env) in let blocks := map (boxmul_block (boxmuller_32 sincosf logf) junk) (tapes (Z.to_nat L) (range 0 (2 ^ 32))) in
    dense_hyps to64 env fsched blas nr nc Gaussian D seed dflt blocks S -> nr <> nc -> Z.even L = true -> libm_accurate sincosf logf eps -> 0 <= eps <= / 4096 -> scale_ok D alpha ->
    both_kept_exp to64 env fsched senv jT jZ sched ssort nt blas nr nc Gaussian D seed dflt blocks l opA n alpha zs A lda B ldb S
      26 (-850) 950 49 (gaussian_slack (79 / IZR (2 ^ 24) + 5 * eps) (48 * (79 / IZR (2 ^ 24) + 5 * eps)) (Z.max nr nc)).
Proof.
  intros Kt Ft env fsched senv jT jZ sched ssort nt blas nr nc D seed dflt l opA n alpha zs A lda B ldb S junk sincosf logf eps L blocks HO Hsq Ev Hl He Hsc.
  pose proof HO as (HB & Hf & HD & HF & Hdf & HS). pose proof (L_nonneg env Gaussian nr nc D seed HD HF) as L0. cbn [env_gen] in L0, Hdf.
  destruct (C70_gaussian_double env fsched nr nc D seed dflt junk sincosf logf eps Hf HD HF Hl He Ev Hdf) as [HIP _]. pose proof (C73_gaussian_double env fsched nr nc D seed dflt junk sincosf logf eps Hf HD HF Hsq Hl He Ev Hdf) as GE.
  replace 49 with (7 * 7) by lra. eapply both_exp; [exact HO|exact Hsc|lia|lia|lia|lia|lia|lia|lia|lra| | |exact HIP| |exact GE].
  - intros b Hb. exact (proj1 (tape_blocks _ _ L b (block_len _ junk) L0 Hb)).
  - intros b x Hb Hx. destruct (tape_blocks _ _ L b (block_len _ junk) L0 Hb) as (_ & ri & -> & Lr & Hw).
    apply block_lane in Hx as (k & u0 & u1 & I0 & I1 & ->); [|now rewrite Lr]. cbn [family_map].
    destruct (finite32 sincosf logf eps u0 u1 Hl He (proj1 (in_range _ _ _) (Hw u0 I0)) (proj1 (in_range _ _ _) (Hw u1 I1)) k) as [F Bd].
    destruct (to64_ok _ F) as [E64 F64]. split; [exact F64|]. rewrite E64. apply Rabs_le. exact Bd.
  - apply (gaussian_slack_nonneg env seed _ _ nr nc Gaussian D HD HF); cbn [Z.pow Z.pow_pos Pos.iter Z.mul Pos.mul]; lra.
Qed.
Print Assumptions C74_gaussian_double.
(** T = double, 64-bit words. *)
Theorem C74_gaussian_wide_words :
  forall {Kt Ft} (env : dense_env Kt b64 b64) fsched (senv : sparse_env Kt Ft b64) jT jZ sched ssort nt blas nr nc D seed dflt l opA n alpha zs A lda B ldb S junk sincos log eps,
    let L := g_len (env_gauss env) in let blocks := map (boxmul_block (boxmuller_64 sincos log) junk) (tapes (Z.to_nat L) (range 0 (2 ^ 64))) in
    dense_hyps (fun x => x) env fsched blas nr nc Gaussian D seed dflt blocks S -> nr <> nc -> Z.even L = true -> libm_accurate sincos log eps -> 0 <= eps <= / 4096 -> scale_ok D alpha ->
    both_kept_exp (fun x => x) env fsched senv jT jZ sched ssort nt blas nr nc Gaussian D seed dflt blocks l opA n alpha zs A lda B ldb S
      26 (-850) 950 100 (gaussian_slack (79 / IZR (2 ^ 53) + 5 * eps) (92 * (79 / IZR (2 ^ 53) + 5 * eps)) (Z.max nr nc)).
Proof.
  intros Kt Ft env fsched senv jT jZ sched ssort nt blas nr nc D seed dflt l opA n alpha zs A lda B ldb S junk sincos log eps L blocks HO Hsq Ev Hl He Hsc.
  pose proof HO as (HB & Hf & HD & HF & Hdf & HS). pose proof (L_nonneg env Gaussian nr nc D seed HD HF) as L0. cbn [env_gen] in L0, Hdf.
  destruct (C70_gaussian_wide_words env fsched nr nc D seed dflt junk sincos log eps Hf HD HF Hl He Ev Hdf) as [HIP _]. pose proof (C73_gaussian_wide_words env fsched nr nc D seed dflt junk sincos log eps Hf HD HF Hsq Hl He Ev Hdf) as GE.
  replace 100 with (10 * 10) by lra. eapply both_exp; [exact HO|exact Hsc|lia|lia|lia|lia|lia|lia|lia|lra| | |exact HIP| |exact GE].
  - intros b Hb. exact (proj1 (tape_blocks _ _ L b (block_len _ junk) L0 Hb)).
  - intros b x Hb Hx. destruct (tape_blocks _ _ L b (block_len _ junk) L0 Hb) as (_ & ri & -> & Lr & Hw).
    apply block_lane in Hx as (k & u0 & u1 & I0 & I1 & ->); [|now rewrite Lr]. cbn [family_map].
    destruct (finite64 sincos log eps u0 u1 Hl He (proj1 (in_range _ _ _) (Hw u0 I0)) (proj1 (in_range _ _ _) (Hw u1 I1)) k) as [F Bd]. split; [exact F|]. apply Rabs_le. exact Bd.
  - apply (gaussian_slack_nonneg env seed _ _ nr nc Gaussian D HD HF); cbn [Z.pow Z.pow_pos Pos.iter Z.mul Pos.mul]; lra.
Qed.
Print Assumptions C74_gaussian_wide_words.

(** A 4096 by 100000 operator with uniform entries in double precision, from 32-bit words, and a BLAS with
    fused operations, applied to n = 1000 columns of squared norm 1: the squared distances
    between the computed sketches of the columns are those of the data up to 26 percent, and 10^-3 for
    columns nearly equal, except with probability at most 10^-12. *)
Example C74_case : forall l opA alpha zs A lda B ldb S (X := left_data (prec := 53) (emax := 1024) l opA A lda),
  let s := mk_state 7 tt in
  dense_hyps to64 env_u64 seq_schedule fma_blas 4096 100000 Uniform U4096 s dflt2 (uneg11_blocks32 2) S -> scale_ok U4096 alpha ->
  left_hyps 4096 100000 l opA 1000 A lda B ldb -> (forall j, (0 <= j < 1000)%Z -> dot 100000 (X j) (X j) = 1) ->
  let draws := tapes (Z.to_nat (dense_blocks U4096 2)) (uneg11_blocks32 2) in
  let Y := left_columns to64 env_u64 seq_schedule gram_env one64 0 seq_schedule isort 1 fma_blas 4096 100000 s dflt2 l opA 1000 alpha zs A lda B ldb S in
  exists bad, probability draws bad <= / 1000000000000 /\
    forall t, In t draws -> bad t = false -> forall a b, (0 <= a < 1000)%Z -> (0 <= b < 1000)%Z ->
    let x i := X a i - X b i in let y r := Y t a r - Y t b r in
    Rabs (dot 4096 y y - dot 100000 x x) <= 26 / 100 * dot 100000 x x + 1 / 1000.
Proof.
  intros l opA alpha zs A lda B ldb S X s HO Hsc HL HX draws Y.
  pose proof (C74_uniform_double env_u64 seq_schedule gram_env one64 0%Z seq_schedule isort 1%Z fma_blas 4096%Z 100000%Z U4096 s dflt2 l opA 1000%Z alpha zs A lda B ldb S HO eq_refl Hsc) as [K _].
  change (Z.max 4096 100000) with 100000%Z in K. change (Z.min 4096 100000) with 4096%Z in K.
  assert (Fr : frob2 1000 100000 X = 1000). { unfold frob2. rewrite (Rsum_ext _ (fun _ => 1)) by (intros j Hj; apply in_range in Hj; now apply HX). rewrite Rsum_range_const by lia. lra. }
  assert (Lo : bpow radix2 (2 * -850) <= 1) by (change 1 with (bpow radix2 0); apply bpow_le; lia).
  assert (Hi : 1000 <= bpow radix2 (2 * 950)) by (apply (Rle_trans _ (bpow radix2 10)); [cbn; lra|apply bpow_le; lia]).
  destruct (K HL) as [JL _].
  { split; [vm_compute; congruence|]. split; [lia|]. change (Z.max 4096 100000) with 100000%Z. fold X. rewrite Fr. lra. }
  clear K. destruct (JL (/ 4) ltac:(lra)) as (bad & P & G). exists bad. split.
  - eapply Rle_trans; [exact P|]. change (1000 * (1000 - 1))%Z with 999000%Z.
    assert (E : exp (- (4096 * (/ 4) ^ 2 / 6)) <= exp (- INR 42)).
    { destruct (Rle_lt_or_eq_dec (- (4096 * (/ 4) ^ 2 / 6)) (- INR 42)) as [H|H]; [cbn [pow]; rewrite INR_IZR_INZ; change (Z.of_nat 42) with 42%Z; lra|apply Rlt_le, exp_increasing, H|right; now f_equal]. }
    assert (E1 : 2.7 <= exp 1).
    { replace (exp 1) with (exp (/ 128) ^ 128). 2: { rewrite exp_pow. f_equal. rewrite INR_IZR_INZ. change (Z.of_nat 128) with 128%Z. lra. }
      apply (Rle_trans _ ((129 / 128) ^ 128)); [lra|]. apply pow_incr. pose proof (exp_ineq1_le (/ 128)). lra. }
    assert (E2 : exp (- INR 42) <= / 2.7 ^ 42).
    { rewrite exp_Ropp. apply Rinv_le_contravar; [apply pow_lt; lra|]. rewrite <- (Rmult_1_r (INR 42)), <- exp_pow. apply pow_incr. lra. }
    apply (Rle_trans _ (999000 * / 2.7 ^ 42)); [apply Rmult_le_compat_l; lra|]. lra.
  - intros t Ht Hb a b Ha Hb' x y. specialize (G t Ht Hb a b Ha Hb'). cbv zeta in G. fold X in G. rewrite !HX in G by assumption. specialize (G ltac:(lra)).
    fold x in G. fold y in G. eapply Rle_trans; [exact G|]. pose proof (dot_nonneg 100000 x) as X0. set (p := dot 100000 x x) in *. clearbody p. clear G.
    assert (Us : bpow radix2 (- (53)) * 9007199254740992 = 1) by (change 9007199254740992 with (bpow radix2 53); rewrite <- bpow_plus; reflexivity).
    revert Us. generalize (bpow radix2 (- (53))). intros v Us.
    assert (Q : sqrt 100000 <= 317). { rewrite <- (sqrt_square 317) by lra. apply sqrt_le_1_alt. lra. }
    assert (Sl : uniform_slack (/ IZR (2 ^ 20)) 100000 <= 1 / 100) by (unfold uniform_slack; change (IZR (2 ^ 20)) with 1048576; cbn [pow]; lra).
    set (sl := uniform_slack _ _) in *. clearbody sl. apply Rplus_le_compat; [apply Rmult_le_compat_r; lra|lra].
Qed.
