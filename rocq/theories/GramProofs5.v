(** sketch_general with a dense operator, in floating-point arithmetic, on random words (for PropsGram2.v). *)
From Coq Require Import ZArith Reals Lra Psatz.
From Flocq Require Import Core BinarySingleNaN.
From Verif Require Import Base Interleave Spec RngModel DenseModel DenseSpec DenseProofs2 DenseProofs3 SparseSkopModel SparseSpec SpFmtModel SpmmModel SpmmSpec SpmmProofs
  SketchModel SketchSpec RoundModel RoundSpec RoundSpec2 RoundSpec3 GemmModel GemmSpec PropsBlas
  IsoSpec IsoProofs StatSpec StatProofs DenseIsoProofs NormSpec NormProofs NormProofs3 NormProofs4 NormProofs5 GramSpec GramProofs GramProofs2 GramProofs3.
Import ListNotations.
Local Open Scope R_scope.

(** ** Ranges in which nothing overflows and underflow is invisible, entries up to 10 *)
Lemma ranges_wide h u M lo hi N bd r m n d top : 0 <= h -> 0 < u -> 0 <= m <= M -> 0 <= d <= M -> 0 <= n <= N -> 0 <= bd <= 10 -> 1 <= M -> 0 < lo <= 1 -> 1 <= hi -> lo <= r <= hi ->
  (32 * h * M / lo) * (32 * h * M / lo) * (N * M) <= u * u * (u * u) -> 256 * M * hi <= top ->
  2 * (3 * (m * ((1 + bd) * (1 + r)))) <= top /\
  2 * (h * (m * (3 + bd + r) + 1)) * (2 * (h * (m * (3 + bd + r) + 1))) * (n * d) <= u * u * (u * u) * (r * r).
Proof.
  intros Hh Hu Hm Hd Hn Hbd HM Hlo Hhi Hr H1 H2. split.
  - assert (A : (1 + bd) * (1 + r) <= 11 * (2 * hi)) by (apply Rmult_le_compat; lra).
    assert (m * ((1 + bd) * (1 + r)) <= M * (11 * (2 * hi))) by (apply Rmult_le_compat; [lra|apply Rmult_le_pos; lra|lra|exact A]).
    assert (0 <= M * hi) by (apply Rmult_le_pos; lra). lra.
  - set (q := r / lo). assert (Q1 : 1 <= q). { unfold q. apply (Rmult_le_reg_r lo); [lra|]. unfold Rdiv. rewrite Rmult_assoc, Rinv_l by lra. lra. }
    assert (Q2 : r <= q). { unfold q. apply (Rmult_le_reg_r lo); [lra|]. unfold Rdiv. rewrite Rmult_assoc, Rinv_l by lra. nra. }
    assert (B : m * (3 + bd + r) + 1 <= 16 * M * q).
    { apply (Rle_trans _ (M * (14 * q) + M * q)); [|nra]. apply Rplus_le_compat; [apply Rmult_le_compat; lra|nra]. }
    assert (B0 : 0 <= m * (3 + bd + r) + 1) by (assert (0 <= m * (3 + bd + r)) by (apply Rmult_le_pos; lra); lra).
    assert (C : 2 * (h * (m * (3 + bd + r) + 1)) <= 32 * h * M / lo * r).
    { apply (Rle_trans _ (2 * (h * (16 * M * q)))); [|unfold q; right; field; lra]. apply Rmult_le_compat_l; [lra|]. now apply Rmult_le_compat_l. }
    assert (C0 : 0 <= 2 * (h * (m * (3 + bd + r) + 1))) by (apply Rmult_le_pos; [lra|]; now apply Rmult_le_pos).
    set (z := 2 * (h * (m * (3 + bd + r) + 1))) in *. set (w := 32 * h * M / lo) in *.
    apply (Rle_trans _ ((w * r) * (w * r) * (N * M))).
    + apply Rmult_le_compat; [now apply Rmult_le_pos|apply Rmult_le_pos; lra|now apply Rmult_le_compat|apply Rmult_le_compat; lra].
    + replace (w * r * (w * r) * (N * M)) with (w * w * (N * M) * (r * r)) by ring. apply Rmult_le_compat_r; [nra|exact H1].
Qed.

(** ** The order of the factors in a product does not matter *)
Section Swap.
  Context {prec emax : Z}.
  Local Notation bf := (binary_float prec emax).
  Definition swap (q : bf * bf) : bf * bf := (snd q, fst q).
  Lemma Rtotal_ext (f g : bf * bf -> R) l : (forall q, f (swap q) = g q) -> Rtotal (map f (map swap l)) = Rtotal (map g l).
  Proof. intros H. rewrite map_map. unfold Rtotal. f_equal. apply map_ext. exact H. Qed.
  Lemma surely_near_swap (alpha : bf) p beta c y : surely_near alpha (map swap p) beta c y -> surely_near alpha p beta c y.
  Proof.
    intros H U N. assert (Lz : zlen (map swap p) = zlen p) by (unfold zlen; now rewrite map_length).
    assert (E1 : exact_cell alpha (map swap p) beta c = exact_cell alpha p beta c).
    { unfold exact_cell. rewrite (Rtotal_ext _ (fun q => B2R (fst q) * B2R (snd q))); [reflexivity|]. intros q. cbn [swap fst snd]. apply Rmult_comm. }
    assert (E2 : size_cell alpha (map swap p) beta c = size_cell alpha p beta c).
    { unfold size_cell. rewrite (Rtotal_ext _ (fun q => Rabs (B2R (fst q)) * Rabs (B2R (snd q)))); [reflexivity|]. intros q. cbn [swap fst snd]. apply Rmult_comm. }
    assert (E3 : underflow alpha (map swap p) = underflow alpha p).
    { unfold underflow. rewrite (Rtotal_ext _ (fun q => 1 + Rabs (B2R alpha) + Rabs (B2R (fst q)) + Rabs (B2R (snd q)))); [reflexivity|]. intros q. cbn [swap fst snd]. lra. }
    assert (E4 : total_size alpha (map swap p) beta c = total_size alpha p beta c).
    { unfold total_size. rewrite (Rtotal_ext _ (fun q => (1 + Rabs (B2R (fst q))) * (1 + Rabs (B2R (snd q))))); [reflexivity|]. intros q. cbn [swap fst snd]. lra. }
    unfold surely_near, near, no_overflow in *. rewrite Lz, E1, E2, E3, E4 in H. apply H; [|exact N].
    destruct U as [U1 U2]. split; [|exact U2]. destruct U1 as [U1|[->|[U1 U3]]]; [now left|right; left; reflexivity|right; right]. split; [exact U1|].
    intros v x Hin. apply in_map_iff in Hin as ([a b] & Eq & Hin). cbn [swap fst snd] in Eq. injection Eq as <- <-. destruct (U3 a b Hin). now split.
  Qed.
End Swap.

Section DenseGram.
Context {prec emax : Z} {pp : Prec_gt_0 prec} {pe : Prec_lt_emax prec emax}.
Local Notation bf := (binary_float prec emax).
Context {Kt Wt Ft : Type}.
Variables (cast : Wt -> bf) (env : dense_env Kt Wt bf) (fsched : schedule bf).
Variable senv : sparse_env Kt Ft bf.
Variables (jT : bf) (jZ : Z).
Variable sched : schedule (list bf).
Variable ssort : (Z * Z * bf -> Z * Z * bf -> bool) -> list (Z * Z * bf) -> list (Z * Z * bf).
Variable nt : Z.
Variable blas : blas_gemm bf.
Hypothesis HB : keeps_promise (fops prec emax) computed blas.
Hypothesis Hf : valid_schedule fsched.
Variables (nr nc : Z) (fam : DenseModel.family) (D : dense_dist) (seed : rng_state Kt) (dflt : list Wt).
Hypothesis HD : mk_dense_dist nr nc fam Long = Ok D.
Hypothesis HF : dense_fits env D seed.
Notation L := (g_len (env_gen env fam)).
Hypothesis Hdf : zlen dflt = L.
Variable Bs : list (list Wt).
Variables bd v : R.
Hypothesis HBl : forall b, In b Bs -> zlen b = L.
Hypothesis Hbd : 1 <= bd <= 10.
Hypothesis HBf : forall b x, In b Bs -> In x b -> is_finite (family_map env fam (cast x)) = true /\ Rabs (B2R (family_map env fam (cast x))) <= bd.
Notation d := (Z.min nr nc).
Notation m := (Z.max nr nc).
Notation O := (fops prec emax).
Notation u := (bpow radix2 (- prec)).
Notation ts := (tapes (Z.to_nat (dense_blocks D L)) Bs).
Notation E t := (with_blocks env seed dflt t).
Hypothesis HIP : inner_products_kept ts (dense_iso2 D) (fun t => sketch_of nr nc (dense_sampled cast B2R (E t) fsched D seed)) d m v.

Lemma D_facts : (0 < nr)%Z /\ (0 < nc)%Z /\ dd_rows D = nr /\ dd_cols D = nc /\ dd_family D = fam /\ valid_dist D /\ (2 <= L)%Z /\ dd_iso_inv2 D = d.
Proof.
  pose proof (mk_dense_dist_inv _ _ _ _ _ HD) as (P1 & P2 & ER & EC & _ & EF & _). destruct HF as (We & _).
  split; [exact P1|]. split; [exact P2|]. split; [exact ER|]. split; [exact EC|]. split; [exact EF|]. split; [exists nr, nc, fam, Long; exact HD|].
  split; [destruct (env_gen_wf env fam We); lia|].
  unfold mk_dense_dist in HD. destruct (nr >? 0)%Z; [|discriminate]. destruct (nc >? 0)%Z; [|discriminate]. injection HD as <-. reflexivity.
Qed.
Lemma E_wf t : In t ts -> wf_env (E t).
Proof.
  destruct D_facts as (P1 & P2 & ER & EC & EF & V & HL & EI). pose proof HF as (We & Hgl & Hsz & Hc & Hn). intros Ht.
  pose proof (with_blocks_wf env D seed We Hsz Hc Hn Hgl dflt) as G. unfold dense_blocks in Ht. rewrite EF in G. apply (G Hdf Bs HBl t Ht).
Qed.
Lemma entry_ok t i j : In t ts -> (0 <= i < nr)%Z -> (0 <= j < nc)%Z ->
  exists w, dense_entry cast (E t) D seed i j = Some w /\ is_finite w = true /\ Rabs (B2R w) <= bd.
Proof.
  destruct D_facts as (P1 & P2 & ER & EC & EF & V & HL & EI). pose proof HF as (We & Hgl & Hsz & Hc & Hn). rewrite EF in *. intros Ht Hi Hj.
  pose proof (entry_block_range D L i j V HL ltac:(lia) ltac:(lia)) as [R1 R2].
  unfold dense_entry. rewrite EF, gen_len, gen_bits. destruct (entry_block D L i j) as [blk ln]. cbn [fst snd] in *.
  assert (GF : g_fun (env_gen (E t) fam) ((counter seed + blk) mod 2 ^ g_bits (env_gen env fam)) (key seed) = nth (Z.to_nat blk) t dflt).
  { assert (Q : (((counter seed + blk) mod 2 ^ g_bits (env_gen env fam) - counter seed) mod 2 ^ g_bits (env_gen env fam) = blk)%Z).
    { rewrite Zminus_mod_idemp_l. replace (counter seed + blk - counter seed)%Z with blk by lia. apply Z.mod_small. unfold dense_blocks in Hn. lia. }
    clear - Q. destruct fam; cbn in *; rewrite Q; reflexivity. }
  rewrite GF. pose proof (tapes_len _ _ _ Ht) as Lt. assert (Hb : (Z.to_nat blk < length t)%nat) by (unfold dense_blocks in Lt; lia).
  assert (Hin : In (nth (Z.to_nat blk) t dflt) Bs) by (apply (tapes_in _ _ _ Ht), nth_In; exact Hb).
  destruct (get_lt (nth (Z.to_nat blk) t dflt) ln) as [w Gw]; [rewrite HBl by exact Hin; exact R2|]. rewrite Gw. cbn [option_map].
  destruct (HBf _ w Hin (proj2 (get_In _ _) (ex_intro _ _ Gw))) as [A B]. exists (family_map env fam (cast w)). split; [|split; [exact A|exact B]]. destruct fam; reflexivity.
Qed.
Definition entry (t : list (list Wt)) (i j : Z) : bf := match dense_entry cast (E t) D seed i j with Some w => w | None => B754_nan end.
Lemma entry_is t i j : In t ts -> (0 <= i < nr)%Z -> (0 <= j < nc)%Z ->
  dense_entry cast (E t) D seed i j = Some (entry t i j) /\ is_finite (entry t i j) = true /\ Rabs (B2R (entry t i j)) <= bd.
Proof. intros Ht Hi Hj. unfold entry. destruct (entry_ok t i j Ht Hi Hj) as (w & -> & A & B). auto. Qed.
Lemma E_size t : size_ok D (g_len (env_gen (E t) (dd_family D))).
Proof. destruct HF as (_ & _ & Hsz & _). rewrite gen_len. exact Hsz. Qed.
Lemma sampled_is t i j : In t ts -> (0 <= i < nr)%Z -> (0 <= j < nc)%Z -> dense_sampled cast B2R (E t) fsched D seed i j = B2R (entry t i j).
Proof.
  intros Ht Hi Hj. destruct D_facts as (P1 & P2 & ER & EC & EF & V & HL & EI). pose proof (E_wf t Ht) as Wf. unfold dense_sampled.
  destruct (mk_dense_skop (E t) D seed) as [X| |] eqn:EX.
  2,3: exfalso; unfold mk_dense_skop in EX; rewrite window_state_full in EX by (auto using E_size); discriminate.
  cbn [bind]. destruct (skop_fill_spec cast (E t) fsched D seed X Hf Wf V (E_size t) EX) as (S' & EFl & HdS & _ & _ & G).
  rewrite EFl. specialize (G i j ltac:(lia) ltac:(lia)). unfold skop_mat in G. rewrite HdS in G.
  rewrite (fill_layout _ _ _ _ _ EFl), (skop_layout _ _ _ _ EX) in G |- *.
  assert (HM : dd_major D = min_ld (dd_layout D) (dd_rows D) (dd_cols D)).
  { apply mk_dense_dist_inv in HD as (_ & _ & -> & -> & _ & _ & _ & -> & _). reflexivity. }
  rewrite HM. rewrite (proj1 (entry_is t i j Ht Hi Hj)) in G. destruct (ds_buff S') as [b|]; [|discriminate]. now rewrite G.
Qed.
Lemma drawn_denotes t S : In t ts -> drawn_dense cast (E t) D seed S -> ds_dist S = D /\ dense_denotes cast (E t) S (entry t).
Proof.
  intros Ht HS. destruct D_facts as (P1 & P2 & ER & EC & EF & V & HL & EI). pose proof (E_wf t Ht) as Wf.
  assert (Fresh : forall S0, mk_dense_skop (E t) D seed = Ok S0 -> ds_dist S0 = D /\ ds_seed S0 = seed /\ ds_buff S0 = None /\ ds_own S0 = true /\ ds_layout S0 = dd_layout D).
  { intros S0 H. unfold mk_dense_skop in H. apply bind_Ok in H as (nx & _ & H). injection H as <-. repeat split. }
  destruct HS as [H|(S0 & fs & H & Hs & Hfl)].
  - destruct (Fresh S H) as (A1 & A2 & A3 & _). split; [exact A1|]. unfold dense_denotes. rewrite A3, A1, A2. split; [exact V|]. split; [apply E_size|].
    intros i j Hi Hj. apply entry_is; [exact Ht|lia|lia].
  - destruct (Fresh S0 H) as (A1 & A2 & A3 & A4 & A5). unfold fill_dense_skop in Hfl. rewrite A3, A4, A1, A2, A5 in Hfl.
    destruct (fill_dense_unpacked_spec cast (E t) fs (dd_layout D) D (dd_rows D) (dd_cols D) 0 0
        (repeat (env_junk (E t)) (Z.to_nat (dd_rows D * dd_cols D))) seed) as (full & E2 & Lf & G & _); auto using E_size; try lia.
    { rewrite zlen_repeat. lia. }
    rewrite E2 in Hfl. cbn [bind] in Hfl. injection Hfl as <-. split; [reflexivity|]. unfold dense_denotes. cbn [ds_buff ds_dist ds_layout]. split; [rewrite Lf, zlen_repeat; lia|].
    intros i j Hi Hj. rewrite G by assumption. rewrite !Z.add_0_l. apply entry_is; [exact Ht|lia|lia].
Qed.

(** Row r, column k of the d x m operator that acts on the data. *)
Definition ent (t : list (list Wt)) (r k : Z) : bf := if (nr <=? nc)%Z then entry t r k else entry t k r.
Lemma ent_ok t r k : In t ts -> (0 <= r < d)%Z -> (0 <= k < m)%Z -> is_finite (ent t r k) = true /\ Rabs (B2R (ent t r k)) <= bd.
Proof. intros Ht Hr Hk. unfold ent. destruct (Z.leb_spec nr nc); apply entry_is; auto; lia. Qed.
Lemma value_one (w : bf) : value [w] = B2R w.
Proof. unfold value. cbn [map Rsum]. lra. Qed.
Lemma ip_dense : inner_products_kept ts (dense_iso2 D) (fun t => act m (fun r k => value [ent t r k])) d m v.
Proof.
  intros x y. eapply Rle_trans; [|apply (HIP x y)]. right. apply average_ext. intros t Ht. f_equal. f_equal. f_equal.
  assert (G : forall x r, (0 <= r < d)%Z -> act m (fun r k => value [ent t r k]) x r = sketch_of nr nc (dense_sampled cast B2R (E t) fsched D seed) x r).
  { intros z r Hr. unfold act, sketch_of, dot. destruct (Z.leb_spec nr nc) as [Q|Q].
    - rewrite Z.max_r by lia. apply Rsum_ext. intros k Hk. apply in_range in Hk. rewrite sampled_is by (auto; lia). rewrite value_one. unfold ent. rewrite (proj2 (Z.leb_le nr nc)) by lia. reflexivity.
    - rewrite Z.max_l by lia. apply Rsum_ext. intros k Hk. apply in_range in Hk. rewrite sampled_is by (auto; lia). rewrite value_one. unfold ent. rewrite (proj2 (Z.leb_gt nr nc)) by lia. reflexivity. }
  apply dot_ext; intros r Hr; now apply G.
Qed.
Lemma squares t k : In t ts -> (0 <= k < m)%Z -> Rsum (map (fun r => value [ent t r k] * value [ent t r k]) (range 0 d)) <= IZR d * (bd * bd).
Proof.
  destruct D_facts as (P1 & P2 & _). intros Ht Hk. rewrite <- (Rsum_range_const (bd * bd) d) by lia. apply Rsum_le. intros r Hr. apply in_range in Hr.
  rewrite value_one. destruct (ent_ok t r k Ht Hr Hk) as [_ B]. destruct (abs_bounds _ _ B). nra.
Qed.

(** The calls: sketch from the left and from the right. *)
Definition left_call l opA n alpha beta A lda B ldb t S : outcome (@skop Kt bf * list bf) :=
  sketch_general_left_full_with O cast (E t) fsched senv jT jZ sched ssort nt blas l (if (nr <=? nc)%Z then NoTrans else Trans) opA d n m alpha (SkDense S) A lda beta B ldb.
Definition right_call l opA n alpha beta A lda B ldb t S : outcome (@skop Kt bf * list bf) :=
  sketch_general_right_full_with O cast (E t) fsched senv jT jZ sched ssort nt blas l opA (if (nr <=? nc)%Z then Trans else NoTrans) n d m alpha A lda (SkDense S) beta B ldb.
Lemma cell_there l (B : list bf) ld rows cols i j : fits_buffer l ld rows cols (zlen B) -> (0 <= i < rows)%Z -> (0 <= j < cols)%Z -> exists c, get B (addr l ld i j) = Some c.
Proof.
  clear. intros [L1 L2] Hi Hj. destruct (get B (addr l ld i j)) as [c|] eqn:Gc; [now exists c|]. exfalso. apply get_None in Gc. specialize (L2 i j Hi Hj).
  destruct l; cbn [addr min_ld] in *; nia.
Qed.
Lemma left_ok l opA n alpha beta A lda B ldb t S : In t ts -> drawn_dense cast (E t) D seed S -> (0 <= n)%Z ->
  fits_buffer l lda (rows_before opA m n) (cols_before opA m n) (zlen A) -> fits_buffer l ldb d n (zlen B) ->
  exists B', left_call l opA n alpha beta A lda B ldb t S = Ok (SkDense S, B') /\ others_kept l d n B ldb B' /\
    forall r j, (0 <= r < d)%Z -> (0 <= j < n)%Z ->
      surely_near alpha (map (fun k => (ent t r k, op_ent opA (SpmmSpec.cell O l lda A) k j)) (range 0 m)) beta (SpmmSpec.cell O l ldb B r j) (SpmmSpec.cell O l ldb B' r j).
Proof.
  intros Ht HS Hn FA FB. destruct D_facts as (P1 & P2 & ER & EC & EF & V & HL & EI). destruct (drawn_denotes t S Ht HS) as [Ed Dn].
  set (opS := if (nr <=? nc)%Z then NoTrans else Trans).
  destruct (C65_left_accurate cast (E t) fsched senv jT jZ sched ssort nt (E_wf t Ht) Hf blas HB l opS opA d n m alpha S 0 0 A lda beta B ldb (entry t) Dn) as (B' & ER' & HO & G); auto; try lia.
  { rewrite Ed, ER, EC. unfold in_matrix, opS. destruct (Z.leb_spec nr nc); cbn [rows_before cols_before]; lia. }
  exists B'. split.
  { unfold left_call, sketch_general_left_full_with. fold opS. rewrite ER'. cbn [skop_rows skop_cols]. rewrite Ed, ER, EC. unfold opS. destruct (Z.leb_spec nr nc); rewrite !(proj2 (Z.eqb_eq _ _)) by lia; reflexivity. }
  split; [exact HO|]. intros r j Hr Hj. destruct (cell_there l B ldb d n r j FB Hr Hj) as [c Gc].
  destruct (G r j c _ Hr Hj Gc eq_refl) as (y & Gy & _ & Sy). unfold SpmmSpec.cell at 2 3. rewrite Gc, Gy.
  unfold row_col in Sy. erewrite map_ext; [exact Sy|]. intros k. cbv beta. f_equal. unfold ent, opS, win. destruct (Z.leb_spec nr nc); cbn [op_ent]; rewrite !Z.add_0_l; reflexivity.
Qed.
Lemma right_ok l opA n alpha beta A lda B ldb t S : In t ts -> drawn_dense cast (E t) D seed S -> (0 <= n)%Z ->
  fits_buffer l lda (rows_before opA n m) (cols_before opA n m) (zlen A) -> fits_buffer l ldb n d (zlen B) ->
  exists B', right_call l opA n alpha beta A lda B ldb t S = Ok (SkDense S, B') /\ others_kept l n d B ldb B' /\
    forall r j, (0 <= r < d)%Z -> (0 <= j < n)%Z ->
      surely_near alpha (map (fun k => (ent t r k, op_ent opA (SpmmSpec.cell O l lda A) j k)) (range 0 m)) beta (SpmmSpec.cell O l ldb B j r) (SpmmSpec.cell O l ldb B' j r).
Proof.
  intros Ht HS Hn FA FB. destruct D_facts as (P1 & P2 & ER & EC & EF & V & HL & EI). destruct (drawn_denotes t S Ht HS) as [Ed Dn].
  set (opS := if (nr <=? nc)%Z then Trans else NoTrans).
  destruct (C65_right_accurate cast (E t) fsched senv jT jZ sched ssort nt (E_wf t Ht) Hf blas HB l opA opS n d m alpha A lda S 0 0 beta B ldb (entry t) Dn) as (B' & ER' & HO & G); auto; try lia.
  { rewrite Ed, ER, EC. unfold in_matrix, opS. destruct (Z.leb_spec nr nc); cbn [rows_before cols_before]; lia. }
  exists B'. split.
  { unfold right_call, sketch_general_right_full_with. fold opS. rewrite ER'. cbn [skop_rows skop_cols]. rewrite Ed, ER, EC. unfold opS. destruct (Z.leb_spec nr nc); rewrite !(proj2 (Z.eqb_eq _ _)) by lia; reflexivity. }
  split; [exact HO|]. intros r j Hr Hj. destruct (cell_there l B ldb n d j r FB Hj Hr) as [c Gc].
  destruct (G j r c _ Hj Hr Gc eq_refl) as (y & Gy & _ & Sy). unfold SpmmSpec.cell at 2 3. rewrite Gc, Gy. apply surely_near_swap.
  unfold row_col in Sy. rewrite map_map. erewrite map_ext; [exact Sy|]. intros k. cbv beta. unfold swap. cbn [fst snd]. f_equal. unfold ent, opS, win. destruct (Z.leb_spec nr nc); cbn [op_ent]; rewrite !Z.add_0_l; reflexivity.
Qed.

(** Any m x q data, any results near the exact ones. *)
Variables (b : Z -> Z -> bf) (q : Z) (out : list (list Wt) -> Z -> Z -> bf) (old : Z -> Z -> bf) (alpha : bf) (zs : bool).
Notation X := (fun j k => B2R (b k j)).
Notation Fr := (frob2 q m X).
Hypothesis Hq : (0 <= q)%Z.
Hypothesis Hb : forall k j, (0 <= k < m)%Z -> (0 <= j < q)%Z -> is_finite (b k j) = true.
Hypothesis Fal : is_finite alpha = true.
Hypothesis Hal : Rabs (B2R alpha - sqrt (dense_iso2 D)) <= 8 * u * sqrt (dense_iso2 D).
Hypothesis Hprec : (20 <= prec)%Z.
Hypothesis Hmu : (IZR m + 2) * (IZR m + 2) * u <= 1.
Variables M lo hi N : R.
Hypothesis HmM : IZR m <= M.
Hypothesis HM1 : 1 <= M.
Hypothesis HqN : IZR q <= N.
Hypothesis Hlo : 0 < lo <= 1.
Hypothesis Hhi : 1 <= hi.
Hypothesis HFr : lo * lo <= Fr <= hi * hi.
Hypothesis HR1 : (32 * @half_tiny prec emax * M / lo) * (32 * @half_tiny prec emax * M / lo) * (N * M) <= u * u * (u * u).
Hypothesis HR2 : 256 * M * hi <= bpow radix2 (emax - 1).
Hypothesis Hout : forall t r j, In t ts -> (0 <= r < d)%Z -> (0 <= j < q)%Z -> surely_near alpha (map (fun k => (ent t r k, b k j)) (range 0 m)) (B754_zero zs) (old r j) (out t r j).

Lemma Fr_pos : 0 < Fr.
Proof. destruct HFr as [A1 _]. assert (0 < lo * lo) by (apply Rmult_lt_0_compat; lra). lra. Qed.
Lemma in_ranges_d : 2 * (3 * (IZR m * ((1 + bd) * (1 + sqrt Fr)))) <= bpow radix2 (emax - 1) /\
  2 * (@half_tiny prec emax * (IZR m * (3 + bd + sqrt Fr) + 1)) * (2 * (@half_tiny prec emax * (IZR m * (3 + bd + sqrt Fr) + 1))) * (IZR q * IZR d) <= u * u * (u * u) * Fr.
Proof.
  pose proof Fr_pos as FP. destruct D_facts as (P1 & P2 & _). assert (Sq : sqrt Fr * sqrt Fr = Fr) by (apply sqrt_sqrt; lra). cut (2 * (3 * (IZR m * ((1 + bd) * (1 + sqrt Fr)))) <= bpow radix2 (emax - 1) /\
  2 * (@half_tiny prec emax * (IZR m * (3 + bd + sqrt Fr) + 1)) * (2 * (@half_tiny prec emax * (IZR m * (3 + bd + sqrt Fr) + 1))) * (IZR q * IZR d) <= u * u * (u * u) * (sqrt Fr * sqrt Fr)); [now rewrite Sq|].
  apply (ranges_wide (@half_tiny prec emax) u M lo hi N bd (sqrt Fr) (IZR m) (IZR q) (IZR d)); auto; try lra.
  - apply bpow_ge_0.
  - apply bpow_gt_0.
  - split; [apply IZR_le; lia|assumption].
  - split; [apply IZR_le; lia|]. eapply Rle_trans; [|exact HmM]. apply IZR_le. lia.
  - split; [apply IZR_le; lia|assumption].
  - destruct HFr as [A1 A2]. split.
    + rewrite <- (sqrt_square lo) by lra. now apply sqrt_le_1_alt.
    + rewrite <- (sqrt_square hi) by lra. now apply sqrt_le_1_alt.
Qed.
Lemma iso_d : dense_iso2 D = / IZR d /\ 1 <= IZR d.
Proof. destruct D_facts as (P1 & P2 & _ & _ & _ & _ & _ & EI). unfold dense_iso2. rewrite EI. split; [reflexivity|]. apply IZR_le. lia. Qed.
Lemma terms_one t r j : terms (fun r k => [ent t r k]) b m r j = map (fun k => (ent t r k, b k j)) (range 0 m).
Proof. unfold terms. generalize (range 0 m). intros l. induction l as [|x l IH]; [reflexivity|]. cbn [flat_map map app]. f_equal. Qed.
Lemma dense_float_gram :
  (forall t r j, In t ts -> (0 <= r < d)%Z -> (0 <= j < q)%Z -> is_finite (out t r j) = true) /\
  forall e, 0 < e -> probability ts (fun t => exceeds (gram_gap q d (fun j r => B2R (out t r j)) m X) ((e + bd * bd * (2 * (IZR m + 12) * (IZR m + 12) * u)) * Fr)) <= v / e ^ 2.
Proof.
  destruct D_facts as (P1 & P2 & _). destruct in_ranges_d as [Hov Hun]. destruct iso_d as [Ei D1]. pose proof Fr_pos as FP.
  assert (I0 : 0 < / IZR d) by (apply Rinv_0_lt_compat; lra).
  assert (S1 : 0 <= dense_iso2 D <= 1). { rewrite Ei. split; [lra|]. rewrite <- Rinv_1. apply Rinv_le_contravar; lra. }
  assert (Hent : forall t r k, In t ts -> (0 <= r < d)%Z -> (0 <= k < m)%Z -> [ent t r k] = [] \/ exists w, [ent t r k] = [w] /\ is_finite w = true /\ Rabs (B2R w) <= bd).
  { intros t r k Ht Hr Hk. right. exists (ent t r k). destruct (ent_ok t r k Ht Hr Hk). auto. }
  assert (Ho : forall t r j, In t ts -> (0 <= r < d)%Z -> (0 <= j < q)%Z -> surely_near alpha (terms (fun r k => [ent t r k]) b m r j) (B754_zero zs) (old r j) (out t r j)).
  { intros t r j Ht Hr Hj. rewrite terms_one. now apply Hout. }
  assert (Hm0 : (0 <= m)%Z) by lia. assert (Hd0 : (0 <= d)%Z) by lia.
  assert (Bb : 1 <= bd * bd) by nra.
  assert (Hcb : dense_iso2 D * (IZR d * (bd * bd)) <= bd * bd) by (rewrite Ei; right; field; lra).
  split.
  - intros t r j Ht Hr Hj.
    exact (proj1 (out_error ts (fun t r k => [ent t r k]) b out d m q (dense_iso2 D) (IZR d * (bd * bd)) bd alpha zs old Hm0 S1 ltac:(lra) Hent squares Hb Fal Hal Hprec Hmu Hov Hun Ho t r j Ht Hr Hj)).
  - intros e He.
    exact (float_gram ts (fun t r k => [ent t r k]) b out d m q (dense_iso2 D) (IZR d * (bd * bd)) (bd * bd) bd v alpha zs old Hd0 Hm0 Hq S1 ip_dense ltac:(lra) Hent squares Hcb Bb Hb Fal Hal Hprec Hmu FP Hov Hun Ho e He).
Qed.
Lemma drawn_act t x r : In t ts -> (0 <= r < d)%Z -> sketch_of nr nc (dense_sampled cast B2R (E t) fsched D seed) x r = act m (fun r k => value [ent t r k]) x r.
Proof.
  intros Ht Hr. unfold sketch_of, act, ent. destruct (Z.leb_spec nr nc) as [Q|Q].
  - rewrite Z.max_r by lia. apply dot_ext; [|reflexivity]. intros k Hk. rewrite value_one. apply sampled_is; auto; lia.
  - rewrite Z.max_l by lia. apply dot_ext; [|reflexivity]. intros k Hk. rewrite value_one. apply sampled_is; auto; lia.
Qed.
Lemma dense_float_close t z : In t ts ->
  let y := combine q (fun j r => B2R (out t r j)) z in let x := sketch_of nr nc (dense_sampled cast B2R (E t) fsched D seed) (combine q X z) in
  Rabs (dot d y y - dense_iso2 D * dot d x x) <= bd * bd * (2 * (IZR m + 12) * (IZR m + 12) * u) * Fr * dot q z z.
Proof.
  intros Ht y x. destruct D_facts as (P1 & P2 & _). destruct in_ranges_d as [Hov Hun]. destruct iso_d as [Ei D1]. pose proof Fr_pos as FP.
  assert (I0 : 0 < / IZR d) by (apply Rinv_0_lt_compat; lra).
  assert (S1 : 0 <= dense_iso2 D <= 1). { rewrite Ei. split; [lra|]. rewrite <- Rinv_1. apply Rinv_le_contravar; lra. }
  assert (Hent : forall t r k, In t ts -> (0 <= r < d)%Z -> (0 <= k < m)%Z -> [ent t r k] = [] \/ exists w, [ent t r k] = [w] /\ is_finite w = true /\ Rabs (B2R w) <= bd).
  { intros t' r k Ht' Hr Hk. right. exists (ent t' r k). destruct (ent_ok t' r k Ht' Hr Hk). auto. }
  assert (Ho : forall t r j, In t ts -> (0 <= r < d)%Z -> (0 <= j < q)%Z -> surely_near alpha (terms (fun r k => [ent t r k]) b m r j) (B754_zero zs) (old r j) (out t r j)).
  { intros t' r j Ht' Hr Hj. rewrite terms_one. now apply Hout. }
  assert (Hm0 : (0 <= m)%Z) by lia. assert (Hd0 : (0 <= d)%Z) by lia.
  assert (Bb : 1 <= bd * bd) by nra.
  assert (Hcb : dense_iso2 D * (IZR d * (bd * bd)) <= bd * bd) by (rewrite Ei; right; field; lra).
  pose proof (float_close ts (fun t r k => [ent t r k]) b out d m q (dense_iso2 D) (IZR d * (bd * bd)) (bd * bd) bd alpha zs old Hd0 Hm0 Hq S1 ltac:(lra) Hent squares Hcb Bb Hb Fal Hal Hprec Hmu FP Hov Hun Ho t z Ht) as G.
  cbv zeta in G. fold y in G. assert (Ed : dot d (act m (fun r k => value [ent t r k]) (combine q X z)) (act m (fun r k => value [ent t r k]) (combine q X z)) = dot d x x).
  { apply dot_ext; intros r Hr; symmetry; now apply drawn_act. }
  cbv beta in G, Ed. rewrite Ed in G. exact G.
Qed.
End DenseGram.
