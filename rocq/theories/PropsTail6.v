(** The numbers sketch_sparse computes (a dense operator applied to sparse data, from the left or from the right) keep
    Gram matrices, distances, combinations of columns and least-squares problems (C77).

    Definitions read by these statements: [tapes], [uneg11_blocks32], [uneg11_blocks64], [boxmul_block], [with_blocks], [drawn_dense], [dense_iso2],
    [frob2], [gram_gap], [libm_accurate], [uniform_spread], [gaussian_spread], [scale_ok] and [sizes_ok] as for C71 (PropsGram2.v);
    [computed_distances_kept], [computed_combinations_kept], [uniform_slack], [gaussian_slack] (TailSpec.v) as for C74;
    [at_pos] (RoundSpec.v) the values a sparse matrix stores at a position; [valid_sp], [sp_safe], [same_sp], [op_ent], [fits_buffer] (SpmmSpec.v),
    [sp_window] (SketchSpec.v), [tight] (RoundSpec.v) as for C63; [value] (GramProofs2.v) the sum of a list of floats as a real number.

    Everything is floating-point: the entries of the operator, products, sums, the scaling by alpha. *)
From Coq Require Import ZArith Reals Lra Psatz FunctionalExtensionality.
From Flocq Require Import Core BinarySingleNaN.
From Verif Require Import Base Interleave Spec RngModel DenseModel DenseSpec DenseProofs2 SparseSkopModel SparseSpec SpFmtModel SpFmtSpec SpmmModel SpmmSpec PropsSpFmt
  FloatModel FloatProofs FloatProofs2 FloatProofs3 SketchModel SketchSpec RoundModel RoundSpec RoundSpec2 RoundSpec3 GemmModel GemmSpec GemmProofs BlasProofs PropsBlas
  IsoSpec IsoProofs PropsIso StatSpec StatProofs DenseFloatModel DenseIsoProofs DenseIsoProofs2 PropsStat BoxModel BoxSpec BoxProofs2 BoxProofs5 BoxLibm PropsGauss
  NormSpec NormProofs NormProofs3 PropsNorm2 PropsNorm3 GramSpec GramProofs GramProofs2 GramProofs3 GramProofs5 PropsRound PropsGram PropsFloat PropsRoundFinite PropsGram2
  TailSpec TailProofs PropsTail PropsTail2 TailComputed PropsTail3 TailComputed3.
Import ListNotations.
Local Open Scope R_scope.

Section SparseData.
Context {prec emax : Z} {pp : Prec_gt_0 prec} {pe : Prec_lt_emax prec emax}.
Local Notation bf := (binary_float prec emax).
Context {Kt Wt : Type}.
Variables (cast : Wt -> bf) (env : dense_env Kt Wt bf) (fsched : schedule bf).
Variable sched : schedule (list bf).
Variable ssort : (Z * Z * bf -> Z * Z * bf -> bool) -> list (Z * Z * bf) -> list (Z * Z * bf).
Variable nt : Z.
Variables (nr nc : Z) (fam : DenseModel.family) (D : dense_dist) (seed : rng_state Kt) (dflt : list Wt).
(** All blocks that the generator may return, equally likely. *)
Variable blocks : list (list Wt).
Variables (l : layout) (opA : op) (n : Z) (alpha : bf) (zs : bool) (A : spmat bf) (B : list bf) (ldb : Z).
(** The operator of a draw: may be filled in some draws and not in others. *)
Variable S : list (list Wt) -> dense_skop Kt bf.
Notation d := (Z.min nr nc).
Notation m := (Z.max nr nc).
Notation O := (fops prec emax).
Notation u := (bpow radix2 (- prec)).
Notation L := (g_len (env_gen env fam)).
Notation draws := (tapes (Z.to_nat (dense_blocks D L)) blocks).
Notation cell := SpmmSpec.cell.
(** A wide operator is applied from the left as it is and from the right transposed, a tall one the other way round. *)
Notation opL := (if (nr <=? nc)%Z then NoTrans else Trans).
Notation opR := (if (nr <=? nc)%Z then Trans else NoTrans).

(** The operator: valid, major axis Long, drawn from random blocks; any OpenMP schedules, any correct sort. *)
Definition drawn_hyps : Prop :=
  valid_schedule fsched /\ valid_schedule sched /\ sort_ok ssort /\
  mk_dense_dist nr nc fam Long = Ok D /\ dense_fits env D seed /\ zlen dflt = L /\
  forall t, In t draws -> drawn_dense cast (with_blocks env seed dflt t) D seed (S t).
(** The data: a valid sparse matrix of any format with at least r rows and c columns (COO; exactly as many otherwise), no two
    entries at the same position, finite values. *)
Definition sparse_hyps (r c : Z) : Prop :=
  valid_sp A /\ sp_base A = BZero /\ sp_window A r c 0 0 /\
  (forall i j, (length (at_pos A i j) <= 1)%nat) /\ forall i j v, In v (at_pos A i j) -> is_finite v = true.
(** The sketch of m x n data op(A) from the left, of n x m data op(A) from the right: data as above, kernels that stay in
    bounds (C34, C35, C60), a result buffer that is large enough. *)
Definition left_sp_hyps : Prop :=
  (0 <= n)%Z /\ sparse_hyps (rows_before opA m n) (cols_before opA m n) /\
  sp_safe nt (flip l) (flip_op opA) (if layout_eqb (dd_layout D) l then opL else flip_op opL) n d m A 0 0 /\ tight A (flip_op opA) 0 0 n d m /\
  fits_buffer l ldb d n (zlen B).
Definition right_sp_hyps : Prop :=
  (0 <= n)%Z /\ sparse_hyps (rows_before opA n m) (cols_before opA n m) /\
  sp_safe nt l opA (if layout_eqb (dd_layout D) l then opR else flip_op opR) n d m A 0 0 /\ tight A opA 0 0 n d m /\
  fits_buffer l ldb n d (zlen B).
(** Column j of op(A) (left), row j of op(A) (right), as real numbers; zero where nothing is stored. *)
Definition left_sp_data : Z -> Z -> R := fun j k => value (op_ent opA (at_pos A) k j).
Definition right_sp_data : Z -> Z -> R := fun j k => value (op_ent opA (at_pos A) j k).
(** sketch_sparse(layout, opS, opA, d, n, m, alpha, S, 0, 0, A, 0, B, ldb). *)
Definition sparse_left (t : list (list Wt)) : outcome (spmat bf * list bf) :=
  sketch_sparse_left O cast (with_blocks env seed dflt t) fsched sched ssort nt l opL opA d n m alpha (S t) 0 0 A (B754_zero zs) B ldb.
(** sketch_sparse(layout, opA, opS, n, d, m, alpha, A, S, 0, 0, 0, B, ldb). *)
Definition sparse_right (t : list (list Wt)) : outcome (spmat bf * list bf) :=
  sketch_sparse_right O cast (with_blocks env seed dflt t) fsched sched ssort nt l opA opR n d m alpha A (S t) 0 0 (B754_zero zs) B ldb.
(** Every draw gives finite numbers and changes nothing else; their Gram matrix is that of the data up to a factor e + round of its squared
    norm except with probability v / e^2; distances and combinations are kept except with exponentially small probability. *)
Definition sparse_kept (run : list (list Wt) -> outcome (spmat bf * list bf)) (rows cols : Z) (X : Z -> Z -> R) (at_ : list bf -> Z -> Z -> bf) (lo : Z) (w v slack : R) : Prop :=
  let round := w * (2 * (IZR m + 12) * (IZR m + 12) * u) in let Y t j r := B2R (at_ (output (run t)) r j) in
  (forall t, In t draws -> exists A' B', run t = Ok (A', B') /\ same_sp A A' /\ others_kept l rows cols B ldb B' /\
     forall r j, (0 <= r < d)%Z -> (0 <= j < n)%Z -> is_finite (at_ B' r j) = true) /\
  (forall e, 0 < e -> probability draws (fun t => exceeds (gram_gap n d (Y t) m X) ((e + round) * frob2 n m X)) <= v / e ^ 2) /\
  computed_distances_kept draws d m n X Y slack round (bpow radix2 (2 * lo)) /\
  computed_combinations_kept draws d m n X Y slack round.
(** [em], [lo], [hi] bound sizes as in C71; w is 4 for uniform entries, 49 or 100 for Gaussian ones. *)
Definition both_sparse_kept (em lo hi : Z) (w v slack : R) : Prop :=
  (left_sp_hyps -> sizes_ok nr nc n em lo hi left_sp_data -> sparse_kept sparse_left d n left_sp_data (fun B' r j => cell O l ldb B' r j) lo w v slack) /\
  (right_sp_hyps -> sizes_ok nr nc n em lo hi right_sp_data -> sparse_kept sparse_right n d right_sp_data (fun B' r j => cell O l ldb B' j r) lo w v slack).

Lemma drawn_layout t X : drawn_dense cast (with_blocks env seed dflt t) D seed X -> ds_layout X = dd_layout D.
Proof.
  intros [H|(S0 & fs & H & _ & Hfl)]; [exact (skop_layout _ _ _ _ H)|]. rewrite (fill_layout _ _ _ _ _ Hfl). exact (skop_layout _ _ _ _ H).
Qed.
Lemma value_sole (x : list bf) : (length x <= 1)%nat -> value x = B2R (sole x).
Proof. intros H. destruct x as [|v [|w r]]; cbn [length] in H; [reflexivity| |lia]. unfold value. cbn [map Rsum sole]. lra. Qed.
Lemma sole_finite (x : list bf) : (forall v, In v x -> is_finite v = true) -> is_finite (sole x) = true.
Proof. intros H. destruct x as [|v r]; [reflexivity|]. apply H. now left. Qed.
Lemma one_side em lo hi bd v slack (run : list (list Wt) -> outcome (spmat bf * list bf)) rows cols (E : Z -> Z -> list bf) (at_ : list bf -> Z -> Z -> bf) :
  drawn_hyps -> ready cast env fsched nr nc fam D seed dflt blocks bd v slack -> scale_ok D alpha -> ranges_ok (prec := prec) (emax := emax) em lo hi bd ->
  (0 <= n)%Z -> (forall k j, (length (E k j) <= 1)%nat) -> (forall k j v, In v (E k j) -> is_finite v = true) -> sizes_ok nr nc n em lo hi (fun j k => value (E k j)) ->
  (forall t, In t draws -> exists A' B', run t = Ok (A', B') /\ same_sp A A' /\ others_kept l rows cols B ldb B' /\
      forall r j, (0 <= r < d)%Z -> (0 <= j < n)%Z -> surely_near alpha (map (fun k => (ent cast env nr nc D seed dflt t r k, sole (E k j))) (range 0 m)) (B754_zero zs) (at_ B r j) (at_ B' r j)) ->
  sparse_kept run rows cols (fun j k => value (E k j)) at_ lo (bd * bd) v slack.
Proof.
  intros (Hf & Hs & Hso & HD & HF & Hdf & HS) HR Hsc Hrg Hn Hone Hfin Hsz Q.
  assert (Xe : (fun j k => value (E k j)) = (fun j k => B2R (sole (E k j)))) by (apply functional_extensionality; intros j; apply functional_extensionality; intros k; apply value_sole, Hone).
  rewrite Xe in *.
  destruct (any_driver cast env fsched nr nc fam D seed dflt blocks n alpha zs em lo hi bd v slack Hf HD HF Hdf HR Hsc Hrg (fun k j => sole (E k j))
    (fun t r j => at_ (output (run t)) r j) (fun r j => at_ B r j) Hn) as (K1 & K2 & K3 & K4 & _).
  { intros k j _ _. apply sole_finite. intros w Hin. eapply Hfin. exact Hin. }
  { exact Hsz. }
  { intros t r j Ht Hr Hj. destruct (Q t Ht) as (A' & B' & ERun & _ & _ & G). rewrite ERun. cbn [output]. now apply G. }
  split; [|split; [exact K2|split; [exact K3|exact K4]]].
  intros t Ht. destruct (Q t Ht) as (A' & B' & ERun & SA & HO & _). exists A', B'. split; [exact ERun|]. split; [exact SA|]. split; [exact HO|].
  intros r j Hr Hj. pose proof (K1 t r j Ht Hr Hj) as Fo. cbv beta in Fo. rewrite ERun in Fo. exact Fo.
Qed.
Lemma both_sparse em lo hi bd v slack : drawn_hyps -> ready cast env fsched nr nc fam D seed dflt blocks bd v slack -> scale_ok D alpha -> ranges_ok (prec := prec) (emax := emax) em lo hi bd ->
  both_sparse_kept em lo hi (bd * bd) v slack.
Proof.
  intros Hdr HR Hsc Hrg. pose proof Hdr as (Hf & Hs & Hso & HD & HF & Hdf & HS).
  pose proof HR as (HBl & HBf & HIP & _).
  destruct (mk_dense_dist_inv _ _ _ _ _ HD) as (P1 & P2 & ER & EC & _).
  split.
  - intros (Hn & (HA & Hb0 & Hw & Hone & Hfin) & Hsafe & Htight & FB) Hsz.
    apply (one_side em lo hi bd v slack sparse_left d n (fun k j => op_ent opA (at_pos A) k j) (fun B' r j => cell O l ldb B' r j) Hdr HR Hsc Hrg Hn).
    { intros k j. destruct opA; apply Hone. }
    { intros k j w Hin. destruct opA; eapply Hfin; exact Hin. }
    { exact Hsz. }
    intros t Ht. destruct (drawn_denotes cast env fsched nr nc fam D seed dflt HD HF Hdf blocks bd v HBl HBf HIP t (S t) Ht (HS t Ht)) as [Ed Dn].
    pose proof (E_wf cast env fsched nr nc fam D seed dflt HD HF Hdf blocks bd v HBl HBf HIP t Ht) as Wf.
    destruct (C63_left_sparse_sketch_accurate cast (with_blocks env seed dflt t) fsched sched ssort nt Hf Hs Hso l opL opA d n m alpha (S t) 0 0 A (B754_zero zs) B ldb
      (GramProofs5.entry cast env D seed dflt t) Wf Dn) as (A' & B' & E & SA & HO & G); auto; try lia.
    { rewrite Ed, ER, EC. unfold in_matrix. destruct (Z.leb_spec nr nc); cbn [rows_before cols_before]; lia. }
    { right. rewrite (drawn_layout t _ (HS t Ht)). split; assumption. }
    exists A', B'. split; [exact E|]. split; [exact SA|]. split; [exact HO|]. intros r j Hr Hj. destruct (cell_there l B ldb d n r j FB Hr Hj) as [c Gc].
    destruct (G r j c _ Hr Hj Gc eq_refl) as (y & Gy & _ & Sy). unfold SpmmSpec.cell. rewrite Gc, Gy. apply surely_near_swap.
    unfold terms in Sy. apply (surely_near_pad (fun k => op_ent opA (at_pos A) k j)) in Sy; [|intros k; destruct opA; apply Hone].
    rewrite map_map. erewrite map_ext; [exact Sy|]. intros k. cbv beta. unfold swap. cbn [fst snd]. f_equal. unfold ent, win. destruct (Z.leb_spec nr nc); cbn [op_ent]; rewrite !Z.add_0_l; reflexivity.
  - intros (Hn & (HA & Hb0 & Hw & Hone & Hfin) & Hsafe & Htight & FB) Hsz.
    apply (one_side em lo hi bd v slack sparse_right n d (fun k j => op_ent opA (at_pos A) j k) (fun B' r j => cell O l ldb B' j r) Hdr HR Hsc Hrg Hn).
    { intros k j. destruct opA; apply Hone. }
    { intros k j w Hin. destruct opA; eapply Hfin; exact Hin. }
    { exact Hsz. }
    intros t Ht. destruct (drawn_denotes cast env fsched nr nc fam D seed dflt HD HF Hdf blocks bd v HBl HBf HIP t (S t) Ht (HS t Ht)) as [Ed Dn].
    pose proof (E_wf cast env fsched nr nc fam D seed dflt HD HF Hdf blocks bd v HBl HBf HIP t Ht) as Wf.
    destruct (C63_right_sparse_sketch_accurate cast (with_blocks env seed dflt t) fsched sched ssort nt Hf Hs Hso l opA opR n d m alpha A (S t) 0 0 (B754_zero zs) B ldb
      (GramProofs5.entry cast env D seed dflt t) Wf Dn) as (A' & B' & E & SA & HO & G); auto; try lia.
    { rewrite Ed, ER, EC. unfold in_matrix. destruct (Z.leb_spec nr nc); cbn [rows_before cols_before]; lia. }
    { right. rewrite (drawn_layout t _ (HS t Ht)). split; assumption. }
    exists A', B'. split; [exact E|]. split; [exact SA|]. split; [exact HO|]. intros r j Hr Hj. destruct (cell_there l B ldb n d j r FB Hj Hr) as [c Gc].
    destruct (G j r c _ Hj Hr Gc eq_refl) as (y & Gy & _ & Sy). unfold SpmmSpec.cell. rewrite Gc, Gy. apply surely_near_swap.
    unfold terms in Sy. apply (surely_near_pad (fun k => op_ent opA (at_pos A) j k)) in Sy; [|intros k; destruct opA; apply Hone].
    rewrite map_map. erewrite map_ext; [exact Sy|]. intros k. cbv beta. unfold swap. cbn [fst snd]. f_equal. unfold ent, win. destruct (Z.leb_spec nr nc); cbn [op_ent]; rewrite !Z.add_0_l; reflexivity.
Qed.
End SparseData.

(** * Uniform entries *)
Theorem C77_uniform_float :
  forall {Kt} (env : dense_env Kt b32 b32) fsched sched ssort nt nr nc D seed dflt l opA n alpha zs A B ldb S,
    let L := g_len (env_unif env) in
    drawn_hyps (fun x => x) env fsched sched ssort nr nc Uniform D seed dflt (uneg11_blocks32 L) S -> env_scal3 env = scal3_32 -> scale_ok D alpha ->
    both_sparse_kept (fun x => x) env fsched sched ssort nt nr nc Uniform D seed dflt (uneg11_blocks32 L) l opA n alpha zs A B ldb S
      12 (-40) 100 4 (uniform_spread (/ IZR (2 ^ 20)) (Z.min nr nc) (Z.max nr nc))
      (uniform_slack (/ IZR (2 ^ 20)) (Z.max nr nc)).
Proof.
  intros Kt env fsched sched ssort nt nr nc D seed dflt l opA n alpha zs A B ldb S L HO E3 Hsc. pose proof HO as (Hf & _ & _ & HD & HF & Hdf & _).
  replace 4 with (2 * 2) by lra. eapply both_sparse; [exact HO| |exact Hsc|unfold ranges_ok; lra || (repeat (split; [lia|]); lra)].
  exact (ready_uniform_float env fsched nr nc D seed dflt Hf HD HF Hdf E3).
Qed.
Print Assumptions C77_uniform_float.
(** T = double, 32-bit words. *)
Theorem C77_uniform_double :
  forall {Kt} (env : dense_env Kt b32 b64) fsched sched ssort nt nr nc D seed dflt l opA n alpha zs A B ldb S,
    let L := g_len (env_unif env) in
    drawn_hyps to64 env fsched sched ssort nr nc Uniform D seed dflt (uneg11_blocks32 L) S -> env_scal3 env = scal3_64 -> scale_ok D alpha ->
    both_sparse_kept to64 env fsched sched ssort nt nr nc Uniform D seed dflt (uneg11_blocks32 L) l opA n alpha zs A B ldb S
      26 (-850) 950 4 (uniform_spread (/ IZR (2 ^ 20)) (Z.min nr nc) (Z.max nr nc))
      (uniform_slack (/ IZR (2 ^ 20)) (Z.max nr nc)).
Proof.
  intros Kt env fsched sched ssort nt nr nc D seed dflt l opA n alpha zs A B ldb S L HO E3 Hsc. pose proof HO as (Hf & _ & _ & HD & HF & Hdf & _).
  replace 4 with (2 * 2) by lra. eapply both_sparse; [exact HO| |exact Hsc|unfold ranges_ok; lra || (repeat (split; [lia|]); lra)].
  exact (ready_uniform_double env fsched nr nc D seed dflt Hf HD HF Hdf E3).
Qed.
Print Assumptions C77_uniform_double.
(** T = double, 64-bit words. *)
Theorem C77_uniform_wide_words :
  forall {Kt} (env : dense_env Kt b64 b64) fsched sched ssort nt nr nc D seed dflt l opA n alpha zs A B ldb S,
    let L := g_len (env_unif env) in
    drawn_hyps (fun x => x) env fsched sched ssort nr nc Uniform D seed dflt (uneg11_blocks64 L) S -> env_scal3 env = scal3_64 -> scale_ok D alpha ->
    both_sparse_kept (fun x => x) env fsched sched ssort nt nr nc Uniform D seed dflt (uneg11_blocks64 L) l opA n alpha zs A B ldb S
      26 (-850) 950 4 (uniform_spread (/ IZR (2 ^ 49)) (Z.min nr nc) (Z.max nr nc))
      (uniform_slack (/ IZR (2 ^ 49)) (Z.max nr nc)).
Proof.
  intros Kt env fsched sched ssort nt nr nc D seed dflt l opA n alpha zs A B ldb S L HO E3 Hsc. pose proof HO as (Hf & _ & _ & HD & HF & Hdf & _).
  replace 4 with (2 * 2) by lra. eapply both_sparse; [exact HO| |exact Hsc|unfold ranges_ok; lra || (repeat (split; [lia|]); lra)].
  exact (ready_uniform_wide_words env fsched nr nc D seed dflt Hf HD HF Hdf E3).
Qed.
Print Assumptions C77_uniform_wide_words.
(** * Gaussian entries; of sincos and log only an accuracy eps is assumed *)
Theorem C77_gaussian_float :
  forall {Kt} (env : dense_env Kt b32 b32) fsched sched ssort nt nr nc D seed dflt l opA n alpha zs A B ldb S junk sincosf logf eps,
    let L := g_len (env_gauss env) in let blocks := map (boxmul_block (boxmuller_32 sincosf logf) junk) (tapes (Z.to_nat L) (range 0 (2 ^ 32))) in
    drawn_hyps (fun x => x) env fsched sched ssort nr nc Gaussian D seed dflt blocks S -> nr <> nc -> Z.even L = true -> libm_accurate sincosf logf eps -> 0 <= eps <= / 4096 -> scale_ok D alpha ->
    both_sparse_kept (fun x => x) env fsched sched ssort nt nr nc Gaussian D seed dflt blocks l opA n alpha zs A B ldb S
      12 (-40) 100 49 (gaussian_spread (79 / IZR (2 ^ 24) + 5 * eps) (Z.min nr nc) (Z.max nr nc))
      (gaussian_slack (79 / IZR (2 ^ 24) + 5 * eps) (48 * (79 / IZR (2 ^ 24) + 5 * eps)) (Z.max nr nc)).
Proof.
  intros Kt env fsched sched ssort nt nr nc D seed dflt l opA n alpha zs A B ldb S junk sincosf logf eps L blocks HO Hsq Ev Hl He Hsc. pose proof HO as (Hf & _ & _ & HD & HF & Hdf & _).
  replace 49 with (7 * 7) by lra. eapply both_sparse; [exact HO| |exact Hsc|unfold ranges_ok; lra || (repeat (split; [lia|]); lra)].
  exact (ready_gaussian_float env fsched nr nc D seed dflt junk sincosf logf eps Hf HD HF Hdf Hsq Ev Hl He).
Qed.
Print Assumptions C77_gaussian_float.
(** T = double, 32-bit words. *)
Theorem C77_gaussian_double :
  forall {Kt} (env : dense_env Kt b32 b64) fsched sched ssort nt nr nc D seed dflt l opA n alpha zs A B ldb S junk sincosf logf eps,
    let L := g_len (env_gauss env) in let blocks := map (boxmul_block (boxmuller_32 sincosf logf) junk) (tapes (Z.to_nat L) (range 0 (2 ^ 32))) in
    drawn_hyps to64 env fsched sched ssort nr nc Gaussian D seed dflt blocks S -> nr <> nc -> Z.even L = true -> libm_accurate sincosf logf eps -> 0 <= eps <= / 4096 -> scale_ok D alpha ->
    both_sparse_kept to64 env fsched sched ssort nt nr nc Gaussian D seed dflt blocks l opA n alpha zs A B ldb S
      26 (-850) 950 49 (gaussian_spread (79 / IZR (2 ^ 24) + 5 * eps) (Z.min nr nc) (Z.max nr nc))
      (gaussian_slack (79 / IZR (2 ^ 24) + 5 * eps) (48 * (79 / IZR (2 ^ 24) + 5 * eps)) (Z.max nr nc)).
Proof.
  intros Kt env fsched sched ssort nt nr nc D seed dflt l opA n alpha zs A B ldb S junk sincosf logf eps L blocks HO Hsq Ev Hl He Hsc. pose proof HO as (Hf & _ & _ & HD & HF & Hdf & _).
  replace 49 with (7 * 7) by lra. eapply both_sparse; [exact HO| |exact Hsc|unfold ranges_ok; lra || (repeat (split; [lia|]); lra)].
  exact (ready_gaussian_double env fsched nr nc D seed dflt junk sincosf logf eps Hf HD HF Hdf Hsq Ev Hl He).
Qed.
Print Assumptions C77_gaussian_double.
(** T = double, 64-bit words. *)
Theorem C77_gaussian_wide_words :
  forall {Kt} (env : dense_env Kt b64 b64) fsched sched ssort nt nr nc D seed dflt l opA n alpha zs A B ldb S junk sincos log eps,
    let L := g_len (env_gauss env) in let blocks := map (boxmul_block (boxmuller_64 sincos log) junk) (tapes (Z.to_nat L) (range 0 (2 ^ 64))) in
    drawn_hyps (fun x => x) env fsched sched ssort nr nc Gaussian D seed dflt blocks S -> nr <> nc -> Z.even L = true -> libm_accurate sincos log eps -> 0 <= eps <= / 4096 -> scale_ok D alpha ->
    both_sparse_kept (fun x => x) env fsched sched ssort nt nr nc Gaussian D seed dflt blocks l opA n alpha zs A B ldb S
      26 (-850) 950 100 (gaussian_spread (79 / IZR (2 ^ 53) + 5 * eps) (Z.min nr nc) (Z.max nr nc))
      (gaussian_slack (79 / IZR (2 ^ 53) + 5 * eps) (92 * (79 / IZR (2 ^ 53) + 5 * eps)) (Z.max nr nc)).
Proof.
  intros Kt env fsched sched ssort nt nr nc D seed dflt l opA n alpha zs A B ldb S junk sincos log eps L blocks HO Hsq Ev Hl He Hsc. pose proof HO as (Hf & _ & _ & HD & HF & Hdf & _).
  replace 100 with (10 * 10) by lra. eapply both_sparse; [exact HO| |exact Hsc|unfold ranges_ok; lra || (repeat (split; [lia|]); lra)].
  exact (ready_gaussian_wide_words env fsched nr nc D seed dflt junk sincos log eps Hf HD HF Hdf Hsq Ev Hl He).
Qed.
Print Assumptions C77_gaussian_wide_words.

(** A 4096 by 100000 operator with uniform entries in double precision, from 32-bit words, not filled, applied to a sparse 100000 by 2 matrix with
    three ones (rows 0 and 5 of column 0, row 99999 of column 1).  The squared distance between the columns is 3; that of
    the computed sketches is between 2.2 and 3.8 except with probability at most 10^-17. *)
Definition coo3 : coo_matrix b64 := Build_coo_matrix 100000 2 false 3 BZero (Some [one64; one64; one64]) (Some [0; 5; 99999])%Z (Some [0; 0; 1])%Z SNone.
Example C77_case : 
  let s := mk_state 7 tt in let B := repeat one64 (Z.to_nat 8192) in let Sk := fun _ => fresh4096 U4096 in
  drawn_hyps to64 env_u64 seq_schedule seq_schedule isort 4096 100000 Uniform U4096 s dflt2 (uneg11_blocks32 2) Sk /\
  left_sp_hyps 1 4096 100000 U4096 ColMajor NoTrans 2 (SpCoo coo3) B 4096 /\
  let draws := tapes (Z.to_nat (dense_blocks U4096 2)) (uneg11_blocks32 2) in
  let Y t j r := B2R (SpmmSpec.cell (fops 53 1024) ColMajor 4096 (output (sparse_left to64 env_u64 seq_schedule seq_schedule isort 1 4096 100000 s dflt2 ColMajor NoTrans 2 inv64_64 false (SpCoo coo3) B 4096 Sk t)) r j) in
  exists bad, probability draws bad <= / 100000000000000000 /\
    forall t, In t draws -> bad t = false -> let y r := Y t 0%Z r - Y t 1%Z r in 2.2 <= dot 4096 y y <= 3.8.
Proof.
  intros s B Sk.
  assert (HO : drawn_hyps to64 env_u64 seq_schedule seq_schedule isort 4096 100000 Uniform U4096 s dflt2 (uneg11_blocks32 2) Sk).
  { split; [apply seq_schedule_valid|]. split; [apply seq_schedule_valid|]. split; [apply isort_ok|]. split; [reflexivity|]. split.
    { split; [split; apply gen22_wf; reflexivity|]. repeat split; cbn; lia. }
    split; [reflexivity|]. intros t _. left. reflexivity. }
  assert (LB : zlen B = 8192%Z) by (unfold B; rewrite zlen_repeat; lia).
  assert (One : B2R one64 = 1) by (unfold one64; rewrite B2R_pow52; reflexivity).
  assert (At : forall i j, at_pos (SpCoo coo3) i j = if (((i =? 0) && (j =? 0)) || ((i =? 5) && (j =? 0)) || ((i =? 99999) && (j =? 1)))%Z%bool then [one64] else []).
  { intros i j. cbn [at_pos]. unfold coo_at. cbn [co_nnz co_rows co_cols co_vals co_base coo3 arrv off]. rewrite !Z.add_0_r. unfold coo_values, coo_triples. change (range 0 3) with [0; 1; 2]%Z.
    cbn -[Z.eqb]. change (Pos.to_nat 1) with 1%nat. change (Pos.to_nat 2) with 2%nat. cbn -[Z.eqb]. rewrite !(Z.eqb_sym _ i), !(Z.eqb_sym _ j).
    destruct (Z.eqb_spec i 0), (Z.eqb_spec i 5), (Z.eqb_spec i 99999), (Z.eqb_spec j 0), (Z.eqb_spec j 1); try lia; reflexivity. }
  assert (HL : left_sp_hyps 1 4096 100000 U4096 ColMajor NoTrans 2 (SpCoo coo3) B 4096).
  { split; [lia|]. split.
    { split; [split; [apply valid_coo_check; reflexivity|exact I]|]. split; [reflexivity|]. split; [split; [vm_compute; congruence|split; [vm_compute; congruence|split; [lia|split; [lia|exact I]]]]|]. split.
      - intros i j. rewrite At. destruct (_ || _)%bool; cbn [length]; lia.
      - intros i j v Hin. rewrite At in Hin. destruct (_ || _)%bool; [|destruct Hin]. destruct Hin as [<-|[]]. reflexivity. }
    assert (W : exists r c (v : b64), In (r, c, v) (stored (Build_coo_matrix (co_nc coo3) (co_nr coo3) false (co_nnz coo3) (co_base coo3) (co_vals coo3) (co_cols coo3) (co_rows coo3) (co_sort coo3))) /\
      in_window 0 (0 + 1) 2 (Z.max 4096 100000 - 1) (r, c, v) = true).
    { exists 0%Z, 5%Z, one64. split; [right; left; reflexivity|reflexivity]. }
    split; [right; right; right; split; [lia|left; exact W]|]. split; [right; right; right; exact W|].
    split; [cbn; lia|]. intros i j Hi Hj. cbn [addr] in *. rewrite LB. lia. }
  split; [exact HO|]. split; [exact HL|]. intros draws Y.
  assert (Dot : forall f : Z -> R, (forall k, (0 <= k < 100000)%Z -> f k = IsoSpec.delta k 0 + IsoSpec.delta k 5 + IsoSpec.delta k 99999) -> Rsum (map f (range 0 100000)) = 3).
  { intros f Hf'. rewrite (Rsum_ext _ (fun k => IsoSpec.delta k 0 * 1 + IsoSpec.delta k 5 * 1 + IsoSpec.delta k 99999 * 1)) by (intros k Hk; apply in_range in Hk; rewrite Hf' by lia; lra).
    rewrite !Rsum_plus, !(Rsum_delta (fun _ => 1)) by lia. lra. }
  pose proof (C77_uniform_double env_u64 seq_schedule seq_schedule isort 1%Z 4096%Z 100000%Z U4096 s dflt2 ColMajor NoTrans 2%Z inv64_64 false (SpCoo coo3) B 4096%Z Sk HO eq_refl) as K.
  assert (Sq : scale_ok U4096 inv64_64).
  { assert (Inv : B2R inv64_64 = / 64) by (unfold inv64_64; rewrite B2R_pow52; reflexivity). split; [reflexivity|]. rewrite Inv. replace (sqrt (dense_iso2 U4096)) with (/ 64).
    - rewrite Rminus_eq_0, Rabs_R0. apply Rmult_le_pos; [|lra]. apply Rmult_le_pos; [lra|apply bpow_ge_0].
    - symmetry. unfold dense_iso2. cbn [dd_iso_inv2 U4096]. apply sqrt_lem_1; lra. }
  specialize (K Sq). destruct K as [K _]. specialize (K HL).
  set (X := left_sp_data (prec := 53) (emax := 1024) NoTrans (SpCoo coo3)) in *.
  assert (X0 : forall k, X 0%Z k = IsoSpec.delta k 0 + IsoSpec.delta k 5).
  { intros k. unfold X, left_sp_data. cbn [op_ent]. rewrite At. unfold IsoSpec.delta. change (0 =? 0)%Z with true. change (0 =? 1)%Z with false.
    destruct (Z.eqb_spec k 0), (Z.eqb_spec k 5), (Z.eqb_spec k 99999); try lia; cbn [andb orb]; unfold value; cbn [map Rsum]; rewrite ?One; lra. }
  assert (X1 : forall k, X 1%Z k = IsoSpec.delta k 99999).
  { intros k. unfold X, left_sp_data. cbn [op_ent]. rewrite At. unfold IsoSpec.delta. change (1 =? 0)%Z with false. change (1 =? 1)%Z with true.
    destruct (Z.eqb_spec k 0), (Z.eqb_spec k 5), (Z.eqb_spec k 99999); try lia; cbn [andb orb]; unfold value; cbn [map Rsum]; rewrite ?One; lra. }
  clearbody X.
  assert (D3 : forall k, IsoSpec.delta k 0 * IsoSpec.delta k 5 = 0 /\ IsoSpec.delta k 0 * IsoSpec.delta k 99999 = 0 /\ IsoSpec.delta k 5 * IsoSpec.delta k 99999 = 0 /\
    IsoSpec.delta k 0 * IsoSpec.delta k 0 = IsoSpec.delta k 0 /\ IsoSpec.delta k 5 * IsoSpec.delta k 5 = IsoSpec.delta k 5 /\ IsoSpec.delta k 99999 * IsoSpec.delta k 99999 = IsoSpec.delta k 99999).
  { intros k. unfold IsoSpec.delta. destruct (Z.eqb_spec k 0), (Z.eqb_spec k 5), (Z.eqb_spec k 99999); try lia; repeat split; lra. }
  change (Z.max 4096 100000) with 100000%Z in K. change (Z.min 4096 100000) with 4096%Z in K.
  assert (Nn : dot 100000 (X 0%Z) (X 0%Z) + dot 100000 (X 1%Z) (X 1%Z) = 3).
  { unfold dot. rewrite <- Rsum_plus. apply Dot. intros k _. rewrite X0, X1. destruct (D3 k) as (Q1 & Q2 & Q3 & Q4 & Q5 & Q6). nra. }
  assert (Fr : frob2 2 100000 X = 3). { unfold frob2. change (range 0 2) with [0; 1]%Z. cbn [map Rsum]. lra. }
  assert (Dd : dot 100000 (fun i => X 0%Z i - X 1%Z i) (fun i => X 0%Z i - X 1%Z i) = 3).
  { unfold dot. apply Dot. intros k _. rewrite X0, X1. destruct (D3 k) as (Q1 & Q2 & Q3 & Q4 & Q5 & Q6). nra. }
  destruct K as (_ & _ & JL & _).
  { split; [vm_compute; congruence|]. split; [lia|]. change (Z.max 4096 100000) with 100000%Z. rewrite Fr. split.
    - apply (Rle_trans _ (bpow radix2 0)); [apply bpow_le; lia|cbn; lra].
    - apply (Rle_trans _ (bpow radix2 2)); [cbn; lra|apply bpow_le; lia]. }
  change (dense_blocks U4096 (g_len (env_gen env_u64 Uniform))) with (dense_blocks U4096 2) in JL. change (uneg11_blocks32 (g_len (env_unif env_u64))) with (uneg11_blocks32 2) in JL.
  destruct (JL (/ 4) ltac:(lra)) as (bad & P & G). change (tapes _ _) with draws in P, G. clear JL. change (Z.max 4096 100000) with 100000%Z in G. change (Z.min 4096 100000) with 4096%Z in P, G. clearbody draws. exists bad. split.
  - eapply Rle_trans; [exact P|]. change (2 * (2 - 1))%Z with 2%Z.
    assert (E : exp (- (4096 * (/ 4) ^ 2 / 6)) <= exp (- INR 42)).
    { destruct (Rle_lt_or_eq_dec (- (4096 * (/ 4) ^ 2 / 6)) (- INR 42)) as [H|H]; [cbn [pow]; rewrite INR_IZR_INZ; change (Z.of_nat 42) with 42%Z; lra|apply Rlt_le, exp_increasing, H|right; now f_equal]. }
    assert (E1 : 2.7 <= exp 1).
    { replace (exp 1) with (exp (/ 128) ^ 128). 2: { rewrite exp_pow. f_equal. rewrite INR_IZR_INZ. change (Z.of_nat 128) with 128%Z. lra. }
      apply (Rle_trans _ ((129 / 128) ^ 128)); [lra|]. apply pow_incr. pose proof (exp_ineq1_le (/ 128)). lra. }
    assert (E2 : exp (- INR 42) <= / 2.7 ^ 42).
    { rewrite exp_Ropp. apply Rinv_le_contravar; [apply pow_lt; lra|]. rewrite <- (Rmult_1_r (INR 42)), <- exp_pow. apply pow_incr. lra. }
    apply (Rle_trans _ (2 * / 2.7 ^ 42)); [apply Rmult_le_compat_l; lra|]. lra.
  - intros t Ht Hb y. pose proof (G t Ht Hb 0%Z 1%Z ltac:(lia) ltac:(lia)) as R. clear G P. cbv zeta in R. rewrite Nn in R. rewrite Dd in R.
    assert (Lo : bpow radix2 (2 * -850) <= 3) by (apply (Rle_trans _ (bpow radix2 0)); [apply bpow_le; lia|cbn; lra]). specialize (R Lo).
    change (Rabs (dot 4096 y y - 3) <= (/ 4 + uniform_slack (/ IZR (2 ^ 20)) 100000) * 3 + 2 * (4 * (2 * (100000 + 12) * (100000 + 12) * bpow radix2 (- (53)))) * 3) in R.
    clearbody y. set (p := dot 4096 y y) in *. clearbody p. clear - R.
    assert (Us : bpow radix2 (- (53)) * 9007199254740992 = 1) by (change 9007199254740992 with (bpow radix2 53); rewrite <- bpow_plus; reflexivity).
    revert R Us. generalize (bpow radix2 (- (53))). intros v R Us.
    assert (Q : sqrt 100000 <= 317). { rewrite <- (sqrt_square 317) by lra. apply sqrt_le_1_alt. lra. }
    assert (Sl : uniform_slack (/ IZR (2 ^ 20)) 100000 <= 1 / 100) by (unfold uniform_slack; change (IZR (2 ^ 20)) with 1048576; cbn [pow]; lra).
    set (sl := uniform_slack _ _) in *. clearbody sl. apply abs_bounds in R. lra.
Qed.
