(** The same from the right: sketch_general with a filled sparse operator on the right preserves Gram matrices with a
    known probability (C69, continued; with an operator that has not been filled the call accumulates twice, see C43).

    Definitions read by these statements: as for the left-hand theorems (PropsGram.v). *)
From Coq Require Import ZArith Reals Lra Psatz.
From Flocq Require Import Core BinarySingleNaN.
From Verif Require Import Base Interleave Spec RngModel DenseModel DenseSpec SparseSkopModel FySpec FyProofs SparseSpec SparseProofs SparseProofs2 SpFmtModel SpFmtSpec SpmmModel SpmmSpec
  SketchModel SketchSpec SketchProofs3 PropsSpFmt FloatModel RoundModel RoundSpec RoundSpec2 PropsRound PropsRoundFinite
  IsoSpec IsoProofs PropsIso StatSpec StatProofs NormSpec NormProofs NormProofs3 PropsNorm GramSpec GramProofs GramProofs2 GramProofs3 GramProofs4 PropsGram TailComputed2.
Local Open Scope R_scope.

Section Right.
Context {prec emax : Z} {pp : Prec_gt_0 prec} {pe : Prec_lt_emax prec emax}.
Local Notation bf := (binary_float prec emax).
Context {Kt Wt F : Type}.
Variables (cast : Wt -> bf) (denv : dense_env Kt Wt bf) (fsched : schedule bf).
Variable env : sparse_env Kt F bf.
Variables (jT : bf) (jZ : Z).
Variable sched : schedule (list bf).
Variable ssort : (Z * Z * bf -> Z * Z * bf -> bool) -> list (Z * Z * bf) -> list (Z * Z * bf).
Variable nt : Z.
Variable D : sparse_dist.
Variable seed : rng_state Kt.
Variable W : Z.
Variables (l : layout) (opA : op) (n : Z) (alpha : bf) (zs : bool) (A : list bf) (lda : Z) (B : list bf) (ldb : Z).
Variable S : list Z -> sparse_skop Kt bf.
Notation d := (Z.min (sd_rows D) (sd_cols D)).
Notation m := (Z.max (sd_rows D) (sd_cols D)).
Notation O := (fops prec emax).
Notation u := (bpow radix2 (- prec)).
Notation draws := (tapes (Z.to_nat (sd_full_nnz D * g_len (se_raw env))) (range 0 (2 ^ W))).
Notation cell := SpmmSpec.cell.
(** Row j of op(A), as real numbers. *)
Notation data := (fun j k => B2R (op_ent opA (cell O l lda A) j k)).

(** fill_sparse has been called on the operator. *)
Definition filled : Prop := forall t, In t draws ->
  fill_sparse (with_words env seed t) jT jZ (mk_sparse_skop (with_words env seed t) D seed) = Ok (S t).
Definition right_call_hyps : Prop :=
  valid_schedule sched /\ sort_ok ssort /\ (0 <= n)%Z /\
  fits_buffer l lda (rows_before opA n m) (cols_before opA n m) (zlen A) /\ fits_buffer l ldb n d (zlen B) /\
  (forall j k, (0 <= j < n)%Z -> (0 <= k < m)%Z -> is_finite (op_ent opA (cell O l lda A) j k) = true) /\
  is_finite alpha = true /\ Rabs (B2R alpha - sqrt (iso2 D)) <= 8 * u * sqrt (iso2 D).
(** sketch_general(layout, opA, opS, n, d, m, alpha, A, lda, S, 0, B, ldb): a wide operator is applied transposed,
    a tall one as it is. *)
Definition call_right (t : list Z) : outcome (@skop Kt bf * list bf) :=
  sketch_general_right_full O cast denv fsched (with_words env seed t) jT jZ sched ssort nt l opA (if (sd_rows D <=? sd_cols D)%Z then Trans else NoTrans) n d m alpha A lda (SkSparse (S t)) (B754_zero zs) B ldb.
(** Row j of the computed result. *)
Definition computed_right (t : list Z) : Z -> Z -> R := fun j r => B2R (cell O l ldb (output (call_right t)) j r).
(** As [gram_kept], for rows: the inner products of the rows of the result are those of the rows of op(A). *)
Definition gram_kept_right : Prop :=
  (forall t, In t draws -> exists S' B', call_right t = Ok (SkSparse S', B') /\ others_kept l n d B ldb B' /\
     forall r j, (0 <= r < d)%Z -> (0 <= j < n)%Z -> is_finite (cell O l ldb B' j r) = true) /\
  forall e, 0 < e ->
    probability draws (fun t => exceeds (gram_gap n d (computed_right t) m data) ((e + 2 * (IZR m + 12) * (IZR m + 12) * u) * frob2 n m data)) <= PropsNorm.spread D W / e ^ 2.

Lemma real_hyps : operator_hyps env jT jZ D seed W S -> short_hyps (real_env env) D seed W.
Proof.
  intros (We & [F1 E1] & [F2 E2] & HD & Hax & Hz & Hs & HW & Hb & Hd & HS).
  split; [|exact (conj E1 (conj E2 (conj HD (conj Hax (conj Hz (conj Hs (conj HW (conj Hb Hd))))))))]. destruct We as [A1 B1 C1 D1 E1' F1' G1 K1]. split; auto.
Qed.
Lemma gram_right M lo hi N : operator_hyps env jT jZ D seed W S -> filled -> right_call_hyps -> (20 <= prec)%Z -> (IZR m + 2) * (IZR m + 2) * u <= 1 ->
  IZR m <= M -> 1 <= M -> IZR n <= N -> 0 < lo <= 1 -> 1 <= hi -> lo * lo <= frob2 n m data <= hi * hi ->
  (16 * @half_tiny prec emax * M / lo) * (16 * @half_tiny prec emax * M / lo) * (N * M) <= u * u * (u * u) -> 64 * M * hi <= bpow radix2 (emax - 1) -> gram_kept_right.
Proof.
  intros HO Hf (Hsc & Hso & Hn & FA & FB & Hfin & Fal & Hal) Hp Hmu H1 H2 H3 H4 H5 H6 H7 H8.
  pose proof (real_hyps HO) as Henv. destruct HO as (We & [F1 E1] & [F2 E2] & _).
  pose proof (fun t Ht => right_run_ok cast denv fsched env jT jZ sched ssort nt Hsc Hso D seed W F1 F2 Henv (ws_sqrt1 env We) l opA n alpha zs A lda B ldb Hn FA FB (S t) t (Hf t Ht)) as RO.
  set (out := fun t r j => cell O l ldb (output (call_right t)) j r).
  assert (Ho : forall t r j, In t draws -> (0 <= r < d)%Z -> (0 <= j < n)%Z ->
    surely_near alpha (terms (ent env D seed t) (fun i j => op_ent opA (cell O l lda A) j i) m r j) (B754_zero zs) (cell O l ldb B j r) (out t r j)).
  { intros t r j Ht Hr Hj. destruct (RO t Ht) as (S' & B' & _ & _ & G). exact (G r j Hr Hj). }
  assert (Hb : forall i j, (0 <= i < m)%Z -> (0 <= j < n)%Z -> is_finite (op_ent opA (cell O l lda A) j i) = true) by (intros; now apply Hfin).
  split.
  - intros t Ht. destruct (RO t Ht) as (S' & B' & E & K & _). exists S', B'. split; [exact E|]. split; [exact K|]. intros r j Hr Hj.
    pose proof (cols_finite env jT D seed W F1 F2 Henv (ws_sqrt1 env We) alpha zs Fal Hal Hp Hmu M lo hi N H1 H2 H4 H5 H7 H8 n (fun i j => op_ent opA (cell O l lda A) j i) out (fun r j => cell O l ldb B j r) Hn H3 Hb H6 Ho t r j Ht Hr Hj) as G.
    unfold out, call_right in G. unfold right_run in E. rewrite E in G. exact G.
  - intros e He.
    exact (cols_gram env jT D seed W F1 F2 Henv (ws_sqrt1 env We) alpha zs Fal Hal Hp Hmu M lo hi N H1 H2 H4 H5 H7 H8 n (fun i j => op_ent opA (cell O l lda A) j i) out (fun r j => cell O l ldb B j r) Hn H3 Hb H6 Ho e He).
Qed.
End Right.

(** Double precision. *)
Theorem C69_right_double : forall {Kt Wt F} (cast : Wt -> b64) (denv : dense_env Kt Wt b64) fsched (env : sparse_env Kt F b64) jT jZ sched ssort nt D seed W l opA n alpha zs A lda B ldb S,
  operator_hyps env jT jZ D seed W S -> filled env jT jZ D seed W S -> right_call_hyps sched ssort D l opA n alpha A lda B ldb ->
  (Z.max (sd_rows D) (sd_cols D) <= 2 ^ 26 - 2)%Z -> (n <= 2 ^ 63)%Z ->
  bpow radix2 (-1700) <= frob2 n (Z.max (sd_rows D) (sd_cols D)) (fun j k => B2R (op_ent opA (SpmmSpec.cell (fops 53 1024) l lda A) j k)) <= bpow radix2 1900 ->
  gram_kept_right cast denv fsched env jT jZ sched ssort nt D seed W l opA n alpha zs A lda B ldb S.
Proof.
  intros Kt Wt F cast denv fsched env jT jZ sched ssort nt D seed W l opA n alpha zs A lda B ldb S HO HS HC Hm Hn HF.
  assert (M0 : (0 <= Z.max (sd_rows D) (sd_cols D))%Z). { destruct HO as (_ & _ & _ & HD & _). destruct (valid_sdist_inv D HD) as (P1 & P2 & _). lia. }
  destruct (size_pow (Z.max (sd_rows D) (sd_cols D)) 26 ltac:(lia) ltac:(lia)) as [S1 S2].
  apply (gram_right cast denv fsched env jT jZ sched ssort nt D seed W l opA n alpha zs A lda B ldb S (bpow radix2 26) (bpow radix2 (-850)) (bpow radix2 950) (bpow radix2 63)); try assumption.
  - lia.
  - apply (Rle_trans _ (bpow radix2 (2 * 26) * bpow radix2 (-53))); [apply Rmult_le_compat_r; [apply bpow_ge_0|exact S1]|]. rewrite <- bpow_plus. change 1 with (bpow radix2 0). apply bpow_le. lia.
  - change 1 with (bpow radix2 0). apply bpow_le. lia.
  - rewrite <- IZR_Zpower by lia. apply IZR_le. exact Hn.
  - split; [apply bpow_gt_0|]. change 1 with (bpow radix2 0). apply bpow_le. lia.
  - change 1 with (bpow radix2 0). apply bpow_le. lia.
  - rewrite <- !bpow_plus. exact HF.
  - rewrite u_pow. apply ranges_pow. lia.
  - apply top_pow. lia.
Qed.
(** Single precision. *)
Theorem C69_right_float : forall {Kt Wt F} (cast : Wt -> b32) (denv : dense_env Kt Wt b32) fsched (env : sparse_env Kt F b32) jT jZ sched ssort nt D seed W l opA n alpha zs A lda B ldb S,
  operator_hyps env jT jZ D seed W S -> filled env jT jZ D seed W S -> right_call_hyps sched ssort D l opA n alpha A lda B ldb ->
  (Z.max (sd_rows D) (sd_cols D) <= 2 ^ 12 - 2)%Z -> (n <= 2 ^ 63)%Z ->
  bpow radix2 (-80) <= frob2 n (Z.max (sd_rows D) (sd_cols D)) (fun j k => B2R (op_ent opA (SpmmSpec.cell (fops 24 128) l lda A) j k)) <= bpow radix2 200 ->
  gram_kept_right cast denv fsched env jT jZ sched ssort nt D seed W l opA n alpha zs A lda B ldb S.
Proof.
  intros Kt Wt F cast denv fsched env jT jZ sched ssort nt D seed W l opA n alpha zs A lda B ldb S HO HS HC Hm Hn HF.
  assert (M0 : (0 <= Z.max (sd_rows D) (sd_cols D))%Z). { destruct HO as (_ & _ & _ & HD & _). destruct (valid_sdist_inv D HD) as (P1 & P2 & _). lia. }
  destruct (size_pow (Z.max (sd_rows D) (sd_cols D)) 12 ltac:(lia) ltac:(lia)) as [S1 S2].
  apply (gram_right cast denv fsched env jT jZ sched ssort nt D seed W l opA n alpha zs A lda B ldb S (bpow radix2 12) (bpow radix2 (-40)) (bpow radix2 100) (bpow radix2 63)); try assumption.
  - lia.
  - apply (Rle_trans _ (bpow radix2 (2 * 12) * bpow radix2 (-24))); [apply Rmult_le_compat_r; [apply bpow_ge_0|exact S1]|]. rewrite <- bpow_plus. change 1 with (bpow radix2 0). apply bpow_le. lia.
  - change 1 with (bpow radix2 0). apply bpow_le. lia.
  - rewrite <- IZR_Zpower by lia. apply IZR_le. exact Hn.
  - split; [apply bpow_gt_0|]. change 1 with (bpow radix2 0). apply bpow_le. lia.
  - change 1 with (bpow radix2 0). apply bpow_le. lia.
  - rewrite <- !bpow_plus. exact HF.
  - rewrite u_pow. apply ranges_pow. lia.
  - apply top_pow. lia.
Qed.
Print Assumptions C69_right_double.
Print Assumptions C69_right_float.

(** The operator fill_sparse gives, if it succeeds. *)
Definition after_fill {Kt F T} (env : sparse_env Kt F T) (jT : T) jZ D seed (t : list Z) : sparse_skop Kt T :=
  match fill_sparse (with_words env seed t) jT jZ (mk_sparse_skop (with_words env seed t) D seed) with Ok S0 => S0 | _ => mk_sparse_skop env D seed end.
Lemma after_fill_filled {Kt F T} (env : sparse_env Kt F T) jT jZ D seed t : samplable (with_words env seed t) D seed ->
  fill_sparse (with_words env seed t) jT jZ (mk_sparse_skop (with_words env seed t) D seed) = Ok (after_fill env jT jZ D seed t).
Proof.
  intros HV. destruct (fill_sparse_spec (with_words env seed t) jT jZ (mk_sparse_skop (with_words env seed t) D seed) HV (mk_buffers_ok (with_words env seed t) D seed)) as (S' & E & _).
  unfold after_fill. now rewrite E.
Qed.
(** The operator of [C69_case], filled, with the ones as a row on its left. *)
Example C69_right_case :
  let D := iso_dist 2000 100000 4 Short in let s := mk_state 7%Z tt in
  let A := repeat one64 (Z.to_nat 100000) in let B := repeat one64 (Z.to_nat 2000) in
  let S := after_fill gram_env one64 0 D s in
  operator_hyps gram_env one64 0 D s 32 S /\ filled gram_env one64 0 D s 32 S /\
  right_call_hyps seq_schedule isort D RowMajor NoTrans 1 half_64 A 100000 B 2000 /\
  frob2 1 100000 (fun j k => B2R (op_ent NoTrans (SpmmSpec.cell (fops 53 1024) RowMajor 100000 A) j k)) = 100000.
Proof.
  intros D s A B S.
  assert (One : B2R one64 = 1) by (unfold one64; rewrite B2R_pow52; reflexivity).
  assert (GA : forall k j, (0 <= k < 100000)%Z -> (0 <= j < 1)%Z -> SpmmSpec.cell (fops 53 1024) RowMajor 100000 A j k = one64).
  { intros k j Hk Hj. unfold SpmmSpec.cell, A. rewrite get_repeat; [reflexivity|]. cbn [addr]. lia. }
  assert (HO : operator_hyps gram_env one64 0 D s 32 (fun t => mk_sparse_skop (with_words gram_env s t) D s)).
  { split. { split; cbn; try lia; try reflexivity; [split; cbn; intros; try lia; reflexivity|split; cbn; intros; try lia; reflexivity|intros _ l; apply Permutation.Permutation_rev]. }
    split; [split; [reflexivity|exact One]|]. split; [split; [reflexivity|]|].
    { change (se_mone gram_env) with (Bopp one64). rewrite B2R_Bopp, One. reflexivity. }
    split; [reflexivity|]. split; [reflexivity|]. split; [split; [|split]; vm_compute; congruence|]. split; [unfold seed_ok; cbn; lia|]. split; [lia|].
    split; [vm_compute; congruence|]. split; [vm_compute; congruence|]. intros t _. now left. }
  assert (HS : filled gram_env one64 0 D s 32 S).
  { intros t Ht. apply after_fill_filled. apply (samplable_with gram_env D s 32 (real_hyps gram_env one64 0 D s 32 _ HO) (ws_sqrt1 gram_env (proj1 HO))). }
  clearbody S.
  split. { destruct HO as (C1 & C2 & C3 & C4 & C5 & C6 & C7 & C8 & C9 & C10 & _). split; [exact C1|]. repeat (split; [assumption|]). intros t Ht. right. exact (HS t Ht). }
  split; [exact HS|]. split.
  - split; [apply seq_schedule_valid|]. split; [apply isort_ok|]. split; [lia|].
    change (Z.max (sd_rows D) (sd_cols D)) with 100000%Z. change (Z.min (sd_rows D) (sd_cols D)) with 2000%Z. cbn [rows_before cols_before op_ent].
    split. { split; [cbn; lia|]. intros i j Hi Hj. unfold A. rewrite zlen_repeat. cbn [addr]. lia. }
    split. { split; [cbn; lia|]. intros i j Hi Hj. unfold B. rewrite zlen_repeat. cbn [addr]. lia. }
    split. { intros j k Hj Hk. rewrite GA by assumption. reflexivity. }
    split; [reflexivity|]. rewrite B2R_half_64. replace (sqrt (iso2 D)) with (/ 2).
    + rewrite Rminus_eq_0, Rabs_R0. apply Rmult_le_pos; [|lra]. apply Rmult_le_pos; [lra|apply bpow_ge_0].
    + symmetry. unfold iso2. change (sd_iso2 D) with (1, 4)%Z. cbn [fst snd]. apply sqrt_lem_1; lra.
  - unfold frob2. change (range 0 1) with [0%Z]. cbn [map Rsum]. rewrite Rplus_0_r. unfold dot. cbn [op_ent].
    rewrite (Rsum_ext _ (fun _ => 1)); [rewrite Rsum_range_const by lia; lra|]. intros k Hk. apply in_range in Hk. rewrite GA by lia. rewrite One. lra.
Qed.
