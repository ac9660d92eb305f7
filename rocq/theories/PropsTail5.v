(** The numbers sketch_general computes with sparse operators keep distances, combinations of
    columns and least-squares problems except with exponentially small probability (C76).

    Definitions read by these statements: as for C69 (PropsGram.v, PropsGram3.v): [operator_hyps] (the operator
    is valid, major axis Short, and drawn from random words), [filled], [call_hyps], [right_call_hyps], [computed], [computed_right];
    [computed_distances_within], [computed_combinations_within], [sparse_failure], [net_size] (TailSpec.v); [meets] (PropsTail4.v).

    Everything the call computes is floating-point: products, sums, the scaling by alpha. *)
From Coq Require Import ZArith Reals Lra Psatz.
From Flocq Require Import Core BinarySingleNaN.
From Verif Require Import Base Interleave Spec RngModel DenseModel DenseSpec SparseSkopModel FySpec FyProofs SparseSpec SparseProofs SparseProofs2 SpFmtModel SpFmtSpec SpmmModel SpmmSpec
  SketchModel SketchSpec PropsSpFmt FloatModel RoundModel RoundSpec RoundSpec2 PropsRound PropsRoundFinite
  IsoSpec IsoProofs PropsIso StatSpec StatProofs NormSpec NormProofs NormProofs3 PropsNorm GramSpec GramProofs GramProofs2 GramProofs3 GramProofs4 PropsGram PropsGram3
  TailSpec TailProofs3 PropsTail4 TailComputed2.
Local Open Scope R_scope.

(** The failure probabilities delta of C75, for an accuracy e: the two forms of C75_geometry and C75_sizes. *)
Definition failure_ok (D : sparse_dist) (W : Z) (e delta : R) : Prop :=
  let d := Z.min (sd_rows D) (sd_cols D) in let k := sd_vec_nnz D in
  0 < e <= 1 /\
  ((exists omega tau, 0 < omega /\ 0 < tau /\ delta = sparse_failure d k (meets D W) e omega tau) \/
   (0 < delta <= 1 /\ (2 * (k * d) <= 2 ^ W)%Z /\ 64 * ln (4 / delta) <= e ^ 2 * IZR d /\ 16 * (ln (4 / delta) * ln (2 * IZR d / delta)) <= e ^ 2 * IZR k)).
Lemma failure_geometry {K F} (env : sparse_env K F R) D seed W e delta : short_hyps env D seed W -> failure_ok D W e delta ->
  geometry_kept_within (word_draws env D W) (iso2 D) (drawn_sketch env D seed) (Z.min (sd_rows D) (sd_cols D)) (Z.max (sd_rows D) (sd_cols D)) e delta.
Proof.
  intros H (He & [(omega & tau & Ho & Ht & ->)|(Hd & Hw & H1 & H2)]); [now apply C75_geometry|now apply C75_sizes].
Qed.

Section Computed.
Context {prec emax : Z} {pp : Prec_gt_0 prec} {pe : Prec_lt_emax prec emax}.
Local Notation bf := (binary_float prec emax).
Context {Kt Wt F : Type}.
Variables (cast : Wt -> bf) (denv : dense_env Kt Wt bf) (fsched : schedule bf).
Variable env : sparse_env Kt F bf.
Variables (jT : bf) (jZ : Z).
Variable sched : schedule (list bf).
Variable ssort : (Z * Z * bf -> Z * Z * bf -> bool) -> list (Z * Z * bf) -> list (Z * Z * bf).
Variable nt : Z.
Variable D : sparse_dist.
Variable seed : rng_state Kt.
Variable W : Z.
Variables (l : layout) (opA : op) (n : Z) (alpha : bf) (zs : bool) (A : list bf) (lda : Z) (B : list bf) (ldb : Z).
Variable S : list Z -> sparse_skop Kt bf.
Notation d := (Z.min (sd_rows D) (sd_cols D)).
Notation m := (Z.max (sd_rows D) (sd_cols D)).
Notation O := (fops prec emax).
Notation u := (bpow radix2 (- prec)).
Notation draws := (tapes (Z.to_nat (sd_full_nnz D * g_len (se_raw env))) (range 0 (2 ^ W))).
Notation cell := SpmmSpec.cell.
(** The columns of op(A), from the left; its rows, from the right. *)
Notation left_data := (fun j k => B2R (op_ent opA (cell O l lda A) k j)).
Notation right_data := (fun j k => B2R (op_ent opA (cell O l lda A) j k)).
Notation left_columns := (computed cast denv fsched env jT jZ sched ssort nt D seed l opA n alpha zs A lda B ldb S).
Notation right_rows := (computed_right cast denv fsched env jT jZ sched ssort nt D seed l opA n alpha zs A lda B ldb S).
Definition kept_left (least : R) : Prop := forall e delta, failure_ok D W e delta ->
  let round := 2 * (IZR m + 12) * (IZR m + 12) * u in
  computed_distances_within draws d m n left_data left_columns e delta round least /\
  computed_combinations_within draws d m n left_data left_columns e delta round.
Definition kept_right (least : R) : Prop := forall e delta, failure_ok D W e delta ->
  let round := 2 * (IZR m + 12) * (IZR m + 12) * u in
  computed_distances_within draws d m n right_data right_rows e delta round least /\
  computed_combinations_within draws d m n right_data right_rows e delta round.

Lemma left_main M lo hi N : operator_hyps env jT jZ D seed W S -> call_hyps sched ssort D l opA n alpha A lda B ldb -> (20 <= prec)%Z -> (IZR m + 2) * (IZR m + 2) * u <= 1 ->
  IZR m <= M -> 1 <= M -> IZR n <= N -> 2 <= N -> 0 < lo <= 1 -> 1 <= hi -> lo * lo <= frob2 n m left_data <= hi * hi ->
  (16 * @half_tiny prec emax * M / lo) * (16 * @half_tiny prec emax * M / lo) * (N * M) <= u * u * (u * u) -> 64 * M * hi <= bpow radix2 (emax - 1) -> kept_left (lo * lo).
Proof.
  intros HO (Hsc & Hso & Hn & FA & FB & Hfin & Fal & Hal) Hp Hmu H1 H2 H3 H3' H4 H5 H6 H7 H8 e delta Hde. cbv zeta.
  pose proof (real_hyps env jT jZ D seed W S HO) as Henv. destruct HO as (We & [F1 E1] & [F2 E2] & _ & _ & _ & _ & _ & _ & _ & HS).
  pose proof (fun t Ht => run_ok cast denv fsched env jT jZ sched ssort nt Hsc Hso D seed W F1 F2 Henv (ws_sqrt1 env We) l opA n alpha zs A lda B ldb S HS Hn FA FB t Ht) as RO.
  set (ot := fun t r j => cell O l ldb (output (call cast denv fsched env jT jZ sched ssort nt D seed l opA n alpha zs A lda B ldb S t)) r j).
  assert (Ho : forall t r j, In t draws -> (0 <= r < d)%Z -> (0 <= j < n)%Z ->
    surely_near alpha (terms (ent env D seed t) (fun i j => op_ent opA (cell O l lda A) i j) m r j) (B754_zero zs) (cell O l ldb B r j) (ot t r j)).
  { intros t r j Ht Hr Hj. destruct (RO t Ht) as (S' & B' & _ & _ & G). exact (G r j Hr Hj). }
  assert (He : 0 <= e) by (destruct Hde as [He _]; lra).
  exact (sparse_both env jT D seed W F1 F2 Henv (ws_sqrt1 env We) alpha zs Fal Hal Hp Hmu M lo hi N H1 H2 H4 H5 H7 H8 n (fun i j => op_ent opA (cell O l lda A) i j) ot (fun r j => cell O l ldb B r j) e delta
    Hn H3 H3' Hfin H6 Ho He (failure_geometry (real_env env) D seed W e delta Henv Hde)).
Qed.
Lemma right_main M lo hi N : operator_hyps env jT jZ D seed W S -> filled env jT jZ D seed W S -> right_call_hyps sched ssort D l opA n alpha A lda B ldb -> (20 <= prec)%Z -> (IZR m + 2) * (IZR m + 2) * u <= 1 ->
  IZR m <= M -> 1 <= M -> IZR n <= N -> 2 <= N -> 0 < lo <= 1 -> 1 <= hi -> lo * lo <= frob2 n m right_data <= hi * hi ->
  (16 * @half_tiny prec emax * M / lo) * (16 * @half_tiny prec emax * M / lo) * (N * M) <= u * u * (u * u) -> 64 * M * hi <= bpow radix2 (emax - 1) -> kept_right (lo * lo).
Proof.
  intros HO Hf (Hsc & Hso & Hn & FA & FB & Hfin & Fal & Hal) Hp Hmu H1 H2 H3 H3' H4 H5 H6 H7 H8 e delta Hde. cbv zeta.
  pose proof (real_hyps env jT jZ D seed W S HO) as Henv. destruct HO as (We & [F1 E1] & [F2 E2] & _).
  pose proof (fun t Ht => right_run_ok cast denv fsched env jT jZ sched ssort nt Hsc Hso D seed W F1 F2 Henv (ws_sqrt1 env We) l opA n alpha zs A lda B ldb Hn FA FB (S t) t (Hf t Ht)) as RO.
  set (ot := fun t r j => cell O l ldb (output (call_right cast denv fsched env jT jZ sched ssort nt D seed l opA n alpha zs A lda B ldb S t)) j r).
  assert (Ho : forall t r j, In t draws -> (0 <= r < d)%Z -> (0 <= j < n)%Z ->
    surely_near alpha (terms (ent env D seed t) (fun i j => op_ent opA (cell O l lda A) j i) m r j) (B754_zero zs) (cell O l ldb B j r) (ot t r j)).
  { intros t r j Ht Hr Hj. destruct (RO t Ht) as (S' & B' & _ & _ & G). exact (G r j Hr Hj). }
  assert (Hb : forall i j, (0 <= i < m)%Z -> (0 <= j < n)%Z -> is_finite (op_ent opA (cell O l lda A) j i) = true) by (intros; now apply Hfin).
  assert (He : 0 <= e) by (destruct Hde as [He _]; lra).
  exact (sparse_both env jT D seed W F1 F2 Henv (ws_sqrt1 env We) alpha zs Fal Hal Hp Hmu M lo hi N H1 H2 H4 H5 H7 H8 n (fun i j => op_ent opA (cell O l lda A) j i) ot (fun r j => cell O l ldb B j r) e delta
    Hn H3 H3' Hb H6 Ho He (failure_geometry (real_env env) D seed W e delta Henv Hde)).
Qed.
End Computed.

Ltac sizes := first
  [ assumption | apply top_pow; lia | rewrite u_pow; apply ranges_pow; lia | rewrite <- !bpow_plus; assumption
  | rewrite <- IZR_Zpower by lia; apply IZR_le; assumption | split; [apply bpow_gt_0|change 1 with (bpow radix2 0); apply bpow_le; lia]
  | change 1 with (bpow radix2 0); apply bpow_le; lia | change 2 with (bpow radix2 1); apply bpow_le; lia | lia ].

Theorem C76_left_double : forall {Kt Wt F} (cast : Wt -> b64) (denv : dense_env Kt Wt b64) fsched (env : sparse_env Kt F b64) jT jZ sched ssort nt D seed W l opA n alpha zs A lda B ldb S,
  operator_hyps env jT jZ D seed W S -> call_hyps sched ssort D l opA n alpha A lda B ldb ->
  (Z.max (sd_rows D) (sd_cols D) <= 2 ^ 26 - 2)%Z -> (n <= 2 ^ 63)%Z ->
  bpow radix2 (-1700) <= frob2 n (Z.max (sd_rows D) (sd_cols D)) (fun j k => B2R (op_ent opA (SpmmSpec.cell (fops 53 1024) l lda A) k j)) <= bpow radix2 1900 ->
  kept_left cast denv fsched env jT jZ sched ssort nt D seed W l opA n alpha zs A lda B ldb S (bpow radix2 (-1700)).
Proof.
  intros Kt Wt F cast denv fsched env jT jZ sched ssort nt D seed W l opA n alpha zs A lda B ldb S HO HC Hm Hn HF.
  assert (M0 : (0 <= Z.max (sd_rows D) (sd_cols D))%Z). { destruct HO as (_ & _ & _ & HD & _). destruct (valid_sdist_inv D HD) as (P1 & P2 & _). lia. }
  destruct (size_pow (Z.max (sd_rows D) (sd_cols D)) 26 ltac:(lia) ltac:(lia)) as [S1 S2].
  change (-1700)%Z with (-850 + -850)%Z. rewrite bpow_plus.
  apply (left_main cast denv fsched env jT jZ sched ssort nt D seed W l opA n alpha zs A lda B ldb S (bpow radix2 26) (bpow radix2 (-850)) (bpow radix2 950) (bpow radix2 63)); try solve [sizes].
  apply (Rle_trans _ (bpow radix2 (2 * 26) * bpow radix2 (-53))); [apply Rmult_le_compat_r; [apply bpow_ge_0|exact S1]|]. rewrite <- bpow_plus. change 1 with (bpow radix2 0). apply bpow_le. lia.
Qed.
Theorem C76_left_float : forall {Kt Wt F} (cast : Wt -> b32) (denv : dense_env Kt Wt b32) fsched (env : sparse_env Kt F b32) jT jZ sched ssort nt D seed W l opA n alpha zs A lda B ldb S,
  operator_hyps env jT jZ D seed W S -> call_hyps sched ssort D l opA n alpha A lda B ldb ->
  (Z.max (sd_rows D) (sd_cols D) <= 2 ^ 12 - 2)%Z -> (n <= 2 ^ 63)%Z ->
  bpow radix2 (-80) <= frob2 n (Z.max (sd_rows D) (sd_cols D)) (fun j k => B2R (op_ent opA (SpmmSpec.cell (fops 24 128) l lda A) k j)) <= bpow radix2 200 ->
  kept_left cast denv fsched env jT jZ sched ssort nt D seed W l opA n alpha zs A lda B ldb S (bpow radix2 (-80)).
Proof.
  intros Kt Wt F cast denv fsched env jT jZ sched ssort nt D seed W l opA n alpha zs A lda B ldb S HO HC Hm Hn HF.
  assert (M0 : (0 <= Z.max (sd_rows D) (sd_cols D))%Z). { destruct HO as (_ & _ & _ & HD & _). destruct (valid_sdist_inv D HD) as (P1 & P2 & _). lia. }
  destruct (size_pow (Z.max (sd_rows D) (sd_cols D)) 12 ltac:(lia) ltac:(lia)) as [S1 S2].
  change (-80)%Z with (-40 + -40)%Z. rewrite bpow_plus.
  apply (left_main cast denv fsched env jT jZ sched ssort nt D seed W l opA n alpha zs A lda B ldb S (bpow radix2 12) (bpow radix2 (-40)) (bpow radix2 100) (bpow radix2 63)); try solve [sizes].
  apply (Rle_trans _ (bpow radix2 (2 * 12) * bpow radix2 (-24))); [apply Rmult_le_compat_r; [apply bpow_ge_0|exact S1]|]. rewrite <- bpow_plus. change 1 with (bpow radix2 0). apply bpow_le. lia.
Qed.
Theorem C76_right_double : forall {Kt Wt F} (cast : Wt -> b64) (denv : dense_env Kt Wt b64) fsched (env : sparse_env Kt F b64) jT jZ sched ssort nt D seed W l opA n alpha zs A lda B ldb S,
  operator_hyps env jT jZ D seed W S -> filled env jT jZ D seed W S -> right_call_hyps sched ssort D l opA n alpha A lda B ldb ->
  (Z.max (sd_rows D) (sd_cols D) <= 2 ^ 26 - 2)%Z -> (n <= 2 ^ 63)%Z ->
  bpow radix2 (-1700) <= frob2 n (Z.max (sd_rows D) (sd_cols D)) (fun j k => B2R (op_ent opA (SpmmSpec.cell (fops 53 1024) l lda A) j k)) <= bpow radix2 1900 ->
  kept_right cast denv fsched env jT jZ sched ssort nt D seed W l opA n alpha zs A lda B ldb S (bpow radix2 (-1700)).
Proof.
  intros Kt Wt F cast denv fsched env jT jZ sched ssort nt D seed W l opA n alpha zs A lda B ldb S HO HS HC Hm Hn HF.
  assert (M0 : (0 <= Z.max (sd_rows D) (sd_cols D))%Z). { destruct HO as (_ & _ & _ & HD & _). destruct (valid_sdist_inv D HD) as (P1 & P2 & _). lia. }
  destruct (size_pow (Z.max (sd_rows D) (sd_cols D)) 26 ltac:(lia) ltac:(lia)) as [S1 S2].
  change (-1700)%Z with (-850 + -850)%Z. rewrite bpow_plus.
  apply (right_main cast denv fsched env jT jZ sched ssort nt D seed W l opA n alpha zs A lda B ldb S (bpow radix2 26) (bpow radix2 (-850)) (bpow radix2 950) (bpow radix2 63)); try solve [sizes].
  apply (Rle_trans _ (bpow radix2 (2 * 26) * bpow radix2 (-53))); [apply Rmult_le_compat_r; [apply bpow_ge_0|exact S1]|]. rewrite <- bpow_plus. change 1 with (bpow radix2 0). apply bpow_le. lia.
Qed.
Theorem C76_right_float : forall {Kt Wt F} (cast : Wt -> b32) (denv : dense_env Kt Wt b32) fsched (env : sparse_env Kt F b32) jT jZ sched ssort nt D seed W l opA n alpha zs A lda B ldb S,
  operator_hyps env jT jZ D seed W S -> filled env jT jZ D seed W S -> right_call_hyps sched ssort D l opA n alpha A lda B ldb ->
  (Z.max (sd_rows D) (sd_cols D) <= 2 ^ 12 - 2)%Z -> (n <= 2 ^ 63)%Z ->
  bpow radix2 (-80) <= frob2 n (Z.max (sd_rows D) (sd_cols D)) (fun j k => B2R (op_ent opA (SpmmSpec.cell (fops 24 128) l lda A) j k)) <= bpow radix2 200 ->
  kept_right cast denv fsched env jT jZ sched ssort nt D seed W l opA n alpha zs A lda B ldb S (bpow radix2 (-80)).
Proof.
  intros Kt Wt F cast denv fsched env jT jZ sched ssort nt D seed W l opA n alpha zs A lda B ldb S HO HS HC Hm Hn HF.
  assert (M0 : (0 <= Z.max (sd_rows D) (sd_cols D))%Z). { destruct HO as (_ & _ & _ & HD & _). destruct (valid_sdist_inv D HD) as (P1 & P2 & _). lia. }
  destruct (size_pow (Z.max (sd_rows D) (sd_cols D)) 12 ltac:(lia) ltac:(lia)) as [S1 S2].
  change (-80)%Z with (-40 + -40)%Z. rewrite bpow_plus.
  apply (right_main cast denv fsched env jT jZ sched ssort nt D seed W l opA n alpha zs A lda B ldb S (bpow radix2 12) (bpow radix2 (-40)) (bpow radix2 100) (bpow radix2 63)); try solve [sizes].
  apply (Rle_trans _ (bpow radix2 (2 * 12) * bpow radix2 (-24))); [apply Rmult_le_compat_r; [apply bpow_ge_0|exact S1]|]. rewrite <- bpow_plus. change 1 with (bpow radix2 0). apply bpow_le. lia.
Qed.
Print Assumptions C76_left_double.
Print Assumptions C76_left_float.
Print Assumptions C76_right_double.
Print Assumptions C76_right_float.

(** A 40000 by 100000 operator with 16384 nonzeros per column (isometry scale 1/128) and two columns of
    data, ones and zeros: except with probability 1/100 the computed squared distance between the two sketches is within 50001 of
    100000.  The filled operator also meets the hypotheses of the right-hand theorem. *)
Definition pow7_64 : b64 := @B754_finite 53 1024 false 4503599627370496 (-59) eq_refl.
Definition zero64 : b64 := B754_zero false.
Lemma B2R_pow7 : B2R pow7_64 = / 128.
Proof. unfold pow7_64. cbn [B2R]. unfold F2R. cbn [Fnum Fexp SpecFloat.cond_Zopp]. change (bpow radix2 (-59)) with (/ IZR (2 ^ 59)). change (2 ^ 59)%Z with 576460752303423488%Z. lra. Qed.
Example C76_case : forall {Wt} (cast : Wt -> b64) (denv : dense_env unit Wt b64) fsched,
  let D := iso_dist 40000 100000 16384 Short in let s := mk_state 7%Z tt in
  let A := repeat one64 (Z.to_nat 100000) ++ repeat zero64 (Z.to_nat 100000) in let B := repeat one64 (Z.to_nat 80000) in
  let S := after_fill gram_env one64 0 D s in
  let draws := tapes (Z.to_nat (16384 * 100000 * 2)) (range 0 (2 ^ 32)) in
  let Y t j r := computed cast denv fsched gram_env one64 0 seq_schedule isort 1 D s ColMajor NoTrans 2 pow7_64 false A 100000 B 40000 S t j r in
  operator_hyps gram_env one64 0 D s 32 S /\ filled gram_env one64 0 D s 32 S /\
  call_hyps seq_schedule isort D ColMajor NoTrans 2 pow7_64 A 100000 B 40000 /\
  right_call_hyps seq_schedule isort D RowMajor NoTrans 2 pow7_64 A 100000 B 40000 /\
  failure_ok D 32 (/ 2) (/ 100) /\
  exists bad, probability draws bad <= / 100 /\ forall t, In t draws -> bad t = false ->
    Rabs (dot 40000 (fun r => Y t 0%Z r - Y t 1%Z r) (fun r => Y t 0%Z r - Y t 1%Z r) - 100000) <= 50001.
Proof.
  intros Wt cast denv fsched D s A B S draws Y.
  assert (One : B2R one64 = 1) by (unfold one64; rewrite B2R_pow52; reflexivity).
  assert (LA : zlen A = 200000%Z) by (unfold A; rewrite zlen_app, !zlen_repeat; lia).
  assert (G0 : forall k, (0 <= k < 100000)%Z -> get A k = Some one64).
  { intros k Hk. unfold A. rewrite get_app_l by (rewrite zlen_repeat; lia). rewrite get_repeat by lia. reflexivity. }
  assert (G1 : forall k, (100000 <= k < 200000)%Z -> get A k = Some zero64).
  { intros k Hk. unfold A. rewrite get_app_r by (rewrite zlen_repeat; lia). rewrite zlen_repeat. rewrite get_repeat by lia. reflexivity. }
  assert (GF : forall a, (0 <= a < 200000)%Z -> exists v, get A a = Some v /\ is_finite v = true).
  { intros a Ha. destruct (Z_lt_ge_dec a 100000); [exists one64|exists zero64]; (split; [|reflexivity]); [apply G0|apply G1]; lia. }
  assert (HO : operator_hyps gram_env one64 0 D s 32 (fun t => mk_sparse_skop (with_words gram_env s t) D s)).
  { split. { split; cbn; try lia; try reflexivity; [split; cbn; intros; try lia; reflexivity|split; cbn; intros; try lia; reflexivity|intros _ l; apply Permutation.Permutation_rev]. }
    split; [split; [reflexivity|exact One]|]. split; [split; [reflexivity|]|].
    { change (se_mone gram_env) with (Bopp one64). rewrite B2R_Bopp, One. reflexivity. }
    split; [reflexivity|]. split; [reflexivity|]. split; [split; [|split]; vm_compute; congruence|]. split; [unfold seed_ok; cbn; lia|]. split; [lia|].
    split; [vm_compute; congruence|]. split; [vm_compute; congruence|]. intros t _. now left. }
  assert (HS : filled gram_env one64 0 D s 32 S).
  { intros t Ht. apply after_fill_filled. apply (samplable_with gram_env D s 32 (real_hyps gram_env one64 0 D s 32 _ HO) (ws_sqrt1 gram_env (proj1 HO))). }
  clearbody S.
  assert (HO' : operator_hyps gram_env one64 0 D s 32 S).
  { destruct HO as (C1 & C2 & C3 & C4 & C5 & C6 & C7 & C8 & C9 & C10 & _). split; [exact C1|]. repeat (split; [assumption|]). intros t Ht. right. exact (HS t Ht). }
  assert (HA : is_finite pow7_64 = true /\ Rabs (B2R pow7_64 - sqrt (iso2 D)) <= 8 * bpow radix2 (- (53)) * sqrt (iso2 D)).
  { split; [reflexivity|]. rewrite B2R_pow7. replace (sqrt (iso2 D)) with (/ 128).
    - rewrite Rminus_eq_0, Rabs_R0. apply Rmult_le_pos; [|lra]. apply Rmult_le_pos; [lra|apply bpow_ge_0].
    - symmetry. unfold iso2. change (sd_iso2 D) with (1, 16384)%Z. cbn [fst snd]. apply sqrt_lem_1; lra. }
  assert (HC : call_hyps seq_schedule isort D ColMajor NoTrans 2 pow7_64 A 100000 B 40000).
  { split; [apply seq_schedule_valid|]. split; [apply isort_ok|]. split; [lia|].
    change (Z.max (sd_rows D) (sd_cols D)) with 100000%Z. change (Z.min (sd_rows D) (sd_cols D)) with 40000%Z. cbn [rows_before cols_before op_ent].
    split. { split; [cbn; lia|]. intros i j Hi Hj. rewrite LA. cbn [addr]. lia. }
    split. { split; [cbn; lia|]. intros i j Hi Hj. unfold B. rewrite zlen_repeat. cbn [addr]. lia. }
    split; [|exact HA]. intros k j Hk Hj. unfold SpmmSpec.cell. destruct (GF (addr ColMajor 100000 k j)) as (v & -> & Fv); [cbn [addr]; lia|exact Fv]. }
  assert (HR : right_call_hyps seq_schedule isort D RowMajor NoTrans 2 pow7_64 A 100000 B 40000).
  { split; [apply seq_schedule_valid|]. split; [apply isort_ok|]. split; [lia|].
    change (Z.max (sd_rows D) (sd_cols D)) with 100000%Z. change (Z.min (sd_rows D) (sd_cols D)) with 40000%Z. cbn [rows_before cols_before op_ent].
    split. { split; [cbn; lia|]. intros i j Hi Hj. rewrite LA. cbn [addr]. lia. }
    split. { split; [cbn; lia|]. intros i j Hi Hj. unfold B. rewrite zlen_repeat. cbn [addr]. lia. }
    split; [|exact HA]. intros j k Hj Hk. unfold SpmmSpec.cell. destruct (GF (addr RowMajor 100000 j k)) as (v & -> & Fv); [cbn [addr]; lia|exact Fv]. }
  assert (HF : failure_ok D 32 (/ 2) (/ 100)).
  { split; [lra|]. right. split; [lra|]. split; [vm_compute; congruence|]. change (Z.min (sd_rows D) (sd_cols D)) with 40000%Z. change (sd_vec_nnz D) with 16384%Z.
    pose proof (ln_small (4 / / 100) 7 ltac:(lra) ltac:(lra)) as C. pose proof (ln_small (2 * 40000 / / 100) 17 ltac:(lra) ltac:(lra)) as E.
    rewrite INR_IZR_INZ in C, E. change (Z.of_nat 7) with 7%Z in C. change (Z.of_nat 17) with 17%Z in E.
    assert (0 < ln (4 / / 100)) by (rewrite <- ln_1; apply ln_increasing; lra). set (u := ln (4 / / 100)) in *. set (v := ln (2 * 40000 / / 100)) in *. clearbody u v.
    assert (u * v <= 7 * 17) by nra. lra. }
  split; [exact HO'|]. split; [exact HS|]. split; [exact HC|]. split; [exact HR|]. split; [exact HF|].
  set (X := fun j k => B2R (op_ent NoTrans (SpmmSpec.cell (fops 53 1024) ColMajor 100000 A) k j)).
  assert (X0 : forall k, (0 <= k < 100000)%Z -> X 0%Z k = 1). { intros k Hk. unfold X. cbn [op_ent]. unfold SpmmSpec.cell. rewrite G0 by (cbn [addr]; lia). exact One. }
  assert (X1 : forall k, (0 <= k < 100000)%Z -> X 1%Z k = 0). { intros k Hk. unfold X. cbn [op_ent]. unfold SpmmSpec.cell. rewrite G1 by (cbn [addr]; lia). reflexivity. }
  assert (Sum : forall f g, (forall k, (0 <= k < 100000)%Z -> f k = 1 /\ g k = 1) -> dot 100000 f g = 100000).
  { intros f g H. unfold dot. rewrite (Rsum_ext _ (fun _ => 1)); [rewrite Rsum_range_const by lia; lra|]. intros k Hk. apply in_range in Hk. destruct (H k) as [-> ->]; [lia|lra]. }
  assert (N0 : dot 100000 (X 0%Z) (X 0%Z) = 100000) by (apply Sum; intros; rewrite X0 by assumption; lra).
  assert (N1 : dot 100000 (X 1%Z) (X 1%Z) = 0). { unfold dot. rewrite (Rsum_ext _ (fun _ => 0)); [rewrite Rsum_range_const by lia; lra|]. intros k Hk. apply in_range in Hk. rewrite X1 by lia. lra. }
  assert (Low : bpow radix2 (-1700) <= 100000). { apply (Rle_trans _ (bpow radix2 0)); [apply bpow_le; lia|]. cbn. lra. }
  destruct (C76_left_double cast denv fsched gram_env one64 0%Z seq_schedule isort 1%Z D s 32%Z ColMajor NoTrans 2%Z pow7_64 false A 100000%Z B 40000%Z S HO' HC ltac:(vm_compute; congruence) ltac:(lia)) with (e := / 2) (delta := / 100) as [G _].
  { change (Z.max (sd_rows D) (sd_cols D)) with 100000%Z. fold X. unfold frob2. change (range 0 2) with [0%Z; 1%Z]. cbn [map Rsum]. rewrite N0, N1, !Rplus_0_r. split; [exact Low|].
    apply (Rle_trans _ (bpow radix2 17)); [cbn; lra|]. apply bpow_le. lia. }
  { exact HF. }
  change (Z.max (sd_rows D) (sd_cols D)) with 100000%Z in G. change (Z.min (sd_rows D) (sd_cols D)) with 40000%Z in G. fold X in G.
  change (sd_full_nnz D) with (16384 * 100000)%Z in G. change (g_len (se_raw gram_env)) with 2%Z in G. fold draws in G. clearbody draws.
  destruct G as (bad & P & G). exists bad. split; [change (2 * (2 - 1))%Z with 2%Z in P; lra|]. intros t Ht Hb.
  specialize (G t Ht Hb 0%Z 1%Z ltac:(lia) ltac:(lia)). cbv zeta in G. rewrite N0, N1 in G. specialize (G ltac:(rewrite Rplus_0_r; exact Low)).
  rewrite (Sum (fun i => X 0%Z i - X 1%Z i)) in G by (intros k Hk; rewrite X0, X1 by assumption; lra).
  eapply Rle_trans; [exact G|].
  assert (U : bpow radix2 (- (53)) <= bpow radix2 (-52)) by (apply bpow_le; lia). assert (V : bpow radix2 (-52) * 4503599627370496 = 1) by (change 4503599627370496 with (bpow radix2 52); rewrite <- bpow_plus; reflexivity).
  revert U V. generalize (bpow radix2 (- (53))) (bpow radix2 (-52)). clear. intros p q U V. lra.
Qed.
