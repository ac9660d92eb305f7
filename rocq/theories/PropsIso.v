(** Sparse operators are isometries in expectation (C24).

    Definitions read by these statements (IsoSpec.v): [tapes n U] all lists of n elements of
    U, that is all outcomes of n independent uniform draws from U; [average]; [with_words]
    (Short) and [with_values] (Long) the environment whose generator returns the elements of a
    tape; [sampled_entry env D seed r c] entry (r,c) of the operator fill_sparse produces;
    [gram_cols] S^T S; [gram_rows] S S^T; [iso2] the square of isometry_scale; [delta].

    isometry_scale is a double; the theorems are about the exact number whose rounding it is,
    and scalars are real numbers.  Hypotheses as in PropsSparse.v, and the number of blocks
    used does not exceed the period of the counter. *)
From Verif Require Import Base Spec RngModel DenseModel DenseSpec SparseSkopModel FySpec FyProofs SparseSpec LasoProofs
  SparseProofs SparseProofs2 FloatModel IsoSpec IsoProofs IsoProofs2.
From Coq Require Import Lra Permutation.
Local Open Scope R_scope.

Lemma dist_iso2 D : valid_sdist D ->
  sd_iso2 D = match sd_axis D with Short => (1, sd_vec_nnz D)%Z | Long => (sd_major D, sd_vec_nnz D * sd_minor D)%Z end.
Proof.
  unfold valid_sdist, mk_sparse_dist. intros H.
  apply bind_Ok in H as [u1 [_ H]]. apply bind_Ok in H as [u2 [_ H]]. apply bind_Ok in H as [u3 [_ H]]. apply bind_Ok in H as [u4 [_ H]].
  injection H as H. rewrite <- H. reflexivity.
Qed.
Lemma tapes_pos {A} n (U : list A) : U <> [] -> 0 < INR (length (tapes n U)).
Proof. intros H. apply lt_0_INR. rewrite tapes_length. destruct U; [congruence|]. cbn [length]. apply Nat.neq_0_lt_0, Nat.pow_nonzero. lia. Qed.
Lemma words_nonempty W : (0 < W)%Z -> range 0 (2 ^ W) <> [].
Proof. intros H E. assert (In 0%Z (range 0 (2 ^ W))) as J by (apply in_range; split; [lia|apply Z.pow_pos_nonneg; lia]). rewrite E in J. exact J. Qed.
Lemma max_word W : (0 < W)%Z -> In (2 ^ (W - 1) - 1)%Z (range 0 (2 ^ W)).
Proof.
  intros H. apply in_range. replace W with (Z.succ (W - 1)) at 3 by lia. rewrite Z.pow_succ_r by lia.
  pose proof (Z.pow_pos_nonneg 2 (W - 1)). lia.
Qed.
Lemma filter_le {A} (P : A -> bool) l : (length (filter P l) <= length l)%nat.
Proof. induction l as [|x l IH]; cbn; [lia|]. destruct (P x); cbn; lia. Qed.
Lemma average_scal {A} (l : list A) f g c v : 0 < INR (length l) -> (forall t, In t l -> f t = c * g t) ->
  Rsum (map g l) = INR (length l) * v -> average l f = c * v.
Proof. intros P H S. unfold average. rewrite (Rsum_ext _ (fun t => c * g t) _ H), Rsum_scal, S. field. lra. Qed.

(* ------------------------------------------------------------------ *)
(** * Short axis *)
(** Over all sequences of W-bit words, isometry_scale^2 * S^T S (wide) or S S^T (tall)
    averages to the identity.  The bias of "word mod (n-j)" plays no part. *)
Theorem C24_short_axis :
  forall {K F} (env : sparse_env K F R) D seed W,
    wf_senv env -> se_one env = 1 -> se_mone env = -1 ->
    valid_sdist D -> sd_axis D = Short -> sparse_size_ok env D -> seed_ok env seed -> (0 < W)%Z ->
    (sd_full_nnz D <= 2 ^ g_bits (se_raw env))%Z ->
    let draws := tapes (Z.to_nat (sd_full_nnz D * g_len (se_raw env))) (range 0 (2 ^ W)) in
    let S tape := sampled_entry (with_words env seed tape) D seed in
    ((sd_rows D <= sd_cols D)%Z -> forall a b, (0 <= a < sd_cols D)%Z -> (0 <= b < sd_cols D)%Z ->
       average draws (fun t => iso2 D * gram_cols (sd_rows D) (S t) a b) = delta a b) /\
    ((sd_cols D < sd_rows D)%Z -> forall a b, (0 <= a < sd_rows D)%Z -> (0 <= b < sd_rows D)%Z ->
       average draws (fun t => iso2 D * gram_rows (sd_cols D) (S t) a b) = delta a b).
Proof.
  intros K F env D seed W We E1 Em HD Hax Hz Hs HW Hb draws S.
  destruct (valid_sdist_inv D HD) as (P1 & P2 & P3 & P4 & P5 & P6). rewrite Hax in P5, P6.
  assert (Hiso : iso2 D = / IZR (sd_vec_nnz D)). { unfold iso2. rewrite (dist_iso2 D HD), Hax. cbn [fst snd]. unfold Rdiv. apply Rmult_1_l. }
  assert (Nk : IZR (sd_vec_nnz D) <> 0) by (apply not_0_IZR; lia).
  assert (Hent : forall t r c, S t r c = Rsum (sparse_entry (with_words env seed t) D seed r c)).
  { intros t r c. unfold S. rewrite sampled_entry_spec; [reflexivity|now apply with_words_wf|exact Hs|exact HD|exact Hz]. }
  assert (Hav : forall a b, (0 <= a < sd_minor D)%Z -> (0 <= b < sd_minor D)%Z ->
    Rsum (map (fun t => Rsum (map (fun s => val env D seed t s a * val env D seed t s b) (range 0 (sd_major D)))) draws) = INR (length draws) * (IZR (sd_vec_nnz D) * delta a b)).
  { intros a b Ha Hb'. apply short_average; auto using words_nonempty, sign_words. }
  assert (Pos : 0 < INR (length draws)) by (apply tapes_pos; auto using words_nonempty).
  assert (Fin : forall a b, iso2 D * (IZR (sd_vec_nnz D) * delta a b) = delta a b) by (intros; rewrite Hiso; field; exact Nk).
  split; intros Hsh a b Ha Hb'; rewrite <- Fin.
  - apply (average_scal draws _ (fun t => Rsum (map (fun s => val env D seed t s a * val env D seed t s b) (range 0 (sd_major D))))); [exact Pos| |apply Hav; lia].
    intros t _. f_equal. unfold gram_cols. replace (sd_major D) with (sd_rows D) by lia. apply Rsum_ext. intros r _. rewrite !Hent. unfold sparse_entry, val.
    replace (sd_rows D <=? sd_cols D)%Z with true by lia. rewrite Hax.
    replace ((0 <=? a) && (a <? sd_minor D))%Z with true by lia. replace ((0 <=? b) && (b <? sd_minor D))%Z with true by lia. reflexivity.
  - apply (average_scal draws _ (fun t => Rsum (map (fun s => val env D seed t s a * val env D seed t s b) (range 0 (sd_major D))))); [exact Pos| |apply Hav; lia].
    intros t _. f_equal. unfold gram_rows. replace (sd_major D) with (sd_cols D) by lia. apply Rsum_ext. intros r _. rewrite !Hent. unfold sparse_entry, val.
    replace (sd_rows D <=? sd_cols D)%Z with false by lia. rewrite Hax.
    replace ((0 <=? a) && (a <? sd_minor D))%Z with true by lia. replace ((0 <=? b) && (b <? sd_minor D))%Z with true by lia. reflexivity.
Qed.
Print Assumptions C24_short_axis.

(* ------------------------------------------------------------------ *)
(** * Long axis *)
(** Number of transformed values used by a Long operator. *)
Definition long_lanes {K F T} (env : sparse_env K F T) (D : sparse_dist) : Z :=
  sd_minor D * ceil_div (sd_vec_nnz D) (g_len (se_raw env) / 2) * g_len (se_raw env).

(** For values drawn from any list U: off the diagonal the average is 0 if half of U is
    nonnegative; on the diagonal it is n * P(index a), with n the length of the long axis. *)
Theorem C24_long_axis_exact :
  forall {K F} (env : sparse_env K F R) D seed (U : list F) d,
    wf_senv env -> se_one env = 1 -> se_mone env = -1 -> (forall c v, se_sqrtmul env c v = sqrt (IZR c) * v) ->
    valid_sdist D -> sd_axis D = Long -> sparse_size_ok env D -> seed_ok env seed -> U <> [] ->
    (sd_minor D * ceil_div (sd_vec_nnz D) (g_len (se_raw env) / 2) <= 2 ^ g_bits (se_raw env))%Z ->
    let draws := tapes (Z.to_nat (long_lanes env D)) U in
    let S tape := sampled_entry (with_values env seed d tape) D seed in
    let n := Z.max (sd_rows D) (sd_cols D) in
    let gram t a b := if sd_rows D <=? sd_cols D then gram_cols (sd_rows D) (S t) a b else gram_rows (sd_cols D) (S t) a b in
    forall a b, (0 <= a < n)%Z -> (0 <= b < n)%Z ->
      (a <> b -> (2 * count (se_nonneg env) U = zlen U)%Z -> average draws (fun t => iso2 D * gram t a b) = 0) /\
      (a = b -> average draws (fun t => iso2 D * gram t a b) = IZR (n * count (fun u => se_draw env n u =? a) U) / IZR (zlen U)).
Proof.
  intros K F env D seed U d We E1 Em Hsq HD Hax Hz Hs HU Hb draws S n gram a b Ha Hb'.
  destruct (valid_sdist_inv D HD) as (P1 & P2 & P3 & P4 & P5 & P6). rewrite Hax in P5, P6. fold n in P5.
  assert (Hiso : iso2 D = IZR n / (IZR (sd_vec_nnz D) * IZR (sd_minor D))). { unfold iso2. rewrite (dist_iso2 D HD), Hax. cbn [fst snd]. rewrite mult_IZR, P5. reflexivity. }
  assert (Nk : IZR (sd_vec_nnz D) <> 0) by (apply not_0_IZR; lia). assert (Nm : IZR (sd_minor D) <> 0) by (apply not_0_IZR; lia).
  assert (Hent : forall t r c, S t r c = Rsum (sparse_entry (with_values env seed d t) D seed r c)).
  { intros t r c. unfold S. rewrite sampled_entry_spec; [reflexivity|now apply with_values_wf|exact Hs|exact HD|exact Hz]. }
  assert (Pos : 0 < INR (length draws)) by (now apply tapes_pos).
  assert (PU : 0 < INR (length U)). { apply lt_0_INR. destruct U; [congruence|cbn; lia]. }
  assert (Hg : forall t, gram t a b = Rsum (map (fun i => lval env D seed d t a i * lval env D seed d t b i) (range 0 (sd_minor D)))).
  { intros t. unfold gram. destruct (Z.leb_spec (sd_rows D) (sd_cols D)) as [Q|Q].
    - unfold gram_cols. replace (sd_minor D) with (sd_rows D) by lia. apply Rsum_ext. intros i Hi. apply in_range in Hi. rewrite !Hent. unfold sparse_entry, lval.
      replace (sd_rows D <=? sd_cols D)%Z with true by lia. rewrite Hax. replace ((0 <=? i) && (i <? sd_minor D))%Z with true by lia. reflexivity.
    - unfold gram_rows. replace (sd_minor D) with (sd_cols D) by lia. apply Rsum_ext. intros i Hi. apply in_range in Hi. rewrite !Hent. unfold sparse_entry, lval.
      replace (sd_rows D <=? sd_cols D)%Z with false by lia. rewrite Hax. replace ((0 <=? i) && (i <? sd_minor D))%Z with true by lia. reflexivity. }
  split.
  - intros N Hhalf. replace 0 with (iso2 D * 0) by ring.
    apply (average_scal draws _ (fun t => gram t a b)); [exact Pos|reflexivity|]. rewrite Rmult_0_r.
    rewrite (Rsum_ext _ _ _ (fun t _ => Hg t)), Rsum_swap. apply Rsum_zero. intros i Hi. apply in_range in Hi.
    apply (long_off_diagonal env D seed d We E1 Em Hsq HD Hs Hb U HU); auto.
    assert (Q : Rsum (map (sgn env) U) = 2 * IZR (count (se_nonneg env) U) - IZR (zlen U)).
    { unfold count, zlen, sgn. clear. induction U as [|u U IH]; [cbn; lra|]. cbn [map Rsum filter length]. rewrite IH.
      destruct (se_nonneg env u); cbn [length]; rewrite !Nat2Z.inj_succ, !succ_IZR; lra. }
    rewrite Q, <- Hhalf, mult_IZR. lra.
  - intros <-. set (c := count (fun u => se_draw env n u =? a) U).
    assert (Sm : Rsum (map (fun t => gram t a a) draws) = INR (length draws) * (IZR (sd_minor D) * (IZR (sd_vec_nnz D) * IZR c) / INR (length U))).
    { rewrite (Rsum_ext _ _ _ (fun t _ => Hg t)), Rsum_swap.
      rewrite (Rsum_ext _ (fun _ => INR (length draws) * (IZR (sd_vec_nnz D) * IZR c) / INR (length U))).
      - rewrite Rsum_const. pose proof (zlen_range 0 (sd_minor D) ltac:(lia)) as Z0. unfold zlen in Z0. rewrite (INR_IZR_INZ (length (range 0 (sd_minor D)))), Z0, Z.sub_0_r. field. lra.
      - intros i Hi. apply in_range in Hi. pose proof (long_diagonal env D seed d We E1 Em Hsq HD Hs Hb U HU i a Hi) as Q. rewrite P5 in Q. fold c draws in Q.
        apply (Rmult_eq_reg_l (INR (length U))); [|lra]. unfold draws, long_lanes in *. rewrite Q. field. lra. }
    rewrite (average_scal draws _ (fun t => gram t a a) (iso2 D) _ Pos (fun t _ => eq_refl) Sm). rewrite Hiso, mult_IZR. unfold zlen. rewrite <- INR_IZR_INZ. field. repeat split; lra.
Qed.
Print Assumptions C24_long_axis_exact.

(** Full claim: the same identity for the values the generator really produces.  That is false
    (next theorem); it holds when every index of the long axis is equally likely. *)
Theorem C24_long_axis_partial :
  forall {K F} (env : sparse_env K F R) D seed (U : list F) d,
    wf_senv env -> se_one env = 1 -> se_mone env = -1 -> (forall c v, se_sqrtmul env c v = sqrt (IZR c) * v) ->
    valid_sdist D -> sd_axis D = Long -> sparse_size_ok env D -> seed_ok env seed -> U <> [] ->
    (sd_minor D * ceil_div (sd_vec_nnz D) (g_len (se_raw env) / 2) <= 2 ^ g_bits (se_raw env))%Z ->
    let draws := tapes (Z.to_nat (long_lanes env D)) U in
    let S tape := sampled_entry (with_values env seed d tape) D seed in
    let n := Z.max (sd_rows D) (sd_cols D) in
    (2 * count (se_nonneg env) U = zlen U)%Z ->
    (forall a, (0 <= a < n)%Z -> (n * count (fun u => se_draw env n u =? a) U = zlen U)%Z) ->
    ((sd_rows D <= sd_cols D)%Z -> forall a b, (0 <= a < sd_cols D)%Z -> (0 <= b < sd_cols D)%Z ->
       average draws (fun t => iso2 D * gram_cols (sd_rows D) (S t) a b) = delta a b) /\
    ((sd_cols D < sd_rows D)%Z -> forall a b, (0 <= a < sd_rows D)%Z -> (0 <= b < sd_rows D)%Z ->
       average draws (fun t => iso2 D * gram_rows (sd_cols D) (S t) a b) = delta a b).
Proof.
  intros K F env D seed U d We E1 Em Hsq HD Hax Hz Hs HU Hb draws S n Hhalf Hunif.
  assert (NU : IZR (zlen U) <> 0). { apply not_0_IZR. unfold zlen. destruct U; [congruence|cbn; lia]. }
  pose proof (C24_long_axis_exact env D seed U d We E1 Em Hsq HD Hax Hz Hs HU Hb) as Q. cbv zeta in Q. fold n S draws in Q.
  split; intros Hsh a b Ha Hb'; destruct (Q a b ltac:(lia) ltac:(lia)) as [Q1 Q2]; clear Q.
  - replace (sd_rows D <=? sd_cols D)%Z with true in * by lia. unfold delta. destruct (Z.eqb_spec a b) as [Eq|N]; [|apply Q1; auto].
    rewrite Q2 by exact Eq. rewrite Hunif by lia. field. exact NU.
  - replace (sd_rows D <=? sd_cols D)%Z with false in * by lia. unfold delta. destruct (Z.eqb_spec a b) as [Eq|N]; [|apply Q1; auto].
    rewrite Q2 by exact Eq. rewrite Hunif by lia. field. exact NU.
Qed.
Print Assumptions C24_long_axis_partial.

(** The draws of the code: uneg11 of all 32-bit words, index and sign as in
    sample_indices_iid_uniform.  Some words give the index dim_major, so even the 1 by 1
    operator is not an isometry in expectation. *)
Definition code_env (raw : generator unit Z) : sparse_env unit b32 R :=
  {| se_raw := raw; se_unif := unif32 raw; se_sb := 64; se_draw := uniform_index_32; se_nonneg := nonneg32;
     se_one := 1; se_mone := -1; se_sqrtmul := fun c v => sqrt (IZR c) * v; se_order := fun _ l => l |}.
Lemma code_env_wf raw : wf_generator raw -> (g_len raw mod 2 = 0)%Z -> wf_senv (code_env raw).
Proof.
  intros Hr He. split; cbn; auto; try lia.
  - destruct Hr as [A B C]. split; cbn; auto. intros c k. unfold zlen in *. rewrite map_length. apply C.
  - intros v. rewrite sqrt_1. lra.
Qed.
Theorem C24_long_axis_refuted :
  exists (raw : generator unit Z) D seed d,
    let env := code_env raw in
    wf_senv env /\ valid_sdist D /\ sd_axis D = Long /\ sparse_size_ok env D /\ seed_ok env seed /\
    (sd_rows D <= sd_cols D)%Z /\
    average (tapes (Z.to_nat (long_lanes env D)) (map uneg11_32 (range 0 (2 ^ 32))))
      (fun t => iso2 D * gram_cols (sd_rows D) (sampled_entry (with_values env seed d t) D seed) 0 0) < 1.
Proof.
  set (raw := mk_generator unit Z 4 128 (fun _ _ => [0; 0; 0; 0]%Z)).
  set (D := {| sd_rows := 1; sd_cols := 1; sd_axis := Long; sd_major := 1; sd_minor := 1; sd_iso2 := (1, 1)%Z; sd_vec_nnz := 1; sd_full_nnz := 1 |}).
  exists raw, D, (mk_state 0%Z tt), (uneg11_32 0). cbv zeta.
  assert (We : wf_senv (code_env raw)) by (apply code_env_wf; [split; cbn; intros; try lia; reflexivity|reflexivity]).
  assert (HD : valid_sdist D) by reflexivity.
  assert (Hz : sparse_size_ok (code_env raw) D) by (split; [|split]; vm_compute; congruence).
  assert (Hs : seed_ok (code_env raw) (mk_state 0%Z tt)) by (unfold seed_ok; cbn [counter code_env se_raw raw g_bits]; lia).
  split; [exact We|]. split; [exact HD|]. split; [reflexivity|]. split; [exact Hz|]. split; [exact Hs|]. split; [cbn; lia|].
  pose proof (words_nonempty 32 eq_refl) as NW. pose proof (max_word 32 eq_refl) as Hin. revert NW Hin. generalize (range 0 (2 ^ 32)) as ws. intros ws NW Hin.
  change (2 ^ (32 - 1) - 1)%Z with (2 ^ 31 - 1)%Z in Hin.
  assert (NU : map uneg11_32 ws <> []) by (destruct ws; [congruence|discriminate]).
  destruct (C24_long_axis_exact (code_env raw) D (mk_state 0%Z tt) (map uneg11_32 ws) (uneg11_32 0) We eq_refl eq_refl (fun _ _ => eq_refl) HD eq_refl Hz Hs NU
    ltac:(vm_compute; congruence) 0%Z 0%Z ltac:(cbn; lia) ltac:(cbn; lia)) as [_ Q].
  specialize (Q eq_refl). cbv zeta in Q. change (sd_rows D <=? sd_cols D)%Z with true in Q. cbv iota in Q. rewrite Q. clear Q.
  change (Z.max (sd_rows D) (sd_cols D)) with 1%Z. rewrite Z.mul_1_l. change (se_draw (code_env raw)) with uniform_index_32.
  assert (C : (count (fun u => uniform_index_32 1 u =? 0)%Z (map uneg11_32 ws) < zlen (map uneg11_32 ws))%Z).
  { apply (in_map uneg11_32) in Hin. apply in_split in Hin as (l1 & l2 & ->). unfold count. rewrite filter_app. cbn [filter].
    replace (uniform_index_32 1 (uneg11_32 (2 ^ 31 - 1)) =? 0)%Z with false by (vm_compute; reflexivity).
    unfold zlen. rewrite !app_length. cbn [length]. pose proof (filter_le (fun u => uniform_index_32 1 u =? 0)%Z l1). pose proof (filter_le (fun u => uniform_index_32 1 u =? 0)%Z l2). lia. }
  assert (P : (0 <= count (fun u => uniform_index_32 1 u =? 0)%Z (map uneg11_32 ws))%Z) by (unfold count, zlen; lia).
  assert (P' : 0 < IZR (zlen (map uneg11_32 ws))) by (apply IZR_lt; lia). apply IZR_lt in C.
  apply (Rmult_lt_reg_r (IZR (zlen (map uneg11_32 ws)))); [exact P'|]. unfold Rdiv. rewrite Rmult_assoc, Rinv_l by lra. lra.
Qed.
Print Assumptions C24_long_axis_refuted.

(* ------------------------------------------------------------------ *)
(** * Concrete cases *)
Definition iso_raw : generator unit Z := mk_generator unit Z 2 32 (fun _ _ => [0; 0]%Z).
Definition iso_env : sparse_env unit Z R :=
  {| se_raw := iso_raw; se_unif := iso_raw; se_sb := 32; se_draw := fun n u => (u mod n)%Z; se_nonneg := fun u => Z.even (u / 4);
     se_one := 1; se_mone := -1; se_sqrtmul := fun c v => sqrt (IZR c) * v; se_order := fun _ l => rev l |}.
Lemma iso_env_wf : wf_senv iso_env.
Proof.
  split; cbn; try lia; try reflexivity.
  - split; cbn; intros; try lia; reflexivity.
  - split; cbn; intros; try lia; reflexivity.
  - intros v. rewrite sqrt_1. lra.
  - intros _ l. apply Permutation_rev.
Qed.
Definition iso_dist (r c k : Z) (a : axis) : sparse_dist :=
  match mk_sparse_dist r c k a with Ok D => D
  | _ => {| sd_rows := 0; sd_cols := 0; sd_axis := a; sd_major := 0; sd_minor := 0; sd_iso2 := (0, 0)%Z; sd_vec_nnz := 0; sd_full_nnz := 0 |} end.

(** A 3 by 5 Short operator with 2 nonzeros per column: the average over all 2^320 tapes of
    ten 32-bit-counter blocks of two 16-bit words. *)
Example C24_short_case :
  let D := iso_dist 3 5 2 Short in
  let S t := sampled_entry (with_words iso_env (mk_state 7%Z tt) t) D (mk_state 7%Z tt) in
  average (tapes 20 (range 0 (2 ^ 16))) (fun t => iso2 D * gram_cols 3 (S t) 4 4) = 1 /\
  average (tapes 20 (range 0 (2 ^ 16))) (fun t => iso2 D * gram_cols 3 (S t) 4 1) = 0.
Proof.
  cbv zeta. set (D := iso_dist 3 5 2 Short).
  destruct (C24_short_axis iso_env D (mk_state 7%Z tt) 16 iso_env_wf eq_refl eq_refl eq_refl eq_refl) as [W _];
    [split; [|split]; vm_compute; congruence|unfold seed_ok; cbn; lia|lia|vm_compute; congruence|].
  split; [exact (W ltac:(vm_compute; congruence) 4%Z 4%Z ltac:(vm_compute; intuition congruence) ltac:(vm_compute; intuition congruence))
         |exact (W ltac:(vm_compute; congruence) 4%Z 1%Z ltac:(vm_compute; intuition congruence) ltac:(vm_compute; intuition congruence))].
Qed.
(** A tall 4 by 2 Long operator with 3 draws per column, values 0..7. *)
Example C24_long_case :
  let D := iso_dist 4 2 3 Long in
  let S t := sampled_entry (with_values iso_env (mk_state 7%Z tt) 0%Z t) D (mk_state 7%Z tt) in
  average (tapes 12 (range 0 8)) (fun t => iso2 D * gram_rows 2 (S t) 3 3) = 1 /\
  average (tapes 12 (range 0 8)) (fun t => iso2 D * gram_rows 2 (S t) 3 0) = 0.
Proof.
  cbv zeta. set (D := iso_dist 4 2 3 Long).
  destruct (C24_long_axis_partial iso_env D (mk_state 7%Z tt) (range 0 8) 0%Z iso_env_wf eq_refl eq_refl (fun _ _ => eq_refl) eq_refl eq_refl) as [_ W];
    [split; [|split]; vm_compute; congruence|unfold seed_ok; cbn; lia|discriminate|vm_compute; congruence|reflexivity| |].
  { change (Z.max (sd_rows D) (sd_cols D)) with 4%Z. intros a Ha. assert (a = 0 \/ a = 1 \/ a = 2 \/ a = 3)%Z as [->|[->|[->| ->]]] by lia; reflexivity. }
  split; [exact (W ltac:(vm_compute; congruence) 3%Z 3%Z ltac:(vm_compute; intuition congruence) ltac:(vm_compute; intuition congruence))
         |exact (W ltac:(vm_compute; congruence) 3%Z 0%Z ltac:(vm_compute; intuition congruence) ltac:(vm_compute; intuition congruence))].
Qed.
