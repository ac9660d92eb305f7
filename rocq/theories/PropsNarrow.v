(** Sampling without replacement and filling sparse operators with a 32-bit index type (C81). *)
From Verif Require Import Base Spec RngModel DenseModel SparseSkopModel SparseSpec SparseProofs SparseProofs2 SpFmtModel SpFmtSpec SketchModel SketchSpec SketchProofs3
  FySpec FyProofs PropsFy PropsSparse OverflowModel OverflowProofs NarrowModel.

(* ------------------------------------------------------------------ *)
(** * Runs that cannot throw *)
Definition nothrow {A} (m : outcome A) : Prop := m <> Throw.
Lemma nt_ok {A} (a : A) : nothrow (Ok a). Proof. discriminate. Qed.
Lemma nt_ub {A} : nothrow (UB : outcome A). Proof. discriminate. Qed.
Lemma nt_bind {A B} (m : outcome A) (f : A -> outcome B) : nothrow m -> (forall a, nothrow (f a)) -> nothrow (bind m f).
Proof. intros H G. destruct m; cbn [bind]; [apply G|now destruct H|discriminate]. Qed.
Lemma nt_rd {A} (b : list A) i : nothrow (rd b i).
Proof. unfold rd. destruct (i <? 0); [apply nt_ub|]. destruct (nth_error b (Z.to_nat i)); [apply nt_ok|apply nt_ub]. Qed.
Lemma nt_wr {A} (b : list A) i x : nothrow (wr b i x).
Proof. unfold wr. destruct (i <? 0); [apply nt_ub|]. destruct (i <? zlen b); [apply nt_ok|apply nt_ub]. Qed.
Lemma nt_wr_opt {A} (b : option (list A)) i x : nothrow (wr_opt b i x).
Proof. destruct b; cbn [wr_opt]; [apply nt_bind; [apply nt_wr|intros; apply nt_ok]|apply nt_ok]. Qed.
Lemma nt_cks sb z : nothrow (cks sb z).
Proof. unfold cks. destruct (_ && _); [apply nt_ok|apply nt_ub]. Qed.
Lemma nt_ck z : nothrow (ck z).
Proof. unfold ck. destruct (int64 z); [apply nt_ok|apply nt_ub]. Qed.
Lemma nt_foldM {A S} (f : A -> S -> outcome S) l s : (forall a s, nothrow (f a s)) -> nothrow (foldM f l s).
Proof. intros H. revert s. induction l as [|a l IH]; intros s; cbn [foldM]; [apply nt_ok|]. apply nt_bind; [apply H|apply IH]. Qed.
Lemma nt_for {S} lo hi (f : Z -> S -> outcome S) s : (forall i s, nothrow (f i s)) -> nothrow (for_ lo hi f s).
Proof. intros H. apply nt_foldM. exact H. Qed.
(** A loop one of whose iterations never returns does not return. *)
Lemma for_stuck {S} lo hi (f : Z -> S -> outcome S) s i0 : lo <= i0 < hi -> (forall s s', f i0 s <> Ok s') -> forall s', for_ lo hi f s <> Ok s'.
Proof.
  intros Hi H s' E. unfold for_ in E. assert (In i0 (range lo hi)) as HI by (apply in_range; lia).
  revert s E HI. generalize (range lo hi). induction l as [|a l IH]; intros s E HI; [destruct HI|]. cbn [foldM] in E.
  destruct (f a s) as [s1| |] eqn:E1; cbn [bind] in E; try discriminate. destruct HI as [->|HI]; [exact (H _ _ E1)|exact (IH s1 E HI)].
Qed.
Lemma ub_of {A} (m : outcome A) : nothrow m -> (forall a, m <> Ok a) -> m = UB.
Proof. intros H G. destruct m as [a| |]; [now destruct (G a)|now destruct H|reflexivity]. Qed.
Ltac nt := repeat first [apply nt_ok|apply nt_ub|apply nt_rd|apply nt_wr|apply nt_wr_opt|apply nt_cks|apply nt_ck|apply nt_for; intros|apply nt_bind; [|intros]].

Lemma cks_in sb z : - 2 ^ (sb - 1) <= z <= sint_max sb -> cks sb z = Ok z.
Proof. intros H. unfold cks. replace (_ && _) with true by lia. reflexivity. Qed.
Lemma cks_out sb z : sint_max sb < z -> cks sb z = UB.
Proof. intros H. unfold cks. replace (_ && _) with false by lia. reflexivity. Qed.

Section Sampler.
  Context {K T : Type}.
  Variable g : generator K Z.
  Variable sb : Z.
  Variables one mone : T.

  Lemma nt_step k n off i j st : nothrow (fy_step64 g sb one mone k n off i j st).
  Proof. destruct st as [[[[[w p] c] a] b] v]. cbn [fy_step64]. apply nt_bind; [nt|]. intros w0. destruct (n - j =? 0); nt. Qed.
  Lemma nt_vector k c kk n i st : nothrow (fy_vector64 g sb one mone k c kk n i st).
  Proof.
    destruct st as [[[[w p] a] b] v]. cbn [fy_vector64]. apply nt_bind; [nt|]. intros o. cbv zeta. destruct (kk >? sint_max sb); [nt|].
    apply nt_bind; [apply nt_for; intros; apply nt_step|]. intros [[[[[w' p'] c'] a'] b'] v']. unfold fy_restore64. cbv zeta. nt.
  Qed.
  (** A step that writes past the type, or before the array, does not return. *)
  Lemma step_stuck k n off i j : j + off < 0 \/ sint_max sb < j + off -> forall st st', fy_step64 g sb one mone k n off i j st <> Ok st'.
  Proof.
    intros H [[[[[w p] c] a] b] v] st' E. cbn [fy_step64] in E.
    destruct (rd (g_fun g c k) 0) as [w0| |]; cbn [bind] in E; try discriminate. destruct (n - j =? 0); [discriminate|].
    destruct (wr p j _) as [p1| |]; cbn [bind] in E; try discriminate. destruct (rd w _) as [x1| |]; cbn [bind] in E; try discriminate.
    destruct (rd w j) as [x2| |]; cbn [bind] in E; try discriminate. destruct (wr w _ x2) as [w2| |]; cbn [bind] in E; try discriminate.
    destruct (wr w2 j x1) as [w3| |]; cbn [bind] in E; try discriminate. unfold cks in E.
    destruct ((- 2 ^ (sb - 1) <=? j + off) && (j + off <=? sint_max sb)) eqn:C; cbn [bind] in E; [|discriminate].
    unfold wr in E. replace (j + off <? 0) with true in E by lia. discriminate.
  Qed.
  Lemma vector_stuck k c kk n i : sb = 32 \/ sb = 64 -> 0 <= i -> 1 <= kk <= sint_max sb ->
    (sint_max sb < i * kk <= sint_max sb + kk \/ i * kk <= sint_max sb < i * kk + kk - 1) ->
    forall st st', fy_vector64 g sb one mone k c kk n i st <> Ok st'.
  Proof.
    intros Hsb Hi Hk H [[[[w p] a] b] v] st' E. cbn [fy_vector64] in E. unfold ck in E. destruct (int64 (i * kk)) eqn:I; cbn [bind] in E; [|discriminate]. cbv zeta in E.
    replace (kk >? sint_max sb) with false in E by lia. assert (N0 : 0 <= i * kk) by (apply Z.mul_nonneg_nonneg; lia).
    remember (i * kk) as o eqn:Eo. clear Eo.
    destruct (for_ 0 kk _ _) as [[[[[[w' p'] c'] a'] b'] v']| |] eqn:F; cbn [bind] in E; try discriminate. clear E.
    destruct H as [H|H].
    - assert (W : to_sint sb o = o - 2 ^ sb).
      { unfold int64, int64_max in I. unfold to_sint, sint_max in *. destruct Hsb; subst sb; cbn [Z.sub] in *.
        - change (32 - 1) with 31 in *. change (2 ^ 31) with 2147483648 in *. change (2 ^ 32) with 4294967296 in *.
          replace (o + 2147483648) with (o - 2147483648 + 1 * 4294967296) by lia. rewrite Z.mod_add by lia. rewrite Z.mod_small by lia. lia.
        - change (64 - 1) with 63 in *. lia. }
      refine (for_stuck 0 kk _ _ 0 _ _ _ F); [lia|]. intros s s'. apply step_stuck. left. rewrite W. unfold sint_max in *.
      destruct Hsb; subst sb; [change (32 - 1) with 31 in *; change (2 ^ 31) with 2147483648 in *; change (2 ^ 32) with 4294967296; lia|change (64 - 1) with 63 in *; change (2 ^ 63) with 9223372036854775808 in *; change (2 ^ 64) with 18446744073709551616; lia].
    - assert (W : to_sint sb o = o) by (apply to_sint_id; [lia|]; pose proof (Z.pow_nonneg 2 (sb - 1)); lia).
      refine (for_stuck 0 kk _ _ (sint_max sb + 1 - o) _ _ _ F); [lia|]. intros s s'. apply step_stuck. right. rewrite W. lia.
  Qed.

  (** More places than the type can count: no run returns. *)
  Lemma sampler_ub (st : rng_state K) kk n r imaj imin vals : sb = 32 \/ sb = 64 ->
    1 <= kk <= n -> n <= sint_max sb -> r <= sint_max sb -> sint_max sb + 1 < r * kk ->
    repeated_fisher_yates64 g sb one mone st kk n r imaj imin vals = UB.
  Proof.
    intros Hsb Hk Hn Hr Hrk. unfold repeated_fisher_yates64. replace (kk >? n) with false by lia. replace (0 <=? n) with true by lia. cbn [require bind].
    replace (n >? sint_max sb) with false by lia. replace (0 <=? kk) with true by lia. cbn [require bind]. replace (r >? sint_max sb) with false by lia.
    assert (R1 : 1 <= r). { destruct (Z_lt_le_dec r 1); [|assumption]. assert (r * kk <= 0) by (apply Z.mul_nonpos_nonneg; lia). unfold sint_max in *. pose proof (Z.pow_nonneg 2 (sb - 1)). lia. }
    match goal with |- bind ?m _ = _ => assert (E : m = UB) end; [|rewrite E; reflexivity].
    apply ub_of; [apply nt_for; intros; apply nt_vector|]. intros s'.
    assert (P : exists i, 0 <= i < r /\ (sint_max sb < i * kk <= sint_max sb + kk \/ i * kk <= sint_max sb < i * kk + kk - 1)).
    { destruct (Z_lt_le_dec (sint_max sb) ((r - 1) * kk)) as [L|L].
      - exists (sint_max sb / kk + 1). pose proof (Z.div_mod (sint_max sb) kk ltac:(lia)) as E. pose proof (Z.mod_pos_bound (sint_max sb) kk ltac:(lia)) as B.
        assert (Q0 : 0 <= sint_max sb / kk) by (apply Z.div_pos; lia). set (q := sint_max sb / kk) in *. set (e := sint_max sb mod kk) in *. clearbody q e.
        assert (EQ : (q + 1) * kk = kk * q + kk) by ring. split; [|left; lia]. split; [lia|].
        destruct (Z_lt_le_dec (q + 1) r); [assumption|exfalso]. assert ((r - 1) * kk <= q * kk) by (apply Z.mul_le_mono_nonneg_r; lia). replace (kk * q) with (q * kk) in * by ring. lia.
      - exists (r - 1). split; [lia|]. right. split; [exact L|]. replace (r * kk) with ((r - 1) * kk + kk) in Hrk by ring. lia. }
    destruct P as (i & Hi & Hp). apply (for_stuck 0 r _ _ i Hi). intros s s''. apply vector_stuck; [exact Hsb|lia|lia|exact Hp].
  Qed.

  (** 2^63 places: the last product overflows. *)
  Lemma sampler_ub63 (st : rng_state K) kk n r imaj imin vals :
    1 <= kk <= n -> n <= sint_max sb -> r <= sint_max sb -> 2 ^ 63 <= r * kk ->
    repeated_fisher_yates64 g sb one mone st kk n r imaj imin vals = UB.
  Proof.
    intros Hk Hn Hr Hrk. unfold repeated_fisher_yates64. replace (kk >? n) with false by lia. replace (0 <=? n) with true by lia. cbn [require bind].
    replace (n >? sint_max sb) with false by lia. replace (0 <=? kk) with true by lia. cbn [require bind]. replace (r >? sint_max sb) with false by lia.
    match goal with |- bind ?m _ = _ => assert (E : nothrow m) by (apply nt_for; intros; apply nt_vector); destruct m as [[[[[w p] a] b] v]| |]; [|now destruct E|reflexivity] end.
    cbn [bind]. unfold ck. replace (int64 (r * kk)) with false; [reflexivity|]. symmetry. apply int64_out. right. exact Hrk.
  Qed.

  (** At most 2^(sb-1) places: the checks change nothing, and nor does a wider type. *)
  Lemma sampler_eq sb' (st : rng_state K) kk n r imaj imin vals : 1 < sb <= sb' -> sb' <= 64 ->
    0 <= kk <= n -> 0 <= r -> n <= sint_max sb -> r <= sint_max sb -> r * kk <= 2 ^ (sb - 1) -> r * kk < 2 ^ 63 ->
    repeated_fisher_yates64 g sb one mone st kk n r imaj imin vals = repeated_fisher_yates g sb' one mone st kk n r imaj imin vals.
  Proof.
    intros Hsb Hsb' Hk Hr Hn Hrs Hrk Hr63. assert (Hw : 2 ^ (sb - 1) <= 2 ^ (sb' - 1)) by (apply Z.pow_le_mono_r; lia). assert (P0 : 0 < 2 ^ (sb - 1)) by (apply Z.pow_pos_nonneg; lia).
    assert (RK : 0 <= r * kk) by (apply Z.mul_nonneg_nonneg; lia). assert (Hm : sint_max sb <= sint_max sb') by (unfold sint_max; lia).
    assert (E1 : sint_max sb = 2 ^ (sb - 1) - 1) by reflexivity. assert (E2 : sint_max sb' = 2 ^ (sb' - 1) - 1) by reflexivity.
    unfold repeated_fisher_yates64, repeated_fisher_yates. replace (kk >? n) with false by lia. destruct (0 <=? n); [|reflexivity]. cbn [require bind].
    replace (n >? sint_max sb) with false by lia. replace (n >? sint_max sb') with false by lia. destruct (0 <=? kk); [|reflexivity]. cbn [require bind].
    replace (r >? sint_max sb) with false by lia. replace (r >? sint_max sb') with false by lia.
    rewrite (for_ext 0 r (fy_vector64 g sb one mone (key st) (counter st) kk n) (fy_vector g sb' one mone (key st) (counter st) kk n)).
    - destruct (for_ 0 r _ _) as [[[[[w p] a] b] v]| |]; cbn [bind]; try reflexivity. rewrite ck_in by lia. reflexivity.
    - intros i [[[[w p] a] b] v] Hi. cbn [fy_vector64 fy_vector].
      assert (I1 : i * kk + kk <= r * kk) by (replace (i * kk + kk) with ((i + 1) * kk) by ring; apply Z.mul_le_mono_nonneg_r; lia).
      assert (I0 : 0 <= i * kk) by (apply Z.mul_nonneg_nonneg; lia). assert (I2 : kk = 0 -> i * kk = 0) by (intros ->; ring).
      rewrite ck_in by lia. cbn [bind]. remember (i * kk) as o eqn:Eo. clear Eo. rewrite !to_sint_id by lia. cbv zeta.
      replace (kk >? sint_max sb) with false by lia. replace (kk >? sint_max sb') with false by lia.
      rewrite (for_ext 0 kk (fy_step64 g sb one mone (key st) n o i) (fy_step g sb' one mone (key st) n o i)).
      + destruct (for_ 0 kk _ _) as [[[[[[w' p'] c'] a'] b'] v']| |]; cbn [bind]; try reflexivity. f_equal. apply for_ext. intros j s Hj. unfold fy_restore64, fy_restore. cbv zeta.
        rewrite cks_in by lia. reflexivity.
      + intros j [[[[[w' p'] c'] a'] b'] v'] Hj. cbn [fy_step64 fy_step]. destruct (rd (g_fun g c' (key st)) 0) as [w0| |]; cbn [bind]; try reflexivity.
        replace (n - j =? 0) with false by lia. pose proof (Z.mod_pos_bound w0 (n - j) ltac:(lia)) as B. rewrite !to_sint_id by lia. rewrite cks_in by lia. reflexivity.
  Qed.
End Sampler.

(* ------------------------------------------------------------------ *)
(** * C81 *)
(** A distribution over major-axis Short operators whose indices fit in the index type. *)
Definition indices_fit {K F T} (env : sparse_env K F T) (D : sparse_dist) : Prop :=
  (se_sb env = 32 \/ se_sb env = 64) /\ valid_sdist D /\ sd_axis D = Short /\ sd_rows D <= 2 ^ (se_sb env - 1) - 1 /\ sd_cols D <= 2 ^ (se_sb env - 1) - 1.
(** Memory is owned or all three arrays are given. *)
Definition has_memory {K T} (S : sparse_skop K T) : Prop :=
  ss_own S = true \/ (ss_rows S <> None /\ ss_cols S <> None /\ ss_vals S <> None).

(** Largest number of samples or nonzeros a call with indices of [sb] bits can produce. *)
Definition capacity (sb : Z) : Z := if sb =? 32 then 2 ^ 31 else 2 ^ 63 - 1.

Lemma capacity_ub {K T} (g : generator K Z) sb (one mone : T) (st : rng_state K) kk n r imaj imin vals : sb = 32 \/ sb = 64 ->
  1 <= kk <= n -> n <= sint_max sb -> r <= sint_max sb -> capacity sb < r * kk ->
  repeated_fisher_yates64 g sb one mone st kk n r imaj imin vals = UB.
Proof.
  intros [-> | ->] Hk Hn Hr H.
  - apply sampler_ub; [now left|assumption..].
  - apply sampler_ub63; try assumption. unfold capacity in H. change (64 =? 32) with false in H. cbv iota in H. lia.
Qed.
(** The type one bit wider than int, for the count 2^31. *)
Definition wider (sb : Z) : Z := if sb =? 32 then 33 else 64.
Lemma capacity_eq {K T} (g : generator K Z) sb (one mone : T) (st : rng_state K) kk n r imaj imin vals : sb = 32 \/ sb = 64 ->
  0 <= kk <= n -> 0 <= r -> n <= sint_max sb -> r <= sint_max sb -> r * kk <= capacity sb ->
  repeated_fisher_yates64 g sb one mone st kk n r imaj imin vals = repeated_fisher_yates g (wider sb) one mone st kk n r imaj imin vals.
Proof.
  intros [-> | ->] Hk Hr Hn Hrs H; apply sampler_eq; try assumption; try (cbn; lia).
  - change (capacity 32) with (2 ^ 31) in H. lia.
  - change (capacity 64) with (2 ^ 63 - 1) in H. change (64 - 1) with 63. lia.
  - change (capacity 64) with (2 ^ 63 - 1) in H. lia.
Qed.
Lemma wider_sizes sb : sb = 32 \/ sb = 64 -> 1 < wider sb <= 64 /\ sint_max sb <= sint_max (wider sb) /\ capacity sb <= sint_max (wider sb).
Proof. intros [-> | ->]; cbn; lia. Qed.

(** Up to the capacity the checked sampler returns distinct indices in range and touches nothing else. *)
Theorem C81_sampler_partial :
  forall {K} (g : generator K Z) sb k n r (samples : list Z) (st : rng_state K),
    wf_generator g -> sb = 32 \/ sb = 64 -> 0 <= k <= n -> 0 <= r -> n <= 2 ^ (sb - 1) - 1 -> r <= 2 ^ (sb - 1) - 1 ->
    r * k <= capacity sb -> r * k <= zlen samples ->
    exists out st',
      fisher_yates_public64 g sb k n r samples st = Ok (out, st') /\
      zlen out = zlen samples /\
      (forall i j, 0 <= i < r -> 0 <= j < k -> exists x, get out (i * k + j) = Some x /\ 0 <= x < n) /\
      (forall i j1 j2, 0 <= i < r -> 0 <= j1 < k -> 0 <= j2 < k ->
         get out (i * k + j1) = get out (i * k + j2) -> j1 = j2) /\
      (forall p, ~ (0 <= p < r * k) -> get out p = get samples p).
Proof.
  intros K g sb k n r samples st Hg Hsb Hk Hr Hn Hrs Hc Hl. destruct (wider_sizes sb Hsb) as (W1 & W2 & W3). unfold sint_max in W2, W3.
  assert (Hs : fy_sizes (wider sb) k n r) by (unfold fy_sizes; lia).
  destruct (C12_sampling_without_replacement_distinct_in_range g (wider sb) k n r samples st Hg Hs Hl) as (out & st' & E & G).
  exists out, st'. split; [|exact G]. rewrite <- E. unfold fisher_yates_public64, fisher_yates_public. rewrite capacity_eq; [reflexivity|exact Hsb|exact Hk|exact Hr|exact Hn|exact Hrs|exact Hc].
Qed.
Print Assumptions C81_sampler_partial.

(** Beyond the capacity the sampler runs out of its type and is undefined, although every index fits in the
    type and whatever the length of the array. *)
Theorem C81_sampler_refuted :
  forall {K} (g : generator K Z) sb k n r (samples : list Z) (st : rng_state K),
    sb = 32 \/ sb = 64 -> 1 <= k <= n -> n <= 2 ^ (sb - 1) - 1 -> r <= 2 ^ (sb - 1) - 1 -> capacity sb < r * k ->
    fisher_yates_public64 g sb k n r samples st = UB.
Proof.
  intros K g sb k n r samples st Hsb Hk Hn Hr Hrk. unfold fisher_yates_public64. rewrite capacity_ub; [reflexivity|exact Hsb|exact Hk|exact Hn|exact Hr|exact Hrk].
Qed.
Print Assumptions C81_sampler_refuted.

(** fill_sparse up to the capacity: the checked run returns the operator whose entries C16 to C18 describe. *)
Theorem C81_fill_partial :
  forall {K F T} (env : sparse_env K F T) jT jZ (S : sparse_skop K T),
    indices_fit env (ss_dist S) -> wf_senv env -> seed_ok env (ss_seed S) -> buffers_ok S -> sd_full_nnz (ss_dist S) <= capacity (se_sb env) ->
    exists S', fill_sparse64 env jT jZ S = Ok S' /\ ss_dist S' = ss_dist S /\ ss_nnz S' = sd_full_nnz (ss_dist S) /\ valid_coo (skop_coo S') /\
      forall i j, coo_at (skop_coo S') i j = sparse_entry env (ss_dist S) (ss_seed S) i j.
Proof.
  intros K F T env jT jZ S (Hsb & HD & Ha & Hr & Hc) Hw Hs Hb Hz. destruct (valid_sdist_inv (ss_dist S) HD) as (P1 & P2 & P3 & P4 & P5 & P6). rewrite Ha in P5, P6.
  destruct (wider_sizes (se_sb env) Hsb) as (W1 & W2 & W3).
  set (env' := {| se_raw := se_raw env; se_unif := se_unif env; se_sb := wider (se_sb env); se_draw := se_draw env; se_nonneg := se_nonneg env; se_one := se_one env; se_mone := se_mone env;
                  se_sqrtmul := se_sqrtmul env; se_order := se_order env |}).
  assert (Hw' : wf_senv env') by (destruct Hw; split; assumption).
  assert (SM : samplable env' (ss_dist S) (ss_seed S)).
  { split; [exact Hw'|]. split; [exact HD|]. split; [unfold sparse_size_ok; change (se_sb env') with (wider (se_sb env)); unfold sint_max in *; lia|]. split; [exact Hs|]. intros C. congruence. }
  destruct (fill_sparse_spec env' jT jZ S SM Hb) as (S' & E & D1 & _ & _ & _ & _ & V & G & _). exists S'.
  assert (E64 : fill_sparse64 env jT jZ S = fill_sparse env' jT jZ S).
  { unfold fill_sparse64, fill_sparse. cbv zeta. destruct (alloc _ _ jZ (ss_rows S)) as [rows|]; [|reflexivity]. destruct (alloc _ _ jZ (ss_cols S)) as [cols|]; [|reflexivity].
    destruct (alloc _ _ jT (ss_vals S)) as [vals|]; [|reflexivity]. unfold fill_sparse_unpacked_nosub64, fill_sparse_unpacked_nosub. cbv zeta. rewrite Ha.
    assert (Q : sd_minor (ss_dist S) * sd_vec_nnz (ss_dist S) <= capacity (se_sb env)) by (rewrite Z.mul_comm, <- P4; exact Hz).
    rewrite capacity_eq by (try exact Hsb; unfold sint_max in *; lia). change (se_raw env') with (se_raw env). change (se_sb env') with (wider (se_sb env)). change (se_one env') with (se_one env). change (se_mone env') with (se_mone env).
    destruct (repeated_fisher_yates _ _ _ _ _ _ _ _ _ _ _) as [[[[a b] v] st]| |]; cbn [bind]; try reflexivity.
    destruct b; [|reflexivity]. destruct v; [|reflexivity].
    assert (B : capacity (se_sb env) < 2 ^ 63) by (destruct Hsb as [-> | ->]; cbn; lia). assert (0 <= sd_full_nnz (ss_dist S)) by (rewrite P4; apply Z.mul_nonneg_nonneg; lia).
    destruct (sd_rows (ss_dist S) <=? sd_cols (ss_dist S)); (rewrite ck_in; [reflexivity|]; rewrite <- P4; lia). }
  split; [rewrite E64; exact E|]. split; [exact D1|]. split; [|split; [exact V|exact G]].
  revert E. unfold fill_sparse. cbv zeta. destruct (alloc _ _ jZ (ss_rows S)) as [rows|]; [|discriminate]. destruct (alloc _ _ jZ (ss_cols S)) as [cols|]; [|discriminate].
  destruct (alloc _ _ jT (ss_vals S)) as [vals|]; [|discriminate]. unfold fill_sparse_unpacked_nosub. cbv zeta. rewrite Ha.
  destruct (repeated_fisher_yates _ _ _ _ _ _ _ _ _ _ _) as [[[[a b] v] st]| |]; cbn [bind]; try discriminate. destruct b; [|discriminate]. destruct v; [|discriminate].
  destruct (sd_rows (ss_dist S) <=? sd_cols (ss_dist S)); cbn [bind]; intros E; injection E as <-; cbn [ss_nnz]; now rewrite P4.
Qed.
Print Assumptions C81_fill_partial.

(** fill_sparse beyond the capacity is undefined for every operator whose indices fit, every generator, every seed and arrays of any length. *)
Theorem C81_fill_refuted :
  forall {K F T} (env : sparse_env K F T) jT jZ (S : sparse_skop K T),
    indices_fit env (ss_dist S) -> has_memory S -> capacity (se_sb env) < sd_full_nnz (ss_dist S) -> fill_sparse64 env jT jZ S = UB.
Proof.
  intros K F T env jT jZ S (Hsb & HD & Ha & Hr & Hc) Hm Hz. destruct (valid_sdist_inv (ss_dist S) HD) as (P1 & P2 & P3 & P4 & P5 & P6). rewrite Ha in P5, P6.
  assert (AL : forall A (b : option (list A)) (j : A), ss_own S = true \/ b <> None -> exists l, alloc (ss_own S) (sd_full_nnz (ss_dist S)) j b = Some l).
  { intros A b j H. unfold alloc. destruct b as [l|]; [now exists l|]. destruct H as [->|H]; [eexists; reflexivity|now destruct H]. }
  destruct (AL Z (ss_rows S) jZ) as [rows Er]; [destruct Hm as [H|(H & _)]; auto|]. destruct (AL Z (ss_cols S) jZ) as [cols Ec]; [destruct Hm as [H|(_ & H & _)]; auto|].
  destruct (AL T (ss_vals S) jT) as [vals Ev]; [destruct Hm as [H|(_ & _ & H)]; auto|].
  unfold fill_sparse64. cbv zeta. rewrite Er, Ec, Ev. unfold fill_sparse_unpacked_nosub64. cbv zeta. rewrite Ha.
  rewrite capacity_ub; [reflexivity|exact Hsb|lia|unfold sint_max; lia|unfold sint_max; lia|]. rewrite (Z.mul_comm (sd_minor _)), <- P4. exact Hz.
Qed.
Print Assumptions C81_fill_refuted.

(** int indices: a 40000 by 100000 operator with 30000 nonzeros per column has 3*10^9 nonzeros and cannot be filled, a 32768 by
    65536 operator with 32768 nonzeros per column has 2^31 and can. *)
Example C81_case : forall {K F T} (env : sparse_env K F T) jT jZ seed, se_sb env = 32 ->
  (exists D, mk_sparse_dist 40000 100000 30000 Short = Ok D /\ indices_fit env D /\ fill_sparse64 env jT jZ (mk_sparse_skop env D seed) = UB) /\
  (wf_senv env -> seed_ok env seed -> exists D S', mk_sparse_dist 32768 65536 32768 Short = Ok D /\ fill_sparse64 env jT jZ (mk_sparse_skop env D seed) = Ok S' /\ ss_nnz S' = 2147483648).
Proof.
  intros K F T env jT jZ seed Hsb. split.
  - eexists. split; [reflexivity|].
    match goal with |- indices_fit _ ?D /\ _ => assert (HF : indices_fit env D) by (split; [left; exact Hsb|]; split; [reflexivity|]; split; [reflexivity|]; rewrite Hsb; cbn; lia) end.
    split; [exact HF|]. apply C81_fill_refuted; [exact HF|left; reflexivity|]. rewrite Hsb. cbn. lia.
  - intros Hw Hs. eexists.
    assert (exists S', fill_sparse64 env jT jZ (mk_sparse_skop env {| sd_rows := 32768; sd_cols := 65536; sd_axis := Short; sd_major := 32768; sd_minor := 65536; sd_iso2 := (1, 32768); sd_vec_nnz := 32768; sd_full_nnz := 2147483648 |} seed) = Ok S' /\ ss_nnz S' = 2147483648) as (S' & E & N).
    { match goal with |- exists S', fill_sparse64 _ _ _ (mk_sparse_skop _ ?D _) = _ /\ _ => assert (HF : indices_fit env D) by (split; [left; exact Hsb|]; split; [reflexivity|]; split; [reflexivity|]; rewrite Hsb; cbn; lia);
        destruct (C81_fill_partial env jT jZ (mk_sparse_skop env D seed) HF Hw Hs (mk_buffers_ok env D seed)) as (S' & E & _ & N & _); [rewrite Hsb; cbn; lia|exists S'; split; [exact E|exact N]] end. }
    exists S'. split; [reflexivity|]. split; [exact E|exact N].
Qed.
