(** Proofs about OverflowModel.v: when the padded number of entries fits in int64_t, the
    checked arithmetic never leaves its range. *)
From Verif Require Import Base Spec Interleave RngModel DenseModel DenseSpec DenseProofs DenseProofs2
  SparseSkopModel OverflowModel.

Lemma int64_in z : - 2 ^ 63 <= z < 2 ^ 63 -> int64 z = true.
Proof. intros H. unfold int64, int64_min, int64_max. lia. Qed.

Lemma int64_out z : int64 z = false <-> z < - 2 ^ 63 \/ 2 ^ 63 <= z.
Proof. unfold int64, int64_min, int64_max. lia. Qed.

Lemma ck_in z : - 2 ^ 63 <= z < 2 ^ 63 -> ck z = Ok z.
Proof. intros H. unfold ck. now rewrite int64_in. Qed.

Lemma mapM_ext {A B} (f g : A -> outcome B) l :
  (forall a, In a l -> f a = g a) -> mapM f l = mapM g l.
Proof.
  induction l as [|a l IH]; intros H; cbn [mapM]; [reflexivity|].
  rewrite H by (left; reflexivity). rewrite IH; [reflexivity|].
  intros x Hx. apply H. now right.
Qed.

(** Two loops agree if their bodies do wherever an invariant of the second holds. *)
Lemma for_ext_inv {S} (I : Z -> S -> Prop) lo hi (f g : Z -> S -> outcome S) s :
  I lo s ->
  (forall i s, lo <= i < hi -> I i s -> f i s = g i s) ->
  (forall i s s', lo <= i < hi -> I i s -> g i s = Ok s' -> I (i + 1) s') ->
  for_ lo hi f s = for_ lo hi g s.
Proof.
  unfold for_, range. intros H0 Hfg Hstep.
  remember (Z.to_nat (hi - lo)) as n eqn:En. revert lo s H0 Hfg Hstep En.
  induction n as [|n IH]; intros lo s H0 Hfg Hstep En; cbn [zseq foldM]; [reflexivity|].
  rewrite Hfg by (assumption || lia).
  destruct (g lo s) as [s'| |] eqn:E; cbn [bind]; try reflexivity.
  apply IH; [apply (Hstep lo s s'); assumption || lia| | |lia].
  - intros i x Hi. apply Hfg. lia.
  - intros i x x' Hi. apply Hstep. lia.
Qed.

(** What a loop that ends normally leaves. *)
Lemma for_keeps {S} (I : Z -> S -> Prop) lo hi (g : Z -> S -> outcome S) s s' :
  lo <= hi -> I lo s ->
  (forall i s s', lo <= i < hi -> I i s -> g i s = Ok s' -> I (i + 1) s') ->
  for_ lo hi g s = Ok s' -> I hi s'.
Proof.
  unfold for_, range. intros Hle H0 Hstep.
  remember (Z.to_nat (hi - lo)) as n eqn:En. revert lo s H0 Hstep En Hle.
  induction n as [|n IH]; intros lo s H0 Hstep En Hle; cbn [zseq foldM]; intros H.
  - injection H as <-. replace hi with lo by lia. exact H0.
  - destruct (g lo s) as [x| |] eqn:E; cbn [bind] in H; try discriminate.
    refine (IH (lo + 1) x _ _ _ _ H); try lia.
    + apply (Hstep lo s x); assumption || lia.
    + intros i y y' Hi. apply Hstep. lia.
Qed.

Lemma le_mul_l a b : 1 <= a -> 0 <= b -> b <= a * b.
Proof. intros Ha Hb. nia. Qed.

(** Facts about a window inside the padded matrix: row [r0], column [c0] of a matrix with
    [n] columns padded to [n + pad], [m] rows. *)
Lemma window_bounds n m L pad r0 c0 nr nc :
  0 < n -> 2 <= L -> 0 <= pad < L -> (n + L) * m < 2 ^ 63 ->
  0 <= r0 -> 0 <= c0 -> 1 <= nr -> 1 <= nc -> r0 + nr <= m -> c0 + nc <= n ->
  let ptr := r0 * n + c0 in
  Z.quot ptr n = r0 /\ 0 <= ptr < 2 ^ 63 /\ 0 <= r0 * pad < 2 ^ 63 /\
  0 <= ptr + r0 * pad /\ ptr + r0 * pad + nc < 2 ^ 63 /\ n + pad < 2 ^ 63 /\
  0 <= nr * (n + pad) < 2 ^ 63 /\ n + L < 2 ^ 63.
Proof.
  intros Hn HL Hp Hfit Hr Hc Hnr Hnc Hm Hcn ptr.
  assert (Hq : Z.quot ptr n = r0).
  { unfold ptr. rewrite Z.quot_div_nonneg;
      [|assert (0 <= r0 * n) by (apply Z.mul_nonneg_nonneg; lia); lia|lia]. rewrite Z.div_add_l by lia. rewrite Z.div_small by lia. lia. }
  split; [exact Hq|]. unfold ptr.
  assert (A : (r0 + nr) * (n + pad) <= m * (n + pad)) by (apply Z.mul_le_mono_nonneg_r; lia).
  assert (B : m * (n + pad) <= m * (n + L)) by (apply Z.mul_le_mono_nonneg_l; lia).
  assert (C0 : 0 <= r0 * n) by (apply Z.mul_nonneg_nonneg; lia).
  assert (C1 : 0 <= r0 * pad) by (apply Z.mul_nonneg_nonneg; lia).
  assert (C2 : n + pad <= nr * (n + pad)) by (apply le_mul_l; lia).
  assert (C3 : n + L <= m * (n + L)) by (apply le_mul_l; lia).
  assert (Hd : (r0 + nr) * (n + pad) = r0 * n + r0 * pad + nr * (n + pad)) by ring.
  assert (He : (n + L) * m = m * (n + L)) by ring.
  repeat split; lia.
Qed.

Section Dense64.
  Context {K W T : Type}.
  Variable cast : W -> T.

  Lemma pad_of64_eq n L : 0 < n -> 2 <= L -> L < 2 ^ 63 -> pad_of64 n L = Ok (pad_of n L).
  Proof.
    intros Hn HL HB. unfold pad_of64, pad_of.
    pose proof (Z.rem_bound_pos n L ltac:(lia) ltac:(lia)).
    destruct (negb _); [|reflexivity]. apply ck_in. lia.
  Qed.

  Lemma block_writes64_eq (rv : list W) n src dst :
    0 <= src -> 0 <= dst -> src + n <= 2 ^ 63 -> dst + n <= 2 ^ 63 ->
    block_writes64 cast rv n src dst = block_writes cast rv n src dst.
  Proof.
    intros Hs Hd H1 H2. unfold block_writes64, block_writes.
    destruct (int_loop_ok n); [|reflexivity].
    apply mapM_ext. intros i Hi. apply in_range in Hi.
    rewrite (ck_in (i + src)) by lia. cbn [bind]. rewrite (ck_in (dst + i)) by lia. reflexivity.
  Qed.

  Lemma row_task64_eq (g : generator K W) c k stride fbs fbl s e lbs lda one row :
    0 <= row -> 2 <= g_len g -> 0 <= fbs -> 0 <= fbl -> 0 <= lda -> 0 <= s <= e -> e < 2 ^ 63 ->
    (one = false -> s < e) -> 0 <= lbs ->
    fbs + fbl < 2 ^ 63 -> row * lda + fbl < 2 ^ 63 ->
    (one = false -> row * lda + fbl + (e - s - 1) * g_len g + lbs < 2 ^ 63) ->
    row_task64 cast g c k stride fbs fbl s e lbs lda one row =
    row_task cast g c k stride fbs fbl s e lbs lda one row.
  Proof.
    intros Hr HL Hf Hfl Hl Hse He Hone Hlb B1 B2 B3.
    unfold row_task64, row_task.
    destruct (safe_int_product stride row) as [inc| |]; cbn [bind]; try reflexivity.
    assert (Hrl : 0 <= row * lda) by (apply Z.mul_nonneg_nonneg; lia).
    rewrite (ck_in (row * lda)) by lia. cbn [bind].
    rewrite block_writes64_eq by lia.
    destruct (block_writes cast _ fbl fbs (row * lda)) as [w1| |]; cbn [bind]; try reflexivity.
    destruct one; [reflexivity|]. specialize (Hone eq_refl). specialize (B3 eq_refl).
    rewrite (ck_in (e - s)) by lia. cbn [bind]. rewrite (ck_in (e - s - 1)) by lia. cbn [bind].
    destruct (negb _); [reflexivity|].
    set (N := e - s - 1) in *.
    assert (HN : 0 <= N) by lia.
    pose (I := fun (i : Z) (st : Z * Z * list (Z * T)) => snd (fst st) = fbl + i * g_len g).
    assert (HI : forall i st, 0 <= i <= N -> I i st ->
                 0 <= snd (fst st) /\ row * lda + snd (fst st) + (N - i) * g_len g + lbs < 2 ^ 63).
    { intros i st Hi E. unfold I in E. rewrite E.
      assert (0 <= i * g_len g) by (apply Z.mul_nonneg_nonneg; lia).
      split; [lia|]. replace ((N - i) * g_len g) with (N * g_len g - i * g_len g) by ring. lia. }
    assert (E0 : I 0 (incr g c inc, fbl, w1)) by (unfold I; cbn; lia).
    rewrite (for_ext_inv I 0 N _ (fun (_ : Z) (st : Z * Z * list (Z * T)) =>
            let '(c_row, ind, ws) := st in
            w <- block_writes cast (g_fun g (incr g c_row 1) k) (g_len g) 0 (row * lda + ind) ;;
            Ok (incr g c_row 1, ind + g_len g, ws ++ w)) _ E0).
    - (* last block *)
      assert (HF : forall st', for_ 0 N (fun (_ : Z) (st : Z * Z * list (Z * T)) =>
            let '(c_row, ind, ws) := st in
            w <- block_writes cast (g_fun g (incr g c_row 1) k) (g_len g) 0 (row * lda + ind) ;;
            Ok (incr g c_row 1, ind + g_len g, ws ++ w)) (incr g c inc, fbl, w1) = Ok st' -> I N st').
      { intros st'. apply (for_keeps I); [lia|exact E0|].
        intros i [[cr ind] ws] s' Hi Ei H.
        destruct (block_writes cast _ _ 0 (row * lda + ind)); cbn [bind] in H; try discriminate.
        injection H as <-. unfold I in *. cbn in *. lia. }
      destruct (for_ 0 N _ _) as [[[cr ind] ws]| |] eqn:EF; cbn [bind]; try reflexivity.
      pose proof (HI N (cr, ind, ws) ltac:(lia) (HF _ eq_refl)) as [Hi0 Hi1]. cbn in Hi0, Hi1.
      replace (N - N) with 0 in Hi1 by lia.
      rewrite (ck_in (row * lda + ind)) by lia. cbn [bind].
      rewrite block_writes64_eq by lia. reflexivity.
    - intros i [[cr ind] ws] Hi Ei. pose proof (HI i _ ltac:(lia) Ei) as [Hi0 Hi1]. cbn in Hi0, Hi1.
      assert (g_len g <= (N - i) * g_len g) by (apply le_mul_l; lia).
      rewrite (ck_in (row * lda + ind)) by lia. cbn [bind].
      rewrite block_writes64_eq by lia.
      destruct (block_writes cast _ _ 0 (row * lda + ind)); cbn [bind]; try reflexivity.
      rewrite (ck_in (ind + g_len g)) by lia. reflexivity.
    - intros i [[cr ind] ws] st' Hi Ei H.
      destruct (block_writes cast _ _ 0 (row * lda + ind)); cbn [bind] in H; try discriminate.
      injection H as <-. unfold I in *. cbn in *. lia.
  Qed.

  Lemma submat64_eq sched (g : generator K W) n_cols smat nr nc r0 c0 m (seed : rng_state K) :
    wf_generator g -> 0 < n_cols -> (n_cols + g_len g) * m < 2 ^ 63 ->
    0 <= r0 -> 0 <= c0 -> 1 <= nr -> 1 <= nc -> r0 + nr <= m -> c0 + nc <= n_cols ->
    fill_dense_submat_impl64 cast sched g n_cols smat nr nc (r0 * n_cols + c0) seed 0 =
    fill_dense_submat_impl cast sched g n_cols smat nr nc (r0 * n_cols + c0) seed 0.
  Proof.
    intros Hwf Hn Hfit Hr Hc Hnr Hnc Hm Hcn.
    pose proof (wf_len g Hwf) as HL.
    destruct (pad_of_spec n_cols (g_len g) Hn ltac:(lia)) as [Hpad Hp].
    pose proof (ceil_div_pos n_cols (g_len g) Hn ltac:(lia)) as Hper.
    destruct (window_bounds n_cols m (g_len g) (pad_of n_cols (g_len g)) r0 c0 nr nc)
      as (Hq & B1 & B2 & B3 & B4 & B5 & B6 & B7); try assumption; try lia.
    unfold fill_dense_submat_impl64, fill_dense_submat_impl. cbn [Z.leb Z.compare bind].
    destruct (n_cols >=? nc); cbn [require bind]; [|reflexivity].
    rewrite pad_of64_eq by lia. cbn [bind].
    replace (n_cols =? 0) with false by lia.
    rewrite Hq. set (pad := pad_of n_cols (g_len g)) in *. set (ptr := r0 * n_cols + c0) in *.
    set (per := ceil_div n_cols (g_len g)) in *.
    rewrite (ck_in (r0 * pad)) by lia. cbn [bind].
    rewrite (ck_in (ptr + r0 * pad)) by lia. cbn [bind].
    set (P := ptr + r0 * pad) in *. clearbody P.
    rewrite (ck_in (P + nc)) by lia. cbn [bind]. rewrite (ck_in (P + nc - 1)) by lia. cbn [bind].
    set (L := g_len g) in *.
    rewrite !Z.quot_div_nonneg by lia. rewrite !Z.rem_mod_nonneg by lia.
    pose proof (Z.mod_pos_bound (P + nc - 1) L ltac:(lia)) as M1.
    pose proof (Z.mod_pos_bound P L ltac:(lia)) as M2.
    pose proof (Z.div_mod (P + nc - 1) L ltac:(lia)) as D1.
    pose proof (Z.div_mod P L ltac:(lia)) as D2.
    rewrite (ck_in ((P + nc - 1) mod L + 1)) by lia. cbn [bind].
    rewrite (ck_in (n_cols + pad)) by lia. cbn [bind].
    rewrite Hpad. rewrite Z.div_mul by lia. rewrite Z.quot_mul by lia.
    set (s := P / L) in *. set (e := (P + nc - 1) / L) in *.
    set (lb := (P + nc - 1) mod L) in *. set (fb := P mod L) in *.
    assert (Hse : 0 <= s <= e).
    { split; [apply Z.div_pos; lia|apply Z.div_le_mono; lia]. }
    assert (He0 : e <= L * e) by (apply le_mul_l; lia).
    assert (He : e < 2 ^ 63) by lia.
    set (one := s =? e).
    assert (Hfl : 0 <= (if one then lb + 1 else L) - fb <= L /\ fb + ((if one then lb + 1 else L) - fb) < 2 ^ 63 /\
                  (if one then lb + 1 else L) - fb <= nc /\
                  (one = false -> s < e /\ (L - fb) + (e - s - 1) * L + (lb + 1) = nc)).
    { unfold one. destruct (Z.eqb_spec s e) as [Ee|Ne].
      - rewrite Ee in *. repeat split; try lia; discriminate.
      - assert (L - fb + (e - s - 1) * L + (lb + 1) = nc)
          by (replace ((e - s - 1) * L) with (L * e - L * s - L) by ring; lia).
        assert (0 <= (e - s - 1) * L) by (apply Z.mul_nonneg_nonneg; lia).
        repeat split; try lia. }
    destruct Hfl as (F1 & F2 & F3 & F4).
    rewrite (ck_in ((if one then lb + 1 else L) - fb)) by lia. cbn [bind].
    assert (Hsum : nr * nc <= nr * (n_cols + pad)) by (apply Z.mul_le_mono_nonneg_l; lia).
    rewrite (mapM_ext _ (row_task cast g (incr g (counter seed) s) (key seed) per fb
               ((if one then lb + 1 else L) - fb) s e (lb + 1) nc one)).
    - destruct (mapM _ _) as [tasks| |]; cbn [bind]; try reflexivity.
      destruct (omp_exec _ _ _ _) as [sm| |]; cbn [bind]; try reflexivity.
      assert (0 <= nr * per) by (apply Z.mul_nonneg_nonneg; lia).
      assert (nr * per <= nr * (n_cols + pad)).
      { apply Z.mul_le_mono_nonneg_l; [lia|]. rewrite Hpad, Z.mul_comm. apply le_mul_l; lia. }
      rewrite (ck_in (nr * per)) by lia. reflexivity.
    - intros row Hrow. apply in_range in Hrow.
      assert (Hrn : row * nc + nc <= nr * nc).
      { replace (row * nc + nc) with ((row + 1) * nc) by ring. apply Z.mul_le_mono_nonneg_r; lia. }
      assert (0 <= row * nc) by (apply Z.mul_nonneg_nonneg; lia).
      apply row_task64_eq; try lia.
  Qed.

  Lemma omatcopy64_eq lay1 lay2 (A B : list T) m n :
    0 <= m -> 0 <= n -> m * n < 2 ^ 63 -> m < 2 ^ 63 -> n < 2 ^ 63 ->
    omatcopy64 m n A (fst (layout_to_strides3 lay1 m n)) (snd (layout_to_strides3 lay1 m n))
      B (fst (layout_to_strides3 lay2 m n)) (snd (layout_to_strides3 lay2 m n)) =
    omatcopy m n A (fst (layout_to_strides3 lay1 m n)) (snd (layout_to_strides3 lay1 m n))
      B (fst (layout_to_strides3 lay2 m n)) (snd (layout_to_strides3 lay2 m n)).
  Proof.
    intros Hm Hn Hmn Hm1 Hn1. unfold omatcopy64, omatcopy.
    apply for_ext. intros i B1 Hi. apply for_ext. intros j B2 Hj.
    assert (0 <= i * n) by (apply Z.mul_nonneg_nonneg; lia).
    assert (0 <= j * m) by (apply Z.mul_nonneg_nonneg; lia).
    assert (i * n + n <= m * n)
      by (replace (i * n + n) with ((i + 1) * n) by ring; apply Z.mul_le_mono_nonneg_r; lia).
    assert (j * m + m <= m * n)
      by (replace (j * m + m) with (m * (j + 1)) by ring; apply Z.mul_le_mono_nonneg_l; lia).
    assert (HS : forall lay, let st := layout_to_strides3 lay m n in
              0 <= i * fst st < 2 ^ 63 /\ 0 <= j * snd st < 2 ^ 63 /\ i * fst st + j * snd st < 2 ^ 63).
    { intros [|]; cbn; lia. }
    destruct (HS lay1) as (A1 & A2 & A3). destruct (HS lay2) as (A4 & A5 & A6).
    rewrite (ck_in (i * fst (layout_to_strides3 lay1 m n))) by lia. cbn [bind].
    rewrite (ck_in (j * snd (layout_to_strides3 lay1 m n))) by lia. cbn [bind].
    rewrite (ck_in (_ + _)) by lia. cbn [bind].
    rewrite (ck_in (i * fst (layout_to_strides3 lay2 m n))) by lia. cbn [bind].
    rewrite (ck_in (j * snd (layout_to_strides3 lay2 m n))) by lia. cbn [bind].
    rewrite (ck_in (_ + _)) by lia. reflexivity.
  Qed.

  (** A nonempty window with nonnegative offsets. *)
  Definition window (D : dense_dist) (n_rows n_cols ro co : Z) : Prop :=
    1 <= n_rows /\ 1 <= n_cols /\ 0 <= ro /\ 0 <= co /\ ro + n_rows <= dd_rows D /\ co + n_cols <= dd_cols D.

  Lemma dims_fit nr nc fam ax D L :
    mk_dense_dist nr nc fam ax = Ok D -> 2 <= L -> (dd_major D + L) * dd_minor D < 2 ^ 63 ->
    0 < nr < 2 ^ 63 /\ 0 < nc < 2 ^ 63 /\ nr * nc < 2 ^ 63 /\ dd_rows D = nr /\ dd_cols D = nc /\
    match dd_layout D with
    | ColMajor => dd_major D = nr /\ dd_minor D = nc
    | RowMajor => dd_major D = nc /\ dd_minor D = nr
    end.
  Proof.
    intros HD HL Hfit. destruct (mk_dense_dist_inv _ _ _ _ _ HD) as (Hr & Hc & Er & Ec & _ & _ & _ & Ema & Emi).
    rewrite Ema, Emi in *. clear HD Ema Emi.
    assert (Hx : nr * nc < 2 ^ 63 /\ nr < 2 ^ 63 /\ nc < 2 ^ 63).
    { assert (nr <= nc * nr) by (apply le_mul_l; lia). assert (nc <= nr * nc) by (apply le_mul_l; lia).
      assert (0 <= L * nc) by (apply Z.mul_nonneg_nonneg; lia).
      assert (0 <= L * nr) by (apply Z.mul_nonneg_nonneg; lia).
      destruct (dd_layout D); cbn [flip min_ld] in Hfit; rewrite Z.mul_add_distr_r in Hfit; lia. }
    destruct (dd_layout D); cbn [flip min_ld]; repeat split; lia.
  Qed.

  Lemma unpacked64_eq (env : dense_env K W T) sched lay nr nc fam ax D n_rows n_cols ro co buff (seed : rng_state K) :
    wf_env env -> mk_dense_dist nr nc fam ax = Ok D ->
    (dd_major D + g_len (env_gen env (dd_family D))) * dd_minor D < 2 ^ 63 ->
    window D n_rows n_cols ro co ->
    fill_dense_unpacked64 cast env sched lay D n_rows n_cols ro co buff seed =
    fill_dense_unpacked cast env sched lay D n_rows n_cols ro co buff seed.
  Proof.
    intros We HD Hfit (W1 & W2 & W3 & W4 & W5 & W6).
    assert (Hg : wf_generator (env_gen env (dd_family D))) by (destruct (dd_family D); apply We).
    pose proof (wf_len _ Hg) as HL.
    destruct (dims_fit _ _ _ _ _ _ HD (proj1 HL) Hfit) as (Hnr & Hnc & Hrc & Er & Ec & Hlay).
    rewrite Er in W5. rewrite Ec in W6.
    assert (Hww : 0 <= n_rows * n_cols < 2 ^ 63).
    { split; [apply Z.mul_nonneg_nonneg; lia|].
      apply Z.le_lt_trans with (nr * nc); [|lia]. apply Z.mul_le_mono_nonneg; lia. }
    unfold fill_dense_unpacked64, fill_dense_unpacked.
    rewrite (ck_in (n_rows + ro)) by lia. cbn [bind]. rewrite (ck_in (n_cols + co)) by lia.
    destruct (dd_rows D >=? n_rows + ro); cbn [require bind]; [|reflexivity].
    destruct (dd_cols D >=? n_cols + co); cbn [require bind]; [|reflexivity].
    rewrite (ck_in (n_rows * n_cols)) by lia.
    assert (Hfin : forall b (st : rng_state K),
      (if layout_eqb lay (dd_layout D) then Ok (b, st)
       else fw <- copy_loop (n_rows * n_cols) b (repeat (env_junk env) (Z.to_nat (n_rows * n_cols))) ;;
            let '(irs_nat, ics_nat) := layout_to_strides3 (dd_layout D) n_rows n_cols in
            let '(irs_req, ics_req) := layout_to_strides3 lay n_rows n_cols in
            b <- omatcopy64 n_rows n_cols fw irs_nat ics_nat b irs_req ics_req ;; Ok (b, st)) =
      (if layout_eqb lay (dd_layout D) then Ok (b, st)
       else fw <- copy_loop (n_rows * n_cols) b (repeat (env_junk env) (Z.to_nat (n_rows * n_cols))) ;;
            let '(irs_nat, ics_nat) := layout_to_strides3 (dd_layout D) n_rows n_cols in
            let '(irs_req, ics_req) := layout_to_strides3 lay n_rows n_cols in
            b <- omatcopy n_rows n_cols fw irs_nat ics_nat b irs_req ics_req ;; Ok (b, st))).
    { intros b st. destruct (layout_eqb lay (dd_layout D)); [reflexivity|].
      destruct (copy_loop _ _ _) as [fw| |]; cbn [bind]; try reflexivity.
      pose proof (omatcopy64_eq (dd_layout D) lay fw b n_rows n_cols ltac:(lia) ltac:(lia) ltac:(lia) ltac:(lia) ltac:(lia)) as E.
      destruct (layout_to_strides3 (dd_layout D) n_rows n_cols) as [i1 i2].
      destruct (layout_to_strides3 lay n_rows n_cols) as [j1 j2]. cbn [fst snd] in E. rewrite E. reflexivity. }
    destruct (dd_layout D) eqn:El.
    - destruct Hlay as [Ema Emi]. rewrite Ema, Emi in *.
      assert (0 <= co * nr) by (apply Z.mul_nonneg_nonneg; lia).
      assert (co * nr + n_cols * nr <= nr * nc).
      { replace (co * nr + n_cols * nr) with (nr * (co + n_cols)) by ring. apply Z.mul_le_mono_nonneg_l; lia. }
      assert (nr <= n_cols * nr) by (apply le_mul_l; lia).
      rewrite safe_int_product_Ok by (apply int64_in; lia). cbn [bind].
      rewrite (ck_in (ro + co * nr)) by lia. cbn [bind].
      replace (ro + co * nr) with (co * nr + ro) by lia.
      assert (E : forall g, wf_generator g -> (nr + g_len g) * nc < 2 ^ 63 ->
        fill_dense_submat_impl64 cast sched g nr buff n_cols n_rows (co * nr + ro) seed 0 =
        fill_dense_submat_impl cast sched g nr buff n_cols n_rows (co * nr + ro) seed 0).
      { intros g Wg Hgf. apply (submat64_eq sched g nr buff n_cols n_rows co ro nc); try assumption; lia. }
      destruct (dd_family D); cbn [env_gen] in *; rewrite E by assumption;
        destruct (fill_dense_submat_impl _ _ _ _ _ _ _ _ _ _) as [[b st]| |]; cbn [bind]; try reflexivity.
      + apply Hfin.
      + rewrite (ck_in (n_cols * n_rows)) by lia. cbn [bind].
        destruct (scal_loop _ _ _) as [b'| |]; cbn [bind]; try reflexivity. apply Hfin.
    - destruct Hlay as [Ema Emi]. rewrite Ema, Emi in *.
      assert (0 <= ro * nc) by (apply Z.mul_nonneg_nonneg; lia).
      assert (ro * nc + n_rows * nc <= nr * nc).
      { replace (ro * nc + n_rows * nc) with ((ro + n_rows) * nc) by ring. apply Z.mul_le_mono_nonneg_r; lia. }
      assert (nc <= n_rows * nc) by (apply le_mul_l; lia).
      rewrite safe_int_product_Ok by (apply int64_in; lia). cbn [bind].
      rewrite (ck_in (ro * nc + co)) by lia. cbn [bind].
      assert (E : forall g, wf_generator g -> (nc + g_len g) * nr < 2 ^ 63 ->
        fill_dense_submat_impl64 cast sched g nc buff n_rows n_cols (ro * nc + co) seed 0 =
        fill_dense_submat_impl cast sched g nc buff n_rows n_cols (ro * nc + co) seed 0).
      { intros g Wg Hgf. apply (submat64_eq sched g nc buff n_rows n_cols ro co nr); try assumption; lia. }
      destruct (dd_family D); cbn [env_gen] in *; rewrite E by assumption;
        destruct (fill_dense_submat_impl _ _ _ _ _ _ _ _ _ _) as [[b st]| |]; cbn [bind]; try reflexivity.
      + apply Hfin.
      + rewrite ?(ck_in (n_rows * n_cols)) by lia. cbn [bind].
        destruct (scal_loop _ _ _) as [b'| |]; cbn [bind]; try reflexivity. apply Hfin.
  Qed.

  Lemma next_state64_eq (g : generator K W) nr nc fam ax D st :
    wf_generator g -> mk_dense_dist nr nc fam ax = Ok D -> (dd_major D + g_len g) * dd_minor D < 2 ^ 63 ->
    compute_next_state64 g D st = compute_next_state g D st.
  Proof.
    intros Hg HD Hfit. pose proof (wf_len _ Hg) as HL.
    destruct (dims_fit _ _ _ _ _ _ HD (proj1 HL) Hfit) as (Hnr & Hnc & Hrc & Er & Ec & Hlay).
    assert (0 < dd_major D /\ 0 < dd_minor D) by (destruct (dd_layout D); lia).
    destruct (pad_of_spec (dd_major D) (g_len g) ltac:(lia) ltac:(lia)) as [Hpad Hp].
    assert (dd_major D + g_len g <= dd_minor D * (dd_major D + g_len g)) by (apply le_mul_l; lia).
    unfold compute_next_state64, compute_next_state. rewrite pad_of64_eq by lia. cbn [bind].
    rewrite (ck_in (dd_major D + pad_of (dd_major D) (g_len g))) by lia. reflexivity.
  Qed.
End Dense64.

(* ------------------------------------------------------------------ *)
(** Sparse distributions. *)
Lemma mk_sparse_dist64_exact r c k ax :
  int64 r = true -> int64 c = true ->
  let minor := match ax with Short => Z.max r c | Long => Z.min r c end in
  mk_sparse_dist64 r c k ax =
  if int64 (r + c) && int64 (k * minor) then mk_sparse_dist r c k ax else UB.
Proof.
  intros Hr Hc minor. unfold mk_sparse_dist64.
  assert (Em : r + c - match ax with Short => Z.min r c | Long => Z.max r c end = minor)
    by (unfold minor; destruct ax; lia).
  assert (Hm : int64 minor = true).
  { unfold minor. destruct ax; [destruct (Z.max_spec r c) as [[_ ->]|[_ ->]] | destruct (Z.min_spec r c) as [[_ ->]|[_ ->]]]; assumption. }
  unfold ck. destruct (int64 (r + c)); cbn [bind andb]; [|reflexivity].
  rewrite Em, Hm. cbn [bind]. destruct (int64 (k * minor)); cbn [bind]; [|reflexivity].
  unfold mk_sparse_dist. rewrite Em. reflexivity.
Qed.
