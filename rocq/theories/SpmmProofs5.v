(** Output scaling and dispatch. *)
From Coq Require Import Permutation.
From Verif Require Import Base Interleave Spec SparseSkopModel SparseSpec SparseProofs SpFmtModel SpFmtSpec SpFmtProofs SpFmtProofs2 SpFmtProofs3 SpFmtProofs4 SpFmtProofs5 SpmmModel SpmmSpec SpmmProofs SpmmProofs2 SpmmProofs3 SpmmProofs4.

Lemma fits_flip l ld r c len : fits_buffer (flip l) ld r c len <-> fits_buffer l ld c r len.
Proof.
  unfold fits_buffer. assert (E : min_ld (flip l) r c = min_ld l c r) by (destruct l; reflexivity). rewrite E.
  split; intros [H1 H2]; split; auto; intros i j Hi Hj; specialize (H2 j i); rewrite ?addr_flip in *; auto.
Qed.

Section Dispatch.
  Context {T : Type}.
  Variable O : ops T.
  Notation add := (o_add O). Notation mul := (o_mul O). Notation zero := (o_zero O). Notation one := (o_one O).

  (** Value of an element after scaling; no law assumed. *)
  Definition scaled (beta x : T) : T := if o_eqb O beta zero then zero else mul beta x.

  Lemma safe_scal_spec n a x off : 0 <= n -> 0 <= off -> off + n <= zlen x ->
    exists x', safe_scal O n a x off 1 = Ok x' /\ zlen x' = zlen x /\
      (forall e, 0 <= e < n -> get x' (off + e) = option_map (scaled a) (get x (off + e))) /\
      (forall e, e < off \/ off + n <= e -> get x' e = get x e).
  Proof.
    intros Hn Ho Hx. unfold safe_scal, scaled. destruct (o_eqb O a zero) eqn:Ea; [|apply scal_spec; auto].
    destruct (for_inv (fun k x' => zlen x' = zlen x /\ (forall e, 0 <= e < k -> get x' (off + e) = Some zero) /\
        (forall e, e < off \/ off + k <= e -> get x' e = get x e)) 0 n (fun i x => wr x (off + i * 1) zero) x) as (x' & E & Le & G1 & G2).
    - exact Hn.
    - split; [reflexivity|]. split; [intros; lia|auto].
    - intros i x' Hi (L & G1 & G2). rewrite Z.mul_1_r.
      destruct (wr_ex x' (off + i) zero ltac:(lia)) as (x2 & -> & L2 & E2 & N2). eexists. split; [reflexivity|]. split; [lia|]. split.
      + intros e He. destruct (Z.eq_dec e i) as [->|N]; [exact E2|rewrite N2 by lia; apply G1; lia].
      + intros e He. rewrite N2 by lia. apply G2. lia.
    - exists x'. split; [exact E|]. split; [exact Le|]. split; [|exact G2]. intros e He. rewrite G1 by lia.
      destruct (get_lt x (off + e) ltac:(lia)) as [y ->]. reflexivity.
  Qed.

  (** [C1] is [C] with its d x n matrix scaled. *)
  Definition scaled_mat (l : layout) (d n : Z) (beta : T) (C : list T) (ldc : Z) (C1 : list T) : Prop :=
    zlen C1 = zlen C /\
    (forall i j, 0 <= i < d -> 0 <= j < n -> get C1 (addr l ldc i j) = option_map (scaled beta) (get C (addr l ldc i j))) /\
    (forall p, (forall i j, 0 <= i < d -> 0 <= j < n -> addr l ldc i j <> p) -> get C1 p = get C p).

  Lemma scale_rows n cnt beta C ldc : 0 <= n -> 0 <= cnt -> n <= ldc -> (forall i j, 0 <= i < cnt -> 0 <= j < n -> i * ldc + j < zlen C) ->
    exists C1, for_ 0 cnt (fun i C => safe_scal O n beta C (i * ldc) 1) C = Ok C1 /\ scaled_mat RowMajor cnt n beta C ldc C1.
  Proof.
    intros Hn Hc Hld HL. 
    destruct (for_inv (fun k C1 => scaled_mat RowMajor k n beta C ldc C1) 0 cnt (fun i C => safe_scal O n beta C (i * ldc) 1) C) as (C1 & E & I).
    - exact Hc.
    - split; [reflexivity|]. split; [intros; lia|auto].
    - intros k C1 Hk (L1 & G1 & G2). cbn [addr] in *.
      assert (Hb : n = 0 \/ k * ldc + n <= zlen C1). { destruct (Z.eq_dec n 0); [auto|right]. specialize (HL k (n - 1) ltac:(lia) ltac:(lia)). lia. }
      destruct (Z.eq_dec n 0) as [->|Nn].
      + exists C1. split; [unfold safe_scal, scal; destruct (o_eqb O beta zero); now rewrite for_nil by lia|].
        split; [exact L1|]. split; [intros; lia|]. intros p Hp. apply G2. intros; lia.
      + destruct (safe_scal_spec n beta C1 (k * ldc) Hn ltac:(nia) ltac:(lia)) as (C2 & -> & L2 & S1 & S2).
        exists C2. split; [reflexivity|]. split; [lia|]. cbn [addr]. split.
        * intros i j Hi Hj. destruct (Z.eq_dec i k) as [->|N].
          -- rewrite S1 by lia. f_equal. apply G2. intros i' j' Hi' Hj' Ee. nia.
          -- rewrite S2 by nia. apply G1; lia.
        * intros p Hp. rewrite S2; [apply G2; intros; apply Hp; lia|].
          destruct (Z.lt_ge_cases p (k * ldc)); [lia|]. destruct (Z.lt_ge_cases p (k * ldc + n)); [|lia].
          exfalso. apply (Hp k (p - k * ldc)); lia.
    - exists C1. auto.
  Qed.

  Lemma scale_output_spec l rB cB d n ldb beta C ldc :
    0 <= d -> 0 <= n -> min_ld l rB cB <= ldb -> fits_buffer l ldc d n (zlen C) ->
    exists C1, scale_output O l rB cB d n ldb beta C ldc = Ok C1 /\ scaled_mat l d n beta C ldc C1.
  Proof.
    intros Hd Hn Hb [F1 F2]. unfold scale_output. destruct l; cbn [min_ld addr] in *.
    - replace (ldb >=? rB) with true by (symmetry; apply Z.geb_le; lia). replace (ldc >=? d) with true by (symmetry; apply Z.geb_le; lia).
      rewrite !require_true. cbn [bind].
      destruct (scale_rows d n beta C ldc Hd Hn F1) as (C1 & E & (L1 & G1 & G2)). { intros i j Hi Hj. specialize (F2 j i Hj Hi). lia. }
      exists C1. split; [exact E|]. split; [exact L1|]. cbn [addr] in *. split.
      + intros i j Hi Hj. specialize (G1 j i Hj Hi). replace (i + j * ldc) with (j * ldc + i) by lia. exact G1.
      + intros p Hp. apply G2. intros i j Hi Hj. specialize (Hp j i Hj Hi). lia.
    - replace (ldb >=? cB) with true by (symmetry; apply Z.geb_le; lia). replace (ldc >=? n) with true by (symmetry; apply Z.geb_le; lia).
      rewrite !require_true. cbn [bind]. apply scale_rows; auto.
  Qed.

  Hypothesis L : semiring O.

  Lemma scaled_mul beta x : scaled beta x = mul beta x.
  Proof using L. unfold scaled. destruct (o_eqb O beta zero) eqn:E; [|reflexivity]. apply (sr_eqb O L) in E. subst. symmetry. apply (sr_mul_0_l O L). Qed.

  Lemma gemm_from l d n m alpha beta a b C ldc C1 C2 :
    fits_buffer l ldc d n (zlen C) ->
    scaled_mat l d n beta C ldc C1 -> adds O l d n (fun i j => mul alpha (bigsum O (fun k => mul (a i k) (b k j)) 0 m)) C1 ldc C2 ->
    gemm_result O l d n m alpha beta a b C ldc C2.
  Proof using L.
    intros F (L1 & G1 & U1) (L2 & G2 & U2). split; [congruence|]. split.
    - intros i j x Hi Hj G. specialize (G1 i j Hi Hj). rewrite G in G1. cbn [option_map] in G1. rewrite scaled_mul in G1.
      rewrite (G2 i j (mul beta x) Hi Hj G1). f_equal. apply (sr_add_comm O L).
    - intros p Hp. rewrite U2, U1; auto.
  Qed.
  Lemma gemm_zero l d n m alpha beta a b C ldc C1 :
    alpha = zero -> scaled_mat l d n beta C ldc C1 -> gemm_result O l d n m alpha beta a b C ldc C1.
  Proof using L.
    intros -> (L1 & G1 & U1). split; [congruence|]. split; [|auto].
    intros i j x Hi Hj G. specialize (G1 i j Hi Hj). rewrite G in G1. cbn [option_map] in G1. rewrite scaled_mul in G1. rewrite G1.
    rewrite (sr_mul_0_l O L), (sr_add_0_l O L). reflexivity.
  Qed.
  Lemma gemm_ext l d n m alpha beta a b a' b' C ldc C' :
    (forall i k, 0 <= i < d -> 0 <= k < m -> a i k = a' i k) -> (forall k j, 0 <= k < m -> 0 <= j < n -> b k j = b' k j) ->
    gemm_result O l d n m alpha beta a b C ldc C' -> gemm_result O l d n m alpha beta a' b' C ldc C'.
  Proof using Type.
    intros Ha Hb (A1 & A2 & A3). split; [exact A1|]. split; [|exact A3]. intros i j x Hi Hj G. rewrite (A2 i j x Hi Hj G). do 3 f_equal.
    apply sumT_ext. intros k Hk. apply in_range in Hk. now rewrite Ha, Hb by lia.
  Qed.

  Variable ssort : (Z * Z * T -> Z * Z * T -> bool) -> list (Z * Z * T) -> list (Z * Z * T).
  Hypothesis Hsort : sort_ok ssort.

  Lemma same_coo_valid (M M' : coo_matrix T) : co_base M = BZero -> valid_coo M -> same_coo M M' -> valid_coo M'.
  Proof using Type.
    intros Hb (Hr & Hc & Hn & Lv & Ir & Ic) (A1 & A2 & A3 & A4 & A5 & A6 & (B1 & B2 & B3 & B4) & P). rewrite Hb in *. cbn [off] in *.
    unfold valid_coo. rewrite A1, A2, A4, A5, ?Hb. cbn [off]. do 3 (split; [assumption|]). rewrite A4 in *. split; [assumption|].
    unfold stored in P. rewrite A4 in P. exact (triples_idx_ok _ _ _ _ _ _ _ _ _ Hn Ir Ic Lv B3 B4 B2 P).
  Qed.
  Lemma same_sp_refl (A : spmat T) : valid_sp A -> same_sp A A.
  Proof using Type. destruct A; cbn; intros H; auto. destruct H. do 6 (split; [reflexivity|]). auto. Qed.

  Theorem left_notrans_spec sched nt l opB d n m alpha A ro co B ldb beta C ldc :
    valid_schedule sched -> valid_sp A -> sp_base A = BZero -> 0 <= d -> 0 <= n -> 0 <= m -> window_ok A d m ro co ->
    (alpha = zero \/ sp_safe nt l NoTrans opB d n m A ro co) ->
    fits_buffer l ldb (rows_before opB m n) (cols_before opB m n) (zlen B) -> fits_buffer l ldc d n (zlen C) ->
    exists A' C', left_spmm_notrans O sched ssort nt nt l opB d n m alpha A ro co B ldb beta C ldc = Ok (A', C') /\
      same_sp A A' /\
      gemm_result O l d n m alpha beta (fun i k => sp_entry O A (ro + i) (co + k)) (op_ent opB (cell O l ldb B)) C ldc C'.
  Proof using L Hsort.
    intros Hs HA Hb Hd Hn Hm Hw Hsafe FB FC. unfold left_spmm_notrans. rewrite Hb. cbn [base_eqb]. rewrite require_true. cbn [bind].
    replace (match A with SpCoo M => req (co_nr M >=? d) ;; req (co_nc M >=? m) ;; Ok tt
       | SpCsr M => req (cr_nr M =? d) ;; req (cr_nc M =? m) ;; req (ro =? 0) ;; req (co =? 0) ;; Ok tt
       | SpCsc M => req (cc_nr M =? d) ;; req (cc_nc M =? m) ;; req (ro =? 0) ;; req (co =? 0) ;; Ok tt end) with (Ok tt).
    2: { destruct A; cbn [window_ok sp_rows sp_cols] in Hw.
         - replace (co_nr M >=? d) with true by (symmetry; apply Z.geb_le; lia). replace (co_nc M >=? m) with true by (symmetry; apply Z.geb_le; lia). reflexivity.
         - destruct Hw as (-> & -> & -> & ->). now rewrite !Z.eqb_refl.
         - destruct Hw as (-> & -> & -> & ->). now rewrite !Z.eqb_refl. }
    cbn [bind].
    set (lopB := match opB with NoTrans => l | Trans => flip l end).
    replace (match opB with NoTrans => (m, n, l) | Trans => (n, m, flip l) end) with (rows_before opB m n, cols_before opB m n, lopB) by (now destruct opB).
    cbn beta iota.
    destruct (scale_output_spec l (rows_before opB m n) (cols_before opB m n) d n ldb beta C ldc Hd Hn (proj1 FB) FC) as (C1 & -> & HC1). cbn [bind].
    destruct (o_eqb O alpha zero) eqn:Ea.
    { apply (sr_eqb O L) in Ea. exists A, C1. split; [reflexivity|]. split; [now apply same_sp_refl|]. now apply gemm_zero. }
    assert (Na : alpha <> zero) by (intros E; apply (sr_eqb O L) in E; congruence).
    destruct Hsafe as [H|Hsafe]; [contradiction|].
    assert (FB' : fits_buffer lopB ldb m n (zlen B)) by (unfold lopB; destruct opB; [exact FB|apply fits_flip; exact FB]).
    assert (EB : forall k j, cell O lopB ldb B k j = op_ent opB (cell O l ldb B) k j).
    { intros k j. unfold lopB. destruct opB; [reflexivity|]. cbn [op_ent]. unfold cell. now rewrite addr_flip. }
    assert (FC1 : fits_buffer l ldc d n (zlen C1)) by (destruct HC1 as [-> _]; exact FC).
    assert (Erow : layout_eqb lopB RowMajor && layout_eqb l RowMajor = rowwise l opB) by (unfold lopB, rowwise; now destruct l, opB).
    rewrite Erow.
    destruct A as [M|M|M]; cbn [window_ok sp_rows sp_cols valid_sp sp_base sp_safe] in *.
    - destruct HA as [HV Hh].
      destruct (coo_left_jki_spec O L ssort Hsort sched alpha lopB l d n m M ro co B ldb C1 ldc Hs (valid_coo_arrays M HV) Hh Hb Hn Hm Hsafe FB' FC1) as (M' & C2 & -> & HM & Hh' & Ad).
      cbn [bind]. exists (SpCoo M'), C2. split; [reflexivity|]. split.
      + pose proof (same_coo_valid M M' Hb HV HM) as HV'. destruct HM as (A1 & A2 & A3 & A4 & A5 & A6 & _ & P). cbn [same_sp]. auto 10.
      + eapply gemm_ext; [| |eapply gemm_from; [exact FC|exact HC1|exact Ad]]; [reflexivity|auto].
    - destruct Hw as (<- & <- & -> & ->). destruct (rowwise l opB) eqn:Er.
      + assert (l = RowMajor /\ lopB = RowMajor) as [El Elb] by (unfold rowwise in Er; unfold lopB; destruct l, opB; try discriminate; auto). rewrite El, Elb in *.
        destruct (csr_left_ikb_spec O L sched alpha (cr_nr M) n (cr_nc M) M B ldb C1 ldc Hs HA Hb eq_refl eq_refl Hn FB' FC1) as (C2 & -> & Ad).
        cbn [bind]. eexists _, _. split; [reflexivity|]. split; [reflexivity|].
        eapply gemm_ext; [| |eapply gemm_from; [exact FC|exact HC1|exact Ad]]; [reflexivity|auto].
      + destruct Hsafe as [H|Hsafe]; [congruence|].
        destruct (csr_left_jik_spec O L sched alpha lopB l (cr_nr M) n (cr_nc M) M B ldb C1 ldc Hs HA Hb eq_refl eq_refl Hn Hsafe FB' FC1) as (C2 & -> & Ad).
        cbn [bind]. eexists _, _. split; [reflexivity|]. split; [reflexivity|].
        eapply gemm_ext; [| |eapply gemm_from; [exact FC|exact HC1|exact Ad]]; [reflexivity|auto].
    - destruct Hw as (<- & <- & -> & ->). unfold csc_safe in Hsafe. destruct (rowwise l opB) eqn:Er.
      + assert (l = RowMajor /\ lopB = RowMajor) as [El Elb] by (unfold rowwise in Er; unfold lopB; destruct l, opB; try discriminate; auto). rewrite El, Elb in *.
        destruct Hsafe as [H1 H2].
        destruct (csc_left_kib_spec O L sched nt alpha (cc_nr M) n (cc_nc M) M B ldb C1 ldc Hs HA Hb eq_refl eq_refl Hn H1 H2 FB' FC1) as (C2 & -> & Ad).
        cbn [bind]. eexists _, _. split; [reflexivity|]. split; [reflexivity|].
        eapply gemm_ext; [| |eapply gemm_from; [exact FC|exact HC1|exact Ad]]; [reflexivity|auto].
      + destruct (csc_left_jki_spec O L sched alpha lopB l (cc_nr M) n (cc_nc M) M B ldb C1 ldc Hs HA Hb eq_refl eq_refl Hn Hsafe FB' FC1) as (C2 & -> & Ad).
        cbn [bind]. eexists _, _. split; [reflexivity|]. split; [reflexivity|].
        eapply gemm_ext; [| |eapply gemm_from; [exact FC|exact HC1|exact Ad]]; [reflexivity|auto].
  Qed.

  Definition coo_t (M : coo_matrix T) : coo_matrix T :=
    Build_coo_matrix (co_nc M) (co_nr M) false (co_nnz M) (co_base M) (co_vals M) (co_cols M) (co_rows M)
      (match co_sort M with SCSC => SCSR | SCSR => SCSC | SNone => SNone end).
  Lemma coo_transpose_eq M : coo_transpose M = Ok (coo_t M). Proof. reflexivity. Qed.
  Lemma ordered_flip nnz r c : ordered le_csr nnz r c <-> ordered le_csc nnz c r.
  Proof. unfold ordered, le_csr, le_csc. split; intros H p q r1 c1 r2 c2 Hp Hq G1 G2 G3 G4; specialize (H p q c1 r1 c2 r2 Hp Hq G2 G1 G4 G3); cbn in *; lia. Qed.
  Lemma stored_t M : Permutation (stored (coo_t M)) (map (fun '(r, c, v) => (c, r, v)) (stored M)).
  Proof.
    unfold stored, coo_triples. cbn [coo_t co_nnz co_rows co_cols co_vals]. induction (range 0 (co_nnz M)) as [|e l IH]; [constructor|].
    cbn [flat_map]. rewrite map_app. apply Permutation_app; [|exact IH]. destruct (get (arrv (co_cols M)) e), (get (arrv (co_rows M)) e), (get (arrv (co_vals M)) e); reflexivity.
  Qed.

  Theorem left_spec sched nt l opA opB d n m alpha A ro co B ldb beta C ldc :
    valid_schedule sched -> valid_sp A -> sp_base A = BZero -> 0 <= d -> 0 <= n -> 0 <= m ->
    window_ok A (rows_before opA d m) (cols_before opA d m) ro co ->
    (alpha = zero \/ sp_safe nt l opA opB d n m A ro co) ->
    fits_buffer l ldb (rows_before opB m n) (cols_before opB m n) (zlen B) -> fits_buffer l ldc d n (zlen C) ->
    exists A' C', left_spmm O sched ssort nt nt l opA opB d n m alpha A ro co B ldb beta C ldc = Ok (A', C') /\
      same_sp A A' /\
      gemm_result O l d n m alpha beta (op_ent opA (fun i k => sp_entry O A (ro + i) (co + k))) (op_ent opB (cell O l ldb B)) C ldc C'.
  Proof using L Hsort.
    intros Hs HA Hb Hd Hn Hm Hw Hsafe FB FC. destruct opA; cbn [rows_before cols_before op_ent left_spmm] in *.
    { now apply left_notrans_spec. }
    destruct A as [M|M|M]; cbn [window_ok sp_rows sp_cols valid_sp sp_base sp_safe] in *.
    - destruct HA as [HV Hh]. rewrite coo_transpose_eq. cbn [bind].
      assert (Hh' : honest_sort (coo_t M)).
      { unfold honest_sort in *. cbn [coo_t co_sort co_nnz co_rows co_cols]. destruct (co_sort M); [apply ordered_flip|apply ordered_flip|]; exact Hh. }
      assert (HV' : valid_coo (coo_t M)).
      { destruct HV as (Hr & Hc & Hnz & Lv & Ir & Ic). unfold valid_coo. cbn [coo_t co_nr co_nc co_nnz co_base co_rows co_cols co_vals]. auto 10. }
      destruct (left_notrans_spec sched nt l opB d n m alpha (SpCoo (coo_t M)) co ro B ldb beta C ldc) as (A' & C' & -> & HA' & HG);
        try assumption; try (split; assumption).
      { cbn [window_ok coo_t co_nr co_nc]. tauto. }
      cbn [bind]. destruct A' as [Mt'| |]; try contradiction. cbn [same_sp] in HA'. destruct HA' as (A1 & A2 & A3 & A4 & A5 & A6 & A7 & A8 & P).
      eexists _, _. split; [reflexivity|]. split.
      + cbn [same_sp co_nr co_nc co_own co_nnz co_base co_sort]. do 6 (split; [reflexivity|]).
        cbn [coo_t co_nr co_nc co_own co_nnz co_base co_sort] in A1, A2, A3, A4, A5, A6.
        split; [|split].
        * unfold honest_sort in *. cbn [co_sort co_nnz co_rows co_cols]. rewrite A6, A4 in A7. destruct (co_sort M); [apply ordered_flip|apply ordered_flip|]; exact A7.
        * destruct A8 as (V1 & V2 & V3 & V4 & V5 & V6). unfold valid_coo. cbn [co_nr co_nc co_nnz co_base co_rows co_cols co_vals].
          rewrite A1, A2, A4, A5 in *. auto 10.
        * set (M' := Build_coo_matrix (co_nr M) (co_nc M) (co_own M) (co_nnz M) (co_base M) (co_vals Mt') (co_cols Mt') (co_rows Mt') (co_sort M)).
          assert (St : stored (coo_t M') = stored Mt') by (unfold stored; cbn [coo_t M' co_nnz co_rows co_cols co_vals]; now rewrite A4).
          assert (Q : Permutation (map (fun '(r, c, v) => (c, r, v)) (stored M)) (map (fun '(r, c, v) => (c, r, v)) (stored M'))).
          { rewrite <- !stored_t, St. exact P. }
          apply (Permutation_map (fun '(r, c, v) => (c, r, v) : Z * Z * T)) in Q.
          assert (Inv : forall l : list (Z * Z * T), map (fun '(r, c, v) => (c, r, v)) (map (fun '(r, c, v) => (c, r, v)) l) = l).
          { intros l0. rewrite map_map. rewrite <- (map_id l0) at 2. apply map_ext. intros [[? ?] ?]. reflexivity. }
          rewrite !Inv in Q. exact Q.
      + eapply gemm_ext; [| |exact HG]; [|auto]. intros i k Hi Hk. unfold sp_entry, coo_at. cbn [coo_t co_nnz co_base co_rows co_cols co_vals].
        now rewrite coo_values_swap.
    - cbn [transpose_as_csc bind].
      destruct (left_notrans_spec sched nt l opB d n m alpha (SpCsc (Build_csc_matrix (cr_nc M) (cr_nr M) false (cr_nnz M) (cr_base M) (cr_vals M) (cr_idx M) (cr_ptr M))) co ro B ldb beta C ldc)
        as (A' & C' & -> & HA' & HG); try assumption.
      { destruct HA as (V1 & V2 & V3 & V4 & V5 & V6). unfold valid_sp, valid_csc. cbn [cc_nr cc_nc cc_nnz cc_base cc_vals cc_idx cc_ptr]. auto 10. }
      { cbn [window_ok sp_rows sp_cols cc_nr cc_nc]. tauto. }
      cbn [bind]. eexists _, _. split; [reflexivity|]. split; [reflexivity|]. eapply gemm_ext; [| |exact HG]; auto.
    - cbn [transpose_as_csr bind].
      destruct (left_notrans_spec sched nt l opB d n m alpha (SpCsr (Build_csr_matrix (cc_nc M) (cc_nr M) false (cc_nnz M) (cc_base M) (cc_vals M) (cc_ptr M) (cc_idx M))) co ro B ldb beta C ldc)
        as (A' & C' & -> & HA' & HG); try assumption.
      { destruct HA as (V1 & V2 & V3 & V4 & V5 & V6). unfold valid_sp, valid_csr. cbn [cr_nr cr_nc cr_nnz cr_base cr_vals cr_idx cr_ptr]. auto 10. }
      { cbn [window_ok sp_rows sp_cols cr_nr cr_nc]. tauto. }
      cbn [bind]. eexists _, _. split; [reflexivity|]. split; [reflexivity|]. eapply gemm_ext; [| |exact HG]; auto.
  Qed.
End Dispatch.
