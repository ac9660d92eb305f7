(** Transfer of sparse products between two scalar types (see ParamProofs.v). *)
From Coq Require Import Permutation.
From Verif Require Import Base Interleave Spec SparseSkopModel SparseSpec SparseProofs SpFmtModel SpFmtSpec SpFmtProofs SpFmtProofs2 SpFmtProofs3 SpFmtProofs4 SpFmtProofs5 SpmmModel SpmmSpec SpmmProofs SpmmProofs2 SpmmProofs3
  SpmmProofs4 SpmmProofs5 SpmmProofs6 RoundSpec ParamProofs PropsSpFmt.

Section MapSp.
  Context {T U : Type}.
  Variable f : T -> U.
  Definition map_arr (v : option (list T)) : option (list U) := option_map (map f) v.
  Definition map_coo (M : coo_matrix T) : coo_matrix U :=
    Build_coo_matrix (co_nr M) (co_nc M) (co_own M) (co_nnz M) (co_base M) (map_arr (co_vals M)) (co_rows M) (co_cols M) (co_sort M).
  Definition map_csr (M : csr_matrix T) : csr_matrix U :=
    Build_csr_matrix (cr_nr M) (cr_nc M) (cr_own M) (cr_nnz M) (cr_base M) (map_arr (cr_vals M)) (cr_ptr M) (cr_idx M).
  Definition map_csc (M : csc_matrix T) : csc_matrix U :=
    Build_csc_matrix (cc_nr M) (cc_nc M) (cc_own M) (cc_nnz M) (cc_base M) (map_arr (cc_vals M)) (cc_idx M) (cc_ptr M).
  Definition map_sp (A : spmat T) : spmat U := match A with SpCoo M => SpCoo (map_coo M) | SpCsr M => SpCsr (map_csr M) | SpCsc M => SpCsc (map_csc M) end.

  Lemma arrv_map v : arrv (map_arr v) = map f (arrv v). Proof. destruct v; reflexivity. Qed.
  Lemma zlen_arrv_map v : zlen (arrv (map_arr v)) = zlen (arrv v). Proof. rewrite arrv_map. apply zlen_map. Qed.
  Lemma slice_values_map ptr idx v i j : slice_values ptr idx (map f v) i j = map f (slice_values ptr idx v i j).
  Proof.
    unfold slice_values. destruct (get ptr i), (get ptr (i + 1)); try reflexivity. rewrite !flat_map_concat_map, concat_map, map_map. f_equal. apply map_ext. intros e.
    rewrite get_map. destruct (get idx e), (get v e); try reflexivity. cbn. destruct (_ =? j); reflexivity.
  Qed.
  Lemma coo_values_map n r c v i j : coo_values n r c (map f v) i j = map f (coo_values n r c v i j).
  Proof.
    unfold coo_values. rewrite !flat_map_concat_map, concat_map, map_map. f_equal. apply map_ext. intros e.
    rewrite get_map. destruct (get r e), (get c e), (get v e); try reflexivity. cbn. destruct (_ && _); reflexivity.
  Qed.
  Lemma stored_map M : stored (map_coo M) = map (fun '(r, c, v) => (r, c, f v)) (stored M).
  Proof.
    unfold stored, coo_triples. cbn [map_coo co_nnz co_rows co_cols co_vals]. rewrite arrv_map. rewrite !flat_map_concat_map, concat_map, map_map. f_equal. apply map_ext. intros e.
    rewrite get_map. destruct (get (arrv (co_rows M)) e), (get (arrv (co_cols M)) e), (get (arrv (co_vals M)) e); reflexivity.
  Qed.
  Lemma at_pos_map A i j : at_pos (map_sp A) i j = map f (at_pos A i j).
  Proof.
    destruct A; cbn [at_pos map_sp]; unfold coo_at, csr_at, csc_at; cbn [map_coo map_csr map_csc co_nnz co_rows co_cols co_vals co_base cr_ptr cr_idx cr_vals cr_base cc_ptr cc_idx cc_vals cc_base]; rewrite arrv_map;
      [apply coo_values_map|apply slice_values_map|apply slice_values_map].
  Qed.
  Lemma valid_map A : valid_sp A -> valid_sp (map_sp A).
  Proof.
    destruct A as [M|M|M]; cbn [valid_sp map_sp].
    - intros [(V1 & V2 & V3 & V4 & V5 & V6) Hh]. split; [|exact Hh]. unfold valid_coo. cbn [map_coo co_nr co_nc co_nnz co_base co_vals co_rows co_cols]. rewrite zlen_arrv_map. auto 10.
    - intros (V1 & V2 & V3 & V4 & V5 & V6). unfold valid_csr. cbn [map_csr cr_nr cr_nc cr_nnz cr_base cr_vals cr_idx cr_ptr]. rewrite zlen_arrv_map. auto 10.
    - intros (V1 & V2 & V3 & V4 & V5 & V6). unfold valid_csc. cbn [map_csc cc_nr cc_nc cc_nnz cc_base cc_vals cc_idx cc_ptr]. rewrite zlen_arrv_map. auto 10.
  Qed.
  Lemma base_map A : sp_base (map_sp A) = sp_base A. Proof. destruct A; reflexivity. Qed.
  Lemma window_map A d m ro co : window_ok A d m ro co -> window_ok (map_sp A) d m ro co. Proof. destruct A; exact (fun H => H). Qed.
  Lemma safe_map nt l opB d n m A ro co : sp_safe nt l NoTrans opB d n m A ro co -> sp_safe nt l NoTrans opB d n m (map_sp A) ro co.
  Proof.
    destruct A as [M|M|M]; cbn [sp_safe map_sp]; auto. unfold coo_safe, window_count. cbn [map_coo co_nnz]. rewrite stored_map.
    assert (E : zlen (filter (in_window ro co d m) (map (fun '(r, c, v) => (r, c, f v)) (stored M))) = zlen (filter (in_window ro co d m) (stored M))).
    { induction (stored M) as [|[[r c] v] s IH]; [reflexivity|]. cbn [map filter in_window]. destruct (_ && _ && _ && _); [|exact IH]. rewrite !zlen_cons. now rewrite IH. }
    rewrite E. intros [H|[H|[H|[H [(r & c & v & Hin & W)|H']]]]]; auto 10. right; right; right. split; [exact H|]. left. exists r, c, (f v). split; [|exact W].
    apply in_map_iff. exists (r, c, v). auto.
  Qed.
End MapSp.

(** The natural numbers, used to tell which elements of C a product leaves alone. *)
Definition nops : ops nat := {| o_add := Nat.add; o_mul := Nat.mul; o_zero := 0%nat; o_one := 1%nat; o_eqb := Nat.eqb |}.
Lemma nops_semiring : semiring nops.
Proof.
  constructor; cbn [nops o_add o_mul o_zero o_one o_eqb]; intros.
  1-8: nia. apply Nat.eqb_eq.
Qed.

Section Frame.
  Context {T : Type}.
  Variable O : ops T.
  Variables (alpha beta : T).
  Hypothesis H01 : o_eqb O alpha (o_zero O) = true -> o_eqb O alpha (o_one O) = false.
  Variable ss : (Z * Z * T -> Z * Z * T -> bool) -> list (Z * Z * T) -> list (Z * Z * T).

  Definition na : nat := if o_eqb O alpha (o_zero O) then 0%nat else if o_eqb O alpha (o_one O) then 1%nat else 2%nat.
  Definition nb : nat := if o_eqb O beta (o_zero O) then 0%nat else 2%nat.
  Definition two (_ : T) : nat := 2%nat.
  (** The mark 1 is on elements that hold x0. *)
  Definition marked (x0 x : T) (t : nat) : Prop := t = 1%nat -> x = x0.
  Definition unmarked (_ : T) (t : nat) : Prop := (2 <= t)%nat.
  Fixpoint mark (C : list T) (p : nat) : list nat :=
    match C, p with [], _ => [] | _ :: C, 0%nat => 1%nat :: map (fun _ => 0%nat) C | _ :: C, Datatypes.S p => 0%nat :: mark C p end.
  Lemma mark_rel C : forall p x0, nth_error C p = Some x0 -> Forall2 (marked x0) C (mark C p).
  Proof.
    induction C as [|x C IH]; intros p x0 E; [constructor|]. destruct p; cbn [mark nth_error] in *.
    - injection E as ->. constructor; [now intros _|]. clear. induction C; constructor; auto. discriminate.
    - constructor; [discriminate|]. now apply IH.
  Qed.
  Lemma mark_nth C : forall p, (p < length C)%nat -> nth_error (mark C p) p = Some 1%nat.
  Proof. induction C as [|x C IH]; intros p H; cbn in H; [lia|]. destruct p; cbn [mark nth_error]; [reflexivity|]. apply IH. lia. Qed.
  Lemma mark_len C : forall p, length (mark C p) = length C.
  Proof. induction C as [|x C IH]; intros p; [reflexivity|]. destruct p; cbn [mark length]; [now rewrite map_length|now rewrite IH]. Qed.

  (** Column by column, only cells (row, j) with a stored row are written. *)
  Lemma mapM_Forall {A B} (f : A -> outcome B) (Q : B -> Prop) l ys : (forall x y, In x l -> f x = Ok y -> Q y) -> mapM f l = Ok ys -> Forall Q ys.
  Proof using Type.
    revert ys. induction l as [|x l IH]; intros ys H E; cbn [mapM] in E; [injection E as <-; constructor|].
    apply bind_Ok in E as (y & E1 & E). apply bind_Ok in E as (ys' & E2 & E). injection E as <-. constructor; [eapply H; eauto; now left|]. apply IH; auto. intros; eapply H; eauto; now right.
  Qed.
  Lemma for_Ok_inv {S} (J : S -> Prop) lo hi body (s s' : S) : (forall i s s', J s -> body i s = Ok s' -> J s') -> J s -> for_ lo hi body s = Ok s' -> J s'.
  Proof using Type.
    intros H. unfold for_. revert s. induction (range lo hi) as [|i l IH]; intros s Hs E; cbn [foldM] in E; [injection E as <-; exact Hs|].
    apply bind_Ok in E as (s1 & E1 & E). eapply IH; [|exact E]. eapply H; eauto.
  Qed.
  Lemma rdp_In {A} (a : option (list A)) i x : rdp a i = Ok x -> In x (arrv a).
  Proof using Type. destruct a as [a|]; cbn [rdp arrv]; [|discriminate]. intros H. apply rd_get in H. apply get_In. eauto. Qed.
  Lemma at_cell_none {E} (us : list (Z * E)) p : Forall (fun u => fst u <> p) us -> at_cell p us = [].
  Proof using Type. unfold at_cell. induction 1 as [|u us Hu _ IH]; [reflexivity|]. cbn [filter]. destruct (Z.eqb_spec (fst u) p); [contradiction|exact IH]. Qed.
  Lemma columns_frame fixed v idx ptr lB lC d n m B ldb C ldc C' : (forall r, In r (arrv idx) -> 0 <= r < d) ->
    csc_columns O seq_schedule fixed v idx ptr lB lC n m B ldb C ldc = Ok C' ->
    forall p, (forall i j, 0 <= i < d -> 0 <= j < n -> addr lC ldc i j <> p) -> get C' p = get C p.
  Proof using Type.
    intros Hi. unfold csc_columns. destruct (layout_to_strides lB ldb) as [b1 b2]. pose proof (addr_strides lC ldc) as AS. destruct (layout_to_strides lC ldc) as [c1 c2].
    intros E p Hp. apply bind_Ok in E as (tasks & E1 & E).
    assert (G : Forall (Forall (fun u : Z * list T => fst u <> p)) tasks).
    { eapply mapM_Forall; [|exact E1]. intros j us Hj Eu. apply in_range in Hj. cbn beta in Eu.
      assert (Row : forall e row, rdp idx e = Ok row -> c2 * j + row * c1 <> p). { intros e row Er. apply rdp_In in Er. specialize (AS row j). cbn in AS. rewrite AS. apply Hp; auto. }
      destruct fixed.
      - apply bind_Ok in Eu as (q & _ & Eu). unfold regular_csc_vector_ki in Eu. apply bind_Ok in Eu as (uss & E2 & Eu). injection Eu as <-. apply Forall_concat.
        eapply mapM_Forall; [|exact E2]. intros c us _ Ec. apply bind_Ok in Ec as (x & _ & Ec). eapply mapM_Forall; [|exact Ec]. intros e u _ Ee. apply bind_Ok in Ee as (row & Er & Ee). apply bind_Ok in Ee as (y & _ & Ee). injection Ee as <-. cbn [fst]. eauto.
      - unfold csc_vector_ki in Eu. apply bind_Ok in Eu as ([i us'] & E2 & Eu). injection Eu as <-.
        refine (for_Ok_inv (fun s : Z * list (Z * list T) => Forall (fun u => fst u <> p) (snd s)) 0 m _ (0, []) (i, us') _ (Forall_nil _) E2). intros c [i0 us0] [i1 us1] H0 Ec. cbn [snd] in *.
        apply bind_Ok in Ec as (x & _ & Ec). apply bind_Ok in Ec as (hi & _ & Ec). apply bind_Ok in Ec as (new & En & Ec). injection Ec as <- <-. apply Forall_app. split; [exact H0|].
        eapply mapM_Forall; [|exact En]. intros e u _ Ee. apply bind_Ok in Ee as (row & Er & Ee). apply bind_Ok in Ee as (y & _ & Ee). injection Ee as <-. cbn [fst]. eauto. }
    unfold omp_exec in E. destruct (race_free tasks); [|discriminate]. unfold seq_schedule in E. destruct (exec_Ok (acc O) (concat tasks) C) as (C2 & E2 & _ & G2). { eapply exec_Ok_inv; eauto. }
    pose proof (eq_trans (eq_sym E) E2) as E3. injection E3 as <-. rewrite G2. rewrite at_cell_none; [destruct (get C p); reflexivity|]. now apply Forall_concat.
  Qed.
  Lemma coo_sorted_frame lB lC d n m M ro co B ldb C ldc C' : coo_arrays M -> 0 <= m -> 0 < window_count M ro co d m ->
    coo_left_sorted O seq_schedule alpha lB lC d n m M ro co B ldb C ldc = Ok C' ->
    forall p, (forall i j, 0 <= i < d -> 0 <= j < n -> addr lC ldc i j <> p) -> get C' p = get C p.
  Proof using Type.
    clear H01 ss. intros (Hn & Lv & Lr & Lc) Hm Hw. unfold coo_left_sorted.
    destruct (set_filtered_spec (co_vals M) (co_rows M) (co_cols M) (co_nnz M) m d ro co
       (repeat (o_zero O) (Z.to_nat (co_nnz M))) (repeat 0 (Z.to_nat (co_nnz M))) (repeat 0 (Z.to_nat (Z.max (co_nnz M) (m + 1)))))
      as (k & v1 & r1 & c1 & -> & Hk & L1 & L2 & L3 & Hpad & Htr); try (rewrite ?zlen_repeat; lia). cbn [bind].
    rewrite zlen_repeat in L1. rewrite zlen_repeat in L2. rewrite zlen_repeat in L3. rewrite Z2Nat.id in L1, L2, L3 by lia. fold (stored M) in Htr.
    assert (Pd : 0 < d). { unfold window_count in Hw. destruct (filter (in_window ro co d m) (stored M)) as [|[[r c] v] w] eqn:Ef; [cbn in Hw; lia|].
      assert (Hin : In (r, c, v) (filter (in_window ro co d m) (stored M))) by (rewrite Ef; now left). apply filter_In in Hin as [_ W]. unfold in_window in W. lia. }
    intros E. apply bind_Ok in E as (v2 & _ & E). apply bind_Ok in E as (ptr & _ & E). apply bind_Ok in E as (fx & _ & E).
    refine (columns_frame _ _ _ _ _ _ d _ _ _ _ _ _ _ _ E). cbn [arrv]. intros r Hr. apply get_In in Hr as [e Gr]. pose proof (get_Some_lt _ _ _ Gr) as Be.
    destruct (Z.lt_ge_cases e k) as [Lt|Ge].
    - destruct (get_lt c1 e ltac:(lia)) as [c Gc]. destruct (get_lt v1 e ltac:(lia)) as [v Gv].
      assert (G : get (coo_triples k r1 c1 v1) e = Some (r, c, v)) by (apply get_coo_triples; auto; lia).
      rewrite Htr, get_map in G. destruct (get (filter (in_window ro co d m) (stored M)) e) as [[[r0 c0] v0]|] eqn:E0; [|discriminate].
      cbn in G. injection G as <- <- <-. assert (In (r0, c0, v0) (filter (in_window ro co d m) (stored M))) as Hin by (apply get_In; eauto).
      apply filter_In in Hin as [_ W]. unfold in_window in W. lia.
    - destruct (Hpad e Ge) as (_ & Gp & _). rewrite Gr, get_repeat in Gp by lia. injection Gp as ->. lia.
  Qed.

  Lemma basic_frame nt l opB d n m A ro co B ldb C ldc A' C' :
    valid_sp A -> sp_base A = BZero -> 0 <= d -> 0 <= n -> 0 <= m -> window_ok A d m ro co ->
    (o_eqb O alpha (o_zero O) = true \/ sp_safe nt l NoTrans opB d n m A ro co) ->
    (match A with SpCoo M => co_sort M = SCSC | _ => True end) ->
    fits_buffer l ldb (rows_before opB m n) (cols_before opB m n) (zlen B) -> fits_buffer l ldc d n (zlen C) ->
    left_spmm_notrans O seq_schedule ss nt nt l opB d n m alpha A ro co B ldb beta C ldc = Ok (A', C') ->
    forall p, (forall i j, 0 <= i < d -> 0 <= j < n -> addr l ldc i j <> p) -> get C' p = get C p.
  Proof using H01.
    intros HV HB Hd Hn Hm HW HS HT0 FB FC E p Hp.
    assert (HT : match A with SpCoo M => co_sort M = SCSC /\ (o_eqb O alpha (o_zero O) = true \/ coo_tight M ro co d n m) | _ => True end \/ exists M, A = SpCoo M /\ o_eqb O alpha (o_zero O) = false /\ 0 < window_count M ro co d m).
    { destruct A as [M|M|M]; [|now left..]. destruct (o_eqb O alpha (o_zero O)); [left; auto|]. assert (0 <= window_count M ro co d m) by (unfold window_count; apply zlen_nonneg).
      destruct (Z.eq_dec (window_count M ro co d m) 0) as [H0|]; [left; split; [exact HT0|]; right; right; right; left; exact H0|right; exists M; split; [reflexivity|]; split; [reflexivity|lia]]. }
    destruct HT as [HT|(M & -> & N0 & Hw)].
    2: { revert E. unfold left_spmm_notrans. cbn [sp_base] in *. rewrite HB. destruct (require _); cbn [bind]; try discriminate.
      match goal with |- (bind ?a _ = _) -> _ => destruct a; cbn [bind]; try discriminate end.
      match goal with |- context [let '(_, _) := match opB with NoTrans => (m, n, l) | Trans => (n, m, flip l) end in _] => replace (match opB with NoTrans => (m, n, l) | Trans => (n, m, flip l) end) with (rows_before opB m n, cols_before opB m n, match opB with NoTrans => l | Trans => flip l end) by (now destruct opB) end.
      destruct (scale_output_spec O l (rows_before opB m n) (cols_before opB m n) d n ldb beta C ldc Hd Hn (proj1 FB) FC) as (C1 & -> & _ & _ & F1). cbn [bind]. rewrite N0. unfold coo_left_jki. rewrite HT0. cbn [sort_eqb negb].
      intros E. apply bind_Ok in E as ([M1 C2] & E1 & E). injection E as <- <-. apply bind_Ok in E1 as (_ & _ & E1). apply bind_Ok in E1 as (C3 & E1 & E2). injection E2 as <- <-.
      rewrite (coo_sorted_frame _ _ _ _ _ _ _ _ _ _ _ _ _ (valid_coo_arrays M (proj1 HV)) Hm Hw E1 p Hp). now apply F1. }
    assert (HC : forall (X : list nat), length X = length C -> exists A2 C2, left_spmm_notrans nops seq_schedule (@isort _) nt nt l opB d n m na (map_sp two A) ro co (map two B) ldb nb X ldc = Ok (A2, C2) /\ zlen C2 = zlen X /\ get C2 p = get X p).
    { intros X LX. destruct (left_notrans_spec nops nops_semiring (@isort _) (isort_ok _) seq_schedule nt l opB d n m na (map_sp two A) ro co (map two B) ldb nb X ldc) as (A2 & C2 & E2 & _ & L2 & _ & G2); try (rewrite ?zlen_map; assumption).
      - apply seq_schedule_valid.
      - now apply valid_map.
      - now rewrite base_map.
      - now apply window_map.
      - destruct HS as [HS|HS]; [left; unfold na; now rewrite HS|right; now apply safe_map].
      - unfold zlen in *. now rewrite LX.
      - exists A2, C2. auto. }
    assert (REL : forall (R1 : T -> nat -> Prop), (forall x t, unmarked x t -> R1 x t) -> R1 (o_zero O) 0%nat -> (o_eqb O beta (o_zero O) = false -> forall x t, R1 x t -> R1 (o_mul O beta x) (nb * t)%nat) ->
      forall X, Forall2 R1 C X -> exists C2, Forall2 R1 C' C2 /\ get C2 p = get X p).
    { intros R1 H1 H2 H3 X HX. destruct (HC X) as (A2 & C2 & E2 & L2 & G2). { clear - HX. induction HX; cbn; congruence. }
      pose proof (left_notrans_rel O nops R1 unmarked H1 R1 (fun x t h => h) H2) as Q.
      specialize (Q ltac:(intros x t y s Hx Hy; unfold unmarked in *; cbn [nops o_mul]; nia) ltac:(intros x t y s Hx Hy; unfold unmarked in *; cbn [nops o_add]; lia)).
      specialize (Q alpha beta na nb).
      assert (Ea0 : o_eqb O alpha (o_zero O) = o_eqb nops na (o_zero nops)). { unfold na. destruct (o_eqb O alpha (o_zero O)); [reflexivity|]. now destruct (o_eqb O alpha (o_one O)). }
      assert (Ea1 : o_eqb O alpha (o_one O) = o_eqb nops na (o_one nops)). { unfold na. destruct (o_eqb O alpha (o_zero O)); [now rewrite H01|]. now destruct (o_eqb O alpha (o_one O)). }
      assert (Ha : o_eqb O alpha (o_zero O) = false -> forall x t, unmarked x t -> unmarked (o_mul O alpha x) (o_mul nops na t)).
      { intros N x t Ht. unfold unmarked, na in *. rewrite N. cbn [nops o_mul]. destruct (o_eqb O alpha (o_one O)); lia. }
      assert (Eb0 : o_eqb O beta (o_zero O) = o_eqb nops nb (o_zero nops)). { unfold nb. now destruct (o_eqb O beta (o_zero O)). }
      specialize (Q Ea0 Ea1 Ha Eb0 H3 ss (@isort _) nt nt l opB d n m A (map_sp two A) ro co B (map two B) ldb C X ldc).
      assert (HBB : Forall2 unmarked B (map two B)) by (clear; induction B; constructor; auto; unfold unmarked, two; lia).
      assert (HAA : sp_rel unmarked A (map_sp two A)).
      { assert (V : forall v, opt_rel unmarked v (map_arr two v)) by (intros [v|]; cbn; auto; clear; induction v; constructor; auto; unfold unmarked, two; lia).
        destruct A; cbn [sp_rel map_sp]; [unfold coo_rel; cbn [map_coo co_nr co_nc co_nnz co_base co_vals co_rows co_cols co_sort]
         |unfold csr_rel; cbn [map_csr cr_nr cr_nc cr_nnz cr_base cr_vals cr_idx cr_ptr]|unfold csc_rel; cbn [map_csc cc_nr cc_nc cc_nnz cc_base cc_vals cc_idx cc_ptr]]; repeat (split; [reflexivity|]); apply V. }
      specialize (Q HBB HAA Hm). rewrite E, E2 in Q. cbn [orel snd] in Q. exists C2. split; [|exact G2]. apply Q; [|exact HX].
      intros N0. destruct A as [M|M|M]; cbn [sp_tight]; auto. destruct HT as [HT1 [HT2|HT2]]; [congruence|]. split; [|split; [assumption|now right]]. apply valid_coo_arrays. apply HV. }
    destruct (get C p) as [x0|] eqn:G.
    - assert (Pp : 0 <= p < zlen C) by (eapply get_Some_lt; eauto).
      assert (Np : nth_error C (Z.to_nat p) = Some x0). { unfold get in G. replace (p <? 0) with false in G by lia. exact G. }
      destruct (REL (marked x0)) with (X := mark C (Z.to_nat p)) as (C2 & F & G2).
      + intros x t Ht Et. unfold unmarked in Ht. lia.
      + intros Et. discriminate.
      + intros Nb x t _ Et. unfold nb in Et. rewrite Nb in Et. lia.
      + now apply mark_rel.
      + assert (G1 : get (mark C (Z.to_nat p)) p = Some 1%nat). { unfold get. replace (p <? 0) with false by lia. apply mark_nth. unfold zlen in Pp. lia. }
        destruct (get_rel (marked x0) C' C2 p F) as [(y & t & Gy & Gt & Ry)|[_ N]]; [|congruence].
        rewrite Gy. f_equal. apply Ry. congruence.
    - destruct (REL (fun _ _ => True)) with (X := map two C) as (C2 & F & G2); auto.
      + clear. induction C; constructor; auto.
      + rewrite get_map, G in G2. cbn in G2. destruct (get_rel _ C' C2 p F) as [(y & t & Gy & Gt & Ry)|[N _]]; [congruence|exact N].
  Qed.

  Lemma basic_operand nt l opB d n m A ro co B ldb C ldc A' C' :
    (match A with SpCoo M => co_sort M = SCSC | _ => True end) ->
    left_spmm_notrans O seq_schedule ss nt nt l opB d n m alpha A ro co B ldb beta C ldc = Ok (A', C') -> A' = A.
  Proof using Type.
    clear H01. intros Hs. unfold left_spmm_notrans. destruct (require _); cbn [bind]; try discriminate.
    match goal with |- (bind ?a _ = _) -> _ => destruct a; cbn [bind]; try discriminate end.
    match goal with |- ((let '(_, _) := ?a in _) = _) -> _ => destruct a as [[? ?] lop] end.
    destruct (scale_output _ _ _ _ _ _ _ _ _ _) as [C1| |]; cbn [bind]; try discriminate. destruct (o_eqb O alpha (o_zero O)); [intros H; now injection H|].
    destruct A as [M|M|M].
    - unfold coo_left_jki. rewrite Hs. cbn [sort_eqb negb]. destruct (require _); cbn [bind]; try discriminate.
      destruct (coo_left_sorted _ _ _ _ _ _ _ _ _ _ _ _ _ _ _) as [C2| |]; cbn [bind]; try discriminate. intros H. now injection H.
    - match goal with |- (bind ?a _ = _) -> _ => destruct a; cbn [bind]; try discriminate end. intros H. now injection H.
    - match goal with |- (bind ?a _ = _) -> _ => destruct a; cbn [bind]; try discriminate end. intros H. now injection H.
  Qed.
End Frame.

Lemma untranspose_same {T} (M Mt : coo_matrix T) : same_sp (SpCoo (coo_t M)) (SpCoo Mt) ->
  same_sp (SpCoo M) (SpCoo (Build_coo_matrix (co_nr M) (co_nc M) (co_own M) (co_nnz M) (co_base M) (co_vals Mt) (co_cols Mt) (co_rows Mt) (co_sort M))).
Proof.
  intros (A1 & A2 & A3 & A4 & A5 & A6 & A7 & A8 & P). cbn [same_sp co_nr co_nc co_own co_nnz co_base co_sort]. do 6 (split; [reflexivity|]).
  cbn [coo_t co_nr co_nc co_own co_nnz co_base co_sort] in A1, A2, A3, A4, A5, A6.
  split; [|split].
  - unfold honest_sort in *. cbn [co_sort co_nnz co_rows co_cols]. rewrite A6, A4 in A7. destruct (co_sort M); [apply ordered_flip|apply ordered_flip|]; exact A7.
  - destruct A8 as (V1 & V2 & V3 & V4 & V5 & V6). unfold valid_coo. cbn [co_nr co_nc co_nnz co_base co_rows co_cols co_vals].
    rewrite A1, A2, A4, A5 in *. auto 10.
  - set (M1 := Build_coo_matrix (co_nr M) (co_nc M) (co_own M) (co_nnz M) (co_base M) (co_vals Mt) (co_cols Mt) (co_rows Mt) (co_sort M)).
    assert (St : stored (coo_t M1) = stored Mt) by (unfold stored; cbn [coo_t M1 co_nnz co_rows co_cols co_vals]; now rewrite A4).
    assert (Q : Permutation (map (fun '(r, c, v) => (c, r, v)) (stored M)) (map (fun '(r, c, v) => (c, r, v)) (stored M1))).
    { rewrite <- !stored_t, St. exact P. }
    apply (Permutation_map (fun '(r, c, v) => (c, r, v) : Z * Z * T)) in Q.
    assert (Inv : forall l : list (Z * Z * T), map (fun '(r, c, v) => (c, r, v)) (map (fun '(r, c, v) => (c, r, v)) l) = l).
    { intros l0. rewrite map_map. rewrite <- (map_id l0) at 2. apply map_ext. intros [[? ?] ?]. reflexivity. }
    rewrite !Inv in Q. exact Q.
Qed.

Section Transfer.
  Context {T U : Type}.
  Variables (O : ops T) (P : ops U) (R L : T -> U -> Prop).
  Hypothesis SP : semiring P.
  Hypothesis LR : forall x t, L x t -> R x t.
  Hypothesis R0 : R (o_zero O) (o_zero P).
  Hypothesis Lmul : forall x t y s, L x t -> L y s -> L (o_mul O x y) (o_mul P t s).
  Hypothesis Ladd : forall x t y s, R x t -> L y s -> L (o_add O x y) (o_add P t s).
  Variables (alpha beta : T) (alpha' beta' : U).
  Hypothesis Ea0 : o_eqb O alpha (o_zero O) = o_eqb P alpha' (o_zero P).
  Hypothesis Ea1 : o_eqb O alpha (o_one O) = o_eqb P alpha' (o_one P).
  Hypothesis Ha : o_eqb O alpha (o_zero O) = false -> forall x t, L x t -> L (o_mul O alpha x) (o_mul P alpha' t).
  Hypothesis Eb0 : o_eqb O beta (o_zero O) = o_eqb P beta' (o_zero P).
  Hypothesis Hb : o_eqb O beta (o_zero O) = false -> forall x t, L x t -> L (o_mul O beta x) (o_mul P beta' t).
  Variable f : T -> U.
  Hypothesis Lf : forall x, L x (f x).
  Hypothesis P01 : o_eqb P (o_zero P) (o_one P) = false.
  Variable ss : (Z * Z * T -> Z * Z * T -> bool) -> list (Z * Z * T) -> list (Z * Z * T).
  Hypothesis Hss : sort_ok ss.
  Variable su : (Z * Z * U -> Z * Z * U -> bool) -> list (Z * Z * U) -> list (Z * Z * U).
  Hypothesis Hsu : sort_ok su.
  Variable sched : schedule (list T).

  Lemma Forall2_map_f l : Forall2 L l (map f l).
  Proof using Lf. induction l; constructor; auto. Qed.
  Lemma opt_rel_map v : opt_rel L v (map_arr f v).
  Proof using Lf. destruct v; cbn; auto. apply Forall2_map_f. Qed.

  (** Entry (i,j) of the result on the U side. *)
  Definition want (a : Z -> Z -> list T) (b : Z -> Z -> T) (m i j : Z) (x : T) : U :=
    o_add P (o_mul P alpha' (sumT P (map (fun p => o_mul P (f (fst p)) (f (snd p))) (terms a b m i j)))) (o_mul P beta' (f x)).

  Definition result (l : layout) (d n m : Z) (A : spmat T) (a : Z -> Z -> list T) (b : Z -> Z -> T) C ldc (o : outcome (spmat T * list T)) : Prop :=
    exists A' C', o = Ok (A', C') /\ zlen C' = zlen C /\ same_sp A A' /\
      (forall p, (forall i j, 0 <= i < d -> 0 <= j < n -> addr l ldc i j <> p) -> get C' p = get C p) /\
      forall i j x, 0 <= i < d -> 0 <= j < n -> get C (addr l ldc i j) = Some x -> exists y, get C' (addr l ldc i j) = Some y /\ R y (want a b m i j x).

  Lemma sum_terms (a : Z -> Z -> list T) (b : Z -> Z -> T) (w : Z -> Z -> U) m i j : (forall k, 0 <= k < m -> w k j = f (b k j)) ->
    bigsum P (fun k => o_mul P (sumT P (map f (a i k))) (w k j)) 0 m = sumT P (map (fun p => o_mul P (f (fst p)) (f (snd p))) (terms a b m i j)).
  Proof using SP.
    intros Hw. unfold bigsum, terms. rewrite flat_map_concat_map, concat_map, map_map. rewrite (sumT_concat P SP), map_map. apply sumT_ext. intros k Hk. apply in_range in Hk.
    rewrite (Hw k Hk), map_map. cbn [fst snd]. symmetry. apply (sumT_mul_r P SP (f (b k j)) f).
  Qed.
  Lemma cell_map l ld B r c i k len : fits_buffer l ld r c len -> len = zlen B -> 0 <= i < r -> 0 <= k < c -> cell P l ld (map f B) i k = f (cell O l ld B i k).
  Proof.
    intros F -> Hi Hk. unfold cell. pose proof (rd_cell O l ld B r c i k F Hi Hk) as E. apply rd_get in E. rewrite get_map. unfold cell in E. rewrite E. reflexivity.
  Qed.

  Lemma notrans_basic nt l opB d n m A ro co B ldb C ldc :
    valid_sp A -> sp_base A = BZero -> 0 <= d -> 0 <= n -> 0 <= m -> window_ok A d m ro co ->
    (alpha' = o_zero P \/ sp_safe nt l NoTrans opB d n m A ro co) ->
    (match A with SpCoo M => co_sort M = SCSC /\ (o_eqb O alpha (o_zero O) = true \/ L (o_zero O) (o_zero P) \/ coo_tight M ro co d n m) | _ => True end) ->
    fits_buffer l ldb (rows_before opB m n) (cols_before opB m n) (zlen B) -> fits_buffer l ldc d n (zlen C) ->
    result l d n m A (fun i k => at_pos A (ro + i) (co + k)) (op_ent opB (cell O l ldb B)) C ldc
      (left_spmm_notrans O seq_schedule ss nt nt l opB d n m alpha A ro co B ldb beta C ldc).
  Proof using All.
    intros HV HB Hd Hn Hm HW HS HT FB FC.
    assert (H01 : o_eqb O alpha (o_zero O) = true -> o_eqb O alpha (o_one O) = false). { intros H. rewrite Ea0 in H. apply (sr_eqb P SP) in H. rewrite Ea1, H. exact P01. }
    assert (HS0 : o_eqb O alpha (o_zero O) = true \/ sp_safe nt l NoTrans opB d n m A ro co). { destruct HS as [H|H]; [left|now right]. rewrite Ea0, H. now apply (sr_eqb P SP). }
    pose proof (basic_frame O alpha beta H01 ss nt l opB d n m A ro co B ldb C ldc) as BF.
    pose proof (basic_operand O alpha beta ss nt l opB d n m A ro co B ldb C ldc) as BO.
    destruct (left_notrans_spec P SP su Hsu seq_schedule nt l opB d n m alpha' (map_sp f A) ro co (map f B) ldb beta' (map f C) ldc) as (A2 & C2 & E2 & _ & L2 & G2 & _); try (rewrite ?zlen_map; assumption).
    { apply seq_schedule_valid. } { now apply valid_map. } { now rewrite base_map. } { now apply window_map. } { destruct HS; [now left|right; now apply safe_map]. }
    pose proof (left_notrans_rel O P R L LR L LR R0 Lmul Ladd alpha beta alpha' beta' Ea0 Ea1 Ha Eb0 Hb ss su nt nt l opB d n m A (map_sp f A) ro co B (map f B) ldb C (map f C) ldc (Forall2_map_f B)) as Q.
    assert (H1 : sp_rel L A (map_sp f A)).
    { destruct A; cbn [sp_rel map_sp]; [unfold coo_rel; cbn [map_coo co_nr co_nc co_nnz co_base co_vals co_rows co_cols co_sort]
       |unfold csr_rel; cbn [map_csr cr_nr cr_nc cr_nnz cr_base cr_vals cr_idx cr_ptr]|unfold csc_rel; cbn [map_csc cc_nr cc_nc cc_nnz cc_base cc_vals cc_idx cc_ptr]]; repeat (split; [reflexivity|]); apply opt_rel_map. }
    specialize (Q H1 Hm). rewrite E2 in Q.
    assert (H2 : o_eqb O alpha (o_zero O) = false -> sp_tight O P L A ro co d n m).
    { intros N0. destruct A as [M|M|M]; cbn [sp_tight]; auto. destruct HT as [HT1 [HT2|HT2]]; [congruence|]. split; [|split; assumption]. apply valid_coo_arrays. apply HV. }
    specialize (Q H2 (Forall2_map_f C)). destruct (left_spmm_notrans O _ _ _ _ _ _ _ _ _ _ _ _ _ _ _ _ _ _) as [[A' C']| |]; cbn [orel snd] in Q; try contradiction.
    exists A', C'. split; [reflexivity|]. split. { pose proof (zlen_rel R C' C2 Q) as Z1. rewrite zlen_map in L2. lia. }
    split. { assert (X : match A with SpCoo M => co_sort M = SCSC | _ => True end) by (destruct A; tauto). rewrite (BO A' C' X eq_refl). now apply same_sp_refl. }
    split. { apply (BF A' C'); auto. destruct A; tauto. }
    intros i j x Hi Hj Gx. specialize (G2 i j (f x) Hi Hj). rewrite get_map, Gx in G2. specialize (G2 eq_refl).
    destruct (get_rel R C' C2 (addr l ldc i j) Q) as [(y & t & Gy & Gt & Ry)|[_ N]]; [|congruence]. exists y. split; [exact Gy|].
    rewrite G2 in Gt. injection Gt as <-. unfold want. rewrite <- (sum_terms _ _ (op_ent opB (cell P l ldb (map f B)))).
    - replace (bigsum P (fun k => o_mul P (sumT P (map f (at_pos A (ro + i) (co + k)))) (op_ent opB (cell P l ldb (map f B)) k j)) 0 m)
        with (bigsum P (fun k => o_mul P (sp_entry P (map_sp f A) (ro + i) (co + k)) (op_ent opB (cell P l ldb (map f B)) k j)) 0 m); [exact Ry|].
      unfold bigsum. f_equal. apply map_ext. intros k. f_equal. rewrite <- at_pos_map. destruct A; reflexivity.
    - intros k Hk. destruct opB; cbn [op_ent rows_before cols_before] in *; apply (cell_map _ _ _ _ _ _ _ _ FB eq_refl); assumption.
  Qed.

  Lemma terms_perm (a a1 : Z -> Z -> list T) (b : Z -> Z -> T) m i j : (forall k, 0 <= k < m -> Permutation (a i k) (a1 i k)) -> Permutation (terms a b m i j) (terms a1 b m i j).
  Proof.
    intros H. unfold terms. assert (G : forall k, In k (range 0 m) -> Permutation (a i k) (a1 i k)) by (intros k Hk; apply H; now apply in_range). clear H.
    induction (range 0 m) as [|k r IH]; [reflexivity|]. cbn [flat_map]. apply Permutation_app; [apply Permutation_map; apply G; now left|apply IH; intros; apply G; now right].
  Qed.
  Lemma result_ext l d n m A (a a1 : Z -> Z -> list T) b C ldc o : (forall i k, 0 <= i < d -> 0 <= k < m -> Permutation (a i k) (a1 i k)) -> result l d n m A a b C ldc o -> result l d n m A a1 b C ldc o.
  Proof using SP.
    intros H (A' & C' & E & Lc & SA & Fr & G). exists A', C'. do 4 (split; [assumption|]). intros i j x Hi Hj Gx. destruct (G i j x Hi Hj Gx) as (y & Gy & Ry). exists y. split; [exact Gy|].
    replace (want a1 b m i j x) with (want a b m i j x); [exact Ry|]. unfold want. do 2 f_equal. apply (sumT_perm P SP). apply Permutation_map. apply terms_perm. intros k Hk. now apply H.
  Qed.

  Lemma notrans_transfer nt l opB d n m A ro co B ldb C ldc :
    valid_sp A -> sp_base A = BZero -> 0 <= d -> 0 <= n -> 0 <= m -> window_ok A d m ro co ->
    (o_eqb O alpha (o_zero O) = true \/ sp_safe nt l NoTrans opB d n m A ro co /\ (L (o_zero O) (o_zero P) \/ tight A NoTrans ro co d n m)) ->
    fits_buffer l ldb (rows_before opB m n) (cols_before opB m n) (zlen B) -> fits_buffer l ldc d n (zlen C) ->
    result l d n m A (fun i k => at_pos A (ro + i) (co + k)) (op_ent opB (cell O l ldb B)) C ldc
      (left_spmm_notrans O seq_schedule ss nt nt l opB d n m alpha A ro co B ldb beta C ldc).
  Proof using All.
    intros HV HB Hd Hn Hm HW HS FB FC.
    assert (HS' : alpha' = o_zero P \/ sp_safe nt l NoTrans opB d n m A ro co). { destruct HS as [H|[H _]]; [left|now right]. rewrite Ea0 in H. now apply (sr_eqb P SP). }
    destruct A as [M|M|M]; [|now apply notrans_basic..]. destruct (sort_eqb (co_sort M) SCSC) eqn:Es.
    { apply notrans_basic; auto. split; [destruct (co_sort M); (reflexivity || discriminate)|]. destruct HS as [H|[_ H]]; [now left|right; exact H]. }
    destruct HV as [HV Hh]. destruct (sort_coo_spec ss Hss SCSC M ltac:(discriminate) (valid_coo_arrays M HV)) as (M1 & E1 & A1 & A2 & A3 & A4 & A5 & A6 & HA1 & P1 & O1).
    assert (St1 : Permutation (stored M) (stored M1)) by (unfold stored; rewrite A4; exact P1).
    assert (HV1 : valid_sp (SpCoo M1)).
    { destruct HV as (V1 & V2 & V3 & V4 & V5 & V6). destruct HA1 as (B1 & B2 & B3 & B4). rewrite A4 in *. cbn [sp_base] in HB. rewrite HB in V5, V6. cbn [off] in V5, V6. destruct (triples_idx_ok _ _ _ _ _ _ _ _ _ V3 V5 V6 V4 B3 B4 B2 P1) as [I1 I2].
      split; [unfold valid_coo; rewrite A1, A2, A4, A5, HB; cbn [off]; auto 10|]. unfold honest_sort. rewrite A6, A4. exact O1. }
    assert (Ew : forall a b c e, window_count M1 a b c e = window_count M a b c e).
    { intros. unfold window_count, zlen. f_equal. apply Permutation_length. apply Permutation_sym. now apply Permutation_filter. }
    assert (Ei : forall r c v a b e g, In (r, c, v) (stored M) /\ in_window a b e g (r, c, v) = true -> In (r, c, v) (stored M1) /\ in_window a b e g (r, c, v) = true).
    { intros r c v a b e g [H W]. split; [|exact W]. eapply Permutation_in; eauto. }
    assert (N : result l d n m (SpCoo M1) (fun i k => at_pos (SpCoo M1) (ro + i) (co + k)) (op_ent opB (cell O l ldb B)) C ldc
      (left_spmm_notrans O seq_schedule ss nt nt l opB d n m alpha (SpCoo M1) ro co B ldb beta C ldc)).
    { apply notrans_basic; auto.
      - cbn [sp_base] in *. congruence.
      - cbn [window_ok] in *. now rewrite A1, A2.
      - destruct HS' as [H|H]; [now left|right]. cbn [sp_safe] in *. unfold coo_safe in *. rewrite Ew, A4. destruct H as [H|[H|[H|[H [(r & c & v & H1)|H']]]]]; auto 10.
        right; right; right. split; [exact H|]. left. exists r, c, v. now apply Ei.
      - split; [exact A6|]. destruct HS as [H|[_ [H|H]]]; [now left|right; now left|right; right]. cbn [tight] in H. unfold coo_tight in *. rewrite Ew. destruct H as [H|[H|[H|(r & c & v & H1)]]]; auto.
        right; right; right. exists r, c, v. now apply Ei. }
    apply (result_ext l d n m (SpCoo M) (fun i k => at_pos (SpCoo M1) (ro + i) (co + k))).
    { intros i k _ _. cbn [at_pos]. unfold coo_at. rewrite A5. apply coo_values_perm. apply Permutation_sym. exact St1. }
    destruct N as (A' & C' & E & Lc & SA & Fr & G). unfold result.
    enough (exists A2, left_spmm_notrans O seq_schedule ss nt nt l opB d n m alpha (SpCoo M) ro co B ldb beta C ldc = Ok (A2, C') /\ same_sp (SpCoo M) A2) as (A0 & E0 & S0) by (exists A0, C'; auto 10).
    pose proof (@basic_operand T O alpha beta ss nt l opB d n m (SpCoo M1) ro co B ldb C ldc A' C' A6 E) as EA. subst A'.
    revert E. unfold left_spmm_notrans. cbn [sp_base]. rewrite A5, A1, A2. destruct (require _); cbn [bind]; try discriminate.
    match goal with |- (bind ?a _ = _) -> _ => destruct a; cbn [bind]; try discriminate end.
    match goal with |- ((let '(_, _) := ?a in _) = _) -> _ => destruct a as [[? ?] lop] end.
    destruct (scale_output _ _ _ _ _ _ _ _ _ _) as [C1| |]; cbn [bind]; try discriminate. destruct (o_eqb O alpha (o_zero O)); [intros H; injection H as <-; eexists; split; [reflexivity|]; apply same_sp_refl; split; assumption|].
    unfold coo_left_jki. rewrite A5, A6, Es. cbn [sort_eqb negb]. destruct (require _); cbn [bind]; try discriminate. rewrite E1. cbn [bind].
    destruct (coo_left_sorted _ _ _ _ _ _ _ _ _ _ _ _ _ _ _) as [C2| |]; cbn [bind]; try discriminate. intros H. injection H as <-.
    assert (Fin : forall M2, same_coo M M2 -> honest_sort M2 -> same_sp (SpCoo M) (SpCoo M2)).
    { intros M2 HM Hh2. pose proof (same_coo_valid M M2 HB HV HM) as HV2. destruct HM as (F1 & F2 & F3 & F4 & F5 & F6 & _ & Pm). cbn [same_sp]. auto 10. }
    destruct (co_sort M) eqn:Eo; [discriminate Es| |].
    - destruct (sort_coo_spec ss Hss SCSR M1 ltac:(discriminate) HA1) as (M2 & -> & B1 & B2 & B3 & B4 & B5 & B6 & HA2 & P2 & O2). cbn [bind]. eexists. split; [reflexivity|]. apply Fin.
      + unfold same_coo. do 6 (split; [congruence|]). split; [exact HA2|]. transitivity (stored M1); [exact St1|]. unfold stored. rewrite B4. exact P2.
      + unfold honest_sort. rewrite B6, B4. exact O2.
    - unfold sort_coo at 1, sort_coo_data. cbn [sort_eqb bind]. eexists. split; [reflexivity|]. apply Fin.
      + unfold same_coo. cbn [co_nr co_nc co_own co_nnz co_base co_sort]. do 6 (split; [congruence|]). split; [exact HA1|exact St1].
      + exact I.
  Qed.

  Theorem left_transfer nt l opA opB d n m A ro co B ldb C ldc :
    valid_schedule sched -> valid_sp A -> sp_base A = BZero -> 0 <= d -> 0 <= n -> 0 <= m -> window_ok A (rows_before opA d m) (cols_before opA d m) ro co ->
    (o_eqb O alpha (o_zero O) = true \/ sp_safe nt l opA opB d n m A ro co /\ (L (o_zero O) (o_zero P) \/ tight A opA ro co d n m)) ->
    fits_buffer l ldb (rows_before opB m n) (cols_before opB m n) (zlen B) -> fits_buffer l ldc d n (zlen C) ->
    result l d n m A (op_ent opA (fun i k => at_pos A (ro + i) (co + k))) (op_ent opB (cell O l ldb B)) C ldc
      (left_spmm O sched ss nt nt l opA opB d n m alpha A ro co B ldb beta C ldc).
  Proof using All.
    intros Hs HA Hbase Hd Hn Hm Hw Hsafe FB FC. rewrite (left_sched O sched seq_schedule Hs seq_schedule_valid). destruct opA; cbn [rows_before cols_before op_ent left_spmm] in *.
    { now apply notrans_transfer. }
    destruct A as [M|M|M]; cbn [window_ok sp_rows sp_cols valid_sp sp_base sp_safe tight] in *.
    - destruct HA as [HV Hh]. rewrite coo_transpose_eq. cbn [bind].
      destruct (notrans_transfer nt l opB d n m (SpCoo (coo_t M)) co ro B ldb C ldc) as (A' & C' & E & G); try assumption.
      { split.
        - destruct HV as (Hr & Hc & Hnz & Lv & Ir & Ic). unfold valid_coo. cbn [coo_t co_nr co_nc co_nnz co_base co_rows co_cols co_vals]. auto 10.
        - unfold honest_sort in *. cbn [coo_t co_sort co_nnz co_rows co_cols]. destruct (co_sort M); [apply ordered_flip|apply ordered_flip|]; exact Hh. }
      { cbn [window_ok coo_t co_nr co_nc]. tauto. }
      destruct G as (Lc & SA & G). destruct A' as [Mt| |]; try contradiction.
      rewrite E. cbn [bind]. apply (result_ext l d n m (SpCoo M) (fun i k => at_pos (SpCoo (coo_t M)) (co + i) (ro + k))).
      { intros i k _ _. cbn [at_pos]. unfold coo_at. cbn [coo_t co_nnz co_base co_rows co_cols co_vals]. now rewrite coo_values_swap. }
      eexists _, C'. split; [reflexivity|]. split; [exact Lc|]. split; [now apply untranspose_same|exact G].
    - cbn [transpose_as_csc bind].
      destruct (notrans_transfer nt l opB d n m (SpCsc (Build_csc_matrix (cr_nc M) (cr_nr M) false (cr_nnz M) (cr_base M) (cr_vals M) (cr_idx M) (cr_ptr M))) co ro B ldb C ldc) as (A' & C' & E & G); try assumption.
      { destruct HA as (V1 & V2 & V3 & V4 & V5 & V6). unfold valid_sp, valid_csc. cbn [cc_nr cc_nc cc_nnz cc_base cc_vals cc_idx cc_ptr]. auto 10. }
      { cbn [window_ok sp_rows sp_cols cc_nr cc_nc]. tauto. }
      destruct G as (Lc & SA & G). rewrite E. cbn [bind]. eexists _, C'. split; [reflexivity|]. split; [exact Lc|]. split; [reflexivity|exact G].
    - cbn [transpose_as_csr bind].
      destruct (notrans_transfer nt l opB d n m (SpCsr (Build_csr_matrix (cc_nc M) (cc_nr M) false (cc_nnz M) (cc_base M) (cc_vals M) (cc_ptr M) (cc_idx M))) co ro B ldb C ldc) as (A' & C' & E & G); try assumption.
      { destruct HA as (V1 & V2 & V3 & V4 & V5 & V6). unfold valid_sp, valid_csr. cbn [cr_nr cr_nc cr_nnz cr_base cr_vals cr_idx cr_ptr]. auto 10. }
      { cbn [window_ok sp_rows sp_cols cr_nr cr_nc]. tauto. }
      destruct G as (Lc & SA & G). rewrite E. cbn [bind]. eexists _, C'. split; [reflexivity|]. split; [exact Lc|]. split; [reflexivity|exact G].
  Qed.
End Transfer.
