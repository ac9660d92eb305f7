(** A product with a sparse matrix commutes with maps of the scalars (for C66). *)
From Coq Require Import ZArith Permutation.
From Verif Require Import Base Interleave Spec SparseSkopModel SparseSpec SpFmtModel SpFmtSpec SpFmtProofs SpFmtProofs4 SpFmtProofs5 SpmmModel SpmmSpec SpmmProofs SpmmProofs2 SpmmProofs5 SpmmProofs6 ParamProofs RoundProofs2.

Section Hom.
  Context {T U : Type}.
  Variables (O : ops T) (P : ops U) (h : T -> U).
  Hypothesis h0 : h (o_zero O) = o_zero P.
  Hypothesis hadd : forall x y, h (o_add O x y) = o_add P (h x) (h y).
  Hypothesis hmul : forall x y, h (o_mul O x y) = o_mul P (h x) (h y).
  Variables (alpha beta : T).
  Hypothesis Ea0 : o_eqb O alpha (o_zero O) = o_eqb P (h alpha) (o_zero P).
  Hypothesis Ea1 : o_eqb O alpha (o_one O) = o_eqb P (h alpha) (o_one P).
  Hypothesis Eb0 : o_eqb O beta (o_zero O) = o_eqb P (h beta) (o_zero P).
  Variable ss : (Z * Z * T -> Z * Z * T -> bool) -> list (Z * Z * T) -> list (Z * Z * T).
  Variable su : (Z * Z * U -> Z * Z * U -> bool) -> list (Z * Z * U) -> list (Z * Z * U).
  Definition h3 (t : Z * Z * T) : Z * Z * U := let '(r, c, v) := t in (r, c, h v).
  (** Sorting looks at the indices only. *)
  Hypothesis Hsort : forall l, su lt_csr (map h3 l) = map h3 (ss lt_csr l) /\ su lt_csc (map h3 l) = map h3 (ss lt_csc l).
  Hypothesis Hss : sort_ok ss.

  Let L (x : T) (t : U) : Prop := h x = t.
  Let Lmul : forall x t y s, L x t -> L y s -> L (o_mul O x y) (o_mul P t s). Proof. intros x t y s <- <-. apply hmul. Qed.
  Let Ladd : forall x t y s, L x t -> L y s -> L (o_add O x y) (o_add P t s). Proof. intros x t y s <- <-. apply hadd. Qed.
  Let Lsc (a : T) (b : bool) : b = false -> forall x t, L x t -> L (o_mul O a x) (o_mul P (h a) t). Proof. intros _ x t <-. apply hmul. Qed.
  Lemma Forall2_map l : Forall2 L l (map h l). Proof. induction l; constructor; auto. reflexivity. Qed.
  Lemma map_Forall2 l k : Forall2 L l k -> k = map h l. Proof. induction 1 as [|x y l k E _ IH]; [reflexivity|]. cbn. now rewrite E, IH. Qed.
  Lemma wr_map l i x : wr (map h l) i (h x) = match wr l i x with Ok l => Ok (map h l) | Throw => Throw | UB => UB end.
  Proof.
    pose proof (wr_rel L l (map h l) i x (h x) (Forall2_map l) eq_refl) as H. destruct (wr l i x), (wr (map h l) i (h x)); cbn in H; try contradiction; auto.
    f_equal. now apply map_Forall2.
  Qed.
  Lemma wrp_map v i x : wrp (map_arr h v) i (h x) = match wrp v i x with Ok v => Ok (map_arr h v) | Throw => Throw | UB => UB end.
  Proof. destruct v as [l|]; cbn [map_arr option_map wrp]; [|reflexivity]. rewrite wr_map. destruct (wr l i x); reflexivity. Qed.
  Lemma rd_map {A B} (f : A -> B) l i : rd (map f l) i = match rd l i with Ok x => Ok (f x) | Throw => Throw | UB => UB end.
  Proof. unfold rd. destruct (i <? 0); [reflexivity|]. rewrite nth_error_map. destruct (nth_error l (Z.to_nat i)); reflexivity. Qed.
  Lemma rdp_map v i : rdp (map_arr h v) i = match rdp v i with Ok x => Ok (h x) | Throw => Throw | UB => UB end.
  Proof. destruct v as [l|]; [apply rd_map|reflexivity]. Qed.

  Definition omap {A B} (f : A -> B) (o : outcome A) : outcome B := match o with Ok x => Ok (f x) | Throw => Throw | UB => UB end.
  Lemma bind_omap {A B C} (f : A -> B) (o : outcome A) (k : B -> outcome C) : bind (omap f o) k = bind o (fun x => k (f x)).
  Proof. destruct o; reflexivity. Qed.
  Lemma mapM_omap {A B C} (f : B -> C) (g : A -> outcome B) (g' : A -> outcome C) l : (forall a, g' a = omap f (g a)) -> mapM g' l = omap (map f) (mapM g l).
  Proof. intros H. induction l as [|a l IH]; [reflexivity|]. cbn [mapM]. rewrite H, IH. destruct (g a); cbn [omap bind]; auto. destruct (mapM g l); reflexivity. Qed.
  Lemma for_omap {A B} (f : A -> B) lo hi g g' s : (forall i s, g' i (f s) = omap f (g i s)) -> for_ lo hi g' (f s) = omap f (for_ lo hi g s).
  Proof. intros H. unfold for_. revert s. induction (range lo hi) as [|i l IH]; intros s; [reflexivity|]. cbn [foldM]. rewrite H. destruct (g i s); cbn [omap bind]; auto. Qed.

  Definition m3 (s : option (list T) * option (list Z) * option (list Z)) := let '(v, r, c) := s in (map_arr h v, r, c).
  Lemma sort_data_map s nnz v r c : sort_coo_data su s nnz (map_arr h v) r c = omap m3 (sort_coo_data ss s nnz v r c).
  Proof using Hsort.
    unfold sort_coo_data. destruct (sort_eqb s SNone); [reflexivity|]. destruct (coo_sort_type nnz r c) as [s0| |]; cbn [bind omap]; auto. destruct (sort_eqb s0 s); [reflexivity|].
    rewrite (mapM_omap h3 (fun ell => r0 <- rdp r ell ;; c0 <- rdp c ell ;; v0 <- rdp v ell ;; Ok (r0, c0, v0))).
    2:{ intros e. destruct (rdp r e); cbn [bind omap]; auto. destruct (rdp c e); cbn [bind omap]; auto. rewrite rdp_map. destruct (rdp v e); reflexivity. }
    rewrite bind_omap. destruct (mapM _ (range 0 nnz)) as [nz| |]; cbn [bind omap]; auto.
    assert (Es : su (if sort_eqb s SCSR then lt_csr else lt_csc) (map h3 nz) = map h3 (ss (if sort_eqb s SCSR then lt_csr else lt_csc) nz)) by (destruct (sort_eqb s SCSR); apply Hsort).
    apply (for_omap m3 _ _ _ _ (v, r, c)). intros e [[v1 r1] c1]. cbn [m3].
    match goal with |- bind (rd (su ?f ?x) e) _ = _ => change (su f x) with (su (if sort_eqb s SCSR then lt_csr else lt_csc) (map h3 nz)) end. rewrite Es, rd_map.
    destruct (rd _ e) as [[[r0 c0] x]| |]; cbn [bind omap h3]; auto.
    rewrite wrp_map. destruct (wrp v1 e x); cbn [bind omap]; auto. destruct (wrp r1 e r0); cbn [bind omap]; auto. destruct (wrp c1 e c0); reflexivity.
  Qed.
  Lemma sort_coo_map s M : sort_coo su s (map_coo h M) = omap (map_coo h) (sort_coo ss s M).
  Proof using Hsort.
    unfold sort_coo. cbn [map_coo co_nnz co_vals co_rows co_cols co_nr co_nc co_own co_base]. rewrite sort_data_map, bind_omap. destruct (sort_coo_data ss s _ _ _ _) as [[[v r] c]| |]; reflexivity.
  Qed.

  Lemma sp_rel_map A : sp_rel L A (map_sp h A).
  Proof.
    assert (V : forall v, opt_rel L v (map_arr h v)) by (intros [v|]; [apply Forall2_map|exact I]).
    destruct A; cbn [sp_rel map_sp]; [unfold coo_rel; cbn [map_coo co_nr co_nc co_nnz co_base co_vals co_rows co_cols co_sort]
       |unfold csr_rel; cbn [map_csr cr_nr cr_nc cr_nnz cr_base cr_vals cr_idx cr_ptr]|unfold csc_rel; cbn [map_csc cc_nr cc_nc cc_nnz cc_base cc_vals cc_idx cc_ptr]]; repeat (split; [reflexivity|]); apply V.
  Qed.
  Definition same_C (o : outcome (spmat T * list T)) (o' : outcome (spmat U * list U)) : Prop := orel (fun s s' => snd s' = map h (snd s)) o o'.

  Lemma notrans_hom nt1 nt2 l opB d n m A ro co B ldb C ldc : 0 <= m -> (match A with SpCoo M => coo_arrays M | _ => True end) ->
    same_C (left_spmm_notrans O seq_schedule ss nt1 nt2 l opB d n m alpha A ro co B ldb beta C ldc)
      (left_spmm_notrans P seq_schedule su nt1 nt2 l opB d n m (h alpha) (map_sp h A) ro co (map h B) ldb (h beta) (map h C) ldc).
  Proof using All.
    intros Hm Har.
    assert (Basic : match A with SpCoo M => co_sort M = SCSC | _ => True end -> same_C (left_spmm_notrans O seq_schedule ss nt1 nt2 l opB d n m alpha A ro co B ldb beta C ldc)
      (left_spmm_notrans P seq_schedule su nt1 nt2 l opB d n m (h alpha) (map_sp h A) ro co (map h B) ldb (h beta) (map h C) ldc)).
    { intros Hs. eapply orel_impl; [apply (left_notrans_rel O P L L (fun _ _ H => H) L (fun _ _ H => H) h0 Lmul Ladd alpha beta (h alpha) (h beta) Ea0 Ea1 (Lsc alpha _) Eb0 (Lsc beta _) ss su nt1 nt2 l opB d n m A (map_sp h A) ro co B (map h B) ldb C (map h C) ldc)|].
      - apply Forall2_map. - apply sp_rel_map. - exact Hm. - intros _. destruct A; cbn [sp_tight]; auto 10. - apply Forall2_map.
      - intros s s' H. now apply map_Forall2. }
    destruct A as [M|M|M]; [|now apply Basic..]. destruct (sort_eqb (co_sort M) SCSC) eqn:Es; [apply Basic; destruct (co_sort M); (reflexivity || discriminate)|]. clear Basic.
    unfold same_C, left_spmm_notrans. cbn [sp_base map_sp map_coo co_base co_nr co_nc]. fold (map_coo h M). apply orel_same; intros _ _. apply orel_same; intros _ _.
    destruct (match opB with NoTrans => (m, n, l) | Trans => (n, m, flip l) end) as [[rB cB] lopB].
    eapply (orel_bind (Forall2 L)). { apply (scale_output_rel O P L L (fun _ _ H => H) L (fun _ _ H => H) h0 Lmul Ladd alpha beta (h alpha) (h beta) Ea0 Ea1 (Lsc alpha _) Eb0 (Lsc beta _)). apply Forall2_map. }
    intros C1 C1' _ _ HC1. rewrite <- Ea0. destruct (o_eqb O alpha (o_zero O)) eqn:E0; [cbn; now apply map_Forall2|].
    unfold coo_left_jki. cbn [map_coo co_base co_sort]. fold (map_coo h M). rewrite Es. cbn [negb].
    eapply (orel_bind (fun s s' => Forall2 L (snd s) (snd s'))); [|intros [? ?] [? ?] _ _ H; cbn; now apply map_Forall2]. apply orel_same; intros _ _.
    rewrite sort_coo_map, bind_omap. apply orel_same; intros M1 EM1.
    destruct (sort_coo_spec ss Hss SCSC M ltac:(discriminate) Har) as (M1' & E1 & _ & _ & _ & _ & _ & _ & HA1 & _). rewrite EM1 in E1. injection E1 as <-.
    eapply (orel_bind (Forall2 L)). { eapply (coo_sorted_rel O P L L (fun _ _ H => H) h0 Lmul Ladd alpha (h alpha) Ea1 (Lsc alpha false eq_refl) B (map h B) (Forall2_map B)); eauto. apply (sp_rel_map (SpCoo M1)). }
    intros C2 C2' _ _ HC2. rewrite sort_coo_map, bind_omap. apply orel_same; intros M2 _. exact HC2.
  Qed.

  Theorem left_hom sched sched' nt1 nt2 l opA opB d n m A ro co B ldb C ldc : valid_schedule sched -> valid_schedule sched' -> 0 <= m -> (match A with SpCoo M => coo_arrays M | _ => True end) ->
    same_C (left_spmm O sched ss nt1 nt2 l opA opB d n m alpha A ro co B ldb beta C ldc)
      (left_spmm P sched' su nt1 nt2 l opA opB d n m (h alpha) (map_sp h A) ro co (map h B) ldb (h beta) (map h C) ldc).
  Proof using All.
    intros Hs Hs' Hm Har. rewrite (left_sched O sched seq_schedule Hs seq_schedule_valid), (left_sched P sched' seq_schedule Hs' seq_schedule_valid). destruct opA; cbn [left_spmm]; [now apply notrans_hom|].
    destruct A as [M|M|M]; cbn [map_sp].
    - rewrite !coo_transpose_eq. cbn [bind]. pose proof (notrans_hom nt1 nt2 l opB d n m (SpCoo (coo_t M)) co ro B ldb C ldc Hm) as H. change (map_sp h (SpCoo (coo_t M))) with (SpCoo (coo_t (map_coo h M))) in H.
      eapply orel_bind; [apply H|]. { destruct Har as (H1 & H2 & H3 & H4). unfold coo_arrays. cbn [coo_t co_nnz co_vals co_rows co_cols]. auto. }
      intros [A1 C1] [A2 C2] _ _ E. cbn [snd] in E. destruct A1, A2; cbn; exact E.
    - cbn [transpose_as_csc bind map_csr cr_nc cr_nr cr_nnz cr_base cr_vals cr_idx cr_ptr].
      eapply orel_bind; [apply (notrans_hom nt1 nt2 l opB d n m (SpCsc (Build_csc_matrix (cr_nc M) (cr_nr M) false (cr_nnz M) (cr_base M) (cr_vals M) (cr_idx M) (cr_ptr M))) co ro B ldb C ldc Hm I)|].
      intros [A1 C1] [A2 C2] _ _ E. exact E.
    - cbn [transpose_as_csr bind map_csc cc_nc cc_nr cc_nnz cc_base cc_vals cc_idx cc_ptr].
      eapply orel_bind; [apply (notrans_hom nt1 nt2 l opB d n m (SpCsr (Build_csr_matrix (cc_nc M) (cc_nr M) false (cc_nnz M) (cc_base M) (cc_vals M) (cc_ptr M) (cc_idx M))) co ro B ldb C ldc Hm I)|].
      intros [A1 C1] [A2 C2] _ _ E. exact E.
  Qed.
End Hom.
