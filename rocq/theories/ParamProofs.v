(** Running the sparse kernels with two scalar types at once.

    Two runs whose scalars are related stay related; used in PropsRound.v with IEEE scalars on
    one side and (value, magnitude, number of roundings) on the other. *)
From Coq Require Import Permutation.
From Verif Require Import Base Interleave Spec SparseSkopModel SparseSpec SparseProofs SpFmtModel SpFmtSpec SpFmtProofs SpFmtProofs2 SpFmtProofs3 SpFmtProofs4 SpFmtProofs5 SpmmModel SpmmSpec SpmmProofs SpmmProofs2 SpmmProofs3
  SpmmProofs4 RoundSpec.

Definition orel {A B} (Q : A -> B -> Prop) (o : outcome A) (o' : outcome B) : Prop :=
  match o, o' with Ok x, Ok y => Q x y | Throw, Throw => True | UB, UB => True | _, _ => False end.

Lemma orel_bind {A B A2 B2} (Q : A -> B -> Prop) (Q2 : A2 -> B2 -> Prop) m m' k k' :
  orel Q m m' -> (forall x y, m = Ok x -> m' = Ok y -> Q x y -> orel Q2 (k x) (k' y)) -> orel Q2 (bind m k) (bind m' k').
Proof. intros H G. destruct m, m'; cbn in *; try contradiction; auto. Qed.
Lemma orel_eq {A} (m : outcome A) : orel eq m m.
Proof. destruct m; cbn; auto. Qed.
Lemma orel_same {A A2 B2} (Q2 : A2 -> B2 -> Prop) (m : outcome A) k k' :
  (forall x, m = Ok x -> orel Q2 (k x) (k' x)) -> orel Q2 (bind m k) (bind m k').
Proof. intros G. destruct m; cbn in *; auto. Qed.
Lemma orel_impl {A B} (Q Q' : A -> B -> Prop) m m' : orel Q m m' -> (forall x y, Q x y -> Q' x y) -> orel Q' m m'.
Proof. destruct m, m'; cbn; auto. Qed.

Lemma rd_rel {A B} (Q : A -> B -> Prop) b b' i : Forall2 Q b b' -> orel Q (rd b i) (rd b' i).
Proof.
  intros H. unfold rd. destruct (i <? 0); [exact I|]. generalize (Z.to_nat i). induction H as [|x y b b' E H IH]; intros [|n]; cbn; auto.
Qed.
Lemma get_rel {A B} (Q : A -> B -> Prop) b b' i : Forall2 Q b b' ->
  (exists x y, get b i = Some x /\ get b' i = Some y /\ Q x y) \/ (get b i = None /\ get b' i = None).
Proof.
  intros H. unfold get. destruct (i <? 0); [auto|]. generalize (Z.to_nat i). induction H as [|x y b b' E H IH]; intros [|n]; cbn; eauto 6.
Qed.
Lemma zlen_rel {A B} (Q : A -> B -> Prop) b b' : Forall2 Q b b' -> zlen b = zlen b'.
Proof. intros H. unfold zlen. f_equal. induction H; cbn; congruence. Qed.
Lemma wr_rel {A B} (Q : A -> B -> Prop) b b' i x y : Forall2 Q b b' -> Q x y -> orel (Forall2 Q) (wr b i x) (wr b' i y).
Proof.
  intros H E. unfold wr. rewrite (zlen_rel Q b b' H). destruct (i <? 0); [exact I|]. destruct (i <? zlen b'); [|exact I]. cbn.
  generalize (Z.to_nat i). induction H as [|x0 y0 b b' E0 H IH]; intros [|n]; cbn; constructor; auto.
Qed.
Lemma mapM_rel {A A2 B2} (Q : A2 -> B2 -> Prop) (f : A -> outcome A2) (g : A -> outcome B2) l :
  (forall a, In a l -> orel Q (f a) (g a)) -> orel (Forall2 Q) (mapM f l) (mapM g l).
Proof.
  induction l as [|a l IH]; intros H; cbn [mapM]; [constructor|].
  eapply orel_bind; [apply H; now left|]. intros x y _ _ E. eapply orel_bind; [apply IH; intros; apply H; now right|]. intros xs ys _ _ Es. cbn. now constructor.
Qed.
Lemma for_rel {A B} (Q : A -> B -> Prop) lo hi f g s s' :
  (forall i s s', lo <= i < hi -> Q s s' -> orel Q (f i s) (g i s')) -> Q s s' -> orel Q (for_ lo hi f s) (for_ lo hi g s').
Proof.
  intros H. unfold for_. assert (G : forall i, In i (range lo hi) -> lo <= i < hi) by (intros i; apply in_range). revert s s' G.
  induction (range lo hi) as [|i l IH]; intros s s' G E; cbn [foldM]; [exact E|].
  eapply orel_bind; [apply H; [apply G; now left|exact E]|]. intros x y _ _ E'. apply IH; auto. intros j Hj. apply G. now right.
Qed.
Lemma concat_rel {A B} (Q : A -> B -> Prop) l l' : Forall2 (Forall2 Q) l l' -> Forall2 Q (concat l) (concat l').
Proof. induction 1; cbn; [constructor|]. now apply Forall2_app. Qed.

Section Param.
  Context {T U : Type}.
  Variables (O : ops T) (P : ops U) (R L : T -> U -> Prop).
  Hypothesis LR : forall x t, L x t -> R x t.
  Hypothesis R0 : R (o_zero O) (o_zero P).
  Hypothesis Lmul : forall x t y s, L x t -> L y s -> L (o_mul O x y) (o_mul P t s).
  Hypothesis Ladd : forall x t y s, R x t -> L y s -> L (o_add O x y) (o_add P t s).

  Definition upd_rel (u : Z * list T) (w : Z * list U) : Prop := fst u = fst w /\ Forall2 L (snd u) (snd w).

  Lemma acc_rel a b x t : Forall2 L a b -> R x t -> R (acc O a x) (acc P b t).
  Proof using All. intros H. revert x t. induction H as [|y s a b E H IH]; intros x t Rx; [exact Rx|]. cbn [acc fold_left]. apply IH. apply LR. now apply Ladd. Qed.

  Lemma exec_rel es es' b b' : Forall2 upd_rel es es' -> Forall2 R b b' -> orel (Forall2 R) (exec (acc O) es b) (exec (acc P) es' b').
  Proof using All.
    intros H. revert b b'. induction H as [|[p a] [p' a'] es es' [E1 E2] H IH]; intros b b' Hb; [exact Hb|]. cbn in E1, E2. subst p'.
    unfold exec. cbn [foldM fst snd].
    eapply orel_bind; [|intros x y _ _ E; apply (IH x y E)].
    eapply orel_bind; [exact (rd_rel R b b' p Hb)|]. intros x y _ _ E. apply wr_rel; [exact Hb|]. now apply acc_rel.
  Qed.

  Lemma disjoint_rel t1 t2 s1 s2 : Forall2 upd_rel t1 s1 -> Forall2 upd_rel t2 s2 -> disjoint_tasks t1 t2 = disjoint_tasks s1 s2.
  Proof using All.
    intros H1 H2. induction H1 as [|u w t1 s1 [E _] _ IH]; [reflexivity|]. cbn [disjoint_tasks forallb]. f_equal; [|exact IH]. rewrite E. clear - H2.
    induction H2 as [|u' w' t2 s2 [E' _] _ IH]; [reflexivity|]. cbn [forallb]. now rewrite E', IH.
  Qed.
  Lemma race_free_rel ts ss : Forall2 (Forall2 upd_rel) ts ss -> race_free ts = race_free ss.
  Proof using All.
    induction 1 as [|t s ts ss E H IH]; [reflexivity|]. cbn [race_free]. f_equal; [|exact IH]. clear IH.
    induction H as [|t' s' ts ss E' H IH]; [reflexivity|]. cbn [forallb]. f_equal; [now apply disjoint_rel|exact IH].
  Qed.
  Lemma omp_rel ts ss b b' : Forall2 (Forall2 upd_rel) ts ss -> Forall2 R b b' ->
    orel (Forall2 R) (omp_exec (acc O) seq_schedule ts b) (omp_exec (acc P) seq_schedule ss b').
  Proof using All.
    intros H Hb. unfold omp_exec. rewrite (race_free_rel ts ss H). destruct (race_free ss); [|exact I]. unfold seq_schedule. apply exec_rel; [|exact Hb]. now apply concat_rel.
  Qed.

  (** Value arrays related on the index set [K]. *)
  Definition vrel (K : Z -> Prop) (v : option (list T)) (w : option (list U)) : Prop := forall e, K e -> orel L (rdp v e) (rdp w e).
  Definition opt_rel (v : option (list T)) (w : option (list U)) : Prop :=
    match v, w with Some a, Some b => Forall2 L a b | None, None => True | _, _ => False end.
  Lemma opt_vrel K v w : opt_rel v w -> vrel K v w.
  Proof using All. intros H e _. destruct v, w; cbn in *; try contradiction; [now apply rd_rel|exact I]. Qed.

  Variables (alpha : T) (alpha' : U).
  Hypothesis Ea1 : o_eqb O alpha (o_one O) = o_eqb P alpha' (o_one P).
  Hypothesis Ha : forall x t, L x t -> L (o_mul O alpha x) (o_mul P alpha' t).

  Lemma scaled_vals_rel nnz v w : opt_rel v w -> orel opt_rel (scaled_vals O alpha nnz v) (scaled_vals P alpha' nnz w).
  Proof using All.
    intros H. unfold scaled_vals. rewrite Ea1. destruct (o_eqb P _ _); [exact H|].
    eapply orel_bind; [apply (mapM_rel L); intros e _|intros a b _ _ E; exact E].
    eapply orel_bind; [apply (opt_vrel (fun _ => True) v w H e I)|]. intros x y _ _ E. cbn. apply Ladd; [exact R0|]. now apply Ha.
  Qed.

  Section Dense.
    Variables (B : list T) (B' : list U).
    Hypothesis HB : Forall2 L B B'.

    Lemma axpy_rel n s s' ob oc : L s s' -> orel (Forall2 upd_rel) (axpy_updates O n s B ob oc) (axpy_updates P n s' B' ob oc).
    Proof using All.
      intros Hs. unfold axpy_updates. apply mapM_rel. intros q _. eapply orel_bind; [apply (rd_rel L); exact HB|]. intros x y _ _ E. cbn. split; [reflexivity|]. constructor; [now apply Lmul|constructor].
    Qed.
    Lemma csr_vector_rel v w ptr idx ov iv n oa ia : opt_rel v w ->
      orel (Forall2 upd_rel) (csr_vector_ik O v ptr idx B ov iv n oa ia) (csr_vector_ik P w ptr idx B' ov iv n oa ia).
    Proof using All.
      intros H. unfold csr_vector_ik. apply mapM_rel. intros i _. apply orel_same; intros lo _. apply orel_same; intros hi _.
      eapply orel_bind; [apply (mapM_rel L); intros e _|intros a b _ _ E; cbn; split; [reflexivity|exact E]].
      apply orel_same; intros j _. eapply orel_bind; [apply (opt_vrel (fun _ => True) v w H e I)|]. intros a a' _ _ Ea.
      eapply orel_bind; [apply (rd_rel L); exact HB|]. intros x y _ _ E. cbn. now apply Lmul.
    Qed.
    Lemma csc_vector_rel K v w idx ptr m ov iv oa ia : vrel K v w -> (forall c hi e, 0 <= c < m -> rdp ptr (c + 1) = Ok hi -> 0 <= e < hi -> K e) ->
      orel (Forall2 upd_rel) (csc_vector_ki O v idx ptr m B ov iv oa ia) (csc_vector_ki P w idx ptr m B' ov iv oa ia).
    Proof using All.
      intros H HK. unfold csc_vector_ki.
      eapply (orel_bind (fun s s' => fst s = fst s' /\ 0 <= fst s /\ Forall2 upd_rel (snd s) (snd s'))).
      2: { intros [i us] [i' us'] _ _ (_ & _ & E). exact E. }
      apply for_rel; [|split; [reflexivity|split; [reflexivity|constructor]]].
      intros c [i us] [i' us'] Hc (Ei & Pi & Eu). cbn [fst snd] in Ei, Eu, Pi. subst i'.
      eapply orel_bind; [apply (rd_rel L); exact HB|]. intros x y _ _ Exy. apply orel_same; intros hi Ehi.
      eapply orel_bind; [apply (mapM_rel upd_rel); intros e He|].
      - apply in_range in He. apply orel_same; intros row _. eapply orel_bind; [apply (H e); apply (HK c hi e Hc Ehi); lia|]. intros a b _ _ E. cbn. split; [reflexivity|]. constructor; [now apply Lmul|constructor].
      - intros a b _ _ E. cbn. split; [reflexivity|]. split; [lia|]. now apply Forall2_app.
    Qed.
    Lemma regular_vector_rel K v w idx q m ov iv oa ia : vrel K v w -> (forall c e, 0 <= c < m -> c * q <= e < (c + 1) * q -> K e) ->
      orel (Forall2 upd_rel) (regular_csc_vector_ki O v idx q m B ov iv oa ia) (regular_csc_vector_ki P w idx q m B' ov iv oa ia).
    Proof using All.
      intros H HK. unfold regular_csc_vector_ki. eapply orel_bind; [apply (mapM_rel (Forall2 upd_rel)); intros c Hc; apply in_range in Hc|intros a b _ _ E; cbn; now apply concat_rel].
      eapply orel_bind; [apply (rd_rel L); exact HB|]. intros x y _ _ Exy. apply mapM_rel. intros e He. apply in_range in He. apply orel_same; intros row _.
      eapply orel_bind; [apply (H e); apply (HK c e Hc He)|]. intros a b _ _ E. cbn. split; [reflexivity|]. constructor; [now apply Lmul|constructor].
    Qed.
    Lemma csc_columns_rel K fixed v w idx ptr lB lC n m ldb C C' ldc : vrel K v w ->
      (0 < n -> if fixed : bool then forall p1 c e, rdp ptr 1 = Ok p1 -> 0 <= c < m -> c * p1 <= e < (c + 1) * p1 -> K e
                else forall c hi e, 0 <= c < m -> rdp ptr (c + 1) = Ok hi -> 0 <= e < hi -> K e) ->
      Forall2 R C C' ->
      orel (Forall2 R) (csc_columns O seq_schedule fixed v idx ptr lB lC n m B ldb C ldc) (csc_columns P seq_schedule fixed w idx ptr lB lC n m B' ldb C' ldc).
    Proof using All.
      intros H HK HC. unfold csc_columns. destruct (layout_to_strides lB ldb) as [b1 b2]. destruct (layout_to_strides lC ldc) as [c1 c2].
      eapply orel_bind; [apply (mapM_rel (Forall2 upd_rel)); intros j Hj; apply in_range in Hj|intros a b _ _ E; now apply omp_rel].
      specialize (HK ltac:(lia)). destruct fixed.
      - apply orel_same; intros q Eq. apply (regular_vector_rel K); auto. intros c e. now apply HK.
      - apply (csc_vector_rel K); auto.
    Qed.

    Definition csr_rel (A : csr_matrix T) (A' : csr_matrix U) : Prop :=
      cr_nr A = cr_nr A' /\ cr_nc A = cr_nc A' /\ cr_nnz A = cr_nnz A' /\ cr_base A = cr_base A' /\ cr_ptr A = cr_ptr A' /\ cr_idx A = cr_idx A' /\ opt_rel (cr_vals A) (cr_vals A').
    Definition csc_rel (A : csc_matrix T) (A' : csc_matrix U) : Prop :=
      cc_nr A = cc_nr A' /\ cc_nc A = cc_nc A' /\ cc_nnz A = cc_nnz A' /\ cc_base A = cc_base A' /\ cc_ptr A = cc_ptr A' /\ cc_idx A = cc_idx A' /\ opt_rel (cc_vals A) (cc_vals A').
    Definition coo_rel (A : coo_matrix T) (A' : coo_matrix U) : Prop :=
      co_nr A = co_nr A' /\ co_nc A = co_nc A' /\ co_nnz A = co_nnz A' /\ co_base A = co_base A' /\ co_sort A = co_sort A' /\ co_rows A = co_rows A' /\ co_cols A = co_cols A' /\
      opt_rel (co_vals A) (co_vals A').

    Lemma csr_jik_rel lB lC d n m A A' ldb C C' ldc : csr_rel A A' -> Forall2 R C C' ->
      orel (Forall2 R) (csr_left_jik O seq_schedule alpha lB lC d n m A B ldb C ldc) (csr_left_jik P seq_schedule alpha' lB lC d n m A' B' ldb C' ldc).
    Proof using All.
      intros (E1 & E2 & E3 & E4 & E5 & E6 & Hv) HC. unfold csr_left_jik. rewrite E1, E2, E3, E4, E5, E6. apply orel_same; intros _ _.
      eapply orel_bind; [now apply scaled_vals_rel|]. intros v w _ _ Ev. apply orel_same; intros _ _. apply orel_same; intros _ _.
      destruct (layout_to_strides lB ldb) as [b1 b2]. destruct (layout_to_strides lC ldc) as [c1 c2].
      eapply orel_bind; [apply (mapM_rel (Forall2 upd_rel)); intros j _; now apply csr_vector_rel|intros a b _ _ E; now apply omp_rel].
    Qed.
    Lemma csr_ikb_rel d n m A A' ldb C C' ldc : csr_rel A A' -> Forall2 R C C' ->
      orel (Forall2 R) (csr_left_ikb O seq_schedule alpha d n m A B ldb C ldc) (csr_left_ikb P seq_schedule alpha' d n m A' B' ldb C' ldc).
    Proof using All.
      intros (E1 & E2 & E3 & E4 & E5 & E6 & Hv) HC. unfold csr_left_ikb. rewrite E1, E2, E4, E5, E6. apply orel_same; intros _ _.
      apply orel_same; intros _ _. apply orel_same; intros _ _.
      eapply orel_bind; [apply (mapM_rel (Forall2 upd_rel)); intros j _|intros a b _ _ E; now apply omp_rel].
      apply orel_same; intros lo _. apply orel_same; intros hi _.
      eapply orel_bind; [apply (mapM_rel (Forall2 upd_rel)); intros e _|intros a b _ _ E; cbn; now apply concat_rel].
      eapply orel_bind; [apply (opt_vrel (fun _ => True) _ _ Hv e I)|]. intros a b _ _ E. apply orel_same; intros k _. apply axpy_rel. now apply Ha.
    Qed.
    Lemma csc_jki_rel lB lC d n m A A' ldb C C' ldc : csc_rel A A' -> Forall2 R C C' ->
      orel (Forall2 R) (csc_left_jki O seq_schedule alpha lB lC d n m A B ldb C ldc) (csc_left_jki P seq_schedule alpha' lB lC d n m A' B' ldb C' ldc).
    Proof using All.
      intros (E1 & E2 & E3 & E4 & E5 & E6 & Hv) HC. unfold csc_left_jki. rewrite E1, E2, E3, E4, E5, E6. apply orel_same; intros _ _.
      eapply orel_bind; [now apply scaled_vals_rel|]. intros v w _ _ Ev. apply orel_same; intros _ _. apply orel_same; intros _ _. apply orel_same; intros fx _.
      apply (csc_columns_rel (fun _ => True)); [now apply opt_vrel| |exact HC]. intros _. destruct fx; auto.
    Qed.
    Lemma csc_kib_rel nt1 nt2 d n m A A' ldb C C' ldc : csc_rel A A' -> Forall2 R C C' ->
      orel (Forall2 R) (csc_left_kib O seq_schedule nt1 nt2 alpha d n m A B ldb C ldc) (csc_left_kib P seq_schedule nt1 nt2 alpha' d n m A' B' ldb C' ldc).
    Proof using All.
      intros (E1 & E2 & E3 & E4 & E5 & E6 & Hv) HC. unfold csc_left_kib. rewrite E1, E2, E4, E5, E6. do 3 (apply orel_same; intros _ _). apply orel_same; intros bb _.
      eapply orel_bind; [apply (mapM_rel (Forall2 upd_rel)); intros t _|intros a b _ _ E; now apply omp_rel].
      do 2 (apply orel_same; intros ? _).
      eapply orel_bind; [apply (mapM_rel (Forall2 upd_rel)); intros k _|intros a b _ _ E; cbn; now apply concat_rel].
      do 2 (apply orel_same; intros ? _).
      eapply orel_bind; [apply (mapM_rel (Forall2 upd_rel)); intros e _|intros a b _ _ E; cbn; now apply concat_rel].
      apply orel_same; intros i _. destruct (_ && _); [|constructor].
      eapply orel_bind; [apply (opt_vrel (fun _ => True) _ _ Hv e I)|]. intros a b _ _ E. apply axpy_rel. now apply Ha.
    Qed.

    (** State of the filter: same counts and indices, related values in front of the count. *)
    Definition frel (N0 : Z) (s : Z * list T * list Z * list Z) (s' : Z * list U * list Z * list Z) : Prop :=
      let '(k, v, r, c) := s in let '(k', v', r', c') := s' in
      k = k' /\ 0 <= k /\ zlen v = zlen v' /\ r = r' /\ c = c' /\ forall e, 0 <= e < k -> exists x y, get v e = Some x /\ get v' e = Some y /\ L x y.
    Lemma filtered_rel v w rows cols N0 a1 a2 a3 a4 nv nv' nr nc : opt_rel v w -> zlen nv = zlen nv' ->
      orel (frel N0) (set_filtered_coo v rows cols N0 a1 a2 a3 a4 nv nr nc) (set_filtered_coo w rows cols N0 a1 a2 a3 a4 nv' nr nc).
    Proof using All.
      intros Hv Hl. unfold set_filtered_coo. apply for_rel; [|cbn; repeat split; auto; lia].
      intros ell [[[k v1] r1] c1] [[[k' v1'] r1'] c1'] He (<- & Hk & Hl1 & <- & <- & HG). apply orel_same; intros r0 _. apply orel_same; intros c0 _. destruct (_ && _ && _ && _); [|cbn; auto 10].
      eapply orel_bind; [apply (opt_vrel (fun _ => True) v w Hv ell I)|]. intros x y _ _ E.
      assert (W : orel (fun a b => zlen a = zlen b /\ forall e, 0 <= e < k + 1 -> exists x y, get a e = Some x /\ get b e = Some y /\ L x y) (wr v1 k x) (wr v1' k y)).
      { destruct (Z.lt_ge_cases k (zlen v1)) as [Lt|Ge].
        - destruct (wr_ex v1 k x ltac:(lia)) as (b1 & -> & L1 & G1 & N1). destruct (wr_ex v1' k y ltac:(lia)) as (b2 & -> & L2 & G2 & N2). cbn. split; [lia|].
          intros e Hee. destruct (Z.eq_dec e k) as [->|Ne]; [eauto|]. rewrite N1, N2 by lia. apply HG. lia.
        - unfold wr. replace (k <? zlen v1) with false by lia. replace (k <? zlen v1') with false by lia. destruct (k <? 0); exact I. }
      eapply orel_bind; [exact W|]. intros a b _ _ [Ea Eb]. do 2 (apply orel_same; intros ? _). cbn. repeat split; auto; lia.
    Qed.

    Lemma coo_sorted_rel lB lC d n m M M' ro co ldb C C' ldc :
      coo_rel M M' -> coo_arrays M -> 0 <= m -> L (o_zero O) (o_zero P) \/ coo_tight M ro co d n m -> Forall2 R C C' ->
      orel (Forall2 R) (coo_left_sorted O seq_schedule alpha lB lC d n m M ro co B ldb C ldc) (coo_left_sorted P seq_schedule alpha' lB lC d n m M' ro co B' ldb C' ldc).
    Proof using All.
      intros (E1 & E2 & E3 & E4 & E5 & E6 & E7 & Hv) (Hn & Lv & Lr & Lc) Hm Ht HC. unfold coo_left_sorted. rewrite <- E3, <- E6, <- E7.
      destruct (set_filtered_spec (co_vals M) (co_rows M) (co_cols M) (co_nnz M) m d ro co
         (repeat (o_zero O) (Z.to_nat (co_nnz M))) (repeat 0 (Z.to_nat (co_nnz M))) (repeat 0 (Z.to_nat (Z.max (co_nnz M) (m + 1)))))
        as (k & v1 & r1 & c1 & Ef & Hk & L1 & L2 & L3 & Hpad & Htr); try (rewrite ?zlen_repeat; lia).
      pose proof (filtered_rel (co_vals M) (co_vals M') (co_rows M) (co_cols M) (co_nnz M) co (co + m) ro (ro + d)
         (repeat (o_zero O) (Z.to_nat (co_nnz M))) (repeat (o_zero P) (Z.to_nat (co_nnz M))) (repeat 0 (Z.to_nat (co_nnz M))) (repeat 0 (Z.to_nat (Z.max (co_nnz M) (m + 1)))) Hv) as F.
      rewrite !zlen_repeat in F. specialize (F eq_refl). rewrite Ef in F |- *. rewrite zlen_repeat in L1. rewrite zlen_repeat in L2. rewrite zlen_repeat in L3. rewrite Z2Nat.id in L1, L2, L3 by lia.
      assert (Hlw : zlen (arrv (co_vals M')) = zlen (arrv (co_vals M))).
      { destruct (co_vals M), (co_vals M'); cbn [opt_rel arrv] in *; try contradiction; [symmetry; eapply zlen_rel; exact Hv|reflexivity]. }
      destruct (set_filtered_spec (co_vals M') (co_rows M) (co_cols M) (co_nnz M) m d ro co
         (repeat (o_zero P) (Z.to_nat (co_nnz M))) (repeat 0 (Z.to_nat (co_nnz M))) (repeat 0 (Z.to_nat (Z.max (co_nnz M) (m + 1)))))
        as (k2 & w2 & r2 & c2 & Ef2 & _ & _ & _ & _ & Hpad2 & _); try (rewrite ?zlen_repeat; lia).
      rewrite Ef2 in F |- *. cbn in F. destruct F as (<- & _ & Lw & <- & <- & HG). cbn [bind]. rename w2 into w1.
      fold (stored M) in Htr.
      destruct (scal_spec O k alpha v1 0) as (v2 & -> & Lv2 & Gs & Gs'); [lia..|]. destruct (scal_spec P k alpha' w1 0) as (w2 & -> & Lw2 & Gw & Gw'); [lia..|]. cbn [bind].
      set (Kp := fun e => 0 <= e < k \/ L (o_zero O) (o_zero P)).
      assert (HV : vrel Kp (Some v2) (Some w2)).
      { intros e He. cbn [rdp]. destruct (Z.lt_ge_cases e 0) as [Neg|Pe]. { unfold rd. replace (e <? 0) with true by lia. exact I. }
        destruct (Z.lt_ge_cases e k) as [Lt|Ge].
        - specialize (Gs e ltac:(lia)). specialize (Gw e ltac:(lia)). rewrite !Z.add_0_l in *. destruct (HG e ltac:(lia)) as (x & y & Gx & Gy & E). rewrite Gx in Gs. rewrite Gy in Gw. cbn in Gs, Gw.
          apply rd_get in Gs, Gw. rewrite Gs, Gw. cbn. now apply Ha.
        - destruct He as [He|Z00]; [lia|]. destruct (Z.lt_ge_cases e (co_nnz M)) as [Lt|Ge2].
          + specialize (Gs' e ltac:(lia)). specialize (Gw' e ltac:(lia)). rewrite (proj1 (Hpad e Ge)), get_repeat in Gs' by lia. rewrite (proj1 (Hpad2 e Ge)), get_repeat in Gw' by lia.
            apply rd_get in Gs', Gw'. rewrite Gs', Gw'. exact Z00.
          + unfold rd. replace (e <? 0) with false by lia. rewrite (proj2 (nth_error_None v2 _)), (proj2 (nth_error_None w2 _)); [exact I|unfold zlen in *; lia..]. }
      assert (Hc1 : forall e c, 0 <= e < k -> get c1 e = Some c -> 0 <= c < m).
      { intros e c He Gc. destruct (get_lt r1 e ltac:(lia)) as [r Gr]. destruct (get_lt v1 e ltac:(lia)) as [v Gv].
        assert (G : get (coo_triples k r1 c1 v1) e = Some (r, c, v)) by (apply get_coo_triples; auto; lia).
        rewrite Htr, get_map in G. destruct (get (filter (in_window ro co d m) (stored M)) e) as [[[r0 c0] v0]|] eqn:E; [|discriminate].
        cbn in G. injection G as <- <- <-. assert (In (r0, c0, v0) (filter (in_window ro co d m) (stored M))) as Hin by (apply get_In; eauto).
        apply filter_In in Hin as [_ W]. cbn in W. rewrite !andb_true_iff, !Z.leb_le, !Z.ltb_lt in W. lia. }
      destruct (pointer_array_spec k c1 m) as [(Hnd & l' & -> & Ll & Gl & Gx)|[_ ->]]; [lia..|exact Hc1| |exact I]. cbn [bind].
      assert (Cut : forall c, 0 <= count_below k c1 c <= k /\ cut k c1 c (count_below k c1 c)) by (intros; apply cut_count_below; [lia|exact Hnd]).
      destruct (fixed_spec m (Some l')) as (fx & -> & Hfx). { cbn [arrv]. lia. }
      cbn [bind]. apply (csc_columns_rel Kp); [exact HV| |exact HC]. intros Pn. destruct fx.
      - destruct Ht as [Z00|Ht]; [intros; now right|]. intros p1 c e Ep Hc He. left. cbn [rdp] in Ep. apply rd_get in Ep. rewrite Gl in Ep by lia. injection Ep as <-. destruct (Cut 1) as [B1 C1].
        destruct (Z.eq_dec m 1) as [->|N1]; [assert (c = 0) by lia; subst; lia|].
        destruct Ht as [H|[H|[H|(r & c0 & v & Hin & W)]]]; [lia..| |]; exfalso.
        { apply (f_equal zlen) in Htr. rewrite zlen_coo_triples, zlen_map in Htr by lia. unfold window_count in H. nia. }
        assert (Hin' : In (shift3 ro co (r, c0, v)) (coo_triples k r1 c1 v1)).
        { rewrite Htr. apply in_map. apply filter_In. split; [exact Hin|]. cbn in W |- *. rewrite !andb_true_iff, !Z.leb_le, !Z.ltb_lt in *. lia. }
        cbn in Hin'. apply get_In in Hin' as [e0 G]. pose proof (get_Some_lt _ _ _ G) as Be. rewrite zlen_coo_triples in Be by lia.
        apply get_coo_triples in G as (_ & Gc & _); [|lia..].
        pose proof (proj1 Hfx eq_refl m ltac:(lia)) as Q. unfold pf in Q. cbn [arrv] in Q. rewrite !Gl in Q by lia.
        destruct (Cut m) as [Bm Cm]. assert (count_below k c1 m = k). { apply (cut_all k c1 m); auto; [lia|]. intros e1 x He1 G. specialize (Hc1 e1 x He1 G). lia. }
        pose proof (C1 e0 _ Be Gc). cbn in W. rewrite !andb_true_iff, !Z.leb_le, !Z.ltb_lt in W. lia.
      - intros c hi e Hc Eh He. left. cbn [rdp] in Eh. apply rd_get in Eh. rewrite Gl in Eh by lia. injection Eh as <-. destruct (Cut (c + 1)). lia.
    Qed.
  End Dense.

End Param.

Lemma Forall2_weaken {T U : Type} (R R1 : T -> U -> Prop) x y : (forall a b, R a b -> R1 a b) -> Forall2 R x y -> Forall2 R1 x y.
Proof. intros Hi H. induction H; constructor; auto. Qed.

Section Dispatch.
  Context {T U : Type}.
  Variables (O : ops T) (P : ops U) (R L : T -> U -> Prop).
  Hypothesis LR : forall x t, L x t -> R x t.
  (** Lc relates the elements of C before the product. *)
  Variable Lc : T -> U -> Prop.
  Hypothesis LcR : forall x t, Lc x t -> R x t.
  Hypothesis R0 : R (o_zero O) (o_zero P).
  Hypothesis Lmul : forall x t y s, L x t -> L y s -> L (o_mul O x y) (o_mul P t s).
  Hypothesis Ladd : forall x t y s, R x t -> L y s -> L (o_add O x y) (o_add P t s).
  Variables (alpha beta : T) (alpha' beta' : U).
  Hypothesis Ea0 : o_eqb O alpha (o_zero O) = o_eqb P alpha' (o_zero P).
  Hypothesis Ea1 : o_eqb O alpha (o_one O) = o_eqb P alpha' (o_one P).
  Hypothesis Ha : o_eqb O alpha (o_zero O) = false -> forall x t, L x t -> L (o_mul O alpha x) (o_mul P alpha' t).
  Hypothesis Eb0 : o_eqb O beta (o_zero O) = o_eqb P beta' (o_zero P).
  Hypothesis Hb : o_eqb O beta (o_zero O) = false -> forall x t, Lc x t -> Lc (o_mul O beta x) (o_mul P beta' t).

  (** While C is being scaled: zeros have been written, or every element is still in Lc. *)
  Definition during (x : T) (t : U) : Prop := if o_eqb O beta (o_zero O) then R x t else Lc x t.
  Lemma safe_scal_rel n off inc x y : Forall2 during x y -> orel (Forall2 during) (safe_scal O n beta x off inc) (safe_scal P n beta' y off inc).
  Proof using All.
    intros H. unfold safe_scal, scal. rewrite <- Eb0. destruct (o_eqb O beta (o_zero O)) eqn:E.
    - apply for_rel; [|exact H]. intros i a b _ Hab. apply wr_rel; [exact Hab|]. unfold during. now rewrite E.
    - apply for_rel; [|exact H]. intros i a b _ Hab. eapply orel_bind; [apply (rd_rel during); exact Hab|]. intros u w _ _ Huw. apply wr_rel; [exact Hab|].
      unfold during in *. rewrite E in *. now apply Hb.
  Qed.
  Lemma scale_output_rel l rB cB d n ldb C C' ldc : Forall2 Lc C C' -> orel (Forall2 R) (scale_output O l rB cB d n ldb beta C ldc) (scale_output P l rB cB d n ldb beta' C' ldc).
  Proof using All.
    intros H. assert (H' : Forall2 during C C'). { revert H. apply Forall2_weaken. intros x t Hx. unfold during. destruct (o_eqb O beta (o_zero O)); auto. }
    apply (orel_impl (Forall2 during)); [|intros x y; apply Forall2_weaken; intros a b; unfold during; destruct (o_eqb O beta (o_zero O)); auto].
    unfold scale_output. destruct l; do 2 (apply orel_same; intros _ _); (apply for_rel; [|exact H']); intros i a b _ Hab; now apply safe_scal_rel.
  Qed.

  Definition sp_rel (A : spmat T) (A' : spmat U) : Prop :=
    match A, A' with SpCoo M, SpCoo M' => coo_rel L M M' | SpCsr M, SpCsr M' => csr_rel L M M' | SpCsc M, SpCsc M' => csc_rel L M M' | _, _ => False end.
  Definition sp_tight (A : spmat T) (ro co d n m : Z) : Prop :=
    match A with SpCoo M => coo_arrays M /\ co_sort M = SCSC /\ (L (o_zero O) (o_zero P) \/ coo_tight M ro co d n m) | _ => True end.

  Lemma left_notrans_rel ss ss' nt1 nt2 l opB d n m A A' ro co B B' ldb C C' ldc :
    Forall2 L B B' -> sp_rel A A' -> 0 <= m ->
    (o_eqb O alpha (o_zero O) = false -> sp_tight A ro co d n m) -> Forall2 Lc C C' ->
    orel (fun s s' => Forall2 R (snd s) (snd s')) (left_spmm_notrans O seq_schedule ss nt1 nt2 l opB d n m alpha A ro co B ldb beta C ldc)
      (left_spmm_notrans P seq_schedule ss' nt1 nt2 l opB d n m alpha' A' ro co B' ldb beta' C' ldc).
  Proof using All.
    intros HB HA Hm Ht HC. unfold left_spmm_notrans.
    assert (Eb : sp_base A = sp_base A') by (destruct A, A'; try contradiction; apply HA). rewrite Eb. apply orel_same; intros _ _.
    eapply (orel_bind (fun _ _ => True)).
    { destruct A as [M|M|M], A' as [M'|M'|M']; try contradiction; destruct HA as (-> & -> & _); destruct (require _); cbn; auto; destruct (require _); cbn; auto; destruct (require _); cbn; auto; destruct (require _); cbn; auto. }
    intros _ _ _ _ _. destruct (match opB with NoTrans => (m, n, l) | Trans => (n, m, flip l) end) as [[rB cB] lopB].
    eapply orel_bind; [now apply scale_output_rel|]. intros C1 C1' _ _ HC1. rewrite <- Ea0. destruct (o_eqb O alpha (o_zero O)) eqn:E0; [exact HC1|]. specialize (Ht eq_refl). specialize (Ha eq_refl).
    destruct A as [M|M|M], A' as [M'|M'|M']; try contradiction; cbn [sp_rel sp_tight] in *.
    - destruct Ht as (Har & Hs & Ht). unfold coo_left_jki. destruct HA as (E1 & E2 & E3 & E4 & E5 & E6). rewrite <- E5, Hs. cbn [sort_eqb negb].
      eapply (orel_bind (fun s s' => Forall2 R (snd s) (snd s'))); [|intros [M1 C2] [M2 C2'] _ _ H; exact H]. rewrite <- E4. apply orel_same; intros _ _.
      eapply orel_bind; [eapply (coo_sorted_rel O P R L LR R0 Lmul Ladd alpha alpha' Ea1 Ha B B' HB); eauto; repeat split; auto; apply E6|]. intros a b _ _ H. exact H.
    - eapply orel_bind; [|intros a b _ _ H; exact H].
      destruct (_ && _); [now apply (csr_ikb_rel O P R L LR R0 Lmul Ladd alpha alpha' Ea1 Ha B B' HB)|now apply (csr_jik_rel O P R L LR R0 Lmul Ladd alpha alpha' Ea1 Ha B B' HB)].
    - eapply orel_bind; [|intros a b _ _ H; exact H].
      destruct (_ && _); [now apply (csc_kib_rel O P R L LR R0 Lmul Ladd alpha alpha' Ea1 Ha B B' HB)|now apply (csc_jki_rel O P R L LR R0 Lmul Ladd alpha alpha' Ea1 Ha B B' HB)].
  Qed.
End Dispatch.
