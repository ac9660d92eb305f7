(** Out-of-bounds cases, thread counts, and facts that need no algebraic law. *)
From Coq Require Import Permutation.
From Verif Require Import Base Interleave Spec SparseSkopModel SparseSpec SparseProofs SpFmtModel SpFmtSpec SpFmtProofs SpFmtProofs2 SpFmtProofs3 SpFmtProofs4 SpFmtProofs5 SpmmModel SpmmSpec SpmmProofs SpmmProofs2 SpmmProofs3 SpmmProofs4 SpmmProofs5.

Lemma mapM_UB {A B} (f : A -> outcome B) l1 x l2 : (forall a, In a l1 -> exists b, f a = Ok b) -> f x = UB -> mapM f (l1 ++ x :: l2) = UB.
Proof.
  intros H Hx. induction l1 as [|a l1 IH]; cbn [app mapM].
  - now rewrite Hx.
  - destruct (H a) as [b ->]; [now left|]. cbn [bind]. rewrite IH; [reflexivity|]. intros; apply H; now right.
Qed.
Lemma rdp_UB {A} (p : option (list A)) i : zlen (arrv p) <= i -> rdp p i = UB.
Proof.
  intros H. destruct p as [l|]; cbn [rdp arrv] in *; [|reflexivity]. unfold rd. destruct (i <? 0); [reflexivity|].
  destruct (nth_error l (Z.to_nat i)) eqn:E; [|reflexivity]. exfalso. assert (Z.to_nat i < length l)%nat by (apply nth_error_Some; congruence). unfold zlen in H. lia.
Qed.

Lemma omp_act_ext {T E} (act : E -> T -> T) (s1 s2 : schedule E) ts1 ts2 b :
  valid_schedule s1 -> valid_schedule s2 -> race_free ts1 = true -> race_free ts2 = true ->
  (forall t e, In t ts1 -> In e t -> 0 <= fst e < zlen b) -> (forall t e, In t ts2 -> In e t -> 0 <= fst e < zlen b) ->
  (forall p, at_cell p (concat ts1) = at_cell p (concat ts2)) ->
  omp_exec act s1 ts1 b = omp_exec act s2 ts2 b.
Proof.
  intros H1 H2 R1 R2 B1 B2 Hp.
  destruct (omp_exec_Ok act s1 ts1 b H1 R1 B1) as (b1 & -> & L1 & G1).
  destruct (omp_exec_Ok act s2 ts2 b H2 R2 B2) as (b2 & -> & L2 & G2).
  f_equal. apply list_ext_get; [congruence|]. intros i Hi. rewrite G1, G2. now rewrite Hp.
Qed.

Section Lawless.
  Context {T : Type}.
  Variable O : ops T.
  Notation add := (o_add O). Notation mul := (o_mul O). Notation zero := (o_zero O). Notation one := (o_one O).

  Lemma scaled_vals_Ok alpha nnz (vals : option (list T)) : 0 <= nnz -> nnz <= zlen (arrv vals) ->
    exists vals', scaled_vals O alpha nnz vals = Ok vals' /\ nnz <= zlen (arrv vals').
  Proof.
    intros Hn Lv. unfold scaled_vals. destruct (o_eqb O alpha one).
    - exists vals. auto.
    - rewrite (mapM_Ok _ (fun e => add zero (mul alpha (vf O vals e)))).
      + cbn [bind]. eexists. split; [reflexivity|]. cbn [arrv]. rewrite zlen_map, zlen_range by lia. lia.
      + intros e He. apply in_range in He. rewrite (rdp_vf O) by lia. reflexivity.
  Qed.

  (** All nonzeros in the first of at least two columns. *)
  Lemma csc_left_jki_UB sched alpha lB lC d n m A B ldb C ldc :
    valid_csc A -> cc_base A = BZero -> d = cc_nr A -> m = cc_nc A -> 1 <= n -> 2 <= m -> 0 < cc_nnz A ->
    get (arrv (cc_ptr A)) 1 = Some (cc_nnz A) -> zlen (arrv (cc_idx A)) = cc_nnz A ->
    fits_buffer lB ldb m n (zlen B) ->
    csc_left_jki O sched alpha lB lC d n m A B ldb C ldc = UB.
  Proof.
    intros (Hr & Hc & Hn & Lv & Hi & Hp) Hb -> -> Hn1 Hm Hz G1 Li FB. unfold csc_left_jki. rewrite Hb in *. cbn [base_eqb off] in *.
    rewrite require_true. cbn [bind]. destruct (scaled_vals_Ok alpha (cc_nnz A) (cc_vals A) Hn Lv) as (vals & -> & Lv'). cbn [bind].
    rewrite !Z.eqb_refl, !require_true. cbn [bind].
    assert (P1 : pf (cc_ptr A) 1 = cc_nnz A) by (unfold pf; now rewrite G1).
    assert (Pc : forall c, 1 <= c <= cc_nc A -> pf (cc_ptr A) c = cc_nnz A).
    { intros c Hc'. pose proof (bounds_mono (pf (cc_ptr A)) (cc_nc A)) as BM.
      assert (Mo : forall t, 0 <= t < cc_nc A -> pf (cc_ptr A) t <= pf (cc_ptr A) (t + 1)) by (intros t Ht; apply (p_slice (cc_nc A) (cc_nnz A) (cc_ptr A) Hp t Ht)).
      specialize (BM Mo). pose proof (BM 1 c ltac:(lia) ltac:(lia)). pose proof (BM c (cc_nc A) ltac:(lia) ltac:(lia)). rewrite (p_n (cc_nc A) (cc_nnz A) (cc_ptr A) Hp) in *. lia. }
    destruct (fixed_spec (cc_nc A) (cc_ptr A)) as (fx & -> & Hfx). { destruct Hp; lia. }
    cbn [bind]. replace fx with true by (symmetry; apply Hfx; intros c Hc'; rewrite !Pc by lia; reflexivity).
    unfold csc_columns. pose proof (addr_strides lB ldb) as SB.
    destruct (layout_to_strides lB ldb) as [Br Bc]. destruct (layout_to_strides lC ldc) as [Cr Cc].
    rewrite (range_cons 0 n) by lia. match goal with |- context [mapM ?f (0 :: ?l)] => change (0 :: l) with ([] ++ 0 :: l); rewrite (mapM_UB f [] 0 l) end; [reflexivity|intros a []|].
    rewrite (rdp_pf (cc_ptr A)) by (destruct Hp; lia). cbn [bind]. rewrite P1. unfold regular_csc_vector_ki.
    rewrite (range_cons 0 (cc_nc A)), (range_cons (0 + 1) (cc_nc A)) by lia.
    match goal with |- context [mapM ?f (0 :: ?x :: ?l)] => change (0 :: x :: l) with ([0] ++ x :: l); rewrite (mapM_UB f [0] x l) end; [reflexivity| |].
    - intros c [<-|[]]. rewrite (SB 0 0). rewrite (rd_cell O lB ldb B (cc_nc A) n) by (auto; lia). cbn [bind].
      rewrite (mapM_Ok _ (fun j => (Cc * 0 + pf (cc_idx A) j * Cr, [mul (vf O vals j) (cell O lB ldb B 0 0)]))); [eauto|].
      intros e He. apply in_range in He. rewrite rdp_pf by lia. cbn [bind]. rewrite (rdp_vf O) by lia. reflexivity.
    - rewrite (SB (0 + 1) 0). rewrite (rd_cell O lB ldb B (cc_nc A) n) by (auto; lia). cbn [bind].
      rewrite (range_cons ((0 + 1) * cc_nnz A)) by lia. cbn [mapM]. rewrite rdp_UB by lia. reflexivity.
  Qed.

  (** ** Thread counts *)
  Lemma csc_left_kib_threads s1 s2 nt nt' alpha d n m A B ldb C ldc :
    valid_schedule s1 -> valid_schedule s2 -> valid_csc A -> cc_base A = BZero -> d = cc_nr A -> m = cc_nc A -> 0 <= n ->
    1 <= nt -> d + nt < 2 ^ 31 -> 1 <= nt' -> d + nt' < 2 ^ 31 ->
    fits_buffer RowMajor ldb m n (zlen B) -> fits_buffer RowMajor ldc d n (zlen C) ->
    csc_left_kib O s1 nt nt alpha d n m A B ldb C ldc = csc_left_kib O s2 nt' nt' alpha d n m A B ldb C ldc.
  Proof.
    intros Hs1 Hs2 (Hr & Hc & Hn & Lv & Hi & Hp) Hb -> -> Hn0 Hnt H31 Hnt' H31' FB FC. rewrite Hb in Hi. cbn [off] in Hi.
    set (ptr := cc_ptr A) in *. set (idx := cc_idx A) in *. set (vals := cc_vals A) in *.
    assert (Inj : forall i j i' j', 0 <= i < cc_nr A -> 0 <= j < n -> 0 <= i' < cc_nr A -> 0 <= j' < n -> i * ldc + j = i' * ldc + j' -> i = i' /\ j = j').
    { intros. apply (addr_inj RowMajor (cc_nr A) n ldc i j i' j'); auto. apply FC. }
    pose (row := fun k e => map (fun q => (pf idx e * ldc + q, [mul (mul alpha (vf O vals e)) (cell O RowMajor ldb B k q)])) (range 0 n)).
    pose (full := concat (map (fun k => concat (map (row k) (range (pf ptr k) (pf ptr (k + 1))))) (range 0 (cc_nc A)))).
    assert (Key : forall nt, 1 <= nt -> cc_nr A + nt < 2 ^ 31 -> exists tasks,
        (forall s, csc_left_kib O s nt nt alpha (cc_nr A) n (cc_nc A) A B ldb C ldc = omp_exec (acc O) s tasks C) /\ race_free tasks = true /\
        (forall t e, In t tasks -> In e t -> 0 <= fst e < zlen C) /\ (forall p, at_cell p (concat tasks) = at_cell p full)).
    { clear nt nt' Hnt Hnt' H31 H31'. intros nt Hnt H31.
      destruct (block_bounds_spec (cc_nr A) nt Hr Hnt H31) as (bb & Eb & Lb & B0 & Bm & (top & Bt & Htop)).
      pose (f := fun t => pf (Some bb) t).
      assert (Rf : forall t, 0 <= t <= nt -> rd bb t = Ok (f t)).
      { intros t Ht. apply (rdp_pf (Some bb) t). cbn [arrv]. lia. }
      assert (F0 : f 0 = 0) by (unfold f, pf; cbn [arrv]; now rewrite B0).
      assert (Fn : f nt = top) by (unfold f, pf; cbn [arrv]; now rewrite Bt).
      assert (Fm : forall t, 0 <= t < nt -> f t <= f (t + 1)).
      { intros t Ht. unfold f, pf; cbn [arrv]. destruct (get_lt bb t ltac:(lia)) as [a Ga]. destruct (get_lt bb (t + 1) ltac:(lia)) as [b Gb]. rewrite Ga, Gb. eauto. }
      pose (ev := fun t k e => if (f t <=? pf idx e) && (pf idx e <? f (t + 1)) then row k e else []).
      pose (task := fun t => concat (map (fun k => concat (map (ev t k) (range (pf ptr k) (pf ptr (k + 1))))) (range 0 (cc_nc A)))).
      assert (Hev : forall t u, In u (task t) -> exists i q, 0 <= i < cc_nr A /\ f t <= i < f (t + 1) /\ 0 <= q < n /\ fst u = i * ldc + q).
      { intros t u Hu. apply in_concat in Hu as (l & Hl & Hu). apply in_map_iff in Hl as (k & <- & Hk). apply in_range in Hk.
        apply in_concat in Hu as (l & Hl & Hu). apply in_map_iff in Hl as (e & <- & He). apply in_range in He. unfold ev in Hu.
        destruct ((f t <=? pf idx e) && (pf idx e <? f (t + 1))) eqn:E; [|destruct Hu]. apply andb_true_iff in E as [E1 E2].
        apply Z.leb_le in E1. apply Z.ltb_lt in E2. apply in_map_iff in Hu as (q & <- & Hq). apply in_range in Hq.
        pose proof (p_slice (cc_nc A) (cc_nnz A) ptr Hp k Hk) as Bd. destruct (rdp_x (cc_nr A) (cc_nnz A) idx Hi e ltac:(lia)) as [_ Hx].
        exists (pf idx e), q. auto. }
      assert (One : forall t t' i, 0 <= t < nt -> 0 <= t' < nt -> f t <= i < f (t + 1) -> f t' <= i < f (t' + 1) -> t = t').
      { intros t t' i Ht Ht' H1 H2. destruct (Z.lt_trichotomy t t') as [H|[H|H]]; [|exact H|].
        - pose proof (bounds_mono f nt Fm (t + 1) t' ltac:(lia) ltac:(lia)). lia.
        - pose proof (bounds_mono f nt Fm (t' + 1) t ltac:(lia) ltac:(lia)). lia. }
      exists (map task (range 0 nt)). split; [|split; [|split]].
      - intros s. unfold csc_left_kib. rewrite Hb. cbn [base_eqb]. rewrite !Z.eqb_refl, !require_true, Eb. cbn [bind]. fold ptr idx vals.
        rewrite (mapM_Ok _ task); [reflexivity|].
        intros t Ht. apply in_range in Ht. rewrite !Rf by lia. cbn [bind].
        rewrite (mapM_Ok _ (fun k => concat (map (ev t k) (range (pf ptr k) (pf ptr (k + 1)))))); [reflexivity|].
        intros k Hk. apply in_range in Hk. rewrite !(rdp_p (cc_nc A) (cc_nnz A) ptr Hp) by lia. cbn [bind].
        pose proof (p_slice (cc_nc A) (cc_nnz A) ptr Hp k Hk) as Bd.
        rewrite (mapM_Ok _ (ev t k)); [reflexivity|]. intros e He. apply in_range in He.
        destruct (rdp_x (cc_nr A) (cc_nnz A) idx Hi e ltac:(lia)) as [-> Hx]. cbn [bind]. unfold ev.
        destruct ((f t <=? pf idx e) && (pf idx e <? f (t + 1))); [|reflexivity]. rewrite (rdp_vf O) by lia. cbn [bind].
        rewrite (axpy_updates_spec O n _ B ldb (cc_nc A)); auto.
      - apply race_free_map; [apply NoDup_range|]. intros t t' Ht Ht' Hne e e' He He'. apply in_range in Ht, Ht'.
        destruct (Hev t e He) as (i & q & Hi1 & Hi2 & Hq & ->). destruct (Hev t' e' He') as (i' & q' & Hi1' & Hi2' & Hq' & ->).
        intros E. apply Inj in E as [E _]; auto. subst i'. apply Hne. eapply One; eauto.
      - intros t e Ht He. apply in_map_iff in Ht as (t' & <- & _). destruct (Hev t' e He) as (i & q & Hi1 & Hi2 & Hq & ->).
        destruct FC as [F1 F2]. cbn [min_ld addr] in *. specialize (F2 i q Hi1 Hq). nia.
      - intros p.
        (* the row of p, if p is a cell *)
        assert (Cases : (exists i q, 0 <= i < cc_nr A /\ 0 <= q < n /\ p = i * ldc + q) \/ ~ (exists i q, 0 <= i < cc_nr A /\ 0 <= q < n /\ p = i * ldc + q)).
        { destruct (existsb (fun i => existsb (fun q => p =? i * ldc + q) (range 0 n)) (range 0 (cc_nr A))) eqn:Ex.
          - left. apply existsb_exists in Ex as (i & Hi' & Ex). apply existsb_exists in Ex as (q & Hq & Ex). apply in_range in Hi', Hq. apply Z.eqb_eq in Ex. eauto.
          - right. intros (i & q & Hi' & Hq & Ep). apply not_true_iff_false in Ex. apply Ex. apply existsb_exists. exists i. split; [now apply in_range|].
            apply existsb_exists. exists q. split; [now apply in_range|]. now apply Z.eqb_eq. }
        assert (Hfull : forall u, In u full -> exists i q, 0 <= i < cc_nr A /\ 0 <= q < n /\ fst u = i * ldc + q).
        { intros u Hu. apply in_concat in Hu as (l & Hl & Hu). apply in_map_iff in Hl as (k & <- & Hk). apply in_range in Hk.
          apply in_concat in Hu as (l & Hl & Hu). apply in_map_iff in Hl as (e & <- & He). apply in_range in He.
          apply in_map_iff in Hu as (q & <- & Hq). apply in_range in Hq.
          pose proof (p_slice (cc_nc A) (cc_nnz A) ptr Hp k Hk) as Bd. destruct (rdp_x (cc_nr A) (cc_nnz A) idx Hi e ltac:(lia)) as [_ Hx].
          exists (pf idx e), q. auto. }
        destruct Cases as [(i & q & Hi1 & Hq & Ep)|Hno].
        + destruct (bounds_find f nt i ltac:(lia) ltac:(lia) ltac:(lia)) as (t & Ht & Hti).
          rewrite at_cell_concat. rewrite map_map.
          assert (Others : forall t', 0 <= t' < nt -> t' <> t -> at_cell p (task t') = []).
          { intros t' Ht' Hne. apply at_cell_nil_iff. intros u Hu E. destruct (Hev t' u Hu) as (i' & q' & Hi1' & Hi2' & Hq' & E').
            rewrite E', Ep in E. apply Inj in E as [-> _]; auto. apply Hne. symmetry. eapply One; eauto. }
          rewrite <- flat_map_concat_map. rewrite (flat_map_one _ (range 0 nt) t); [|apply NoDup_range|apply in_range; lia|].
          2: { intros t' Ht' Hne. apply in_range in Ht'. auto. }
          unfold task, full. rewrite !at_cell_concat, !map_map. f_equal. apply map_ext_in. intros k Hk. apply in_range in Hk.
          rewrite !at_cell_concat, !map_map. f_equal. apply map_ext_in. intros e He. apply in_range in He.
          unfold ev. destruct ((f t <=? pf idx e) && (pf idx e <? f (t + 1))) eqn:Ef; [reflexivity|].
          change (at_cell p []) with (@nil (list T)). symmetry. apply at_cell_nil_iff. intros u Hu E. apply in_map_iff in Hu as (q' & <- & Hq'). apply in_range in Hq'. cbn [fst] in E.
          pose proof (p_slice (cc_nc A) (cc_nnz A) ptr Hp k Hk) as Bd. destruct (rdp_x (cc_nr A) (cc_nnz A) idx Hi e ltac:(lia)) as [_ Hx].
          rewrite Ep in E. apply Inj in E as [E _]; auto. rewrite E in Ef. apply not_true_iff_false in Ef. apply Ef. rewrite andb_true_iff, Z.leb_le, Z.ltb_lt. lia.
        + rewrite (proj2 (at_cell_nil_iff p full)).
          * apply at_cell_nil_iff. intros u Hu E. apply in_concat in Hu as (l & Hl & Hu). apply in_map_iff in Hl as (t & <- & _).
            destruct (Hev t u Hu) as (i & q & Hi1 & _ & Hq & E'). apply Hno. exists i, q. split; [auto|]. split; [auto|]. congruence.
          * intros u Hu E. destruct (Hfull u Hu) as (i & q & Hi1 & Hq & E'). apply Hno. exists i, q. split; [auto|]. split; [auto|]. congruence. }
    destruct (Key nt Hnt H31) as (ts1 & E1 & R1 & B1 & C1). destruct (Key nt' Hnt' H31') as (ts2 & E2 & R2 & B2 & C2).
    rewrite E1, E2. apply omp_act_ext; auto. intros p. now rewrite C1, C2.
  Qed.

  (** ** Schedules *)
  Variables (s1 s2 : schedule (list T)).
  Hypothesis H1 : valid_schedule s1.
  Hypothesis H2 : valid_schedule s2.
  Lemma omp_sched ts (C : list T) : omp_exec (acc O) s1 ts C = omp_exec (acc O) s2 ts C.
  Proof using H1 H2. now apply omp_exec_any_schedule. Qed.
  Ltac sched := repeat first [rewrite omp_sched; reflexivity | reflexivity | match goal with
    | |- bind ?a _ = bind ?a _ => destruct a; cbn [bind]; [|reflexivity|reflexivity]
    | |- (let '(_, _) := ?a in _) = (let '(_, _) := ?a in _) => destruct a
    end].
  Lemma csr_left_jik_sched alpha lB lC d n m A B ldb C ldc : csr_left_jik O s1 alpha lB lC d n m A B ldb C ldc = csr_left_jik O s2 alpha lB lC d n m A B ldb C ldc.
  Proof using H1 H2. unfold csr_left_jik. sched. Qed.
  Lemma csr_left_ikb_sched alpha d n m A B ldb C ldc : csr_left_ikb O s1 alpha d n m A B ldb C ldc = csr_left_ikb O s2 alpha d n m A B ldb C ldc.
  Proof using H1 H2. unfold csr_left_ikb. sched. Qed.
  Lemma csc_columns_sched fx vals idx ptr lB lC n m B ldb C ldc : csc_columns O s1 fx vals idx ptr lB lC n m B ldb C ldc = csc_columns O s2 fx vals idx ptr lB lC n m B ldb C ldc.
  Proof using H1 H2. unfold csc_columns. sched. Qed.
  Lemma csc_left_jki_sched alpha lB lC d n m A B ldb C ldc : csc_left_jki O s1 alpha lB lC d n m A B ldb C ldc = csc_left_jki O s2 alpha lB lC d n m A B ldb C ldc.
  Proof using H1 H2. unfold csc_left_jki. sched. apply csc_columns_sched. Qed.
  Lemma csc_left_kib_sched a b alpha d n m A B ldb C ldc : csc_left_kib O s1 a b alpha d n m A B ldb C ldc = csc_left_kib O s2 a b alpha d n m A B ldb C ldc.
  Proof using H1 H2. unfold csc_left_kib. sched. Qed.
  Lemma coo_left_sorted_sched alpha lB lC d n m A ro co B ldb C ldc :
    coo_left_sorted O s1 alpha lB lC d n m A ro co B ldb C ldc = coo_left_sorted O s2 alpha lB lC d n m A ro co B ldb C ldc.
  Proof using H1 H2. unfold coo_left_sorted. sched. apply csc_columns_sched. Qed.
  Lemma coo_left_jki_sched ss alpha lB lC d n m A ro co B ldb C ldc :
    coo_left_jki O s1 ss alpha lB lC d n m A ro co B ldb C ldc = coo_left_jki O s2 ss alpha lB lC d n m A ro co B ldb C ldc.
  Proof using H1 H2.
    unfold coo_left_jki. destruct (require _); cbn [bind]; [|reflexivity|reflexivity]. destruct (negb _).
    - destruct (sort_coo ss SCSC A); cbn [bind]; [|reflexivity|reflexivity]. now rewrite coo_left_sorted_sched.
    - now rewrite coo_left_sorted_sched.
  Qed.
  Lemma left_notrans_sched ss a b l opB d n m alpha A ro co B ldb beta C ldc :
    left_spmm_notrans O s1 ss a b l opB d n m alpha A ro co B ldb beta C ldc = left_spmm_notrans O s2 ss a b l opB d n m alpha A ro co B ldb beta C ldc.
  Proof using H1 H2.
    unfold left_spmm_notrans. destruct (require _); cbn [bind]; [|reflexivity|reflexivity].
    match goal with |- bind ?a _ = bind ?a _ => destruct a; cbn [bind]; [|reflexivity|reflexivity] end.
    match goal with |- (let '(_, _) := ?a in _) = _ => destruct a as [[? ?] ?] end.
    match goal with |- bind ?a _ = bind ?a _ => destruct a; cbn [bind]; [|reflexivity|reflexivity] end.
    destruct (o_eqb O alpha zero); [reflexivity|]. destruct A.
    - now rewrite coo_left_jki_sched.
    - destruct (_ && _); [now rewrite csr_left_ikb_sched|now rewrite csr_left_jik_sched].
    - destruct (_ && _); [now rewrite csc_left_kib_sched|now rewrite csc_left_jki_sched].
  Qed.
  Lemma left_sched ss a b l opA opB d n m alpha A ro co B ldb beta C ldc :
    left_spmm O s1 ss a b l opA opB d n m alpha A ro co B ldb beta C ldc = left_spmm O s2 ss a b l opA opB d n m alpha A ro co B ldb beta C ldc.
  Proof using H1 H2.
    unfold left_spmm. destruct opA; [apply left_notrans_sched|]. destruct A.
    - destruct (coo_transpose M); cbn [bind]; [|reflexivity|reflexivity]. now rewrite left_notrans_sched.
    - destruct (transpose_as_csc zero M true); cbn [bind]; [|reflexivity|reflexivity]. now rewrite left_notrans_sched.
    - destruct (transpose_as_csr zero M true); cbn [bind]; [|reflexivity|reflexivity]. now rewrite left_notrans_sched.
  Qed.
End Lawless.
