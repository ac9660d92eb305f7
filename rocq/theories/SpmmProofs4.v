(** The kernel for coordinate-format matrices, and the output scaling. *)
From Coq Require Import Permutation.
From Verif Require Import Base Interleave Spec SparseSkopModel SparseSpec SparseProofs SpFmtModel SpFmtSpec SpFmtProofs SpFmtProofs2 SpFmtProofs3 SpFmtProofs4 SpFmtProofs5 SpmmModel SpmmSpec SpmmProofs SpmmProofs2 SpmmProofs3.

Definition ord {A} (R : A -> A -> Prop) (l : list A) : Prop :=
  forall p q x y, 0 <= p < q -> get l p = Some x -> get l q = Some y -> R x y.
Lemma ord_cons {A} (R : A -> A -> Prop) a l : ord R (a :: l) <-> (forall y, In y l -> R a y) /\ ord R l.
Proof.
  split.
  - intros H. split.
    + intros y Hy. apply get_In in Hy as [q G]. pose proof (get_Some_lt _ _ _ G). apply (H 0 (q + 1)); [lia|apply get_cons_0|].
      rewrite get_cons_S by lia. now replace (q + 1 - 1) with q by lia.
    + intros p q x y Hp G1 G2. apply (H (p + 1) (q + 1)); [lia| |]; rewrite get_cons_S by lia; [now replace (p + 1 - 1) with p by lia|now replace (q + 1 - 1) with q by lia].
  - intros [H1 H2] p q x y Hp G1 G2. rewrite (get_cons_S a l q) in G2 by lia. destruct (Z.eq_dec p 0) as [->|N].
    + rewrite get_cons_0 in G1. injection G1 as <-. apply H1. apply get_In. eauto.
    + rewrite get_cons_S in G1 by lia. apply (H2 (p - 1) (q - 1)); auto. lia.
Qed.
Lemma ord_filter {A} (R : A -> A -> Prop) f l : ord R l -> ord R (filter f l).
Proof.
  induction l as [|a l IH]; intros H; [exact H|]. apply ord_cons in H as [H1 H2]. cbn [filter]. destruct (f a); [|auto].
  apply ord_cons. split; [|auto]. intros y Hy. apply filter_In in Hy. apply H1. tauto.
Qed.
Lemma ord_map {A B} (R : B -> B -> Prop) (g : A -> B) l : ord (fun x y => R (g x) (g y)) l -> ord R (map g l).
Proof.
  intros H p q x y Hp G1 G2. rewrite get_map in G1, G2. destruct (get l p) eqn:E1; [|discriminate]. destruct (get l q) eqn:E2; [|discriminate].
  cbn in G1, G2. injection G1 as <-. injection G2 as <-. eauto.
Qed.

Lemma Permutation_filter {A} (f : A -> bool) l l' : Permutation l l' -> Permutation (filter f l) (filter f l').
Proof.
  induction 1 as [|x l l' P IH|x y l|l1 l2 l3 P1 I1 P2 I2]; cbn [filter]; [constructor| | |eapply Permutation_trans; eauto].
  - destruct (f x); auto.
  - destruct (f x), (f y); auto. constructor.
Qed.
Lemma cut_ex nnz l k : 0 <= nnz <= zlen l -> nondecreasing nnz l -> exists p, 0 <= p <= nnz /\ cut nnz l k p.
Proof.
  intros [Hn Hl]. revert Hl. pattern nnz. apply natlike_ind; [| |exact Hn].
  - intros _ _. exists 0. split; [lia|]. intros e x He; lia.
  - intros n H0 IH Hl Hs. destruct IH as (p & Hp & Hc); [lia|intros a b x y Ha Hb; apply Hs; lia|].
    destruct (get_lt l n ltac:(lia)) as [x G]. destruct (Z.lt_ge_cases x k) as [H|H].
    + exists (Z.succ n). split; [lia|]. intros e y He Gy. split; [lia|]. intros _. destruct (Z.eq_dec e n) as [->|N]; [congruence|].
      pose proof (Hs e n y x ltac:(lia) ltac:(lia) Gy G). lia.
    + exists p. split; [lia|]. intros e y He Gy. destruct (Z.eq_dec e n) as [->|N]; [rewrite G in Gy; injection Gy as <-; lia|]. apply Hc; [lia|exact Gy].
Qed.
Lemma cut_count_below nnz l k : 0 <= nnz <= zlen l -> nondecreasing nnz l -> 0 <= count_below nnz l k <= nnz /\ cut nnz l k (count_below nnz l k).
Proof. intros Hn Hs. destruct (cut_ex nnz l k Hn Hs) as (p & Hp & Hc). now rewrite (cut_count nnz l k p Hn Hp Hc). Qed.

Lemma coo_triples_snoc {T} k rows cols (vals : list T) r c v : 0 <= k -> get rows k = Some r -> get cols k = Some c -> get vals k = Some v ->
  coo_triples (k + 1) rows cols vals = coo_triples k rows cols vals ++ [(r, c, v)].
Proof. intros Hk Gr Gc Gv. unfold coo_triples. rewrite range_snoc, flat_map_app by lia. cbn [flat_map]. now rewrite Gr, Gc, Gv. Qed.
Lemma coo_triples_ext {T} k rows cols (vals : list T) rows' cols' vals' :
  (forall e, 0 <= e < k -> get rows e = get rows' e /\ get cols e = get cols' e /\ get vals e = get vals' e) ->
  coo_triples k rows cols vals = coo_triples k rows' cols' vals'.
Proof. intros H. apply flat_map_ext_in. intros e He. apply in_range in He. destruct (H e He) as (-> & -> & ->). reflexivity. Qed.
Section Coo.
  Context {T : Type}.
  Variable O : ops T.
  Notation add := (o_add O). Notation mul := (o_mul O). Notation zero := (o_zero O). Notation one := (o_one O).

  Definition shift3 (ro co : Z) (t : Z * Z * T) : Z * Z * T := let '(r, c, v) := t in (r - ro, c - co, v).

  Lemma set_filtered_spec vals rows cols N0 m d ro co (nv : list T) nr nc :
    0 <= N0 -> N0 <= zlen (arrv vals) -> N0 <= zlen (arrv rows) -> N0 <= zlen (arrv cols) ->
    N0 <= zlen nv -> N0 <= zlen nr -> N0 <= zlen nc ->
    exists k nv' nr' nc', set_filtered_coo vals rows cols N0 co (co + m) ro (ro + d) nv nr nc = Ok (k, nv', nr', nc') /\
      0 <= k <= N0 /\ zlen nv' = zlen nv /\ zlen nr' = zlen nr /\ zlen nc' = zlen nc /\
      (forall e, k <= e -> get nv' e = get nv e /\ get nr' e = get nr e /\ get nc' e = get nc e) /\
      coo_triples k nr' nc' nv' = map (shift3 ro co) (filter (in_window ro co d m) (coo_triples N0 (arrv rows) (arrv cols) (arrv vals))).
  Proof.
    intros HN Lv Lr Lc Mv Mr Mc. unfold set_filtered_coo.
    match goal with |- context [for_ 0 N0 ?body _] => destruct (for_inv (fun ell (st : Z * list T * list Z * list Z) => let '(k, nv', nr', nc') := st in
      0 <= k <= ell /\ zlen nv' = zlen nv /\ zlen nr' = zlen nr /\ zlen nc' = zlen nc /\
      (forall e, k <= e -> get nv' e = get nv e /\ get nr' e = get nr e /\ get nc' e = get nc e) /\
      coo_triples k nr' nc' nv' = map (shift3 ro co) (filter (in_window ro co d m) (coo_triples ell (arrv rows) (arrv cols) (arrv vals)))) 0 N0 body (0, nv, nr, nc)) as ([[[k nv'] nr'] nc'] & E & I) end.
    - exact HN.
    - split; [lia|]. do 3 (split; [reflexivity|]). split; [auto|]. reflexivity.
    - intros ell [[[k nv'] nr'] nc'] He (Hk & L1 & L2 & L3 & Hu & Ht).
      destruct (rdp_ex rows ell ltac:(lia)) as (r & -> & Gr). destruct (rdp_ex cols ell ltac:(lia)) as (c & -> & Gc). cbn [bind].
      destruct (rdp_ex vals ell ltac:(lia)) as (v & Ev & Gv).
      rewrite (coo_triples_snoc ell (arrv rows) (arrv cols) (arrv vals) r c v ltac:(lia) Gr Gc Gv). rewrite filter_app, map_app. cbn [filter in_window].
      destruct ((ro <=? r) && (r <? ro + d) && (co <=? c) && (c <? co + m)).
      + rewrite Ev. cbn [bind].
        destruct (wr_ex nv' k v ltac:(lia)) as (v2 & -> & M1 & E1 & N1). cbn [bind].
        destruct (wr_ex nr' k (r - ro) ltac:(lia)) as (r2 & -> & M2 & E2 & N2). cbn [bind].
        destruct (wr_ex nc' k (c - co) ltac:(lia)) as (c2 & -> & M3 & E3 & N3). cbn [bind].
        eexists. split; [reflexivity|]. cbn beta iota. split; [lia|]. do 3 (split; [lia|]). split.
        * intros e Hle. rewrite N1, N2, N3 by lia. apply Hu. lia.
        * rewrite (coo_triples_snoc k r2 c2 v2 (r - ro) (c - co) v ltac:(lia) E2 E3 E1). rewrite <- Ht. f_equal.
          apply coo_triples_ext. intros e Hle. now rewrite N1, N2, N3 by lia.
      + eexists. split; [reflexivity|]. cbn beta iota. rewrite app_nil_r. split; [lia|]. auto.
    - exists k, nv', nr', nc'. auto.
  Qed.

  (** blas::scal on the first n elements. *)
  Lemma scal_spec n a x off : 0 <= n -> 0 <= off -> off + n <= zlen x ->
    exists x', scal O n a x off 1 = Ok x' /\ zlen x' = zlen x /\
      (forall e, 0 <= e < n -> get x' (off + e) = option_map (mul a) (get x (off + e))) /\
      (forall e, e < off \/ off + n <= e -> get x' e = get x e).
  Proof.
    intros Hn Ho Hx. unfold scal.
    destruct (for_inv (fun k x' => zlen x' = zlen x /\ (forall e, 0 <= e < k -> get x' (off + e) = option_map (mul a) (get x (off + e))) /\
        (forall e, e < off \/ off + k <= e -> get x' e = get x e)) 0 n
        (fun i x => v <- rd x (off + i * 1) ;; wr x (off + i * 1) (mul a v)) x) as (x' & E & I).
    - exact Hn.
    - split; [reflexivity|]. split; [intros; lia|auto].
    - intros i x' Hi (L & G1 & G2). rewrite Z.mul_1_r. destruct (rd_lt x' (off + i) ltac:(lia)) as (v & -> & Gv). cbn [bind].
      destruct (wr_ex x' (off + i) (mul a v) ltac:(lia)) as (x2 & -> & L2 & E2 & N2). eexists. split; [reflexivity|]. split; [lia|]. split.
      + intros e He. destruct (Z.eq_dec e i) as [->|N]; [|rewrite N2 by lia; apply G1; lia]. rewrite E2. rewrite G2 in Gv by lia. now rewrite Gv.
      + intros e He. rewrite N2 by lia. apply G2. lia.
    - exists x'. auto.
  Qed.

  Lemma window_values ro co d m (l : list (Z * Z * T)) i c : 0 <= i < d -> 0 <= c < m ->
    flat_map (fun t : Z * Z * T => if (fst (fst t) =? i) && (snd (fst t) =? c) then [snd t] else []) (map (shift3 ro co) (filter (in_window ro co d m) l)) =
    flat_map (fun t : Z * Z * T => if (fst (fst t) =? ro + i) && (snd (fst t) =? co + c) then [snd t] else []) l.
  Proof.
    intros Hi Hc. induction l as [|[[r c0] v] l IH]; [reflexivity|]. cbn [filter flat_map fst snd]. rewrite <- IH.
    unfold in_window at 1. destruct ((ro <=? r) && (r <? ro + d) && (co <=? c0) && (c0 <? co + m)) eqn:W.
    - cbn [map flat_map shift3 fst snd]. f_equal.
      replace (r - ro =? i) with (r =? ro + i) by (apply eq_true_iff_eq; rewrite !Z.eqb_eq; lia).
      replace (c0 - co =? c) with (c0 =? co + c) by (apply eq_true_iff_eq; rewrite !Z.eqb_eq; lia). reflexivity.
    - destruct (Z.eqb_spec r (ro + i)), (Z.eqb_spec c0 (co + c)); cbn [andb app]; try reflexivity. exfalso. subst.
      apply not_true_iff_false in W. apply W. rewrite !andb_true_iff, !Z.leb_le, !Z.ltb_lt. lia.
  Qed.

  Hypothesis L : semiring O.

  Definition coo_sum (M : coo_matrix T) (ro co : Z) (alpha : T) (m : Z) (b : Z -> Z -> T) (i j : Z) : T :=
    mul alpha (bigsum O (fun k => mul (sumT O (coo_at M (ro + i) (co + k))) (b k j)) 0 m).

  Lemma coo_left_sorted_spec sched alpha lB lC d n m M ro co B ldb C ldc :
    valid_schedule sched -> coo_arrays M -> co_base M = BZero -> nondecreasing (co_nnz M) (arrv (co_cols M)) ->
    0 <= n -> 0 <= m -> coo_safe M ro co d n m ->
    fits_buffer lB ldb m n (zlen B) -> fits_buffer lC ldc d n (zlen C) ->
    exists C', coo_left_sorted O sched alpha lB lC d n m M ro co B ldb C ldc = Ok C' /\
      adds O lC d n (coo_sum M ro co alpha m (cell O lB ldb B)) C ldc C'.
  Proof using L.
    intros Hs (Hn & Lv & Lr & Lc) Hb Hnd Hn0 Hm Hsafe FB FC. unfold coo_left_sorted.
    destruct (set_filtered_spec (co_vals M) (co_rows M) (co_cols M) (co_nnz M) m d ro co
       (repeat zero (Z.to_nat (co_nnz M))) (repeat 0 (Z.to_nat (co_nnz M))) (repeat 0 (Z.to_nat (Z.max (co_nnz M) (m + 1)))))
      as (k & v1 & r1 & c1 & -> & Hk & L1 & L2 & L3 & Hpad & Htr); try (rewrite ?zlen_repeat; lia).
    cbn [bind]. rewrite zlen_repeat in L1. rewrite zlen_repeat in L2. rewrite zlen_repeat in L3. rewrite Z2Nat.id in L1, L2, L3 by lia.
    fold (stored M) in Htr. set (N0 := co_nnz M) in *.
    assert (Hcount : k = window_count M ro co d m).
    { unfold window_count. rewrite <- (zlen_map (shift3 ro co)), <- Htr. symmetry. apply zlen_coo_triples; lia. }
    (* facts about the filtered entries *)
    assert (Hent : forall e r c, 0 <= e < k -> get r1 e = Some r -> get c1 e = Some c -> 0 <= r < d /\ 0 <= c < m).
    { intros e r c He Gr Gc. destruct (get_lt v1 e ltac:(lia)) as [v Gv].
      assert (G : get (coo_triples k r1 c1 v1) e = Some (r, c, v)) by (apply get_coo_triples; auto; lia).
      rewrite Htr, get_map in G. destruct (get (filter (in_window ro co d m) (stored M)) e) as [[[r0 c0] v0]|] eqn:E; [|discriminate].
      cbn in G. injection G as <- <- <-. assert (In (r0, c0, v0) (filter (in_window ro co d m) (stored M))) as Hin by (apply get_In; eauto).
      apply filter_In in Hin as [_ W]. cbn in W. rewrite !andb_true_iff, !Z.leb_le, !Z.ltb_lt in W. lia. }
    assert (Hr1 : idx_ok k d 0 r1).
    { split; [lia|]. intros e r He Gr. destruct (get_lt c1 e ltac:(lia)) as [c Gc]. specialize (Hent e r c He Gr Gc). lia. }
    assert (Hc1 : forall e c, 0 <= e < k -> get c1 e = Some c -> 0 <= c < m).
    { intros e c He Gc. destruct (get_lt r1 e ltac:(lia)) as [r Gr]. specialize (Hent e r c He Gr Gc). lia. }
    assert (Hnd1 : nondecreasing k c1).
    { assert (Ho : ord (fun x y : Z * Z * T => snd (fst x) <= snd (fst y)) (coo_triples k r1 c1 v1)).
      { rewrite Htr. apply ord_map. intros p q x y Hp Gx Gy.
        assert (Ho : ord (fun x y : Z * Z * T => snd (fst x) <= snd (fst y)) (filter (in_window ro co d m) (stored M))).
        { apply ord_filter. intros p' q' [[ra ca] va] [[rb cb] vb] Hp' Ga Gb. unfold stored in Ga, Gb. fold N0 in Ga, Gb.
          pose proof (get_Some_lt _ _ _ Ga) as Ba. pose proof (get_Some_lt _ _ _ Gb) as Bb. rewrite zlen_coo_triples in Ba, Bb by lia.
          apply get_coo_triples in Ga; [|lia..]. apply get_coo_triples in Gb; [|lia..]. cbn.
          apply (Hnd p' q'); try lia; try apply Ga; apply Gb. }
        specialize (Ho p q x y Hp Gx Gy). destruct x as [[rx cx] vx], y as [[ry cy] vy]. cbn in *. lia. }
      intros p q x y Hp Hq Gx Gy. destruct (get_lt r1 p ltac:(lia)) as [rp Gp]. destruct (get_lt r1 q ltac:(lia)) as [rq Gq].
      destruct (get_lt v1 p ltac:(lia)) as [vp Gvp]. destruct (get_lt v1 q ltac:(lia)) as [vq Gvq].
      apply (Ho p q (rp, x, vp) (rq, y, vq) Hp); apply get_coo_triples; auto; lia. }
    (* scaling *)
    destruct (scal_spec k alpha v1 0) as (v2 & -> & Lv2 & Gs & Gu); [lia..|]. cbn [bind].
    (* pointer array *)
    destruct (pointer_array_spec k c1 m) as [(_ & l' & -> & Ll & Gl & Gx)|[Hbad _]]; [lia..|exact Hc1| |contradiction]. cbn [bind].
    assert (Cut : forall c, 0 <= count_below k c1 c <= k /\ cut k c1 c (count_below k c1 c)) by (intros; apply cut_count_below; [lia|exact Hnd1]).
    assert (Hp : ptr_ok m k (arrv (Some l'))).
    { cbn [arrv]. split; [lia|]. split; [|split].
      - rewrite Gl by lia. f_equal. destruct (Cut 0) as [B0 C0]. destruct (Z.eq_dec (count_below k c1 0) 0) as [E|E]; [exact E|].
        destruct (get_lt c1 0 ltac:(lia)) as [x G]. pose proof (C0 0 x ltac:(lia) G). pose proof (Hc1 0 x ltac:(lia) G). lia.
      - rewrite Gl by lia. f_equal. destruct (Cut m) as [B0 C0]. apply (cut_all k c1 m); auto; [lia|]. intros e x He G. specialize (Hc1 e x He G). lia.
      - intros i a b Hi Ga Gb. rewrite Gl in Ga, Gb by lia. injection Ga as <-. injection Gb as <-.
        destruct (Cut i) as [B0 C0]. destruct (Cut (i + 1)) as [B1 C1]. destruct (Z.le_gt_cases (count_below k c1 i) (count_below k c1 (i + 1))); [auto|].
        destruct (get_lt c1 (count_below k c1 (i + 1)) ltac:(lia)) as [x G].
        pose proof (C0 (count_below k c1 (i + 1)) x ltac:(lia) G). pose proof (C1 (count_below k c1 (i + 1)) x ltac:(lia) G). lia. }
    destruct (fixed_spec m (Some l')) as (fx & -> & Hfx). { cbn [arrv]. lia. }
    cbn [bind].
    destruct (csc_columns_spec O L d n m k (Some l') (Some r1) (Some v2) (Some v1) alpha Hn0 Hm ltac:(lia) Hr1 Hp
      ltac:(cbn [arrv]; lia) ltac:(cbn [arrv]; lia)) with (sched := sched) (fixed := fx) (lB := lB) (ldb := ldb) (B := B) (lC := lC) (ldc := ldc) (C := C) as (C' & E & Ad); auto.
    - intros e He. unfold vf. cbn [arrv]. specialize (Gs e He). rewrite Z.add_0_l in Gs. rewrite Gs. destruct (get_lt v1 e ltac:(lia)) as [v ->]. reflexivity.
    - intros ->. pose proof (proj1 Hfx eq_refl) as Hall. clear Hfx.
      destruct Hsafe as [H|[H|[[H H2]|[H2 Hw]]]]; [left; lia|right..].
      + assert (P1 : pf (Some l') 1 = k) by (pose proof (p_n m k (Some l') Hp) as Pn; rewrite H in Pn; exact Pn).
        unfold regular_ok. rewrite P1, H in *. cbn [arrv]. repeat split; intros; lia.
      + assert (k = 0). { destruct (Z.eq_dec k 0); [auto|]. destruct (get_lt c1 0 ltac:(lia)) as [x G]. specialize (Hc1 0 x ltac:(lia) G). lia. }
        assert (P1 : pf (Some l') 1 = 0).
        { unfold pf. cbn [arrv]. rewrite Gx by lia. destruct (Hpad 1 ltac:(lia)) as (_ & _ & ->). rewrite get_repeat by lia. reflexivity. }
        unfold regular_ok. rewrite P1. cbn [arrv]. repeat split; intros; lia.
      + assert (P1 : pf (Some l') 1 = k) by (rewrite <- (p_n m k (Some l') Hp); apply Hall; lia).
        destruct Hw as [(r & c & v & Hin & W)|Hw].
        * exfalso. assert (Hin' : In (shift3 ro co (r, c, v)) (coo_triples k r1 c1 v1)).
          { rewrite Htr. apply in_map. apply filter_In. split; [exact Hin|]. cbn in W |- *. rewrite !andb_true_iff, !Z.leb_le, !Z.ltb_lt in *. lia. }
          cbn in Hin'. apply get_In in Hin' as [e G]. pose proof (get_Some_lt _ _ _ G) as Be. rewrite zlen_coo_triples in Be by lia.
          apply get_coo_triples in G as (_ & Gc & _); [|lia..]. destruct (Cut 1) as [B0 C0].
          assert (count_below k c1 1 = k). { unfold pf in P1. cbn [arrv] in P1. rewrite Gl in P1 by lia. exact P1. }
          pose proof (C0 e _ Be Gc). cbn in W. rewrite !andb_true_iff, !Z.leb_le, !Z.ltb_lt in W. lia.
        * rewrite <- Hcount in Hw. fold N0 in Hw. unfold regular_ok. rewrite P1. cbn [arrv]. split; [lia|]. split; [intros c Hc; rewrite <- P1; now apply Hall|].
          do 3 (split; [lia|]). intros e He. unfold pf, vf. cbn [arrv].
          destruct (Hpad e ltac:(lia)) as (Gv & Gr & _). rewrite Gr. rewrite get_repeat by lia. rewrite Gu by lia. rewrite Gv, get_repeat by lia. split; [|reflexivity].
          split; [lia|]. destruct (get_lt r1 0 ltac:(lia)) as [r G]. destruct (get_lt c1 0 ltac:(lia)) as [c G']. specialize (Hent 0 r c ltac:(lia) G G'). lia.
    - exists C'. split; [exact E|]. revert Ad. apply adds_ext. intros i j Hi Hj. unfold csc_sum, coo_sum. f_equal. apply sumT_ext. intros c Hc. apply in_range in Hc.
      f_equal. f_equal. cbn [arrv]. rewrite (compressed_values m k c1 r1 v1 l' r1 v1 (count_below k c1)); [|lia|lia|auto|].
      + rewrite coo_values_swap, coo_values_triples, Htr. unfold coo_at. rewrite Hb. cbn [off]. rewrite !Z.add_0_r.
        rewrite coo_values_triples. now apply window_values.
      + intros q Hq. destruct (Cut q). rewrite Gl by lia. auto.
  Qed.

  Variable ssort : (Z * Z * T -> Z * Z * T -> bool) -> list (Z * Z * T) -> list (Z * Z * T).
  Hypothesis Hsort : sort_ok ssort.

  (** What a product may do to its sparse operand: reorder stored triples. *)
  Definition same_coo (M M' : coo_matrix T) : Prop :=
    co_nr M' = co_nr M /\ co_nc M' = co_nc M /\ co_own M' = co_own M /\ co_nnz M' = co_nnz M /\ co_base M' = co_base M /\ co_sort M' = co_sort M /\
    coo_arrays M' /\ Permutation (stored M) (stored M').

  Lemma same_coo_at M M' i j : same_coo M M' -> Permutation (coo_at M i j) (coo_at M' i j).
  Proof using Type. intros (_ & _ & _ & En & Eb & _ & _ & P). unfold coo_at. rewrite Eb. apply coo_values_perm. exact P. Qed.

  Lemma coo_left_jki_spec sched alpha lB lC d n m M ro co B ldb C ldc :
    valid_schedule sched -> coo_arrays M -> honest_sort M -> co_base M = BZero ->
    0 <= n -> 0 <= m -> coo_safe M ro co d n m ->
    fits_buffer lB ldb m n (zlen B) -> fits_buffer lC ldc d n (zlen C) ->
    exists M' C', coo_left_jki O sched ssort alpha lB lC d n m M ro co B ldb C ldc = Ok (M', C') /\
      same_coo M M' /\ honest_sort M' /\
      adds O lC d n (coo_sum M ro co alpha m (cell O lB ldb B)) C ldc C'.
  Proof using L Hsort.
    intros Hs HA Hh Hb Hn0 Hm Hsafe FB FC. unfold coo_left_jki. rewrite Hb. cbn [base_eqb]. rewrite require_true. cbn [bind].
    destruct (sort_eqb (co_sort M) SCSC) eqn:Es; cbn [negb].
    - assert (Hsc : co_sort M = SCSC) by (destruct (co_sort M); try discriminate; reflexivity).
      assert (Hnd : nondecreasing (co_nnz M) (arrv (co_cols M))).
      { unfold honest_sort in Hh. rewrite Hsc in Hh. destruct HA as (_ & _ & Lr & _). now apply (ordered_csc_cols (co_nnz M) (arrv (co_rows M))). }
      destruct (coo_left_sorted_spec sched alpha lB lC d n m M ro co B ldb C ldc Hs HA Hb Hnd Hn0 Hm Hsafe FB FC) as (C' & -> & Ad).
      exists M, C'. split; [reflexivity|]. split; [|auto]. unfold same_coo. do 6 (split; [reflexivity|]). split; [exact HA|reflexivity].
    - destruct (sort_coo_spec ssort Hsort SCSC M ltac:(discriminate) HA) as (M1 & -> & A1 & A2 & A3 & A4 & A5 & A6 & HA1 & P1 & O1). cbn [bind].
      change (le_of SCSC) with le_csc in O1. rewrite <- A4 in O1.
      assert (St1 : Permutation (stored M) (stored M1)) by (unfold stored; rewrite A4; exact P1).
      assert (Hnd : nondecreasing (co_nnz M1) (arrv (co_cols M1))).
      { destruct HA1 as (_ & _ & Lr & _). now apply (ordered_csc_cols (co_nnz M1) (arrv (co_rows M1))). }
      assert (Hsafe1 : coo_safe M1 ro co d n m).
      { unfold coo_safe, window_count in *. rewrite A4. 
        assert (Ew : zlen (filter (in_window ro co d m) (stored M1)) = zlen (filter (in_window ro co d m) (stored M))).
        { unfold zlen. f_equal. apply Permutation_length. apply Permutation_sym. now apply Permutation_filter. }
        rewrite Ew. destruct Hsafe as [H|[H|[H|[H [(r & c & v & Hin & W)|H']]]]]; auto 10.
        right. right. right. split; [exact H|]. left. exists r, c, v. split; [|exact W]. eapply Permutation_in; eauto. }
      destruct (coo_left_sorted_spec sched alpha lB lC d n m M1 ro co B ldb C ldc Hs HA1 ltac:(congruence) Hnd Hn0 Hm Hsafe1 FB FC) as (C' & -> & Ad). cbn [bind].
      assert (Ad' : adds O lC d n (coo_sum M ro co alpha m (cell O lB ldb B)) C ldc C').
      { revert Ad. apply adds_ext. intros i j _ _. unfold coo_sum. f_equal. apply sumT_ext. intros c _. f_equal. apply (sumT_perm O L).
        unfold coo_at. rewrite A5. apply coo_values_perm. apply Permutation_sym. exact St1. }
      destruct (co_sort M) eqn:Eo; [discriminate Es| |].
      + destruct (sort_coo_spec ssort Hsort SCSR M1 ltac:(discriminate) HA1) as (M2 & -> & B1 & B2 & B3 & B4 & B5 & B6 & HA2 & P2 & O2). cbn [bind].
        exists M2, C'. split; [reflexivity|]. split; [|split; [|exact Ad']].
        * unfold same_coo. do 6 (split; [congruence|]). split; [exact HA2|]. transitivity (stored M1); [exact St1|]. unfold stored. rewrite B4. exact P2.
        * unfold honest_sort. rewrite B6, B4. exact O2.
      + unfold sort_coo at 1, sort_coo_data. cbn [sort_eqb bind].
        eexists _, C'. split; [reflexivity|]. split; [|split; [|exact Ad']].
        * unfold same_coo, coo_arrays, stored. cbn [co_nr co_nc co_own co_nnz co_base co_sort co_vals co_rows co_cols].
          split; [exact A1|]. split; [exact A2|]. split; [exact A3|]. split; [exact A4|]. split; [exact A5|]. split; [congruence|]. split; [exact HA1|]. exact St1.
        * exact I.
  Qed.
End Coo.
