(** Kernels for column-compressed matrices. *)
From Coq Require Import Permutation.
From Verif Require Import Base Interleave Spec SparseSkopModel SparseSpec SparseProofs SpFmtModel SpFmtSpec SpFmtProofs SpmmModel SpmmSpec SpmmProofs SpmmProofs2.

Lemma fixed_spec m ptr : m + 1 <= zlen (arrv ptr) ->
  exists b, fixed_nnz_per_col m ptr = Ok b /\ (b = true <-> forall c, 2 <= c <= m -> pf ptr 1 = pf ptr c).
Proof.
  intros Lp. unfold fixed_nnz_per_col. destruct (Z.le_gt_cases (m + 1) 2) as [H|H].
  { rewrite for_nil by lia. exists true. split; [reflexivity|]. split; [intros; lia|auto]. }
  destruct (for_inv (fun k b => b = true <-> forall c, 2 <= c < k -> pf ptr 1 = pf ptr c) 2 (m + 1)
              (fun ell b => if b : bool then p1 <- rdp ptr 1 ;; pl <- rdp ptr ell ;; Ok (p1 =? pl) else Ok false) true) as (b & E & P).
  - lia.
  - split; [intros; lia|auto].
  - intros c b Hc Pb. destruct b.
    + rewrite !rdp_pf by lia. cbn [bind]. eexists. split; [reflexivity|]. rewrite Z.eqb_eq. split.
      * intros E k Hk. destruct (Z.eq_dec k c); [now subst|]. apply Pb; [reflexivity|lia].
      * intros A. apply A. lia.
    + exists false. split; [reflexivity|]. split; [discriminate|]. intros A. apply Pb. intros; apply A; lia.
  - exists b. split; [exact E|]. rewrite P. split; intros A c Hc; apply A; lia.
Qed.

(** The bounds of the blocks of rows. *)
Lemma block_bounds_spec d nt : 0 <= d -> 1 <= nt -> d + nt < 2 ^ 31 ->
  exists bb, block_bounds d nt = Ok bb /\ zlen bb = nt + 1 /\ get bb 0 = Some 0 /\
    (forall t a b, 0 <= t < nt -> get bb t = Some a -> get bb (t + 1) = Some b -> a <= b) /\
    (exists e, get bb nt = Some e /\ d <= e).
Proof.
  intros Hd Hnt H31. unfold block_bounds.
  pose proof (Z.div_mod d nt ltac:(lia)) as DM. pose proof (Z.mod_pos_bound d nt ltac:(lia)) as MB. pose proof (Z.div_pos d nt Hd ltac:(lia)) as DP.
  assert (Q : d / nt <= d) by nia.
  rewrite (to_sint_id 32) by (clear - Q DP H31 Hnt; lia).
  set (bs := if d / nt =? 0 then 1 else d / nt). set (r := d mod nt) in *. 
  assert (Hbs : 1 <= bs /\ d <= nt * bs + r /\ nt * bs + r < 2 ^ 31).
  { unfold bs. destruct (Z.eqb_spec (d / nt) 0) as [E|E].
    - rewrite E in DM. clear - DM MB Hnt H31 Hd. lia.
    - clear - DM MB Hnt H31 Hd DP E. lia. }
  clearbody bs r. clear DM Q DP.
  assert (Lr : zlen (repeat 0 (Z.to_nat (nt + 1))) = nt + 1) by (rewrite zlen_repeat; lia).
  destruct (for_inv (fun k bb => zlen bb = nt + 1 /\ forall t, 0 <= t <= k -> get bb t = Some (t * bs)) 0 nt
              (fun t bb => x <- rd bb t ;; y <- add_int x bs ;; wr bb (t + 1) y) (repeat 0 (Z.to_nat (nt + 1)))) as (bb & E & L & G).
  - lia.
  - split; [exact Lr|]. intros t Ht. replace t with 0 by lia. rewrite get_repeat by lia. reflexivity.
  - intros t bb Ht [L G]. rewrite (proj2 (rd_get bb t (t * bs)) (G t ltac:(lia))). cbn [bind]. unfold add_int.
    replace ((- 2 ^ 31 <=? t * bs + bs) && (t * bs + bs <? 2 ^ 31)) with true by (symmetry; apply andb_true_iff; split; [apply Z.leb_le|apply Z.ltb_lt]; nia).
    cbn [bind]. destruct (wr_ex bb (t + 1) (t * bs + bs) ltac:(lia)) as (b' & -> & L' & Ge & Gn). exists b'. split; [reflexivity|]. split; [lia|].
    intros u Hu. destruct (Z.eq_dec u (t + 1)) as [->|N]; [rewrite Ge; f_equal; lia|]. rewrite Gn by lia. apply G. lia.
  - rewrite E. cbn [bind]. rewrite (proj2 (rd_get bb nt (nt * bs)) (G nt ltac:(lia))). cbn [bind].
    rewrite (to_sint_id 32) by nia.
    destruct (wr_ex bb nt (nt * bs + r) ltac:(lia)) as (b' & -> & L' & Ge & Gn). exists b'. split; [reflexivity|]. split; [lia|].
    split; [rewrite Gn by lia; rewrite G by lia; f_equal; lia|]. split.
    + intros t a b Ht G1 G2. rewrite Gn in G1 by lia. rewrite G in G1 by lia. injection G1 as <-.
      destruct (Z.eq_dec (t + 1) nt) as [Et|N].
      * rewrite Et, Ge in G2. injection G2 as <-. nia.
      * rewrite Gn in G2 by lia. rewrite G in G2 by lia. injection G2 as <-. nia.
    + exists (nt * bs + r). split; [exact Ge|]. lia.
Qed.

(** Nondecreasing bounds partition [0, last). *)
Lemma bounds_mono (f : Z -> Z) n : (forall t, 0 <= t < n -> f t <= f (t + 1)) -> forall s t, 0 <= s <= t -> t <= n -> f s <= f t.
Proof.
  intros H s t Hs Ht. assert (G : forall d, 0 <= d -> s + d <= n -> f s <= f (s + d)).
  { intros d Hd. pattern d. apply natlike_ind; [| |exact Hd].
    - intros _. rewrite Z.add_0_r. lia.
    - intros x Hx IH Hn. specialize (IH ltac:(lia)). specialize (H (s + x) ltac:(lia)). replace (s + Z.succ x) with (s + x + 1) by lia. lia. }
  replace t with (s + (t - s)) by lia. apply G; lia.
Qed.
Lemma bounds_find (f : Z -> Z) n i : 0 <= n -> f 0 <= i -> i < f n -> exists t, 0 <= t < n /\ f t <= i < f (t + 1).
Proof.
  intros Hn. pattern n. apply natlike_ind; [| |exact Hn].
  - lia.
  - intros x Hx IH H0 H1. destruct (Z.lt_ge_cases i (f x)) as [H|H].
    + destruct (IH H0 H) as (t & Ht & B). exists t. split; [lia|exact B].
    + exists x. split; [lia|]. replace (x + 1) with (Z.succ x) by lia. lia.
Qed.

Section Csc.
  Context {T : Type}.
  Variable O : ops T.
  Hypothesis L : semiring O.
  Notation add := (o_add O). Notation mul := (o_mul O). Notation zero := (o_zero O). Notation one := (o_one O).
  Notation sumT := (sumT O). Notation added := (added O). Notation vf := (vf O).

  Definition col_task (lC : layout) (ldc : Z) (x : Z -> Z) (v : Z -> T) (lo hi : Z -> Z) (m : Z) (b : Z -> Z -> T) (j : Z) : list (Z * list T) :=
    flat_map (fun c => map (fun e => (addr lC ldc (x e) j, [mul (v e) (b c j)])) (range (lo c) (hi c))) (range 0 m).

  Lemma columns_finish sched lC d n m ldc C x v lo hi b :
    valid_schedule sched -> fits_buffer lC ldc d n (zlen C) -> 0 <= n ->
    (forall c e, 0 <= c < m -> lo c <= e < hi c -> 0 <= x e < d) ->
    exists C', omp_exec (acc O) sched (map (col_task lC ldc x v lo hi m b) (range 0 n)) C = Ok C' /\
      adds O lC d n (fun i j => bigsum O (fun c => sumT (map (fun e => if x e =? i then mul (v e) (b c j) else zero) (range (lo c) (hi c)))) 0 m) C ldc C'.
  Proof using L.
    intros Hs FC Hn Hx.
    assert (Inj : forall i j i' j', 0 <= i < d -> 0 <= j < n -> 0 <= i' < d -> 0 <= j' < n -> addr lC ldc i j = addr lC ldc i' j' -> i = i' /\ j = j').
    { intros. eapply (addr_inj lC d n); eauto. apply FC. }
    assert (Hev : forall j u, In u (col_task lC ldc x v lo hi m b j) -> exists i, 0 <= i < d /\ fst u = addr lC ldc i j).
    { intros j u Hu. apply in_flat_map in Hu as (c & Hc & Hu). apply in_map_iff in Hu as (e & <- & He). apply in_range in Hc, He.
      exists (x e). split; [eauto|reflexivity]. }
    apply finish; auto.
    - apply race_free_map; [apply NoDup_range|]. intros j j' Hj Hj' Hne e e' He He'. apply in_range in Hj, Hj'.
      destruct (Hev j e He) as (i & Hi & ->). destruct (Hev j' e' He') as (i' & Hi' & ->). intros E. apply Inj in E; auto. tauto.
    - intros t e Ht He. apply in_map_iff in Ht as (j & <- & Hj). apply in_range in Hj. destruct (Hev j e He) as (i & Hi & ->). exists i, j. auto.
    - intros i j Hi Hj. rewrite (added_concat O L), map_map.
      rewrite (sumT_only O L _ (range 0 n) j); [|apply NoDup_range|apply in_range; lia|].
      + unfold col_task. rewrite flat_map_concat_map. rewrite (added_concat O L), map_map. unfold bigsum. apply sumT_ext. intros c Hc. apply in_range in Hc.
        unfold SpmmProofs.added. rewrite map_map. apply sumT_ext. intros e He. apply in_range in He. cbn [fst snd].
        specialize (Hx c e Hc He). destruct (Z.eqb_spec (x e) i) as [E|E].
        * rewrite E, Z.eqb_refl. apply (sumT_one O L).
        * destruct (Z.eqb_spec (addr lC ldc (x e) j) (addr lC ldc i j)) as [E'|E']; [|reflexivity]. apply Inj in E'; auto. tauto.
      + intros j' Hj' Hne. apply in_range in Hj'. apply (added_none O L). intros u Hu. destruct (Hev j' u Hu) as (i' & Hi' & ->).
        intros E. apply Inj in E; auto. tauto.
  Qed.

  Lemma adds_ext l d n (S S' : Z -> Z -> T) C ldc C' :
    (forall i j, 0 <= i < d -> 0 <= j < n -> S i j = S' i j) -> adds O l d n S C ldc C' -> adds O l d n S' C ldc C'.
  Proof. intros H (A & B & D). split; [exact A|]. split; [|exact D]. intros i j y Hi Hj G. rewrite <- H by lia. now apply B. Qed.

  Section Cols.
    Variables (d n m nnz : Z) (ptr idx : option (list Z)) (vals vals0 : option (list T)) (alpha : T).
    Hypothesis Hn : 0 <= n. Hypothesis Hm : 0 <= m. Hypothesis Hnnz : 0 <= nnz.
    Hypothesis Hidx : idx_ok nnz d 0 (arrv idx).
    Hypothesis Hptr : ptr_ok m nnz (arrv ptr).
    Hypothesis Lv : nnz <= zlen (arrv vals).
    Hypothesis Lv0 : nnz <= zlen (arrv vals0).
    Hypothesis Hv : forall e, 0 <= e < nnz -> vf vals e = mul alpha (vf vals0 e).
    Notation p := (pf ptr). Notation x := (pf idx). Notation v := (vf vals).

    Definition csc_sum (b : Z -> Z -> T) (i j : Z) : T :=
      mul alpha (bigsum O (fun c => mul (sumT (slice_values (arrv ptr) (arrv idx) (arrv vals0) c i)) (b c j)) 0 m).

    Lemma csc_sum_eq b i j :
      bigsum O (fun c => sumT (map (fun e => if x e =? i then mul (v e) (b c j) else zero) (range (p c) (p (c + 1))))) 0 m = csc_sum b i j.
    Proof using L Hidx Hptr Lv0 Hv.
      unfold csc_sum, bigsum. rewrite <- (sumT_mul_l O L). apply sumT_ext. intros c Hc. apply in_range in Hc.
      rewrite <- (slice_pick O L m d nnz ptr idx vals0 Hidx Hptr c i alpha (b c j) Hc Lv0). apply sumT_ext. intros e He. apply in_range in He.
      pose proof (p_slice m nnz ptr Hptr c Hc). rewrite Hv by lia. reflexivity.
    Qed.

    Lemma csc_vector_ki_spec lB ldb B lC ldc j : fits_buffer lB ldb m n (zlen B) -> 0 <= j < n ->
      let '(Br, Bc) := layout_to_strides lB ldb in let '(Cr, Cc) := layout_to_strides lC ldc in
      csc_vector_ki O vals idx ptr m B (Bc * j) Br (Cc * j) Cr = Ok (col_task lC ldc x v p (fun c => p (c + 1)) m (cell O lB ldb B) j).
    Proof using Hidx Hptr Lv Hm.
      clear Hv Lv0. intros FB Hj. pose proof (addr_strides lB ldb) as SB. pose proof (addr_strides lC ldc) as SC.
      destruct (layout_to_strides lB ldb) as [Br Bc]. destruct (layout_to_strides lC ldc) as [Cr Cc]. unfold csc_vector_ki.
      destruct (for_inv (fun k st => st = (p k, flat_map (fun c => map (fun e => (addr lC ldc (x e) j, [mul (v e) (cell O lB ldb B c j)])) (range (p c) (p (c + 1)))) (range 0 k))) 0 m (fun c '(i, us) =>
          scale <- rd B (Bc * j + c * Br) ;; hi <- rdp ptr (c + 1) ;;
          new <- mapM (fun e => row <- rdp idx e ;; v <- rdp vals e ;; Ok (Cc * j + row * Cr, [mul v scale])) (range i hi) ;;
          Ok (Z.max i hi, us ++ new)) (0, [])) as (st & E & P).
      - exact Hm.
      - rewrite (p_0 m nnz ptr Hptr), range_nil by lia. reflexivity.
      - intros c st Hc ->. rewrite SB. rewrite (rd_cell O lB ldb B m n) by (auto; lia). cbn [bind].
        rewrite (rdp_p m nnz ptr Hptr) by lia. cbn [bind]. pose proof (p_slice m nnz ptr Hptr c Hc) as Bd.
        rewrite (mapM_Ok _ (fun e => (addr lC ldc (x e) j, [mul (v e) (cell O lB ldb B c j)]))).
        + cbn [bind]. eexists. split; [reflexivity|]. rewrite Z.max_r by lia. f_equal. rewrite range_snoc, flat_map_app by lia. cbn [flat_map]. now rewrite app_nil_r.
        + intros e He. apply in_range in He. destruct (rdp_x d nnz idx Hidx e ltac:(lia)) as [-> Hx]. cbn [bind]. rewrite (rdp_vf O) by lia. cbn [bind].
          rewrite SC. reflexivity.
      - rewrite E, P. reflexivity.
    Qed.

    Lemma regular_csc_vector_ki_spec lB ldb B lC ldc j q : fits_buffer lB ldb m n (zlen B) -> 0 <= j < n -> 0 <= q ->
      m * q <= zlen (arrv idx) -> m * q <= zlen (arrv vals) ->
      let '(Br, Bc) := layout_to_strides lB ldb in let '(Cr, Cc) := layout_to_strides lC ldc in
      regular_csc_vector_ki O vals idx q m B (Bc * j) Br (Cc * j) Cr = Ok (col_task lC ldc x v (fun c => c * q) (fun c => (c + 1) * q) m (cell O lB ldb B) j).
    Proof using Type.
      clear. intros FB Hj Hq L1 L2. pose proof (addr_strides lB ldb) as SB. pose proof (addr_strides lC ldc) as SC.
      destruct (layout_to_strides lB ldb) as [Br Bc]. destruct (layout_to_strides lC ldc) as [Cr Cc]. unfold regular_csc_vector_ki.
      rewrite (mapM_Ok _ (fun c => map (fun e => (addr lC ldc (x e) j, [mul (v e) (cell O lB ldb B c j)])) (range (c * q) ((c + 1) * q)))).
      - cbn [bind]. unfold col_task. now rewrite flat_map_concat_map.
      - intros c Hc. apply in_range in Hc. rewrite SB. rewrite (rd_cell O lB ldb B m n) by (auto; lia). cbn [bind].
        apply mapM_Ok. intros e He. apply in_range in He. rewrite rdp_pf by nia. cbn [bind]. rewrite (rdp_vf O) by nia. cbn [bind]. now rewrite SC.
    Qed.

    (** Case [fixed]: the padding beyond nnz, if it is read, holds zeros. *)
    Definition regular_ok : Prop :=
      2 <= zlen (arrv ptr) /\ (forall c, 2 <= c <= m -> p 1 = p c) /\
      m * p 1 <= zlen (arrv idx) /\ m * p 1 <= zlen (arrv vals) /\ (m = 0 -> p 1 = 0) /\
      forall e, nnz <= e < m * p 1 -> 0 <= x e < d /\ v e = zero.

    Lemma csc_columns_spec sched fixed lB ldb B lC ldc C :
      valid_schedule sched -> fits_buffer lB ldb m n (zlen B) -> fits_buffer lC ldc d n (zlen C) -> (fixed = true -> n <= 0 \/ regular_ok) ->
      exists C', csc_columns O sched fixed vals idx ptr lB lC n m B ldb C ldc = Ok C' /\ adds O lC d n (csc_sum (cell O lB ldb B)) C ldc C'.
    Proof using L Hn Hm Hnnz Hidx Hptr Lv Lv0 Hv.
      intros Hs FB FC Hf. unfold csc_columns. destruct fixed.
      - destruct (Hf eq_refl) as [H0|(L2 & Hall & R1 & R2 & H0 & Hpad)].
        { assert (n = 0) by lia. subst n. destruct (layout_to_strides lB ldb) as [Br Bc], (layout_to_strides lC ldc) as [Cr Cc].
          rewrite range_nil by lia. change (mapM _ []) with (Ok (@nil (list (Z * list T)))). cbn [bind].
          apply finish; auto; try reflexivity; intros; lia || (cbn in *; tauto). }
        assert (Hp1 : 0 <= p 1).
        { destruct (Z.eq_dec m 0) as [E|E]; [rewrite (H0 E); lia|]. pose proof (p_slice m nnz ptr Hptr 0 ltac:(lia)). rewrite Z.add_0_l in *. lia. }
        pose proof (fun j Hj => regular_csc_vector_ki_spec lB ldb B lC ldc j (p 1) FB Hj Hp1 R1 R2) as Reg.
        destruct (layout_to_strides lB ldb) as [Br Bc], (layout_to_strides lC ldc) as [Cr Cc].
        rewrite (mapM_Ok _ (col_task lC ldc x v (fun c => c * p 1) (fun c => (c + 1) * p 1) m (cell O lB ldb B))).
        2: { intros j Hj. apply in_range in Hj. rewrite rdp_pf by lia. cbn [bind]. now apply Reg. }
        cbn [bind].
        assert (Hx : forall e, 0 <= e < m * p 1 -> 0 <= x e < d).
        { intros e He. destruct (Z.lt_ge_cases e nnz) as [H|H]; [apply (rdp_x d nnz idx Hidx); lia|apply Hpad; lia]. }
        destruct (columns_finish sched lC d n m ldc C x v (fun c => c * p 1) (fun c => (c + 1) * p 1) (cell O lB ldb B) Hs FC Hn) as (C' & E & A).
        { intros c e Hc He. apply Hx. nia. }
        exists C'. split; [exact E|]. revert A. apply adds_ext. intros i j Hi Hj. rewrite <- csc_sum_eq. apply sumT_ext. intros c Hc. apply in_range in Hc.
        destruct (Z.eq_dec c 0) as [->|Nc].
        { rewrite Z.add_0_l, Z.mul_0_l, Z.mul_1_l. rewrite (p_0 m nnz ptr Hptr). reflexivity. }
        assert (Ec : p c = p 1) by (destruct (Z.eq_dec c 1) as [->|]; [reflexivity|symmetry; apply Hall; lia]).
        assert (Ec1 : p (c + 1) = p 1) by (symmetry; apply Hall; lia).
        assert (Enz : p 1 = nnz) by (rewrite <- (p_n m nnz ptr Hptr); apply Hall; lia).
        rewrite Ec, Ec1. rewrite (range_nil (p 1) (p 1)) by lia. cbn [map]. change (sumT []) with zero. apply (sumT_zero O L). intros e He. apply in_range in He.
        destruct (x e =? i); [|reflexivity]. rewrite (proj2 (Hpad e ltac:(nia))). apply (sr_mul_0_l O L).
      - pose proof (fun j Hj => csc_vector_ki_spec lB ldb B lC ldc j FB Hj) as Reg.
        destruct (layout_to_strides lB ldb) as [Br Bc], (layout_to_strides lC ldc) as [Cr Cc].
        rewrite (mapM_Ok _ (col_task lC ldc x v p (fun c => p (c + 1)) m (cell O lB ldb B))).
        2: { intros j Hj. apply in_range in Hj. now apply Reg. }
        cbn [bind].
        destruct (columns_finish sched lC d n m ldc C x v p (fun c => p (c + 1)) (cell O lB ldb B) Hs FC Hn) as (C' & E & A).
        { intros c e Hc He. pose proof (p_slice m nnz ptr Hptr c Hc). apply (rdp_x d nnz idx Hidx). lia. }
        exists C'. split; [exact E|]. revert A. apply adds_ext. intros i j Hi Hj. apply csc_sum_eq.
    Qed.
  End Cols.

  Lemma csc_left_jki_spec sched alpha lB lC d n m A B ldb C ldc :
    valid_schedule sched -> valid_csc A -> cc_base A = BZero -> d = cc_nr A -> m = cc_nc A -> 0 <= n ->
    (n = 0 \/ m = 1 \/ 2 <= m /\ (cc_nnz A = 0 \/ exists p1, get (arrv (cc_ptr A)) 1 = Some p1 /\ p1 < cc_nnz A)) ->
    fits_buffer lB ldb m n (zlen B) -> fits_buffer lC ldc d n (zlen C) ->
    exists C', csc_left_jki O sched alpha lB lC d n m A B ldb C ldc = Ok C' /\
      adds O lC d n (fun i j => mul alpha (bigsum O (fun k => mul (sumT (csc_at A i k)) (cell O lB ldb B k j)) 0 m)) C ldc C'.
  Proof using L.
    intros Hs (Hr & Hc & Hn & Lv & Hi & Hp) Hb -> -> Hn0 Hcond FB FC. unfold csc_left_jki. rewrite Hb in *. cbn [base_eqb off] in *.
    rewrite require_true. cbn [bind].
    destruct (scaled_vals_spec O L alpha (cc_nnz A) (cc_vals A) Hn Lv) as (vals & -> & Lv' & Hv). cbn [bind].
    rewrite !Z.eqb_refl, !require_true. cbn [bind].
    destruct (fixed_spec (cc_nc A) (cc_ptr A)) as (fx & -> & Hfx). { destruct Hp; lia. }
    cbn [bind].
    destruct (csc_columns_spec (cc_nr A) n (cc_nc A) (cc_nnz A) (cc_ptr A) (cc_idx A) vals (cc_vals A) alpha Hn0 Hc Hn Hi Hp Lv' Lv Hv sched fx lB ldb B lC ldc C Hs FB FC) as (C' & E & Ad).
    - intros ->. pose proof (proj1 Hfx eq_refl) as Hall. clear Hfx. destruct Hcond as [H|Hcond]; [left; lia|right].
      destruct Hi as [Li Hi']. 
      destruct Hcond as [H|(H2 & Hz)].
      + pose proof (p_n (cc_nc A) (cc_nnz A) (cc_ptr A) Hp) as Pn. rewrite H in Pn. destruct Hp as [Lp _]. unfold regular_ok. rewrite H, Pn in *.
        repeat split; intros; try lia.
      + assert (Enz : pf (cc_ptr A) 1 = cc_nnz A) by (rewrite <- (p_n (cc_nc A) (cc_nnz A) (cc_ptr A) Hp); apply Hall; lia).
        destruct Hz as [Hz|(p1 & G & Hz)].
        * destruct Hp as [Lp _]. unfold regular_ok. rewrite Enz, Hz in *. repeat split; intros; try lia.
        * exfalso. unfold pf in Enz. rewrite G in Enz. lia.
    - exists C'. split; [exact E|]. revert Ad. apply adds_ext. intros i j _ _. unfold csc_sum, csc_at. rewrite Hb. cbn [off].
      f_equal. apply sumT_ext. intros k _. now rewrite Z.add_0_r.
  Qed.

  (** ** Row blocks *)
  Lemma csc_left_kib_spec sched nt alpha d n m A B ldb C ldc :
    valid_schedule sched -> valid_csc A -> cc_base A = BZero -> d = cc_nr A -> m = cc_nc A -> 0 <= n -> 1 <= nt -> d + nt < 2 ^ 31 ->
    fits_buffer RowMajor ldb m n (zlen B) -> fits_buffer RowMajor ldc d n (zlen C) ->
    exists C', csc_left_kib O sched nt nt alpha d n m A B ldb C ldc = Ok C' /\
      adds O RowMajor d n (fun i j => mul alpha (bigsum O (fun k => mul (sumT (csc_at A i k)) (cell O RowMajor ldb B k j)) 0 m)) C ldc C'.
  Proof using L.
    intros Hs (Hr & Hc & Hn & Lv & Hi & Hp) Hb -> -> Hn0 Hnt H31 FB FC. unfold csc_left_kib. rewrite Hb in *. cbn [base_eqb off] in *.
    rewrite !Z.eqb_refl, !require_true. cbn [bind].
    destruct (block_bounds_spec (cc_nr A) nt Hr Hnt H31) as (bb & -> & Lb & B0 & Bm & (top & Bt & Htop)). cbn [bind].
    set (ptr := cc_ptr A) in *. set (idx := cc_idx A) in *. set (vals := cc_vals A) in *.
    pose (f := fun t => pf (Some bb) t).
    assert (Rf : forall t, 0 <= t <= nt -> rd bb t = Ok (f t)).
    { intros t Ht. apply (rdp_pf (Some bb) t). cbn [arrv]. lia. }
    assert (F0 : f 0 = 0) by (unfold f, pf; cbn [arrv]; now rewrite B0).
    assert (Fn : f nt = top) by (unfold f, pf; cbn [arrv]; now rewrite Bt).
    assert (Fm : forall t, 0 <= t < nt -> f t <= f (t + 1)).
    { intros t Ht. unfold f, pf; cbn [arrv]. destruct (get_lt bb t ltac:(lia)) as [a Ga]. destruct (get_lt bb (t + 1) ltac:(lia)) as [b Gb]. rewrite Ga, Gb. eauto. }
    pose (ev := fun t k e => if (f t <=? pf idx e) && (pf idx e <? f (t + 1))
        then map (fun q => (pf idx e * ldc + q, [mul (mul alpha (vf vals e)) (cell O RowMajor ldb B k q)])) (range 0 n) else []).
    pose (task := fun t => concat (map (fun k => concat (map (ev t k) (range (pf ptr k) (pf ptr (k + 1))))) (range 0 (cc_nc A)))).
    rewrite (mapM_Ok _ task).
    2: { intros t Ht. apply in_range in Ht. rewrite !Rf by lia. cbn [bind].
         rewrite (mapM_Ok _ (fun k => concat (map (ev t k) (range (pf ptr k) (pf ptr (k + 1)))))); [reflexivity|].
         intros k Hk. apply in_range in Hk. rewrite !(rdp_p (cc_nc A) (cc_nnz A) ptr Hp) by lia. cbn [bind].
         pose proof (p_slice (cc_nc A) (cc_nnz A) ptr Hp k Hk) as Bd.
         rewrite (mapM_Ok _ (ev t k)); [reflexivity|]. intros e He. apply in_range in He.
         destruct (rdp_x (cc_nr A) (cc_nnz A) idx Hi e ltac:(lia)) as [-> Hx]. cbn [bind]. unfold ev.
         destruct ((f t <=? pf idx e) && (pf idx e <? f (t + 1))); [|reflexivity]. rewrite (rdp_vf O) by lia. cbn [bind].
         rewrite (axpy_updates_spec O n _ B ldb (cc_nc A)); auto. }
    cbn [bind].
    assert (Inj : forall i j i' j', 0 <= i < cc_nr A -> 0 <= j < n -> 0 <= i' < cc_nr A -> 0 <= j' < n -> i * ldc + j = i' * ldc + j' -> i = i' /\ j = j').
    { intros. apply (addr_inj RowMajor (cc_nr A) n ldc i j i' j'); auto. apply FC. }
    assert (Hev : forall t u, In u (task t) -> exists i q, 0 <= i < cc_nr A /\ f t <= i < f (t + 1) /\ 0 <= q < n /\ fst u = i * ldc + q).
    { intros t u Hu. apply in_concat in Hu as (l & Hl & Hu). apply in_map_iff in Hl as (k & <- & Hk). apply in_range in Hk.
      apply in_concat in Hu as (l & Hl & Hu). apply in_map_iff in Hl as (e & <- & He). apply in_range in He. unfold ev in Hu.
      destruct ((f t <=? pf idx e) && (pf idx e <? f (t + 1))) eqn:E; [|destruct Hu]. apply andb_true_iff in E as [E1 E2].
      apply Z.leb_le in E1. apply Z.ltb_lt in E2. apply in_map_iff in Hu as (q & <- & Hq). apply in_range in Hq.
      pose proof (p_slice (cc_nc A) (cc_nnz A) ptr Hp k Hk) as Bd. destruct (rdp_x (cc_nr A) (cc_nnz A) idx Hi e ltac:(lia)) as [_ Hx].
      exists (pf idx e), q. auto. }
    assert (One : forall t t' i, 0 <= t < nt -> 0 <= t' < nt -> f t <= i < f (t + 1) -> f t' <= i < f (t' + 1) -> t = t').
    { intros t t' i Ht Ht' H1 H2. destruct (Z.lt_trichotomy t t') as [H|[H|H]]; [|exact H|].
      - pose proof (bounds_mono f nt Fm (t + 1) t' ltac:(lia) ltac:(lia)). lia.
      - pose proof (bounds_mono f nt Fm (t' + 1) t ltac:(lia) ltac:(lia)). lia. }
    apply finish; auto.
    - apply race_free_map; [apply NoDup_range|]. intros t t' Ht Ht' Hne e e' He He'. apply in_range in Ht, Ht'.
      destruct (Hev t e He) as (i & q & Hi1 & Hi2 & Hq & ->). destruct (Hev t' e' He') as (i' & q' & Hi1' & Hi2' & Hq' & ->).
      intros E. apply Inj in E as [E _]; auto. subst i'. apply Hne. eapply One; eauto.
    - intros t e Ht He. apply in_map_iff in Ht as (t' & <- & _). destruct (Hev t' e He) as (i & q & Hi1 & Hi2 & Hq & ->). exists i, q. auto.
    - intros i j Hi1 Hj. cbn [addr].
      destruct (bounds_find f nt i ltac:(lia) ltac:(lia) ltac:(lia)) as (t & Ht & Hti).
      rewrite (added_concat O L), map_map.
      rewrite (sumT_only O L _ (range 0 nt) t); [|apply NoDup_range|apply in_range; lia|].
      + unfold task. rewrite (added_concat O L), map_map. unfold bigsum. rewrite <- (sumT_mul_l O L). apply sumT_ext. intros k Hk. apply in_range in Hk.
        unfold csc_at. fold ptr idx vals. rewrite Hb. cbn [off]. rewrite Z.add_0_r.
        rewrite <- (slice_pick O L (cc_nc A) (cc_nr A) (cc_nnz A) ptr idx vals Hi Hp k i alpha (cell O RowMajor ldb B k j) Hk Lv).
        rewrite (added_concat O L), map_map. apply sumT_ext. intros e He. apply in_range in He.
        pose proof (p_slice (cc_nc A) (cc_nnz A) ptr Hp k Hk) as Bd. destruct (rdp_x (cc_nr A) (cc_nnz A) idx Hi e ltac:(lia)) as [_ Hx].
        unfold ev. destruct (Z.eqb_spec (pf idx e) i) as [E|E].
        * rewrite E. replace ((f t <=? i) && (i <? f (t + 1))) with true by (symmetry; apply andb_true_iff; split; [apply Z.leb_le|apply Z.ltb_lt]; lia).
          unfold SpmmProofs.added. rewrite map_map. rewrite (sumT_only O L _ (range 0 n) j); [|apply NoDup_range|apply in_range; lia|].
          -- cbn [fst snd]. rewrite Z.eqb_refl. apply (sumT_one O L).
          -- intros q Hq Hne. apply in_range in Hq. cbn [fst snd]. destruct (Z.eqb_spec (i * ldc + q) (i * ldc + j)); [lia|reflexivity].
        * apply (added_none O L). intros u Hu. destruct ((f t <=? pf idx e) && (pf idx e <? f (t + 1))); [|destruct Hu].
          apply in_map_iff in Hu as (q & <- & Hq). apply in_range in Hq. cbn [fst]. intros E'. apply Inj in E' as [E' _]; auto.
      + intros t' Ht' Hne. apply in_range in Ht'. apply (added_none O L). intros u Hu. destruct (Hev t' u Hu) as (i' & q & Hi1' & Hi2' & Hq & ->).
        intros E. apply Inj in E as [E _]; auto. subst i'. apply Hne. eapply One; eauto.
  Qed.
End Csc.
