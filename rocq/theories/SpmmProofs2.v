(** Kernels for compressed matrices. *)
From Coq Require Import Permutation.
From Verif Require Import Base Interleave Spec SparseSkopModel SparseSpec SparseProofs SpFmtModel SpFmtSpec SpFmtProofs SpmmModel SpmmSpec SpmmProofs.

Lemma addr_strides l ld i j : let '(sr, sc) := layout_to_strides l ld in sc * j + i * sr = addr l ld i j.
Proof. destruct l; cbn [layout_to_strides addr]; lia. Qed.
Lemma addr_nonneg l ld rows cols i j : min_ld l rows cols <= ld -> 0 <= i < rows -> 0 <= j < cols -> 0 <= addr l ld i j.
Proof. destruct l; cbn [min_ld addr]; intros; nia. Qed.
Lemma addr_flip l ld i j : addr (flip l) ld i j = addr l ld j i.
Proof. destruct l; cbn [flip addr]; lia. Qed.

Definition pf (ptr : option (list Z)) (i : Z) : Z := match get (arrv ptr) i with Some a => a | None => 0 end.

Section Kernels.
  Context {T : Type}.
  Variable O : ops T.
  Hypothesis L : semiring O.
  Notation add := (o_add O). Notation mul := (o_mul O). Notation zero := (o_zero O). Notation one := (o_one O).
  Notation sumT := (sumT O). Notation added := (added O).
  Definition vf (vals : option (list T)) (e : Z) : T := match get (arrv vals) e with Some a => a | None => zero end.

  Lemma rdp_pf a i : 0 <= i < zlen (arrv a) -> rdp a i = Ok (pf a i).
  Proof. intros H. unfold pf. destruct (rdp_ex a i H) as (x & -> & ->). reflexivity. Qed.
  Lemma rdp_vf a i : 0 <= i < zlen (arrv a) -> rdp a i = Ok (vf a i).
  Proof. intros H. unfold vf. destruct (rdp_ex a i H) as (x & -> & ->). reflexivity. Qed.
  Lemma rd_cell l ld B rows cols i j : fits_buffer l ld rows cols (zlen B) -> 0 <= i < rows -> 0 <= j < cols -> rd B (addr l ld i j) = Ok (cell O l ld B i j).
  Proof.
    intros [H1 H2] Hi Hj. unfold cell. destruct (get_lt B (addr l ld i j)) as [x G].
    { split; [eapply addr_nonneg; eauto|auto]. }
    rewrite G. now apply rd_get.
  Qed.

  (** C' is C plus S on the d x n matrix. *)
  Definition adds (l : layout) (d n : Z) (S : Z -> Z -> T) (C : list T) (ldc : Z) (C' : list T) : Prop :=
    zlen C' = zlen C /\
    (forall i j x, 0 <= i < d -> 0 <= j < n -> get C (addr l ldc i j) = Some x -> get C' (addr l ldc i j) = Some (add x (S i j))) /\
    (forall p, (forall i j, 0 <= i < d -> 0 <= j < n -> addr l ldc i j <> p) -> get C' p = get C p).

  Lemma finish l d n S C ldc sched tasks :
    valid_schedule sched -> race_free tasks = true -> fits_buffer l ldc d n (zlen C) ->
    (forall t e, In t tasks -> In e t -> exists i j, 0 <= i < d /\ 0 <= j < n /\ fst e = addr l ldc i j) ->
    (forall i j, 0 <= i < d -> 0 <= j < n -> added (addr l ldc i j) (concat tasks) = S i j) ->
    exists C', omp_exec (acc O) sched tasks C = Ok C' /\ adds l d n S C ldc C'.
  Proof.
    intros Hs Hr [F1 F2] He HS.
    destruct (omp_acc O L sched tasks C Hs Hr) as (C' & E & Ln & G).
    { intros t e Ht Hin. destruct (He t e Ht Hin) as (i & j & Hi & Hj & ->). split; [eapply addr_nonneg; eauto|auto]. }
    exists C'. split; [exact E|]. split; [exact Ln|]. split.
    - intros i j x Hi Hj Gx. rewrite G, Gx. cbn [option_map]. now rewrite HS.
    - intros p Hp. rewrite G. rewrite added_none; [|exact L|].
      + destruct (get C p); cbn [option_map]; [|reflexivity]. now rewrite (add_0_r O L).
      + intros u Hu. apply in_concat in Hu as (t & Ht & Hu). destruct (He t u Ht Hu) as (i & j & Hi & Hj & ->). auto.
  Qed.

  Lemma sum_if {A} (p : A -> bool) (f : A -> T) l : sumT (map (fun x => if p x then f x else zero) l) = sumT (flat_map (fun x => if p x then [f x] else []) l).
  Proof. rewrite (sumT_flat_map O L). apply sumT_ext. intros x _. destruct (p x); [symmetry; apply (sumT_one O L)|reflexivity]. Qed.

  (* -------------------------------------------------------------- *)
  Section Csx.
    Variables (n0 m0 nnz : Z) (ptr idx : option (list Z)) (vals : option (list T)).
    Hypothesis Hn0 : 0 <= n0.
    Hypothesis Hnnz : 0 <= nnz.
    Hypothesis Hidx : idx_ok nnz m0 0 (arrv idx).
    Hypothesis Hptr : ptr_ok n0 nnz (arrv ptr).
    Notation p := (pf ptr). Notation x := (pf idx). Notation v := (vf vals).

    Lemma rdp_p i : 0 <= i <= n0 -> rdp ptr i = Ok (p i).
    Proof. destruct Hptr as [Lp _]. intros H. apply rdp_pf. lia. Qed.
    Lemma rdp_x e : 0 <= e < nnz -> rdp idx e = Ok (x e) /\ 0 <= x e < m0.
    Proof.
      destruct Hidx as [Li Hi]. intros H. split; [apply rdp_pf; lia|]. unfold pf. destruct (get_lt (arrv idx) e ltac:(lia)) as [y G]. rewrite G.
      specialize (Hi e y H G). lia.
    Qed.
    Lemma p_slice i : 0 <= i < n0 -> 0 <= p i /\ p i <= p (i + 1) /\ p (i + 1) <= nnz.
    Proof. intros H. destruct (slice_bounds n0 nnz (arrv ptr) i Hptr H) as (lo & hi & G1 & G2 & B1 & B2). unfold pf. rewrite G1, G2. lia. Qed.
    Lemma p_0 : p 0 = 0.
    Proof. destruct Hptr as (_ & P0 & _). unfold pf. now rewrite P0. Qed.
    Lemma p_n : p n0 = nnz.
    Proof. destruct Hptr as (_ & _ & Pn & _). unfold pf. now rewrite Pn. Qed.

    Lemma slice_sum i k : 0 <= i < n0 -> nnz <= zlen (arrv vals) ->
      sumT (slice_values (arrv ptr) (arrv idx) (arrv vals) i k) = sumT (map (fun e => if x e =? k then v e else zero) (range (p i) (p (i + 1)))).
    Proof using L Hptr Hidx.
      intros Hi Lv. destruct Hidx as [Li _]. pose proof (p_slice i Hi) as Hb. unfold slice_values.
      destruct (slice_bounds n0 nnz (arrv ptr) i Hptr Hi) as (lo & hi & G1 & G2 & B1 & B2).
      unfold pf in Hb. rewrite G1, G2 in Hb. unfold pf at 2 3. rewrite G1, G2. rewrite sum_if. f_equal. apply flat_map_ext_in. intros e He. apply in_range in He.
      unfold pf, vf. destruct (get_lt (arrv idx) e ltac:(lia)) as [y ->]. destruct (get_lt (arrv vals) e ltac:(lia)) as [w ->]. reflexivity.
    Qed.

    (** Sum over the entries of slice i against a vector, rewritten as a sum over indices. *)
    Lemma slice_dot i alpha (b : Z -> T) : 0 <= i < n0 -> nnz <= zlen (arrv vals) ->
      sumT (map (fun e => mul (mul alpha (v e)) (b (x e))) (range (p i) (p (i + 1)))) =
      mul alpha (bigsum O (fun k => mul (sumT (slice_values (arrv ptr) (arrv idx) (arrv vals) i k)) (b k)) 0 m0).
    Proof using L Hptr Hidx.
      intros Hi Lv. unfold bigsum. rewrite <- (sumT_mul_l O L).
      rewrite (sumT_ext O (fun k => mul alpha (mul (sumT (slice_values (arrv ptr) (arrv idx) (arrv vals) i k)) (b k)))
                 (fun k => sumT (map (fun e => if x e =? k then mul (mul alpha (v e)) (b k) else zero) (range (p i) (p (i + 1)))))).
      2: { intros k Hk. rewrite (slice_sum i k Hi Lv). rewrite <- (sumT_mul_r O L), <- (sumT_mul_l O L). apply sumT_ext. intros e He.
           destruct (x e =? k); [apply (sr_mul_assoc O L)|]. rewrite (sr_mul_0_l O L). apply (mul_0_r O L). }
      rewrite (sumT_swap O L). apply sumT_ext. intros e He. apply in_range in He. pose proof (p_slice i Hi) as Hb.
      destruct (rdp_x e ltac:(lia)) as [_ Hx].
      rewrite (sumT_only O L _ (range 0 m0) (x e)); [now rewrite Z.eqb_refl|apply NoDup_range|apply in_range; lia|].
      intros k _ Hne. destruct (Z.eqb_spec (x e) k); [congruence|reflexivity].
    Qed.

    Lemma slice_pick i k alpha (c : T) : 0 <= i < n0 -> nnz <= zlen (arrv vals) ->
      sumT (map (fun e => if x e =? k then mul (mul alpha (v e)) c else zero) (range (p i) (p (i + 1)))) =
      mul alpha (mul (sumT (slice_values (arrv ptr) (arrv idx) (arrv vals) i k)) c).
    Proof using L Hptr Hidx.
      intros Hi Lv. rewrite (slice_sum i k Hi Lv). rewrite <- (sumT_mul_r O L), <- (sumT_mul_l O L). apply sumT_ext. intros e He.
      destruct (x e =? k); [symmetry; apply (sr_mul_assoc O L)|]. rewrite (sr_mul_0_l O L). symmetry. apply (mul_0_r O L).
    Qed.
  End Csx.

  (* -------------------------------------------------------------- *)
  (** The scaled values. *)
  Lemma scaled_vals_spec alpha nnz vals : 0 <= nnz -> nnz <= zlen (arrv vals) ->
    exists vals', scaled_vals O alpha nnz vals = Ok vals' /\ nnz <= zlen (arrv vals') /\
      forall e, 0 <= e < nnz -> vf vals' e = mul alpha (vf vals e).
  Proof using L.
    intros Hn Lv. unfold scaled_vals. destruct (o_eqb O alpha one) eqn:E.
    - apply (sr_eqb O L) in E. subst alpha. exists vals. split; [reflexivity|]. split; [exact Lv|]. intros e He. now rewrite (sr_mul_1_l O L).
    - rewrite (mapM_Ok _ (fun e => mul alpha (vf vals e))).
      2: { intros e He. apply in_range in He. rewrite rdp_vf by lia. cbn [bind]. now rewrite (sr_add_0_l O L). }
      cbn [bind]. eexists. split; [reflexivity|]. cbn [arrv]. rewrite zlen_map, zlen_range by lia. split; [lia|].
      intros e He. unfold vf at 1. cbn [arrv]. rewrite get_map, get_range by lia. reflexivity.
  Qed.

  Lemma axpy_updates_spec n scale B ldb m k offc : fits_buffer RowMajor ldb m n (zlen B) -> 0 <= k < m ->
    axpy_updates O n scale B (k * ldb) offc = Ok (map (fun q => (offc + q, [mul scale (cell O RowMajor ldb B k q)])) (range 0 n)).
  Proof.
    intros F Hk. unfold axpy_updates. apply mapM_Ok. intros q Hq. apply in_range in Hq.
    change (k * ldb + q) with (addr RowMajor ldb k q). rewrite (rd_cell _ _ _ _ _ _ _ F) by lia. reflexivity.
  Qed.

  (* -------------------------------------------------------------- *)
  (** ** CSR, column-parallel *)
  Definition csr_sum (A : csr_matrix T) (alpha : T) (m : Z) (b : Z -> Z -> T) (i j : Z) : T :=
    mul alpha (bigsum O (fun k => mul (sumT (csr_at A i k)) (b k j)) 0 m).

  Lemma csr_left_jik_spec sched alpha lB lC d n m A B ldb C ldc :
    valid_schedule sched -> valid_csr A -> cr_base A = BZero -> d = cr_nr A -> m = cr_nc A -> 0 <= n -> m <= 2 ^ 31 ->
    fits_buffer lB ldb m n (zlen B) -> fits_buffer lC ldc d n (zlen C) ->
    exists C', csr_left_jik O sched alpha lB lC d n m A B ldb C ldc = Ok C' /\
      adds lC d n (csr_sum A alpha m (cell O lB ldb B)) C ldc C'.
  Proof using L.
    intros Hs (Hr & Hc & Hn & Lv & Hi & Hp) Hb -> -> Hn0 H31 FB FC. unfold csr_left_jik. rewrite Hb in *. cbn [base_eqb off] in *.
    rewrite require_true. cbn [bind].
    destruct (scaled_vals_spec alpha (cr_nnz A) (cr_vals A) Hn Lv) as (vals & -> & Lv' & Hv). cbn [bind].
    rewrite !Z.eqb_refl, !require_true. cbn [bind].
    pose (ev := fun i j => (addr lC ldc i j, map (fun e => mul (mul alpha (vf (cr_vals A) e)) (cell O lB ldb B (pf (cr_idx A) e) j))
                               (range (pf (cr_ptr A) i) (pf (cr_ptr A) (i + 1))))).
    pose proof (addr_strides lB ldb) as SB. pose proof (addr_strides lC ldc) as SC.
    destruct (layout_to_strides lB ldb) as [Br Bc]. destruct (layout_to_strides lC ldc) as [Cr Cc].
    rewrite (mapM_Ok _ (fun j => map (fun i => ev i j) (range 0 (cr_nr A)))).
    2: { intros j Hj. apply in_range in Hj. unfold csr_vector_ik. apply mapM_Ok. intros i Hi'. apply in_range in Hi'.
         rewrite !(rdp_p (cr_nr A) (cr_nnz A) (cr_ptr A) Hp) by lia. cbn [bind].
         pose proof (p_slice (cr_nr A) (cr_nnz A) (cr_ptr A) Hp i Hi') as Bd.
         rewrite (mapM_Ok _ (fun e => mul (mul alpha (vf (cr_vals A) e)) (cell O lB ldb B (pf (cr_idx A) e) j))).
         - cbn [bind]. unfold ev. rewrite (SC i j). reflexivity.
         - intros e He. apply in_range in He. destruct (rdp_x (cr_nc A) (cr_nnz A) (cr_idx A) Hi e ltac:(lia)) as [-> Hx]. cbn [bind].
           rewrite rdp_vf by lia. cbn [bind]. rewrite to_sint_id by lia. rewrite (SB (pf (cr_idx A) e) j).
           rewrite (rd_cell lB ldb B (cr_nc A) n) by (auto; lia). cbn [bind]. rewrite Hv by lia. reflexivity. }
    cbn [bind].
    assert (Inj : forall i j i' j', 0 <= i < cr_nr A -> 0 <= j < n -> 0 <= i' < cr_nr A -> 0 <= j' < n -> addr lC ldc i j = addr lC ldc i' j' -> i = i' /\ j = j').
    { intros. eapply (addr_inj lC (cr_nr A) n); eauto. apply FC. }
    apply finish; auto.
    - apply race_free_map; [apply NoDup_range|]. intros j j' Hj Hj' Hne e e' He He'.
      apply in_map_iff in He as (i & <- & Hi'). apply in_map_iff in He' as (i2 & <- & Hi2). apply in_range in Hi', Hi2, Hj, Hj'.
      cbn [ev fst]. intros E. apply Inj in E; auto. tauto.
    - intros t e Ht He. apply in_map_iff in Ht as (j & <- & Hj). apply in_map_iff in He as (i & <- & Hi'). apply in_range in Hi', Hj.
      exists i, j. auto.
    - intros i j Hi' Hj. rewrite (added_concat O L), map_map.
      rewrite (sumT_only O L _ (range 0 n) j); [|apply NoDup_range|apply in_range; lia|].
      + unfold SpmmProofs.added. rewrite map_map. rewrite (sumT_only O L _ (range 0 (cr_nr A)) i); [|apply NoDup_range|apply in_range; lia|].
        * cbn [ev fst snd]. rewrite Z.eqb_refl. unfold csr_sum, csr_at. rewrite Hb. cbn [off].
          rewrite (slice_dot (cr_nr A) (cr_nc A) (cr_nnz A) (cr_ptr A) (cr_idx A) (cr_vals A) Hi Hp i alpha (fun k => cell O lB ldb B k j) Hi' Lv).
          f_equal. apply sumT_ext. intros k _. now rewrite Z.add_0_r.
        * intros i2 Hi2 Hne. apply in_range in Hi2. cbn [ev fst snd]. destruct (Z.eqb_spec (addr lC ldc i2 j) (addr lC ldc i j)) as [E|E]; [|reflexivity].
          apply Inj in E; auto. lia.
      + intros j2 Hj2 Hne. apply in_range in Hj2. apply (added_none O L). intros u Hu. apply in_map_iff in Hu as (i2 & <- & Hi2). apply in_range in Hi2.
        cbn [ev fst]. intros E. apply Inj in E; auto. lia.
  Qed.

  (** ** CSR, row-parallel *)
  Lemma csr_left_ikb_spec sched alpha d n m A B ldb C ldc :
    valid_schedule sched -> valid_csr A -> cr_base A = BZero -> d = cr_nr A -> m = cr_nc A -> 0 <= n ->
    fits_buffer RowMajor ldb m n (zlen B) -> fits_buffer RowMajor ldc d n (zlen C) ->
    exists C', csr_left_ikb O sched alpha d n m A B ldb C ldc = Ok C' /\
      adds RowMajor d n (csr_sum A alpha m (cell O RowMajor ldb B)) C ldc C'.
  Proof using L.
    intros Hs (Hr & Hc & Hn & Lv & Hi & Hp) Hb -> -> Hn0 FB FC. unfold csr_left_ikb. rewrite Hb in *. cbn [base_eqb off] in *.
    rewrite !Z.eqb_refl, !require_true. cbn [bind].
    pose (us := fun i e => map (fun q => (i * ldc + q, [mul (mul alpha (vf (cr_vals A) e)) (cell O RowMajor ldb B (pf (cr_idx A) e) q)])) (range 0 n)).
    rewrite (mapM_Ok _ (fun i => concat (map (us i) (range (pf (cr_ptr A) i) (pf (cr_ptr A) (i + 1)))))).
    2: { intros i Hi'. apply in_range in Hi'. rewrite !(rdp_p (cr_nr A) (cr_nnz A) (cr_ptr A) Hp) by lia. cbn [bind].
         pose proof (p_slice (cr_nr A) (cr_nnz A) (cr_ptr A) Hp i Hi') as Bd.
         rewrite (mapM_Ok _ (us i)); [reflexivity|]. intros e He. apply in_range in He.
         rewrite rdp_vf by lia. cbn [bind]. destruct (rdp_x (cr_nc A) (cr_nnz A) (cr_idx A) Hi e ltac:(lia)) as [-> Hx]. cbn [bind].
         rewrite (axpy_updates_spec n _ B ldb (cr_nc A)); auto. }
    cbn [bind].
    assert (Inj : forall i j i' j', 0 <= i < cr_nr A -> 0 <= j < n -> 0 <= i' < cr_nr A -> 0 <= j' < n -> i * ldc + j = i' * ldc + j' -> i = i' /\ j = j').
    { intros. apply (addr_inj RowMajor (cr_nr A) n ldc i j i' j'); auto. apply FC. }
    assert (Hev : forall i u, In u (concat (map (us i) (range (pf (cr_ptr A) i) (pf (cr_ptr A) (i + 1))))) -> exists q, 0 <= q < n /\ fst u = i * ldc + q).
    { intros i u Hu. apply in_concat in Hu as (l & Hl & Hu). apply in_map_iff in Hl as (e & <- & He). apply in_map_iff in Hu as (q & <- & Hq).
      apply in_range in Hq. exists q. auto. }
    apply finish; auto.
    - apply race_free_map; [apply NoDup_range|]. intros i i' Hi1 Hi2 Hne e e' He He'. apply in_range in Hi1, Hi2.
      destruct (Hev i e He) as (q & Hq & ->). destruct (Hev i' e' He') as (q' & Hq' & ->). intros E. apply Inj in E; auto. tauto.
    - intros t e Ht He. apply in_map_iff in Ht as (i & <- & Hi1). apply in_range in Hi1. destruct (Hev i e He) as (q & Hq & ->). exists i, q. auto.
    - intros i j Hi1 Hj. cbn [addr]. rewrite (added_concat O L), map_map.
      rewrite (sumT_only O L _ (range 0 (cr_nr A)) i); [|apply NoDup_range|apply in_range; lia|].
      + rewrite (added_concat O L), map_map. unfold csr_sum, csr_at. rewrite Hb. cbn [off].
        rewrite (sumT_ext O _ (fun e => mul (mul alpha (vf (cr_vals A) e)) (cell O RowMajor ldb B (pf (cr_idx A) e) j))).
        * rewrite (slice_dot (cr_nr A) (cr_nc A) (cr_nnz A) (cr_ptr A) (cr_idx A) (cr_vals A) Hi Hp i alpha (fun k => cell O RowMajor ldb B k j) Hi1 Lv).
          f_equal. apply sumT_ext. intros k _. now rewrite Z.add_0_r.
        * intros e He. unfold SpmmProofs.added, us. rewrite map_map. rewrite (sumT_only O L _ (range 0 n) j); [|apply NoDup_range|apply in_range; lia|].
          -- cbn [fst snd]. rewrite Z.eqb_refl. apply (sumT_one O L).
          -- intros q Hq Hne. apply in_range in Hq. cbn [fst snd]. destruct (Z.eqb_spec (i * ldc + q) (i * ldc + j)); [lia|reflexivity].
      + intros i2 Hi2 Hne. apply in_range in Hi2. apply (added_none O L). intros u Hu. destruct (Hev i2 u Hu) as (q & Hq & ->).
        intros E. apply Inj in E; auto. lia.
  Qed.
End Kernels.
