(** laso_merge_long_axis_vector_coo_data: merging repeated indices. *)
From Verif Require Import Base Spec RngModel DenseModel DenseSpec DenseProofs SparseSkopModel FySpec FyProofs SamplerProofs SparseSpec.
From Coq Require Import Permutation.

(* ------------------------------------------------------------------ *)
(** * Association lists *)
Lemma ulookup_uset_eq {A} (m : umap A) k v : ulookup (uset m k v) k = Some v.
Proof.
  induction m as [|[k' v'] m IH]; cbn.
  - now rewrite Z.eqb_refl.
  - destruct (Z.eqb_spec k' k) as [->|H]; cbn.
    + now rewrite Z.eqb_refl.
    + destruct (Z.eqb_spec k' k); [contradiction|exact IH].
Qed.

Lemma ulookup_uset_ne {A} (m : umap A) k k' v : k <> k' -> ulookup (uset m k v) k' = ulookup m k'.
Proof.
  intros Hk. induction m as [|[k1 v1] m IH]; cbn.
  - destruct (Z.eqb_spec k k'); [contradiction|reflexivity].
  - destruct (Z.eqb_spec k1 k) as [->|H]; cbn; [|now rewrite IH].
    destruct (Z.eqb_spec k k'); [contradiction|reflexivity].
Qed.

Lemma ulookup_In {A} (m : umap A) k : ulookup m k <> None <-> In k (map fst m).
Proof.
  induction m as [|[k' v'] m IH]; cbn; [tauto|].
  destruct (Z.eqb_spec k' k) as [->|H]; [split; [auto|discriminate]|].
  rewrite IH. split; [auto|]. intros [?|?]; [contradiction|auto].
Qed.

Lemma uset_keys_old {A} (m : umap A) k v : ulookup m k <> None -> map fst (uset m k v) = map fst m.
Proof.
  induction m as [|[k' v'] m IH]; cbn; [tauto|].
  destruct (Z.eqb_spec k' k) as [->|H]; [reflexivity|]. intros Hk. cbn. now rewrite IH.
Qed.

Lemma uset_keys_new {A} (m : umap A) k v : ulookup m k = None -> map fst (uset m k v) = map fst m ++ [k].
Proof.
  induction m as [|[k' v'] m IH]; cbn; [reflexivity|].
  destruct (Z.eqb_spec k' k) as [->|H]; [discriminate|]. intros Hk. cbn. now rewrite IH.
Qed.

Lemma zlen_snoc {A} (l : list A) x : zlen (l ++ [x]) = zlen l + 1.
Proof. rewrite zlen_app. reflexivity. Qed.

(* ------------------------------------------------------------------ *)
(** * Multiplicities *)
Lemma find_app {A} (P : A -> bool) l1 l2 :
  find P (l1 ++ l2) = match find P l1 with Some x => Some x | None => find P l2 end.
Proof. induction l1 as [|x l1 IH]; cbn; [reflexivity|]. destruct (P x); auto. Qed.

Lemma first_snoc x t ell : 0 <= t ->
  first x (t + 1) ell = match first x t ell with Some j => Some j | None => if x t =? ell then Some t else None end.
Proof. intros Ht. unfold first. rewrite range_snoc by lia. rewrite find_app. destruct (find _ (range 0 t)); reflexivity. Qed.

Lemma mult_snoc x t ell : 0 <= t -> mult x (t + 1) ell = mult x t ell + if x t =? ell then 1 else 0.
Proof.
  intros Ht. unfold mult. rewrite range_snoc by lia. rewrite filter_app, zlen_app. cbn [filter].
  destruct (x t =? ell); reflexivity.
Qed.

Lemma first_Some x k ell t : first x k ell = Some t -> 0 <= t < k /\ x t = ell.
Proof. intros H. apply find_some in H as [H1 H2]. apply in_range in H1. split; lia. Qed.

Lemma first_None x k ell : first x k ell = None -> forall t, 0 <= t < k -> x t <> ell.
Proof. intros H t Ht. pose proof (find_none _ _ H t) as Hn. rewrite in_range in Hn. specialize (Hn Ht). cbn in Hn. lia. Qed.

Lemma mult_0 x k ell : first x k ell = None -> mult x k ell = 0.
Proof.
  intros H. unfold mult. replace (filter _ (range 0 k)) with (@nil Z); [reflexivity|].
  symmetry. pose proof (first_None x k ell H) as Hn.
  assert (forall t, In t (range 0 k) -> x t <> ell) as Hn' by (intros t Ht; apply in_range in Ht; auto).
  revert Hn'. generalize (range 0 k) as l. induction l as [|y l IH]; intros Hl; cbn; [reflexivity|].
  pose proof (Hl y (or_introl eq_refl)). destruct (Z.eqb_spec (x y) ell); [contradiction|].
  apply IH. intros z Hz. apply Hl. now right.
Qed.

Lemma mult_inj x k ell t : (forall a b, 0 <= a < k -> 0 <= b < k -> x a = x b -> a = b) ->
  0 <= t < k -> x t = ell -> first x k ell = Some t /\ mult x k ell = 1.
Proof.
  intros Hinj Ht Hx. split.
  - destruct (first x k ell) as [t'|] eqn:E.
    + apply first_Some in E as [H1 H2]. f_equal. apply Hinj; auto; lia.
    + exfalso. exact (first_None _ _ _ E t Ht Hx).
  - unfold mult. rewrite (range_split 0 t k) by lia. rewrite (range_cons t k) by lia.
    rewrite filter_app, zlen_app. cbn [filter]. replace (x t =? ell) with true by lia. rewrite zlen_cons.
    assert (forall l, (forall y, In y l -> 0 <= y < k /\ y <> t) -> filter (fun t0 => x t0 =? ell) l = []) as Hf.
    { induction l as [|y l IH]; intros Hl; cbn; [reflexivity|].
      destruct (Hl y (or_introl eq_refl)) as [H1 H2].
      destruct (Z.eqb_spec (x y) ell) as [Hy|]; [exfalso; apply H2; apply Hinj; auto; lia|].
      apply IH. intros z Hz. apply Hl. now right. }
    rewrite !Hf; [reflexivity| |]; intros y Hy; apply in_range in Hy; lia.
Qed.

Section Merge.
  Context {K F T : Type}.
  Variable env : sparse_env K F T.
  Hypothesis Hsqrt : forall v, se_sqrtmul env 1 v = v.
  Hypothesis Horder : forall i l, Permutation l (se_order env i l).

  Section One.
  Variables (off i k : Z) (vals : list T) (lax sax : list Z) (x : Z -> Z) (v : Z -> T).
  Hypothesis Hoff : 0 <= off.
  Hypothesis Hk : 0 <= k.
  Hypothesis Hsax : off + k <= zlen sax.
  Hypothesis Hx : forall j, 0 <= j < k -> get lax (off + j) = Some (x j).
  Hypothesis Hv : forall j, 0 <= j < k -> get vals (off + j) = Some (v j).

  Lemma laso_scan_spec :
    exists sax' cnt scl,
      for_ 0 k (laso_scan off i lax vals) (sax, [], []) = Ok (sax', cnt, scl) /\
      zlen sax' = zlen sax /\
      (forall p, get sax' p = if (off <=? p) && (p <? off + k) then Some i else get sax p) /\
      map fst cnt = map fst scl /\ NoDup (map fst cnt) /\
      (forall ell, ulookup cnt ell = option_map (fun _ => mult x k ell) (first x k ell)) /\
      (forall ell, ulookup scl ell = option_map v (first x k ell)).
  Proof.
    destruct (for_inv (fun t (st : list Z * umap Z * umap T) =>
        let '(sax', cnt, scl) := st in
        zlen sax' = zlen sax /\
        (forall p, get sax' p = if (off <=? p) && (p <? off + t) then Some i else get sax p) /\
        map fst cnt = map fst scl /\ NoDup (map fst cnt) /\
        (forall ell, ulookup cnt ell = option_map (fun _ => mult x t ell) (first x t ell)) /\
        (forall ell, ulookup scl ell = option_map v (first x t ell)))
      0 k (laso_scan off i lax vals) (sax, [], [])) as [[[sax' cnt] scl] [E H]].
    - exact Hk.
    - split; [reflexivity|]. split; [|split; [reflexivity|split; [constructor|split; intros; reflexivity]]].
      intros p. replace ((off <=? p) && (p <? off + 0)) with false by lia. reflexivity.
    - intros t [[s1 cnt] scl] Ht (L1 & G1 & Ek & Nd & Hc & Hs). unfold laso_scan.
      destruct (wr_ex s1 (off + t) i) as [s2 [E2 [L2 [G2 N2]]]]; [lia|].
      rewrite E2. cbn [bind].
      rewrite (proj2 (rd_get lax _ _) (Hx t Ht)). cbn [bind].
      rewrite (proj2 (rd_get vals _ _) (Hv t Ht)). cbn [bind].
      assert (forall p, get s2 p = if (off <=? p) && (p <? off + (t + 1)) then Some i else get sax p) as G2'.
      { intros p. destruct (Z.eq_dec p (off + t)) as [->|Hp].
        - rewrite G2. replace ((off <=? off + t) && (off + t <? off + (t + 1))) with true by lia. reflexivity.
        - rewrite N2, G1 by lia.
          replace ((off <=? p) && (p <? off + (t + 1))) with ((off <=? p) && (p <? off + t)) by lia. reflexivity. }
      rewrite (Hs (x t)), (Hc (x t)). destruct (first x t (x t)) as [f|] eqn:Ef; cbn [option_map].
      + eexists. split; [reflexivity|]. split; [lia|]. split; [exact G2'|].
        assert (ulookup cnt (x t) <> None) as Hin by (rewrite Hc, Ef; discriminate).
        rewrite (uset_keys_old _ _ _ Hin). split; [exact Ek|]. split; [exact Nd|]. split.
        * intros ell. rewrite first_snoc, mult_snoc by lia.
          destruct (Z.eq_dec (x t) ell) as [<-|Hne].
          -- rewrite ulookup_uset_eq, Ef, Z.eqb_refl. reflexivity.
          -- rewrite ulookup_uset_ne by exact Hne. rewrite Hc.
             replace (x t =? ell) with false by lia. rewrite Z.add_0_r. destruct (first x t ell); reflexivity.
        * intros ell. rewrite first_snoc, Hs by lia. destruct (first x t ell) as [f'|] eqn:Ef'; [reflexivity|].
          destruct (Z.eqb_spec (x t) ell) as [Hxe|]; [congruence|reflexivity].
      + eexists. split; [reflexivity|]. split; [lia|]. split; [exact G2'|].
        assert (ulookup cnt (x t) = None) as Hn1 by (rewrite Hc, Ef; reflexivity).
        assert (ulookup scl (x t) = None) as Hn2 by (rewrite Hs, Ef; reflexivity).
        rewrite (uset_keys_new _ _ _ Hn1), (uset_keys_new _ _ _ Hn2). split; [now rewrite Ek|]. split.
        { apply (Permutation_NoDup (l := x t :: map fst cnt)); [apply Permutation_cons_append|].
          constructor; [|exact Nd]. intros Hi. apply ulookup_In in Hi. contradiction. }
        split.
        * intros ell. rewrite first_snoc, mult_snoc by lia.
          destruct (Z.eq_dec (x t) ell) as [<-|Hne].
          -- rewrite ulookup_uset_eq, Ef, Z.eqb_refl, mult_0 by exact Ef. reflexivity.
          -- rewrite ulookup_uset_ne by exact Hne. rewrite Hc.
             replace (x t =? ell) with false by lia. rewrite Z.add_0_r. destruct (first x t ell); reflexivity.
        * intros ell. rewrite first_snoc by lia. destruct (Z.eq_dec (x t) ell) as [<-|Hne].
          -- rewrite ulookup_uset_eq, Ef, Z.eqb_refl. reflexivity.
          -- rewrite ulookup_uset_ne by exact Hne. rewrite Hs.
             replace (x t =? ell) with false by lia. destruct (first x t ell); reflexivity.
    - exists sax', cnt, scl. split; [exact E|exact H].
  Qed.

  (** The entry written for index [ell]. *)
  Definition val_of (ell : Z) : T :=
    match first x k ell with Some t => se_sqrtmul env (mult x k ell) (v t) | None => se_one env end.

  Lemma laso_emit_spec cnt scl ks :
    zlen ks <= k -> off + k <= zlen lax -> off + k <= zlen vals ->
    (forall ell, In ell ks -> first x k ell <> None) ->
    (forall ell, ulookup cnt ell = option_map (fun _ => mult x k ell) (first x k ell)) ->
    (forall ell, ulookup scl ell = option_map v (first x k ell)) ->
    exists lax' vals',
      foldM (laso_emit env off cnt scl) ks (0, lax, vals) = Ok (zlen ks, lax', vals') /\
      zlen lax' = zlen lax /\ zlen vals' = zlen vals /\
      (forall p, p < off -> get lax' p = get lax p /\ get vals' p = get vals p) /\
      (forall q ell, get ks q = Some ell -> get lax' (off + q) = Some ell /\ get vals' (off + q) = Some (val_of ell)).
  Proof.
    intros Hl Hla Hva Hin Hc Hs.
    destruct (foldM_inv (fun (done : list Z) (st : Z * list Z * list T) =>
        let '(c, l', v') := st in
        zlen done <= zlen ks ->
        c = zlen done /\ zlen l' = zlen lax /\ zlen v' = zlen vals /\
        (forall p, p < off -> get l' p = get lax p /\ get v' p = get vals p) /\
        (forall q ell, get done q = Some ell -> get l' (off + q) = Some ell /\ get v' (off + q) = Some (val_of ell)))
      (laso_emit env off cnt scl) ks (0, lax, vals)) as [[[c l'] v'] [E H]].
    - intros _. split; [reflexivity|]. split; [reflexivity|]. split; [reflexivity|]. split; [auto|].
      intros q ell Hq. apply get_Some_lt in Hq. cbn in Hq. lia.
    - intros done ell todo [[c l'] v'] Eks Hinv.
      assert (zlen done + 1 <= zlen ks) as Hlt by (rewrite Eks, zlen_app, zlen_cons; pose proof (zlen_nonneg todo); lia).
      destruct (Hinv ltac:(lia)) as (-> & L1 & L2 & Fr & G).
      assert (In ell ks) as Hine by (rewrite Eks; apply in_or_app; right; left; reflexivity).
      unfold laso_emit. rewrite Hc, Hs. specialize (Hin ell Hine).
      destruct (first x k ell) as [t|] eqn:Ef; [|contradiction]. cbn [option_map].
      pose proof (zlen_nonneg done).
      destruct (wr_ex l' (off + zlen done) ell) as [l2 [E1 [La [Ga Na]]]]; [lia|]. rewrite E1. cbn [bind].
      destruct (wr_ex v' (off + zlen done) (se_sqrtmul env (mult x k ell) (v t))) as [v2 [E2 [Lb [Gb Nb]]]]; [lia|].
      rewrite E2. cbn [bind]. eexists. split; [reflexivity|]. intros _. rewrite zlen_snoc.
      split; [lia|]. split; [lia|]. split; [lia|]. split.
      + intros p Hp. rewrite Na, Nb by lia. auto.
      + intros q ell' Hq. pose proof (get_Some_lt _ _ _ Hq) as Hql. rewrite zlen_snoc in Hql.
        destruct (Z.eq_dec q (zlen done)) as [->|Hne].
        * rewrite get_app_r, Z.sub_diag, get_cons_0 in Hq by lia. injection Hq as <-.
          rewrite Ga, Gb. unfold val_of. rewrite Ef. auto.
        * rewrite get_app_l in Hq by lia. rewrite Na, Nb by lia. auto.
    - cbn in H. destruct (H ltac:(lia)) as (-> & L1 & L2 & Fr & G). exists l', v'. auto.
  Qed.

  Lemma laso_merge_spec :
    off + k <= zlen lax -> off + k <= zlen vals ->
    exists vals' lax' sax' ks,
      laso_merge env k off i vals lax sax = Ok (vals', lax', sax', zlen ks) /\
      NoDup ks /\ zlen ks <= k /\ (0 < k -> 0 < zlen ks) /\
      (forall ell, In ell ks <-> first x k ell <> None) /\
      zlen lax' = zlen lax /\ zlen vals' = zlen vals /\ zlen sax' = zlen sax /\
      (forall p, p < off -> get lax' p = get lax p /\ get vals' p = get vals p /\ get sax' p = get sax p) /\
      (forall q ell, get ks q = Some ell ->
         get lax' (off + q) = Some ell /\ get vals' (off + q) = Some (val_of ell) /\ get sax' (off + q) = Some i).
  Proof.
    intros Hla Hva. destruct laso_scan_spec as (sax' & cnt & scl & E & Ls & Gs & Ek & Nd & Hc & Hs).
    unfold laso_merge. rewrite E. cbn [bind].
    assert (forall ell, In ell (map fst cnt) <-> first x k ell <> None) as Hkeys.
    { intros ell. rewrite <- ulookup_In, Hc. destruct (first x k ell); cbn; split; congruence. }
    assert (zlen scl = zlen cnt) as Els by (rewrite <- (zlen_map fst cnt), Ek, zlen_map; reflexivity).
    assert (incl (map fst cnt) (map x (range 0 k))) as Hincl.
    { intros ell Hin. apply Hkeys in Hin. destruct (first x k ell) as [t|] eqn:Ef; [|contradiction].
      apply first_Some in Ef as [Ht <-]. apply in_map. apply in_range. exact Ht. }
    assert (incl (map x (range 0 k)) (map fst cnt)) as Hincl'.
    { intros ell Hin. apply in_map_iff in Hin as [t [<- Ht]]. apply in_range in Ht. apply Hkeys.
      intros Hn. exact (first_None _ _ _ Hn t Ht eq_refl). }
    assert (zlen cnt <= k) as Hle.
    { pose proof (NoDup_incl_length Nd Hincl) as Hle. rewrite !map_length in Hle.
      unfold range in Hle. rewrite length_zseq in Hle. unfold zlen. lia. }
    assert (0 < k -> 0 < zlen cnt) as Hpos.
    { intros Hk0. assert (In (x 0) (map fst cnt)) as Hi by (apply Hincl', in_map, in_range; lia).
      destruct cnt; [destruct Hi|]. rewrite zlen_cons. pose proof (zlen_nonneg cnt). lia. }
    destruct (Z.ltb_spec (zlen scl) k) as [Hlt|Hge].
    - pose proof (Horder i (map fst cnt)) as P. set (ks := se_order env i (map fst cnt)) in *.
      assert (zlen ks = zlen cnt) as Lks.
      { rewrite <- (zlen_map fst cnt). unfold zlen. f_equal. symmetry. apply Permutation_length. exact P. }
      assert (forall ell, In ell ks <-> first x k ell <> None) as Hks.
      { intros ell. rewrite <- Hkeys. split; apply Permutation_in; [symmetry|]; exact P. }
      destruct (laso_emit_spec cnt scl ks) as (lax' & vals' & E2 & L1 & L2 & Fr & G); auto; try lia.
      { intros ell. apply Hks. }
      rewrite E2. cbn [bind]. exists vals', lax', sax', ks. rewrite Lks.
      split; [reflexivity|]. split; [exact (Permutation_NoDup P Nd)|]. split; [exact Hle|]. split; [exact Hpos|].
      split; [exact Hks|]. split; [exact L1|]. split; [exact L2|]. split; [exact Ls|]. split.
      + intros p Hp. destruct (Fr p Hp) as [-> ->]. rewrite Gs.
        replace ((off <=? p) && (p <? off + k)) with false by lia. auto.
      + intros q ell Hq. destruct (G q ell Hq) as [-> ->]. rewrite Gs. apply get_Some_lt in Hq.
        replace ((off <=? off + q) && (off + q <? off + k)) with true by lia. auto.
    - assert (NoDup (map x (range 0 k))) as Ndx.
      { apply (NoDup_incl_NoDup (l := map fst cnt)); [exact Nd| |exact Hincl].
        rewrite !map_length. unfold range. rewrite length_zseq. unfold zlen in *. lia. }
      assert (forall a b, 0 <= a < k -> 0 <= b < k -> x a = x b -> a = b) as Hinj.
      { intros a b Ha Hb Hab. apply (get_inj_NoDup (map x (range 0 k)) a b (x a) Ndx);
          rewrite get_map, get_range by lia; cbn [option_map]; rewrite Z.add_0_l; congruence. }
      exists vals, lax, sax', (map x (range 0 k)).
      assert (zlen (map x (range 0 k)) = k) as Lm by (rewrite zlen_map, zlen_range; lia).
      rewrite Lm. replace (zlen cnt) with k by lia. split; [reflexivity|]. split; [exact Ndx|]. split; [lia|]. split; [lia|].
      split. { intros ell. rewrite <- Hkeys. split; [apply Hincl'|apply Hincl]. }
      split; [reflexivity|]. split; [reflexivity|]. split; [exact Ls|]. split.
      + intros p Hp. rewrite Gs. replace ((off <=? p) && (p <? off + k)) with false by lia. auto.
      + intros q ell Hq. pose proof (get_Some_lt _ _ _ Hq) as Hql. rewrite Lm in Hql.
        rewrite get_map, get_range in Hq by lia. cbn [option_map] in Hq. rewrite Z.add_0_l in Hq. injection Hq as <-.
        rewrite Hx, Hv, Gs by lia. replace ((off <=? off + q) && (off + q <? off + k)) with true by lia.
        split; [reflexivity|]. split; [|reflexivity]. unfold val_of.
        destruct (mult_inj x k (x q) q Hinj Hql eq_refl) as [-> ->]. now rewrite Hsqrt.
  Qed.
  End One.
End Merge.
