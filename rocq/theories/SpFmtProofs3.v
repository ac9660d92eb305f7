(** Sorting, compression and pointer arrays. *)
From Coq Require Import Permutation.
From Verif Require Import Base Spec SparseSkopModel SparseSpec SparseProofs SpFmtModel SpFmtSpec SpFmtProofs.

(* ------------------------------------------------------------------ *)
(** ** coo_sort_type *)
Definition adjacent (rel : Z * Z -> Z * Z -> Prop) (n : Z) (rows cols : list Z) : Prop :=
  forall q r1 c1 r2 c2, 1 <= q < n ->
    get rows (q - 1) = Some r1 -> get cols (q - 1) = Some c1 -> get rows q = Some r2 -> get cols q = Some c2 ->
    rel (r1, c1) (r2, c2).

Lemma adjacent_ordered (rel : Z * Z -> Z * Z -> Prop) n rows cols :
  (forall x y z, rel x y -> rel y z -> rel x z) -> n <= zlen rows -> n <= zlen cols ->
  adjacent rel n rows cols <-> ordered rel n rows cols.
Proof.
  intros Tr Lr Lc. split.
  - intros H p q r1 c1 r2 c2 Hpq Hq G1 G2. replace q with (p + (1 + (q - p - 1))) in * by lia.
    assert (Hd : 0 <= q - p - 1) by lia. revert r2 c2 Hq. pattern (q - p - 1). apply natlike_ind; [| |exact Hd].
    + intros r2 c2 Hq G3 G4. apply (H (p + (1 + 0))); auto; [lia| |]; now replace (p + (1 + 0) - 1) with p by lia.
    + intros d Hd0 IH r2 c2 Hq G3 G4.
      destruct (get_lt rows (p + (1 + d)) ltac:(lia)) as [r3 G5]. destruct (get_lt cols (p + (1 + d)) ltac:(lia)) as [c3 G6].
      apply (Tr _ (r3, c3)).
      * apply IH; auto. lia.
      * apply (H (p + (1 + Z.succ d))); auto; [lia| |]; now replace (p + (1 + Z.succ d) - 1) with (p + (1 + d)) by lia.
  - intros H q r1 c1 r2 c2 Hq G1 G2 G3 G4. apply (H (q - 1) q); auto; lia.
Qed.

Lemma le_csc_trans x y z : le_csc x y -> le_csc y z -> le_csc x z.
Proof. unfold le_csc. lia. Qed.
Lemma le_csr_trans x y z : le_csr x y -> le_csr y z -> le_csr x z.
Proof. unfold le_csr. lia. Qed.

Lemma increasing_by_csc_spec i0 j0 i1 j1 : increasing_by_csc i0 j0 i1 j1 = true <-> le_csc (i0, j0) (i1, j1).
Proof.
  unfold increasing_by_csc, le_csc. cbn. destruct (Z.gtb_spec j0 j1); [split; [discriminate|lia]|].
  destruct (Z.eqb_spec j0 j1); [rewrite Z.leb_le; lia|split; [lia|reflexivity]].
Qed.
Lemma increasing_by_csr_spec i0 j0 i1 j1 : increasing_by_csr i0 j0 i1 j1 = true <-> le_csr (i0, j0) (i1, j1).
Proof.
  unfold increasing_by_csr, le_csr. cbn. destruct (Z.gtb_spec i0 i1); [split; [discriminate|lia]|].
  destruct (Z.eqb_spec i0 i1); [rewrite Z.leb_le; lia|split; [lia|reflexivity]].
Qed.

Lemma adjacent_S (rel : Z * Z -> Z * Z -> Prop) n rows cols r1 c1 r2 c2 : 1 <= n ->
  get rows (n - 1) = Some r1 -> get cols (n - 1) = Some c1 -> get rows n = Some r2 -> get cols n = Some c2 ->
  adjacent rel (n + 1) rows cols <-> adjacent rel n rows cols /\ rel (r1, c1) (r2, c2).
Proof.
  intros Hn G1 G2 G3 G4. split.
  - intros H. split; [|apply (H n); auto; lia]. intros q a b c d Hq. apply H. lia.
  - intros [H R] q a b c d Hq K1 K2 K3 K4. destruct (Z.eq_dec q n) as [->|].
    + rewrite G1 in K1. rewrite G2 in K2. rewrite G3 in K3. rewrite G4 in K4. inversion K1; inversion K2; inversion K3; inversion K4; subst. exact R.
    + apply (H q); auto. lia.
Qed.

Theorem coo_sort_type_spec nnz rows cols :
  nnz <= zlen (arrv rows) -> nnz <= zlen (arrv cols) ->
  exists s, coo_sort_type nnz rows cols = Ok s /\
    (s = SCSC <-> ordered le_csc nnz (arrv rows) (arrv cols)) /\
    (s = SCSR <-> ordered le_csr nnz (arrv rows) (arrv cols) /\ ~ ordered le_csc nnz (arrv rows) (arrv cols)).
Proof.
  intros Lr Lc. unfold coo_sort_type.
  pose proof (adjacent_ordered le_csc nnz _ _ le_csc_trans Lr Lc) as A1.
  pose proof (adjacent_ordered le_csr nnz _ _ le_csr_trans Lr Lc) as A2.
  assert (H : exists a b, for_ 1 nnz (sort_type_step rows cols) (true, true) = Ok (a, b) /\
     (a = true <-> adjacent le_csc nnz (arrv rows) (arrv cols)) /\ (b = true <-> adjacent le_csr nnz (arrv rows) (arrv cols))).
  { destruct (Z.le_gt_cases nnz 1) as [Hle|Hgt].
    - rewrite for_nil by lia. exists true, true. split; [reflexivity|].
      split; (split; [|reflexivity]); intros _ q a b c d Hq; lia.
    - destruct (for_inv (fun q st => (fst st = true <-> adjacent le_csc q (arrv rows) (arrv cols)) /\
                                     (snd st = true <-> adjacent le_csr q (arrv rows) (arrv cols))) 1 nnz (sort_type_step rows cols) (true, true))
        as ([a b] & E & I1 & I2).
      + lia.
      + split; (split; [|reflexivity]); intros _ q a b c d Hq; lia.
      + intros q [a b] Hq [I1 I2]. cbn [fst snd] in I1, I2. unfold sort_type_step.
        destruct (rdp_ex rows (q - 1) ltac:(lia)) as (i0 & R1 & G1). destruct (rdp_ex cols (q - 1) ltac:(lia)) as (j0 & R2 & G2).
        destruct (rdp_ex rows q ltac:(lia)) as (i1 & R3 & G3). destruct (rdp_ex cols q ltac:(lia)) as (j1 & R4 & G4).
        destruct (negb a && negb b) eqn:Eab.
        * exists (a, b). split; [reflexivity|]. cbn [fst snd].
          rewrite (adjacent_S le_csc q _ _ i0 j0 i1 j1), (adjacent_S le_csr q _ _ i0 j0 i1 j1) by (auto; lia).
          destruct a, b; try discriminate. split; (split; [discriminate|]); intros [H _]; [apply I1 in H|apply I2 in H]; discriminate.
        * rewrite R1, R2, R3, R4. cbn [bind]. eexists. split; [reflexivity|]. cbn [fst snd].
          rewrite (adjacent_S le_csc q _ _ i0 j0 i1 j1), (adjacent_S le_csr q _ _ i0 j0 i1 j1) by (auto; lia).
          rewrite <- increasing_by_csc_spec, <- increasing_by_csr_spec. rewrite <- I1, <- I2.
          destruct a, b; tauto || (split; split; intuition discriminate).
      + exists a, b. auto. }
  destruct H as (a & b & -> & I1 & I2). cbn [bind]. eexists. split; [reflexivity|].
  rewrite <- A1, <- A2, <- I1, <- I2. clear. destruct a, b; split; split; intuition discriminate.
Qed.

(* ------------------------------------------------------------------ *)
(** ** sort_coo_data *)
Section Sort.
  Context {T : Type}.
  Notation triple := (Z * Z * T)%type.
  Variable ssort : (triple -> triple -> bool) -> list triple -> list triple.
  Hypothesis Hsort : sort_ok ssort.

  Definition lt_of (s : nz_sort) : triple -> triple -> bool := if sort_eqb s SCSR then lt_csr else lt_csc.
  Definition le_of (s : nz_sort) : Z * Z -> Z * Z -> Prop := if sort_eqb s SCSR then le_csr else le_csc.

  Lemma lt_of_false s (x y : triple) : lt_of s y x = false <-> le_of s (fst x) (fst y).
  Proof.
    destruct x as [[r1 c1] v1], y as [[r2 c2] v2]. unfold lt_of, le_of, le_csr, le_csc. destruct (sort_eqb s SCSR); cbn.
    - destruct (Z.ltb_spec r2 r1); [split; [discriminate|lia]|]. destruct (Z.gtb_spec r2 r1); [split; [lia|reflexivity]|].
      destruct (Z.ltb_spec c2 c1); (split; [try discriminate|]); try reflexivity; lia.
    - destruct (Z.ltb_spec c2 c1); [split; [discriminate|lia]|]. destruct (Z.gtb_spec c2 c1); [split; [lia|reflexivity]|].
      destruct (Z.ltb_spec r2 r1); (split; [try discriminate|]); try reflexivity; lia.
  Qed.

  Lemma le_of_total s a b : le_of s a b \/ le_of s b a.
  Proof. unfold le_of, le_csr, le_csc. destruct (sort_eqb s SCSR); lia. Qed.
  Lemma le_of_trans s a b c : le_of s a b -> le_of s b c -> le_of s a c.
  Proof. unfold le_of, le_csr, le_csc. destruct (sort_eqb s SCSR); lia. Qed.

  Lemma sort_triples s l :
    Permutation l (ssort (lt_of s) l) /\
    forall p q x y, 0 <= p < q -> get (ssort (lt_of s) l) p = Some x -> get (ssort (lt_of s) l) q = Some y -> le_of s (fst x) (fst y).
  Proof.
    destruct (Hsort (lt_of s) l) as [P S].
    - intros x. apply lt_of_false. destruct (le_of_total s (fst x) (fst x)); auto.
    - intros x y z H1 H2. apply not_false_iff_true. rewrite lt_of_false. intros H3.
      assert (Hyx : le_of s (fst x) (fst y)).
      { destruct (le_of_total s (fst x) (fst y)) as [|H4]; [auto|]. apply lt_of_false in H4. congruence. }
      assert (le_of s (fst z) (fst y)) by (eapply le_of_trans; eauto). apply lt_of_false in H. congruence.
    - intros x y z H1 H2. rewrite lt_of_false in *. eapply le_of_trans; eauto.
    - split; [exact P|]. intros p q x y Hpq G1 G2. apply lt_of_false. eauto.
  Qed.

  Lemma coo_triples_map nnz rows cols (vals : list T) (g : Z -> Z * Z * T) :
    (forall e, 0 <= e < nnz -> get rows e = Some (fst (fst (g e))) /\ get cols e = Some (snd (fst (g e))) /\ get vals e = Some (snd (g e))) ->
    coo_triples nnz rows cols vals = map g (range 0 nnz).
  Proof.
    intros H. unfold coo_triples.
    replace (map g (range 0 nnz)) with (flat_map (fun e => [g e]) (range 0 nnz)).
    - apply flat_map_ext_in. intros e He. apply in_range in He. destruct (H e He) as (-> & -> & ->).
      now rewrite <- !surjective_pairing.
    - induction (range 0 nnz) as [|e l IH]; cbn [flat_map map app]; [reflexivity|]. now rewrite IH.
  Qed.

  Lemma zlen_coo_triples nnz rows cols (vals : list T) : 0 <= nnz ->
    nnz <= zlen rows -> nnz <= zlen cols -> nnz <= zlen vals -> zlen (coo_triples nnz rows cols vals) = nnz.
  Proof.
    intros Hn Lr Lc Lv. revert Lr Lc Lv. pattern nnz. apply natlike_ind; [reflexivity| |exact Hn].
    intros d Hd IH Lr Lc Lv. unfold coo_triples in *. rewrite <- Z.add_1_r in *. rewrite range_snoc by lia. rewrite flat_map_app, zlen_app, IH by lia.
    cbn [flat_map]. destruct (get_lt rows d ltac:(lia)) as [r ->]. destruct (get_lt cols d ltac:(lia)) as [c ->].
    destruct (get_lt vals d ltac:(lia)) as [v ->]. reflexivity.
  Qed.

  Lemma get_coo_triples nnz rows cols (vals : list T) e r c v : 
    nnz <= zlen rows -> nnz <= zlen cols -> nnz <= zlen vals -> 0 <= e < nnz ->
    get (coo_triples nnz rows cols vals) e = Some (r, c, v) <-> get rows e = Some r /\ get cols e = Some c /\ get vals e = Some v.
  Proof.
    intros Lr Lc Lv He.
    assert (E : exists rest, coo_triples nnz rows cols vals = coo_triples e rows cols vals ++
       match get rows e, get cols e, get vals e with Some r, Some c, Some v => [(r, c, v)] | _, _, _ => [] end ++ rest).
    { eexists. unfold coo_triples. rewrite (range_split 0 e nnz), (range_cons e nnz) by lia. rewrite flat_map_app. cbn [flat_map]. reflexivity. }
    destruct E as [rest ->].
    destruct (get_lt rows e ltac:(lia)) as [r0 ->]. destruct (get_lt cols e ltac:(lia)) as [c0 ->]. destruct (get_lt vals e ltac:(lia)) as [v0 ->].
    rewrite get_app_r by (rewrite zlen_coo_triples; lia). rewrite zlen_coo_triples by lia. rewrite Z.sub_diag. cbn [app].
    rewrite get_cons_0. split; [intros H; inversion H; auto|]. intros (H1 & H2 & H3). inversion H1; inversion H2; inversion H3; reflexivity.
  Qed.

  Theorem sort_coo_data_spec s nnz vals rows cols :
    s <> SNone -> 0 <= nnz -> nnz <= zlen (arrv vals) -> nnz <= zlen (arrv rows) -> nnz <= zlen (arrv cols) ->
    exists vals' rows' cols', sort_coo_data ssort s nnz vals rows cols = Ok (vals', rows', cols') /\
      zlen (arrv vals') = zlen (arrv vals) /\ zlen (arrv rows') = zlen (arrv rows) /\ zlen (arrv cols') = zlen (arrv cols) /\
      Permutation (coo_triples nnz (arrv rows) (arrv cols) (arrv vals)) (coo_triples nnz (arrv rows') (arrv cols') (arrv vals')) /\
      ordered (le_of s) nnz (arrv rows') (arrv cols') /\
      (forall e, nnz <= e -> get (arrv vals') e = get (arrv vals) e /\ get (arrv rows') e = get (arrv rows) e /\ get (arrv cols') e = get (arrv cols) e).
  Proof.
    intros Hs Hn Lv Lr Lc. unfold sort_coo_data.
    replace (sort_eqb s SNone) with false by (destruct s; try reflexivity; congruence).
    destruct (coo_sort_type_spec nnz rows cols Lr Lc) as (s0 & E0 & Hcsc & Hcsr). rewrite E0. cbn [bind].
    destruct (sort_eqb s0 s) eqn:Es.
    - assert (s0 = s) by (destruct s0, s; try discriminate; reflexivity). subst s0.
      exists vals, rows, cols. split; [reflexivity|]. split; [reflexivity|]. split; [reflexivity|]. split; [reflexivity|]. split; [reflexivity|].
      split; [|auto]. unfold le_of. destruct s; cbn [sort_eqb].
      + apply Hcsc. reflexivity.
      + apply Hcsr. reflexivity.
      + congruence.
    - clear E0 Hcsc Hcsr Es.
      set (L := coo_triples nnz (arrv rows) (arrv cols) (arrv vals)).
      assert (EL : mapM (fun ell => r <- rdp rows ell ;; c <- rdp cols ell ;; v <- rdp vals ell ;; Ok (r, c, v)) (range 0 nnz) = Ok L).
      { assert (Gen : forall k, 0 <= k <= nnz -> mapM (fun ell => r <- rdp rows ell ;; c <- rdp cols ell ;; v <- rdp vals ell ;; Ok (r, c, v)) (range k nnz)
          = Ok (flat_map (fun e => match get (arrv rows) e, get (arrv cols) e, get (arrv vals) e with
                     | Some r, Some c, Some v => [(r, c, v)] | _, _, _ => [] end) (range k nnz))).
        { intros k Hk. replace k with (nnz - (nnz - k)) by lia. assert (Hd : 0 <= nnz - k <= nnz) by lia. revert Hd. generalize (nnz - k) as d.
          intros d [Hd0 Hd1]. revert Hd1. pattern d. apply natlike_ind; [| |exact Hd0].
          - intros _. rewrite range_nil by lia. reflexivity.
          - intros x Hx IH Hle. rewrite range_cons by lia. replace (nnz - Z.succ x + 1) with (nnz - x) by lia.
            cbn [mapM flat_map]. rewrite IH by lia.
            destruct (rdp_ex rows (nnz - Z.succ x) ltac:(lia)) as (r & -> & ->). destruct (rdp_ex cols (nnz - Z.succ x) ltac:(lia)) as (c & -> & ->).
            destruct (rdp_ex vals (nnz - Z.succ x) ltac:(lia)) as (v & -> & ->). reflexivity. }
        apply Gen. lia. }
      rewrite EL. cbn [bind]. change (if sort_eqb s SCSR then lt_csr else lt_csc) with (lt_of s).
      destruct (sort_triples s L) as [P S]. set (L' := ssort (lt_of s) L) in *.
      assert (LL : zlen L' = nnz).
      { unfold zlen. rewrite <- (Permutation_length P). fold (zlen L). apply zlen_coo_triples; lia. }
      destruct (for_inv (fun k (st : option (list T) * option (list Z) * option (list Z)) => let '(vals', rows', cols') := st in
          zlen (arrv vals') = zlen (arrv vals) /\ zlen (arrv rows') = zlen (arrv rows) /\ zlen (arrv cols') = zlen (arrv cols) /\
          (forall e r c v, 0 <= e < k -> get L' e = Some (r, c, v) -> get (arrv rows') e = Some r /\ get (arrv cols') e = Some c /\ get (arrv vals') e = Some v) /\
          (forall e, k <= e -> get (arrv vals') e = get (arrv vals) e /\ get (arrv rows') e = get (arrv rows) e /\ get (arrv cols') e = get (arrv cols) e))
        0 nnz (fun ell '(vals, rows, cols) =>
      '(r, c, v) <- rd L' ell ;;
      vals <- wrp vals ell v ;;
      rows <- wrp rows ell r ;;
      cols <- wrp cols ell c ;;
      Ok (vals, rows, cols)) (vals, rows, cols)) as ([[vals' rows'] cols'] & E & I).
      + lia.
      + repeat (split; [reflexivity|]). split; [|auto]. intros; lia.
      + intros k [[v1 r1] c1] Hk (L1 & L2 & L3 & Hin & Hout).
        destruct (get_lt L' k ltac:(lia)) as [[[r c] v] G]. rewrite (proj2 (rd_get _ _ _) G). cbn [bind].
        destruct (wrp_ex v1 k v) as (v2 & -> & L4 & G4 & N4); [lia|]. cbn [bind].
        destruct (wrp_ex r1 k r) as (r2 & -> & L5 & G5 & N5); [lia|]. cbn [bind].
        destruct (wrp_ex c1 k c) as (c2 & -> & L6 & G6 & N6); [lia|]. cbn [bind].
        eexists. split; [reflexivity|]. cbn beta iota. repeat (split; [lia|]). split.
        * intros e r' c' v' He Ge. destruct (Z.eq_dec e k) as [->|Hne].
          -- rewrite G in Ge. injection Ge as <- <- <-. auto.
          -- rewrite N4, N5, N6 by exact Hne. apply Hin; auto. lia.
        * intros e He. rewrite N4, N5, N6 by lia. apply Hout. lia.
      + exists vals', rows', cols'. split; [exact E|]. destruct I as (L1 & L2 & L3 & Hin & Hout).
        repeat (split; [assumption|]).
        assert (EL' : coo_triples nnz (arrv rows') (arrv cols') (arrv vals') = L').
        { apply list_ext_get; rewrite zlen_coo_triples by lia; [lia|]. intros e He.
          destruct (get_lt L' e ltac:(lia)) as [[[r c] v] G]. rewrite G. apply get_coo_triples; try lia. apply Hin; auto. }
        rewrite EL'. split; [exact P|]. split; [|exact Hout].
        intros p q r1 c1 r2 c2 Hp Hq G1 G2 G3 G4.
        destruct (get_lt (arrv vals') p ltac:(lia)) as [v1 G5]. destruct (get_lt (arrv vals') q ltac:(lia)) as [v2 G6].
        apply (S p q (r1, c1, v1) (r2, c2, v2)); [lia| |]; rewrite <- EL'; apply get_coo_triples; auto; lia.
  Qed.
End Sort.

Lemma coo_values_triples {T} nnz rows cols (vals : list T) r c :
  coo_values nnz rows cols vals r c = flat_map (fun t => if (fst (fst t) =? r) && (snd (fst t) =? c) then [snd t] else []) (coo_triples nnz rows cols vals).
Proof.
  unfold coo_values, coo_triples. rewrite flat_map_flat_map. apply flat_map_ext_in. intros e _.
  destruct (get rows e), (get cols e), (get vals e); try reflexivity. cbn [flat_map fst snd]. now rewrite app_nil_r.
Qed.

Lemma coo_values_perm {T} nnz nnz' rows cols (vals : list T) rows' cols' vals' r c :
  Permutation (coo_triples nnz rows cols vals) (coo_triples nnz' rows' cols' vals') ->
  Permutation (coo_values nnz rows cols vals r c) (coo_values nnz' rows' cols' vals' r c).
Proof. intros P. rewrite !coo_values_triples. now apply Permutation_flat_map. Qed.
