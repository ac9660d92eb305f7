(** Proofs about dense <-> sparse conversions. *)
From Coq Require Import Permutation.
From Verif Require Import Base Spec SparseSkopModel SparseSpec SparseProofs SpFmtModel SpFmtSpec.

Lemma rdp_rd {A} (p : option (list A)) i : rdp p i = rd (arrv p) i.
Proof. destruct p; [reflexivity|]. cbn [rdp arrv]. unfold rd. destruct (i <? 0); [reflexivity|]. destruct (Z.to_nat i); reflexivity. Qed.

Lemma wrp_ex {A} (p : option (list A)) i x : 0 <= i < zlen (arrv p) ->
  exists p', wrp p i x = Ok p' /\ zlen (arrv p') = zlen (arrv p) /\ get (arrv p') i = Some x /\
    forall j, j <> i -> get (arrv p') j = get (arrv p) j.
Proof.
  destruct p as [l|]; cbn [arrv]; intros H; [|unfold zlen in H; cbn in H; lia].
  destruct (wr_ex l i x H) as (l' & E & L & G & N). exists (Some l'). cbn [wrp arrv]. rewrite E. cbn [bind]. auto.
Qed.

Lemma rdp_ex {A} (p : option (list A)) i : 0 <= i < zlen (arrv p) ->
  exists x, rdp p i = Ok x /\ get (arrv p) i = Some x.
Proof. intros H. rewrite rdp_rd. now apply rd_lt. Qed.

Lemma rdp_get {A} (p : option (list A)) i x : get (arrv p) i = Some x -> rdp p i = Ok x.
Proof. intros H. rewrite rdp_rd. now apply rd_get. Qed.

Lemma flat_map_ext_in {A B} (f g : A -> list B) l : (forall x, In x l -> f x = g x) -> flat_map f l = flat_map g l.
Proof.
  induction l as [|x l IH]; intros H; cbn [flat_map]; [reflexivity|].
  rewrite (H x), IH; [reflexivity| |now left]. intros y Hy. apply H. now right.
Qed.

Lemma flat_map_flat_map {A B C} (f : A -> list B) (g : B -> list C) l :
  flat_map g (flat_map f l) = flat_map (fun x => flat_map g (f x)) l.
Proof. induction l as [|x l IH]; cbn [flat_map]; [reflexivity|]. now rewrite flat_map_app, IH. Qed.

Lemma flat_map_map {A B C} (f : A -> B) (g : B -> list C) l : flat_map g (map f l) = flat_map (fun x => g (f x)) l.
Proof. induction l as [|x l IH]; cbn [flat_map map]; [reflexivity|]. now rewrite IH. Qed.

Lemma flat_map_range {A B} (K : list A) (f : Z -> list B) (g : A -> list B) :
  (forall t x, get K t = Some x -> f t = g x) -> flat_map f (range 0 (zlen K)) = flat_map g K.
Proof.
  revert f; induction K as [|k K IH]; intros f H; [reflexivity|].
  rewrite zlen_cons. rewrite range_cons by (pose proof (zlen_nonneg K); lia). cbn [flat_map].
  rewrite (H 0 k) by reflexivity. f_equal.
  replace (range (0 + 1) (1 + zlen K)) with (map (fun i => i + 1) (range 0 (zlen K)))
    by (rewrite map_range_shift; f_equal; lia).
  rewrite flat_map_map. apply IH. intros t x G. apply H.
  pose proof (get_Some_lt _ _ _ G). rewrite get_cons_S by lia. now replace (t + 1 - 1) with t by lia.
Qed.

(** Nested loops as one loop over pairs. *)
Lemma foldM_flat_map {A B S} (f : B -> S -> outcome S) (g : A -> list B) l s :
  foldM (fun a s => foldM f (g a) s) l s = foldM f (flat_map g l) s.
Proof.
  revert s; induction l as [|a l IH]; intros s; cbn [foldM flat_map]; [reflexivity|].
  rewrite foldM_app. destruct (foldM f (g a) s); cbn [bind]; auto.
Qed.
Lemma foldM_map {A B S} (f : B -> S -> outcome S) (g : A -> B) l s :
  foldM f (map g l) s = foldM (fun a s => f (g a) s) l s.
Proof. revert s; induction l as [|a l IH]; intros s; cbn [foldM map]; [reflexivity|]. destruct (f (g a) s); cbn [bind]; auto. Qed.

Definition cells (nr nc : Z) : list (Z * Z) := flat_map (fun i => map (pair i) (range 0 nc)) (range 0 nr).

Lemma for_cells {S} nr nc (f : Z -> Z -> S -> outcome S) s :
  for_ 0 nr (fun i s => for_ 0 nc (fun j s => f i j s) s) s = foldM (fun '(i, j) s => f i j s) (cells nr nc) s.
Proof.
  unfold for_, cells. rewrite <- foldM_flat_map. apply foldM_ext. intros i s' _.
  rewrite foldM_map. reflexivity.
Qed.

Lemma in_cells nr nc i j : In (i, j) (cells nr nc) <-> 0 <= i < nr /\ 0 <= j < nc.
Proof.
  unfold cells. rewrite in_flat_map. split.
  - intros (x & Hx & H). apply in_map_iff in H as (y & E & Hy). inversion E; subst.
    apply in_range in Hx, Hy. auto.
  - intros [Hi Hj]. exists i. split; [now apply in_range|]. apply in_map. now apply in_range.
Qed.

(** Pairwise relation along a list. *)
Definition increasing {A} (rel : A -> A -> Prop) (l : list A) : Prop :=
  forall p q x y, 0 <= p < q -> get l p = Some x -> get l q = Some y -> rel x y.

Lemma increasing_app {A} rel (a b : list A) :
  increasing rel a -> increasing rel b -> (forall x y, In x a -> In y b -> rel x y) -> increasing rel (a ++ b).
Proof.
  intros Ha Hb Hab p q x y Hpq Gx Gy.
  destruct (Z.lt_ge_cases q (zlen a)).
  - rewrite get_app_l in Gx, Gy by lia. eauto.
  - rewrite get_app_r in Gy by lia. destruct (Z.lt_ge_cases p (zlen a)).
    + rewrite get_app_l in Gx by lia. apply Hab; apply get_In; eauto.
    + rewrite get_app_r in Gx by lia. eapply Hb; [|exact Gx|exact Gy]. lia.
Qed.
Lemma increasing_nil {A} rel : increasing rel (@nil A).
Proof. intros p q x y H G. apply get_Some_lt in G. unfold zlen in G; cbn in G; lia. Qed.
Lemma increasing_one {A} rel (x : A) : increasing rel [x].
Proof. intros p q a b H G1 G2. apply get_Some_lt in G1, G2. unfold zlen in *; cbn in *; lia. Qed.
Lemma increasing_filter {A} rel f (l : list A) : increasing rel l -> increasing rel (filter f l).
Proof.
  induction l as [|x l IH]; intros H; cbn [filter]; [exact H|].
  assert (Hl : increasing rel l).
  { intros p q a b Hpq G1 G2. apply (H (p + 1) (q + 1)); [lia| |]; (rewrite get_cons_S by lia); [rewrite <- G1|rewrite <- G2]; f_equal; lia. }
  destruct (f x); [|auto].
  change (x :: filter f l) with ([x] ++ filter f l). apply increasing_app; [apply increasing_one|auto|].
  intros a b [<-|[]] Hb. apply filter_In in Hb as [Hb _]. apply get_In in Hb as [q G].
  pose proof (get_Some_lt _ _ _ G). apply (H 0 (q + 1)); [lia|reflexivity|].
  rewrite get_cons_S by lia. rewrite <- G. f_equal. lia.
Qed.

Lemma increasing_range lo hi : increasing Z.lt (range lo hi).
Proof.
  intros p q x y H G1 G2. pose proof (get_Some_lt _ _ _ G1). pose proof (get_Some_lt _ _ _ G2).
  rewrite zlen_range_max in *. rewrite get_range in G1, G2 by lia. inversion G1; inversion G2; lia.
Qed.
Lemma increasing_map {A B} (ra : A -> A -> Prop) (rb : B -> B -> Prop) (f : A -> B) l :
  (forall x y, ra x y -> rb (f x) (f y)) -> increasing ra l -> increasing rb (map f l).
Proof.
  intros Hf H p q x y Hpq G1 G2. rewrite get_map in G1, G2.
  destruct (get l p) as [a|] eqn:E1; [|discriminate]. destruct (get l q) as [b|] eqn:E2; [|discriminate].
  inversion G1; inversion G2; subst. eauto.
Qed.

Lemma increasing_rows nr nc : 0 <= nr -> increasing lt_rm (cells nr nc).
Proof.
  intros H. unfold cells. revert nr H. apply natlike_ind.
  - apply increasing_nil.
  - intros x Hn IH. rewrite <- Z.add_1_r, range_snoc by lia. rewrite flat_map_app.
    apply increasing_app; [exact IH| |].
    + cbn [flat_map]. rewrite app_nil_r. apply (increasing_map Z.lt); [|apply increasing_range].
      intros u v Hxy. right. cbn. lia.
    + intros [a b] [c d] H1 H2. change (In (a, b) (cells x nc)) in H1. cbn [flat_map] in H2. rewrite app_nil_r in H2.
      apply in_map_iff in H2 as (y & E & Hy). inversion E; subst. left. cbn.
      apply in_cells in H1. lia.
Qed.

Lemma increasing_NoDup {A} (rel : A -> A -> Prop) l : (forall x, ~ rel x x) -> increasing rel l -> NoDup l.
Proof.
  intros Irr. induction l as [|x l IH]; intros H; constructor.
  - intros Hx. apply get_In in Hx as [q G]. pose proof (get_Some_lt _ _ _ G).
    apply (Irr x). apply (H 0 (q + 1)); [lia|reflexivity|]. rewrite get_cons_S by lia. rewrite <- G. f_equal. lia.
  - apply IH. intros p q a b Hpq G1 G2. apply (H (p + 1) (q + 1)); [lia| |]; (rewrite get_cons_S by lia); [rewrite <- G1|rewrite <- G2]; f_equal; lia.
Qed.

(** A sequence of writes: the last one to an address wins. *)
Definition written {A} (W : list (Z * A)) (a : Z) : list A :=
  flat_map (fun w => if fst w =? a then [snd w] else []) W.

Lemma last_cons_app {A} (x d : A) l : last (x :: l) d = last l x.
Proof. revert x d; induction l as [|y l IH]; intros x d; [reflexivity|]. change (last (x :: y :: l) d) with (last (y :: l) d). rewrite !IH. reflexivity. Qed.

Lemma writes_spec {A} (W : list (Z * A)) m :
  (forall a v, In (a, v) W -> 0 <= a < zlen m) ->
  exists m', foldM (fun w m => wr m (fst w) (snd w)) W m = Ok m' /\ zlen m' = zlen m /\
    forall a, get m' a = match get m a with Some x => Some (last (written W a) x) | None => None end.
Proof.
  revert m; induction W as [|[a v] W IH]; intros m H.
  - exists m. repeat split. intros a. destruct (get m a); reflexivity.
  - cbn [foldM fst snd]. destruct (wr_ex m a v (H a v (or_introl eq_refl))) as (m1 & E & L & G & N).
    rewrite E. cbn [bind]. destruct (IH m1) as (m' & E' & L' & G').
    { intros b w Hb. rewrite L. apply (H b w). now right. }
    exists m'. split; [exact E'|]. split; [lia|]. intros b. rewrite G'. cbn [written flat_map fst snd].
    destruct (Z.eqb_spec a b) as [<-|Hab].
    + rewrite G. destruct (get_lt m a (H a v (or_introl eq_refl))) as [x ->].
      cbn [app]. rewrite last_cons_app. reflexivity.
    + rewrite N by congruence. destruct (get m b); reflexivity.
Qed.

Section Dense.
  Context {T : Type}.
  Variables (zero : T).

  Lemma zero_fill_spec nr nc sr sc (mat : list T) :
    str_ok nr nc sr sc (zlen mat) ->
    exists mat', zero_fill zero nr nc sr sc mat = Ok mat' /\ zlen mat' = zlen mat /\
      (forall i j, 0 <= i < nr -> 0 <= j < nc -> get mat' (i * sr + j * sc) = Some zero) /\
      (forall a, (forall i j, 0 <= i < nr -> 0 <= j < nc -> i * sr + j * sc <> a) -> get mat' a = get mat a).
  Proof.
    intros Hs. unfold zero_fill. rewrite (for_cells nr nc (fun i j m => wr m (i * sr + j * sc) zero)).
    set (W := map (fun c => (fst c * sr + snd c * sc, zero)) (cells nr nc)).
    assert (EF : foldM (fun '(i, j) m => wr m (i * sr + j * sc) zero) (cells nr nc) mat =
                 foldM (fun w m => wr m (fst w) (snd w)) W mat).
    { unfold W. rewrite foldM_map. apply foldM_ext. intros [i j] m _. reflexivity. }
    rewrite EF. destruct (writes_spec W mat) as (m' & E & L & G).
    { intros a v Ha. unfold W in Ha. apply in_map_iff in Ha as ([i j] & Eq & Hc). cbn in Eq. inversion Eq; subst.
      apply in_cells in Hc. apply Hs; tauto. }
    exists m'. split; [exact E|]. split; [exact L|].
    assert (All : forall a x, In x (written W a) -> x = zero).
    { intros a x Hx. unfold written in Hx. apply in_flat_map in Hx as ([b v] & Hb & Hx). unfold W in Hb.
      apply in_map_iff in Hb as (c & Eq & _). inversion Eq; subst. cbn in Hx. destruct (_ =? a); destruct Hx; [auto|easy]. }
    split.
    - intros i j Hi Hj. rewrite G. destruct (get_lt mat (i * sr + j * sc) (Hs i j Hi Hj)) as [x ->]. f_equal.
      assert (Hin : In zero (written W (i * sr + j * sc))).
      { unfold written. apply in_flat_map. exists (i * sr + j * sc, zero). cbn. rewrite Z.eqb_refl. split; [|now left].
        unfold W. apply in_map_iff. exists (i, j). split; [reflexivity|]. now apply in_cells. }
      destruct (written W (i * sr + j * sc)) as [|y l] eqn:Ew; [destruct Hin|].
      destruct (@exists_last _ (y :: l)) as (l1 & z & Ez); [discriminate|].
      rewrite Ez. rewrite last_last. apply (All (i * sr + j * sc)). rewrite Ew, Ez. apply in_or_app. right. now left.
    - intros a Ha. rewrite G. replace (written W a) with (@nil T); [destruct (get mat a); reflexivity|].
      symmetry. apply flat_map_nil. intros [b v] Hb. unfold W in Hb. apply in_map_iff in Hb as ([i j] & Eq & Hc).
      inversion Eq; subst. apply in_cells in Hc. cbn. destruct (Z.eqb_spec (i * sr + j * sc) a); [|reflexivity].
      exfalso. apply (Ha i j); tauto.
  Qed.

  (** Writes of a list of (row, column, value) after the zero fill. *)
  Lemma scatter_spec nr nc sr sc (mat : list T) (L : list (Z * Z * T)) :
    str_ok nr nc sr sc (zlen mat) -> str_inj nr nc sr sc ->
    (forall i j v, In (i, j, v) L -> 0 <= i < nr /\ 0 <= j < nc) ->
    exists mat', (m <- zero_fill zero nr nc sr sc mat ;;
                  foldM (fun '(i, j, v) m => wr m (i * sr + j * sc) v) L m) = Ok mat' /\
      dense_result zero (fun i j => flat_map (fun '(i', j', v) => if (i' =? i) && (j' =? j) then [v] else []) L)
        nr nc sr sc mat mat'.
  Proof.
    intros Hs Hinj HL. destruct (zero_fill_spec nr nc sr sc mat Hs) as (m0 & E0 & L0 & Z0 & N0).
    rewrite E0. cbn [bind].
    set (W := map (fun t : Z * Z * T => let '(i, j, v) := t in (i * sr + j * sc, v)) L).
    assert (EF : foldM (fun '(i, j, v) m => wr m (i * sr + j * sc) v) L m0 = foldM (fun w m => wr m (fst w) (snd w)) W m0).
    { unfold W. rewrite foldM_map. apply foldM_ext. intros [[i j] v] m _. reflexivity. }
    rewrite EF. destruct (writes_spec W m0) as (m' & E & Lm & G).
    { intros a v Ha. unfold W in Ha. apply in_map_iff in Ha as ([[i j] w] & Eq & Hc). inversion Eq; subst.
      apply HL in Hc. rewrite L0. apply Hs; tauto. }
    exists m'. split; [exact E|]. split; [lia|]. split.
    - intros i j Hi Hj. rewrite G, Z0 by assumption. f_equal. f_equal. unfold written, W. rewrite flat_map_map.
      apply flat_map_ext_in. intros [[i' j'] v] Hin. apply HL in Hin as [Hi' Hj']. cbn.
      destruct (Z.eqb_spec i' i), (Z.eqb_spec j' j); subst; cbn [andb];
        try (destruct (Z.eqb_spec (i' * sr + j' * sc) (i * sr + j * sc)) as [Ea|_]; [destruct (Hinj _ _ _ _ Hi' Hj' Hi Hj Ea); congruence|reflexivity]);
        try (destruct (Z.eqb_spec (i * sr + j' * sc) (i * sr + j * sc)) as [Ea|_]; [destruct (Hinj _ _ _ _ Hi' Hj' Hi Hj Ea); congruence|reflexivity]);
        try (destruct (Z.eqb_spec (i' * sr + j * sc) (i * sr + j * sc)) as [Ea|_]; [destruct (Hinj _ _ _ _ Hi' Hj' Hi Hj Ea); congruence|reflexivity]).
      rewrite Z.eqb_refl. reflexivity.
    - intros a Ha. rewrite G, N0 by assumption. replace (written W a) with (@nil T); [destruct (get mat a); reflexivity|].
      symmetry. apply flat_map_nil. intros [b v] Hb. unfold W in Hb. apply in_map_iff in Hb as ([[i j] w] & Eq & Hc).
      inversion Eq; subst. apply HL in Hc. cbn. destruct (Z.eqb_spec (i * sr + j * sc) a); [|reflexivity].
      exfalso. apply (Ha i j); tauto.
  Qed.

  Lemma dense_result_ext f g nr nc sr sc (mat mat' : list T) :
    (forall i j, 0 <= i < nr -> 0 <= j < nc -> f i j = g i j) ->
    dense_result zero f nr nc sr sc mat mat' -> dense_result zero g nr nc sr sc mat mat'.
  Proof. intros H (L & C & N). split; [exact L|]. split; [|exact N]. intros i j Hi Hj. rewrite <- H by assumption. auto. Qed.

  (** The stored triples, zero based. *)
  Definition coo_list (M : coo_matrix T) : list (Z * Z * T) :=
    flat_map (fun e => match get (arrv (co_rows M)) e, get (arrv (co_cols M)) e, get (arrv (co_vals M)) e with
                       | Some r, Some c, Some v => [(r - off (co_base M), c - off (co_base M), v)]
                       | _, _, _ => [] end) (range 0 (co_nnz M)).
  Definition csx_list (n : Z) (o : Z) (ptr idx : list Z) (vals : list T) : list (Z * Z * T) :=
    flat_map (fun i => match get ptr i, get ptr (i + 1) with
      | Some lo, Some hi => flat_map (fun e => match get idx e, get vals e with
          | Some j, Some v => [(i, j - o, v)] | _, _ => [] end) (range lo hi)
      | _, _ => [] end) (range 0 n).

  Lemma coo_at_list M i j :
    flat_map (fun '(i', j', v) => if (i' =? i) && (j' =? j) then [v] else []) (coo_list M) = coo_at M i j.
  Proof.
    unfold coo_list, coo_at, coo_values. rewrite flat_map_flat_map. apply flat_map_ext_in. intros e _.
    destruct (get (arrv (co_rows M)) e) as [r|], (get (arrv (co_cols M)) e) as [c|], (get (arrv (co_vals M)) e) as [v|];
      try reflexivity.
    cbn [flat_map]. rewrite app_nil_r.
    replace (r =? i + off (co_base M)) with (r - off (co_base M) =? i) by (destruct (Z.eqb_spec (r - off (co_base M)) i), (Z.eqb_spec r (i + off (co_base M))); try reflexivity; lia).
    replace (c =? j + off (co_base M)) with (c - off (co_base M) =? j) by (destruct (Z.eqb_spec (c - off (co_base M)) j), (Z.eqb_spec c (j + off (co_base M))); try reflexivity; lia).
    reflexivity.
  Qed.

  Lemma csx_at_list n o ptr idx (vals : list T) i j : 0 <= i < n ->
    flat_map (fun '(i', j', v) => if (i' =? i) && (j' =? j) then [v] else []) (csx_list n o ptr idx vals)
    = slice_values ptr idx vals i (j + o).
  Proof.
    intros Hi. unfold csx_list. rewrite flat_map_flat_map.
    rewrite (flat_map_one _ _ i); [|apply NoDup_range|now apply in_range|].
    - unfold slice_values. destruct (get ptr i) as [lo|]; [|reflexivity]. destruct (get ptr (i + 1)) as [hi|]; [|reflexivity].
      rewrite flat_map_flat_map. apply flat_map_ext_in. intros e _.
      destruct (get idx e) as [c|], (get vals e) as [v|]; try reflexivity.
      cbn [flat_map]. rewrite app_nil_r, Z.eqb_refl. cbn [andb].
      replace (c =? j + o) with (c - o =? j) by (destruct (Z.eqb_spec (c - o) j), (Z.eqb_spec c (j + o)); try reflexivity; lia).
      reflexivity.
    - intros i' _ Hne. apply flat_map_nil. intros [[a b] v] Hin.
      destruct (get ptr i') as [lo|]; [|destruct Hin]. destruct (get ptr (i' + 1)) as [hi|]; [|destruct Hin].
      apply in_flat_map in Hin as (e & _ & Hin). destruct (get idx e), (get vals e); try destruct Hin as [Eq|[]]; try destruct Hin.
      inversion Eq; subst. destruct (Z.eqb_spec a i); [congruence|reflexivity].
  Qed.

  Lemma coo_list_in M i j v : valid_coo M -> In (i, j, v) (coo_list M) -> 0 <= i < co_nr M /\ 0 <= j < co_nc M.
  Proof.
    intros (_ & _ & _ & Lv & [Lr Hr] & [Lc Hc]) Hin. unfold coo_list in Hin. apply in_flat_map in Hin as (e & He & Hin).
    apply in_range in He.
    destruct (get (arrv (co_rows M)) e) as [r|] eqn:Er, (get (arrv (co_cols M)) e) as [c|] eqn:Ec, (get (arrv (co_vals M)) e);
      try destruct Hin as [Eq|[]]; try destruct Hin.
    inversion Eq; subst. specialize (Hr e r He Er). specialize (Hc e c He Ec). lia.
  Qed.

  Lemma ptr_mono n nnz ptr i d a b : ptr_ok n nnz ptr -> 0 <= i -> 0 <= d -> i + d <= n ->
    get ptr i = Some a -> get ptr (i + d) = Some b -> a <= b.
  Proof.
    intros (L & P0 & Pn & Hm) Hi Hd Hn Ga. revert b Hn. pattern d. apply natlike_ind; [| |exact Hd].
    - intros b _ G. rewrite Z.add_0_r in G. rewrite Ga in G. inversion G. lia.
    - intros m Hm0 IH b Hn G.
      destruct (get_lt ptr (i + m)) as [c Gc]; [apply get_Some_lt in G; lia|].
      specialize (IH c ltac:(lia) Gc).
      pose proof (Hm (i + m) c b ltac:(lia) Gc ltac:(replace (i + m + 1) with (i + Z.succ m) by lia; exact G)). lia.
  Qed.

  (** The bounds of slice [i]. *)
  Lemma slice_bounds n nnz ptr i : ptr_ok n nnz ptr -> 0 <= i < n ->
    exists lo hi, get ptr i = Some lo /\ get ptr (i + 1) = Some hi /\ 0 <= lo <= hi /\ hi <= nnz.
  Proof.
    intros Hp Hi. pose proof Hp as (L & P0 & Pn & Hm).
    destruct (get_lt ptr i ltac:(lia)) as [lo Gl]. destruct (get_lt ptr (i + 1) ltac:(lia)) as [hi Gh].
    exists lo, hi. repeat split; auto.
    - apply (ptr_mono n nnz ptr 0 i 0 lo Hp); auto; lia.
    - apply (Hm i); auto.
    - apply (ptr_mono n nnz ptr (i + 1) (n - (i + 1)) hi nnz Hp); auto; try lia.
      now replace (i + 1 + (n - (i + 1))) with n by lia.
  Qed.

  Lemma csx_list_in n m nnz o ptr idx (vals : list T) i j v :
    ptr_ok n nnz ptr -> idx_ok nnz m o idx -> In (i, j, v) (csx_list n o ptr idx vals) -> 0 <= i < n /\ 0 <= j < m.
  Proof.
    intros Hp [Li Hi] Hin. unfold csx_list in Hin. apply in_flat_map in Hin as (i' & Hr & Hin). apply in_range in Hr.
    destruct (slice_bounds n nnz ptr i' Hp Hr) as (lo & hi & Gl & Gh & B1 & B2). rewrite Gl, Gh in Hin.
    apply in_flat_map in Hin as (e & He & Hin). apply in_range in He.
    destruct (get idx e) as [c|] eqn:Ec, (get vals e); try destruct Hin as [Eq|[]]; try destruct Hin.
    inversion Eq; subst. specialize (Hi e c ltac:(lia) Ec). lia.
  Qed.

  Theorem coo_to_dense_spec (M : coo_matrix T) sr sc mat :
    valid_coo M -> str_ok (co_nr M) (co_nc M) sr sc (zlen mat) -> str_inj (co_nr M) (co_nc M) sr sc ->
    exists mat', coo_to_dense_str zero M sr sc mat = Ok mat' /\
      dense_result zero (coo_at M) (co_nr M) (co_nc M) sr sc mat mat'.
  Proof.
    intros V Hs Hinj. unfold coo_to_dense_str.
    destruct (scatter_spec (co_nr M) (co_nc M) sr sc mat (coo_list M) Hs Hinj) as (m' & E & D).
    { intros i j v Hin. eapply coo_list_in; eauto. }
    exists m'. split.
    - rewrite <- E. destruct (zero_fill zero (co_nr M) (co_nc M) sr sc mat) as [m| |]; cbn [bind]; [|reflexivity..].
      unfold coo_list. rewrite <- foldM_flat_map. unfold for_. apply foldM_ext. intros e s He. apply in_range in He.
      destruct V as (_ & _ & _ & Lv & [Lr _] & [Lc _]).
      destruct (rdp_ex (co_rows M) e ltac:(lia)) as (r & -> & ->).
      destruct (rdp_ex (co_cols M) e ltac:(lia)) as (c & -> & ->).
      destruct (rdp_ex (co_vals M) e ltac:(lia)) as (v & -> & ->).
      cbn [bind foldM]. destruct (co_base M); cbn [off bind].
      + rewrite !Z.sub_0_r. destruct (wr s (r * sr + c * sc) v); reflexivity.
      + destruct (wr s _ v); reflexivity.
    - eapply dense_result_ext; [|exact D]. intros i j _ _. apply coo_at_list.
  Qed.

  Lemma to_sint_id b x : 1 <= b -> - 2 ^ (b - 1) <= x < 2 ^ (b - 1) -> to_sint b x = x.
  Proof.
    intros Hb H. unfold to_sint.
    assert (E : 2 ^ b = 2 * 2 ^ (b - 1)). { replace b with (Z.succ (b - 1)) at 1 by lia. apply Z.pow_succ_r. lia. }
    rewrite E. rewrite Z.mod_small by lia. lia.
  Qed.

  Theorem csr_to_dense_spec (M : csr_matrix T) sr sc mat :
    valid_csr M -> cr_base M = BZero -> cr_nc M <= 2 ^ 31 ->
    str_ok (cr_nr M) (cr_nc M) sr sc (zlen mat) -> str_inj (cr_nr M) (cr_nc M) sr sc ->
    exists mat', csr_to_dense_str zero M sr sc mat = Ok mat' /\
      dense_result zero (csr_at M) (cr_nr M) (cr_nc M) sr sc mat mat'.
  Proof.
    intros (Hr & Hc & Hn & Lv & Hi & Hp) Hb H31 Hs Hinj. unfold csr_to_dense_str. rewrite Hb in *. cbn [base_eqb].
    rewrite require_true. cbn [bind off] in *.
    destruct (scatter_spec (cr_nr M) (cr_nc M) sr sc mat
                (csx_list (cr_nr M) 0 (arrv (cr_ptr M)) (arrv (cr_idx M)) (arrv (cr_vals M))) Hs Hinj) as (m' & E & D).
    { intros i j v Hin. eapply csx_list_in; eauto. }
    exists m'. split.
    - rewrite <- E. destruct (zero_fill zero (cr_nr M) (cr_nc M) sr sc mat) as [m| |]; cbn [bind]; [|reflexivity..].
      unfold csx_list. rewrite <- foldM_flat_map. unfold for_ at 1. apply foldM_ext. intros i s Hir. apply in_range in Hir.
      destruct (slice_bounds _ _ _ i Hp Hir) as (lo & hi & Gl & Gh & B1 & B2).
      rewrite (rdp_get _ _ _ Gl), (rdp_get _ _ _ Gh), Gl, Gh. cbn [bind]. rewrite <- foldM_flat_map.
      apply foldM_ext. intros e s' He. apply in_range in He. destruct Hi as [Li Hi].
      destruct (rdp_ex (cr_idx M) e ltac:(lia)) as (c & -> & Gc).
      destruct (rdp_ex (cr_vals M) e ltac:(lia)) as (v & -> & Gv). rewrite Gc, Gv.
      specialize (Hi e c ltac:(lia) Gc). cbn [bind foldM].
      rewrite to_sint_id by (change (2 ^ (32 - 1)) with (2 ^ 31); lia).
      rewrite Z.sub_0_r. destruct (wr s' _ v); reflexivity.
    - eapply dense_result_ext; [|exact D]. intros i j Hi' _. unfold csr_at. rewrite Hb. now apply csx_at_list.
  Qed.

  Theorem csc_to_dense_spec (M : csc_matrix T) sr sc mat :
    valid_csc M -> cc_base M = BZero ->
    str_ok (cc_nr M) (cc_nc M) sr sc (zlen mat) -> str_inj (cc_nr M) (cc_nc M) sr sc ->
    exists mat', csc_to_dense_str zero M sr sc mat = Ok mat' /\
      dense_result zero (csc_at M) (cc_nr M) (cc_nc M) sr sc mat mat'.
  Proof.
    intros (Hr & Hc & Hn & Lv & Hi & Hp) Hb Hs Hinj. unfold csc_to_dense_str. rewrite Hb in *. cbn [base_eqb].
    rewrite require_true. cbn [bind off] in *.
    set (L := csx_list (cc_nc M) 0 (arrv (cc_ptr M)) (arrv (cc_idx M)) (arrv (cc_vals M))).
    assert (HL : forall j i v, In (j, i, v) L -> 0 <= j < cc_nc M /\ 0 <= i < cc_nr M)
      by (intros j i v Hin; eapply csx_list_in; eauto).
    destruct (scatter_spec (cc_nr M) (cc_nc M) sr sc mat (map (fun t : Z * Z * T => let '(j, i, v) := t in (i, j, v)) L) Hs Hinj) as (m' & E & D).
    { intros i j v Hin. apply in_map_iff in Hin as ([[a b] w] & Eq & Hin). inversion Eq; subst. apply HL in Hin. tauto. }
    exists m'. split.
    - rewrite <- E. destruct (zero_fill zero (cc_nr M) (cc_nc M) sr sc mat) as [m| |]; cbn [bind]; [|reflexivity..].
      rewrite foldM_map. unfold L, csx_list. rewrite <- foldM_flat_map. unfold for_ at 1. apply foldM_ext. intros j s Hir. apply in_range in Hir.
      destruct (slice_bounds _ _ _ j Hp Hir) as (lo & hi & Gl & Gh & B1 & B2).
      rewrite (rdp_get _ _ _ Gl), (rdp_get _ _ _ Gh), Gl, Gh. cbn [bind]. rewrite <- foldM_flat_map.
      apply foldM_ext. intros e s' He. apply in_range in He. destruct Hi as [Li Hi].
      destruct (rdp_ex (cc_idx M) e ltac:(lia)) as (c & -> & Gc).
      destruct (rdp_ex (cc_vals M) e ltac:(lia)) as (v & -> & Gv). rewrite Gc, Gv.
      cbn [bind foldM]. rewrite Z.sub_0_r. destruct (wr s' _ v); reflexivity.
    - eapply dense_result_ext; [|exact D]. intros i j _ Hj'. unfold csc_at. rewrite Hb. rewrite <- (csx_at_list (cc_nc M)) by exact Hj'.
      rewrite flat_map_map. apply flat_map_ext_in. intros [[a b] v] _. rewrite andb_comm. reflexivity.
  Qed.
End Dense.

(* ------------------------------------------------------------------ *)
(** ** Dense to sparse *)
Section ToSparse.
  Context {T : Type}.
  Variables (big : T -> bool) (val : Z -> Z -> T).
  Variables (mat : list T) (nr nc sr sc : Z).
  Hypothesis Hmat : forall i j, 0 <= i < nr -> 0 <= j < nc -> get mat (i * sr + j * sc) = Some (val i j).

  Definition keep (c : Z * Z) : bool := big (val (fst c) (snd c)).
  Definition kept (l : list (Z * Z)) : list (Z * Z) := filter keep l.

  Lemma kept_app a b : kept (a ++ b) = kept a ++ kept b.
  Proof. unfold kept. induction a as [|x a IH]; cbn [filter app]; [reflexivity|]. destruct (keep x); cbn [app]; now rewrite IH. Qed.

  Lemma nnz_in_dense_spec : nnz_in_dense big nr nc sr sc mat = Ok (zlen (kept (cells nr nc))).
  Proof.
    unfold nnz_in_dense. rewrite (for_cells nr nc (fun i j n => x <- rd mat (i * sr + j * sc) ;; Ok (if big x then n + 1 else n))).
    assert (Hall : forall c, In c (cells nr nc) -> 0 <= fst c < nr /\ 0 <= snd c < nc) by (intros [i j] H; now apply in_cells in H).
    assert (Gen : forall l n, (forall c, In c l -> 0 <= fst c < nr /\ 0 <= snd c < nc) ->
      foldM (fun '(i, j) n => x <- rd mat (i * sr + j * sc) ;; Ok (if big x then n + 1 else n)) l n = Ok (n + zlen (kept l))).
    { clear Hall. induction l as [|[i j] l IH]; intros n H; cbn [foldM].
      - unfold kept; cbn [filter]. rewrite zlen_nil. f_equal. lia.
      - destruct (H (i, j) (or_introl eq_refl)) as [Hi Hj]. cbn in Hi, Hj.
        rewrite (proj2 (rd_get _ _ _) (Hmat i j Hi Hj)). cbn [bind].
        rewrite IH by (intros c Hc; apply H; now right). unfold kept. cbn [filter]. unfold keep at 2. cbn [fst snd].
        destruct (big (val i j)); [rewrite zlen_cons|]; f_equal; lia. }
    rewrite Gen by exact Hall. f_equal. 
  Qed.

  Lemma kept_increasing l rel : increasing rel l -> increasing rel (kept l).
  Proof. apply increasing_filter. Qed.

  (** Contents of arrays against the list of kept cells. *)
  Definition holds (K : list (Z * Z)) (vals : list T) : Prop :=
    forall t c, get K t = Some c -> get vals t = Some (val (fst c) (snd c)).
  Definition holdsi (f : Z * Z -> Z) (K : list (Z * Z)) (idx : list Z) : Prop :=
    forall t c, get K t = Some c -> get idx t = Some (f c).

  Lemma holds_snoc {A} (f : Z * Z -> A) K c (l l' : list A) :
    (forall t c, get K t = Some c -> get l t = Some (f c)) ->
    get l' (zlen K) = Some (f c) -> (forall t, t <> zlen K -> get l' t = get l t) ->
    forall t d, get (K ++ [c]) t = Some d -> get l' t = Some (f d).
  Proof.
    intros H E N t d G. destruct (Z.lt_ge_cases t (zlen K)).
    - rewrite get_app_l in G by lia. rewrite N by lia. auto.
    - rewrite get_app_r in G by lia. pose proof (get_Some_lt _ _ _ G) as B. change (zlen [c]) with 1 in B.
      assert (t = zlen K) by lia. subst t. rewrite Z.sub_diag in G. cbn in G. inversion G; subst. exact E.
  Qed.

  (** dense_to_coo: one pass over a list of cells. *)
  Definition coo_step (c : Z * Z) (st : Z * option (list T) * option (list Z) * option (list Z)) :=
    let '(i, j) := c in
    let '(nnz, vals, rows, cols) := st in
    x <- rd mat (i * sr + j * sc) ;;
    if big x then
      vals <- wrp vals nnz x ;;
      rows <- wrp rows nnz i ;;
      cols <- wrp cols nnz j ;;
      Ok (nnz + 1, vals, rows, cols)
    else Ok st.

  Lemma coo_pass N : forall l K vals rows cols,
    (forall c, In c l -> 0 <= fst c < nr /\ 0 <= snd c < nc) ->
    zlen (K ++ kept l) <= N ->
    zlen (arrv vals) = N -> zlen (arrv rows) = N -> zlen (arrv cols) = N ->
    holds K (arrv vals) -> holdsi fst K (arrv rows) -> holdsi snd K (arrv cols) ->
    exists vals' rows' cols',
      foldM coo_step l (zlen K, vals, rows, cols) = Ok (zlen (K ++ kept l), vals', rows', cols') /\
      zlen (arrv vals') = N /\ zlen (arrv rows') = N /\ zlen (arrv cols') = N /\
      holds (K ++ kept l) (arrv vals') /\ holdsi fst (K ++ kept l) (arrv rows') /\ holdsi snd (K ++ kept l) (arrv cols').
  Proof.
    induction l as [|[i j] l IH]; intros K vals rows cols Hl HN Lv Lr Lc Hv Hr Hc.
    - cbn [kept filter] in *. exists vals, rows, cols. rewrite app_nil_r. cbn [foldM]. auto 10.
    - cbn [foldM coo_step]. destruct (Hl (i, j) (or_introl eq_refl)) as [Hi Hj]. cbn in Hi, Hj.
      rewrite (proj2 (rd_get _ _ _) (Hmat i j Hi Hj)). cbn [bind].
      assert (Hl' : forall c, In c l -> 0 <= fst c < nr /\ 0 <= snd c < nc) by (intros c Hcl; apply Hl; now right).
      unfold kept in *. cbn [filter] in *. change (keep (i, j)) with (big (val i j)) in *.
      destruct (big (val i j)) eqn:Eb.
      + assert (B : 0 <= zlen K < N).
        { rewrite zlen_app, zlen_cons in HN. pose proof (zlen_nonneg K). pose proof (zlen_nonneg (filter keep l)). lia. }
        destruct (wrp_ex vals (zlen K) (val i j)) as (v1 & -> & L1 & G1 & N1); [lia|].
        destruct (wrp_ex rows (zlen K) i) as (r1 & -> & L2 & G2 & N2); [lia|].
        destruct (wrp_ex cols (zlen K) j) as (c1 & -> & L3 & G3 & N3); [lia|]. cbn [bind].
        replace (K ++ (i, j) :: filter keep l) with ((K ++ [(i, j)]) ++ filter keep l) in * by (rewrite <- app_assoc; reflexivity).
        replace (zlen K + 1) with (zlen (K ++ [(i, j)])) by (rewrite zlen_app, zlen_cons, zlen_nil; lia).
        apply IH; auto; try lia.
        * unfold holds. apply (holds_snoc (fun c => val (fst c) (snd c)) K (i, j) (arrv vals)); auto.
        * unfold holdsi. apply (holds_snoc fst K (i, j) (arrv rows)); auto.
        * unfold holdsi. apply (holds_snoc snd K (i, j) (arrv cols)); auto.
      + cbn [bind]. apply IH; auto.
  Qed.

  (** dense_to_csr / dense_to_csc: the same for one index array; [f] selects the index. *)
  Definition csx_step (f : Z * Z -> Z) (c : Z * Z) (st : Z * option (list T) * option (list Z) * option (list Z)) :=
    let '(nnz, vals, idx, ptr) := st in
    x <- rd mat (fst c * sr + snd c * sc) ;;
    if big x then
      vals <- wrp vals nnz x ;;
      idx <- wrp idx nnz (f c) ;;
      Ok (nnz + 1, vals, idx, ptr)
    else Ok st.

  Lemma csx_pass f ptr N : forall l K vals idx,
    (forall c, In c l -> 0 <= fst c < nr /\ 0 <= snd c < nc) ->
    zlen (K ++ kept l) <= N ->
    zlen (arrv vals) = N -> zlen (arrv idx) = N -> 
    holds K (arrv vals) -> holdsi f K (arrv idx) -> 
    exists vals' idx',
      foldM (csx_step f) l (zlen K, vals, idx, ptr) = Ok (zlen (K ++ kept l), vals', idx', ptr) /\
      zlen (arrv vals') = N /\ zlen (arrv idx') = N /\ 
      holds (K ++ kept l) (arrv vals') /\ holdsi f (K ++ kept l) (arrv idx').
  Proof.
    induction l as [|[i j] l IH]; intros K vals idx Hl HN Lv Lr Hv Hr.
    - cbn [kept filter] in *. exists vals, idx. rewrite app_nil_r. cbn [foldM]. auto 10.
    - cbn [foldM csx_step]. destruct (Hl (i, j) (or_introl eq_refl)) as [Hi Hj]. cbn [fst snd] in Hi, Hj |- *.
      rewrite (proj2 (rd_get _ _ _) (Hmat i j Hi Hj)). cbn [bind].
      assert (Hl' : forall c, In c l -> 0 <= fst c < nr /\ 0 <= snd c < nc) by (intros c Hcl; apply Hl; now right).
      unfold kept in *. cbn [filter] in *. change (keep (i, j)) with (big (val i j)) in *.
      destruct (big (val i j)) eqn:Eb.
      + assert (B : 0 <= zlen K < N).
        { rewrite zlen_app, zlen_cons in HN. pose proof (zlen_nonneg K). pose proof (zlen_nonneg (filter keep l)). lia. }
        destruct (wrp_ex vals (zlen K) (val i j)) as (v1 & -> & L1 & G1 & N1); [lia|].
        destruct (wrp_ex idx (zlen K) (f (i, j))) as (r1 & -> & L2 & G2 & N2); [lia|]. cbn [bind].
        replace (K ++ (i, j) :: filter keep l) with ((K ++ [(i, j)]) ++ filter keep l) in * by (rewrite <- app_assoc; reflexivity).
        replace (zlen K + 1) with (zlen (K ++ [(i, j)])) by (rewrite zlen_app, zlen_cons, zlen_nil; lia).
        apply IH; auto; try lia.
        * unfold holds. apply (holds_snoc (fun c => val (fst c) (snd c)) K (i, j) (arrv vals)); auto.
        * unfold holdsi. apply (holds_snoc f K (i, j) (arrv idx)); auto.
      + cbn [bind]. apply IH; auto.
  Qed.
End ToSparse.
