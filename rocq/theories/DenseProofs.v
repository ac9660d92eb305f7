(** Proofs about DenseModel.v. *)
From Verif Require Import Base Spec Interleave RngModel DenseModel.

(* ------------------------------------------------------------------ *)
(** * Generic list facts *)

Lemma concat_map_nil {A B} (G : A -> list B) l :
  (forall a, In a l -> G a = []) -> concat (map G l) = [].
Proof.
  induction l as [|a l IH]; intros H; cbn [map concat]; [reflexivity|].
  rewrite H by (left; reflexivity). apply IH. intros; apply H; right; auto.
Qed.

Lemma concat_map_single {A B} (G : A -> list B) l a :
  NoDup l -> In a l -> (forall a', In a' l -> a' <> a -> G a' = []) ->
  concat (map G l) = G a.
Proof.
  induction l as [|x l IH]; intros Hn Hi H; [destruct Hi|]. cbn [map concat].
  inversion Hn as [|? ? Hx Hn']; subst. destruct Hi as [->|Hi].
  - rewrite concat_map_nil; [apply app_nil_r|]. intros a' Ha'. apply H; [right; auto|].
    intros ->; auto.
  - rewrite (H x); [|left; auto|intros ->; auto]. cbn. apply IH; auto.
    intros; apply H; [right|]; auto.
Qed.

Lemma at_cell_map {E A} p (f : A -> Z * E) l :
  at_cell p (map f l) = concat (map (fun a => if fst (f a) =? p then [snd (f a)] else []) l).
Proof.
  unfold at_cell. induction l as [|a l IH]; cbn [map filter concat]; [reflexivity|].
  destruct (fst (f a) =? p); cbn [map app]; [f_equal|]; exact IH.
Qed.

(** Writes of consecutive cells. *)
Lemma at_cell_row {E} p d n (V : Z -> E) :
  at_cell p (map (fun c => (d + c, V c)) (range 0 n)) =
  if (d <=? p) && (p <? d + n) then [V (p - d)] else [].
Proof.
  rewrite at_cell_map. cbn [fst snd].
  destruct ((d <=? p) && (p <? d + n)) eqn:H.
  - rewrite (concat_map_single _ _ (p - d)).
    + replace (d + (p - d) =? p) with true by lia. reflexivity.
    + apply NoDup_range.
    + apply in_range. lia.
    + intros a' _ Ha'. replace (d + a' =? p) with false by lia. reflexivity.
  - apply concat_map_nil. intros a Ha. apply in_range in Ha.
    replace (d + a =? p) with false by lia. reflexivity.
Qed.

(** Writes of an m x n row-major window with row stride lda >= n. *)
Lemma at_cell_window {E} p lda m n (V : Z -> Z -> E) :
  0 <= n <= lda -> 0 < lda ->
  at_cell p (concat (map (fun r => map (fun c => (r * lda + c, V r c)) (range 0 n)) (range 0 m))) =
  if (0 <=? p) && (p / lda <? m) && (p mod lda <? n) then [V (p / lda) (p mod lda)] else [].
Proof.
  intros Hn Hl. rewrite at_cell_concat, map_map.
  rewrite (map_ext _ (fun r => if (r * lda <=? p) && (p <? r * lda + n) then [V r (p - r * lda)] else []))
    by (intros r; apply at_cell_row).
  destruct ((0 <=? p) && (p / lda <? m) && (p mod lda <? n)) eqn:H.
  - pose proof (Z.div_mod p lda). pose proof (Z.mod_pos_bound p lda).
    assert (0 <= p / lda) by (apply Z.div_pos; lia).
    rewrite (concat_map_single _ _ (p / lda)).
    + replace ((p / lda * lda <=? p) && (p <? p / lda * lda + n)) with true by lia.
      f_equal. f_equal. lia.
    + apply NoDup_range.
    + apply in_range. lia.
    + intros r Hr Hne. apply in_range in Hr.
      destruct ((r * lda <=? p) && (p <? r * lda + n)) eqn:Hb; [|reflexivity].
      exfalso. apply Hne. apply (Z.div_unique p lda r (p - r * lda)); lia.
  - apply concat_map_nil. intros r Hr. apply in_range in Hr.
    destruct ((r * lda <=? p) && (p <? r * lda + n)) eqn:Hb; [|reflexivity].
    exfalso. assert (p / lda = r) as E1 by (symmetry; apply (Z.div_unique p lda r (p - r * lda)); lia).
    assert (p mod lda = p - r * lda) as E2 by (symmetry; apply (Z.mod_unique p lda r (p - r * lda)); lia).
    nia.
Qed.

Lemma div_mod_pair lda r c : 0 <= c < lda -> (r * lda + c) / lda = r /\ (r * lda + c) mod lda = c.
Proof.
  intros H. split.
  - symmetry. apply (Z.div_unique _ lda r c); lia.
  - symmetry. apply (Z.mod_unique _ lda r c); lia.
Qed.

(* ------------------------------------------------------------------ *)
(** * Simple loops *)

Section Loops.
  Context {T : Type}.

  Lemma scal_loop_spec (f : T -> T) n b :
    0 <= n <= zlen b ->
    exists b', scal_loop f n b = Ok b' /\ zlen b' = zlen b /\
      (forall p, 0 <= p < n -> get b' p = option_map f (get b p)) /\
      (forall p, ~ (0 <= p < n) -> get b' p = get b p).
  Proof.
    intros Hn. unfold scal_loop.
    destruct (for_inv (fun i b' => zlen b' = zlen b /\
               (forall p, 0 <= p < i -> get b' p = option_map f (get b p)) /\
               (forall p, ~ (0 <= p < i) -> get b' p = get b p))
              0 n (fun i b => x <- rd b i ;; wr b i (f x)) b) as [b' [E H]].
    - lia.
    - split; [reflexivity|]. split; [intros; lia|auto].
    - intros i b1 Hi [L [G N]].
      destruct (rd_lt b1 i) as [x [Ex Gx]]; [lia|]. rewrite Ex. cbn [bind].
      destruct (wr_ex b1 i (f x)) as [b2 [E2 [L2 [G2 N2]]]]; [lia|].
      exists b2. split; [exact E2|]. split; [congruence|]. split.
      + intros p Hp. destruct (Z.eq_dec p i) as [->|Hne].
        * rewrite G2. rewrite <- (N i), Gx by lia. reflexivity.
        * rewrite N2 by lia. apply G. lia.
      + intros p Hp. rewrite N2 by lia. apply N. lia.
    - exists b'. split; [exact E|exact H].
  Qed.

  Lemma copy_loop_spec n (x y : list T) :
    0 <= n -> n <= zlen x -> n <= zlen y ->
    exists y', copy_loop n x y = Ok y' /\ zlen y' = zlen y /\
      (forall p, 0 <= p < n -> get y' p = get x p) /\
      (forall p, ~ (0 <= p < n) -> get y' p = get y p).
  Proof.
    intros Hn Hx Hy. unfold copy_loop.
    destruct (for_inv (fun i y' => zlen y' = zlen y /\
               (forall p, 0 <= p < i -> get y' p = get x p) /\
               (forall p, ~ (0 <= p < i) -> get y' p = get y p))
              0 n (fun i y => v <- rd x i ;; wr y i v) y) as [y' [E H]].
    - lia.
    - split; [reflexivity|]. split; [intros; lia|auto].
    - intros i y1 Hi [L [G N]].
      destruct (rd_lt x i) as [v [Ex Gx]]; [lia|]. rewrite Ex. cbn [bind].
      destruct (wr_ex y1 i v) as [y2 [E2 [L2 [G2 N2]]]]; [lia|].
      exists y2. split; [exact E2|]. split; [congruence|]. split.
      + intros p Hp. destruct (Z.eq_dec p i) as [->|Hne].
        * now rewrite G2, Gx.
        * rewrite N2 by lia. apply G. lia.
      + intros p Hp. rewrite N2 by lia. apply N. lia.
    - exists y'. split; [exact E|exact H].
  Qed.

  (** omatcopy copies entry by entry when destination addresses are distinct. *)
  Lemma omatcopy_spec m n (A : list T) ra ca (B : list T) rb cb :
    0 <= m -> 0 <= n ->
    (forall i j, 0 <= i < m -> 0 <= j < n -> 0 <= i * ra + j * ca < zlen A) ->
    (forall i j, 0 <= i < m -> 0 <= j < n -> 0 <= i * rb + j * cb < zlen B) ->
    (forall i j i' j', 0 <= i < m -> 0 <= j < n -> 0 <= i' < m -> 0 <= j' < n ->
        i * rb + j * cb = i' * rb + j' * cb -> i = i' /\ j = j') ->
    exists B', omatcopy m n A ra ca B rb cb = Ok B' /\ zlen B' = zlen B /\
      (forall i j, 0 <= i < m -> 0 <= j < n -> get B' (i * rb + j * cb) = get A (i * ra + j * ca)) /\
      (forall p, (forall i j, 0 <= i < m -> 0 <= j < n -> p <> i * rb + j * cb) -> get B' p = get B p).
  Proof.
    intros Hm Hn HA HB Hinj.
    unfold omatcopy.
    set (Done := fun (i0 j0 : Z) (B' : list T) =>
       zlen B' = zlen B /\
       (forall i j, 0 <= i < m -> 0 <= j < n -> (i < i0 \/ (i = i0 /\ j < j0)) ->
            get B' (i * rb + j * cb) = get A (i * ra + j * ca)) /\
       (forall p, (forall i j, 0 <= i < m -> 0 <= j < n -> (i < i0 \/ (i = i0 /\ j < j0)) -> p <> i * rb + j * cb) ->
            get B' p = get B p)).
    match goal with |- context [for_ 0 m ?body B] => set (bd := body) end.
    destruct (for_inv (fun i B' => Done i 0 B') 0 m bd B) as [B' [E [L [G N]]]].
    - lia.
    - split; [reflexivity|]. split; [intros; lia|auto].
    - intros i B1 Hi H1. unfold bd.
      destruct (for_inv (fun j B' => Done i j B') 0 n
                 (fun j B => v <- rd A (i * ra + j * ca) ;; wr B (i * rb + j * cb) v) B1) as [B2 [E2 H2]].
      + lia.
      + exact H1.
      + intros j B2 Hj [L [G N]].
        destruct (rd_lt A (i * ra + j * ca)) as [v [Ev Gv]]; [apply HA; lia|]. rewrite Ev. cbn [bind].
        destruct (wr_ex B2 (i * rb + j * cb) v) as [B3 [E3 [L3 [G3 N3]]]]; [rewrite L; apply HB; lia|].
        exists B3. split; [exact E3|]. split; [congruence|]. split.
        * intros i' j' Hi' Hj' Hd. destruct (Z.eq_dec i' i) as [->|Hne].
          -- destruct (Z.eq_dec j' j) as [->|Hnj]; [now rewrite G3, Gv|].
             rewrite N3 by (intros He; apply Hnj; apply (Hinj i j' i j); auto; lia).
             apply G; auto; lia.
          -- rewrite N3 by (intros He; apply Hne; apply (Hinj i' j' i j); auto; lia).
             apply G; auto; lia.
        * intros p Hp. rewrite N3 by (apply Hp; lia). apply N. intros i' j' ? ? ?. apply Hp; lia.
      + exists B2. split; [exact E2|]. destruct H2 as [L [G N]].
        split; [exact L|]. split.
        * intros i' j' ? ? ?. apply G; lia.
        * intros p Hp. apply N. intros i' j' ? ? ?. apply Hp; lia.
    - exists B'. split; [exact E|]. split; [exact L|]. split.
      + intros i j ? ?. apply G; lia.
      + intros p Hp. apply N. intros i j ? ? ?. apply Hp; lia.
  Qed.
End Loops.

(* ------------------------------------------------------------------ *)
(** * The row task *)

Section Dense.
  Context {K W T : Type}.
  Variable cast : W -> T.
  Variable dflt : T.     (* any value; never observable *)

  Definition valat (g : generator K W) (ctr : Z) (k : K) (lane : Z) : T :=
    match get (g_fun g ctr k) lane with Some w => cast w | None => dflt end.

  Lemma block_writes_spec g ctr k n src dst :
    wf_generator g -> 0 <= src -> src + n <= g_len g ->
    block_writes cast (g_fun g ctr k) n src dst =
    Ok (map (fun i => (dst + i, valat g ctr k (i + src))) (range 0 n)).
  Proof.
    intros [WL WB WF] Hs Hn. unfold block_writes, int_loop_ok.
    replace (n <=? int_max) with true by (unfold int_max; lia).
    apply mapM_Ok. intros i Hi. apply in_range in Hi.
    destruct (rd_lt (g_fun g ctr k) (i + src)) as [v [Ev Gv]].
    { rewrite WF. lia. }
    rewrite Ev. cbn [bind]. unfold valat. now rewrite Gv.
  Qed.

  (** Value that the row task writes in column [c] of row [row]. *)
  Definition row_val (g : generator K W) (c0 : Z) (k : K) (stride pp row c : Z) : T :=
    valat g (incr g c0 (stride * row + ((pp + c) / g_len g - pp / g_len g))) k ((pp + c) mod g_len g).

  Lemma map_range_offset {B} (f : Z -> B) lo d n :
    map (fun i => f (lo + i)) (range d (d + n)) = map f (range (lo + d) (lo + d + n)).
  Proof.
    replace (map (fun i => f (lo + i)) (range d (d + n)))
      with (map f (map (fun i => i + lo) (range d (d + n)))).
    - rewrite map_range_shift. do 2 f_equal; lia.
    - rewrite map_map. apply map_ext. intros i. f_equal. lia.
  Qed.

  Lemma row_task_spec g c0 k stride pp n row lda :
    wf_generator g ->
    0 <= pp -> 1 <= n -> 0 <= row -> 0 <= stride ->
    stride * row + (pp + n) < 2 ^ 63 ->
    (pp + n - 1) / g_len g - pp / g_len g - 1 <= int_max ->
    let L := g_len g in
    let s := Z.quot pp L in
    let f := Z.rem pp L in
    let e := Z.quot (pp + n - 1) L in
    let stop := Z.rem (pp + n - 1) L + 1 in
    let one := s =? e in
    let len := (if one then stop else L) - f in
    row_task cast g c0 k stride f len s e stop lda one row =
    Ok (map (fun c => (row * lda + c, row_val g c0 k stride pp row c)) (range 0 n)).
  Proof.
    intros Hwf Hpp Hn Hrow Hst Hfit Hint L s f e stop one len.
    pose proof Hwf as [WL WB WF]. fold L in WL.
    assert (L <> 0) as HL0 by lia.
    assert (s = pp / L) as Es by (unfold s; apply Z.quot_div_nonneg; lia).
    assert (f = pp mod L) as Ef by (unfold f; apply Z.rem_mod_nonneg; lia).
    assert (e = (pp + n - 1) / L) as Ee by (unfold e; apply Z.quot_div_nonneg; lia).
    assert (stop = (pp + n - 1) mod L + 1) as Estop by (unfold stop; f_equal; apply Z.rem_mod_nonneg; lia).
    pose proof (Z.div_mod pp L HL0) as Dpp. pose proof (Z.mod_pos_bound pp L ltac:(lia)) as Bpp.
    pose proof (Z.div_mod (pp + n - 1) L HL0) as Dq. pose proof (Z.mod_pos_bound (pp + n - 1) L ltac:(lia)) as Bq.
    rewrite <- Es, <- Ef in *. rewrite <- Ee in Dq. fold L in Hint. rewrite <- Es, <- Ee in Hint.
    assert ((pp + n - 1) mod L = stop - 1) as Estop' by lia.
    rewrite Estop' in Dq, Bq. clear Estop Estop'.
    assert (0 <= s) by (rewrite Es; apply Z.div_pos; lia).
    assert (s <= e) by (rewrite Es, Ee; apply Z.div_le_mono; lia).
    assert (e <= pp + n - 1) by nia.
    clearbody s f e stop.
    assert (0 <= stride * row) by nia.
    (* value of a column, from its block index and lane *)
    assert (forall q l, 0 <= q -> 0 <= l < L -> 0 <= (s + q) * L + l - pp ->
              row_val g c0 k stride pp row ((s + q) * L + l - pp) =
              valat g (incr g c0 (stride * row + q)) k l) as Hval.
    { intros q l Hq Hl Hc. unfold row_val. fold L.
      replace (pp + ((s + q) * L + l - pp)) with ((s + q) * L + l) by lia.
      destruct (div_mod_pair L (s + q) l Hl) as [-> ->]. rewrite <- Es. f_equal. f_equal. lia. }
    unfold row_task. fold L.
    rewrite safe_int_product_Ok; [|unfold int64, int64_min, int64_max; lia]. cbn [bind].
    assert (0 <= f) by lia.
    assert (len = n /\ one = true \/ len = L - f /\ one = false /\ s < e) as Hlen.
    { unfold len, one. destruct (Z.eqb_spec s e); [left; split; [nia|reflexivity]|right; lia]. }
    assert (f + len <= L /\ 0 < len) as [Hfl Hlp].
    { destruct Hlen as [[-> Ho]|[-> Ho]]; [|lia]. unfold one in Ho. apply Z.eqb_eq in Ho. nia. }
    rewrite (block_writes_spec g _ k len f (row * lda) Hwf ltac:(lia) ltac:(fold L; lia)). cbn [bind].
    assert (map (fun i => (row * lda + i, valat g (incr g c0 (stride * row)) k (i + f))) (range 0 len) =
            map (fun c => (row * lda + c, row_val g c0 k stride pp row c)) (range 0 len)) as E1.
    { apply map_ext_in. intros i Hi. apply in_range in Hi. f_equal.
      replace i with ((s + 0) * L + (i + f) - pp) at 2 by nia.
      rewrite Hval by nia. f_equal. f_equal. lia. }
    rewrite E1. clear E1.
    destruct Hlen as [[El Eo]|[El [Eo Hse]]].
    - rewrite Eo, El. reflexivity.
    - rewrite Eo. unfold int_loop_ok.
      replace (e - s - 1 <=? int_max) with true by lia. cbn [negb].
      match goal with |- context [for_ 0 (e - s - 1) ?body ?st] => set (bd := body); set (st0 := st) end.
      destruct (for_inv (fun i '(cr, ind, ws) =>
          cr = incr g c0 (stride * row + i) /\ ind = len + i * L /\
          ws = map (fun c => (row * lda + c, row_val g c0 k stride pp row c)) (range 0 (len + i * L)))
          0 (e - s - 1) bd st0) as [[[cr ind] ws] [Ef' [Ecr [Eind Ews]]]].
      + lia.
      + unfold st0. split; [f_equal; lia|]. split; [lia|]. do 2 f_equal. lia.
      + intros i [[cr ind] ws] Hi [-> [-> ->]]. unfold bd.
        rewrite incr_incr by (try (fold L; lia); nia).
        rewrite (block_writes_spec g _ k L 0 _ Hwf ltac:(lia) ltac:(fold L; lia)). cbn [bind].
        eexists. split; [reflexivity|]. split; [f_equal; lia|]. split; [lia|].
        replace (len + (i + 1) * L) with (len + i * L + L) by lia.
        rewrite (range_split 0 (len + i * L) (len + i * L + L)) by nia.
        rewrite map_app. f_equal.
        replace (range (len + i * L) (len + i * L + L))
          with (range (len + i * L + 0) (len + i * L + 0 + L)) by (f_equal; lia).
        rewrite <- (map_range_offset (fun c => (row * lda + c, row_val g c0 k stride pp row c)) (len + i * L) 0 L).
        replace (0 + L) with L by lia. apply map_ext_in. intros l Hl. apply in_range in Hl. f_equal; [lia|].
        replace (len + i * L + l) with ((s + (i + 1)) * L + l - pp) by nia.
        rewrite Hval by nia. f_equal; [f_equal; lia|lia].
      + rewrite Ef'. cbn [bind]. subst cr ind ws.
        rewrite incr_incr by (try (fold L; lia); nia).
        rewrite (block_writes_spec g _ k stop 0 _ Hwf ltac:(lia) ltac:(fold L; lia)). cbn [bind].
        f_equal. replace n with (len + (e - s - 1) * L + stop) by nia.
        rewrite (range_split 0 (len + (e - s - 1) * L) (len + (e - s - 1) * L + stop)) by nia.
        rewrite map_app. f_equal.
        replace (range (len + (e - s - 1) * L) (len + (e - s - 1) * L + stop))
          with (range (len + (e - s - 1) * L + 0) (len + (e - s - 1) * L + 0 + stop)) by (f_equal; lia).
        rewrite <- (map_range_offset (fun c => (row * lda + c, row_val g c0 k stride pp row c)) (len + (e - s - 1) * L) 0 stop).
        replace (0 + stop) with stop by lia. apply map_ext_in. intros l Hl. apply in_range in Hl. f_equal; [lia|].
        replace (len + (e - s - 1) * L + l) with ((s + (e - s)) * L + l - pp) by nia.
        rewrite Hval by nia. f_equal; [f_equal; lia|lia].
  Qed.
End Dense.
