(** repeated_fisher_yates refines the list function [fy]. *)
From Verif Require Import Base Spec RngModel DenseModel DenseProofs SparseSkopModel FySpec.

Lemma set_nth_app_r {T} (s r : list T) k x : set_nth (s ++ r) (length s + k) x = s ++ set_nth r k x.
Proof. induction s as [|y s IH]; cbn; [reflexivity|]. now rewrite IH. Qed.

Lemma get_app_at {T} (s r : list T) q : 0 <= q -> get (s ++ r) (zlen s + q) = get r q.
Proof. intros H. rewrite get_app_r by lia. f_equal. lia. Qed.

Lemma wr_app_at {T} (s r : list T) q x :
  0 <= q < zlen r -> wr (s ++ r) (zlen s + q) x = Ok (s ++ set_nth r (Z.to_nat q) x).
Proof.
  intros H. rewrite wr_Ok.
  - f_equal. replace (Z.to_nat (zlen s + q)) with (length s + Z.to_nat q)%nat by (unfold zlen; lia).
    apply set_nth_app_r.
  - rewrite zlen_app. pose proof (zlen_nonneg s). lia.
Qed.

(** One swap. *)
Lemma swap_step (s r : list Z) q x :
  get r q = Some x ->
  exists h w1,
    rd (s ++ r) (zlen s + q) = Ok x /\
    rd (s ++ r) (zlen s) = Ok h /\
    wr (s ++ r) (zlen s + q) h = Ok w1 /\
    wr w1 (zlen s) x = Ok (s ++ x :: fy_rest r q).
Proof.
  intros Hx. pose proof (get_Some_lt _ _ _ Hx) as Hq.
  destruct r as [|h t]; [cbn in Hq; lia|].
  exists h, (s ++ set_nth (h :: t) (Z.to_nat q) h).
  split; [apply rd_get; rewrite get_app_at by lia; exact Hx|].
  split; [apply rd_get; rewrite <- (Z.add_0_r (zlen s)), get_app_at by lia; reflexivity|].
  split; [apply wr_app_at; exact Hq|].
  rewrite <- (Z.add_0_r (zlen s)), wr_app_at.
  - f_equal. f_equal. change (Z.to_nat 0) with O. cbn [fy_rest].
    destruct (Z.eqb_spec q 0) as [->|Hq0].
    + cbn in Hx. injection Hx as ->. reflexivity.
    + replace (Z.to_nat q) with (S (Z.to_nat (q - 1))) by lia. reflexivity.
  - rewrite zlen_set_nth. lia.
Qed.

Lemma set_nth_same {T} (t : list T) n x : nth_error t n = Some x -> set_nth t n x = t.
Proof. revert n; induction t as [|y t IH]; intros [|n] H; cbn in *; try discriminate; [congruence|]. f_equal; auto. Qed.

Lemma set_nth_twice {T} (t : list T) n x y : set_nth (set_nth t n x) n y = set_nth t n y.
Proof. revert n; induction t as [|z t IH]; intros [|n]; cbn; auto. f_equal; auto. Qed.

(** Undoing a swap. *)
Lemma unswap_step (s r : list Z) q x :
  get r q = Some x ->
  exists h w1,
    rd (s ++ x :: fy_rest r q) (zlen s + q) = Ok h /\
    wr (s ++ x :: fy_rest r q) (zlen s) h = Ok w1 /\
    wr w1 (zlen s + q) x = Ok (s ++ r).
Proof.
  intros Hx. pose proof (get_Some_lt _ _ _ Hx) as Hq.
  pose proof (fy_rest_len _ _ _ Hx) as Hl.
  destruct r as [|h t]; [cbn in Hq; lia|].
  exists h, (s ++ h :: fy_rest (h :: t) q). rewrite zlen_cons in Hq, Hl.
  split; [|split].
  - apply rd_get. rewrite get_app_at by lia. cbn [fy_rest].
    destruct (Z.eqb_spec q 0) as [->|Hq0].
    + cbn in Hx |- *. congruence.
    + rewrite get_cons_S by lia. apply get_set_eq. lia.
  - rewrite <- (Z.add_0_r (zlen s)) at 1. rewrite wr_app_at; [reflexivity|]. rewrite zlen_cons. lia.
  - rewrite wr_app_at by (rewrite zlen_cons; lia). f_equal. f_equal. cbn [fy_rest].
    destruct (Z.eqb_spec q 0) as [->|Hq0].
    + cbn in Hx |- *. congruence.
    + replace (Z.to_nat q) with (S (Z.to_nat (q - 1))) by lia. cbn [set_nth]. f_equal.
      rewrite get_cons_S in Hx by lia.
      rewrite set_nth_twice. apply set_nth_same.
      unfold get in Hx. destruct (q - 1 <? 0); [discriminate|exact Hx].
Qed.

(** The first [n] cells of the array hold [f]; the others are unchanged. *)
Definition upd_to {A} (n : Z) (f : Z -> A) (l l' : list A) : Prop :=
  zlen l' = zlen l /\ forall p, get l' p = if (0 <=? p) && (p <? n) then Some (f p) else get l p.
Definition upd_opt {A} (n : Z) (f : Z -> A) (b b' : option (list A)) : Prop :=
  match b, b' with
  | None, None => True
  | Some l, Some l' => upd_to n f l l'
  | _, _ => False
  end.
Definition long_opt {A} (n : Z) (b : option (list A)) : Prop :=
  match b with None => True | Some l => n <= zlen l end.

Lemma upd_to_0 {A} (f : Z -> A) l : upd_to 0 f l l.
Proof. split; [reflexivity|]. intros p. destruct ((0 <=? p) && (p <? 0)) eqn:E; [lia|reflexivity]. Qed.

Lemma upd_opt_0 {A} (f : Z -> A) b : upd_opt 0 f b b.
Proof. destruct b; cbn; [apply upd_to_0|exact I]. Qed.

Lemma upd_to_step {A} n (f : Z -> A) l l' v :
  upd_to n f l l' -> 0 <= n < zlen l -> v = f n -> exists l'', wr l' n v = Ok l'' /\ upd_to (n + 1) f l l''.
Proof.
  intros [L G] Hn ->. destruct (wr_ex l' n (f n)) as [l'' [E [L' [G1 G2]]]]; [lia|].
  exists l''. split; [exact E|]. split; [congruence|]. intros p.
  destruct (Z.eq_dec p n) as [->|Hp].
  - rewrite G1. replace ((0 <=? n) && (n <? n + 1)) with true by lia. reflexivity.
  - rewrite G2, G by exact Hp.
    replace ((0 <=? p) && (p <? n + 1)) with ((0 <=? p) && (p <? n)) by lia. reflexivity.
Qed.

Lemma upd_opt_step {A} n (f : Z -> A) b b' v :
  upd_opt n f b b' -> long_opt (n + 1) b -> 0 <= n -> v = f n ->
  exists b'', wr_opt b' n v = Ok b'' /\ upd_opt (n + 1) f b b''.
Proof.
  destruct b as [l|], b' as [l'|]; cbn; intros H Hl Hn Hv; try contradiction.
  - destruct (upd_to_step n f l l' v H ltac:(lia) Hv) as [l'' [E U]]. rewrite E. cbn. eexists; split; [reflexivity|exact U].
  - eexists; split; [reflexivity|exact I].
Qed.

Lemma to_sint_id b x : 0 < b -> - 2 ^ (b - 1) <= x <= sint_max b -> to_sint b x = x.
Proof.
  intros Hb Hx. unfold to_sint, sint_max in *.
  assert (2 ^ b = 2 * 2 ^ (b - 1)) as E.
  { replace b with (Z.succ (b - 1)) at 1 by lia. rewrite Z.pow_succ_r by lia. reflexivity. }
  rewrite Z.mod_small; lia.
Qed.

Section Fy.
  Context {K T : Type}.
  Variable g : generator K Z.
  Variable sb : Z.
  Variables one mone : T.
  Hypothesis Hwf : wf_generator g.
  Hypothesis Hsb : 1 < sb.

  (** Word [l] of the block at counter offset [o]. *)
  Definition word (c : Z) (k : K) (o l : Z) : Z :=
    match get (g_fun g ((c + o) mod 2 ^ g_bits g) k) l with Some w => w | None => 0 end.

  Lemma rd_word c k o l : 0 <= l < g_len g -> rd (g_fun g ((c + o) mod 2 ^ g_bits g) k) l = Ok (word c k o l).
  Proof.
    intros Hl. unfold word. destruct (rd_lt (g_fun g ((c + o) mod 2 ^ g_bits g) k) l) as [w [E G]].
    { rewrite (wf_fun _ Hwf). exact Hl. }
    now rewrite G.
  Qed.

  (** Pivot j of vector i, the ordered sample of vector i, and the sign j of vector i. *)
  Definition pivot (c : Z) (k : K) (n kk i j : Z) : Z := word c k (i * kk + j) 0 mod (n - j).
  Definition sample (c : Z) (k : K) (n kk i : Z) : list Z :=
    fy (range 0 n) (map (pivot c k n kk i) (range 0 kk)).
  Definition sign (c : Z) (k : K) (o : Z) : T := if word c k o 1 mod 2 =? 0 then one else mone.

  (** Cell p of idxs_major. *)
  Definition major_at (c : Z) (k : K) (n kk p : Z) : Z :=
    match get (sample c k n kk (p / kk)) (p mod kk) with Some x => x | None => 0 end.

  Lemma pivots_valid c k n kk i t :
    0 <= t <= kk -> kk <= n -> valid_pivots n (map (pivot c k n kk i) (range 0 t)).
  Proof.
    intros Ht Hk. unfold range. apply valid_pivots_map. intros j Hj.
    unfold pivot. rewrite Z.sub_0_r. apply Z.mod_pos_bound. lia.
  Qed.

  (** The j-th element of the sample and the state of the scratch array. *)
  Lemma sample_step_spec c k n kk i j :
    0 <= j < kk -> kk <= n ->
    let qs t := map (pivot c k n kk i) (range 0 t) in
    exists x, get (fy_after (range 0 n) (qs j)) (pivot c k n kk i j) = Some x /\
      fy (range 0 n) (qs (j + 1)) = fy (range 0 n) (qs j) ++ [x] /\
      fy_after (range 0 n) (qs (j + 1)) = fy_rest (fy_after (range 0 n) (qs j)) (pivot c k n kk i j) /\
      zlen (fy (range 0 n) (qs j)) = j /\
      get (sample c k n kk i) j = Some x.
  Proof.
    intros Hj Hk qs.
    pose proof (pivots_valid c k n kk i j ltac:(lia) Hk) as V. fold (qs j) in V.
    assert (zlen (range 0 n) = n) as Ln by (rewrite zlen_range; lia).
    assert (zlen (qs j) = j) as Lq by (unfold qs; rewrite zlen_map, zlen_range; lia).
    assert (zlen (fy_after (range 0 n) (qs j)) = n - j) as La by (rewrite fy_after_len; rewrite Ln; auto; lia).
    destruct (get_lt (fy_after (range 0 n) (qs j)) (pivot c k n kk i j)) as [x Hx].
    { rewrite La. unfold pivot. apply Z.mod_pos_bound. lia. }
    assert (qs (j + 1) = qs j ++ [pivot c k n kk i j]) as Eq.
    { unfold qs. rewrite range_snoc by lia. rewrite map_app. reflexivity. }
    assert (zlen (fy (range 0 n) (qs j)) = j) as Lf.
    { unfold zlen. rewrite fy_length by (rewrite Ln; exact V). exact Lq. }
    assert (fy (range 0 n) (qs (j + 1)) = fy (range 0 n) (qs j) ++ [x]) as Ef.
    { rewrite Eq, fy_app by (rewrite Ln; exact V). cbn [fy]. rewrite Hx. reflexivity. }
    exists x. split; [exact Hx|]. split; [exact Ef|]. split.
    { rewrite Eq, fy_after_app. reflexivity. }
    split; [exact Lf|].
    unfold sample. rewrite (range_split 0 (j + 1) kk) by lia. rewrite map_app, fy_app.
    - fold (qs (j + 1)). rewrite Ef, <- app_assoc. rewrite get_app_r by lia. rewrite Lf, Z.sub_diag. reflexivity.
    - rewrite Ln. apply pivots_valid; lia.
  Qed.

  (** Forward loop of one vector. *)
  Lemma fy_forward c k n kk i imaj0 imin0 vals0 imaj imin vals piv :
    0 <= i -> 0 <= kk <= n -> n <= sint_max sb ->
    zlen piv = kk ->
    upd_to (i * kk) (major_at c k n kk) imaj0 imaj ->
    upd_opt (i * kk) (fun p => p / kk) imin0 imin ->
    upd_opt (i * kk) (fun p => sign c k p) vals0 vals ->
    (i + 1) * kk <= zlen imaj0 -> long_opt ((i + 1) * kk) imin0 -> long_opt ((i + 1) * kk) vals0 ->
    exists piv' imaj' imin' vals' ctr',
      for_ 0 kk (fy_step g sb one mone k n (i * kk) i)
        (range 0 n, piv, (c + i * kk) mod 2 ^ g_bits g, imaj, imin, vals) =
      Ok (sample c k n kk i ++ fy_after (range 0 n) (map (pivot c k n kk i) (range 0 kk)), piv', ctr', imaj', imin', vals') /\
      zlen piv' = kk /\
      (forall j, 0 <= j < kk -> get piv' j = Some (j + pivot c k n kk i j)) /\
      upd_to ((i + 1) * kk) (major_at c k n kk) imaj0 imaj' /\
      upd_opt ((i + 1) * kk) (fun p => p / kk) imin0 imin' /\
      upd_opt ((i + 1) * kk) (fun p => sign c k p) vals0 vals'.
  Proof.
    intros Hi Hk Hn Lp Umaj Umin Uval Bmaj Bmin Bval.
    set (qs := fun t => map (pivot c k n kk i) (range 0 t)).
    destruct (for_inv (fun j (st : fy_state) =>
        let '(work, p', ctr, imaj', imin', vals') := st in
        work = fy (range 0 n) (qs j) ++ fy_after (range 0 n) (qs j) /\
        ctr = (c + (i * kk + j)) mod 2 ^ g_bits g /\
        zlen p' = kk /\ (forall t, 0 <= t < j -> get p' t = Some (t + pivot c k n kk i t)) /\
        upd_to (i * kk + j) (major_at c k n kk) imaj0 imaj' /\
        upd_opt (i * kk + j) (fun p => p / kk) imin0 imin' /\
        upd_opt (i * kk + j) (fun p => sign c k p) vals0 vals')
      0 kk (fy_step g sb one mone k n (i * kk) i)
      (range 0 n, piv, (c + i * kk) mod 2 ^ g_bits g, imaj, imin, vals)) as [st' [E H]].
    - lia.
    - unfold qs. rewrite (range_nil 0 0) by lia. cbn [map fy fy_after app]. rewrite !Z.add_0_r.
      repeat split; auto; try lia; try apply Umaj.
    - intros j [[[[[work p'] ctr] imaj'] imin'] vals'] Hj (Hw & Hc & Hlp & Hpt & Hmaj & Hmin & Hval).
      unfold fy_step. rewrite Hc, Hw.
      destruct Hwf as [WL WB WF].
      rewrite rd_word by lia. cbn [bind].
      replace (n - j =? 0) with false by lia.
      destruct (sample_step_spec c k n kk i j Hj ltac:(lia)) as [x [Hx [Ef [Ea [Ls Gs]]]]].
      fold (qs j) in Hx, Ef, Ea, Ls. fold (qs (j + 1)) in Ef, Ea.
      change (word c k (i * kk + j) 0 mod (n - j)) with (pivot c k n kk i j).
      assert (0 <= pivot c k n kk i j < n - j) as Hp by (unfold pivot; apply Z.mod_pos_bound; lia).
      rewrite to_sint_id by (unfold sint_max in *; lia).
      destruct (wr_ex p' j (j + pivot c k n kk i j)) as [p'' [Ep [Lp'' [Gp Np]]]]; [lia|].
      rewrite Ep. cbn [bind].
      destruct (swap_step (fy (range 0 n) (qs j)) (fy_after (range 0 n) (qs j)) (pivot c k n kk i j) x Hx)
        as [h [w1 [R1 [R2 [W1 W2]]]]].
      rewrite Ls in R1, R2, W1, W2. rewrite R1. cbn [bind]. rewrite R2. cbn [bind]. rewrite W1. cbn [bind].
      rewrite W2. cbn [bind].
      assert (0 <= i * kk) as Hik by (apply Z.mul_nonneg_nonneg; lia).
      assert (i * kk + j < (i + 1) * kk) as Hlt by lia.
      destruct (div_mod_pair kk i j ltac:(lia)) as [Hd Hm].
      replace (j + i * kk) with (i * kk + j) by lia.
      destruct (upd_to_step (i * kk + j) (major_at c k n kk) imaj0 imaj' x Hmaj) as [imaj'' [Em Um]]; [lia| |].
      { unfold major_at. rewrite Hd, Hm, Gs. reflexivity. }
      rewrite Em. cbn [bind]. rewrite rd_word by lia. cbn [bind].
      destruct (upd_opt_step (i * kk + j) (fun p => sign c k p) vals0 vals'
                 (if word c k (i * kk + j) 1 mod 2 =? 0 then one else mone) Hval) as [vals'' [Ev Uv]].
      { destruct vals0; cbn [long_opt] in *; lia. }
      { lia. }
      { reflexivity. }
      rewrite Ev. cbn [bind].
      destruct (upd_opt_step (i * kk + j) (fun p => p / kk) imin0 imin' i Hmin) as [imin'' [En Un]].
      { destruct imin0; cbn [long_opt] in *; lia. }
      { lia. }
      { now rewrite Hd. }
      rewrite En. cbn [bind]. eexists. split; [reflexivity|].
      replace (i * kk + (j + 1)) with (i * kk + j + 1) by lia.
      repeat split; try assumption; try lia; try apply Um.
      + rewrite Ef, Ea, <- app_assoc. reflexivity.
      + rewrite incr_small by lia. rewrite Zplus_mod_idemp_l. f_equal. lia.
      + intros t Ht. destruct (Z.eq_dec t j) as [->|Htj]; [exact Gp|]. rewrite Np by lia. apply Hpt. lia.
    - destruct st' as [[[[[work p'] ctr] imaj'] imin'] vals'].
      destruct H as (Hw & Hc & Hlp & Hpt & Hmaj & Hmin & Hval).
      exists p', imaj', imin', vals', ctr. rewrite E, Hw. unfold sample. fold (qs kk).
      replace ((i + 1) * kk) with (i * kk + kk) by lia.
      split; [reflexivity|]. split; [exact Hlp|]. split; [exact Hpt|]. split; [exact Hmaj|]. split; [exact Hmin|exact Hval].
  Qed.

  (** Restoring loop. *)
  Lemma fy_backward c k n kk i imaj0 imaj piv :
    0 <= i -> 0 <= kk <= n ->
    (forall j, 0 <= j < kk -> get piv j = Some (j + pivot c k n kk i j)) ->
    upd_to ((i + 1) * kk) (major_at c k n kk) imaj0 imaj ->
    for_ 1 (kk + 1) (fy_restore kk (i * kk) piv imaj)
      (sample c k n kk i ++ fy_after (range 0 n) (map (pivot c k n kk i) (range 0 kk))) = Ok (range 0 n).
  Proof.
    intros Hi Hk Hp [Lm Gm].
    set (qs := fun t => map (pivot c k n kk i) (range 0 t)).
    destruct (for_inv (fun j work => work = fy (range 0 n) (qs (kk + 1 - j)) ++ fy_after (range 0 n) (qs (kk + 1 - j)))
      1 (kk + 1) (fy_restore kk (i * kk) piv imaj)
      (sample c k n kk i ++ fy_after (range 0 n) (map (pivot c k n kk i) (range 0 kk)))) as [st' [E H]].
    - lia.
    - unfold sample. fold (qs kk). replace (kk + 1 - 1) with kk by lia. reflexivity.
    - intros j work Hj ->. unfold fy_restore. set (jj := kk - j).
      replace (kk + 1 - j) with (jj + 1) by lia. replace (kk + 1 - (j + 1)) with jj by lia.
      destruct (sample_step_spec c k n kk i jj ltac:(lia) ltac:(lia)) as [x [Hx [Ef [Ea [Ls Gs]]]]].
      fold (qs jj) in Hx, Ef, Ea, Ls. fold (qs (jj + 1)) in Ef, Ea.
      assert (0 <= i * kk) by (apply Z.mul_nonneg_nonneg; lia).
      destruct (div_mod_pair kk i jj ltac:(lia)) as [Hd Hm].
      assert (rd imaj (jj + i * kk) = Ok x) as ->.
      { apply rd_get. rewrite Gm. replace (jj + i * kk) with (i * kk + jj) by lia.
        replace ((0 <=? i * kk + jj) && (i * kk + jj <? (i + 1) * kk)) with true by lia.
        unfold major_at. rewrite Hd, Hm, Gs. reflexivity. }
      cbn [bind]. rewrite (proj2 (rd_get piv jj _) (Hp jj ltac:(lia))). cbn [bind].
      rewrite Ef, Ea, <- app_assoc. cbn [app].
      destruct (unswap_step (fy (range 0 n) (qs jj)) (fy_after (range 0 n) (qs jj)) (pivot c k n kk i jj) x Hx)
        as [h [w1 [R1 [W1 W2]]]].
      rewrite Ls in R1, W1, W2. rewrite R1. cbn [bind]. rewrite W1. cbn [bind]. rewrite W2.
      eexists. split; reflexivity.
    - rewrite E, H. replace (kk + 1 - (kk + 1)) with 0 by lia. reflexivity.
  Qed.

  (** The whole function. *)
  Lemma fisher_yates_spec (st : rng_state K) kk n r imaj imin vals :
    0 <= kk <= n -> 0 <= r -> n <= sint_max sb -> r <= sint_max sb -> r * kk <= sint_max sb -> sb <= 64 ->
    r * kk <= zlen imaj -> long_opt (r * kk) imin -> long_opt (r * kk) vals ->
    exists imaj' imin' vals',
      repeated_fisher_yates g sb one mone st kk n r imaj imin vals =
        Ok (imaj', imin', vals', mk_state ((counter st + r * kk) mod 2 ^ g_bits g) (key st)) /\
      upd_to (r * kk) (major_at (counter st) (key st) n kk) imaj imaj' /\
      upd_opt (r * kk) (fun p => p / kk) imin imin' /\
      upd_opt (r * kk) (fun p => sign (counter st) (key st) p) vals vals'.
  Proof.
    intros Hk Hr Hn Hrs Hrk Hsb64 Bmaj Bmin Bval.
    assert (2 ^ (sb - 1) <= 2 ^ 63) as H63 by (apply Z.pow_le_mono_r; lia).
    unfold repeated_fisher_yates.
    replace (kk >? n) with false by lia. replace (0 <=? n) with true by lia.
    replace (n >? sint_max sb) with false by lia. cbn [require bind].
    replace (0 <=? kk) with true by lia. replace (r >? sint_max sb) with false by lia. cbn [require bind].
    set (c := counter st). set (k := key st).
    destruct (for_inv (fun i (s : list Z * list Z * list Z * option (list Z) * option (list T)) =>
        let '(work, piv, imaj', imin', vals') := s in
        work = range 0 n /\ zlen piv = kk /\
        upd_to (i * kk) (major_at c k n kk) imaj imaj' /\
        upd_opt (i * kk) (fun p => p / kk) imin imin' /\
        upd_opt (i * kk) (fun p => sign c k p) vals vals')
      0 r (fy_vector g sb one mone k c kk n)
      (range 0 n, repeat 0 (Z.to_nat kk), imaj, imin, vals)) as [s' [E H]].
    - lia.
    - rewrite zlen_repeat. rewrite Z.mul_0_l. repeat split; try lia; try apply upd_to_0; try apply upd_opt_0.
    - intros i [[[[work piv] imaj'] imin'] vals'] Hi (Hw & Hlp & Um & Un & Uv). unfold fy_vector.
      assert (0 <= i * kk) by (apply Z.mul_nonneg_nonneg; lia).
      assert ((i + 1) * kk <= r * kk) as Hle by (apply Z.mul_le_mono_nonneg_r; lia).
      rewrite to_sint_id by (unfold sint_max in *; lia).
      rewrite incr_small by (unfold sint_max in *; lia).
      replace (kk >? sint_max sb) with false by lia. rewrite Hw.
      destruct (fy_forward c k n kk i imaj imin vals imaj' imin' vals' piv) as (p2 & a2 & n2 & v2 & ct2 & E2 & L2 & P2 & U2 & V2 & X2);
        auto; try lia.
      { destruct imin; cbn [long_opt] in *; lia. }
      { destruct vals; cbn [long_opt] in *; lia. }
      rewrite E2. cbn [bind].
      rewrite (fy_backward c k n kk i imaj a2 p2); auto; try lia. cbn [bind].
      eexists. split; [reflexivity|]. repeat split; try assumption; try apply U2.
    - destruct s' as [[[[work piv] imaj'] imin'] vals']. destruct H as (_ & _ & Um & Un & Uv).
      rewrite E. cbn [bind]. exists imaj', imin', vals'. split; [|repeat split; try assumption; apply Um].
      rewrite incr_small; [reflexivity|]. assert (0 <= r * kk) by (apply Z.mul_nonneg_nonneg; lia).
      unfold sint_max in *. lia.
  Qed.
End Fy.
