From Verif Require Import Base Spec RngModel DenseModel DenseSpec DenseProofs SparseSkopModel FySpec FyProofs PropsFy SparseSpec IsoSpec IsoProofs PropsIso StatSpec.
From Coq Require Import Lra Permutation.
Local Open Scope R_scope.

(** ** Products *)
Lemma Rprod_app l1 l2 : Rprod (l1 ++ l2) = Rprod l1 * Rprod l2.
Proof. induction l1 as [|x l IH]; cbn; [lra|]. rewrite IH. lra. Qed.
Lemma Rprod_ext {A} (f g : A -> R) l : (forall x, In x l -> f x = g x) -> Rprod (map f l) = Rprod (map g l).
Proof. intros H. f_equal. apply map_ext_in. exact H. Qed.
Lemma Rprod_mult {A} (f g : A -> R) l : Rprod (map (fun x => f x * g x) l) = Rprod (map f l) * Rprod (map g l).
Proof. induction l as [|x l IH]; cbn; [lra|]. rewrite IH. lra. Qed.
Lemma Rprod_const {A} c (l : list A) : Rprod (map (fun _ => c) l) = c ^ length l.
Proof. induction l as [|x l IH]; [reflexivity|]. cbn. rewrite IH. reflexivity. Qed.
Lemma Rprod_nonneg {A} (f : A -> R) l : (forall x, In x l -> 0 <= f x) -> 0 <= Rprod (map f l).
Proof. induction l as [|x l IH]; cbn; intros H; [lra|]. apply Rmult_le_pos; auto. Qed.
Lemma Rprod_pos {A} (f : A -> R) l : (forall x, In x l -> 0 < f x) -> 0 < Rprod (map f l).
Proof. induction l as [|x l IH]; cbn; intros H; [lra|]. apply Rmult_lt_0_compat; auto. Qed.
Lemma Rprod_le {A} (f g : A -> R) l : (forall x, In x l -> 0 <= f x <= g x) -> Rprod (map f l) <= Rprod (map g l).
Proof.
  induction l as [|x l IH]; cbn; intros H; [lra|]. apply Rmult_le_compat; auto; try apply H; auto.
  apply Rprod_nonneg. intros y Hy. apply H. auto.
Qed.
Lemma Rprod_inv {A} (f : A -> R) l : Rprod (map (fun x => / f x) l) = / Rprod (map f l).
Proof. induction l as [|x l IH]; cbn; [lra|]. rewrite IH, Rinv_mult. reflexivity. Qed.

(** ** Independent events at different positions of the tape *)
Lemma indicator_and a b : indicator (a && b) = indicator a * indicator b.
Proof. unfold indicator. destruct a, b; cbn; lra. Qed.
Lemma probability_ext {A} (l : list A) P Q : (forall t, In t l -> P t = Q t) -> probability l P = probability l Q.
Proof. intros H. unfold probability, average. f_equal. apply Rsum_ext. intros t Ht. now rewrite H. Qed.
Lemma probability_true {A} (l : list A) : l <> [] -> probability l (fun _ => true) = 1.
Proof.
  intros H. unfold probability, average. cbn [indicator]. rewrite Rsum_const. field. apply not_0_INR. destruct l; [congruence|discriminate].
Qed.
Lemma probability_count {A} (l : list A) P : probability l P = IZR (count P l) / IZR (zlen l).
Proof. unfold probability, average, indicator. rewrite Rsum_count, INR_IZR_INZ. reflexivity. Qed.
Lemma probability_and {A} (U : list A) n p d (P : A -> bool) (Q : list A -> bool) : (p < n)%nat -> U <> [] ->
  (forall t u, length t = n -> Q (set_nth t p u) = Q t) ->
  probability (tapes n U) (fun t => P (nth p t d) && Q t) = probability U P * probability (tapes n U) Q.
Proof.
  intros Hp HU HQ. unfold probability, average.
  pose proof (resample U n p (fun t => indicator (P (nth p t d) && Q t)) Hp) as E.
  rewrite (Rsum_ext (fun t => Rsum (map _ U)) (fun t => Rsum (map (fun u => indicator (P u)) U) * indicator (Q t))) in E.
  - rewrite Rsum_scal in E. assert (0 < INR (length U)) as PU by (apply lt_0_INR; destruct U; [congruence|cbn; lia]).
    pose proof (tapes_pos n U HU) as PT. apply (Rmult_eq_reg_l (INR (length U))); [|lra]. unfold Rdiv.
    rewrite <- Rmult_assoc, E. field. lra.
  - intros t Ht. apply tapes_len in Ht. rewrite Rmult_comm, <- Rsum_scal. apply Rsum_ext. intros u _.
    rewrite nth_set_eq by lia. rewrite HQ by exact Ht. rewrite indicator_and. lra.
Qed.
Lemma probability_all {A B} (U : list A) n d (pos : B -> nat) (P : B -> A -> bool) (qs : list B) : U <> [] ->
  (forall q, In q qs -> (pos q < n)%nat) -> NoDup (map pos qs) ->
  probability (tapes n U) (fun t => forallb (fun q => P q (nth (pos q) t d)) qs) = Rprod (map (fun q => probability U (P q)) qs).
Proof.
  intros HU. induction qs as [|q qs IH]; intros Hp Nd.
  - cbn. apply probability_true. intros E. pose proof (tapes_pos n U HU) as PT. rewrite E in PT. cbn in PT. lra.
  - cbn [forallb map Rprod]. cbn [map] in Nd. inversion Nd as [|? ? N1 N2]; subst.
    rewrite <- IH; auto; [|intros; apply Hp; now right]. apply probability_and; auto; [apply Hp; now left|].
    intros t u _. clear - N1. induction qs as [|q' qs IH]; [reflexivity|]. cbn [forallb]. cbn [map] in N1.
    rewrite IH by (intros H; apply N1; now right). f_equal. rewrite nth_set_ne; [reflexivity|]. intros E. apply N1. left. congruence.
Qed.

(** ** Falling factorials by blocks *)
Lemma range_app_mul k r : (0 <= k)%Z -> (0 <= r)%Z ->
  range 0 ((r + 1) * k) = range 0 (r * k) ++ map (fun j => r * k + j)%Z (range 0 k).
Proof.
  intros Hk Hr. assert (0 <= r * k)%Z by (apply Z.mul_nonneg_nonneg; lia).
  apply list_ext_get.
  - rewrite zlen_app, zlen_map, !zlen_range by lia. lia.
  - intros i Hi. rewrite zlen_range in Hi by lia. destruct (Z_lt_le_dec i (r * k)).
    + rewrite get_app_l by (rewrite zlen_range; lia). rewrite !get_range by lia. reflexivity.
    + rewrite get_app_r by (rewrite zlen_range; lia). rewrite get_map, zlen_range by lia. rewrite !get_range by lia. cbn. f_equal. lia.
Qed.
Lemma falling_blocks n k r : (0 <= k)%Z -> (0 <= r)%Z ->
  Rprod (map (fun q => IZR (n - q mod k)) (range 0 (r * k))) = falling n k ^ Z.to_nat r.
Proof.
  intros Hk Hr. pattern r. apply natlike_ind; [reflexivity| |exact Hr]. clear r Hr. intros r Hr IH.
  replace (Z.succ r) with (r + 1)%Z by lia. rewrite range_app_mul, map_app, Rprod_app, IH by lia.
  replace (Z.to_nat (r + 1)) with (S (Z.to_nat r)) by lia. cbn [pow]. rewrite Rmult_comm. f_equal.
  rewrite map_map. apply Rprod_ext. intros j Hj. apply in_range in Hj. do 2 f_equal.
  rewrite Z.add_comm, Z.mod_add by lia. apply Z.mod_small. lia.
Qed.
Lemma falling_pos n k : (k <= n)%Z -> 0 < falling n k.
Proof. intros H. apply Rprod_pos. intros j Hj. apply in_range in Hj. apply IZR_lt. lia. Qed.

(** ** Bias of one pivot *)
Lemma residue_probability W m r n : (0 <= W)%Z -> (1 <= m <= n)%Z -> (n <= 2 ^ W)%Z -> (0 <= r < m)%Z ->
  / IZR m * (1 - IZR n / IZR (2 ^ W)) <= probability (range 0 (2 ^ W)) (fun w => (w mod m =? r)%Z) <= / IZR m * (1 + IZR n / IZR (2 ^ W)).
Proof.
  intros HW Hm Hn Hr. rewrite probability_count. rewrite zlen_range by (pose proof (Z.pow_pos_nonneg 2 W); lia). rewrite Z.sub_0_r.
  pose proof (C15_modulo_bias W m r HW ltac:(lia) Hr) as H. cbv zeta in H.
  change (count (fun w => (w mod m =? r)%Z) (range 0 (2 ^ W))) with (PropsFy.count (fun w => (w mod m =? r)%Z) (range 0 (2 ^ W))).
  set (h := PropsFy.count _ _) in *. clearbody h. set (N := (2 ^ W)%Z) in *. assert (0 < N)%Z by lia. clearbody N.
  assert (B : (N - m <= h * m <= N + m)%Z).
  { unfold ceil_div in H. pose proof (Z.div_mod N m ltac:(lia)). pose proof (Z.mod_pos_bound N m ltac:(lia)).
    pose proof (Z.div_mod (N + m - 1) m ltac:(lia)). pose proof (Z.mod_pos_bound (N + m - 1) m ltac:(lia)).
    set (q := (N / m)%Z) in *. set (q' := ((N + m - 1) / m)%Z) in *. clearbody q q'. destruct H as [->| ->]; nia. }
  assert (0 < IZR N) by (apply IZR_lt; lia). assert (0 < IZR m) by (apply IZR_lt; lia).
  assert (IZR m <= IZR n) by (apply IZR_le; lia).
  destruct B as [B1 B2]. apply IZR_le in B1, B2. rewrite minus_IZR, mult_IZR in B1. rewrite plus_IZR, mult_IZR in B2.
  set (x := IZR N) in *. set (y := IZR m) in *. set (z := IZR h) in *. set (nn := IZR n) in *. clearbody x y z nn.
  split; apply (Rmult_le_reg_l (x * y)); try (apply Rmult_lt_0_compat; assumption).
  - replace (x * y * (/ y * (1 - nn / x))) with (x - nn) by (field; lra). replace (x * y * (z / x)) with (z * y) by (field; lra). lra.
  - replace (x * y * (/ y * (1 + nn / x))) with (x + nn) by (field; lra). replace (x * y * (z / x)) with (z * y) by (field; lra). lra.
Qed.

Lemma NoDup_map_inj {A B} (f : A -> B) l : (forall x y, In x l -> In y l -> f x = f y -> x = y) -> NoDup l -> NoDup (map f l).
Proof.
  intros H N. induction N as [|x l Hx N IH]; cbn; constructor.
  - intros Hin. apply in_map_iff in Hin as (y & E & Hy). apply H in E; [subst; contradiction|now right|now left].
  - apply IH. intros; apply H; auto; now right.
Qed.

(** ** All r blocks of sampling without replacement *)
Lemma get_concat_blocks {A} (Ss : list (list A)) k i j : (0 < k)%Z -> (forall s, In s Ss -> zlen s = k) -> (0 <= j < k)%Z -> (0 <= i)%Z ->
  get (concat Ss) (i * k + j) = match get Ss i with Some s => get s j | None => None end.
Proof.
  intros Hk. revert i. induction Ss as [|s Ss IH]; intros i Hl Hj Hi.
  - cbn [concat]. unfold get. assert (0 <= i * k)%Z by (apply Z.mul_nonneg_nonneg; lia).
    destruct (Z.ltb_spec (i * k + j) 0); [lia|]. destruct (Z.ltb_spec i 0); [lia|]. destruct (Z.to_nat _), (Z.to_nat i); reflexivity.
  - cbn [concat]. assert (Hs : zlen s = k) by (apply Hl; now left). destruct (Z.eq_dec i 0) as [->|Ni].
    + rewrite get_app_l by lia. rewrite get_cons_0. f_equal.
    + rewrite get_app_r by (assert (1 * k <= i * k)%Z by (apply Z.mul_le_mono_nonneg_r; lia); lia).
      rewrite get_cons_S by lia. rewrite <- IH; [|intros; apply Hl; now right|exact Hj|lia]. f_equal. lia.
Qed.
Lemma zlen_concat_blocks {A} (Ss : list (list A)) k : (forall s, In s Ss -> zlen s = k) -> zlen (concat Ss) = (zlen Ss * k)%Z.
Proof.
  induction Ss as [|s Ss IH]; intros H; [reflexivity|]. cbn [concat]. rewrite zlen_app, zlen_cons, IH by (intros; apply H; now right).
  rewrite (H s) by now left. lia.
Qed.

Section Joint.
  Context {K : Type}.
  Variable g : generator K Z.
  Variable st : rng_state K.
  Hypothesis Hg : wf_generator g.
  Hypothesis Hc : (0 <= counter st < 2 ^ g_bits g)%Z.
  Variables sb k n : Z.
  Variable Ps : list (list Z).
  Notation r := (zlen Ps).
  Hypothesis Hs : fy_sizes sb k n r.
  Hypothesis Hk : (0 < k)%Z.
  Hypothesis Hb : (r * k <= 2 ^ g_bits g)%Z.
  Hypothesis HP : forall p, In p Ps -> is_pivots k n p.
  Notation L := (g_len g).
  Notation gt t := (tape_gen g (counter st) 0%Z t).
  Definition target : list Z := concat (map (fy (range 0 n)) Ps).
  Definition pivot_at (q : Z) : Z := match get (concat Ps) q with Some x => x | None => 0%Z end.
  Definition good (t : list Z) : bool :=
    forallb (fun q => nth (Z.to_nat (q * L)) t 0%Z mod (n - q mod k) =? pivot_at q)%Z (range 0 (r * k)).

  Lemma pivot_tape t i j : (0 <= i < r)%Z -> (0 <= j < k)%Z ->
    pivot (gt t) (counter st) (key st) n k i j = (nth (Z.to_nat ((i * k + j) * L)) t 0 mod (n - j))%Z.
  Proof.
    intros Hi Hj. unfold pivot, word. pose proof (block_index k i j r Hj Hi). destruct Hg as [HL _ _].
    change (g_bits (gt t)) with (g_bits g). rewrite tape_block by lia. rewrite Z.add_0_r. reflexivity.
  Qed.
  Lemma Ps_len p : In p Ps -> zlen p = k. Proof. intros H. apply HP in H. apply H. Qed.
  Lemma sizes_kn : (k <= n)%Z. Proof. destruct Hs as (_ & H & _). lia. Qed.
  Lemma zlen_all : zlen (range 0 n) = n. Proof. pose proof sizes_kn. rewrite zlen_range; lia. Qed.
  Lemma fy_len p : In p Ps -> zlen (fy (range 0 n) p) = k.
  Proof.
    intros H. pose proof (is_pivots_valid _ _ _ (HP p H)) as V. unfold zlen. rewrite fy_length by (rewrite zlen_all; exact V).
    apply (Ps_len p H).
  Qed.
  Lemma target_at i j p : get Ps i = Some p -> (0 <= j < k)%Z -> get target (i * k + j) = get (fy (range 0 n) p) j.
  Proof.
    intros G Hj. unfold target. pose proof (get_Some_lt _ _ _ G). rewrite get_concat_blocks; auto; try lia.
    - rewrite get_map, G. reflexivity.
    - intros s Hin. apply in_map_iff in Hin as (q & <- & Hq). now apply fy_len.
  Qed.
  Lemma pivot_at_block i j p : get Ps i = Some p -> (0 <= j < k)%Z -> get p j = Some (pivot_at (i * k + j)).
  Proof.
    intros G Hj. unfold pivot_at. pose proof (get_Some_lt _ _ _ G). rewrite get_concat_blocks; auto; try lia; [|exact Ps_len]. rewrite G.
    destruct (get_lt p j) as [x Hx]; [rewrite (Ps_len p); [exact Hj|eapply get_Some_In; eauto]|]. rewrite Hx. reflexivity.
  Qed.
  Lemma split_index q : (0 <= q < r * k)%Z -> exists i j, q = (i * k + j)%Z /\ (0 <= i < r)%Z /\ (0 <= j < k)%Z.
  Proof.
    intros H. exists (q / k)%Z, (q mod k)%Z. pose proof (Z.div_mod q k ltac:(lia)). pose proof (Z.mod_pos_bound q k Hk).
    split; [lia|]. split; [|lia]. split; [apply Z.div_pos; lia|]. apply Z.div_lt_upper_bound; lia.
  Qed.

  Lemma joint_outputs t :
    outputs (fisher_yates_public (gt t) sb k n r (repeat 0%Z (Z.to_nat (r * k))) st) target = good t.
  Proof.
    pose proof sizes_kn as Hkn.
    assert (Hrk : (0 <= r * k)%Z) by (apply Z.mul_nonneg_nonneg; [apply zlen_nonneg|lia]).
    destruct (public_spec (gt t) sb k n r (repeat 0%Z (Z.to_nat (r * k))) st) as [out [E U]]; auto.
    { apply tape_gen_wf. exact Hg. }
    { rewrite zlen_repeat. lia. }
    rewrite E. cbn [outputs]. unfold good.
    assert (Lo : zlen out = (r * k)%Z). { destruct U as [Lo _]. rewrite Lo, zlen_repeat. lia. }
    assert (Eq : forall i p, get Ps i = Some p -> (forall j, (0 <= j < k)%Z -> get p j = Some (pivot (gt t) (counter st) (key st) n k i j)) ->
                 sample (gt t) (counter st) (key st) n k i = fy (range 0 n) p).
    { intros i p G H. unfold sample. f_equal. apply list_ext_get.
      - rewrite zlen_map, zlen_range by lia. rewrite (Ps_len p) by (eapply get_Some_In; eauto). lia.
      - intros j Hj. rewrite zlen_map, zlen_range in Hj by lia. rewrite get_map, get_range by lia. cbn. rewrite H by lia. reflexivity. }
    destruct (list_eq_dec Z.eq_dec out target) as [->|N].
    - symmetry. apply forallb_forall. intros q Hq. apply in_range in Hq. destruct (split_index q Hq) as (i & j & -> & Hi & Hj).
      destruct (get_lt Ps i Hi) as [p G]. apply Z.eqb_eq.
      destruct (div_mod_pair k i j Hj) as [_ ->]. rewrite <- pivot_tape by auto.
      assert (map (pivot (gt t) (counter st) (key st) n k i) (range 0 k) = p) as Em.
      { apply (fy_injective (range 0 n)).
        - apply NoDup_range.
        - rewrite zlen_all. apply pivots_valid; lia.
        - rewrite zlen_all. eapply is_pivots_valid. apply HP. eapply get_Some_In; eauto.
        - pose proof (Ps_len p ltac:(eapply get_Some_In; eauto)) as Lp. rewrite map_length. unfold zlen in Lp.
          pose proof (zlen_range 0 k ltac:(lia)) as Lr. unfold zlen in Lr. lia.
        - apply list_ext_get.
          + unfold zlen. rewrite !fy_length.
            * rewrite map_length. pose proof (Ps_len p ltac:(eapply get_Some_In; eauto)) as Lp. unfold zlen in Lp.
              pose proof (zlen_range 0 k ltac:(lia)) as Lr. unfold zlen in Lr. lia.
            * rewrite zlen_all. eapply is_pivots_valid. apply HP. eapply get_Some_In; eauto.
            * rewrite zlen_all. apply pivots_valid; lia.
          + intros j' Hj'.
            assert (0 <= j' < k)%Z.
            { unfold zlen in Hj'. rewrite fy_length in Hj' by (rewrite zlen_all; apply pivots_valid; lia). rewrite map_length in Hj'.
              pose proof (zlen_range 0 k ltac:(lia)) as Lr. unfold zlen in Lr. lia. }
            change (fy (range 0 n) (map (pivot (gt t) (counter st) (key st) n k i) (range 0 k))) with (sample (gt t) (counter st) (key st) n k i).
            rewrite <- (upd_block (gt t) _ _ _ _ _ _ _ i j' U) by lia. rewrite (target_at i j' p G) by lia. reflexivity. }
      pose proof (pivot_at_block i j p G Hj) as Gp. rewrite <- Em in Gp. rewrite get_map, get_range in Gp by lia. cbn in Gp. congruence.
    - symmetry. apply not_true_is_false. intros T. apply N. rewrite forallb_forall in T. apply list_ext_get.
      + rewrite Lo. unfold target. rewrite (zlen_concat_blocks _ k); [rewrite zlen_map; reflexivity|].
        intros s Hin. apply in_map_iff in Hin as (q & <- & Hq). now apply fy_len.
      + intros q Hq. rewrite Lo in Hq. destruct (split_index q Hq) as (i & j & -> & Hi & Hj). destruct (get_lt Ps i Hi) as [p G].
        rewrite (target_at i j p G Hj). rewrite (upd_block (gt t) _ _ _ _ _ _ _ i j U) by lia. f_equal. apply Eq; [exact G|].
        intros j' Hj'. rewrite (pivot_at_block i j' p G Hj'). rewrite pivot_tape by auto. f_equal.
        pose proof (block_index k i j' r Hj' Hi) as Hb'. specialize (T _ (proj2 (in_range _ _ _) Hb')). apply Z.eqb_eq in T. rewrite <- T.
        destruct (div_mod_pair k i j' Hj') as [_ ->]. reflexivity.
  Qed.

  Lemma joint_probability W : (0 < W)%Z -> (n <= 2 ^ W)%Z ->
    let p := probability (tapes (Z.to_nat (r * k * L)) (range 0 (2 ^ W))) good in
    let u := / falling n k ^ Z.to_nat r in
    let e := IZR n / IZR (2 ^ W) in
    u * (1 - e) ^ Z.to_nat (r * k) <= p <= u * (1 + e) ^ Z.to_nat (r * k).
  Proof.
    intros HW Hn p u e. pose proof sizes_kn as Hkn. destruct Hg as [HL _ _].
    assert (Hrk : (0 <= r * k)%Z) by (apply Z.mul_nonneg_nonneg; [apply zlen_nonneg|lia]).
    assert (Ep : p = Rprod (map (fun q => probability (range 0 (2 ^ W)) (fun w => w mod (n - q mod k) =? pivot_at q)%Z) (range 0 (r * k)))).
    { unfold p, good. apply (probability_all (range 0 (2 ^ W)) (Z.to_nat (r * k * L)) 0%Z (fun q => Z.to_nat (q * L)) (fun q w => w mod (n - q mod k) =? pivot_at q)%Z).
      - apply words_nonempty. exact HW.
      - intros q Hq. apply in_range in Hq. assert (q * L < r * k * L)%Z by (apply Z.mul_lt_mono_pos_r; lia).
        assert (0 <= q * L)%Z by (apply Z.mul_nonneg_nonneg; lia). lia.
      - apply NoDup_map_inj; [|apply NoDup_range]. intros x y Hx Hy E. apply in_range in Hx, Hy.
        assert (0 <= x * L)%Z by (apply Z.mul_nonneg_nonneg; lia). assert (0 <= y * L)%Z by (apply Z.mul_nonneg_nonneg; lia).
        apply (Z.mul_reg_r _ _ L); lia. }
    assert (He : 0 <= e <= 1).
    { unfold e. assert (0 < IZR (2 ^ W)) by (apply IZR_lt; lia). split.
      - apply Rmult_le_pos; [apply IZR_le; lia|]. left. now apply Rinv_0_lt_compat.
      - apply (Rmult_le_reg_r (IZR (2 ^ W))); [assumption|]. unfold Rdiv. rewrite Rmult_assoc, Rinv_l by lra. rewrite Rmult_1_l, Rmult_1_r. apply IZR_le. exact Hn. }
    assert (Hq : forall q, In q (range 0 (r * k)) ->
      0 < / IZR (n - q mod k) /\
      / IZR (n - q mod k) * (1 - e) <= probability (range 0 (2 ^ W)) (fun w => w mod (n - q mod k) =? pivot_at q)%Z <= / IZR (n - q mod k) * (1 + e)).
    { intros q Hq. apply in_range in Hq. pose proof (Z.mod_pos_bound q k Hk). split; [apply Rinv_0_lt_compat, IZR_lt; lia|].
      apply residue_probability; try lia. destruct (split_index q Hq) as (i & j & -> & Hi & Hj). destruct (get_lt Ps i Hi) as [pp G].
      destruct (div_mod_pair k i j Hj) as [_ ->].
      apply (proj2 (HP pp ltac:(eapply get_Some_In; eauto)) j). apply pivot_at_block; assumption. }
    assert (Eb : forall x, Rprod (map (fun q => / IZR (n - q mod k) * x) (range 0 (r * k))) = u * x ^ Z.to_nat (r * k)).
    { intros x. rewrite Rprod_mult, Rprod_const, Rprod_inv, falling_blocks by (try apply zlen_nonneg; lia). unfold u.
      f_equal. f_equal. pose proof (zlen_range 0 (r * k) ltac:(lia)) as Z. unfold zlen in Z at 1. lia. }
    rewrite Ep, <- !Eb. clear Ep Eb p. split; apply Rprod_le; intros q Hin; destruct (Hq q Hin) as (H0 & H1 & H2); split; try assumption.
    - apply Rmult_le_pos; lra.
    - apply Rle_trans with (2 := H1). apply Rmult_le_pos; lra.
  Qed.
End Joint.
