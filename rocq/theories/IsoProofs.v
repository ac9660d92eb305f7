From Verif Require Import Base Spec RngModel DenseModel DenseSpec SparseSkopModel FySpec FyProofs SparseSpec LasoProofs SparseProofs SparseProofs2 IsoSpec.
From Coq Require Import Lra Permutation.
Local Open Scope R_scope.

(** ** Sums *)
Lemma Rsum_app l1 l2 : Rsum (l1 ++ l2) = Rsum l1 + Rsum l2.
Proof. induction l1 as [|x l IH]; cbn; [lra|]. rewrite IH. lra. Qed.
Lemma Rsum_ext {A} (f g : A -> R) l : (forall x, In x l -> f x = g x) -> Rsum (map f l) = Rsum (map g l).
Proof. intros H. f_equal. apply map_ext_in. exact H. Qed.
Lemma Rsum_zero {A} (f : A -> R) l : (forall x, In x l -> f x = 0) -> Rsum (map f l) = 0.
Proof. induction l as [|x l IH]; cbn; intros H; [reflexivity|]. rewrite (H x), IH; auto; lra. Qed.
Lemma Rsum_plus {A} (f g : A -> R) l : Rsum (map (fun x => f x + g x) l) = Rsum (map f l) + Rsum (map g l).
Proof. induction l as [|x l IH]; cbn; [lra|]. rewrite IH. lra. Qed.
Lemma Rsum_scal {A} c (f : A -> R) l : Rsum (map (fun x => c * f x) l) = c * Rsum (map f l).
Proof. induction l as [|x l IH]; cbn; [lra|]. rewrite IH. lra. Qed.
Lemma Rsum_const {A} c (l : list A) : Rsum (map (fun _ => c) l) = INR (length l) * c.
Proof. induction l as [|x l IH]; [cbn; lra|]. cbn [map Rsum length]. rewrite IH, S_INR. lra. Qed.
Lemma Rsum_swap {A B} (f : A -> B -> R) la lb :
  Rsum (map (fun a => Rsum (map (f a) lb)) la) = Rsum (map (fun b => Rsum (map (fun a => f a b) la)) lb).
Proof.
  induction la as [|a la IH].
  - cbn. symmetry. apply Rsum_zero. reflexivity.
  - cbn [map Rsum]. rewrite IH, <- Rsum_plus. reflexivity.
Qed.
Lemma Rsum_flat_map {A B} (f : B -> R) (h : A -> list B) l :
  Rsum (map f (flat_map h l)) = Rsum (map (fun a => Rsum (map f (h a))) l).
Proof. induction l as [|a l IH]; cbn; [reflexivity|]. rewrite map_app, Rsum_app, IH. reflexivity. Qed.
Lemma Rsum_one {A} (f : A -> R) l x : NoDup l -> In x l -> (forall y, In y l -> y <> x -> f y = 0) -> Rsum (map f l) = f x.
Proof.
  intros Nd Hin H. apply in_split in Hin as [l1 [l2 ->]]. apply NoDup_remove in Nd as [_ Nd].
  rewrite map_app, Rsum_app. cbn [map Rsum].
  rewrite (Rsum_zero f l1), (Rsum_zero f l2); [lra| |]; intros y Hy.
  - apply H; [apply in_or_app; right; now right|]. intros ->. apply Nd, in_or_app. now right.
  - apply H; [apply in_or_app; now left|]. intros ->. apply Nd, in_or_app. now left.
Qed.
Lemma Rsum_count {A} (P : A -> bool) l : Rsum (map (fun x => if P x then 1 else 0) l) = IZR (count P l).
Proof.
  unfold count, zlen. induction l as [|x l IH]; [reflexivity|]. cbn [map Rsum filter].
  rewrite IH. destruct (P x); cbn [length]; [|lra]. rewrite Nat2Z.inj_succ, succ_IZR. lra.
Qed.

(** ** Tapes *)
Lemma tapes_length {A} n (U : list A) : length (tapes n U) = (length U ^ n)%nat.
Proof.
  induction n as [|n IH]; [reflexivity|]. cbn [tapes Nat.pow]. rewrite <- IH. generalize (tapes n U). intros T. clear.
  induction U as [|u U IH]; [reflexivity|]. cbn [flat_map length]. rewrite app_length, map_length, IH. lia.
Qed.
Lemma tapes_len {A} n (U : list A) t : In t (tapes n U) -> length t = n.
Proof.
  revert t. induction n as [|n IH]; intros t H; cbn [tapes] in H; [destruct H as [<-|[]]; reflexivity|].
  apply in_flat_map in H as (u & _ & H). apply in_map_iff in H as (t' & <- & H). cbn. f_equal. auto.
Qed.
Lemma tapes_in {A} n (U : list A) t : In t (tapes n U) -> forall x, In x t -> In x U.
Proof.
  revert t. induction n as [|n IH]; intros t H x Hx; cbn [tapes] in H; [destruct H as [<-|[]]; destruct Hx|].
  apply in_flat_map in H as (u & Hu & H). apply in_map_iff in H as (t' & <- & H). destruct Hx as [<-|Hx]; eauto.
Qed.
(** Drawing one value again does not change a sum over all draws. *)
Lemma resample {A} (U : list A) n p (f : list A -> R) : (p < n)%nat ->
  INR (length U) * Rsum (map f (tapes n U)) = Rsum (map (fun t => Rsum (map (fun u => f (set_nth t p u)) U)) (tapes n U)).
Proof.
  revert p f. induction n as [|n IH]; intros p f Hp; [lia|]. cbn [tapes]. rewrite !Rsum_flat_map. destruct p as [|p].
  - symmetry. rewrite (Rsum_ext _ (fun _ => Rsum (map (fun u => Rsum (map f (map (cons u) (tapes n U)))) U))).
    + rewrite Rsum_const. reflexivity.
    + intros u _. rewrite map_map. rewrite (Rsum_ext _ (fun t => Rsum (map (fun v => f (v :: t)) U))) by reflexivity.
      rewrite Rsum_swap. apply Rsum_ext. intros v _. rewrite map_map. reflexivity.
  - rewrite <- Rsum_scal. apply Rsum_ext. intros u _. rewrite !map_map. rewrite (IH p (fun t => f (u :: t))) by lia. reflexivity.
Qed.
Lemma resample_zero {A} (U : list A) n p (f : list A -> R) : (p < n)%nat -> U <> [] ->
  (forall t, length t = n -> Rsum (map (fun u => f (set_nth t p u)) U) = 0) -> Rsum (map f (tapes n U)) = 0.
Proof.
  intros Hp HU H. pose proof (resample U n p f Hp) as E. rewrite (Rsum_zero (fun t => Rsum (map (fun u => f (set_nth t p u)) U))) in E by (intros t Ht; apply H; eapply tapes_len; eauto).
  apply Rmult_integral in E as [E|E]; [|exact E]. exfalso. apply HU. destruct U; [reflexivity|]. cbn [length] in E. rewrite S_INR in E.
  pose proof (pos_INR (length U)). lra.
Qed.
Lemma nth_set_eq {A} (t : list A) p u d : (p < length t)%nat -> nth p (set_nth t p u) d = u.
Proof. intros H. apply nth_error_nth. apply nth_error_set_nth_eq. exact H. Qed.
Lemma nth_set_ne {A} (t : list A) p q u d : p <> q -> nth q (set_nth t p u) d = nth q t d.
Proof.
  intros H. pose proof (nth_error_set_nth_ne t p q u H) as E. destruct (nth_error t q) as [x|] eqn:G.
  - rewrite (nth_error_nth _ _ d E), (nth_error_nth _ _ d G). reflexivity.
  - apply nth_error_None in E. apply nth_error_None in G. rewrite !nth_overflow by assumption. reflexivity.
Qed.
(** A factor that averages to zero and is independent of the rest. *)
Lemma odd_zero {A} (U : list A) n p d (sg : A -> R) (g : list A -> R) : (p < n)%nat -> U <> [] -> Rsum (map sg U) = 0 ->
  (forall t u, length t = n -> g (set_nth t p u) = g t) -> Rsum (map (fun t => sg (nth p t d) * g t) (tapes n U)) = 0.
Proof.
  intros Hp HU Hs Hg. apply (resample_zero U n p); auto. intros t Ht.
  rewrite (Rsum_ext _ (fun u => g t * sg u)).
  - rewrite Rsum_scal, Hs. lra.
  - intros u _. rewrite nth_set_eq by lia. rewrite Hg by exact Ht. lra.
Qed.
(** The average of a function of one value. *)
Lemma resample_value {A} (U : list A) n p (h : A -> R) d : (p < n)%nat -> U <> [] ->
  INR (length U) * Rsum (map (fun t => h (nth p t d)) (tapes n U)) = INR (length (tapes n U)) * Rsum (map h U).
Proof.
  intros Hp HU. rewrite (resample U n p) by exact Hp. rewrite <- Rsum_const. apply Rsum_ext. intros t Ht. apply Rsum_ext. intros u _.
  f_equal. apply nth_set_eq. rewrite (tapes_len _ _ _ Ht). exact Hp.
Qed.

Lemma alternating_sum n : Rsum (map (fun w => if w mod 2 =? 0 then 1 else -1) (zseq 0 (2 * n))) = 0.
Proof.
  assert (H : forall m lo, Rsum (map (fun w => if w mod 2 =? 0 then 1 else -1) (zseq (2 * lo) (2 * m))) = 0).
  { induction m as [|m IH]; intros lo; [reflexivity|]. replace (2 * S m)%nat with (S (S (2 * m))) by lia. cbn [zseq map Rsum].
    replace (2 * lo + 1 + 1)%Z with (2 * (lo + 1))%Z by lia. rewrite IH.
    replace ((2 * lo) mod 2)%Z with 0%Z by (rewrite Z.mul_comm, Z.mod_mul; lia).
    replace ((2 * lo + 1) mod 2)%Z with 1%Z by (rewrite Z.add_comm, Z.mul_comm, Z.mod_add; [reflexivity|lia]). cbn. lra. }
  apply (H n 0%Z).
Qed.
Lemma sign_words W : (0 < W)%Z -> Rsum (map (fun w => if w mod 2 =? 0 then 1 else -1) (range 0 (2 ^ W))) = 0.
Proof.
  intros HW. unfold range. replace (Z.to_nat (2 ^ W - 0)) with (2 * Z.to_nat (2 ^ (W - 1)))%nat; [apply alternating_sum|].
  replace W with (Z.succ (W - 1)) at 2 by lia. rewrite Z.pow_succ_r by lia. pose proof (Z.pow_nonneg 2 (W - 1)). lia.
Qed.

(** ** Reading the tape *)
Section Tape.
  Context {K W : Type}.
  Variable g : generator K W.
  Hypothesis Hg : wf_generator g.
  Lemma tape_gen_wf c0 d t : wf_generator (tape_gen g c0 d t).
  Proof. destruct Hg as [A B C]. split; cbn; auto. intros c k. unfold zlen. rewrite map_length. fold (zlen (range 0 (g_len g))). rewrite zlen_range by lia. lia. Qed.
  Lemma tape_block c0 d t (k : K) o l : (0 <= c0 < 2 ^ g_bits g)%Z -> (0 <= o < 2 ^ g_bits g)%Z -> (0 <= l < g_len g)%Z ->
    get (g_fun (tape_gen g c0 d t) ((c0 + o) mod 2 ^ g_bits g) k) l = Some (nth (Z.to_nat (o * g_len g + l)) t d).
  Proof.
    intros Hc Ho Hl. cbn. rewrite Zminus_mod_idemp_l. replace (c0 + o - c0)%Z with o by lia. rewrite Z.mod_small by exact Ho.
    rewrite get_map, get_range by lia. reflexivity.
  Qed.
End Tape.

Lemma sampled_entry_spec {K F} (env : sparse_env K F R) D seed r c :
  wf_senv env -> seed_ok env seed -> valid_sdist D -> sparse_size_ok env D ->
  sampled_entry env D seed r c = Rsum (sparse_entry env D seed r c).
Proof.
  intros We Hs HD Hz. unfold sampled_entry.
  destruct (fill_sparse_spec env We 0 0%Z (mk_sparse_skop env D seed)) as (S' & E & _ & _ & _ & _ & _ & _ & H); auto.
  { repeat split. }
  rewrite E. cbn [mk_sparse_skop ss_dist ss_seed] in H. specialize (H r c). unfold skop_values in H.
  destruct (ss_rows S') as [rows|], (ss_cols S') as [cols|], (ss_vals S') as [vals|]; rewrite <- H; reflexivity.
Qed.

(** ** Short axis *)
Section Short.
  Context {K F : Type}.
  Variable env : sparse_env K F R.
  Variable D : sparse_dist.
  Variable seed : rng_state K.
  Hypothesis We : wf_senv env.
  Hypothesis H1 : se_one env = 1.
  Hypothesis Hm1 : se_mone env = -1.
  Hypothesis HD : valid_sdist D.
  Hypothesis Hax : sd_axis D = Short.
  Hypothesis Hseed : seed_ok env seed.
  Hypothesis Hblocks : (sd_full_nnz D <= 2 ^ g_bits (se_raw env))%Z.
  Notation L := (g_len (se_raw env)).
  Notation k := (sd_vec_nnz D).
  Notation "'E' t" := (with_words env seed t) (at level 10, t at level 9).

  Lemma with_words_wf t : wf_senv (E t).
  Proof. destruct We as [A B C Dd Ee Ff Gg Hh]. split; auto. apply tape_gen_wf. exact A. Qed.
  Lemma word_tape t o l : (0 <= o < sd_full_nnz D)%Z -> (0 <= l < L)%Z ->
    raw_word (E t) seed o l = nth (Z.to_nat (o * L + l)) t 0%Z.
  Proof. intros Ho Hl. unfold raw_word. cbn [with_words se_raw]. change (g_bits (tape_gen (se_raw env) (counter seed) 0%Z t)) with (g_bits (se_raw env)).
    rewrite tape_block; auto; try lia. Qed.

  Definition hit t i j s : bool := match get (short_sample (E t) D seed i) j with Some x => x =? s | None => false end.
  Definition val t s i : R := Rsum (short_entry (E t) D seed s i).

  Lemma val_sum t s i : (0 <= i < sd_minor D)%Z ->
    val t s i = Rsum (map (fun j => if hit t i j s then short_sign (E t) D seed i j else 0) (range 0 k)).
  Proof.
    intros Hi. destruct (short_sample_facts (E t) D seed i HD) as (Ll & Nd & _). unfold val, short_entry.
    destruct (find _ (range 0 k)) as [j|] eqn:Ef.
    - apply find_some in Ef as [Hj Ej]. rewrite (Rsum_one _ _ j); [|apply NoDup_range|exact Hj|].
      + unfold hit. destruct (get _ j) as [x|]; [|discriminate]. rewrite Ej. cbn [Rsum]. lra.
      + intros j' Hj' Nj. unfold hit. destruct (get (short_sample (E t) D seed i) j') as [x|] eqn:G'; [|reflexivity].
        destruct (Z.eqb_spec x s) as [->|]; [|reflexivity]. exfalso. apply Nj.
        destruct (get (short_sample (E t) D seed i) j) as [y|] eqn:G; [|discriminate]. apply Z.eqb_eq in Ej. subst y.
        eapply get_inj_NoDup; eauto.
    - symmetry. apply Rsum_zero. intros j Hj. pose proof (find_none _ _ Ef j Hj) as N. cbn beta in N. unfold hit. rewrite N. reflexivity.
  Qed.

  Lemma block_lt i j : (0 <= i < sd_minor D)%Z -> (0 <= j < k)%Z -> (0 <= i * k + j < sd_full_nnz D)%Z.
  Proof.
    intros Hi Hj. destruct (valid_sdist_inv D HD) as (_ & _ & _ & -> & _ & _).
    assert ((i + 1) * k <= sd_minor D * k)%Z by (apply Z.mul_le_mono_nonneg_r; lia). assert (0 <= i * k)%Z by (apply Z.mul_nonneg_nonneg; lia). lia.
  Qed.
  Lemma L_ge : (2 <= L)%Z. Proof. destruct We as [[A _ _] _ _ _ _ _ _ _]. lia. Qed.

  Lemma pos_ne o o' l l' : (0 <= o)%Z -> (0 <= o')%Z -> (0 <= l < L)%Z -> (0 <= l' < L)%Z -> (o <> o' \/ l <> l') ->
    Z.to_nat (o * L + l) <> Z.to_nat (o' * L + l').
  Proof.
    intros Ho Ho' Hl Hl' N Eq. pose proof L_ge. assert (0 <= o * L)%Z by (apply Z.mul_nonneg_nonneg; lia). assert (0 <= o' * L)%Z by (apply Z.mul_nonneg_nonneg; lia).
    assert (Eq' : (o * L + l = o' * L + l')%Z) by lia. clear Eq.
    assert (o = o'). { assert (Q : ((o * L + l) / L = (o' * L + l') / L)%Z) by congruence. rewrite !Z.div_add_l, !(Z.div_small _ L) in Q by lia. lia. }
    subst o'. lia.
  Qed.

  (** Drawing the sign word of block o again. *)
  Definition sign_pos o : nat := Z.to_nat (o * L + 1).
  Lemma sample_keep t o u i : (0 <= i < sd_minor D)%Z -> (0 <= o)%Z ->
    short_sample (E (set_nth t (sign_pos o) u)) D seed i = short_sample (E t) D seed i.
  Proof.
    intros Hi Ho. unfold short_sample. f_equal. apply map_ext_in. intros j Hj. apply in_range in Hj. f_equal. pose proof L_ge. pose proof (block_lt i j Hi Hj).
    rewrite !word_tape by lia. apply nth_set_ne. apply pos_ne; lia.
  Qed.
  Lemma hit_keep t o u i j s : (0 <= i < sd_minor D)%Z -> (0 <= o)%Z -> hit (set_nth t (sign_pos o) u) i j s = hit t i j s.
  Proof. intros Hi Ho. unfold hit. rewrite sample_keep; auto. Qed.
  Lemma sign_keep t o u i j : (0 <= i < sd_minor D)%Z -> (0 <= j < k)%Z -> (0 <= o)%Z -> (o <> i * k + j)%Z ->
    short_sign (E (set_nth t (sign_pos o) u)) D seed i j = short_sign (E t) D seed i j.
  Proof.
    intros Hi Hj Ho N. unfold short_sign. pose proof L_ge. pose proof (block_lt i j Hi Hj). rewrite !word_tape by lia.
    unfold sign_pos. rewrite nth_set_ne; [reflexivity|]. apply pos_ne; lia.
  Qed.
  Lemma val_keep t o u i s : (0 <= i < sd_minor D)%Z -> (0 <= o)%Z -> (forall j, (0 <= j < k)%Z -> (o <> i * k + j)%Z) ->
    val (set_nth t (sign_pos o) u) s i = val t s i.
  Proof.
    intros Hi Ho N. rewrite !val_sum by exact Hi. apply Rsum_ext. intros j Hj. apply in_range in Hj. rewrite hit_keep by auto.
    rewrite sign_keep by auto. reflexivity.
  Qed.
  Lemma sign_value t i j : (0 <= i < sd_minor D)%Z -> (0 <= j < k)%Z ->
    short_sign (E t) D seed i j = (fun w => if w mod 2 =? 0 then 1 else -1) (nth (sign_pos (i * k + j)) t 0%Z).
  Proof.
    intros Hi Hj. unfold short_sign. pose proof L_ge. pose proof (block_lt i j Hi Hj). rewrite word_tape by lia. cbn [with_words se_one se_mone]. now rewrite H1, Hm1.
  Qed.

  Variable U : list Z.
  Hypothesis HU : U <> [].
  Hypothesis Hodd : Rsum (map (fun w => if w mod 2 =? 0 then 1 else -1) U) = 0.
  Notation n := (Z.to_nat (sd_full_nnz D * L)).

  Lemma off_diagonal s a b : (0 <= a < sd_minor D)%Z -> (0 <= b < sd_minor D)%Z -> a <> b ->
    Rsum (map (fun t => val t s a * val t s b) (tapes n U)) = 0.
  Proof.
    intros Ha Hb Nab. pose proof L_ge as HL.
    rewrite (Rsum_ext _ (fun t => Rsum (map (fun j => (fun w => if w mod 2 =? 0 then 1 else -1) (nth (sign_pos (a * k + j)) t 0%Z) *
                                                     ((if hit t a j s then 1 else 0) * val t s b)) (range 0 k)))).
    - rewrite Rsum_swap. apply Rsum_zero. intros j Hj. apply in_range in Hj. pose proof (block_lt a j Ha Hj) as Ho.
      apply (odd_zero U n (sign_pos (a * k + j)) 0%Z (fun w => if w mod 2 =? 0 then 1 else -1) (fun t => (if hit t a j s then 1 else 0) * val t s b)); auto.
      + unfold sign_pos. apply Z2Nat.inj_lt; [assert (0 <= (a * k + j) * L)%Z by (apply Z.mul_nonneg_nonneg; lia); lia|apply Z.mul_nonneg_nonneg; lia|].
        assert ((a * k + j + 1) * L <= sd_full_nnz D * L)%Z by (apply Z.mul_le_mono_nonneg_r; lia). lia.
      + intros t u _. rewrite hit_keep by (auto; lia). rewrite val_keep; auto; [lia|]. intros j' Hj' Eq.
        apply Nab. assert (Q : ((a * k + j) / k = (b * k + j') / k)%Z) by congruence. rewrite !Z.div_add_l, !(Z.div_small _ k) in Q by lia. lia.
    - intros t _. rewrite (val_sum t s a Ha). rewrite Rmult_comm, <- Rsum_scal. apply Rsum_ext. intros j Hj. apply in_range in Hj.
      rewrite <- sign_value by auto. destruct (hit t a j s); lra.
  Qed.

  Lemma diagonal t a : (0 <= a < sd_minor D)%Z -> Rsum (map (fun s => val t s a * val t s a) (range 0 (sd_major D))) = IZR k.
  Proof.
    intros Ha. destruct (short_sample_facts (E t) D seed a HD) as (Ll & Nd & Hin). destruct (valid_sdist_inv D HD) as (_ & _ & Hk & _).
    assert (Sq : forall s, val t s a * val t s a = Rsum (map (fun j => if hit t a j s then 1 else 0) (range 0 k))).
    { intros s. unfold val, short_entry. destruct (find _ (range 0 k)) as [j|] eqn:Ef.
      - apply find_some in Ef as [Hj Ej]. rewrite (Rsum_one _ (range 0 k) j); [|apply NoDup_range|exact Hj|].
        + unfold hit. destruct (get _ j) as [x|]; [|discriminate]. rewrite Ej. cbn [Rsum]. apply in_range in Hj. rewrite sign_value by auto.
          cbv beta. destruct (_ =? 0); lra.
        + intros j' Hj' Nj. unfold hit. destruct (get (short_sample (E t) D seed a) j') as [x|] eqn:G'; [|reflexivity].
          destruct (Z.eqb_spec x s) as [->|]; [|reflexivity]. exfalso. apply Nj.
          destruct (get (short_sample (E t) D seed a) j) as [y|] eqn:G; [|discriminate]. apply Z.eqb_eq in Ej. subst y. eapply get_inj_NoDup; eauto.
      - cbn [Rsum]. rewrite (Rsum_zero _ (range 0 k)); [lra|]. intros j Hj. pose proof (find_none _ _ Ef j Hj) as N. cbn beta in N. unfold hit. rewrite N. reflexivity. }
    rewrite (Rsum_ext _ _ _ (fun s _ => Sq s)). rewrite Rsum_swap. rewrite (Rsum_ext _ (fun _ => 1)).
    - rewrite Rsum_const. pose proof (zlen_range 0 k ltac:(lia)) as Z0. unfold zlen in Z0. rewrite INR_IZR_INZ, Z0. rewrite Z.sub_0_r. lra.
    - intros j Hj. apply in_range in Hj. destruct (get_lt (short_sample (E t) D seed a) j ltac:(lia)) as [x Hx].
      rewrite (Rsum_one _ _ x); [unfold hit; rewrite Hx, Z.eqb_refl; reflexivity|apply NoDup_range|apply in_range, Hin; eapply get_Some_In; eauto|].
      intros y _ Ny. unfold hit. rewrite Hx. destruct (Z.eqb_spec x y); [congruence|reflexivity].
  Qed.

  Lemma short_average a b : (0 <= a < sd_minor D)%Z -> (0 <= b < sd_minor D)%Z ->
    Rsum (map (fun t => Rsum (map (fun s => val t s a * val t s b) (range 0 (sd_major D)))) (tapes n U)) =
    INR (length (tapes n U)) * (IZR k * delta a b).
  Proof.
    intros Ha Hb. unfold delta. destruct (Z.eqb_spec a b) as [<-|N].
    - rewrite <- Rsum_const. apply Rsum_ext. intros t _. rewrite diagonal by auto. lra.
    - rewrite Rsum_swap. rewrite (Rsum_zero _ (range 0 (sd_major D))); [lra|]. intros s _. apply off_diagonal; auto.
  Qed.
End Short.
