From Verif Require Import Base Spec Interleave RngModel DenseModel DenseSpec DenseProofs DenseProofs2 DenseProofs3 SparseSkopModel SparseSpec
  IsoSpec IsoProofs PropsIso StatSpec.
From Coq Require Import Lra.
Local Open Scope R_scope.

(** ** One and two positions of a tape *)
Lemma average_one {A} (U : list A) n p d (f : A -> R) : (p < n)%nat -> U <> [] ->
  average (tapes n U) (fun t => f (nth p t d)) = average U f.
Proof.
  intros Hp HU. unfold average. pose proof (resample_value U n p f d Hp HU) as E. pose proof (tapes_pos n U HU) as PT.
  assert (0 < INR (length U)) as PU by (apply lt_0_INR; destruct U; [congruence|cbn; lia]).
  apply (Rmult_eq_reg_l (INR (length U) * INR (length (tapes n U)))); [|apply Rmult_integral_contrapositive; lra].
  replace (INR (length U) * INR (length (tapes n U)) * (Rsum (map f U) / INR (length U))) with (INR (length (tapes n U)) * Rsum (map f U)) by (field; lra).
  rewrite <- E. field. lra.
Qed.
Lemma average_two {A} (U : list A) n p q d (f h : A -> R) : (p < n)%nat -> (q < n)%nat -> p <> q -> U <> [] ->
  average (tapes n U) (fun t => f (nth p t d) * h (nth q t d)) = average U f * average U h.
Proof.
  intros Hp Hq N HU. rewrite <- (average_one U n q d h Hq HU). unfold average.
  pose proof (resample U n p (fun t => f (nth p t d) * h (nth q t d)) Hp) as E.
  rewrite (Rsum_ext (fun t => Rsum (map _ U)) (fun t => Rsum (map f U) * h (nth q t d))) in E.
  - rewrite Rsum_scal in E. pose proof (tapes_pos n U HU) as PT.
    assert (0 < INR (length U)) as PU by (apply lt_0_INR; destruct U; [congruence|cbn; lia]).
    apply (Rmult_eq_reg_l (INR (length U))); [|lra]. unfold Rdiv. rewrite <- Rmult_assoc, E. field. lra.
  - intros t Ht. apply tapes_len in Ht. rewrite Rmult_comm, <- Rsum_scal. apply Rsum_ext. intros u _.
    rewrite nth_set_eq by lia. rewrite nth_set_ne by congruence. lra.
Qed.
Lemma average_sum {A B} (l : list A) (f : B -> A -> R) (r : list B) :
  average l (fun t => Rsum (map (fun i => f i t) r)) = Rsum (map (fun i => average l (f i)) r).
Proof.
  unfold average. rewrite (Rsum_swap (fun t i => f i t) l r). unfold Rdiv. rewrite Rmult_comm, <- Rsum_scal. apply Rsum_ext. intros i _. apply Rmult_comm.
Qed.
Lemma average_ext {A} (l : list A) f h : (forall t, In t l -> f t = h t) -> average l f = average l h.
Proof. intros H. unfold average. f_equal. now apply Rsum_ext. Qed.
Lemma average_const_mul {A} (l : list A) c f : average l (fun t => c * f t) = c * average l f.
Proof. unfold average. rewrite Rsum_scal. unfold Rdiv. lra. Qed.

Lemma skop_layout {K W T} (env : dense_env K W T) D seed X : mk_dense_skop env D seed = Ok X -> ds_layout X = dd_layout D.
Proof. unfold mk_dense_skop. intros H. apply bind_Ok in H as [n [_ E]]. injection E as <-. reflexivity. Qed.
Lemma fill_layout {K W T} (cast : W -> T) (env : dense_env K W T) sched X X' :
  fill_dense_skop cast env sched X = Ok X' -> ds_layout X' = ds_layout X.
Proof.
  unfold fill_dense_skop. destruct (match ds_buff X with Some _ => _ | None => _ end) as [b|]; [|discriminate].
  intros H. apply bind_Ok in H as [[b' st] [_ E]]. injection E as <-. reflexivity.
Qed.

Section DenseIso.
  Context {K W T : Type}.
  Variable cast : W -> T.
  Variable toR : T -> R.
  Variable env : dense_env K W T.
  Variable sched : schedule T.
  Variable D : dense_dist.
  Variable seed : rng_state K.
  Hypothesis Hs : valid_schedule sched.
  Hypothesis We : wf_env env.
  Hypothesis HD : valid_dist D.
  Notation g := (env_gen env (dd_family D)).
  Notation L := (g_len g).
  Hypothesis Hsz : size_ok D L.
  Hypothesis Hc : (0 <= counter seed < 2 ^ g_bits g)%Z.
  Notation NB := (dd_minor D * ceil_div (dd_major D) L)%Z.
  Hypothesis Hb : (NB <= 2 ^ g_bits g)%Z.
  Hypothesis Hgl : g_len (env_gauss env) = g_len (env_unif env).
  Variable dflt : list W.
  Hypothesis Hd : zlen dflt = L.
  Variable w0 : W.
  Variable Bs : list (list W).
  Hypothesis HB : forall b, In b Bs -> zlen b = L.
  Hypothesis HBs : Bs <> [].
  Definition value (w : W) : R := toR (family_map env (dd_family D) (cast w)).
  Definition lane (l : Z) (b : list W) : R := value (nth (Z.to_nat l) b w0).
  Notation draws := (tapes (Z.to_nat NB) Bs).
  Notation E t := (with_blocks env seed dflt t).

  Lemma L_both f : g_len (env_gen env f) = L.
  Proof. destruct f, (dd_family D); cbn; congruence. Qed.
  Lemma with_blocks_wf t : In t draws -> wf_env (E t).
  Proof.
    intros Ht. assert (F : forall n, zlen (nth n t dflt) = L).
    { intros n. destruct (nth_in_or_default n t dflt) as [H|H]; [|rewrite H; exact Hd]. apply HB. eapply tapes_in; eauto. }
    destruct We as [[A1 A2 A3] [B1 B2 B3]].
    pose proof (L_both Gaussian) as LG. pose proof (L_both Uniform) as LU. cbn in LG, LU.
    split; (split; [assumption|assumption|intros c k; cbn; rewrite F; congruence]).
  Qed.
  Lemma gen_len t f : g_len (env_gen (E t) f) = g_len (env_gen env f). Proof. destruct f; reflexivity. Qed.
  Lemma gen_bits t f : g_bits (env_gen (E t) f) = g_bits (env_gen env f). Proof. destruct f; reflexivity. Qed.

  Lemma sampled_entry_value t i j : In t draws -> (0 <= i < dd_rows D)%Z -> (0 <= j < dd_cols D)%Z ->
    dense_sampled cast toR (E t) sched D seed i j =
    lane (snd (entry_block D L i j)) (nth (Z.to_nat (fst (entry_block D L i j))) t dflt).
  Proof.
    intros Ht Hi Hj. pose proof (with_blocks_wf t Ht) as Wt. unfold dense_sampled.
    destruct (valid_dist_pos D HD) as [P1 [P2 _]].
    assert (Hsz' : size_ok D (g_len (env_gen (E t) (dd_family D)))) by (rewrite gen_len; exact Hsz).
    destruct (mk_dense_skop (E t) D seed) as [X| |] eqn:EX.
    2,3: exfalso; unfold mk_dense_skop in EX; rewrite window_state_full in EX by auto; discriminate.
    cbn [bind]. destruct (skop_fill_spec cast (E t) sched D seed X Hs Wt HD Hsz' EX) as (S' & EF & HdS & _ & _ & G).
    rewrite EF. specialize (G i j Hi Hj). unfold skop_mat in G. rewrite HdS in G.
    rewrite (fill_layout _ _ _ _ _ EF), (skop_layout _ _ _ _ EX) in G |- *.
    assert (HL : dd_major D = min_ld (dd_layout D) (dd_rows D) (dd_cols D)).
    { destruct HD as (nr & nc & fam & ax & H). apply mk_dense_dist_inv in H as (_ & _ & -> & -> & _ & _ & _ & -> & _). reflexivity. }
    rewrite HL. pose proof (entry_block_range D L i j HD ltac:(destruct (env_gen_wf env (dd_family D) We); lia) Hi Hj) as [R1 R2].
    unfold dense_entry in G. rewrite gen_len, gen_bits in G.
    destruct (entry_block D L i j) as [blk ln]. cbn [fst snd] in *.
    assert (GF : g_fun (env_gen (E t) (dd_family D)) ((counter seed + blk) mod 2 ^ g_bits g) (key seed) = nth (Z.to_nat blk) t dflt).
    { assert (Q : (((counter seed + blk) mod 2 ^ g_bits g - counter seed) mod 2 ^ g_bits g = blk)%Z).
      { rewrite Zminus_mod_idemp_l. replace (counter seed + blk - counter seed)%Z with blk by lia. apply Z.mod_small. lia. }
      destruct (dd_family D); cbn in *; rewrite Q; reflexivity. }
    rewrite GF in G.
    assert (Lb : zlen (nth (Z.to_nat blk) t dflt) = L).
    { destruct (nth_in_or_default (Z.to_nat blk) t dflt) as [H|H]; [|rewrite H; exact Hd]. apply HB. eapply tapes_in; eauto. }
    destruct (ds_buff S') as [b|].
    - rewrite G. destruct (get_lt (nth (Z.to_nat blk) t dflt) ln) as [w Gw]; [rewrite Lb; exact R2|]. rewrite Gw. cbn [option_map].
      unfold lane, value. replace (nth (Z.to_nat ln) (nth (Z.to_nat blk) t dflt) w0) with w; [destruct (dd_family D); reflexivity|].
      symmetry. unfold get in Gw. destruct (Z.ltb_spec ln 0); [lia|]. apply nth_error_nth. exact Gw.
    - destruct (get_lt (nth (Z.to_nat blk) t dflt) ln) as [w Gw]; [rewrite Lb; exact R2|]. rewrite Gw in G. discriminate.
  Qed.

  (** Moments of the lanes of a block. *)
  Variables m1 m2 : R.
  Hypothesis M1 : forall l, (0 <= l < L)%Z -> average Bs (lane l) = m1.
  Hypothesis M2 : forall l, (0 <= l < L)%Z -> average Bs (fun b => lane l b * lane l b) = m2.
  Hypothesis M11 : forall l l', (0 <= l < L)%Z -> (0 <= l' < L)%Z -> l <> l' -> average Bs (fun b => lane l b * lane l' b) = m1 * m1.

  Lemma product_average i j i' j' : (0 <= i < dd_rows D)%Z -> (0 <= j < dd_cols D)%Z -> (0 <= i' < dd_rows D)%Z -> (0 <= j' < dd_cols D)%Z ->
    average draws (fun t => dense_sampled cast toR (E t) sched D seed i j * dense_sampled cast toR (E t) sched D seed i' j') =
    if (i =? i')%Z && (j =? j')%Z then m2 else m1 * m1.
  Proof.
    intros Hi Hj Hi' Hj'.
    rewrite (average_ext _ _ (fun t => lane (snd (entry_block D L i j)) (nth (Z.to_nat (fst (entry_block D L i j))) t dflt) *
                                       lane (snd (entry_block D L i' j')) (nth (Z.to_nat (fst (entry_block D L i' j'))) t dflt)))
      by (intros t Ht; rewrite !sampled_entry_value by assumption; reflexivity).
    assert (HL : (2 <= L)%Z) by (destruct (env_gen_wf env (dd_family D) We); lia).
    pose proof (entry_block_range D L i j HD HL Hi Hj) as [R1 R2].
    pose proof (entry_block_range D L i' j' HD HL Hi' Hj') as [R1' R2'].
    pose proof (entry_block_inj D L i j i' j' HD HL Hi Hj Hi' Hj') as Inj.
    assert (Same : ((i =? i')%Z && (j =? j')%Z = true) -> entry_block D L i j = entry_block D L i' j').
    { intros H. apply andb_prop in H as [H1 H2]. apply Z.eqb_eq in H1, H2. congruence. }
    destruct (entry_block D L i j) as [blk ln], (entry_block D L i' j') as [blk' ln']. cbn [fst snd] in *.
    destruct (Z.eq_dec blk blk') as [<-|N].
    - rewrite (average_one Bs (Z.to_nat NB) (Z.to_nat blk) dflt (fun b => lane ln b * lane ln' b)) by (try assumption; lia).
      destruct ((i =? i')%Z && (j =? j')%Z) eqn:Eq.
      + injection (Same eq_refl) as <-. now apply M2.
      + apply M11; auto. intros <-. destruct (Inj eq_refl) as [-> ->]. rewrite !Z.eqb_refl in Eq. discriminate.
    - rewrite (average_two Bs (Z.to_nat NB) (Z.to_nat blk) (Z.to_nat blk') dflt (lane ln) (lane ln')) by (try assumption; lia).
      rewrite !M1 by assumption. destruct ((i =? i')%Z && (j =? j')%Z) eqn:Eq; [|reflexivity]. specialize (Same eq_refl). congruence.
  Qed.

  Lemma gram_cols_average a b : (0 <= a < dd_cols D)%Z -> (0 <= b < dd_cols D)%Z ->
    average draws (fun t => gram_cols (dd_rows D) (dense_sampled cast toR (E t) sched D seed) a b) =
    IZR (dd_rows D) * (if (a =? b)%Z then m2 else m1 * m1).
  Proof.
    intros Ha Hb'. destruct (valid_dist_pos D HD) as [P1 [P2 _]]. unfold gram_cols.
    rewrite (average_sum draws (fun r t => dense_sampled cast toR (E t) sched D seed r a * dense_sampled cast toR (E t) sched D seed r b)).
    rewrite (Rsum_ext _ (fun _ => if (a =? b)%Z then m2 else m1 * m1)).
    - rewrite Rsum_const. f_equal. rewrite INR_IZR_INZ. f_equal. fold (zlen (range 0 (dd_rows D))). rewrite zlen_range; lia.
    - intros r Hr. apply in_range in Hr. rewrite product_average by assumption. rewrite Z.eqb_refl. reflexivity.
  Qed.
  Lemma gram_rows_average a b : (0 <= a < dd_rows D)%Z -> (0 <= b < dd_rows D)%Z ->
    average draws (fun t => gram_rows (dd_cols D) (dense_sampled cast toR (E t) sched D seed) a b) =
    IZR (dd_cols D) * (if (a =? b)%Z then m2 else m1 * m1).
  Proof.
    intros Ha Hb'. destruct (valid_dist_pos D HD) as [P1 [P2 _]]. unfold gram_rows.
    rewrite (average_sum draws (fun c t => dense_sampled cast toR (E t) sched D seed a c * dense_sampled cast toR (E t) sched D seed b c)).
    rewrite (Rsum_ext _ (fun _ => if (a =? b)%Z then m2 else m1 * m1)).
    - rewrite Rsum_const. f_equal. rewrite INR_IZR_INZ. f_equal. fold (zlen (range 0 (dd_cols D))). rewrite zlen_range; lia.
    - intros r Hr. apply in_range in Hr. rewrite product_average by assumption. rewrite Z.eqb_refl, andb_true_r. reflexivity.
  Qed.
End DenseIso.
