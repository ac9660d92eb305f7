(** The Gram matrix of a dense operator from bounds on the moments of the lanes of a block. *)
From Coq Require Import ZArith Reals Lra Psatz.
From Verif Require Import Base Spec Interleave RngModel DenseModel DenseSpec DenseProofs DenseProofs2 DenseProofs3 SparseSkopModel SparseSpec PropsFloat
  IsoSpec IsoProofs PropsIso StatSpec DenseIsoProofs DenseIsoProofs2 BoxModel BoxSpec BoxProofs BoxProofs2.
Local Open Scope R_scope.

Lemma Rsum_near {A} (l : list A) (f : A -> R) c e : (forall x, In x l -> Rabs (f x - c) <= e) -> Rabs (Rsum (map f l) - INR (length l) * c) <= INR (length l) * e.
Proof.
  intros H. induction l as [|x l IH]; [cbn; rewrite !Rmult_0_l, Rminus_0_r, Rabs_R0; lra|]. cbn [map Rsum length]. rewrite S_INR.
  replace (f x + Rsum (map f l) - (INR (length l) + 1) * c) with ((f x - c) + (Rsum (map f l) - INR (length l) * c)) by ring.
  eapply Rle_trans; [apply Rabs_triang|]. specialize (IH (fun y Hy => H y (or_intror Hy))). specialize (H x (or_introl eq_refl)). lra.
Qed.

Section GramBound.
  Context {K W T : Type}.
  Variables (cast : W -> T) (toR : T -> R) (env : dense_env K W T) (sched : schedule T).
  Variables (nr nc : Z) (fam : DenseModel.family) (D : dense_dist) (seed : rng_state K).
  Hypothesis Hs : valid_schedule sched.
  Hypothesis HD : mk_dense_dist nr nc fam Long = Ok D.
  Hypothesis HF : dense_fits env D seed.
  Notation L := (g_len (env_gen env fam)).
  Variables (dflt : list W) (w0 : W) (Bs : list (list W)).
  Hypothesis Hd : zlen dflt = L.
  Hypothesis HB : forall b, In b Bs -> zlen b = L.
  Hypothesis HBs : Bs <> [].
  Notation ln l b := (toR (family_map env fam (cast (nth (Z.to_nat l) b w0)))).
  Variables v e1 e2 e11 : R.
  Hypothesis M1 : forall l, (0 <= l < L)%Z -> Rabs (average Bs (fun b => ln l b)) <= e1.
  Hypothesis M2 : forall l, (0 <= l < L)%Z -> Rabs (average Bs (fun b => ln l b * ln l b) - v) <= e2.
  Hypothesis M11 : forall l l', (0 <= l < L)%Z -> (0 <= l' < L)%Z -> l <> l' -> Rabs (average Bs (fun b => ln l b * ln l' b)) <= e11.
  Hypothesis E1 : e1 * e1 <= e11.
  Notation S t := (dense_sampled cast toR (with_blocks env seed dflt t) sched D seed).
  Notation draws := (tapes (Z.to_nat (dense_blocks D L)) Bs).

  Lemma product_near i j i' j' : (0 <= i < nr)%Z -> (0 <= j < nc)%Z -> (0 <= i' < nr)%Z -> (0 <= j' < nc)%Z ->
    Rabs (average draws (fun t => S t i j * S t i' j') - (if (i =? i')%Z && (j =? j')%Z then v else 0)) <=
    if (i =? i')%Z && (j =? j')%Z then e2 else e11.
  Proof.
    intros Hi Hj Hi' Hj'. destruct HF as (We & Hgl & Hsz & Hc & Hn).
    assert (V : valid_dist D) by (exists nr, nc, fam, Long; exact HD).
    pose proof (mk_dense_dist_inv _ _ _ _ _ HD) as (P1 & P2 & ER & EC & _ & EF & _).
    pose proof (sampled_entry_value cast toR env sched D seed Hs We V) as SV. unfold lane, value in SV. unfold dense_blocks in *. rewrite EF, ER, EC in *.
    specialize (SV Hsz Hc Hn Hgl dflt Hd w0 Bs HB).
    rewrite (average_ext _ _ (fun t => ln (snd (entry_block D L i j)) (nth (Z.to_nat (fst (entry_block D L i j))) t dflt) *
                                       ln (snd (entry_block D L i' j')) (nth (Z.to_nat (fst (entry_block D L i' j'))) t dflt)))
      by (intros t Ht; rewrite !SV by assumption; reflexivity).
    assert (HL : (2 <= L)%Z) by (destruct (env_gen_wf env fam We); lia).
    pose proof (entry_block_range D L i j V HL ltac:(rewrite ER; exact Hi) ltac:(rewrite EC; exact Hj)) as [R1 R2].
    pose proof (entry_block_range D L i' j' V HL ltac:(rewrite ER; exact Hi') ltac:(rewrite EC; exact Hj')) as [R1' R2'].
    pose proof (entry_block_inj D L i j i' j' V HL ltac:(rewrite ER; exact Hi) ltac:(rewrite EC; exact Hj) ltac:(rewrite ER; exact Hi') ltac:(rewrite EC; exact Hj')) as Inj.
    assert (Same : ((i =? i')%Z && (j =? j')%Z = true) -> entry_block D L i j = entry_block D L i' j').
    { intros H. apply andb_prop in H as [H1 H2]. apply Z.eqb_eq in H1, H2. congruence. }
    destruct (entry_block D L i j) as [blk k], (entry_block D L i' j') as [blk' k']. cbn [fst snd] in *.
    destruct (Z.eq_dec blk blk') as [<-|N].
    - rewrite (average_one Bs _ (Z.to_nat blk) dflt (fun b => ln k b * ln k' b)) by (try assumption; lia).
      destruct ((i =? i')%Z && (j =? j')%Z) eqn:Eq.
      + injection (Same eq_refl) as <-. now apply M2.
      + rewrite Rminus_0_r. apply M11; auto. intros <-. destruct (Inj eq_refl) as [-> ->]. rewrite !Z.eqb_refl in Eq. discriminate.
    - rewrite (average_two Bs _ (Z.to_nat blk) (Z.to_nat blk') dflt (fun b => ln k b) (fun b => ln k' b)) by (try assumption; lia).
      destruct ((i =? i')%Z && (j =? j')%Z) eqn:Eq; [specialize (Same eq_refl); congruence|]. rewrite Rminus_0_r, Rabs_mult.
      eapply Rle_trans; [|exact E1]. apply Rmult_le_compat; try apply Rabs_pos; now apply M1.
  Qed.

  Lemma gram_near a b : (0 <= a < Z.max nr nc)%Z -> (0 <= b < Z.max nr nc)%Z ->
    Rabs (average draws (fun t => dense_iso2 D * long_gram D (S t) a b) - v * delta a b) <= if (a =? b)%Z then e2 else e11.
  Proof.
    intros Ha Hb. pose proof (mk_dense_dist_inv _ _ _ _ _ HD) as (P1 & P2 & ER & EC & _).
    assert (EI : dd_iso_inv2 D = Z.min nr nc).
    { clear - HD P1 P2. unfold mk_dense_dist in HD. destruct (nr >? 0)%Z; [|discriminate]. destruct (nc >? 0)%Z; [|discriminate]. injection HD as <-. reflexivity. }
    rewrite average_const_mul. unfold long_gram, dense_iso2. rewrite EI, ER, EC.
    assert (G : Rabs (average draws (fun t => if (nr <=? nc)%Z then gram_cols nr (S t) a b else gram_rows nc (S t) a b) -
       IZR (Z.min nr nc) * (v * delta a b)) <= IZR (Z.min nr nc) * (if (a =? b)%Z then e2 else e11)).
    { assert (LR : forall n, (0 <= n)%Z -> INR (length (range 0 n)) = IZR n).
      { intros n H. rewrite INR_IZR_INZ. f_equal. fold (zlen (range 0 n)). rewrite zlen_range; lia. }
      destruct (Z.leb_spec nr nc).
      - rewrite Z.min_l by lia. unfold gram_cols. rewrite (average_sum draws (fun r t => S t r a * S t r b)).
        rewrite <- (LR nr) by lia. apply Rsum_near. intros r Hr. apply in_range in Hr.
        pose proof (product_near r a r b ltac:(lia) ltac:(lia) ltac:(lia) ltac:(lia)) as P. rewrite Z.eqb_refl in P. cbn [andb] in P.
        unfold delta. destruct (a =? b)%Z; [rewrite Rmult_1_r|rewrite Rmult_0_r]; exact P.
      - rewrite Z.min_r by lia. unfold gram_rows. rewrite (average_sum draws (fun c t => S t a c * S t b c)).
        rewrite <- (LR nc) by lia. apply Rsum_near. intros r Hr. apply in_range in Hr.
        pose proof (product_near a r b r ltac:(lia) ltac:(lia) ltac:(lia) ltac:(lia)) as P. rewrite Z.eqb_refl, andb_true_r in P.
        unfold delta. destruct (a =? b)%Z; [rewrite Rmult_1_r|rewrite Rmult_0_r]; exact P. }
    assert (PN : 0 < IZR (Z.min nr nc)) by (apply IZR_lt; lia).
    set (A := average _ _) in *. clearbody A. set (n := IZR (Z.min nr nc)) in *. clearbody n. set (x := v * delta a b) in *. clearbody x. set (e := if (a =? b)%Z then e2 else e11) in *. clearbody e.
    clear - G PN. replace (/ n * A - x) with (/ n * (A - n * x)) by (field; lra).
    rewrite Rabs_mult, Rabs_pos_eq by (left; now apply Rinv_0_lt_compat).
    apply (Rmult_le_reg_l n); [exact PN|]. rewrite <- Rmult_assoc, Rinv_r, Rmult_1_l by lra. exact G.
  Qed.
End GramBound.
