(** boxmulall, pairs of words, and the Gram matrix of operators with pairwise dependent entries. *)
From Coq Require Import ZArith Reals Lra Psatz.
From Verif Require Import Base Spec Interleave RngModel DenseModel DenseSpec DenseProofs DenseProofs2 DenseProofs3 SparseSkopModel SparseSpec FyProofs PropsFloat
  IsoSpec IsoProofs PropsIso StatSpec DenseIsoProofs DenseIsoProofs2 BoxModel BoxSpec BoxProofs.

(** ** boxmulall in closed form *)
Section Closed.
  Context {W F : Type}.
  Variable bm : W -> W -> F * F.
  Variable junk : F.
  Fixpoint pairwise (ps : list (W * W)) : list F :=
    match ps with [] => [] | (a, b) :: ps => fst (bm a b) :: snd (bm a b) :: pairwise ps end.
  Fixpoint flat (ps : list (W * W)) : list W := match ps with [] => [] | (a, b) :: ps => a :: b :: flat ps end.
  Lemma flat_len ps : length (flat ps) = (2 * length ps)%nat.
  Proof. clear. induction ps as [|[a b] ps IH]; cbn [flat length]; [reflexivity|]. rewrite IH. lia. Qed.
  Lemma pairwise_len ps : length (pairwise ps) = (2 * length ps)%nat.
  Proof. clear junk. induction ps as [|[a b] ps IH]; cbn [pairwise length]; [reflexivity|]. rewrite IH. lia. Qed.
  Lemma unflat n (l : list W) : length l = (2 * n)%nat -> exists ps, l = flat ps /\ length ps = n.
  Proof.
    clear. revert l. induction n as [|n IH]; intros l H; [exists []; destruct l; [auto|discriminate]|].
    destruct l as [|a [|b l]]; cbn in H; try lia. destruct (IH l) as (ps & -> & <-); [cbn; lia|]. exists ((a, b) :: ps). auto.
  Qed.
  Lemma rd_app_at (s r : list W) q x : zlen s = q -> rd (s ++ x :: r) q = Ok x.
  Proof.
    clear. intros <-. unfold rd. pose proof (zlen_nonneg s). destruct (Z.ltb_spec (zlen s) 0); [lia|].
    unfold zlen. rewrite Nat2Z.id, nth_error_app2, Nat.sub_diag by lia. reflexivity.
  Qed.
  Lemma wr_at (s r : list F) q x y : zlen s = q -> wr (s ++ y :: r) q x = Ok (s ++ x :: r).
  Proof.
    clear. intros <-. pose proof (wr_app_at s (y :: r) 0 x) as H. rewrite Z.add_0_r in H. rewrite H; [reflexivity|].
    rewrite zlen_cons. pose proof (zlen_nonneg r). lia.
  Qed.
  Lemma loop_spec tail ps : forall pre done lo, zlen pre = 2 * lo -> zlen done = 2 * lo ->
    foldM (fun i ro =>
      u0 <- rd (pre ++ flat ps ++ tail) (2 * i) ;;
      u1 <- rd (pre ++ flat ps ++ tail) (2 * i + 1) ;;
      let '(v0, v1) := bm u0 u1 in
      ro <- wr ro (2 * i) v0 ;;
      wr ro (2 * i + 1) v1) (zseq lo (length ps)) (done ++ repeat junk (2 * length ps + length tail)) =
    Ok (done ++ pairwise ps ++ repeat junk (length tail)).
  Proof.
    induction ps as [|[a b] ps IH]; intros pre done lo Hp Hd; [reflexivity|].
    cbn [length zseq foldM flat pairwise].
    replace (2 * S (length ps) + length tail)%nat with (S (S (2 * length ps + length tail))) by lia. cbn [repeat app].
    rewrite (rd_app_at pre _ (2 * lo) a Hp). cbn [bind].
    replace (pre ++ a :: b :: flat ps ++ tail) with ((pre ++ [a]) ++ b :: flat ps ++ tail) at 1 by (rewrite <- app_assoc; reflexivity).
    rewrite (rd_app_at (pre ++ [a]) _ (2 * lo + 1) b) by (rewrite zlen_app, Hp; reflexivity). cbn [bind].
    specialize (IH (pre ++ [a; b]) (done ++ [fst (bm a b); snd (bm a b)]) (lo + 1)).
    destruct (bm a b) as [v0 v1]. cbn [fst snd] in *.
    rewrite (wr_at done _ (2 * lo)) by exact Hd. cbn [bind].
    replace (done ++ v0 :: junk :: repeat junk (2 * length ps + length tail)) with ((done ++ [v0]) ++ junk :: repeat junk (2 * length ps + length tail)) by (rewrite <- app_assoc; reflexivity).
    rewrite (wr_at (done ++ [v0]) _ (2 * lo + 1)) by (rewrite zlen_app, Hd; reflexivity). cbn [bind].
    assert (E1 : (pre ++ [a; b]) ++ flat ps ++ tail = pre ++ a :: b :: flat ps ++ tail) by (now rewrite <- app_assoc).
    assert (E2 : (done ++ [v0; v1]) ++ repeat junk (2 * length ps + length tail) = (done ++ [v0]) ++ v1 :: repeat junk (2 * length ps + length tail)) by (now rewrite <- !app_assoc).
    assert (E3 : (done ++ [v0; v1]) ++ pairwise ps ++ repeat junk (length tail) = done ++ v0 :: v1 :: pairwise ps ++ repeat junk (length tail)) by (now rewrite <- app_assoc).
    rewrite E1, E2, E3 in IH. apply IH; rewrite zlen_app; unfold zlen at 2; cbn [length]; lia.
  Qed.
  Lemma boxmulall_flat ps : boxmulall bm junk (flat ps) = Ok (pairwise ps).
  Proof.
    unfold boxmulall, boxmulall_loop, for_, range. rewrite flat_len.
    replace (Z.to_nat (Z.quot (zlen (flat ps)) 2 - 0)) with (length ps).
    - pose proof (loop_spec [] ps [] [] 0 eq_refl eq_refl) as H. cbn [app length repeat] in H. rewrite !app_nil_r in H.
      rewrite Nat.add_0_r in H. exact H.
    - unfold zlen. rewrite flat_len, Nat2Z.inj_mul. change (Z.of_nat 2) with 2. rewrite Z.mul_comm, Z.quot_mul by lia. lia.
  Qed.
  Lemma block_flat ps : boxmul_block bm junk (flat ps) = pairwise ps.
  Proof. unfold boxmul_block. now rewrite boxmulall_flat. Qed.
  (** Odd length: the last element is left uninitialised. *)
  Lemma boxmulall_odd ps x : boxmulall bm junk (flat ps ++ [x]) = Ok (pairwise ps ++ [junk]).
  Proof.
    unfold boxmulall, boxmulall_loop, for_, range. replace (Z.to_nat (Z.quot (zlen (flat ps ++ [x])) 2 - 0)) with (length ps).
    - pose proof (loop_spec [x] ps [] [] 0 eq_refl eq_refl) as H. cbn [app length repeat] in H. rewrite app_length, flat_len. exact H.
    - unfold zlen. rewrite app_length, flat_len. cbn [length]. rewrite Nat2Z.inj_add, Nat2Z.inj_mul. change (Z.of_nat 2) with 2. change (Z.of_nat 1) with 1.
      rewrite Z.quot_div_nonneg by lia. replace (2 * Z.of_nat (length ps) + 1) with (1 + Z.of_nat (length ps) * 2) by lia. rewrite Z.div_add by lia. cbn. lia.
  Qed.
  Lemma boxmulall_any ri : exists ro, boxmulall bm junk ri = Ok ro /\ zlen ro = zlen ri.
  Proof.
    destruct (Nat.Even_or_Odd (length ri)) as [[n E]|[n E]].
    - destruct (unflat n ri E) as (ps & -> & <-). exists (pairwise ps). split; [apply boxmulall_flat|]. unfold zlen. now rewrite pairwise_len, flat_len.
    - assert (H : exists l x, ri = l ++ [x] /\ length l = (2 * n)%nat).
      { destruct (exists_last (l := ri)) as (l & x & ->); [intros ->; cbn in E; lia|]. exists l, x. split; [reflexivity|]. rewrite app_length in E. cbn in E. lia. }
      destruct H as (l & x & -> & EL). destruct (unflat n l EL) as (ps & -> & Ep). exists (pairwise ps ++ [junk]). split; [apply boxmulall_odd|].
      unfold zlen. rewrite !app_length, pairwise_len, flat_len. reflexivity.
  Qed.
  Lemma block_len ri : zlen (boxmul_block bm junk ri) = zlen ri.
  Proof. unfold boxmul_block. destruct (boxmulall_any ri) as (ro & -> & H). exact H. Qed.
  Lemma boxmul_gen_wf {K} (g : generator K W) : wf_generator g -> wf_generator (boxmul_gen bm junk g).
  Proof. intros [A B C]. split; cbn; [exact A|exact B|]. intros c k. rewrite block_len. apply C. Qed.
  (** Lane l is the first or second value made of words 2(l/2) and 2(l/2)+1. *)
  Definition half (l : Z) (v : F * F) : F := if Z.even l then fst v else snd v.
  Lemma pairwise_nth ps l d p0 : 0 <= l < 2 * zlen ps ->
    nth (Z.to_nat l) (pairwise ps) d = half l (let '(a, b) := nth (Z.to_nat (l / 2)) ps p0 in bm a b).
  Proof.
    revert l. induction ps as [|[a b] ps IH]; intros l Hl; [cbn in Hl; lia|]. rewrite zlen_cons in Hl. cbn [pairwise].
    destruct (Z.eq_dec l 0) as [->|N0]; [reflexivity|]. destruct (Z.eq_dec l 1) as [->|N1]; [reflexivity|].
    replace (Z.to_nat l) with (S (S (Z.to_nat (l - 2)))) by lia. cbn [nth]. rewrite IH by lia.
    assert (E : l / 2 = (l - 2) / 2 + 1) by (replace l with ((l - 2) + 1 * 2) at 1 by lia; now rewrite Z.div_add by lia).
    rewrite E. pose proof (Z.div_pos (l - 2) 2 ltac:(lia) ltac:(lia)). replace (Z.to_nat ((l - 2) / 2 + 1)) with (S (Z.to_nat ((l - 2) / 2))) by lia. cbn [nth].
    unfold half. replace (Z.even l) with (Z.even (l - 2)); [reflexivity|]. rewrite Z.even_sub. destruct (Z.even l); reflexivity.
  Qed.
End Closed.

Local Open Scope R_scope.
(** ** Averages over pairs *)
Lemma tapes_pairs {A} (U : list A) k : tapes (2 * k) U = map flat (tapes k (pairs U)).
Proof.
  induction k as [|k IH]; [reflexivity|]. replace (2 * S k)%nat with (S (S (2 * k))) by lia. cbn [tapes]. rewrite IH. generalize (tapes k (pairs U)) as T. intros T.
  assert (FM : forall {X Y Z} (f : X -> list Y) (h : Y -> Z) l, map h (flat_map f l) = flat_map (fun x => map h (f x)) l).
  { clear. intros X Y Z f h l. induction l as [|x l I]; cbn; [reflexivity|]. now rewrite map_app, I. }
  assert (FF : forall {X Y Z} (f : X -> list Y) (h : Y -> list Z) l, flat_map h (flat_map f l) = flat_map (fun x => flat_map h (f x)) l).
  { clear. intros X Y Z f h l. induction l as [|x l I]; cbn; [reflexivity|]. now rewrite flat_map_app, I. }
  unfold pairs. assert (E : forall V : list A, list_prod V U = flat_map (fun a => map (fun b => (a, b)) U) V) by (induction V as [|v V I]; cbn; [reflexivity|]; now rewrite I).
  rewrite E, FF, FM. apply flat_map_ext. intros a. rewrite !FM.
  rewrite (flat_map_concat_map _ (map _ U)), map_map, <- flat_map_concat_map. apply flat_map_ext. intros b. rewrite !map_map. reflexivity.
Qed.
Lemma average_pairs {A} (U : list A) (f : A -> A -> R) : U <> [] ->
  average (pairs U) (fun p => f (fst p) (snd p)) = average U (fun b => average U (fun a => f a b)).
Proof.
  intros HU. assert (0 < INR (length U)) by (apply lt_0_INR; destruct U; [congruence|cbn; lia]).
  unfold average, pairs. rewrite prod_length, mult_INR.
  assert (E : forall V, Rsum (map (fun p => f (fst p) (snd p)) (list_prod V U)) = Rsum (map (fun a => Rsum (map (fun b => f a b) U)) V)).
  { induction V as [|v V I]; cbn [list_prod map Rsum]; [reflexivity|]. rewrite map_app, Rsum_app, map_map, I. reflexivity. }
  rewrite E, (Rsum_swap (fun a b => f a b)). unfold Rdiv.
  rewrite (Rsum_ext (fun b => Rsum (map (fun a => f a b) U) * / INR (length U)) (fun b => / INR (length U) * Rsum (map (fun a => f a b) U)) U) by (intros; ring). rewrite Rsum_scal. field. lra.
Qed.
Lemma pairs_nonempty {A} (U : list A) : U <> [] -> pairs U <> [].
Proof. destruct U; [congruence|]. discriminate. Qed.

(** ** Blocks of pairs: moments of the lanes *)
Section Blocks.
  Context {U F : Type}.
  Variable bm : U -> U -> F * F.
  Variable junk : F.
  Variable val : F -> R.
  Variable words : list U.
  Hypothesis HU : words <> [].
  Variable L : Z.
  Hypothesis HL : (0 <= L)%Z.
  Hypothesis Ev : Z.even L = true.
  Variables (w0 : F) (u0 : U).
  Definition bblocks : list (list F) := map (boxmul_block bm junk) (tapes (Z.to_nat L) words).
  Notation ln l b := (val (nth (Z.to_nat l) b w0)).
  Definition pv (l : Z) (p : U * U) : R := val (half l (bm (fst p) (snd p))).

  Lemma bblocks_eq : bblocks = map (pairwise bm) (tapes (Z.to_nat (L / 2)) (pairs words)).
  Proof using HL Ev. clear w0 u0 HU val.
    unfold bblocks. assert (E : Z.to_nat L = (2 * Z.to_nat (L / 2))%nat).
    { apply Z.even_spec in Ev as [k ->]. rewrite Z.mul_comm, Z.div_mul by lia. lia. }
    rewrite E, tapes_pairs, map_map. apply map_ext. intros ps. apply block_flat.
  Qed.
  Lemma bblock_len b : In b bblocks -> zlen b = L.
  Proof using HL. clear w0 u0 HU val Ev. intros H. unfold bblocks in H. apply in_map_iff in H as (t & <- & Ht). rewrite block_len. unfold zlen. rewrite (tapes_len _ _ _ Ht). lia. Qed.
  Lemma bblocks_nonempty : bblocks <> [].
  Proof using HU. clear w0 u0 val Ev HL. intros E. apply map_eq_nil in E. pose proof (tapes_pos (Z.to_nat L) words HU) as P. rewrite E in P. cbn in P. lra. Qed.
  Lemma half_lt l : (0 <= l < L)%Z -> (Z.to_nat (l / 2) < Z.to_nat (L / 2))%nat.
  Proof using Ev. clear - Ev. intros Hl. apply Z.even_spec in Ev as [k E]. assert (l / 2 < L / 2)%Z.
    { rewrite E, Z.mul_comm, Z.div_mul by lia. apply Z.div_lt_upper_bound; lia. } pose proof (Z.div_pos l 2). lia. Qed.
  Lemma lane_of ps l : In ps (tapes (Z.to_nat (L / 2)) (pairs words)) -> (0 <= l < L)%Z ->
    ln l (pairwise bm ps) = pv l (nth (Z.to_nat (l / 2)) ps (u0, u0)).
  Proof using Ev.
    clear HU HL. intros Hp Hl. apply tapes_len in Hp.
    rewrite (pairwise_nth bm ps l w0 (u0, u0)).
    - unfold pv. destruct (nth _ ps _) as [a b]. reflexivity.
    - unfold zlen. rewrite Hp. apply Z.even_spec in Ev as [k E]. rewrite E, Z.mul_comm, Z.div_mul in * by lia. lia.
  Qed.
  Lemma bmean l : (0 <= l < L)%Z -> average bblocks (fun b => ln l b) = average (pairs words) (pv l).
  Proof.
    intros Hl. rewrite bblocks_eq, average_map. rewrite (average_ext _ _ (fun t => pv l (nth (Z.to_nat (l / 2)) t (u0, u0)))) by (intros; now apply lane_of).
    apply (average_one (pairs words) _ _ (u0, u0) (pv l)); [now apply half_lt|now apply pairs_nonempty].
  Qed.
  Lemma bproduct l l' : (0 <= l < L)%Z -> (0 <= l' < L)%Z -> average bblocks (fun b => ln l b * ln l' b) =
    if (l / 2 =? l' / 2)%Z then average (pairs words) (fun p => pv l p * pv l' p) else average (pairs words) (pv l) * average (pairs words) (pv l').
  Proof.
    intros Hl Hl'. rewrite bblocks_eq, average_map.
    rewrite (average_ext _ _ (fun t => pv l (nth (Z.to_nat (l / 2)) t (u0, u0)) * pv l' (nth (Z.to_nat (l' / 2)) t (u0, u0)))) by (intros; now rewrite !lane_of).
    destruct (Z.eqb_spec (l / 2) (l' / 2)) as [E|N].
    - rewrite <- E. apply (average_one (pairs words) _ _ (u0, u0) (fun p => pv l p * pv l' p)); [now apply half_lt|now apply pairs_nonempty].
    - apply (average_two (pairs words) _ _ _ (u0, u0) (pv l) (pv l')); [now apply half_lt|now apply half_lt| |now apply pairs_nonempty].
      pose proof (Z.div_pos l 2 ltac:(lia) ltac:(lia)). pose proof (Z.div_pos l' 2 ltac:(lia) ltac:(lia)). lia.
  Qed.
End Blocks.
