(** Binary search and weights_to_cdf, independently of the scalar type. *)
From Verif Require Import Base SparseSkopModel FloatModel.

Section LowerBound.
  Context {A B : Type}.
  Variable lt : A -> B -> bool.

  (** Elements below [v] come first. *)
  Definition partitioned (a : list A) (n : Z) (v : B) : Prop :=
    forall i j x y, 0 <= i <= j -> j < n -> get a i = Some x -> get a j = Some y ->
      lt y v = true -> lt x v = true.

  Lemma lower_bound_loop_spec a n v : n <= zlen a -> partitioned a n v ->
    forall fuel first len, 0 <= first -> 0 <= len -> first + len <= n -> len <= Z.of_nat fuel ->
    (forall i x, 0 <= i < first -> get a i = Some x -> lt x v = true) ->
    (forall i x, first + len <= i < n -> get a i = Some x -> lt x v = false) ->
    exists s, lower_bound_loop lt fuel a v first len = Ok s /\ 0 <= s <= n /\
      (forall i x, 0 <= i < s -> get a i = Some x -> lt x v = true) /\
      (forall i x, s <= i < n -> get a i = Some x -> lt x v = false).
  Proof.
    intros Hn Hp. induction fuel as [|fuel IH]; intros first len Hf Hl Hfl Hfu H1 H2; cbn [lower_bound_loop].
    - exists first. split; [reflexivity|]. split; [lia|]. split; [exact H1|].
      intros i x Hi. apply H2. lia.
    - destruct (len <=? 0) eqn:El.
      + exists first. split; [reflexivity|]. split; [lia|]. split; [exact H1|].
        intros i x Hi. apply H2. lia.
      + rewrite Z.quot_div_nonneg by lia. set (half := len / 2).
        assert (0 <= half < len) as Hh.
        { unfold half. split; [apply Z.div_pos; lia|apply Z.div_lt; lia]. }
        clearbody half.
        destruct (get_lt a (first + half)) as [x G]; [lia|].
        rewrite (proj2 (rd_get a (first + half) x) G). cbn [bind].
        destruct (lt x v) eqn:Ex.
        * apply IH; [lia|lia|lia|lia| |].
          -- intros i y Hi Gi. destruct (Z.eq_dec i (first + half)) as [->|Ne].
             { rewrite G in Gi. now injection Gi as <-. }
             apply (Hp i (first + half) y x); [lia|lia|exact Gi|exact G|exact Ex].
          -- intros i y Hi. apply H2. lia.
        * apply IH; [lia|lia|lia|lia| |].
          -- exact H1.
          -- intros i y Hi Gi. destruct (lt y v) eqn:Ey; [|reflexivity].
             rewrite <- Ex. symmetry. apply (Hp (first + half) i x y); [lia|lia|exact G|exact Gi|exact Ey].
  Qed.

  Lemma lower_bound_spec a n v : 0 <= n <= zlen a -> partitioned a n v ->
    exists s, lower_bound lt a n v = Ok s /\ 0 <= s <= n /\
      (forall i x, 0 <= i < s -> get a i = Some x -> lt x v = true) /\
      (forall i x, s <= i < n -> get a i = Some x -> lt x v = false).
  Proof.
    intros Hn Hp. unfold lower_bound.
    apply (lower_bound_loop_spec a n v); try lia; try exact Hp; intros; lia.
  Qed.
End LowerBound.

Section Cdf.
  Context {A : Type}.
  Variables (add mul div : A -> A -> A) (leb : A -> A -> bool) (zero one : A) (thr : Z -> A).

  (** Running sums of the clipped entries, added from left to right. *)
  Definition psum (w : list A) (i : Z) : A :=
    fold_left (fun s v => add s (fmax leb v zero)) (firstn (Z.to_nat i) w) zero.

  Lemma firstn_snoc (w : list A) i x : 0 <= i -> get w i = Some x ->
    firstn (Z.to_nat (i + 1)) w = firstn (Z.to_nat i) w ++ [x].
  Proof.
    clear. intros Hi G.
    replace (Z.to_nat (i + 1)) with (S (Z.to_nat i)) by lia.
    unfold get in G. replace (i <? 0) with false in G by lia.
    revert w G. induction (Z.to_nat i) as [|k IH]; intros [|y w] G; cbn in *; try discriminate.
    - now injection G as ->.
    - now rewrite <- (IH w G).
  Qed.

  Lemma psum_succ w i x : 0 <= i -> get w i = Some x -> psum w (i + 1) = add (psum w i) (fmax leb x zero).
  Proof. intros Hi G. unfold psum. rewrite (firstn_snoc w i x Hi G), fold_left_app. reflexivity. Qed.

  Lemma psum_0 w : psum w 0 = zero.
  Proof. reflexivity. Qed.

  Definition cdf_ok (lo : A) (w : list A) (n : Z) : Prop :=
    forall i x, 0 <= i < n -> get w i = Some x -> leb lo x = true.

  Lemma cdf_first lo n w : 0 <= n <= zlen w ->
    cdf_ok lo w n \/ exists k x, 0 <= k < n /\ get w k = Some x /\ leb lo x = false /\ cdf_ok lo w k.
  Proof.
    intros Hn.
    assert (forall q, Z.of_nat q <= n -> cdf_ok lo w (Z.of_nat q) \/
      exists k x, 0 <= k < n /\ get w k = Some x /\ leb lo x = false /\ cdf_ok lo w k) as Q.
    { induction q as [|q IH]; intros Hm.
      - left. intros i y Hi. lia.
      - destruct IH as [IH|IH]; [lia| |now right].
        destruct (get_lt w (Z.of_nat q)) as [y Gy]; [lia|]. destruct (leb lo y) eqn:Ey.
        + left. intros i z Hi Gi. destruct (Z.eq_dec i (Z.of_nat q)) as [->|Ne].
          * rewrite Gy in Gi. now injection Gi as <-.
          * apply (IH i z); [lia|exact Gi].
        + right. exists (Z.of_nat q), y. split; [lia|]. auto. }
    specialize (Q (Z.to_nat n) ltac:(lia)). replace (Z.of_nat (Z.to_nat n)) with n in Q by lia. exact Q.
  Qed.

  Lemma cdf_loop_ok lo n w : 0 <= n <= zlen w -> cdf_ok lo w n ->
    exists w', for_ 0 n (cdf_step add leb zero lo) (zero, w) = Ok (psum w n, w') /\
      zlen w' = zlen w /\
      (forall i, get w' i = if (0 <=? i) && (i <? n) then Some (psum w (i + 1)) else get w i).
  Proof.
    intros Hn Hok.
    destruct (for_inv (fun t (st : A * list A) => fst st = psum w t /\ zlen (snd st) = zlen w /\
      forall i, get (snd st) i = if (0 <=? i) && (i <? t) then Some (psum w (i + 1)) else get w i)
      0 n (cdf_step add leb zero lo) (zero, w)) as [[s' w'] [E (H1 & H2 & H3)]].
    - lia.
    - cbn [fst snd]. split; [reflexivity|]. split; [reflexivity|]. intros i.
      destruct ((0 <=? i) && (i <? 0)) eqn:Ei; [lia|reflexivity].
    - intros t [s v] Ht (H1 & H2 & H3). cbn [fst snd] in *. unfold cdf_step.
      destruct (get_lt w t) as [x G]; [lia|].
      assert (get v t = Some x) as Gv.
      { rewrite H3. replace ((0 <=? t) && (t <? t)) with false by lia. exact G. }
      rewrite (proj2 (rd_get v t x) Gv). cbn [bind].
      rewrite (Hok t x ltac:(lia) G). cbn [require bind].
      destruct (wr_ex v t (add s (fmax leb x zero))) as (v' & Ew & Lv & Ge & Gn); [lia|].
      rewrite Ew. cbn [bind]. eexists. split; [reflexivity|]. cbn [fst snd].
      rewrite (psum_succ w t x ltac:(lia) G), <- H1.
      split; [reflexivity|]. split; [lia|]. intros i. destruct (Z.eq_dec i t) as [->|Ne].
      + rewrite Ge. replace ((0 <=? t) && (t <? t + 1)) with true by lia.
        rewrite (psum_succ w t x ltac:(lia) G), <- H1. reflexivity.
      + rewrite Gn by exact Ne. rewrite H3.
        replace ((0 <=? i) && (i <? t + 1)) with ((0 <=? i) && (i <? t)) by lia. reflexivity.
    - cbn [fst snd] in *. exists w'. rewrite E, H1. auto.
  Qed.

  Lemma cdf_loop_throw lo n w k x : 0 <= k < n -> n <= zlen w -> get w k = Some x -> leb lo x = false ->
    for_ 0 n (cdf_step add leb zero lo) (zero, w) = Throw.
  Proof.
    intros Hk Hn G Lx.
    (* the first offending entry *)
    assert (exists k x, 0 <= k < n /\ get w k = Some x /\ leb lo x = false /\ cdf_ok lo w k) as (k' & x' & Hk' & G' & L' & M).
    { destruct (cdf_first lo n w ltac:(lia)) as [Q1|Q1]; [|exact Q1].
      rewrite (Q1 k x Hk G) in Lx. discriminate. }
    unfold for_. rewrite (range_split 0 k' n) by lia. rewrite foldM_app.
    destruct (cdf_loop_ok lo k' w ltac:(lia) M) as (w' & E & Lw & Gw). unfold for_ in E. rewrite E. cbn [bind].
    rewrite (range_cons k' n) by lia. cbn [foldM]. unfold cdf_step at 1.
    assert (get w' k' = Some x') as Gw'.
    { rewrite Gw. replace ((0 <=? k') && (k' <? k')) with false by lia. exact G'. }
    rewrite (proj2 (rd_get w' k' x') Gw'). cbn [bind].
    rewrite L'. reflexivity.
  Qed.

  Lemma scal_spec n alpha w : 0 <= n <= zlen w ->
    exists w', scal mul n alpha w = Ok w' /\ zlen w' = zlen w /\
      forall i, get w' i = if (0 <=? i) && (i <? n) then option_map (mul alpha) (get w i) else get w i.
  Proof.
    intros Hn. unfold scal.
    destruct (for_inv (fun t v => zlen v = zlen w /\
      forall i, get v i = if (0 <=? i) && (i <? t) then option_map (mul alpha) (get w i) else get w i)
      0 n (fun i w => x <- rd w i ;; wr w i (mul alpha x)) w) as [w' [E [L H]]].
    - lia.
    - split; [reflexivity|]. intros i. destruct ((0 <=? i) && (i <? 0)) eqn:Ei; [lia|reflexivity].
    - intros t v Ht [L H]. destruct (get_lt w t) as [x G]; [lia|].
      assert (get v t = Some x) as Gv.
      { rewrite H. replace ((0 <=? t) && (t <? t)) with false by lia. exact G. }
      rewrite (proj2 (rd_get v t x) Gv). cbn [bind].
      destruct (wr_ex v t (mul alpha x)) as (v' & Ew & Lv & Ge & Gn); [lia|].
      exists v'. split; [exact Ew|]. split; [lia|]. intros i. destruct (Z.eq_dec i t) as [->|Ne].
      + rewrite Ge. replace ((0 <=? t) && (t <? t + 1)) with true by lia. now rewrite G.
      + rewrite Gn by exact Ne. rewrite H.
        replace ((0 <=? i) && (i <? t + 1)) with ((0 <=? i) && (i <? t)) by lia. reflexivity.
    - exists w'. auto.
  Qed.

  (** Complete behaviour. *)
  Lemma weights_to_cdf_spec lo n w : 0 <= n <= zlen w ->
    (cdf_ok lo w n /\ leb (thr n) (psum w n) = true /\
     exists w', weights_to_cdf add mul div leb zero one thr n w lo = Ok w' /\ zlen w' = zlen w /\
       (forall i, 0 <= i < n -> get w' i = Some (mul (div one (psum w n)) (psum w (i + 1)))) /\
       (forall i, ~ 0 <= i < n -> get w' i = get w i)) \/
    (weights_to_cdf add mul div leb zero one thr n w lo = Throw /\
     ((exists i x, 0 <= i < n /\ get w i = Some x /\ leb lo x = false) \/
      leb (thr n) (psum w n) = false)).
  Proof.
    intros Hn.
    assert (cdf_ok lo w n \/ exists i x, 0 <= i < n /\ get w i = Some x /\ leb lo x = false) as [H|(i & x & Hi & G & L)].
    { destruct (cdf_first lo n w Hn) as [Q|(k & x & Hk & G & L & _)]; [now left|]. right. exists k, x. auto. }
    - destruct (cdf_loop_ok lo n w Hn H) as (w1 & E1 & L1 & G1). unfold weights_to_cdf. rewrite E1. cbn [bind].
      destruct (leb (thr n) (psum w n)) eqn:Et; cbn [require bind].
      + left. split; [exact H|]. split; [reflexivity|].
        destruct (scal_spec n (div one (psum w n)) w1 ltac:(lia)) as (w2 & E2 & L2 & G2).
        exists w2. split; [exact E2|]. split; [lia|]. split; intros i Hi; rewrite G2, G1.
        * replace ((0 <=? i) && (i <? n)) with true by lia. reflexivity.
        * replace ((0 <=? i) && (i <? n)) with false by lia. reflexivity.
      + right. split; [reflexivity|]. now right.
    - right. split.
      + unfold weights_to_cdf. rewrite (cdf_loop_throw lo n w i x Hi ltac:(lia) G L). reflexivity.
      + left. exists i, x. auto.
  Qed.
End Cdf.
