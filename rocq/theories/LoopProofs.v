(** Loops that write distinct elements of a buffer. *)
From Coq Require FinFun.
From Verif Require Import Base Spec.

(** Pairs (i,j) visited by a nested loop. *)
Definition pairs (lo hi : Z) (g h : Z -> Z) : list (Z * Z) := flat_map (fun i => map (pair i) (range (g i) (h i))) (range lo hi).
Lemma in_pairs lo hi g h i j : In (i, j) (pairs lo hi g h) <-> lo <= i < hi /\ g i <= j < h i.
Proof.
  unfold pairs. rewrite in_flat_map. split.
  - intros (x & Hx & H). apply in_range in Hx. apply in_map_iff in H as (y & E & Hy). injection E as -> ->. apply in_range in Hy. lia.
  - intros [H1 H2]. exists i. split; [now apply in_range|]. apply in_map_iff. exists j. split; [reflexivity|now apply in_range].
Qed.
Lemma NoDup_pairs lo hi g h : NoDup (pairs lo hi g h).
Proof.
  unfold pairs. assert (forall l, NoDup l -> NoDup (flat_map (fun i => map (pair i) (range (g i) (h i))) l)) as H; [|apply H, NoDup_range].
  induction l as [|i l IH]; intros HN; cbn [flat_map]; [constructor|]. inversion HN as [|? ? Hi HN']; subst.
  assert (forall A (a b : list A), NoDup a -> NoDup b -> (forall x, In x a -> In x b -> False) -> NoDup (a ++ b)) as App.
  { clear. induction a as [|x a IH]; intros b Ha Hb H; [exact Hb|]. inversion Ha; subst. cbn [app]. constructor.
    - rewrite in_app_iff. intros [?|?]; [contradiction|]. apply (H x); [now left|assumption].
    - apply IH; auto. intros y Hy Hy'. apply (H y); [now right|assumption]. }
  apply App.
  - apply FinFun.Injective_map_NoDup; [intros x y E; now injection E|apply NoDup_range].
  - now apply IH.
  - intros [x y] H1 H2. apply in_map_iff in H1 as (z & E & _). injection E as -> ->. apply in_flat_map in H2 as (k & Hk & H2).
    apply in_map_iff in H2 as (z & E & _). injection E as -> ->. contradiction.
Qed.
Lemma foldM_map {A B S} (f : B -> A) (body : A -> S -> outcome S) l s : foldM body (map f l) s = foldM (fun b => body (f b)) l s.
Proof. revert s. induction l as [|b l IH]; intros s; [reflexivity|]. cbn [map foldM]. destruct (body (f b) s); cbn [bind]; auto. Qed.
Lemma for_for {S} lo hi g h (body : Z -> Z -> S -> outcome S) s :
  for_ lo hi (fun i s => for_ (g i) (h i) (fun j s => body i j s) s) s = foldM (fun ij s => body (fst ij) (snd ij) s) (pairs lo hi g h) s.
Proof.
  unfold for_, pairs. generalize (range lo hi) as l. intros l. revert s. induction l as [|i l IH]; intros s; [reflexivity|].
  cbn [foldM flat_map]. rewrite foldM_app, foldM_map. cbn [fst snd]. destruct (foldM _ (range (g i) (h i)) s); cbn [bind]; auto.
Qed.

(** Each iteration [a] writes the cells [w a] and nothing else; it may rely on every cell
    not written earlier being unchanged. *)
Lemma foldM_cells {A T} (l : list A) (w : A -> list (Z * T)) (body : A -> list T -> outcome (list T)) (C : list T) :
  (forall a b p v v', In a l -> In b l -> In (p, v) (w a) -> In (p, v') (w b) -> v = v') ->
  (forall l1 a l2 D, l = l1 ++ a :: l2 -> zlen D = zlen C -> (forall p, ~ In p (map fst (flat_map w l1)) -> get D p = get C p) ->
     (forall p v, In (p, v) (flat_map w l1) -> get D p = Some v) ->
     exists D', body a D = Ok D' /\ zlen D' = zlen D /\ (forall p v, In (p, v) (w a) -> get D' p = Some v) /\
       (forall p, ~ In p (map fst (w a)) -> get D' p = get D p)) ->
  exists C', foldM body l C = Ok C' /\ zlen C' = zlen C /\ (forall p v, In (p, v) (flat_map w l) -> get C' p = Some v) /\
    (forall p, ~ In p (map fst (flat_map w l)) -> get C' p = get C p).
Proof.
  intros Con Step.
  assert (forall l2 l1 D, l = l1 ++ l2 -> zlen D = zlen C -> (forall p, ~ In p (map fst (flat_map w l1)) -> get D p = get C p) ->
     (forall p v, In (p, v) (flat_map w l1) -> get D p = Some v) ->
     exists C', foldM body l2 D = Ok C' /\ zlen C' = zlen C /\ (forall p v, In (p, v) (flat_map w l) -> get C' p = Some v) /\
       (forall p, ~ In p (map fst (flat_map w l)) -> get C' p = get C p)) as H.
  { induction l2 as [|a l2 IH]; intros l1 D E LD U V.
    - exists D. rewrite app_nil_r in E. subst l1. auto.
    - destruct (Step l1 a l2 D E LD U V) as (D' & E1 & L1 & V1 & U1). cbn [foldM]. rewrite E1. cbn [bind].
      apply (IH (l1 ++ [a])).
      + rewrite <- app_assoc. exact E.
      + congruence.
      + intros p Hp. rewrite flat_map_app, map_app, in_app_iff in Hp. cbn [flat_map] in Hp. rewrite app_nil_r in Hp.
        rewrite U1, U; auto.
      + intros p v Hp. rewrite flat_map_app, in_app_iff in Hp. cbn [flat_map] in Hp. rewrite app_nil_r in Hp. destruct Hp as [Hp|Hp]; [|auto].
        destruct (in_dec Z.eq_dec p (map fst (w a))) as [Hin|Hin]; [|rewrite U1; auto].
        apply in_map_iff in Hin as ([p' v'] & Ep & Hin). cbn [fst] in Ep. subst p'. rewrite (V1 p v' Hin). f_equal.
        apply in_flat_map in Hp as (b & Hb & Hp). apply (Con a b p v' v); auto; rewrite E, in_app_iff; cbn; auto. }
  apply (H l [] C); auto. intros p v [].
Qed.

(** A doubly nested loop over a rectangle, one cell per iteration. *)
Lemma rect_cells {T} (m n : Z) (key : Z -> Z -> Z) (f : Z -> Z -> T -> T) (body : Z -> Z -> list T -> outcome (list T)) (C : list T) :
  (forall i j i' j', 0 <= i < m -> 0 <= j < n -> 0 <= i' < m -> 0 <= j' < n -> key i j = key i' j' -> i = i' /\ j = j') ->
  (forall i j, 0 <= i < m -> 0 <= j < n -> 0 <= key i j < zlen C) ->
  (forall i j D x, 0 <= i < m -> 0 <= j < n -> zlen D = zlen C -> get D (key i j) = Some x ->
     exists D', body i j D = Ok D' /\ zlen D' = zlen D /\ get D' (key i j) = Some (f i j x) /\ (forall p, p <> key i j -> get D' p = get D p)) ->
  exists C', for_ 0 n (fun j C => for_ 0 m (fun i C => body i j C) C) C = Ok C' /\ zlen C' = zlen C /\
    (forall i j x, 0 <= i < m -> 0 <= j < n -> get C (key i j) = Some x -> get C' (key i j) = Some (f i j x)) /\
    (forall p, (forall i j, 0 <= i < m -> 0 <= j < n -> key i j <> p) -> get C' p = get C p).
Proof.
  intros Inj Rng Step.
  set (w := fun ji : Z * Z => match get C (key (snd ji) (fst ji)) with Some x => [(key (snd ji) (fst ji), f (snd ji) (fst ji) x)] | None => [] end).
  rewrite (for_for 0 n (fun _ => 0) (fun _ => m) (fun j i C => body i j C)). set (l := pairs _ _ _ _).
  assert (forall ji, In ji l -> 0 <= fst ji < n /\ 0 <= snd ji < m) as HL by (intros [j i] H; apply in_pairs in H; cbn; lia).
  assert (forall ji p v, In (p, v) (w ji) -> p = key (snd ji) (fst ji)) as HW.
  { intros ji p v H. unfold w in H. destruct (get C _); [|contradiction]. destruct H as [H|[]]. congruence. }
  destruct (foldM_cells l w (fun ij s => body (snd ij) (fst ij) s) C) as (C' & E & LC & V & U).
  - intros a b p v v' Ha Hb Hv Hv'. pose proof (HW _ _ _ Hv) as Ea. pose proof (HW _ _ _ Hv') as Eb.
    pose proof (HL a Ha). pose proof (HL b Hb). destruct (Inj (snd a) (fst a) (snd b) (fst b)) as [E1 E2]; try lia.
    destruct a as [a1 a2], b as [b1 b2]; cbn [fst snd] in *. subst b1 b2. unfold w in Hv, Hv'. cbn [fst snd] in *. destruct (get C (key a2 a1)); [|contradiction].
    destruct Hv as [Hv|[]], Hv' as [Hv'|[]]. congruence.
  - intros l1 [j i] l2 D El LD UD VD. cbn [fst snd].
    assert (In (j, i) l) as Hin by (rewrite El, in_app_iff; cbn; auto). pose proof (HL _ Hin) as [Hj Hi]. cbn [fst snd] in *.
    destruct (get_lt C (key i j) (Rng i j Hi Hj)) as [x Gx].
    assert (get D (key i j) = Some x) as GD.
    { rewrite UD; [exact Gx|]. intros Hk. apply in_map_iff in Hk as ([p v] & Ep & Hp). cbn [fst] in Ep. subst p.
      apply in_flat_map in Hp as (b & Hb & Hp). apply HW in Hp. assert (In b l) as Hbl by (rewrite El, in_app_iff; auto). pose proof (HL b Hbl).
      destruct (Inj i j (snd b) (fst b)) as [E1 E2]; try lia. assert (b = (j, i)) as -> by (destruct b; cbn in *; congruence).
      pose proof (NoDup_pairs 0 n (fun _ => 0) (fun _ => m)) as ND. fold l in ND. rewrite El in ND. apply NoDup_remove_2 in ND. apply ND. rewrite in_app_iff. auto. }
    destruct (Step i j D x Hi Hj LD GD) as (D' & E1 & E2 & E3 & E4). exists D'. split; [exact E1|]. split; [exact E2|].
    unfold w. cbn [fst snd]. rewrite Gx. split.
    + intros p v [H|[]]. injection H as <- <-. exact E3.
    + intros p Hp. apply E4. intros ->. apply Hp. cbn. auto.
  - exists C'. split; [exact E|]. split; [exact LC|]. split.
    + intros i j x Hi Hj G. apply V. apply in_flat_map. exists (j, i). split; [apply in_pairs; lia|]. unfold w. cbn [fst snd]. rewrite G. cbn. auto.
    + intros p Hp. apply U. intros H. apply in_map_iff in H as ([q v] & Eq & H). cbn [fst] in Eq. subst q. apply in_flat_map in H as (b & Hb & H).
      apply HW in H. pose proof (HL b Hb). apply (Hp (snd b) (fst b)); try lia.
Qed.
