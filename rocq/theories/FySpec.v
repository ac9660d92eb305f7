(** Fisher-Yates on lists: the mathematical object the scratch-array loop implements. *)
From Verif Require Import Base.

(** Choose position [q] of [rest]; its place is taken by the first element. *)
Definition fy_rest (rest : list Z) (q : Z) : list Z :=
  match rest with
  | [] => []
  | h :: t => if q =? 0 then t else set_nth t (Z.to_nat (q - 1)) h
  end.

Fixpoint fy (rest : list Z) (qs : list Z) : list Z :=
  match qs with
  | [] => []
  | q :: qs =>
      match get rest q with
      | Some x => x :: fy (fy_rest rest q) qs
      | None => []
      end
  end.

(** Valid pivot sequences: the j-th pivot lies in [0, n-j). *)
Fixpoint valid_pivots (n : Z) (qs : list Z) : Prop :=
  match qs with
  | [] => True
  | q :: qs => 0 <= q < n /\ valid_pivots (n - 1) qs
  end.

Lemma get_Some_In {T} (l : list T) i x : get l i = Some x -> In x l.
Proof. intros H. apply get_In. eauto. Qed.

(** Removing one element: [fy_rest] is a permutation of the rest without the chosen one. *)
From Coq Require Import Permutation.

Lemma set_nth_perm (t : list Z) (h : Z) (n : nat) x :
  nth_error t n = Some x -> Permutation (h :: t) (x :: set_nth t n h).
Proof.
  revert n. induction t as [|y t IH]; intros [|n] H; cbn in *; try discriminate.
  - injection H as ->. apply perm_swap.
  - specialize (IH n H).
    transitivity (y :: h :: t); [apply perm_swap|].
    transitivity (y :: x :: set_nth t n h); [constructor; exact IH|apply perm_swap].
Qed.

Lemma fy_rest_perm rest q x : get rest q = Some x -> Permutation rest (x :: fy_rest rest q).
Proof.
  destruct rest as [|h t]; intros H.
  - unfold get in H. destruct (q <? 0); [discriminate|]. destruct (Z.to_nat q); discriminate.
  - cbn [fy_rest]. destruct (Z.eqb_spec q 0) as [->|Hq].
    + cbn in H. injection H as ->. reflexivity.
    + pose proof (get_Some_lt _ _ _ H). rewrite get_cons_S in H by lia.
      unfold get in H. destruct (Z.ltb_spec (q - 1) 0); [lia|].
      apply set_nth_perm. exact H.
Qed.

Lemma fy_rest_len rest q x : get rest q = Some x -> zlen (fy_rest rest q) = zlen rest - 1.
Proof.
  intros H. apply fy_rest_perm in H. apply Permutation_length in H. unfold zlen. cbn in H. lia.
Qed.

Lemma fy_length rest qs : valid_pivots (zlen rest) qs -> length (fy rest qs) = length qs.
Proof.
  revert rest. induction qs as [|q qs IH]; intros rest H; cbn [fy]; [reflexivity|].
  destruct H as [Hq H]. destruct (get_lt rest q Hq) as [x Hx]. rewrite Hx. cbn [length].
  f_equal. apply IH. rewrite (fy_rest_len _ _ _ Hx). exact H.
Qed.

Lemma fy_In rest qs x : In x (fy rest qs) -> In x rest.
Proof.
  revert rest. induction qs as [|q qs IH]; intros rest H; cbn [fy] in H; [destruct H|].
  destruct (get rest q) as [y|] eqn:E; [|destruct H].
  apply fy_rest_perm in E. destruct H as [->|H].
  - apply (Permutation_in _ (Permutation_sym E)). left; reflexivity.
  - apply (Permutation_in _ (Permutation_sym E)). right. auto.
Qed.

Lemma fy_NoDup rest qs : NoDup rest -> NoDup (fy rest qs).
Proof.
  revert rest. induction qs as [|q qs IH]; intros rest H; cbn [fy]; [constructor|].
  destruct (get rest q) as [y|] eqn:E; [|constructor].
  apply fy_rest_perm in E. apply (Permutation_NoDup E) in H. inversion H; subst.
  constructor; [|auto]. intros Hi. apply fy_In in Hi. contradiction.
Qed.

Lemma get_inj_NoDup (l : list Z) i j x : NoDup l -> get l i = Some x -> get l j = Some x -> i = j.
Proof.
  intros Hn Hi Hj. pose proof (get_Some_lt _ _ _ Hi). pose proof (get_Some_lt _ _ _ Hj).
  unfold get in Hi, Hj. destruct (Z.ltb_spec i 0), (Z.ltb_spec j 0); try lia.
  rewrite NoDup_nth_error in Hn. specialize (Hn (Z.to_nat i) (Z.to_nat j)).
  unfold zlen in *. assert (Z.to_nat i = Z.to_nat j); [apply Hn; [lia|congruence]|lia].
Qed.

(** The map from pivots to ordered samples is injective ... *)
Lemma fy_injective rest qs qs' :
  NoDup rest -> valid_pivots (zlen rest) qs -> valid_pivots (zlen rest) qs' ->
  length qs = length qs' -> fy rest qs = fy rest qs' -> qs = qs'.
Proof.
  revert rest qs'. induction qs as [|q qs IH]; intros rest [|q' qs'] Hn Hv Hv' Hl H; try discriminate; [reflexivity|].
  cbn [fy] in H. destruct Hv as [Hq Hv], Hv' as [Hq' Hv'].
  destruct (get_lt rest q Hq) as [x Hx]. destruct (get_lt rest q' Hq') as [x' Hx'].
  rewrite Hx, Hx' in H. injection H as <- H.
  assert (q = q') as <- by (eapply get_inj_NoDup; eauto).
  f_equal. apply (IH (fy_rest rest q)); auto.
  - apply fy_rest_perm in Hx. apply (Permutation_NoDup Hx) in Hn. inversion Hn; auto.
  - rewrite (fy_rest_len _ _ _ Hx). exact Hv.
  - rewrite (fy_rest_len _ _ _ Hx). exact Hv'.
Qed.

(** ... and surjective onto the ordered samples without replacement. *)
Lemma fy_surjective rest s :
  NoDup s -> (forall x, In x s -> In x rest) ->
  exists qs, valid_pivots (zlen rest) qs /\ length qs = length s /\ fy rest qs = s.
Proof.
  revert rest. induction s as [|x s IH]; intros rest Hn Hi.
  - exists []. repeat split.
  - inversion Hn as [|? ? Hx Hn']; subst.
    destruct (proj1 (get_In rest x) (Hi x (or_introl eq_refl))) as [q Hq].
    destruct (IH (fy_rest rest q) Hn') as [qs [V [L E]]].
    { intros y Hy. pose proof (fy_rest_perm _ _ _ Hq) as P.
      specialize (Hi y (or_intror Hy)). apply (Permutation_in _ P) in Hi.
      destruct Hi as [->|Hi]; [contradiction|exact Hi]. }
    exists (q :: qs). cbn [valid_pivots fy length]. rewrite Hq.
    rewrite (fy_rest_len _ _ _ Hq) in V. pose proof (get_Some_lt _ _ _ Hq).
    repeat split; auto; try lia; congruence.
Qed.

(** Prefixes: the first j samples depend only on the first j pivots. *)
Fixpoint fy_after (rest qs : list Z) : list Z :=
  match qs with [] => rest | q :: qs => fy_after (fy_rest rest q) qs end.

Lemma fy_app rest qs1 qs2 :
  valid_pivots (zlen rest) qs1 -> fy rest (qs1 ++ qs2) = fy rest qs1 ++ fy (fy_after rest qs1) qs2.
Proof.
  revert rest. induction qs1 as [|q qs1 IH]; intros rest H; cbn [fy app fy_after]; [reflexivity|].
  destruct H as [Hq H]. destruct (get_lt rest q Hq) as [x Hx]. rewrite Hx.
  cbn [app]. f_equal. apply IH. rewrite (fy_rest_len _ _ _ Hx). exact H.
Qed.

Lemma fy_after_len rest qs : valid_pivots (zlen rest) qs -> zlen (fy_after rest qs) = zlen rest - zlen qs.
Proof.
  revert rest. induction qs as [|q qs IH]; intros rest H; cbn [fy_after].
  - rewrite zlen_nil. lia.
  - destruct H as [Hq H]. destruct (get_lt rest q Hq) as [x Hx].
    rewrite IH; rewrite (fy_rest_len _ _ _ Hx); [|exact H]. rewrite zlen_cons. lia.
Qed.

Lemma fy_after_app rest qs1 qs2 : fy_after rest (qs1 ++ qs2) = fy_after (fy_after rest qs1) qs2.
Proof. revert rest; induction qs1 as [|q qs1 IH]; intros rest; cbn; auto. Qed.

Lemma valid_pivots_app n qs1 qs2 :
  valid_pivots n (qs1 ++ qs2) <-> valid_pivots n qs1 /\ valid_pivots (n - zlen qs1) qs2.
Proof.
  revert n. induction qs1 as [|q qs1 IH]; intros n; cbn [app valid_pivots].
  - rewrite zlen_nil, Z.sub_0_r. tauto.
  - rewrite IH, zlen_cons. replace (n - 1 - zlen qs1) with (n - (1 + zlen qs1)) by lia. tauto.
Qed.

Lemma valid_pivots_map (f : Z -> Z) n lo cnt :
  (forall j, lo <= j < lo + Z.of_nat cnt -> 0 <= f j < n - (j - lo)) ->
  valid_pivots n (map f (zseq lo cnt)).
Proof.
  revert n lo. induction cnt as [|c IH]; intros n lo H; cbn [zseq map valid_pivots]; [exact I|].
  split.
  - specialize (H lo ltac:(lia)). lia.
  - apply IH. intros j Hj. specialize (H j ltac:(lia)). lia.
Qed.
