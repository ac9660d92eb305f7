(** Outcomes, buffers, loops.

    Nothing in this file models a particular function of RandBLAS; it fixes how
    C++ control flow and memory are represented (see DESIGN.md, section 1). *)
From Coq Require Export List ZArith Lia Bool.
From Coq Require Export ZifyBool ZifyNat ZifyN.
Export ListNotations.
Open Scope Z_scope.

(* ------------------------------------------------------------------ *)
(** * Outcomes *)

(** [Ok]: normal return.  [Throw]: a C++ exception.  [UB]: undefined behaviour. *)
Inductive outcome (A : Type) : Type :=
| Ok (a : A)
| Throw
| UB.
Arguments Ok {A} a.
Arguments Throw {A}.
Arguments UB {A}.

Definition bind {A B} (m : outcome A) (k : A -> outcome B) : outcome B :=
  match m with
  | Ok a => k a
  | Throw => Throw
  | UB => UB
  end.

Notation "x <- m ;; k" := (bind m (fun x => k))
  (at level 61, m at next level, right associativity).
Notation "' pat <- m ;; k" := (bind m (fun x => match x with pat => k end))
  (at level 61, pat pattern, m at next level, right associativity).

(** [randblas_require(b)]: exceptions.hh 115-199. *)
Definition require (b : bool) : outcome unit := if b then Ok tt else Throw.
Notation "'req' b ;; k" := (bind (require b) (fun _ => k))
  (at level 61, b at next level, right associativity).

(* ------------------------------------------------------------------ *)
(** * Buffers *)

Definition zlen {T} (b : list T) : Z := Z.of_nat (length b).

(** Read of element [i]; outside the buffer this is undefined behaviour. *)
Definition rd {T} (b : list T) (i : Z) : outcome T :=
  if i <? 0 then UB else
  match nth_error b (Z.to_nat i) with
  | Some x => Ok x
  | None => UB
  end.

Fixpoint set_nth {T} (b : list T) (n : nat) (x : T) : list T :=
  match b, n with
  | [], _ => []
  | _ :: r, O => x :: r
  | y :: r, S n => y :: set_nth r n x
  end.

(** Write of element [i]; outside the buffer this is undefined behaviour. *)
Definition wr {T} (b : list T) (i : Z) (x : T) : outcome (list T) :=
  if i <? 0 then UB else
  if i <? zlen b then Ok (set_nth b (Z.to_nat i) x) else UB.

(** Total lookup used in specifications only. *)
Definition get {T} (b : list T) (i : Z) : option T :=
  if i <? 0 then None else nth_error b (Z.to_nat i).

(* ------------------------------------------------------------------ *)
(** * Integer ranges and loops *)

(** [zseq lo n] = [lo; lo+1; ...; lo+n-1]. *)
Fixpoint zseq (lo : Z) (n : nat) : list Z :=
  match n with
  | O => []
  | S n => lo :: zseq (lo + 1) n
  end.

(** [range lo hi] = the integers lo <= i < hi in increasing order. *)
Definition range (lo hi : Z) : list Z := zseq lo (Z.to_nat (hi - lo)).

Fixpoint foldM {A S} (body : A -> S -> outcome S) (l : list A) (s : S) : outcome S :=
  match l with
  | [] => Ok s
  | a :: l => s' <- body a s ;; foldM body l s'
  end.

(** [for (i = lo; i < hi; ++i) s = body(i,s)]. *)
Definition for_ {S} (lo hi : Z) (body : Z -> S -> outcome S) (s : S) : outcome S :=
  foldM body (range lo hi) s.

Fixpoint mapM {A B} (f : A -> outcome B) (l : list A) : outcome (list B) :=
  match l with
  | [] => Ok []
  | a :: l => b <- f a ;; bs <- mapM f l ;; Ok (b :: bs)
  end.

(* ================================================================== *)
(** * Lemmas *)


Lemma bind_Ok {A B} (m : outcome A) (k : A -> outcome B) b :
  bind m k = Ok b <-> exists a, m = Ok a /\ k a = Ok b.
Proof.
  destruct m as [a| |]; cbn [bind]; split.
  - intros H. exists a; auto.
  - intros [a' [E H]]. injection E as <-. exact H.
  - discriminate.
  - intros [a' [E _]]; discriminate.
  - discriminate.
  - intros [a' [E _]]; discriminate.
Qed.

Lemma bind_assoc {A B C} (m : outcome A) (f : A -> outcome B) (g : B -> outcome C) :
  bind (bind m f) g = bind m (fun a => bind (f a) g).
Proof. destruct m; reflexivity. Qed.

Lemma require_true : require true = Ok tt. Proof. reflexivity. Qed.

Lemma require_Ok b u : require b = Ok u -> b = true.
Proof. destruct b; [auto | discriminate]. Qed.

Lemma zlen_nonneg {T} (b : list T) : 0 <= zlen b.
Proof. unfold zlen; lia. Qed.

Lemma zlen_nil {T} : zlen (@nil T) = 0. Proof. reflexivity. Qed.
Lemma zlen_cons {T} (x : T) l : zlen (x :: l) = 1 + zlen l.
Proof. unfold zlen; cbn [length]; lia. Qed.
Lemma zlen_app {T} (a b : list T) : zlen (a ++ b) = zlen a + zlen b.
Proof. unfold zlen; rewrite app_length; lia. Qed.
Lemma zlen_map {A B} (f : A -> B) l : zlen (map f l) = zlen l.
Proof. unfold zlen; rewrite map_length; reflexivity. Qed.
Lemma zlen_repeat {T} (x : T) n : zlen (repeat x n) = Z.of_nat n.
Proof. unfold zlen; rewrite repeat_length; reflexivity. Qed.

Lemma length_set_nth {T} (b : list T) n x : length (set_nth b n x) = length b.
Proof. revert n; induction b as [|y b IH]; intros [|n]; cbn; auto. Qed.

Lemma zlen_set_nth {T} (b : list T) n x : zlen (set_nth b n x) = zlen b.
Proof. unfold zlen; now rewrite length_set_nth. Qed.

Lemma nth_error_set_nth_eq {T} (b : list T) n x :
  (n < length b)%nat -> nth_error (set_nth b n x) n = Some x.
Proof.
  revert n; induction b as [|y b IH]; intros [|n] H; cbn in *; try lia; auto.
  apply IH; lia.
Qed.

Lemma nth_error_set_nth_ne {T} (b : list T) n m x :
  n <> m -> nth_error (set_nth b n x) m = nth_error b m.
Proof.
  revert n m; induction b as [|y b IH]; intros [|n] [|m] H; cbn; auto; try congruence.
Qed.

Lemma rd_get {T} (b : list T) i x : rd b i = Ok x <-> get b i = Some x.
Proof.
  unfold rd, get. destruct (i <? 0); [split; discriminate|].
  destruct (nth_error b (Z.to_nat i)); split; intros H; inversion H; auto.
Qed.

Lemma get_Some_lt {T} (b : list T) i x : get b i = Some x -> 0 <= i < zlen b.
Proof.
  unfold get, zlen. destruct (Z.ltb_spec i 0); [discriminate|]. intros E.
  assert (nth_error b (Z.to_nat i) <> None) as Hn by congruence.
  apply nth_error_Some in Hn. lia.
Qed.

Lemma get_lt {T} (b : list T) i : 0 <= i < zlen b -> exists x, get b i = Some x.
Proof.
  unfold get, zlen. intros H. destruct (Z.ltb_spec i 0); [lia|].
  destruct (nth_error b (Z.to_nat i)) as [x|] eqn:E; [eauto|].
  apply nth_error_None in E. lia.
Qed.

Lemma get_None {T} (b : list T) i : get b i = None <-> ~ (0 <= i < zlen b).
Proof.
  split.
  - intros E H. destruct (get_lt b i H) as [x Hx]. congruence.
  - intros H. destruct (get b i) as [x|] eqn:E; [|reflexivity].
    exfalso. apply H. eapply get_Some_lt; eauto.
Qed.

Lemma rd_lt {T} (b : list T) i : 0 <= i < zlen b -> exists x, rd b i = Ok x /\ get b i = Some x.
Proof. intros H. destruct (get_lt b i H) as [x Hx]. exists x. split; [now apply rd_get|auto]. Qed.

Lemma wr_Ok {T} (b : list T) i x :
  0 <= i < zlen b -> wr b i x = Ok (set_nth b (Z.to_nat i) x).
Proof.
  intros H. unfold wr. destruct (Z.ltb_spec i 0); [lia|].
  destruct (Z.ltb_spec i (zlen b)); [reflexivity|lia].
Qed.

Lemma wr_Ok_inv {T} (b b' : list T) i x :
  wr b i x = Ok b' -> 0 <= i < zlen b /\ b' = set_nth b (Z.to_nat i) x.
Proof.
  unfold wr. destruct (Z.ltb_spec i 0); [discriminate|].
  destruct (Z.ltb_spec i (zlen b)); [|discriminate].
  intros E; injection E as <-. split; [lia|reflexivity].
Qed.

Lemma wr_len {T} (b b' : list T) i x : wr b i x = Ok b' -> zlen b' = zlen b.
Proof. intros H. apply wr_Ok_inv in H as [_ ->]. apply zlen_set_nth. Qed.

Lemma get_set_eq {T} (b : list T) i x :
  0 <= i < zlen b -> get (set_nth b (Z.to_nat i) x) i = Some x.
Proof.
  intros H. unfold get. destruct (Z.ltb_spec i 0); [lia|].
  apply nth_error_set_nth_eq. unfold zlen in H. lia.
Qed.

Lemma get_set_ne {T} (b : list T) i j x :
  0 <= i -> i <> j -> get (set_nth b (Z.to_nat i) x) j = get b j.
Proof.
  intros Hi H. unfold get. destruct (Z.ltb_spec j 0); [reflexivity|].
  apply nth_error_set_nth_ne. lia.
Qed.

Lemma wr_get_eq {T} (b b' : list T) i x : wr b i x = Ok b' -> get b' i = Some x.
Proof. intros H. apply wr_Ok_inv in H as [Hi ->]. now apply get_set_eq. Qed.

Lemma wr_get_ne {T} (b b' : list T) i j x : wr b i x = Ok b' -> i <> j -> get b' j = get b j.
Proof. intros H Hij. apply wr_Ok_inv in H as [Hi ->]. apply get_set_ne; lia. Qed.

(** One lemma for a write, as used by the loop proofs. *)
Lemma wr_ex {T} (b : list T) i x :
  0 <= i < zlen b ->
  exists b', wr b i x = Ok b' /\ zlen b' = zlen b /\ get b' i = Some x /\
             (forall j, j <> i -> get b' j = get b j).
Proof.
  intros H. exists (set_nth b (Z.to_nat i) x). split; [now apply wr_Ok|].
  split; [apply zlen_set_nth|]. split; [now apply get_set_eq|].
  intros j Hj. apply get_set_ne; lia.
Qed.

Lemma list_ext_get {T} (a b : list T) :
  zlen a = zlen b -> (forall i, 0 <= i < zlen a -> get a i = get b i) -> a = b.
Proof.
  unfold zlen, get. revert b. induction a as [|x a IH]; intros [|y b] L H; cbn in L; try lia; auto.
  f_equal.
  - specialize (H 0). cbn in H. assert (Some x = Some y) as E by (apply H; lia). congruence.
  - apply IH; [lia|]. intros i Hi. specialize (H (i + 1)).
    destruct (Z.ltb_spec (i + 1) 0); [lia|]. destruct (Z.ltb_spec i 0); [lia|].
    replace (Z.to_nat (i + 1)) with (S (Z.to_nat i)) in H by lia. cbn in H. apply H; lia.
Qed.

Lemma get_map {A B} (f : A -> B) l i : get (map f l) i = option_map f (get l i).
Proof.
  unfold get. destruct (i <? 0); [reflexivity|].
  destruct (nth_error l (Z.to_nat i)) eqn:E.
  - rewrite (map_nth_error f _ _ E). reflexivity.
  - cbn. apply nth_error_None. rewrite map_length. apply nth_error_None. exact E.
Qed.

Lemma get_app_l {T} (a b : list T) i : i < zlen a -> get (a ++ b) i = get a i.
Proof.
  unfold get, zlen. intros H. destruct (Z.ltb_spec i 0); [reflexivity|].
  apply nth_error_app1. lia.
Qed.

Lemma get_app_r {T} (a b : list T) i : zlen a <= i -> get (a ++ b) i = get b (i - zlen a).
Proof.
  unfold get, zlen. intros H. destruct (Z.ltb_spec i 0); [lia|].
  destruct (Z.ltb_spec (i - Z.of_nat (length a)) 0); [lia|].
  rewrite nth_error_app2 by lia. f_equal. lia.
Qed.

Lemma get_cons_0 {T} (x : T) l : get (x :: l) 0 = Some x.
Proof. reflexivity. Qed.

Lemma get_cons_S {T} (x : T) l i : 0 < i -> get (x :: l) i = get l (i - 1).
Proof.
  intros H. change (x :: l) with ([x] ++ l). rewrite get_app_r; unfold zlen; cbn; [f_equal; lia|lia].
Qed.

Lemma get_repeat {T} (x : T) n i : 0 <= i < Z.of_nat n -> get (repeat x n) i = Some x.
Proof.
  intros H. unfold get. destruct (Z.ltb_spec i 0); [lia|].
  assert (Z.to_nat i < n)%nat as Hn by lia. revert Hn. generalize (Z.to_nat i).
  clear H. clear dependent i. revert n. induction n as [|n IH]; intros [|k] H; cbn; auto; try lia.
  apply IH; lia.
Qed.

Lemma get_firstn {T} (l : list T) n i : i < Z.of_nat n -> get (firstn n l) i = get l i.
Proof.
  unfold get. intros H. destruct (Z.ltb_spec i 0); [reflexivity|].
  assert (Z.to_nat i < n)%nat as Hn by lia. revert Hn. generalize (Z.to_nat i). clear.
  revert l. induction n as [|n IH]; intros [|x l] [|k] H; cbn; auto; try lia.
  apply IH; lia.
Qed.

Lemma get_skipn {T} (l : list T) n i : 0 <= i -> get (skipn n l) i = get l (i + Z.of_nat n).
Proof.
  unfold get. intros H. destruct (Z.ltb_spec i 0); [lia|].
  destruct (Z.ltb_spec (i + Z.of_nat n) 0); [lia|].
  replace (Z.to_nat (i + Z.of_nat n)) with (n + Z.to_nat i)%nat by lia.
  generalize (Z.to_nat i). clear. revert l. induction n as [|n IH]; intros [|x l] k; cbn; auto.
  destruct k; reflexivity.
Qed.

Lemma get_In {T} (l : list T) x : In x l <-> exists i, get l i = Some x.
Proof.
  split.
  - intros H. apply In_nth_error in H as [n Hn]. exists (Z.of_nat n). unfold get.
    destruct (Z.ltb_spec (Z.of_nat n) 0); [lia|]. now rewrite Nat2Z.id.
  - intros [i Hi]. unfold get in Hi. destruct (i <? 0); [discriminate|].
    eapply nth_error_In; eauto.
Qed.

(* ------------------------------------------------------------------ *)
(** ** Ranges *)

Lemma length_zseq lo n : length (zseq lo n) = n.
Proof. revert lo; induction n as [|n IH]; intros lo; cbn; auto. Qed.

Lemma zlen_range lo hi : lo <= hi -> zlen (range lo hi) = hi - lo.
Proof. intros H. unfold zlen, range. rewrite length_zseq. lia. Qed.

Lemma zlen_range_max lo hi : zlen (range lo hi) = Z.max 0 (hi - lo).
Proof. unfold zlen, range. rewrite length_zseq. lia. Qed.

Lemma in_zseq lo n i : In i (zseq lo n) <-> lo <= i < lo + Z.of_nat n.
Proof.
  revert lo; induction n as [|n IH]; intros lo; cbn [zseq In].
  - lia.
  - rewrite IH. lia.
Qed.

Lemma in_range lo hi i : In i (range lo hi) <-> lo <= i < hi.
Proof. unfold range. rewrite in_zseq. lia. Qed.

Lemma range_nil lo hi : hi <= lo -> range lo hi = [].
Proof. intros H. unfold range. replace (Z.to_nat (hi - lo)) with O by lia. reflexivity. Qed.

Lemma range_cons lo hi : lo < hi -> range lo hi = lo :: range (lo + 1) hi.
Proof.
  intros H. unfold range. replace (Z.to_nat (hi - lo)) with (S (Z.to_nat (hi - (lo + 1)))) by lia.
  reflexivity.
Qed.

Lemma zseq_app lo n m : zseq lo (n + m) = zseq lo n ++ zseq (lo + Z.of_nat n) m.
Proof.
  revert lo; induction n as [|n IH]; intros lo; cbn [zseq plus app].
  - f_equal; lia.
  - rewrite IH. do 3 f_equal. lia.
Qed.

Lemma range_split lo mid hi : lo <= mid <= hi -> range lo hi = range lo mid ++ range mid hi.
Proof.
  intros H. unfold range.
  replace (Z.to_nat (hi - lo)) with (Z.to_nat (mid - lo) + Z.to_nat (hi - mid))%nat by lia.
  rewrite zseq_app. do 2 f_equal. lia.
Qed.

Lemma range_snoc lo hi : lo <= hi -> range lo (hi + 1) = range lo hi ++ [hi].
Proof.
  intros H. rewrite (range_split lo hi (hi + 1)) by lia. f_equal.
  rewrite range_cons by lia. rewrite range_nil by lia. reflexivity.
Qed.

Lemma NoDup_zseq lo n : NoDup (zseq lo n).
Proof.
  revert lo; induction n as [|n IH]; intros lo; cbn [zseq]; constructor.
  - rewrite in_zseq. lia.
  - apply IH.
Qed.

Lemma NoDup_range lo hi : NoDup (range lo hi).
Proof. apply NoDup_zseq. Qed.

Lemma nth_error_zseq lo n k : (k < n)%nat -> nth_error (zseq lo n) k = Some (lo + Z.of_nat k).
Proof.
  revert lo k; induction n as [|n IH]; intros lo [|k] H; cbn [zseq nth_error]; try lia.
  - f_equal; lia.
  - rewrite IH by lia. f_equal; lia.
Qed.

Lemma get_range lo hi i : 0 <= i < hi - lo -> get (range lo hi) i = Some (lo + i).
Proof.
  intros H. unfold get, range. destruct (Z.ltb_spec i 0); [lia|].
  rewrite nth_error_zseq by lia. f_equal; lia.
Qed.

Lemma map_zseq_shift lo n d : map (fun i => i + d) (zseq lo n) = zseq (lo + d) n.
Proof.
  revert lo; induction n as [|n IH]; intros lo; cbn [zseq map]; [reflexivity|].
  f_equal. rewrite IH. f_equal. lia.
Qed.

Lemma map_range_shift lo hi d : map (fun i => i + d) (range lo hi) = range (lo + d) (hi + d).
Proof. unfold range. rewrite map_zseq_shift. f_equal. f_equal. lia. Qed.

(* ------------------------------------------------------------------ *)
(** ** Loops *)

Lemma foldM_app {A S} (body : A -> S -> outcome S) l1 l2 s :
  foldM body (l1 ++ l2) s = (s' <- foldM body l1 s ;; foldM body l2 s').
Proof.
  revert s; induction l1 as [|a l1 IH]; intros s; cbn [foldM app bind]; [reflexivity|].
  destruct (body a s); cbn [bind]; auto.
Qed.

(** Loop rule: total correctness with an invariant indexed by the loop variable. *)
Lemma for_inv {S} (I : Z -> S -> Prop) lo hi (body : Z -> S -> outcome S) s :
  lo <= hi ->
  I lo s ->
  (forall i s, lo <= i < hi -> I i s -> exists s', body i s = Ok s' /\ I (i + 1) s') ->
  exists s', for_ lo hi body s = Ok s' /\ I hi s'.
Proof.
  intros Hle H0 Hstep. unfold for_.
  remember (Z.to_nat (hi - lo)) as n eqn:En.
  revert lo s Hle H0 Hstep En. induction n as [|n IH]; intros lo s Hle H0 Hstep En.
  - rewrite range_nil by lia. exists s. split; [reflexivity|]. replace hi with lo by lia. exact H0.
  - rewrite range_cons by lia. cbn [foldM].
    destruct (Hstep lo s) as [s1 [E1 H1]]; [lia|auto|]. rewrite E1. cbn [bind].
    apply IH; [lia|auto| |lia]. intros i s2 Hi Hs2. apply Hstep; [lia|auto].
Qed.

(** Same rule for an arbitrary iteration list, the invariant seeing the prefix done. *)
Lemma foldM_inv {A S} (I : list A -> S -> Prop) (body : A -> S -> outcome S) (l : list A) s :
  I [] s ->
  (forall done a todo s, l = done ++ a :: todo -> I done s ->
       exists s', body a s = Ok s' /\ I (done ++ [a]) s') ->
  exists s', foldM body l s = Ok s' /\ I l s'.
Proof.
  intros H0 Hstep.
  assert (forall todo done s, l = done ++ todo -> I done s ->
            exists s', foldM body todo s = Ok s' /\ I l s') as G.
  { induction todo as [|a todo IH]; intros done s1 El H1; cbn [foldM].
    - rewrite app_nil_r in El. subst done. eauto.
    - destruct (Hstep done a todo s1 El H1) as [s2 [E2 H2]]. rewrite E2. cbn [bind].
      apply (IH (done ++ [a])); [|auto]. rewrite <- app_assoc. exact El. }
  apply (G l [] s); auto.
Qed.

Lemma foldM_ext {A S} (f g : A -> S -> outcome S) l s :
  (forall a s, In a l -> f a s = g a s) -> foldM f l s = foldM g l s.
Proof.
  revert s; induction l as [|a l IH]; intros s H; cbn [foldM]; [reflexivity|].
  rewrite H by (left; reflexivity). destruct (g a s); cbn [bind]; auto.
  apply IH. intros; apply H; right; auto.
Qed.

Lemma for_ext {S} lo hi (f g : Z -> S -> outcome S) s :
  (forall i s, lo <= i < hi -> f i s = g i s) -> for_ lo hi f s = for_ lo hi g s.
Proof. intros H. apply foldM_ext. intros a s' Ha. apply in_range in Ha. auto. Qed.

Lemma for_nil {S} lo hi (f : Z -> S -> outcome S) s : hi <= lo -> for_ lo hi f s = Ok s.
Proof. intros H. unfold for_. rewrite range_nil by lia. reflexivity. Qed.

Lemma mapM_Ok {A B} (f : A -> outcome B) (g : A -> B) l :
  (forall a, In a l -> f a = Ok (g a)) -> mapM f l = Ok (map g l).
Proof.
  induction l as [|a l IH]; intros H; cbn [mapM map]; [reflexivity|].
  rewrite H by (left; reflexivity). cbn [bind]. rewrite IH by (intros; apply H; right; auto).
  reflexivity.
Qed.

Lemma foldM_pure {A S} (f : A -> S -> S) l s :
  foldM (fun a s => Ok (f a s)) l s = Ok (fold_left (fun s a => f a s) l s).
Proof. revert s; induction l as [|a l IH]; intros s; cbn; auto. Qed.

(* ------------------------------------------------------------------ *)
(** ** Executable check of the conventions *)

Example rd_oob : rd [1; 2; 3] 3 = UB /\ rd [1; 2; 3] (-1) = UB /\ rd [1; 2; 3] 2 = Ok 3.
Proof. repeat split. Qed.
Example wr_oob : wr [1; 2; 3] 3 9 = UB /\ wr [1; 2; 3] 1 9 = Ok [1; 9; 3].
Proof. repeat split. Qed.
