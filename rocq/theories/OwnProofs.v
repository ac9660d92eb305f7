From Verif Require Import Base OwnModel OwnSpec.

Ltac inj := repeat match goal with
  | H : Some _ = Some _ |- _ => injection H as H; try subst
  | H : mk_block _ _ _ = mk_block _ _ _ |- _ => injection H as ? ? ?; try subst
  end.

Lemma slot_same o f p : get_slot (set_slot o f p) f = p.
Proof. destruct f; reflexivity. Qed.
Lemma slot_other o f g p : f <> g -> get_slot (set_slot o f p) g = get_slot o g.
Proof. destruct f, g; intros N; try reflexivity; congruence. Qed.
Lemma slot_dec (f g : slot) : {f = g} + {f <> g}.
Proof. decide equality. Qed.
Lemma extent_set_slot o f p g : extent (set_slot o f p) g = extent o g.
Proof. destruct f; reflexivity. Qed.
Lemma kind_set_slot o f p : o_kind (set_slot o f p) = o_kind o. Proof. destruct f; reflexivity. Qed.
Lemma own_set_slot o f p : o_own (set_slot o f p) = o_own o. Proof. destruct f; reflexivity. Qed.
Lemma nnz_set_slot o f p : o_nnz (set_slot o f p) = o_nnz o. Proof. destruct f; reflexivity. Qed.
Lemma full_set_slot o f p : o_full (set_slot o f p) = o_full o. Proof. destruct f; reflexivity. Qed.
Lemma rows_set_slot o f p : o_rows (set_slot o f p) = o_rows o. Proof. destruct f; reflexivity. Qed.
Lemma cols_set_slot o f p : o_cols (set_slot o f p) = o_cols o. Proof. destruct f; reflexivity. Qed.
Lemma slot_set_nnz o n g : get_slot (set_nnz o n) g = get_slot o g. Proof. destruct g; reflexivity. Qed.

Section OwnProofs.
  Context {V : Type}.
  Notation mem := (@mem V).

  Lemma nth_set_nth {T} (l : list T) i j x :
    nth_error (set_nth l i x) j = if Nat.eqb i j then (if Nat.ltb i (length l) then Some x else None) else nth_error l j.
  Proof.
    destruct (Nat.eqb_spec i j) as [->|N].
    - destruct (Nat.ltb_spec j (length l)) as [H|H]; [now apply nth_error_set_nth_eq|].
      apply nth_error_None. rewrite length_set_nth. exact H.
    - now apply nth_error_set_nth_ne.
  Qed.

  (** Variables after the primitive updates. *)
  Lemma var_put h r vs x v y :
    var (mk_mem h r (set_nth vs x v)) y = if Nat.eqb x y then (if Nat.ltb x (length vs) then v else None) else var (mk_mem (V:=V) h r vs) y.
  Proof. unfold var. cbn [vars]. rewrite nth_set_nth. destruct (Nat.eqb x y); [destruct (Nat.ltb x (length vs))|]; reflexivity. Qed.
  Lemma var_new h r vs v y :
    var (mk_mem (V:=V) h r (vs ++ [v])) y = if Nat.eqb (length vs) y then v else var (mk_mem (V:=V) h r vs) y.
  Proof.
    unfold var. cbn [vars]. destruct (Nat.eqb_spec (length vs) y) as [<-|N].
    - rewrite nth_error_app2, Nat.sub_diag by lia. reflexivity.
    - destruct (Nat.lt_ge_cases y (length vs)) as [L|L].
      + now rewrite nth_error_app1.
      + rewrite nth_error_app2 by lia. destruct (y - length vs)%nat as [|k] eqn:E; [lia|]. cbn [nth_error].
        rewrite (proj2 (nth_error_None vs y)) by lia. destruct k; reflexivity.
  Qed.
  Lemma var_lt s x o : var (V:=V) s x = Some o -> (x < length (vars s))%nat.
  Proof. unfold var. intros H. apply nth_error_Some. destruct (nth_error (vars s) x); discriminate. Qed.
  Lemma var_nth s x o : var (V:=V) s x = Some o -> nth_error (vars s) x = Some (Some o).
  Proof. unfold var. destruct (nth_error (vars s) x) as [[o'|]|]; congruence. Qed.
  Lemma var_vars (s s' : mem) : vars s' = vars s -> forall x, var s' x = var s x.
  Proof. intros E x. unfold var. now rewrite E. Qed.

  (* ---------------------------------------------------------------- *)
  (** ** Invariant *)
  Record inv (s : mem) : Prop := {
    i_ptr : forall x f a, points s x f a -> (a < length (heap s))%nat;
    i_own : forall x o f a, var s x = Some o -> o_own o = true -> get_slot o f = Some a ->
              exists d, blk s a = Some (mk_block Lib false d) /\ zlen d = extent o f;
    i_uniq : forall x f y g a, owns s x f a -> owns s y g a -> x = y /\ f = g;
    i_leak : forall a d, blk s a = Some (mk_block Lib false d) -> exists x f, owns s x f a;
    i_skop : forall x o, var s x = Some o -> o_kind o = KSkop -> o_own o = true -> 0 < o_nnz o ->
               (forall f, get_slot o f <> None) /\ o_nnz o <= o_full o;
    i_dense : forall x o, var s x = Some o -> o_kind o = KDense \/ o_kind o = KBfo -> o_b o = None /\ o_c o = None }.

  Lemma inv_start : inv start.
  Proof.
    assert (N : forall x, var (V:=V) start x = None) by (intros [|x]; reflexivity).
    constructor.
    - intros x f a (o & E & _). rewrite N in E. discriminate.
    - intros x o f a E. rewrite N in E. discriminate.
    - intros x f y g a (o & E & _). rewrite N in E. discriminate.
    - intros [|a] d E; discriminate E.
    - intros x o E. rewrite N in E. discriminate.
    - intros x o E. rewrite N in E. discriminate.
  Qed.

  (** Heaps that differ only in the contents of live arrays, and in new arrays. *)
  Definition hpres (s s' : mem) : Prop :=
    (length (heap s) <= length (heap s'))%nat /\
    forall a w fr d, blk s a = Some (mk_block w fr d) -> exists d', blk s' a = Some (mk_block w fr d') /\ length d' = length d.
  Lemma hpres_refl s : hpres s s.
  Proof. split; [lia|]. intros. eauto. Qed.
  Lemma hpres_trans s t u : hpres s t -> hpres t u -> hpres s u.
  Proof.
    intros [A B] [C D]. split; [lia|]. intros a w fr d E. destruct (B _ _ _ _ E) as (d1 & E1 & L1).
    destruct (D _ _ _ _ E1) as (d2 & E2 & L2). exists d2. split; [exact E2|congruence].
  Qed.
  Lemma hpres_same (s s' : mem) : heap s' = heap s -> hpres s s'.
  Proof. intros E. unfold hpres, blk. rewrite E. split; [lia|]. eauto. Qed.

  (** Effect of a call on the caller's view: variables outside L keep their value, none dies,
      kinds and ownership flags stay. *)
  Record step (L : list nat) (s s' : mem) : Prop := {
    st_heap : hpres s s';
    st_len : (length (vars s) <= length (vars s'))%nat;
    st_var : forall z, (z < length (vars s))%nat -> ~ In z L -> var s' z = var s z;
    st_alive : forall z o, var s z = Some o -> exists o', var s' z = Some o' /\ o_kind o' = o_kind o /\ o_own o' = o_own o }.
  Lemma step_refl L s : step L s s.
  Proof. constructor; [apply hpres_refl|lia|reflexivity|eauto]. Qed.
  Lemma step_trans L s t u : step L s t -> step L t u -> step L s u.
  Proof.
    intros A B. constructor.
    - eapply hpres_trans; [apply A|apply B].
    - pose proof (st_len _ _ _ A). pose proof (st_len _ _ _ B). lia.
    - intros z H N. rewrite (st_var _ _ _ B), (st_var _ _ _ A); auto. pose proof (st_len _ _ _ A). lia.
    - intros z o E. destruct (st_alive _ _ _ A _ _ E) as (o1 & E1 & K1 & W1).
      destruct (st_alive _ _ _ B _ _ E1) as (o2 & E2 & K2 & W2). exists o2. split; [exact E2|]. split; congruence.
  Qed.
  Lemma step_incl L M s t : incl L M -> step L s t -> step M s t.
  Proof. intros I A. constructor; try apply A. intros z H N. apply A; auto. Qed.

  (** Effect relative to the state [s0] at the start of a command: X are the variables it may
      change, P the arrays it may write or get pointers to. *)
  Record ext (X : list nat) (P : nat -> Prop) (s0 s : mem) : Prop := {
    e_hlen : (length (heap s0) <= length (heap s))%nat;
    e_vlen : (length (vars s0) <= length (vars s))%nat;
    e_var : forall z, (z < length (vars s0))%nat -> ~ In z X -> var s z = var s0 z;
    e_heap : forall a w fr d, blk s0 a = Some (mk_block w fr d) ->
               exists d', blk s a = Some (mk_block w fr d') /\ length d' = length d /\ (~ P a -> d' = d);
    e_pts : forall z f a, In z X \/ (length (vars s0) <= z)%nat -> points s z f a -> (a < length (heap s0))%nat -> P a }.
  Lemma ext_refl X (P : nat -> Prop) s0 : (forall z f a, In z X -> points s0 z f a -> P a) -> ext X P s0 s0.
  Proof.
    intros H. constructor; auto.
    - intros a w fr d E. exists d. auto.
    - intros z f a [I|I] (o & E & G) _; [apply (H z f a I); exists o; auto|]. apply var_lt in E. lia.
  Qed.
  Definition touches (X : list nat) (s0 : mem) (x : nat) : Prop := In x X \/ (length (vars s0) <= x)%nat.

  (** Replacing a temporary's own frame by the caller's. *)
  Lemma ext_trans X (P : nat -> Prop) s0 t Y (Q : nat -> Prop) u :
    ext X P s0 t -> ext Y Q t u -> (forall y, In y Y -> touches X s0 y) ->
    (forall a, (a < length (heap s0))%nat -> Q a -> P a) -> ext X P s0 u.
  Proof.
    intros A B HY HQ. pose proof (e_hlen _ _ _ _ A). pose proof (e_hlen _ _ _ _ B).
    pose proof (e_vlen _ _ _ _ A). pose proof (e_vlen _ _ _ _ B). constructor; try lia.
    - intros z L N. rewrite (e_var _ _ _ _ B), (e_var _ _ _ _ A); auto; [lia|]. intros I. destruct (HY z I); [auto|lia].
    - intros a w fr d E. destruct (e_heap _ _ _ _ A _ _ _ _ E) as (d1 & E1 & L1 & S1).
      destruct (e_heap _ _ _ _ B _ _ _ _ E1) as (d2 & E2 & L2 & S2). exists d2. split; [exact E2|]. split; [congruence|].
      intros NP. rewrite S2, S1; auto. intros HQa. apply NP, HQ; auto.
      unfold blk in E. apply nth_error_Some. rewrite E. discriminate.
    - intros z f a T Pz La. destruct (in_dec Nat.eq_dec z Y) as [I|NI].
      + apply HQ; [exact La|]. eapply (e_pts _ _ _ _ B); [left; exact I|exact Pz|lia].
      + destruct (Nat.lt_ge_cases z (length (vars t))) as [Lz|Lz].
        * assert (E : var u z = var t z) by (apply B; auto).
          apply (e_pts _ _ _ _ A z f a); [exact T| |exact La]. destruct Pz as (o & Eo & G). exists o. rewrite <- E. auto.
        * apply HQ; [exact La|]. eapply (e_pts _ _ _ _ B); [right; exact Lz|exact Pz|lia].
  Qed.

  (** Specification of a program fragment: never undefined; on both ways out the invariant
      holds. *)
  Definition tri {A} (X : list nat) (P : nat -> Prop) (s0 : mem) (L : list nat) (m : @prog V A) (s : mem) (Q : A -> mem -> Prop) : Prop :=
    match m s with
    | Val a s' => inv s' /\ ext X P s0 s' /\ step L s s' /\ Q a s'
    | Exc s' => inv s' /\ ext X P s0 s' /\ step L s s'
    | Undef => False
    end.
  Lemma tri_seq {A B} X P s0 L (m : @prog V A) (k : A -> @prog V B) s Q R :
    tri X P s0 L m s Q ->
    (forall a s', inv s' -> ext X P s0 s' -> step L s s' -> Q a s' -> tri X P s0 L (k a) s' R) ->
    tri X P s0 L (seq m k) s R.
  Proof.
    unfold tri, seq. destruct (m s) as [a s'|s'|]; [|auto|auto].
    intros (I & E & S1 & Q1) K. specialize (K a s' I E S1 Q1). destruct (k a s') as [b u|u|].
    - destruct K as (I2 & E2 & S2 & R2). split; [exact I2|]. split; [exact E2|]. split; [eapply step_trans; eauto|exact R2].
    - destruct K as (I2 & E2 & S2). split; [exact I2|]. split; [exact E2|]. eapply step_trans; eauto.
    - exact K.
  Qed.
  Lemma tri_post {A} X P s0 L (m : @prog V A) s (Q R : A -> mem -> Prop) :
    tri X P s0 L m s Q -> (forall a s', inv s' -> step L s s' -> Q a s' -> R a s') -> tri X P s0 L m s R.
  Proof. unfold tri. destruct (m s); [|auto|auto]. intros (I & E & S1 & Q1) H. split; [|split; [|split]]; auto. Qed.
  Lemma tri_incl {A} X P s0 L M (m : @prog V A) s Q : incl L M -> tri X P s0 L m s Q -> tri X P s0 M m s Q.
  Proof.
    intros I. unfold tri. destruct (m s); [| |auto].
    - intros (A1 & A2 & A3 & A4). split; [|split; [|split]]; auto. eapply step_incl; eauto.
    - intros (A1 & A2 & A3). split; [|split]; auto. eapply step_incl; eauto.
  Qed.
  Lemma tri_ret {A} X P s0 L (a : A) s (Q : A -> mem -> Prop) : inv s -> ext X P s0 s -> Q a s -> tri X P s0 L (ret a) s Q.
  Proof. intros. unfold tri, ret. auto using step_refl. Qed.
  Lemma tri_raise {A} X P s0 L s (Q : A -> mem -> Prop) : inv s -> ext X P s0 s -> tri X P s0 L raise s Q.
  Proof. intros. unfold tri, raise. auto using step_refl. Qed.
  Lemma tri_require X P s0 L b s : inv s -> ext X P s0 s -> tri X P s0 L (require b) s (fun _ s' => s' = s /\ b = true).
  Proof. intros. unfold require. destruct b; [apply tri_ret|apply tri_raise]; auto. Qed.
  Lemma tri_get X P s0 L x o s : inv s -> ext X P s0 s -> var s x = Some o ->
    tri X P s0 L (get_obj x) s (fun o' s' => s' = s /\ o' = o).
  Proof. intros I E H. unfold tri, get_obj. rewrite (var_nth _ _ _ H). auto using step_refl. Qed.
  Lemma tri_when X P s0 L b m s (Q : unit -> mem -> Prop) :
    (b = true -> tri X P s0 L m s Q) -> (b = false -> inv s /\ ext X P s0 s /\ Q tt s) -> tri X P s0 L (when b m) s Q.
  Proof. unfold when. destruct b; intros A B; [auto|]. destruct B as (I & E & q); auto. apply tri_ret; auto. Qed.

  (* ---------------------------------------------------------------- *)
  (** ** Preservation by the primitives *)

  (** Only variable x changes, from o to o'; same pointers, same extents of owned arrays. *)
  Lemma inv_put s x o o' :
    inv s -> var s x = Some o -> o_own o' = o_own o -> (forall f, get_slot o' f = get_slot o f) ->
    (o_own o = true -> forall f, get_slot o f <> None -> extent o' f = extent o f) ->
    (o_kind o' = KSkop -> o_own o' = true -> 0 < o_nnz o' -> (forall f, get_slot o' f <> None) /\ o_nnz o' <= o_full o') ->
    o_kind o' = o_kind o ->
    inv (mk_mem (heap s) (requests s) (set_nth (vars s) x (Some o'))).
  Proof.
    intros I Ho W G Ex Sk Kd. set (s' := mk_mem _ _ _). pose proof (var_lt _ _ _ Ho) as Lx.
    assert (Vr : forall y, var s' y = if Nat.eqb x y then Some o' else var s y).
    { intros y. subst s'. rewrite var_put. apply Nat.ltb_lt in Lx. rewrite Lx. reflexivity. }
    assert (Ow : forall y f a, owns s' y f a <-> owns s y f a).
    { intros y f a. unfold owns. rewrite Vr. destruct (Nat.eqb_spec x y) as [<-|N]; [|reflexivity].
      split; intros (p & E & W' & G'); inj.
      - exists o. rewrite <- W, <- G. auto.
      - rewrite E in Ho. inj. exists o'. rewrite W, G. auto. }
    constructor.
    - intros y f a (p & E & G'). rewrite Vr in E. destruct (Nat.eqb_spec x y) as [<-|N].
      + inj. rewrite G in G'. apply (i_ptr s I x f a). exists o. auto.
      + apply (i_ptr s I y f a). exists p. auto.
    - intros y p f a E W' G'. rewrite Vr in E. destruct (Nat.eqb_spec x y) as [<-|N].
      + inj. rewrite G in G'. rewrite W in W'. rewrite Ex; [|auto|congruence]. apply (i_own s I x o f a); auto.
      + apply (i_own s I y p f a); auto.
    - intros y f z g a A B. apply Ow in A. apply Ow in B. eapply (i_uniq s I); eauto.
    - intros a d E. destruct (i_leak s I a d E) as (y & f & A). exists y, f. apply Ow, A.
    - intros y p E K W' Np. rewrite Vr in E. destruct (Nat.eqb_spec x y) as [<-|N].
      + inj. auto.
      + eapply (i_skop s I); eauto.
    - intros y p E K. rewrite Vr in E. destruct (Nat.eqb_spec x y) as [<-|N].
      + inj. rewrite Kd in K. pose proof (i_dense s I x o Ho K) as [B C].
        pose proof (G Sb) as GB. pose proof (G Sc) as GC. cbn [get_slot] in GB, GC. rewrite GB, GC. auto.
      + eapply (i_dense s I); eauto.
  Qed.

  Lemma ext_put X P s0 s x o o' :
    ext X P s0 s -> touches X s0 x -> var s x = Some o ->
    (forall f a, get_slot o' f = Some a -> (a < length (heap s0))%nat -> P a) ->
    ext X P s0 (mk_mem (heap s) (requests s) (set_nth (vars s) x (Some o'))).
  Proof.
    intros E T Ho Hp. pose proof (var_lt _ _ _ Ho) as Lx. apply Nat.ltb_lt in Lx.
    constructor.
    - apply E.
    - cbn [vars]. rewrite length_set_nth. apply E.
    - intros z Lz N. rewrite var_put, Lx. destruct (Nat.eqb_spec x z) as [<-|Nz].
      + destruct T; [contradiction|lia].
      + change (var s z = var s0 z). apply E; auto.
    - apply E.
    - intros z f a T' (p & Ep & G) La. rewrite var_put, Lx in Ep. destruct (Nat.eqb_spec x z) as [<-|Nz].
      + inj. eauto.
      + apply (e_pts _ _ _ _ E z f a); [exact T'| |exact La]. exists p. auto.
  Qed.
  Lemma step_put L s x o o' :
    In x L -> var s x = Some o -> o_kind o' = o_kind o -> o_own o' = o_own o ->
    step L s (mk_mem (heap s) (requests s) (set_nth (vars s) x (Some o'))).
  Proof.
    intros I Ho K W. pose proof (var_lt _ _ _ Ho) as Lx. apply Nat.ltb_lt in Lx. constructor.
    - apply hpres_same. reflexivity.
    - cbn [vars]. rewrite length_set_nth. lia.
    - intros z Lz N. rewrite var_put, Lx. destruct (Nat.eqb_spec x z) as [<-|Nz]; [contradiction|reflexivity].
    - intros z p E. rewrite var_put, Lx. destruct (Nat.eqb_spec x z) as [<-|Nz].
      + rewrite E in Ho. inj. exists o'. auto.
      + exists p. auto.
  Qed.

  (** Changing only nnz. *)
  Lemma tri_put_nnz X P s0 L x o n s :
    inv s -> ext X P s0 s -> touches X s0 x -> In x L -> var s x = Some o ->
    (o_own o = true -> forall f, get_slot o f <> None -> extent (set_nnz o n) f = extent o f) ->
    (o_kind o = KSkop -> o_own o = true -> 0 < n -> (forall f, get_slot o f <> None) /\ n <= o_full o) ->
    tri X P s0 L (put_obj x (set_nnz o n)) s (fun _ s' => heap s' = heap s /\ var s' x = Some (set_nnz o n)).
  Proof.
    intros I E T IL Ho Ex Sk. unfold tri, put_obj. rewrite (var_nth _ _ _ Ho).
    split; [|split; [|split]].
    - eapply inv_put; eauto.
    - eapply ext_put; eauto. intros f a G La. rewrite slot_set_nnz in G.
      apply (e_pts _ _ _ _ E x f a); [exact T| |exact La]. exists o. eauto.
    - eapply step_put; eauto.
    - split; [reflexivity|]. rewrite var_put, Nat.eqb_refl. apply var_lt in Ho. apply Nat.ltb_lt in Ho. now rewrite Ho.
  Qed.

  (** A new array is attached to a null member of an owning object. *)
  Lemma tri_assign_new oom X P s0 L x o f n v s :
    inv s -> ext X P s0 s -> touches X s0 x -> In x L ->
    var s x = Some o -> o_own o = true -> get_slot o f = None -> n = extent o f ->
    (o_kind o = KDense \/ o_kind o = KBfo -> f = Sa) ->
    tri X P s0 L (assign_new oom x f n v) s
      (fun _ s' => var s' x = Some (set_slot o f (Some (length (heap s)))) /\
                   heap s' = heap s ++ [mk_block Lib false (repeat v (Z.to_nat n))] /\ 0 <= n).
  Proof.
    intros I E T IL Ho W G Hn Kd. unfold assign_new, seq, tri, alloc.
    destruct (Z.ltb_spec n 0) as [Hneg|Hnn]; [auto using step_refl|].
    pose proof (var_lt _ _ _ Ho) as Lx. pose proof Lx as Lxb. apply Nat.ltb_lt in Lxb.
    destruct (oom (requests s)).
    - split; [|split].
      + constructor; apply I.
      + constructor; apply E.
      + constructor; [apply hpres_same; reflexivity|cbn; lia|reflexivity|]. intros z p Ep. exists p. auto.
    - unfold get_obj, put_obj. cbn [vars]. rewrite (var_nth _ _ _ Ho). cbn [vars]. rewrite (var_nth _ _ _ Ho).
      cbn [heap requests]. set (b := mk_block Lib false _). set (o' := set_slot o f _). set (s' := mk_mem _ _ _).
      assert (Vr : forall y, var s' y = if Nat.eqb x y then Some o' else var s y).
      { intros y. subst s'. rewrite var_put, Lxb. reflexivity. }
      assert (Hb : forall a, (a < length (heap s))%nat -> blk s' a = blk s a).
      { intros a La. unfold blk, s'. cbn [heap]. now rewrite nth_error_app1. }
      assert (Hb0 : blk s' (length (heap s)) = Some b).
      { unfold blk, s'. cbn [heap]. rewrite nth_error_app2, Nat.sub_diag by lia. reflexivity. }
      assert (Lb : forall a w fr d, blk s a = Some (mk_block w fr d) -> (a < length (heap s))%nat).
      { intros a w fr d Ea. apply nth_error_Some. unfold blk in Ea. rewrite Ea. discriminate. }
      assert (Pt : forall y g a, points s' y g a -> (y = x /\ g = f /\ a = length (heap s)) \/ points s y g a).
      { intros y g a (p & Ep & Gp). rewrite Vr in Ep. destruct (Nat.eqb_spec x y) as [<-|N].
        - inj. subst o'. destruct (slot_dec f g) as [<-|Nf].
          + rewrite slot_same in Gp. inj. auto.
          + rewrite slot_other in Gp by exact Nf. right. exists o. auto.
        - right. exists p. auto. }
      assert (Ow : forall y g a, owns s' y g a -> (y = x /\ g = f /\ a = length (heap s)) \/ owns s y g a).
      { intros y g a (p & Ep & Wp & Gp). rewrite Vr in Ep. destruct (Nat.eqb_spec x y) as [<-|N].
        - inj. subst o'. destruct (slot_dec f g) as [<-|Nf].
          + rewrite slot_same in Gp. inj. auto.
          + rewrite slot_other in Gp by exact Nf. right. exists o. auto.
        - right. exists p. auto. }
      assert (OL : forall y g a, owns s y g a -> (a < length (heap s))%nat).
      { intros y g a (p & Ep & Wp & Gp). apply (i_ptr s I y g a). exists p. auto. }
      split; [|split; [|split]].
      + constructor.
        * intros y g a Hp. unfold s'. cbn [heap]. rewrite app_length. cbn [length].
          destruct (Pt _ _ _ Hp) as [(-> & -> & ->)|H]; [lia|]. apply (i_ptr s I) in H. lia.
        * intros y p g a Ep Wp Gp. rewrite Vr in Ep. destruct (Nat.eqb_spec x y) as [<-|N].
          -- inj. subst o'. destruct (slot_dec f g) as [<-|Nf].
             ++ rewrite slot_same in Gp. inj. eexists. split; [exact Hb0|]. rewrite zlen_repeat, extent_set_slot. lia.
             ++ rewrite slot_other in Gp by exact Nf. rewrite extent_set_slot.
                destruct (i_own s I x o g a Ho W Gp) as (d & Ed & Ld). exists d. rewrite Hb; [auto|]. eapply Lb; eauto.
          -- destruct (i_own s I y p g a Ep Wp Gp) as (d & Ed & Ld). exists d. rewrite Hb; [auto|]. eapply Lb; eauto.
        * intros y g z h a A B. apply Ow in A. apply Ow in B.
          destruct A as [(-> & -> & ->)|A], B as [(-> & -> & EB)|B]; auto.
          -- apply OL in B. lia.
          -- apply OL in A. subst a. lia.
          -- eapply (i_uniq s I); eauto.
        * intros a d Ed. destruct (Nat.eq_dec a (length (heap s))) as [->|Na].
          -- exists x, f, o'. rewrite Vr, Nat.eqb_refl. subst o'. rewrite own_set_slot, slot_same. auto.
          -- assert (La : (a < length (heap s))%nat).
             { assert (a < length (heap s'))%nat by (apply nth_error_Some; unfold blk in Ed; rewrite Ed; discriminate).
               unfold s' in H. cbn [heap] in H. rewrite app_length in H. cbn [length] in H. lia. }
             rewrite Hb in Ed by exact La. destruct (i_leak s I a d Ed) as (y & g & p & Ep & Wp & Gp).
             exists y, g. destruct (Nat.eqb_spec x y) as [<-|N].
             ++ rewrite Ep in Ho. inj. exists o'. rewrite Vr, Nat.eqb_refl. subst o'. rewrite own_set_slot.
                split; [reflexivity|]. split; [exact Wp|]. rewrite slot_other; [exact Gp|]. congruence.
             ++ exists p. rewrite Vr. apply Nat.eqb_neq in N. rewrite N. auto.
        * intros y p Ep K Wp Np. rewrite Vr in Ep. destruct (Nat.eqb_spec x y) as [<-|N].
          -- inj. subst o'. rewrite kind_set_slot in K. rewrite nnz_set_slot in Np.
             destruct (i_skop s I x o Ho K W Np) as [A _]. exfalso. apply (A f G).
          -- eapply (i_skop s I); eauto.
        * intros y p Ep K. rewrite Vr in Ep. destruct (Nat.eqb_spec x y) as [<-|N].
          -- inj. subst o'. rewrite kind_set_slot in K. rewrite (Kd K). cbn. eapply (i_dense s I); eauto.
          -- eapply (i_dense s I); eauto.
      + constructor.
        * unfold s'. cbn [heap]. rewrite app_length. pose proof (e_hlen _ _ _ _ E). lia.
        * unfold s'. cbn [vars]. rewrite length_set_nth. apply E.
        * intros z Lz N. rewrite Vr. destruct (Nat.eqb_spec x z) as [<-|Nz]; [|apply E; auto].
          destruct T; [contradiction|lia].
        * intros a w fr d Ea. destruct (e_heap _ _ _ _ E _ _ _ _ Ea) as (d' & E1 & L1 & S1). exists d'.
          rewrite Hb; [auto|]. eapply Lb; eauto.
        * intros z g a Tz Hp La. destruct (Pt _ _ _ Hp) as [(-> & -> & ->)|H].
          -- pose proof (e_hlen _ _ _ _ E). lia.
          -- eapply (e_pts _ _ _ _ E); eauto.
      + constructor.
        * split; [unfold s'; cbn [heap]; rewrite app_length; lia|].
          intros a w fr d Ea. exists d. rewrite Hb; [auto|]. eapply Lb; eauto.
        * unfold s'. cbn [vars]. rewrite length_set_nth. lia.
        * intros z Lz N. rewrite Vr. destruct (Nat.eqb_spec x z) as [<-|Nz]; [contradiction|reflexivity].
        * intros z p Ep. rewrite Vr. destruct (Nat.eqb_spec x z) as [<-|Nz].
          -- rewrite Ep in Ho. inj. exists o'. subst o'. rewrite kind_set_slot, own_set_slot. auto.
          -- exists p. auto.
      + split; [rewrite Vr, Nat.eqb_refl; reflexivity|]. split; [reflexivity|lia].
  Qed.

  (** A new object that owns nothing yet, or never will. *)
  Lemma tri_new_obj X P s0 L o s :
    inv s -> ext X P s0 s ->
    (forall f a, get_slot o f = Some a -> o_own o = false /\ (a < length (heap s))%nat /\ ((a < length (heap s0))%nat -> P a)) ->
    (o_kind o = KSkop -> o_own o = true -> o_nnz o <= 0) ->
    (o_kind o = KDense \/ o_kind o = KBfo -> o_b o = None /\ o_c o = None) ->
    tri X P s0 L (new_obj o) s (fun y s' => y = length (vars s) /\ heap s' = heap s /\ var s' y = Some o /\
                                            length (vars s') = S (length (vars s)) /\
                                            forall w, (w < length (vars s))%nat -> var s' w = var s w).
  Proof.
    intros I E Hs Hk Hd. unfold tri, new_obj. set (s' := mk_mem _ _ _).
    assert (Vr : forall y, var s' y = if Nat.eqb (length (vars s)) y then Some o else var s y).
    { intros y. subst s'. rewrite var_new. reflexivity. }
    assert (Old : forall y p, var s y = Some p -> var s' y = Some p).
    { intros y p Ep. rewrite Vr. pose proof (var_lt _ _ _ Ep). destruct (Nat.eqb_spec (length (vars s)) y); [lia|exact Ep]. }
    assert (Ow : forall y f a, owns s' y f a <-> owns s y f a).
    { intros y f a. unfold owns. rewrite Vr. destruct (Nat.eqb_spec (length (vars s)) y) as [<-|N]; [|reflexivity].
      split; intros (p & Ep & Wp & Gp).
      - inj. destruct (Hs _ _ Gp). congruence.
      - apply var_lt in Ep. lia. }
    split; [|split; [|split]].
    - constructor.
      + intros y f a (p & Ep & Gp). rewrite Vr in Ep. destruct (Nat.eqb_spec (length (vars s)) y) as [<-|N].
        * inj. destruct (Hs _ _ Gp) as (_ & A & _). exact A.
        * apply (i_ptr s I y f a). exists p. auto.
      + intros y p f a Ep Wp Gp. rewrite Vr in Ep. destruct (Nat.eqb_spec (length (vars s)) y) as [<-|N].
        * inj. destruct (Hs _ _ Gp). congruence.
        * apply (i_own s I y p f a); auto.
      + intros y f z g a A B. apply Ow in A. apply Ow in B. eapply (i_uniq s I); eauto.
      + intros a d Ed. destruct (i_leak s I a d Ed) as (y & f & A). exists y, f. apply Ow, A.
      + intros y p Ep K Wp Np. rewrite Vr in Ep. destruct (Nat.eqb_spec (length (vars s)) y) as [<-|N].
        * inj. specialize (Hk K Wp). lia.
        * eapply (i_skop s I); eauto.
      + intros y p Ep K. rewrite Vr in Ep. destruct (Nat.eqb_spec (length (vars s)) y) as [<-|N].
        * inj. auto.
        * eapply (i_dense s I); eauto.
    - pose proof (e_vlen _ _ _ _ E). constructor.
      + apply E.
      + unfold s'. cbn [vars]. rewrite app_length. lia.
      + intros z Lz N. rewrite Vr. destruct (Nat.eqb_spec (length (vars s)) z) as [<-|Nz]; [lia|]. apply E; auto.
      + apply E.
      + intros z f a Tz (p & Ep & Gp) La. rewrite Vr in Ep. destruct (Nat.eqb_spec (length (vars s)) z) as [<-|Nz].
        * inj. destruct (Hs _ _ Gp) as (_ & _ & A). auto.
        * apply (e_pts _ _ _ _ E z f a); [exact Tz| |exact La]. exists p. auto.
    - constructor.
      + apply hpres_same. reflexivity.
      + unfold s'. cbn [vars]. rewrite app_length. lia.
      + intros z Lz N. rewrite Vr. destruct (Nat.eqb_spec (length (vars s)) z) as [<-|Nz]; [lia|reflexivity].
      + intros z p Ep. exists p. auto.
    - split; [reflexivity|]. split; [reflexivity|]. split; [rewrite Vr, Nat.eqb_refl; reflexivity|].
      split; [unfold s'; cbn [vars]; rewrite app_length; cbn; lia|].
      intros w Lw. rewrite Vr. destruct (Nat.eqb_spec (length (vars s)) w); [lia|reflexivity].
  Qed.

  (** Writing through a pointer member of an object the command may change. *)
  Lemma inv_heap s s' :
    inv s -> vars s' = vars s -> length (heap s') = length (heap s) ->
    (forall a w fr d, blk s a = Some (mk_block w fr d) -> exists d', blk s' a = Some (mk_block w fr d') /\ length d' = length d) ->
    inv s'.
  Proof.
    intros I Ev El H. pose proof (var_vars _ _ Ev) as Vr.
    assert (Ow : forall y f a, owns s' y f a <-> owns s y f a) by (intros; unfold owns; rewrite Vr; reflexivity).
    constructor.
    - intros x f a (o & Eo & G). rewrite El. rewrite Vr in Eo. apply (i_ptr s I x f a). exists o. auto.
    - intros x o f a Eo W G. rewrite Vr in Eo. destruct (i_own s I x o f a Eo W G) as (d & Ed & Ld).
      destruct (H _ _ _ _ Ed) as (d' & Ed' & Ll). exists d'. split; [exact Ed'|]. unfold zlen in *. congruence.
    - intros x f y g a A B. apply Ow in A. apply Ow in B. eapply (i_uniq s I); eauto.
    - intros a d Ed. assert (La : (a < length (heap s))%nat).
      { rewrite <- El. apply nth_error_Some. unfold blk in Ed. rewrite Ed. discriminate. }
      destruct (blk s a) as [[w fr d0]|] eqn:E0.
      + destruct (H _ _ _ _ E0) as (d' & E1 & _). rewrite E1 in Ed. inj.
        destruct (i_leak s I a d0 E0) as (x & f & A). exists x, f. apply Ow, A.
      + unfold blk in E0. apply nth_error_None in E0. lia.
    - intros x o Eo. rewrite Vr in Eo. eapply (i_skop s I); eauto.
    - intros x o Eo. rewrite Vr in Eo. eapply (i_dense s I); eauto.
  Qed.

  Lemma tri_write X P s0 L p l s :
    inv s -> ext X P s0 s ->
    (l <> [] -> exists a w d, p = Some a /\ blk s a = Some (mk_block w false d) /\ zlen l <= zlen d /\
                              ((a < length (heap s0))%nat -> P a)) ->
    tri X P s0 L (write p l) s
      (fun _ s' => vars s' = vars s /\ length (heap s') = length (heap s) /\
                   (forall b, p <> Some b -> blk s' b = blk s b) /\
                   (forall b w d, p = Some b -> blk s b = Some (mk_block w false d) ->
                      blk s' b = Some (mk_block w false (l ++ skipn (length l) d)))).
  Proof.
    intros I E H. unfold tri, write. destruct l as [|v l].
    - split; [exact I|]. split; [exact E|]. split; [apply step_refl|]. repeat split; auto.
    - destruct (H ltac:(discriminate)) as (a & w & d & -> & Ea & Ll & HP). fold (blk s a). rewrite Ea.
      destruct (Z.leb_spec (zlen (v :: l)) (zlen d)) as [_|Bad]; [|lia].
      set (l1 := v :: l) in *. set (b1 := mk_block w false _). set (s' := mk_mem _ _ _).
      assert (La : (a < length (heap s))%nat) by (apply nth_error_Some; unfold blk in Ea; rewrite Ea; discriminate).
      assert (Hb : forall b, blk s' b = if Nat.eqb a b then Some b1 else blk s b).
      { intros b. unfold blk, s'. cbn [heap]. rewrite nth_set_nth. apply Nat.ltb_lt in La. rewrite La. reflexivity. }
      assert (Len : length (l1 ++ skipn (length l1) d) = length d).
      { rewrite app_length, skipn_length. unfold zlen in Ll. lia. }
      assert (Hp : forall b w' fr d', blk s b = Some (mk_block w' fr d') ->
                 exists d2, blk s' b = Some (mk_block w' fr d2) /\ length d2 = length d' /\ (a <> b -> d2 = d')).
      { intros b w' fr d' Eb. rewrite Hb. destruct (Nat.eqb_spec a b) as [<-|N].
        - rewrite Eb in Ea. inj. eexists. split; [reflexivity|]. split; [exact Len|congruence].
        - exists d'. auto. }
      split; [|split; [|split; [|split; [|split; [|split]]]]].
      + eapply inv_heap; eauto; [unfold s'; cbn [heap]; apply length_set_nth|].
        intros b w' fr d' Eb. destruct (Hp _ _ _ _ Eb) as (d2 & A & B & _). eauto.
      + constructor.
        * unfold s'. cbn [heap]. rewrite length_set_nth. apply E.
        * apply E.
        * apply E.
        * intros b w' fr d' Eb. destruct (e_heap _ _ _ _ E _ _ _ _ Eb) as (d1 & E1 & L1 & S1).
          destruct (Hp _ _ _ _ E1) as (d2 & E2 & L2 & S2). exists d2. split; [exact E2|]. split; [congruence|].
          intros NP. rewrite S2; [auto|]. intros <-. apply NP, HP. apply nth_error_Some. unfold blk in Eb. rewrite Eb. discriminate.
        * intros z f b T Pz. eapply (e_pts _ _ _ _ E); [exact T|exact Pz].
      + constructor; [|apply Nat.le_refl|reflexivity|intros z p Ep; exists p; auto].
        split; [unfold s'; cbn [heap]; rewrite length_set_nth; lia|].
        intros b w' fr d' Eb. destruct (Hp _ _ _ _ Eb) as (d2 & A & B & _). eauto.
      + reflexivity.
      + unfold s'. cbn [heap]. apply length_set_nth.
      + intros b N. rewrite Hb. destruct (Nat.eqb_spec a b) as [<-|N']; [congruence|reflexivity].
      + intros b w' d' Eb Hb'. inj. rewrite Hb, Nat.eqb_refl. rewrite Hb' in Ea. inj. reflexivity.
  Qed.

  Lemma tri_read X P s0 L p n s :
    inv s -> ext X P s0 s -> readable s p n ->
    tri X P s0 L (read p n) s (fun l s' => s' = s /\ (forall a w d, p = Some a -> blk s a = Some (mk_block w false d) -> l = firstn (Z.to_nat n) d) /\ zlen l = Z.max 0 n).
  Proof.
    intros I E H. unfold tri, read. destruct (Z.leb_spec n 0) as [Hn|Hn].
    - split; [exact I|]. split; [exact E|]. split; [apply step_refl|]. split; [reflexivity|]. split; [|rewrite zlen_nil; lia].
      intros. replace (Z.to_nat n) with O by lia. reflexivity.
    - destruct (H Hn) as (a & w & d & -> & Ea & Ll). fold (blk s a). rewrite Ea.
      destruct (Z.leb_spec n (zlen d)); [|lia].
      split; [exact I|]. split; [exact E|]. split; [apply step_refl|]. split; [reflexivity|].
      split; [intros; inj; congruence|]. unfold zlen in *. rewrite firstn_length. lia.
  Qed.
End OwnProofs.
