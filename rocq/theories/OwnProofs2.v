From Verif Require Import Base OwnModel OwnSpec OwnProofs.

Section OwnProofs2.
  Context {V : Type}.
  Notation mem := (@mem V).

  (* ---------------------------------------------------------------- *)
  (** ** Destructors *)
  Fixpoint dels (ps : list ptr) : @prog V unit :=
    match ps with
    | [] => ret tt
    | [p] => delete p
    | p :: ps => seq (delete p) (fun _ => dels ps)
    end.
  Definition order (o : obj) : list ptr :=
    match o_kind o with
    | KDense | KBfo => [o_a o]
    | KCoo => [o_a o; o_b o; o_c o]
    | _ => [o_b o; o_c o; o_a o]
    end.
  Lemma dels_cons p ps s : dels (p :: ps) s = seq (delete p) (fun _ => dels ps) s.
  Proof.
    destruct ps as [|q ps]; [|reflexivity]. cbn [dels]. unfold seq. destruct (delete p s) as [[] ?| |]; reflexivity.
  Qed.
  Lemma dels_spec ps : forall s,
    (forall a, In (Some a) ps -> lib_live s a) -> NoDup (filter (fun p => negb (is_null p)) ps) ->
    exists s', dels ps s = Val tt s' /\ vars s' = vars s /\ length (heap s') = length (heap s) /\
      (forall a d, In (Some a) ps -> blk s a = Some (mk_block Lib false d) -> blk s' a = Some (mk_block Lib true d)) /\
      (forall a, ~ In (Some a) ps -> blk s' a = blk s a).
  Proof.
    induction ps as [|p ps IH]; intros s Hl Hn.
    - exists s. split; [reflexivity|]. repeat split; auto. intros a d [].
    - destruct p as [a|].
      + destruct (Hl a ltac:(left; reflexivity)) as (d & Ed). cbn [filter is_null negb] in Hn. apply NoDup_cons_iff in Hn. destruct Hn as [Ni Nd].
        assert (Na : ~ In (Some a) ps).
        { intros H. apply Ni. apply filter_In. auto. }
        set (s1 := mk_mem (set_nth (heap s) a (mk_block Lib true d)) (requests s) (vars s)).
        assert (D : delete (Some a) s = Val tt s1) by (unfold delete; unfold blk in Ed; rewrite Ed; reflexivity).
        assert (La : (a < length (heap s))%nat) by (apply nth_error_Some; unfold blk in Ed; rewrite Ed; discriminate).
        assert (Hb : forall b, blk s1 b = if Nat.eqb a b then Some (mk_block Lib true d) else blk s b).
        { intros b. unfold blk, s1. cbn [heap]. rewrite nth_set_nth. apply Nat.ltb_lt in La. rewrite La. reflexivity. }
        destruct (IH s1) as (s' & E & Ev & El & Hin & Hout); [|exact Nd|].
        { intros b Ib. destruct (Hl b ltac:(right; exact Ib)) as (db & Eb). exists db. rewrite Hb.
          destruct (Nat.eqb_spec a b) as [<-|N]; [contradiction|exact Eb]. }
        exists s'. split; [rewrite dels_cons; unfold seq; rewrite D; exact E|].
        split; [rewrite Ev; reflexivity|]. split; [rewrite El; unfold s1; cbn [heap]; apply length_set_nth|]. split.
        * intros b db [Eb|Ib] Hbl.
          -- injection Eb as <-. rewrite Hout by exact Na. rewrite Hb, Nat.eqb_refl. rewrite Ed in Hbl. inj. reflexivity.
          -- apply Hin; [exact Ib|]. rewrite Hb. destruct (Nat.eqb_spec a b) as [<-|N]; [contradiction|exact Hbl].
        * intros b Nb. rewrite Hout by (intros H; apply Nb; right; exact H). rewrite Hb.
          destruct (Nat.eqb_spec a b) as [<-|N]; [|reflexivity]. exfalso. apply Nb. left. reflexivity.
      + cbn [filter is_null negb] in Hn. destruct (IH s) as (s' & E & Ev & El & Hin & Hout); [|exact Hn|].
        { intros b Ib. apply Hl. right. exact Ib. }
        exists s'. split; [rewrite dels_cons; unfold seq; cbn [delete]; exact E|]. repeat split; auto.
        * intros b db [Eb|Ib]; [discriminate|auto].
        * intros b Nb. apply Hout. intros H. apply Nb. right. exact H.
  Qed.
  Lemma destroy_eq x (s : mem) o : var s x = Some o ->
    destroy x s = match (if o_own o then dels (order o) s else Val tt s) with
                  | Val _ s1 => kill x s1 | Exc s1 => Exc s1 | Undef => Undef end.
  Proof.
    intros H. unfold destroy, seq, get_obj. rewrite (var_nth _ _ _ H). unfold when, order.
    destruct (o_own o); [|reflexivity]. destruct (o_kind o); cbn [dels]; unfold seq;
      repeat match goal with |- context [match ?m with _ => _ end] => destruct m as [[] ?| |]; try reflexivity end.
  Qed.

  Lemma in_order (s : mem) x o a : inv s -> var s x = Some o -> (In (Some a) (order o) <-> exists f, get_slot o f = Some a).
  Proof.
    intros I H. assert (D : o_kind o = KDense \/ o_kind o = KBfo -> o_b o = None /\ o_c o = None) by (eapply i_dense; eauto).
    unfold order. split.
    - destruct (o_kind o); cbn [In]; intros Q; intuition;
        match goal with
        | E : o_a o = Some a |- _ => exists Sa; exact E
        | E : o_b o = Some a |- _ => exists Sb; exact E
        | E : o_c o = Some a |- _ => exists Sc; exact E
        end.
    - intros ([| |] & G); cbn [get_slot] in G; destruct (o_kind o); cbn [In]; auto; exfalso; destruct D; auto; congruence.
  Qed.
  Lemma order_nodup (s : mem) x o : inv s -> var s x = Some o -> o_own o = true -> NoDup (filter (fun p => negb (is_null p)) (order o)).
  Proof.
    intros I H W.
    assert (U : forall f g a, get_slot o f = Some a -> get_slot o g = Some a -> f = g).
    { intros f g a A B. eapply (i_uniq s I x f x g a); exists o; auto. }
    pose proof (U Sa Sb) as U1. pose proof (U Sa Sc) as U2. pose proof (U Sb Sc) as U3. cbn [get_slot] in U1, U2, U3.
    assert (N3 : forall p q r : ptr, (forall a, p = Some a -> q <> Some a) -> (forall a, p = Some a -> r <> Some a) ->
              (forall a, q = Some a -> r <> Some a) -> NoDup (filter (fun p => negb (is_null p)) [p; q; r])).
    { intros p q r A B C. destruct p as [p|], q as [q|], r as [r|]; cbn [filter is_null negb];
        repeat constructor; cbn [In]; intuition (try congruence); firstorder congruence. }
    unfold order. destruct (o_kind o);
      try (apply N3; intros a A B; (specialize (U1 a) || idtac); specialize (U2 a); specialize (U3 a); intuition congruence).
    - cbn [filter]. destruct (negb (is_null (o_a o))); repeat constructor; cbn [In]; tauto.
    - cbn [filter]. destruct (negb (is_null (o_a o))); repeat constructor; cbn [In]; tauto.
  Qed.

  Lemma destroy_spec (s : mem) x o : inv s -> var s x = Some o ->
    exists s', destroy x s = Val tt s' /\ vars s' = set_nth (vars s) x None /\ length (heap s') = length (heap s) /\
      (forall a d, (exists f, owns s x f a) -> blk s a = Some (mk_block Lib false d) -> blk s' a = Some (mk_block Lib true d)) /\
      (forall a, ~ (exists f, owns s x f a) -> blk s' a = blk s a).
  Proof.
    intros I H. rewrite (destroy_eq x s o H). destruct (o_own o) eqn:W.
    - assert (Eq : forall a, (exists f, owns s x f a) <-> In (Some a) (order o)).
      { intros a. rewrite (in_order s x o a I H). split.
        - intros (f & p & Ep & _ & G). rewrite Ep in H. inj. eauto.
        - intros (f & G). exists f, o. auto. }
      destruct (dels_spec (order o) s) as (s1 & E & Ev & El & Hin & Hout).
      { intros a Ia. apply (in_order s x o a I H) in Ia. destruct Ia as (f & G).
        destruct (i_own s I x o f a H W G) as (d & Ed & _). exists d. exact Ed. }
      { eapply order_nodup; eauto. }
      rewrite E. unfold kill. eexists. split; [reflexivity|]. cbn [vars heap]. rewrite Ev. split; [reflexivity|]. split; [exact El|]. split.
      + intros a d Ha Hb. apply Hin; [apply Eq, Ha|exact Hb].
      + intros a Na. apply Hout. intros Hi. apply Na, Eq, Hi.
    - unfold kill. eexists. split; [reflexivity|]. cbn [vars heap]. repeat split; auto.
      intros a d (f & p & Ep & Wp & _). rewrite Ep in H. inj. congruence.
  Qed.

  (** State after a destructor. *)
  Definition destroyed (x : nat) (s s' : mem) : Prop :=
    vars s' = set_nth (vars s) x None /\ length (heap s') = length (heap s) /\
    (forall a d, (exists f, owns s x f a) -> blk s a = Some (mk_block Lib false d) -> blk s' a = Some (mk_block Lib true d)) /\
    (forall a, ~ (exists f, owns s x f a) -> blk s' a = blk s a).

  Lemma var_destroyed x s s' : destroyed x s s' -> forall y, var s' y = if Nat.eqb x y then None else var s y.
  Proof.
    intros (E & _) y. unfold var. rewrite E, nth_set_nth. destruct (Nat.eqb x y); [|reflexivity].
    destruct (Nat.ltb x (length (vars s))); reflexivity.
  Qed.
  Lemma owns_dec (s : mem) x a : {exists f, owns s x f a} + {~ exists f, owns s x f a}.
  Proof.
    destruct (var s x) as [o|] eqn:E.
    - destruct (o_own o) eqn:W.
      + destruct (in_dec (fun p q : ptr => ltac:(decide equality; apply Nat.eq_dec)) (Some a) [o_a o; o_b o; o_c o]) as [I|N].
        * left. cbn [In] in I. destruct I as [I|[I|[I|[]]]]; [exists Sa|exists Sb|exists Sc]; exists o; auto.
        * right. intros (f & p & Ep & _ & G). rewrite Ep in E. inj. apply N. cbn [In]. destruct f; cbn [get_slot] in G; auto.
      + right. intros (f & p & Ep & Wp & _). rewrite Ep in E. inj. congruence.
    - right. intros (f & p & Ep & _). congruence.
  Qed.
  Lemma inv_destroyed (s : mem) x s' : inv s -> destroyed x s s' -> inv s'.
  Proof.
    intros I D. pose proof (var_destroyed _ _ _ D) as Vr. destruct D as (Ev & El & Hin & Hout).
    assert (Sub : forall y o, var s' y = Some o -> x <> y /\ var s y = Some o).
    { intros y o E. rewrite Vr in E. destruct (Nat.eqb_spec x y); [discriminate|auto]. }
    assert (Ow : forall y f a, owns s' y f a -> x <> y /\ owns s y f a).
    { intros y f a (o & E & W & G). apply Sub in E. destruct E as [N E]. split; [exact N|]. exists o. auto. }
    constructor.
    - intros y f a (o & E & G). rewrite El. apply Sub in E. destruct E as [_ E]. apply (i_ptr s I y f a). exists o. auto.
    - intros y o f a E W G. destruct (Sub _ _ E) as [N E']. destruct (i_own s I y o f a E' W G) as (d & Ed & Ld).
      exists d. split; [|exact Ld]. rewrite Hout; [exact Ed|]. intros (g & A).
      assert (B : owns s y f a) by (exists o; auto). destruct (i_uniq s I _ _ _ _ _ A B). congruence.
    - intros y f z g a A B. apply Ow in A. apply Ow in B. eapply (i_uniq s I); [apply A|apply B].
    - intros a d Ed. destruct (owns_dec s x a) as [O|O].
      + destruct O as (f & O). pose proof O as (o & Eo & W & G). destruct (i_own s I x o f a Eo W G) as (d' & Ed' & _).
        rewrite (Hin a d') in Ed by eauto. discriminate.
      + rewrite Hout in Ed by exact O. destruct (i_leak s I a d Ed) as (y & f & A). exists y, f.
        pose proof A as (o & Eo & W & G). exists o. split; [|auto]. rewrite Vr. destruct (Nat.eqb_spec x y) as [<-|N]; [|exact Eo].
        exfalso. apply O. exists f. exact A.
    - intros y o E K W. apply Sub in E. destruct E. eapply (i_skop s I); eauto.
    - intros y o E K. apply Sub in E. destruct E. eapply (i_dense s I); eauto.
  Qed.
  (** Destroying a temporary whose arrays are all new. *)
  Lemma ext_destroyed X P s0 s x s' :
    ext X P s0 s -> destroyed x s s' -> (length (vars s0) <= x)%nat ->
    (forall f a, owns s x f a -> (length (heap s0) <= a)%nat) -> ext X P s0 s'.
  Proof.
    intros E D Lx Hn. pose proof (var_destroyed _ _ _ D) as Vr. destruct D as (Ev & El & Hin & Hout). constructor.
    - rewrite El. apply E.
    - rewrite Ev, length_set_nth. apply E.
    - intros z Lz N. rewrite Vr. destruct (Nat.eqb_spec x z); [lia|]. apply E; auto.
    - intros a w fr d Ea. rewrite Hout; [eapply (e_heap _ _ _ _ E); eauto|]. intros (f & A). apply Hn in A.
      assert (a < length (heap s0))%nat by (apply nth_error_Some; unfold blk in Ea; rewrite Ea; discriminate). lia.
    - intros z f a T (o & Eo & G) La. rewrite Vr in Eo. destruct (Nat.eqb_spec x z); [discriminate|].
      apply (e_pts _ _ _ _ E z f a T); [exists o; auto|exact La].
  Qed.
  Lemma step_destroyed L t s x s' :
    step L t s -> destroyed x s s' -> (length (vars t) <= x)%nat ->
    (forall f a, owns s x f a -> (length (heap t) <= a)%nat) -> step L t s'.
  Proof.
    intros A D Lx Hn. pose proof (var_destroyed _ _ _ D) as Vr. destruct D as (Ev & El & Hin & Hout). constructor.
    - destruct (st_heap _ _ _ A) as [H1 H2]. split; [rewrite El; exact H1|].
      intros a w fr d Ea. rewrite Hout; [eauto|]. intros (f & B). apply Hn in B.
      assert (a < length (heap t))%nat by (apply nth_error_Some; unfold blk in Ea; rewrite Ea; discriminate). lia.
    - rewrite Ev, length_set_nth. apply A.
    - intros z Lz N. rewrite Vr. destruct (Nat.eqb_spec x z); [lia|]. apply A; auto.
    - intros z o Eo. rewrite Vr. pose proof (var_lt _ _ _ Eo). destruct (Nat.eqb_spec x z); [lia|]. apply A. exact Eo.
  Qed.

  (** A local object that is destroyed at the end of its scope. *)
  Lemma tri_scoped {A} X P s0 L t x (m : @prog V A) s (Q : A -> mem -> Prop) :
    (length (vars s0) <= x)%nat -> (length (vars t) <= x)%nat -> step L t s ->
    (exists o, var s x = Some o) ->
    (* the scope runs well, and what x owns at its end is new *)
    match m s with
    | Val a s' => inv s' /\ ext X P s0 s' /\ step L t s' /\ (exists o, var s' x = Some o) /\
                  (forall f a, owns s' x f a -> (length (heap s0) <= a)%nat /\ (length (heap t) <= a)%nat) /\
                  (forall s'', destroyed x s' s'' -> Q a s'')
    | Exc s' => inv s' /\ ext X P s0 s' /\ step L t s' /\ (exists o, var s' x = Some o) /\
                (forall f a, owns s' x f a -> (length (heap s0) <= a)%nat /\ (length (heap t) <= a)%nat)
    | Undef => False
    end ->
    match scoped x m s with
    | Val a s' => inv s' /\ ext X P s0 s' /\ step L t s' /\ Q a s'
    | Exc s' => inv s' /\ ext X P s0 s' /\ step L t s'
    | Undef => False
    end.
  Proof.
    intros L0 Lt St Hx H. unfold scoped. destruct (m s) as [a s'|s'|]; [| |exact H].
    - destruct H as (I & E & S1 & (o & Eo) & Hn & HQ). destruct (destroy_spec s' x o I Eo) as (s2 & -> & D).
      split; [eapply inv_destroyed; eauto|]. split; [eapply ext_destroyed; eauto; intros f b B; apply (Hn f b B)|].
      split; [eapply step_destroyed; eauto; intros f b B; apply (Hn f b B)|]. apply HQ. exact D.
    - destruct H as (I & E & S1 & (o & Eo) & Hn). destruct (destroy_spec s' x o I Eo) as (s2 & -> & D).
      split; [eapply inv_destroyed; eauto|]. split; [eapply ext_destroyed; eauto; intros f b B; apply (Hn f b B)|].
      eapply step_destroyed; eauto. intros f b B. apply (Hn f b B).
  Qed.

  (* ---------------------------------------------------------------- *)
  (** ** Facts about valid arrays *)
  Lemma own_valid (s : mem) x o : inv s -> var s x = Some o -> o_own o = true -> arrays_valid s o.
  Proof.
    intros I H W f a G Hp. destruct (i_own s I x o f a H W G) as (d & Ed & Ld). exists Lib, d. split; [exact Ed|lia].
  Qed.
  Lemma lent_valid (s : mem) x o : inv s -> var s x = Some o -> lent_ok s o -> arrays_valid s o.
  Proof. intros I H Lo. destruct (o_own o) eqn:W; [eapply own_valid; eauto|auto]. Qed.
  Lemma valid_pres (s : mem) s' o : hpres s s' -> arrays_valid s o -> arrays_valid s' o.
  Proof.
    intros [_ H] A f a G Hp. destruct (A f a G Hp) as (w & d & Ed & Ld). destruct (H _ _ _ _ Ed) as (d' & Ed' & Ll).
    exists w, d'. split; [exact Ed'|]. unfold zlen in *. lia.
  Qed.
  Lemma valid_readable (s : mem) o f : arrays_valid s o -> attached o -> readable s (get_slot o f) (extent o f).
  Proof.
    intros A B Hp. destruct (get_slot o f) as [a|] eqn:G; [|exfalso; eapply B; eauto].
    destruct (A f a G Hp) as (w & d & Ed & Ld). exists a, w, d. auto.
  Qed.
  Lemma readable_le (s : mem) p n m : readable s p n -> m <= n -> readable s p m.
  Proof. intros H L Hm. destruct (H ltac:(lia)) as (a & w & d & A & B & C). exists a, w, d. split; [exact A|]. split; [exact B|lia]. Qed.
  Lemma zlen_some_data (d : Z -> V) n : zlen (some_data d n) = Z.max 0 n.
  Proof. unfold some_data. rewrite zlen_map, zlen_range_max. lia. Qed.
  Lemma some_data_nil (d : Z -> V) n : some_data d n <> [] -> 0 < n.
  Proof.
    intros H. destruct (Z.ltb_spec 0 n); [auto|]. exfalso. apply H. unfold some_data, range.
    replace (Z.to_nat (n - 0)) with O by lia. reflexivity.
  Qed.

  (** Writing the first elements of an array member. *)
  Lemma tri_write_slot X P (s0 : mem) L s x o f n (d : Z -> V) :
    inv s -> ext X P s0 s -> touches X s0 x -> var s x = Some o -> arrays_valid s o -> n <= extent o f ->
    (0 < n -> get_slot o f <> None) ->
    tri X P s0 L (write (get_slot o f) (some_data d n)) s (fun _ s' => vars s' = vars s /\ arrays_valid s' o).
  Proof.
    intros I E T Hx A Hn Hp. eapply tri_post.
    - apply tri_write; [exact I|exact E|]. intros Hd. apply some_data_nil in Hd. specialize (Hp Hd).
      destruct (get_slot o f) as [a|] eqn:G; [|congruence]. destruct (A f a G ltac:(lia)) as (w & dd & Ed & Ld).
      exists a, w, dd. split; [reflexivity|]. split; [exact Ed|]. split; [rewrite zlen_some_data; lia|].
      intros La. apply (e_pts _ _ _ _ E x f a T); [exists o; auto|exact La].
    - intros _ s' _ S1 (Ev & _). split; [exact Ev|]. eapply valid_pres; [apply S1|exact A].
  Qed.

  (** Objects that differ only in their array members. *)
  Definition like (o o' : obj) : Prop :=
    o_kind o' = o_kind o /\ o_own o' = o_own o /\ o_rows o' = o_rows o /\ o_cols o' = o_cols o /\ o_full o' = o_full o /\ o_nnz o' = o_nnz o.
  Lemma like_refl o : like o o. Proof. unfold like. auto 10. Qed.
  Lemma like_set o f p : like o (set_slot o f p). Proof. unfold like. destruct f; cbn; auto 10. Qed.
  Lemma like_trans o p q : like o p -> like p q -> like o q. Proof. unfold like. intuition congruence. Qed.
  Lemma like_extent o o' f : like o o' -> extent o' f = extent o f.
  Proof. intros (K & _ & R & C & Fu & N). unfold extent. rewrite K, R, C, Fu, N. reflexivity. Qed.

  (** if (x.f == nullptr) x.f = new T[n]. *)
  Lemma tri_ensure oom X P (s0 : mem) L x o f n v s :
    inv s -> ext X P s0 s -> touches X s0 x -> In x L -> var s x = Some o -> o_own o = true -> n = extent o f ->
    (o_kind o = KDense \/ o_kind o = KBfo -> f = Sa) ->
    tri X P s0 L (when (is_null (get_slot o f)) (assign_new oom x f n v)) s
      (fun _ s' => exists o', var s' x = Some o' /\ like o o' /\ get_slot o' f <> None /\ (forall g, get_slot o g <> None -> get_slot o' g <> None)).
  Proof.
    intros I E T IL Ho W Hn Kd. apply tri_when.
    - intros Nu. destruct (get_slot o f) as [a|] eqn:G; [discriminate|]. eapply tri_post.
      + eapply (tri_assign_new oom X P s0 L x o f n v s); eauto.
      + intros _ s' _ _ (Ev & _). exists (set_slot o f (Some (length (heap s)))). split; [exact Ev|]. split; [apply like_set|].
        split; [rewrite slot_same; discriminate|]. intros g Ng. destruct (slot_dec f g) as [<-|N].
        * rewrite slot_same. discriminate.
        * rewrite slot_other by exact N. exact Ng.
    - intros Nu. split; [exact I|]. split; [exact E|]. exists o. split; [exact Ho|]. split; [apply like_refl|].
      split; [destruct (get_slot o f); discriminate|auto].
  Qed.

  Ltac get_ x := eapply tri_seq; [eapply (tri_get _ _ _ _ x); eauto|];
    let I := fresh in let E := fresh in let T := fresh in intros ? ? I E T (-> & ->); clear I E T.
  Ltac req_ H := eapply tri_seq; [apply tri_require; auto|];
    let I := fresh in let E := fresh in let T := fresh in intros _ ? I E T (-> & H); clear I E T.

  Lemma tri_fill_dense (junk : V) oom X P (s0 : mem) L x o d s :
    inv s -> ext X P s0 s -> touches X s0 x -> In x L -> var s x = Some o -> o_kind o = KDense -> lent_ok s o ->
    tri X P s0 L (fill_dense junk oom x d) s (fun _ s' => exists o', var s' x = Some o' /\ like o o' /\ get_slot o' Sa <> None /\ arrays_valid s' o').
  Proof.
    intros I E T IL Ho K Lo. unfold fill_dense. get_ x. eapply tri_seq with (Q := fun _ s' => exists o', var s' x = Some o' /\ like o o' /\ arrays_valid s' o').
    - destruct (o_own o) eqn:W; cbn [andb].
      + eapply tri_post; [eapply (tri_ensure oom _ _ _ _ x o Sa); eauto|].
        * unfold extent. rewrite K. reflexivity.
        * cbn beta. intros _ s' I' _ (o' & Ev & Lk & _). exists o'. split; [exact Ev|]. split; [exact Lk|]. eapply own_valid; eauto.
          destruct Lk as (_ & Q & _). congruence.
      + apply tri_ret; auto. exists o. split; [exact Ho|]. split; [apply like_refl|]. apply Lo, W.
    - intros _ s1 I1 E1 S1 (o1 & Ho1 & Lk & A1). get_ x. req_ Hn. pose proof Lk as (K1 & _ & R1 & C1 & _).
      assert (Ne : get_slot o1 Sa <> None) by (cbn [get_slot]; destruct (o_a o1); [discriminate|discriminate Hn]).
      eapply tri_post; [eapply (tri_write_slot X P s0 L s1 x o1 Sa); eauto|].
      + unfold extent. rewrite K1, K, R1, C1. lia.
      + cbn beta. intros _ s' _ _ (Ev & A'). exists o1. split; [rewrite (var_vars _ _ Ev); exact Ho1|]. auto.
  Qed.

  Lemma tri_fill_sparse (junk : V) oom X P (s0 : mem) L x o nnz dv dr dc s :
    inv s -> ext X P s0 s -> touches X s0 x -> In x L -> var s x = Some o -> o_kind o = KSkop -> lent_ok s o -> 0 < nnz <= o_full o ->
    tri X P s0 L (fill_sparse junk oom x nnz dv dr dc) s
      (fun _ s' => exists o', var s' x = Some o' /\ o_kind o' = KSkop /\ o_own o' = o_own o /\ o_rows o' = o_rows o /\ o_cols o' = o_cols o /\
                              o_full o' = o_full o /\ o_nnz o' = nnz /\ (forall f, get_slot o' f <> None) /\ arrays_valid s' o').
  Proof.
    intros I E T IL Ho K Lo Hn. unfold fill_sparse. get_ x.
    assert (Ex : forall o', like o o' -> forall f, extent o' f = o_full o).
    { intros o' Lk f. rewrite (like_extent _ _ f Lk). unfold extent. rewrite K. reflexivity. }
    eapply tri_seq with (Q := fun _ s' => exists o', var s' x = Some o' /\ like o o' /\ arrays_valid s' o').
    - apply tri_when.
      + intros W. get_ x. eapply tri_seq; [eapply (tri_ensure oom _ _ _ _ x o Sb); eauto; solve [rewrite Ex by apply like_refl; reflexivity|intros [Q|Q]; congruence]|].
        intros _ s1 I1 E1 S1 (o1 & Ho1 & Lk1 & _). get_ x.
        assert (W1 : o_own o1 = true) by (destruct Lk1 as (_ & Q & _); congruence).
        eapply tri_seq; [eapply (tri_ensure oom _ _ _ _ x o1 Sc); eauto; solve [rewrite Ex by exact Lk1; reflexivity|destruct Lk1 as (Q1 & _); rewrite Q1; intros [Q|Q]; congruence]|].
        intros _ s2 I2 E2 S2 (o2 & Ho2 & Lk2 & _). get_ x. pose proof (like_trans _ _ _ Lk1 Lk2) as Lk12.
        assert (W2 : o_own o2 = true) by (destruct Lk2 as (_ & Q & _); congruence).
        eapply tri_post; [eapply (tri_ensure oom _ _ _ _ x o2 Sa); eauto; rewrite Ex by exact Lk12; reflexivity|].
        intros _ s3 I3 _ (o3 & Ho3 & Lk3 & _). exists o3. split; [exact Ho3|]. split; [eapply like_trans; eauto|].
        eapply own_valid; eauto. destruct Lk3 as (_ & Q & _). congruence.
      + intros W. split; [auto|]. split; [auto|]. exists o. split; [exact Ho|]. split; [apply like_refl|]. apply Lo, W.
    - intros _ s1 I1 E1 S1 (o1 & Ho1 & Lk & A1). get_ x. req_ Hb. req_ Hc. req_ Ha.
      assert (Ne : forall f, get_slot o1 f <> None).
      { intros [| |]; cbn [get_slot]; [destruct (o_a o1)|destruct (o_b o1)|destruct (o_c o1)]; try discriminate. }
      eapply tri_seq; [eapply (tri_write_slot X P s0 L s1 x o1 Sa); eauto; rewrite Ex by exact Lk; lia|].
      intros _ s2 I2 E2 S2 (Ev2 & A2). assert (Ho2 : var s2 x = Some o1) by (rewrite (var_vars _ _ Ev2); exact Ho1).
      eapply tri_seq; [eapply (tri_write_slot X P s0 L s2 x o1 Sb); eauto; rewrite Ex by exact Lk; lia|].
      intros _ s3 I3 E3 S3 (Ev3 & A3). assert (Ho3 : var s3 x = Some o1) by (rewrite (var_vars _ _ Ev3); exact Ho2).
      eapply tri_seq; [eapply (tri_write_slot X P s0 L s3 x o1 Sc); eauto; rewrite Ex by exact Lk; lia|].
      intros _ s4 I4 E4 S4 (Ev4 & A4). assert (Ho4 : var s4 x = Some o1) by (rewrite (var_vars _ _ Ev4); exact Ho3).
      pose proof Lk as (K1 & W1 & R1 & C1 & F1 & _).
      eapply tri_post; [eapply (tri_put_nnz X P s0 L x o1 nnz s4); eauto|].
      + intros _ f _. unfold extent, set_nnz. cbn [o_kind o_full]. rewrite K1, K. reflexivity.
      + intros _ _ _. split; [exact Ne|lia].
      + cbn beta. intros _ s' _ S5 (Hh & Ev). exists (set_nnz o1 nnz). split; [exact Ev|]. cbn [o_kind o_own o_rows o_cols o_full o_nnz set_nnz].
        repeat (split; [congruence|]). split; [intros f; rewrite slot_set_nnz; apply Ne|].
        eapply valid_pres; [apply S5|]. intros f a G. rewrite slot_set_nnz in G. replace (extent (set_nnz o1 nnz) f) with (extent o1 f); [apply A4; exact G|].
        unfold extent, set_nnz. cbn [o_kind o_full]. rewrite K1, K. reflexivity.
  Qed.

  (* ---------------------------------------------------------------- *)
  (** ** reserve *)
  Definition reserved (s' : mem) (x : nat) (o : obj) (nnz : Z) : Prop :=
    exists o', var s' x = Some o' /\ o_kind o' = o_kind o /\ o_own o' = true /\ o_rows o' = o_rows o /\ o_cols o' = o_cols o /\ o_nnz o' = nnz /\
      attached o' /\ arrays_valid s' o'.
  Lemma null_slot p : is_null p = true -> p = None.
  Proof. destruct p; [discriminate|reflexivity]. Qed.

  Lemma tri_reserve_coo (junk : V) oom X P (s0 : mem) L nnz x o s :
    inv s -> ext X P s0 s -> touches X s0 x -> In x L -> var s x = Some o -> o_kind o = KCoo ->
    tri X P s0 L (reserve_coo junk oom nnz x) s (fun _ s' => reserved s' x o nnz).
  Proof.
    intros I E T IL Ho K. unfold reserve_coo. get_ x. req_ W. req_ Ha. req_ Hb. req_ Hc.
    apply null_slot in Ha, Hb, Hc. assert (Nu : forall f, get_slot o f = None) by (intros [| |]; assumption).
    eapply tri_seq; [eapply (tri_put_nnz X P s0 L x o nnz); eauto; solve [intros _ f Nf; congruence|congruence]|].
    intros _ s1 I1 E1 S1 (_ & Ho1). set (o1 := set_nnz o nnz) in *.
    assert (Ex : forall o', like o1 o' -> forall f, extent o' f = nnz).
    { intros o' Lk f. rewrite (like_extent _ _ f Lk). unfold extent, o1. cbn [o_kind set_nnz o_nnz]. rewrite K. reflexivity. }
    assert (Fin : forall o' s', inv s' -> var s' x = Some o' -> like o1 o' -> attached o' -> reserved s' x o nnz).
    { intros o' s' I' Ho' (K' & W' & R' & C' & F' & N') A'. cbn in K', W', R', C', N'. exists o'. split; [exact Ho'|]. repeat (split; [congruence|]).
      split; [exact A'|]. apply (own_valid _ x); auto; congruence. }
    apply tri_when.
    - intros Hp. apply Z.gtb_lt in Hp.
      eapply tri_seq; [eapply (tri_assign_new oom X P s0 L x o1 Sa nnz); eauto; solve [apply (Nu Sa)|symmetry; apply Ex, like_refl]|].
      intros _ s2 I2 E2 S2 (Ho2 & _). set (o2 := set_slot o1 Sa _) in *. assert (Lk2 : like o1 o2) by apply like_set.
      eapply tri_seq; [eapply (tri_assign_new oom X P s0 L x o2 Sb nnz); eauto; solve [apply (Nu Sb)|symmetry; apply Ex, Lk2|cbn; rewrite K; intros [Q|Q]; congruence]|].
      intros _ s3 I3 E3 S3 (Ho3 & _). set (o3 := set_slot o2 Sb _) in *. assert (Lk3 : like o1 o3) by (eapply like_trans; [exact Lk2|apply like_set]).
      eapply tri_post; [eapply (tri_assign_new oom X P s0 L x o3 Sc nnz); eauto; solve [apply (Nu Sc)|symmetry; apply Ex, Lk3|cbn; rewrite K; intros [Q|Q]; congruence]|].
      intros _ s4 I4 S4 (Ho4 & _). eapply Fin; [exact I4|exact Ho4|eapply like_trans; [exact Lk3|apply like_set]|].
      intros [| |] _; discriminate.
    - intros Hp. assert (nnz <= 0) by lia. split; [auto|]. split; [auto|]. eapply Fin; [auto|exact Ho1|apply like_refl|].
      intros f Hf. rewrite (Ex o1 (like_refl o1)) in Hf. lia.
  Qed.

  Lemma tri_reserve_csr (zero : V) oom X P (s0 : mem) L nnz x o s :
    inv s -> ext X P s0 s -> touches X s0 x -> In x L -> var s x = Some o -> o_kind o = KCsr ->
    tri X P s0 L (reserve_csr zero oom nnz x) s (fun _ s' => reserved s' x o nnz).
  Proof.
    intros I E T IL Ho K. unfold reserve_csr. get_ x. req_ W. req_ Hc. req_ Ha. apply null_slot in Hc, Ha.
    assert (Z1 : forall b c, (o_kind o = KDense \/ o_kind o = KBfo -> b = c :> slot)) by (intros; rewrite K in *; intuition discriminate).
    eapply tri_seq with (Q := fun _ s' => exists p, p <> None /\ var s' x = Some (set_slot o Sb p)).
    { apply tri_when.
      - intros Nu. apply null_slot in Nu. eapply tri_post; [eapply (tri_assign_new oom X P s0 L x o Sb); eauto; unfold extent; rewrite K; reflexivity|].
        intros _ s' _ _ (Ev & _). eexists. split; [|exact Ev]. discriminate.
      - intros Nu. split; [auto|]. split; [auto|]. exists (o_b o). split; [destruct (o_b o); discriminate|]. rewrite Ho. destruct o; reflexivity. }
    intros _ s1 I1 E1 S1 (p & Np & Ho1). get_ x. set (o1 := set_slot o Sb p) in *.
    eapply tri_seq; [eapply (tri_put_nnz X P s0 L x o1 nnz); eauto|].
    { intros _ f Nf. destruct f; [exfalso; apply Nf; exact Ha|unfold extent; cbn; rewrite K; reflexivity|exfalso; apply Nf; exact Hc]. }
    { cbn. congruence. }
    intros _ s2 I2 E2 S2 (_ & Ho2). set (o2 := set_nnz o1 nnz) in *.
    assert (Ex : forall o', like o2 o' -> forall f, extent o' f = match f with Sb => o_rows o + 1 | _ => nnz end).
    { intros o' Lk f. rewrite (like_extent _ _ f Lk). unfold extent, o2, o1. cbn [o_kind set_nnz o_nnz set_slot]. rewrite K. destruct f; reflexivity. }
    assert (Fin : forall o' s', inv s' -> var s' x = Some o' -> like o2 o' -> attached o' -> reserved s' x o nnz).
    { intros o' s' I' Ho' (K' & W' & R' & C' & F' & N') A'. cbn in K', W', R', C', N'. exists o'. split; [exact Ho'|]. repeat (split; [congruence|]).
      split; [exact A'|]. apply (own_valid _ x); auto; congruence. }
    apply tri_when.
    - intros Hp. eapply tri_seq; [eapply (tri_assign_new oom X P s0 L x o2 Sc nnz); eauto; solve [rewrite Ex by apply like_refl; reflexivity|apply Z1]|].
      intros _ s3 I3 E3 S3 (Ho3 & _). set (o3 := set_slot o2 Sc _) in *. assert (Lk3 : like o2 o3) by apply like_set.
      eapply tri_post; [eapply (tri_assign_new oom X P s0 L x o3 Sa nnz); eauto; rewrite Ex by exact Lk3; reflexivity|].
      intros _ s4 I4 S4 (Ho4 & _). eapply Fin; [exact I4|exact Ho4|eapply like_trans; [exact Lk3|apply like_set]|].
      intros [| |] _; cbn; [discriminate|exact Np|discriminate].
    - intros Hp. split; [auto|]. split; [auto|]. eapply Fin; [auto|exact Ho2|apply like_refl|].
      intros f Hf. rewrite (Ex o2 (like_refl o2)) in Hf. destruct f; [lia|exact Np|lia].
  Qed.

  Lemma tri_reserve_csc (zero : V) oom X P (s0 : mem) L nnz x o s :
    inv s -> ext X P s0 s -> touches X s0 x -> In x L -> var s x = Some o -> o_kind o = KCsc ->
    tri X P s0 L (reserve_csc zero oom nnz x) s (fun _ s' => reserved s' x o nnz).
  Proof.
    intros I E T IL Ho K. unfold reserve_csc. get_ x. req_ W. req_ Hb. req_ Ha. apply null_slot in Hb, Ha.
    assert (Z1 : forall b c, (o_kind o = KDense \/ o_kind o = KBfo -> b = c :> slot)) by (intros; rewrite K in *; intuition discriminate).
    eapply tri_seq with (Q := fun _ s' => exists p, p <> None /\ var s' x = Some (set_slot o Sc p)).
    { apply tri_when.
      - intros Nu. apply null_slot in Nu. eapply tri_post; [eapply (tri_assign_new oom X P s0 L x o Sc); eauto; unfold extent; rewrite K; reflexivity|].
        intros _ s' _ _ (Ev & _). eexists. split; [|exact Ev]. discriminate.
      - intros Nu. split; [auto|]. split; [auto|]. exists (o_c o). split; [destruct (o_c o); discriminate|]. rewrite Ho. destruct o; reflexivity. }
    intros _ s1 I1 E1 S1 (p & Np & Ho1). get_ x. set (o1 := set_slot o Sc p) in *.
    eapply tri_seq; [eapply (tri_put_nnz X P s0 L x o1 nnz); eauto|].
    { intros _ f Nf. destruct f; [exfalso; apply Nf; exact Ha|exfalso; apply Nf; exact Hb|unfold extent; cbn; rewrite K; reflexivity]. }
    { cbn. congruence. }
    intros _ s2 I2 E2 S2 (_ & Ho2). set (o2 := set_nnz o1 nnz) in *.
    assert (Ex : forall o', like o2 o' -> forall f, extent o' f = match f with Sc => o_cols o + 1 | _ => nnz end).
    { intros o' Lk f. rewrite (like_extent _ _ f Lk). unfold extent, o2, o1. cbn [o_kind set_nnz o_nnz set_slot]. rewrite K. destruct f; reflexivity. }
    assert (Fin : forall o' s', inv s' -> var s' x = Some o' -> like o2 o' -> attached o' -> reserved s' x o nnz).
    { intros o' s' I' Ho' (K' & W' & R' & C' & F' & N') A'. cbn in K', W', R', C', N'. exists o'. split; [exact Ho'|]. repeat (split; [congruence|]).
      split; [exact A'|]. apply (own_valid _ x); auto; congruence. }
    apply tri_when.
    - intros Hp. eapply tri_seq; [eapply (tri_assign_new oom X P s0 L x o2 Sb nnz); eauto; solve [rewrite Ex by apply like_refl; reflexivity|apply Z1]|].
      intros _ s3 I3 E3 S3 (Ho3 & _). set (o3 := set_slot o2 Sb _) in *. assert (Lk3 : like o2 o3) by apply like_set.
      eapply tri_post; [eapply (tri_assign_new oom X P s0 L x o3 Sa nnz); eauto; rewrite Ex by exact Lk3; reflexivity|].
      intros _ s4 I4 S4 (Ho4 & _). eapply Fin; [exact I4|exact Ho4|eapply like_trans; [exact Lk3|apply like_set]|].
      intros [| |] _; cbn; [discriminate|discriminate|exact Np].
    - intros Hp. split; [auto|]. split; [auto|]. eapply Fin; [auto|exact Ho2|apply like_refl|].
      intros f Hf. rewrite (Ex o2 (like_refl o2)) in Hf. destruct f; [lia|lia|exact Np].
  Qed.
  Lemma tri_reserve (junk zero : V) oom X P (s0 : mem) L nnz x o s :
    inv s -> ext X P s0 s -> touches X s0 x -> In x L -> var s x = Some o -> o_kind o = KCoo \/ o_kind o = KCsr \/ o_kind o = KCsc ->
    tri X P s0 L (reserve junk zero oom nnz x) s (fun _ s' => reserved s' x o nnz).
  Proof.
    intros I E T IL Ho K. unfold reserve. get_ x. destruct K as [K|[K|K]]; rewrite K;
      [apply tri_reserve_coo|apply tri_reserve_csr|apply tri_reserve_csc]; auto.
  Qed.

  (* ---------------------------------------------------------------- *)
  (** ** Element accesses *)
  Lemma tri_access X P (s0 : mem) L x o s :
    inv s -> ext X P s0 s -> var s x = Some o -> arrays_valid s o -> attached o -> tri X P s0 L (access x) s (fun _ s' => s' = s).
  Proof.
    intros I E Ho A B. unfold access. get_ x.
    eapply tri_seq; [apply tri_read; [auto|auto|apply (valid_readable _ _ Sa A B)]|]. intros _ s1 _ _ _ (-> & _).
    eapply tri_seq; [apply tri_read; [auto|auto|apply (valid_readable _ _ Sb A B)]|]. intros _ s2 _ _ _ (-> & _).
    eapply tri_seq; [apply tri_read; [auto|auto|apply (valid_readable _ _ Sc A B)]|]. intros _ s3 _ _ _ (-> & _).
    apply tri_ret; auto.
  Qed.
  Lemma tri_overwrite X P (s0 : mem) L x o dv dr dc s :
    inv s -> ext X P s0 s -> touches X s0 x -> var s x = Some o -> arrays_valid s o -> attached o ->
    tri X P s0 L (overwrite x dv dr dc) s (fun _ s' => vars s' = vars s /\ arrays_valid s' o).
  Proof.
    intros I E T Ho A B. unfold overwrite. get_ x.
    eapply tri_seq; [eapply (tri_write_slot X P s0 L _ x o Sa); eauto; lia|].
    intros _ s2 I2 E2 S2 (Ev2 & A2). assert (Ho2 : var s2 x = Some o) by (rewrite (var_vars _ _ Ev2); exact Ho).
    eapply tri_seq; [eapply (tri_write_slot X P s0 L _ x o Sb); eauto; lia|].
    intros _ s3 I3 E3 S3 (Ev3 & A3). assert (Ho3 : var s3 x = Some o) by (rewrite (var_vars _ _ Ev3); exact Ho2).
    eapply tri_post; [eapply (tri_write_slot X P s0 L _ x o Sc); eauto; lia|].
    cbn beta. intros _ s4 _ _ (Ev4 & A4). split; [congruence|exact A4].
  Qed.
  Lemma tri_dense_to_sparse (junk zero : V) oom X P (s0 : mem) L nnz x o dv dr dc s :
    inv s -> ext X P s0 s -> touches X s0 x -> In x L -> var s x = Some o -> o_kind o = KCoo \/ o_kind o = KCsr \/ o_kind o = KCsc ->
    tri X P s0 L (dense_to_sparse junk zero oom x nnz dv dr dc) s (fun _ s' => True).
  Proof.
    intros I E T IL Ho K. unfold dense_to_sparse. eapply tri_seq; [eapply tri_reserve; eauto|].
    intros _ s1 I1 E1 S1 (o1 & Ho1 & _ & _ & _ & _ & _ & B & A).
    eapply tri_post; [eapply tri_overwrite; eauto|]. auto.
  Qed.

  Lemma tri_convert (junk zero : V) oom X P (s0 : mem) x y ox oy b sv sr sc dv dr dc s :
    inv s -> ext X P s0 s -> touches X s0 x -> touches X s0 y -> var s x = Some ox -> var s y = Some oy -> lent_ok s ox -> attached ox ->
    ((o_kind ox = KCoo /\ o_kind oy = KCsr) \/ (o_kind ox = KCoo /\ o_kind oy = KCsc /\ o_cols oy = o_cols ox) \/
     (o_kind ox = KCsr /\ o_kind oy = KCoo) \/ (o_kind ox = KCsc /\ o_kind oy = KCoo)) ->
    tri X P s0 [y] (convert junk zero oom x y b sv sr sc dv dr dc) s (fun _ s' => True).
  Proof.
    intros I E Tx Ty Hx Hy Lo B Kk. pose proof (lent_valid _ _ _ I Hx Lo) as A. unfold convert. get_ x. get_ y. req_ Hr. req_ Hc. req_ Hb.
    apply Z.eqb_eq in Hr. assert (IL : In y [y]) by (left; reflexivity).
    destruct Kk as [[Kx Ky]|[[Kx [Ky Hcc]]|[[Kx Ky]|[Kx Ky]]]]; rewrite Kx, Ky in *; cbn iota beta.
    - eapply tri_seq; [eapply (tri_overwrite X P s0 [y] x ox); eauto|]. intros _ s1 I1 E1 S1 (Ev1 & A1).
      assert (Hy1 : var s1 y = Some oy) by (rewrite (var_vars _ _ Ev1); exact Hy).
      eapply tri_seq; [eapply (tri_reserve_csr zero oom X P s0 [y]); eauto|]. intros _ s2 I2 E2 S2 (o2 & H2 & K2 & W2 & R2 & C2 & N2 & B2 & A2). get_ y.
      rewrite Ky in K2. assert (Ex : forall f, extent o2 f = match f with Sb => o_rows ox + 1 | _ => o_nnz ox end).
      { intros f. unfold extent. rewrite K2, R2, N2, Hr. destruct f; reflexivity. }
      eapply tri_seq; [eapply (tri_write_slot X P s0 [y] s2 y o2 Sb); eauto; solve [rewrite Ex; lia|intros Q; apply B2; rewrite Ex; exact Q]|].
      intros _ s3 I3 E3 S3 (Ev3 & A3). assert (H3 : var s3 y = Some o2) by (rewrite (var_vars _ _ Ev3); exact H2).
      eapply tri_seq; [eapply (tri_write_slot X P s0 [y] s3 y o2 Sc); eauto; solve [rewrite Ex; lia|intros Q; apply B2; rewrite Ex; exact Q]|].
      intros _ s4 I4 E4 S4 (Ev4 & A4). assert (H4 : var s4 y = Some o2) by (rewrite (var_vars _ _ Ev4); exact H3).
      eapply tri_post; [eapply (tri_write_slot X P s0 [y] s4 y o2 Sa); eauto; solve [rewrite Ex; lia|intros Q; apply B2; rewrite Ex; exact Q]|]. auto.
    - eapply tri_seq; [eapply (tri_overwrite X P s0 [y] x ox); eauto|]. intros _ s1 I1 E1 S1 (Ev1 & A1).
      assert (Hy1 : var s1 y = Some oy) by (rewrite (var_vars _ _ Ev1); exact Hy).
      eapply tri_seq; [eapply (tri_reserve_csc zero oom X P s0 [y]); eauto|]. intros _ s2 I2 E2 S2 (o2 & H2 & K2 & W2 & R2 & C2 & N2 & B2 & A2). get_ y.
      rewrite Ky in K2. assert (Ex : forall f, extent o2 f = match f with Sc => o_cols ox + 1 | _ => o_nnz ox end).
      { intros f. unfold extent. rewrite K2, C2, N2, Hcc. destruct f; reflexivity. }
      eapply tri_seq; [eapply (tri_write_slot X P s0 [y] s2 y o2 Sc); eauto; solve [rewrite Ex; lia|intros Q; apply B2; rewrite Ex; exact Q]|].
      intros _ s3 I3 E3 S3 (Ev3 & A3). assert (H3 : var s3 y = Some o2) by (rewrite (var_vars _ _ Ev3); exact H2).
      eapply tri_seq; [eapply (tri_write_slot X P s0 [y] s3 y o2 Sb); eauto; solve [rewrite Ex; lia|intros Q; apply B2; rewrite Ex; exact Q]|].
      intros _ s4 I4 E4 S4 (Ev4 & A4). assert (H4 : var s4 y = Some o2) by (rewrite (var_vars _ _ Ev4); exact H3).
      eapply tri_post; [eapply (tri_write_slot X P s0 [y] s4 y o2 Sa); eauto; solve [rewrite Ex; lia|intros Q; apply B2; rewrite Ex; exact Q]|]. auto.
    - assert (Nxy : x <> y) by congruence.
      eapply tri_seq; [eapply (tri_reserve_coo junk oom X P s0 [y]); eauto|]. intros _ s2 I2 E2 S2 (o2 & H2 & K2 & W2 & R2 & C2 & N2 & B2 & A2).
      assert (Hx2 : var s2 x = Some ox) by (rewrite (st_var _ _ _ S2); [exact Hx|eapply var_lt; eauto|cbn; intuition]).
      eapply tri_seq; [eapply (tri_access X P s0 [y] x ox); eauto; eapply valid_pres; [apply S2|exact A]|]. intros _ s3 _ _ _ ->.
      eapply tri_post; [eapply (tri_overwrite X P s0 [y] y o2); eauto|]. auto.
    - assert (Nxy : x <> y) by congruence.
      eapply tri_seq; [eapply (tri_reserve_coo junk oom X P s0 [y]); eauto|]. intros _ s2 I2 E2 S2 (o2 & H2 & K2 & W2 & R2 & C2 & N2 & B2 & A2).
      assert (Hx2 : var s2 x = Some ox) by (rewrite (st_var _ _ _ S2); [exact Hx|eapply var_lt; eauto|cbn; intuition]).
      eapply tri_seq; [eapply (tri_access X P s0 [y] x ox); eauto; eapply valid_pres; [apply S2|exact A]|]. intros _ s3 _ _ _ ->.
      eapply tri_post; [eapply (tri_overwrite X P s0 [y] y o2); eauto|]. auto.
  Qed.
End OwnProofs2.
