From Verif Require Import Base OwnModel OwnSpec OwnProofs OwnProofs2.

Section OwnProofs3.
  Context {V : Type}.
  Notation mem := (@mem V).

  Ltac get_ x := eapply tri_seq; [eapply (tri_get _ _ _ _ x); eauto|];
    let I := fresh in let E := fresh in let T := fresh in intros ? ? I E T (-> & ->); clear I E T.
  Ltac req_ H := eapply tri_seq; [apply tri_require; auto|];
    let I := fresh in let E := fresh in let T := fresh in intros _ ? I E T (-> & H); clear I E T.

  (** Like [tri], with the effect measured from an earlier state t. *)
  Definition trib {A} (X : list nat) (P : nat -> Prop) (s0 : mem) (L : list nat) (t : mem) (m : @prog V A) (s : mem) (Q : A -> mem -> Prop) : Prop :=
    match m s with
    | Val a s' => inv s' /\ ext X P s0 s' /\ step L t s' /\ Q a s'
    | Exc s' => inv s' /\ ext X P s0 s' /\ step L t s'
    | Undef => False
    end.
  Lemma tri_trib {A} X P s0 L t (m : @prog V A) s Q : step L t s -> tri X P s0 L m s Q -> trib X P s0 L t m s Q.
  Proof.
    intros T. unfold tri, trib. destruct (m s); [| |auto].
    - intros (I & E & S1 & q). split; [|split; [|split]]; auto. eapply step_trans; eauto.
    - intros (I & E & S1). split; [|split]; auto. eapply step_trans; eauto.
  Qed.
  Lemma trib_tri {A} X P s0 L (m : @prog V A) s Q : trib X P s0 L s m s Q -> tri X P s0 L m s Q.
  Proof. exact (fun H => H). Qed.
  Lemma step_drop L (t s : mem) y : step (y :: L) t s -> (length (vars t) <= y)%nat -> step L t s.
  Proof. intros A H. constructor; try apply A. intros z Lz N. apply A; [exact Lz|]. cbn [In]. intros [<-|I]; [lia|auto]. Qed.
  (** A fragment that also changes a local variable y. *)
  Lemma tri_trib_local {A} X P s0 L t y (m : @prog V A) s Q :
    step L t s -> (length (vars t) <= y)%nat -> tri X P s0 (y :: L) m s Q -> trib X P s0 L t m s Q.
  Proof.
    intros T Ly H. apply (tri_trib X P s0 (y :: L) t) in H; [|eapply step_incl; [|exact T]; apply incl_tl, incl_refl].
    unfold trib in *. destruct (m s); [| |auto].
    - destruct H as (I & E & S1 & q). split; [|split; [|split]]; auto. eapply step_drop; eauto.
    - destruct H as (I & E & S1). split; [|split]; auto. eapply step_drop; eauto.
  Qed.
  Lemma trib_seq {A B} X P s0 L t (m : @prog V A) (k : A -> @prog V B) s Q R :
    trib X P s0 L t m s Q ->
    (forall a s', inv s' -> ext X P s0 s' -> step L t s' -> Q a s' -> trib X P s0 L t (k a) s' R) ->
    trib X P s0 L t (seq m k) s R.
  Proof. unfold trib, seq. destruct (m s) as [a s1|s1|]; [|auto|auto]. intros (I & E & S1 & q) K. exact (K a s1 I E S1 q). Qed.
  Lemma trib_post {A} X P s0 L t (m : @prog V A) s (Q R : A -> mem -> Prop) :
    trib X P s0 L t m s Q -> (forall a s', inv s' -> ext X P s0 s' -> step L t s' -> Q a s' -> R a s') -> trib X P s0 L t m s R.
  Proof. unfold trib. destruct (m s); [|auto|auto]. intros (I & E & S1 & Q1) H. split; [|split; [|split]]; auto. Qed.

  (* ---------------------------------------------------------------- *)
  (** ** Moves *)
  Definition emptied (o o' : obj) : Prop :=
    o_kind o' = o_kind o /\ o_own o' = o_own o /\ (forall f, get_slot o' f = None) /\ o_nnz o' <= Z.max 0 (o_nnz o) /\
    o_rows o' = o_rows o /\ o_cols o' = o_cols o /\ o_full o' = o_full o.
  Definition moved_from (o : obj) : obj :=
    match o_kind o with
    | KDense | KBfo => set_slot o Sa None
    | KSkop => set_nnz (set_slot (set_slot (set_slot o Sb None) Sc None) Sa None) (-1)
    | _ => set_nnz (set_slot (set_slot (set_slot o Sb None) Sc None) Sa None) 0
    end.
  Lemma move_val s x o : var s x = Some o -> o_kind o <> KBfo ->
    move (V := V) x s = Val (length (vars s)) (mk_mem (heap s) (requests s) (set_nth (vars s ++ [Some o]) x (Some (moved_from o)))).
  Proof.
    intros H K. unfold move, seq, get_obj. rewrite (var_nth _ _ _ H). unfold new_obj, put_obj, ret. cbn [vars heap requests].
    unfold moved_from. destruct (o_kind o); [|congruence|..]; cbn [vars heap requests];
      rewrite nth_error_app1 by (eapply var_lt; eauto); rewrite (var_nth _ _ _ H); reflexivity.
  Qed.

  Lemma tri_move X P (s0 : mem) L x o s :
    inv s -> ext X P s0 s -> touches X s0 x -> In x L -> var s x = Some o -> o_kind o <> KBfo ->
    tri X P s0 L (move x) s (fun y s' => y = length (vars s) /\ length (vars s') = S y /\ heap s' = heap s /\ var s' y = Some o /\
                                         var s' x = Some (moved_from o) /\ (forall f, get_slot (moved_from o) f = None) /\
                                         forall w, w <> x -> (w < length (vars s))%nat -> var s' w = var s w).
  Proof.
    intros I E T IL Ho K. unfold tri. rewrite (move_val s x o Ho K). pose proof (var_lt _ _ _ Ho) as Lx. set (s' := mk_mem _ _ _).
    assert (Vr : forall y, var s' y = if Nat.eqb x y then Some (moved_from o) else if Nat.eqb (length (vars s)) y then Some o else var s y).
    { intros y. subst s'. rewrite var_put, app_length. destruct (Nat.eqb_spec x y); [replace (Nat.ltb x _) with true by (symmetry; apply Nat.ltb_lt; lia); reflexivity|].
      rewrite var_new. destruct (Nat.eqb (length (vars s)) y); reflexivity. }
    assert (Nu : forall f, get_slot (moved_from o) f = None).
    { intros f. unfold moved_from. destruct (o_kind o) eqn:Kd; try congruence; destruct f; try reflexivity;
        pose proof (i_dense s I x o Ho (or_introl Kd)) as [B C]; assumption. }
    assert (Mk : o_kind (moved_from o) = o_kind o /\ o_own (moved_from o) = o_own o) by (unfold moved_from; destruct (o_kind o) eqn:Kd; cbn; auto).
    set (n := length (vars s)) in *.
    assert (Vn : forall y p, var s' y = Some p -> (y = x /\ p = moved_from o) \/ (y = n /\ p = o) \/ (y <> x /\ y <> n /\ var s y = Some p)).
    { intros y p Ep. rewrite Vr in Ep. destruct (Nat.eqb_spec x y) as [<-|N]; [inj; auto|]. destruct (Nat.eqb_spec n y) as [<-|N2]; [inj; auto|auto]. }
    assert (Vnew : var s' n = Some o).
    { rewrite Vr. destruct (Nat.eqb_spec x n); [lia|]. now rewrite Nat.eqb_refl. }
    assert (Vold : forall y p, var s y = Some p -> y <> x -> var s' y = Some p).
    { intros y p Ep N. rewrite Vr. apply var_lt in Ep as Ly. fold n in Ly. destruct (Nat.eqb_spec x y); [congruence|]. destruct (Nat.eqb_spec n y); [lia|exact Ep]. }
    (* owners: what x owned is now owned by n *)
    assert (Pt : forall y f a, points s' y f a -> (y = n /\ points s x f a) \/ (y <> n /\ points s y f a)).
    { intros y f a (p & Ep & G). destruct (Vn _ _ Ep) as [(-> & ->)|[(-> & ->)|(N1 & N2 & Ep')]].
      - rewrite Nu in G. discriminate.
      - left. split; [reflexivity|]. exists o. auto.
      - right. split; [exact N2|]. exists p. auto. }
    assert (Ow : forall y f a, owns s' y f a -> (y = n /\ owns s x f a) \/ (y <> n /\ y <> x /\ owns s y f a)).
    { intros y f a (p & Ep & W & G). destruct (Vn _ _ Ep) as [(-> & ->)|[(-> & ->)|(N1 & N2 & Ep')]].
      - rewrite Nu in G. discriminate.
      - left. split; [reflexivity|]. exists o. auto.
      - right. split; [exact N2|]. split; [exact N1|]. exists p. auto. }
    split; [|split; [|split]].
    - constructor.
      + intros y f a Hp. change (heap s') with (heap s). destruct (Pt _ _ _ Hp) as [(_ & H)|(_ & H)]; eapply (i_ptr s I); eauto.
      + intros y p f a Ep W G. change (blk s' a) with (blk s a). destruct (Vn _ _ Ep) as [(-> & ->)|[(-> & ->)|(N1 & N2 & Ep')]].
        * rewrite Nu in G. discriminate.
        * apply (i_own s I x o f a); auto.
        * apply (i_own s I y p f a); auto.
      + intros y f z g a A B. apply Ow in A. apply Ow in B.
        destruct A as [(-> & A)|(N1 & N2 & A)], B as [(-> & B)|(M1 & M2 & B)]; destruct (i_uniq s I _ _ _ _ _ A B); subst; split; congruence.
      + intros a d Ed. destruct (i_leak s I a d Ed) as (y & f & p & Ep & W & G). destruct (Nat.eq_dec y x) as [->|N].
        * rewrite Ep in Ho. inj. exists n, f, o. auto.
        * exists y, f, p. split; [apply Vold; auto|auto].
      + intros y p Ep Kp W Np. destruct (Vn _ _ Ep) as [(-> & ->)|[(-> & ->)|(N1 & N2 & Ep')]].
        * destruct Mk as [Mk _]. rewrite Mk in Kp. unfold moved_from in Np. rewrite Kp in Np. cbn in Np. lia.
        * apply (i_skop s I x o); auto.
        * apply (i_skop s I y p); auto.
      + intros y p Ep Kp. destruct (Vn _ _ Ep) as [(-> & ->)|[(-> & ->)|(N1 & N2 & Ep')]].
        * split; [apply (Nu Sb)|apply (Nu Sc)].
        * apply (i_dense s I x o); auto.
        * apply (i_dense s I y p); auto.
    - constructor.
      + apply E.
      + unfold s'. cbn [vars]. rewrite length_set_nth, app_length. pose proof (e_vlen _ _ _ _ E). lia.
      + intros z Lz N. pose proof (e_vlen _ _ _ _ E). fold n in H. rewrite Vr. destruct (Nat.eqb_spec x z) as [<-|Nz]; [destruct T; [contradiction|lia]|].
        destruct (Nat.eqb_spec n z); [lia|]. apply E; auto.
      + apply E.
      + intros z f a Tz Hp La. destruct (Pt _ _ _ Hp) as [(_ & H)|(_ & H)].
        * apply (e_pts _ _ _ _ E x f a); auto.
        * apply (e_pts _ _ _ _ E z f a); auto.
    - constructor.
      + apply hpres_same. reflexivity.
      + unfold s'. cbn [vars]. rewrite length_set_nth, app_length. lia.
      + intros z Lz N. fold n in Lz. rewrite Vr. destruct (Nat.eqb_spec x z) as [<-|Nz]; [contradiction|]. destruct (Nat.eqb_spec n z); [lia|reflexivity].
      + intros z p Ep. destruct (Nat.eq_dec z x) as [->|N].
        * rewrite Ep in Ho. inj. exists (moved_from o). split; [rewrite Vr, Nat.eqb_refl; reflexivity|]. exact Mk.
        * exists p. split; [apply Vold; auto|auto].
    - split; [reflexivity|]. split; [unfold s'; cbn [vars]; rewrite length_set_nth, app_length; cbn; fold n; lia|].
      split; [reflexivity|]. split; [exact Vnew|]. split; [rewrite Vr, Nat.eqb_refl; reflexivity|]. split; [exact Nu|].
      intros w Nw Lw. fold n in Lw. rewrite Vr. destruct (Nat.eqb_spec x w); [congruence|]. destruct (Nat.eqb_spec n w); [lia|reflexivity].
  Qed.

  Lemma nth_error_ext {T} (l l' : list T) : (forall i, nth_error l i = nth_error l' i) -> l = l'.
  Proof.
    revert l'. induction l as [|a l IH]; intros [|b l'] H; [reflexivity|specialize (H O); discriminate|specialize (H O); discriminate|].
    pose proof (H O) as H0. cbn in H0. injection H0 as ->. f_equal. apply IH. intros i. exact (H (S i)).
  Qed.
  (** return y; for a local object y. *)
  Lemma trib_return elide X P (s0 : mem) L t y o s :
    inv s -> ext X P s0 s -> step L t s -> (length (vars s0) <= y)%nat -> (length (vars t) <= y)%nat -> var s y = Some o ->
    elide = true \/ o_kind o <> KBfo ->
    trib X P s0 L t (return_obj elide y) s
      (fun z s' => (length (vars s0) <= z)%nat /\ (length (vars t) <= z)%nat /\ heap s' = heap s /\ var s' z = Some o /\
                   forall w, w <> y -> (w < length (vars s))%nat -> var s' w = var s w).
  Proof.
    intros I E T L0 Lt Ho He. unfold return_obj. destruct elide.
    - unfold trib, ret. auto 12.
    - destruct He as [He|K]; [discriminate|].
      eapply trib_seq; [eapply (tri_trib_local _ _ _ _ _ y); [exact T|exact Lt|]; apply (tri_move X P s0 (y :: L) y o s); auto; [right; exact L0|left; reflexivity]|].
      intros z s1 I1 E1 S1 (-> & Ln & Hh & Vz & Vy & Nu & Fr). set (z := length (vars s)) in *. pose proof (var_lt _ _ _ Ho) as Ly. fold z in Ly.
      destruct (destroy_spec s1 y (moved_from o) I1 Vy) as (s2 & D & Dd). fold (destroyed y s1 s2) in Dd.
      assert (No : forall f a, ~ owns s1 y f a) by (intros f a (p & Ep & _ & G); rewrite Ep in Vy; inj; rewrite Nu in G; discriminate).
      unfold trib, seq. rewrite D. unfold ret. pose proof (var_destroyed _ _ _ Dd) as Vd.
      split; [eapply inv_destroyed; eauto|]. split; [eapply ext_destroyed; eauto; intros f a A; exfalso; eapply No; eauto|].
      split; [eapply step_destroyed; eauto; intros f a A; exfalso; eapply No; eauto|].
      split; [lia|]. split; [lia|]. split.
      + destruct Dd as (_ & El & _ & Hout). rewrite <- Hh. apply nth_error_ext. intros a. change (blk s2 a = blk s1 a). apply Hout. intros (f & A). eapply No; eauto.
      + split; [rewrite Vd; destruct (Nat.eqb_spec y z); [lia|exact Vz]|].
        intros w Nw Lw. rewrite Vd. destruct (Nat.eqb_spec y w); [congruence|]. apply Fr; auto.
  Qed.

  (* ---------------------------------------------------------------- *)
  (** ** Views *)
  (** A local non-owning object whose members are members of x. *)
  Lemma trib_view elide X P (s0 : mem) L t s x o p :
    inv s -> ext X P s0 s -> step L t s -> touches X s0 x -> var s x = Some o ->
    o_own p = false -> (forall f a, get_slot p f = Some a -> exists g, get_slot o g = Some a) ->
    o_kind p = KCoo \/ o_kind p = KCsr \/ o_kind p = KCsc ->
    trib X P s0 L t (seq (new_obj p) (return_obj elide)) s
      (fun z s' => (length (vars s0) <= z)%nat /\ (length (vars t) <= z)%nat /\ heap s' = heap s /\ var s' z = Some p /\
                   forall w, (w < length (vars s))%nat -> var s' w = var s w).
  Proof.
    intros I E T Tx Ho W Sub K.
    assert (Kn : forall k, k = KDense \/ k = KBfo \/ k = KSkop -> o_kind p <> k) by (intros k; intuition congruence).
    eapply trib_seq; [eapply tri_trib; [exact T|]; apply (tri_new_obj X P s0 L p s); auto|].
    - intros f a G. split; [exact W|]. destruct (Sub _ _ G) as (g & Gg). assert (Pg : points s x g a) by (exists o; auto). split.
      + eapply (i_ptr s I); eauto.
      + intros La. apply (e_pts _ _ _ _ E x g a); auto.
    - intros Q. exfalso. apply (Kn KSkop); auto.
    - intros [Q|Q]; exfalso; [apply (Kn KDense)|apply (Kn KBfo)]; auto.
    - intros y s1 I1 E1 S1 (-> & Hh & Vy & Ln & Fr).
      pose proof (e_vlen _ _ _ _ E). pose proof (st_len _ _ _ T).
      eapply trib_post; [apply (trib_return elide X P s0 L t _ p); auto; right; apply Kn; auto|].
      cbn beta. intros z s' I' E' S' (A & B & C & D & F). split; [exact A|]. split; [exact B|]. split; [congruence|]. split; [exact D|].
      intros w Lw. rewrite F by lia. auto.
  Qed.

  Lemma tri_coo_transpose elide X P (s0 : mem) L x o s :
    inv s -> ext X P s0 s -> touches X s0 x -> var s x = Some o ->
    tri X P s0 L (coo_transpose elide x) s
      (fun z s' => (length (vars s) <= z)%nat /\ heap s' = heap s /\
                   var s' z = Some (mk_obj KCoo false (o_cols o) (o_rows o) 0 (o_nnz o) (o_a o) (o_c o) (o_b o))).
  Proof.
    intros I E T Ho. unfold coo_transpose. get_ x. unfold new_coo_expert. cbn [when].
    unfold tri. set (p := mk_obj _ _ _ _ _ _ _ _ _).
    change (trib X P s0 L s (seq (new_obj p) (return_obj elide)) s (fun z s' => (length (vars s) <= z)%nat /\ heap s' = heap s /\ var s' z = Some p)).
    eapply trib_post; [apply (trib_view elide X P s0 L s s x o p); auto using step_refl|].
    - intros [| |] a G; cbn [get_slot p o_a o_b o_c] in G; [exists Sa|exists Sc|exists Sb]; exact G.
    - cbn beta. intros z s' _ _ _ (A & B & C & D & _). auto.
  Qed.

  Lemma tri_coo_view junk oom elide X P (s0 : mem) L x o nnz dv dr dc s :
    inv s -> ext X P s0 s -> touches X s0 x -> In x L -> var s x = Some o -> o_kind o = KSkop -> skop_ok s o -> 0 < nnz <= o_full o ->
    tri X P s0 L (coo_view_of_skop junk oom elide x nnz dv dr dc) s
      (fun z s' => (length (vars s0) <= z)%nat /\ (length (vars s) <= z)%nat /\
         exists o' p, var s' x = Some o' /\ var s' z = Some p /\ o_own p = false /\ o_kind p = KCoo /\ arrays_valid s' p /\ attached p /\
           o_rows p = o_rows o /\ o_cols p = o_cols o /\ 0 < o_nnz p /\ forall f, get_slot p f = get_slot o' f).
  Proof.
    intros I E T IL Ho K [Lo Sk] Hn. unfold coo_view_of_skop. get_ x.
    eapply tri_seq with (Q := fun _ s' => exists o1, var s' x = Some o1 /\ o_kind o1 = KSkop /\ o_rows o1 = o_rows o /\ o_cols o1 = o_cols o /\
        0 < o_nnz o1 <= o_full o1 /\ (forall f, get_slot o1 f <> None) /\ arrays_valid s' o1).
    - apply tri_when.
      + intros _. eapply tri_post; [eapply (tri_fill_sparse junk oom X P s0 L x o); eauto|]. cbn beta.
        intros _ s' _ _ (o1 & H1 & K1 & _ & R1 & C1 & F1 & N1 & Ne & A). exists o1. rewrite N1, F1. auto 10.
      + intros Np. apply Z.leb_gt in Np. split; [exact I|]. split; [exact E|]. exists o. split; [exact Ho|]. split; [exact K|].
        split; [reflexivity|]. split; [reflexivity|]. split; [|split; [|eapply lent_valid; eauto]]; destruct (o_own o) eqn:W.
        * destruct (i_skop s I x o Ho K W Np). lia.
        * destruct (Sk eq_refl Np). lia.
        * destruct (i_skop s I x o Ho K W Np) as [Q _]. exact Q.
        * destruct (Sk eq_refl Np) as [Q Q']. intros f. apply Q. unfold extent. rewrite K. lia.
    - intros _ s1 I1 E1 S1 (o1 & H1 & K1 & R1 & C1 & N1 & Ne & A1). get_ x.
      set (p := mk_obj KCoo false (o_rows o1) (o_cols o1) 0 (o_nnz o1) (o_a o1) (o_b o1) (o_c o1)).
      assert (Rd : forall f, readable s1 (get_slot o1 f) (o_nnz o1)).
      { intros f. eapply readable_le; [apply valid_readable; [exact A1|intros g _; apply Ne]|]. unfold extent. rewrite K1. lia. }
      assert (Ap : arrays_valid s1 p).
      { intros f a G Hf. assert (G' : get_slot o1 f = Some a) by (destruct f; exact G).
        assert (X1 : extent p f = o_nnz o1) by (destruct f; reflexivity). assert (X2 : extent o1 f = o_full o1) by (unfold extent; rewrite K1; reflexivity).
        destruct (A1 f a G' ltac:(lia)) as (w & d & Ed & Ld). exists w, d. split; [exact Ed|lia]. }
      unfold new_coo_expert.
      apply trib_tri. eapply trib_seq with (Q := fun y s2 => y = length (vars s1) /\ heap s2 = heap s1 /\ var s2 y = Some p /\ length (vars s2) = S (length (vars s1)) /\ forall w, (w < length (vars s1))%nat -> var s2 w = var s1 w).
      + apply tri_trib; [apply step_refl|]. eapply tri_seq with (Q := fun _ s' => s' = s1).
        * cbn [when]. eapply tri_seq; [apply tri_read; [exact I1|exact E1|apply (Rd Sb)]|]. intros _ s2 _ _ _ (-> & _).
          eapply tri_seq; [apply tri_read; [exact I1|exact E1|apply (Rd Sc)]|]. intros _ s3 _ _ _ (-> & _). apply tri_ret; auto.
        * intros _ s2 _ _ _ ->. fold p. apply tri_new_obj; auto.
          -- intros f a G. assert (Pg : points s1 x f a) by (exists o1; split; [exact H1|destruct f; exact G]). split; [reflexivity|]. split; [eapply (i_ptr s1 I1); eauto|].
             intros La. apply (e_pts _ _ _ _ E1 x f a); auto.
          -- cbn. congruence.
          -- cbn. intuition congruence.
      + intros y s2 I2 E2 S2 (-> & Hh2 & Vy & Ln & Fr). pose proof (e_vlen _ _ _ _ E1). pose proof (st_len _ _ _ S1). pose proof (var_lt _ _ _ H1).
        eapply trib_post; [apply (trib_return elide X P s0 L s1 _ p); auto; cbn; right; congruence|].
        cbn beta. intros z s' I' E' S' (A & B & C & D & F). split; [exact A|]. split; [lia|]. exists o1, p.
        split; [rewrite F by lia; rewrite Fr; auto|]. split; [exact D|]. split; [reflexivity|]. split; [reflexivity|].
        split; [eapply valid_pres; [apply S'|exact Ap]|]. split; [intros f _; replace (get_slot p f) with (get_slot o1 f) by (destruct f; reflexivity); apply Ne|].
        split; [exact R1|]. split; [exact C1|]. split; [cbn; lia|]. intros f; destruct f; reflexivity.
  Qed.

  (* ---------------------------------------------------------------- *)
  (** ** Copies *)
  Lemma contents_read (s : mem) p n l : (forall a w d, p = Some a -> blk s a = Some (mk_block w false d) -> l = firstn (Z.to_nat n) d) ->
    readable s p n -> zlen l = Z.max 0 n -> l = contents s p n.
  Proof.
    intros H R Z1. unfold contents. destruct (Z.ltb_spec 0 n) as [Hn|Hn].
    - destruct (R Hn) as (a & w & d & -> & Eb & _). rewrite Eb. eapply H; eauto.
    - assert (l = []) by (destruct l; [reflexivity|rewrite zlen_cons in Z1; pose proof (zlen_nonneg l); lia]). subst l.
      replace (Z.to_nat n) with O by lia. destruct p; [destruct (blk s n0)|]; reflexivity.
  Qed.
  (** A copying transposition raises only after giving back what it allocated. *)
  Lemma trib_caught {A B} X P (s0 : mem) L t y (m : @prog V A) (k : A -> @prog V B) s o Q R :
    tri X P s0 (y :: L) m s Q -> step L t s -> (length (vars s0) <= y)%nat -> (length (vars t) <= y)%nat -> var s y = Some o ->
    (forall s', inv s' -> ext X P s0 s' -> forall f a, owns s' y f a -> (length (heap s0) <= a)%nat /\ (length (heap t) <= a)%nat) ->
    (forall a s', inv s' -> ext X P s0 s' -> step L t s' -> step (y :: L) s s' -> Q a s' -> trib X P s0 L t (k a) s' R) ->
    trib X P s0 L t (fun s => match m s with Val a s => k a s | Exc s => seq (destroy y) (fun _ => raise) s | Undef => Undef end) s R.
  Proof.
    intros H T L0 Lt Ho New K. unfold trib. unfold tri in H. destruct (m s) as [a s1|s1|]; [| |exact H].
    - destruct H as (I & E & S1 & q). apply K; auto. eapply step_drop; [|exact Lt]. eapply step_trans; [|exact S1]. eapply step_incl; [|exact T]. apply incl_tl, incl_refl.
    - destruct H as (I & E & S1). destruct (st_alive _ _ _ S1 _ _ Ho) as (o1 & Ho1 & _).
      destruct (destroy_spec s1 y o1 I Ho1) as (s2 & D & Dd). fold (destroyed y s1 s2) in Dd. unfold seq. rewrite D. unfold raise.
      split; [eapply inv_destroyed; eauto|]. split; [eapply ext_destroyed; eauto; intros f b A1; eapply New; eauto|].
      apply (step_destroyed L t s1 y s2); [|exact Dd|exact Lt|intros f b A1; apply (New s1 I E f b A1)].
      eapply step_drop; [|exact Lt]. eapply step_trans; [|exact S1]. eapply step_incl; [|exact T]. apply incl_tl, incl_refl.
  Qed.
  Definition nothing (_ : nat) : Prop := False.
  Lemma ext_nothing_contents (s s' : mem) p n : ext [] nothing s s' -> exists_ptr s p -> contents s' p n = contents s p n.
  Proof.
    intros E Hp. unfold contents. destruct p as [a|]; [|reflexivity]. destruct (blk s a) as [[w fr d]|] eqn:Eb.
    - destruct (e_heap _ _ _ _ E _ _ _ _ Eb) as (d' & Eb' & _ & Sm). rewrite Eb', Sm by (intros []). reflexivity.
    - exfalso. specialize (Hp a eq_refl). unfold blk in Eb. apply nth_error_None in Eb. lia.
  Qed.
  (** Writing into one member of an owning object. *)
  Lemma tri_copy X P (s0 : mem) L y p f l s :
    inv s -> ext X P s0 s -> touches X s0 y -> var s y = Some p -> o_own p = true -> (l <> [] -> zlen l <= extent p f /\ get_slot p f <> None) ->
    tri X P s0 L (write (get_slot p f) l) s
      (fun _ s' => vars s' = vars s /\ contents s' (get_slot p f) (zlen l) = l /\
                   forall g n, g <> f -> contents s' (get_slot p g) n = contents s (get_slot p g) n).
  Proof.
    intros I E T Hy W Hln. eapply tri_post.
    - apply tri_write; [exact I|exact E|]. intros Nl. destruct (Hln Nl) as [Hl Hn]. destruct (get_slot p f) as [a|] eqn:G; [|congruence].
      destruct (i_own s I y p f a Hy W G) as (d & Ed & Ld). exists a, Lib, d. split; [reflexivity|]. split; [exact Ed|]. split; [lia|].
      intros La. apply (e_pts _ _ _ _ E y f a); auto. exists p. auto.
    - cbn beta. intros _ s' _ _ (Ev & _ & Ot & Wr). split; [exact Ev|]. split.
      + destruct l as [|v l]; [unfold contents; cbn; destruct (get_slot p f); [destruct (blk s' n)|]; reflexivity|].
        destruct (Hln ltac:(discriminate)) as [Hl Hn]. destruct (get_slot p f) as [a|] eqn:G; [|congruence].
        destruct (i_own s I y p f a Hy W G) as (d & Ed & Ld). unfold contents. rewrite (Wr a Lib d eq_refl Ed). cbn [b_data].
        unfold zlen. rewrite Nat2Z.id. rewrite firstn_app, firstn_all, Nat.sub_diag. cbn [firstn]. apply app_nil_r.
      + intros g n Ng. unfold contents. destruct (get_slot p g) as [b|] eqn:Gb; [|reflexivity]. rewrite Ot; [reflexivity|].
        intros Ga. assert (O1 : owns s y f b) by (exists p; auto). assert (O2 : owns s y g b) by (exists p; auto).
        destruct (i_uniq s I _ _ _ _ _ O1 O2). congruence.
  Qed.
  Lemma contents_vars (s s' : mem) p n : heap s' = heap s -> contents s' p n = contents s p n.
  Proof. intros H. unfold contents, blk. rewrite H. reflexivity. Qed.
  Lemma zlen_contents (s : mem) p n : readable s p n -> zlen (contents s p n) = Z.max 0 n.
  Proof.
    intros R. unfold contents. destruct (Z.ltb_spec 0 n) as [Hn|Hn].
    - destruct (R Hn) as (a & w & d & -> & Eb & Ld). rewrite Eb. cbn [b_data]. unfold zlen in *. rewrite firstn_length. lia.
    - replace (Z.to_nat n) with O by lia. destruct p; [destruct (blk s n0)|]; cbn; lia.
  Qed.
  Lemma readable_ext (s s' : mem) p n : hpres s s' -> readable s p n -> readable s' p n.
  Proof.
    intros [_ H] R Hn. destruct (R Hn) as (a & w & d & -> & Eb & Ld). destruct (H _ _ _ _ Eb) as (d' & Eb' & Ll).
    exists a, w, d'. split; [reflexivity|]. split; [exact Eb'|]. unfold zlen in *. lia.
  Qed.

  Lemma copy_step (s : mem) x o y p :
    inv s -> var s x = Some o -> arrays_valid s o -> attached o -> touches [] s y -> o_own p = true -> attached p ->
    forall f g n (u : mem), n = extent p f -> n <= extent o g ->
      inv u -> ext [] nothing s u -> step [] s u -> var u y = Some p ->
      forall (k : @prog V nat) R',
      (forall u', inv u' -> ext [] nothing s u' -> step [] s u' -> var u' y = Some p ->
         contents u' (get_slot p f) n = contents s (get_slot o g) n ->
         (forall h m, h <> f -> contents u' (get_slot p h) m = contents u (get_slot p h) m) ->
         trib [] nothing s [] s k u' R') ->
      trib [] nothing s [] s (seq (read (get_slot o g) n) (fun l => seq (write (get_slot p f) l) (fun _ => k))) u R'.
  Proof.
    intros I Ho A B Ty Wp Bp f g n u En Le Iu Eu Su Vu k R' Hk.
    assert (Rd : readable s (get_slot o g) (extent o g)) by (apply valid_readable; auto).
    assert (Ep : exists_ptr s (get_slot o g)) by (intros a G; apply (i_ptr s I x g a); exists o; auto).
    assert (Rs : readable s (get_slot o g) n) by (eapply readable_le; [apply Rd|exact Le]).
    assert (Ru : readable u (get_slot o g) n) by (eapply readable_ext; [apply Su|exact Rs]).
    eapply trib_seq; [apply tri_trib; [exact Su|]; apply tri_read; auto|]. intros l u1 _ _ _ (-> & Hl & Zl).
    pose proof (contents_read u _ n l Hl Ru Zl) as El. rewrite (ext_nothing_contents s u _ n Eu Ep) in El.
    assert (Nl : l <> [] -> 0 < n) by (intros Nl; destruct l; [congruence|]; rewrite zlen_cons in Zl; pose proof (zlen_nonneg l); lia).
    eapply trib_seq; [apply tri_trib; [exact Su|]; apply (tri_copy [] nothing s [] y p f l u); auto|].
    - intros Q. specialize (Nl Q). split; [lia|]. apply Bp. lia.
    - cbn beta. intros _ u2 I2 E2 S2 (Ev & C1 & C2). apply Hk; auto.
      + rewrite (var_vars _ _ Ev). exact Vu.
      + destruct (Z.ltb_spec 0 n) as [Hn|Hn].
        * replace n with (zlen l) at 1 by lia. rewrite C1. exact El.
        * unfold contents. replace (Z.to_nat n) with O by lia. destruct (get_slot p f) as [a|], (get_slot o g) as [b|];
            repeat match goal with |- context [match ?m with _ => _ end] => destruct m end; reflexivity.
  Qed.

  Lemma tri_transpose_as_csr_copy zero oom elide x o (s : mem) :
    inv s -> var s x = Some o -> o_kind o = KCsc -> lent_ok s o -> attached o ->
    tri [] nothing s [] (transpose_as_csr zero oom elide x false) s
      (fun z s' => (length (vars s) <= z)%nat /\ exists p, copy_of s s' z p o KCsr (o_cols o + 1) (o_nnz o)).
  Proof.
    intros I Ho K Lo B. pose proof (lent_valid _ _ _ I Ho Lo) as A. assert (E : ext [] nothing s s) by (apply ext_refl; intros z f a []).
    assert (Rd : forall f, readable s (get_slot o f) (extent o f)) by (intros f; apply valid_readable; auto).
    assert (Ep : forall f, exists_ptr s (get_slot o f)) by (intros f a G; apply (i_ptr s I x f a); exists o; auto).
    assert (Xa : extent o Sa = o_nnz o) by (unfold extent; rewrite K; reflexivity).
    assert (Xb : extent o Sb = o_nnz o) by (unfold extent; rewrite K; reflexivity).
    assert (Xc : extent o Sc = o_cols o + 1) by (unfold extent; rewrite K; reflexivity).
    unfold transpose_as_csr. get_ x. apply trib_tri. unfold new_csr.
    set (q := mk_obj KCsr true (o_cols o) (o_rows o) 0 0 None None None).
    eapply trib_seq; [apply tri_trib; [apply step_refl|]; apply (tri_new_obj [] nothing s [] q s); auto|].
    { intros [| |] a G; discriminate G. } { cbn. intuition congruence. }
    intros y s1 I1 E1 S1 (-> & Hh1 & Vy1 & Ln1 & Fr1). set (y := length (vars s)) in *.
    eapply (trib_caught [] nothing s [] s y); [eapply (tri_reserve_csr zero oom [] nothing s [y] (o_nnz o) y q); eauto; [right; unfold y; lia|left; reflexivity]|exact S1|unfold y; lia|unfold y; lia|exact Vy1| |].
    { intros s' I' E' f a (p & Ev & W & G). destruct (Nat.lt_ge_cases a (length (heap s))) as [La|La]; [|auto].
      exfalso. apply (e_pts _ _ _ _ E' y f a); [right; unfold y; lia|exists p; auto|exact La]. }
    intros _ s2 I2 E2 S2 S12 (p & Vy2 & K2 & W2 & R2 & C2 & N2 & B2 & A2). cbn [q o_kind o_rows o_cols] in K2, R2, C2.
    assert (Ex : forall f, extent p f = match f with Sb => o_cols o + 1 | _ => o_nnz o end).
    { intros f. unfold extent. rewrite K2, R2, N2. destruct f; reflexivity. }
    assert (Ty : touches [] s y) by (right; unfold y; lia).
    eapply trib_seq; [apply tri_trib; [exact S2|]; apply (tri_get [] nothing s [] y p s2); auto|]. intros ? ? _ _ _ (-> & ->).
    assert (Step : forall f g n (u : mem), n = extent p f -> n <= extent o g ->
              inv u -> ext [] nothing s u -> step [] s u -> var u y = Some p ->
              forall (k : @prog V nat) R',
              (forall u', inv u' -> ext [] nothing s u' -> step [] s u' -> var u' y = Some p ->
                 contents u' (get_slot p f) n = contents s (get_slot o g) n ->
                 (forall h m, h <> f -> contents u' (get_slot p h) m = contents u (get_slot p h) m) ->
                 trib [] nothing s [] s k u' R') ->
              trib [] nothing s [] s (seq (read (get_slot o g) n) (fun l => seq (write (get_slot p f) l) (fun _ => k))) u R').
    { apply (copy_step s x o y p); auto. }
    eapply (Step Sc Sb (o_nnz o)); [rewrite Ex; reflexivity|lia|exact I2|exact E2|exact S2|exact Vy2|].
    intros s3 I3 E3 S3 Vy3 Cc _.
    eapply (Step Sa Sa (o_nnz o)); [rewrite Ex; reflexivity|lia|exact I3|exact E3|exact S3|exact Vy3|].
    intros s4 I4 E4 S4 Vy4 Ca F4.
    eapply (Step Sb Sc (o_cols o + 1)); [rewrite Ex; reflexivity|lia|exact I4|exact E4|exact S4|exact Vy4|].
    intros s5 I5 E5 S5 Vy5 Cb F5. cbn [get_slot] in Ca, Cb, Cc, F4, F5.
    eapply trib_post; [apply (trib_return elide [] nothing s [] s y p); auto; rewrite K2; right; discriminate|].
    cbn beta. intros z s' _ _ _ (L1 & _ & Hh & Vz & _). split; [exact L1|]. exists p. unfold copy_of. rewrite !(contents_vars s5 s') by exact Hh.
    repeat (split; [assumption|]). split; [rewrite (F5 Sa) by discriminate; exact Ca|]. split; [exact Cb|].
    rewrite (F5 Sc), (F4 Sc) by discriminate. exact Cc.
  Qed.
  Lemma tri_transpose_as_csc_copy zero oom elide x o (s : mem) :
    inv s -> var s x = Some o -> o_kind o = KCsr -> lent_ok s o -> attached o ->
    tri [] nothing s [] (transpose_as_csc zero oom elide x false) s
      (fun z s' => (length (vars s) <= z)%nat /\ exists p, copy_of s s' z p o KCsc (o_nnz o) (o_rows o + 1)).
  Proof.
    intros I Ho K Lo B. pose proof (lent_valid _ _ _ I Ho Lo) as A. assert (E : ext [] nothing s s) by (apply ext_refl; intros z f a []).
    assert (Rd : forall f, readable s (get_slot o f) (extent o f)) by (intros f; apply valid_readable; auto).
    assert (Ep : forall f, exists_ptr s (get_slot o f)) by (intros f a G; apply (i_ptr s I x f a); exists o; auto).
    assert (Xa : extent o Sa = o_nnz o) by (unfold extent; rewrite K; reflexivity).
    assert (Xb : extent o Sb = o_rows o + 1) by (unfold extent; rewrite K; reflexivity).
    assert (Xc : extent o Sc = o_nnz o) by (unfold extent; rewrite K; reflexivity).
    unfold transpose_as_csc. get_ x. apply trib_tri. unfold new_csc.
    set (q := mk_obj KCsc true (o_cols o) (o_rows o) 0 0 None None None).
    eapply trib_seq; [apply tri_trib; [apply step_refl|]; apply (tri_new_obj [] nothing s [] q s); auto|].
    { intros [| |] a G; discriminate G. } { cbn. intuition congruence. }
    intros y s1 I1 E1 S1 (-> & Hh1 & Vy1 & Ln1 & Fr1). set (y := length (vars s)) in *.
    eapply (trib_caught [] nothing s [] s y); [eapply (tri_reserve_csc zero oom [] nothing s [y] (o_nnz o) y q); eauto; [right; unfold y; lia|left; reflexivity]|exact S1|unfold y; lia|unfold y; lia|exact Vy1| |].
    { intros s' I' E' f a (p & Ev & W & G). destruct (Nat.lt_ge_cases a (length (heap s))) as [La|La]; [|auto].
      exfalso. apply (e_pts _ _ _ _ E' y f a); [right; unfold y; lia|exists p; auto|exact La]. }
    intros _ s2 I2 E2 S2 S12 (p & Vy2 & K2 & W2 & R2 & C2 & N2 & B2 & A2). cbn [q o_kind o_rows o_cols] in K2, R2, C2.
    assert (Ex : forall f, extent p f = match f with Sc => o_rows o + 1 | _ => o_nnz o end).
    { intros f. unfold extent. rewrite K2, C2, N2. destruct f; reflexivity. }
    assert (Ty : touches [] s y) by (right; unfold y; lia).
    eapply trib_seq; [apply tri_trib; [exact S2|]; apply (tri_get [] nothing s [] y p s2); auto|]. intros ? ? _ _ _ (-> & ->).
    assert (Step : forall f g n (u : mem), n = extent p f -> n <= extent o g ->
              inv u -> ext [] nothing s u -> step [] s u -> var u y = Some p ->
              forall (k : @prog V nat) R',
              (forall u', inv u' -> ext [] nothing s u' -> step [] s u' -> var u' y = Some p ->
                 contents u' (get_slot p f) n = contents s (get_slot o g) n ->
                 (forall h m, h <> f -> contents u' (get_slot p h) m = contents u (get_slot p h) m) ->
                 trib [] nothing s [] s k u' R') ->
              trib [] nothing s [] s (seq (read (get_slot o g) n) (fun l => seq (write (get_slot p f) l) (fun _ => k))) u R').
    { apply (copy_step s x o y p); auto. }
    eapply (Step Sb Sc (o_nnz o)); [rewrite Ex; reflexivity|lia|exact I2|exact E2|exact S2|exact Vy2|].
    intros s3 I3 E3 S3 Vy3 Cb _.
    eapply (Step Sa Sa (o_nnz o)); [rewrite Ex; reflexivity|lia|exact I3|exact E3|exact S3|exact Vy3|].
    intros s4 I4 E4 S4 Vy4 Ca F4.
    eapply (Step Sc Sb (o_rows o + 1)); [rewrite Ex; reflexivity|lia|exact I4|exact E4|exact S4|exact Vy4|].
    intros s5 I5 E5 S5 Vy5 Cc F5. cbn [get_slot] in Ca, Cb, Cc, F4, F5.
    eapply trib_post; [apply (trib_return elide [] nothing s [] s y p); auto; rewrite K2; right; discriminate|].
    cbn beta. intros z s' _ _ _ (L1 & _ & Hh & Vz & _). split; [exact L1|]. exists p. unfold copy_of. rewrite !(contents_vars s5 s') by exact Hh.
    repeat (split; [assumption|]). split; [rewrite (F5 Sa) by discriminate; exact Ca|]. split; [rewrite (F5 Sb), (F4 Sb) by discriminate; exact Cb|exact Cc].
  Qed.
End OwnProofs3.
