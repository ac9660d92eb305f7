From Verif Require Import Base OwnModel OwnSpec OwnProofs OwnProofs2 OwnProofs3.

Section OwnProofs4.
  Context {V : Type}.
  Notation mem := (@mem V).

  Ltac get_ x := eapply tri_seq; [eapply (tri_get _ _ _ _ x); eauto|];
    let I := fresh in let E := fresh in let T := fresh in intros ? ? I E T (-> & ->); clear I E T.
  Ltac req_ H := eapply tri_seq; [apply tri_require; auto|];
    let I := fresh in let E := fresh in let T := fresh in intros _ ? I E T (-> & H); clear I E T.

  (* ---------------------------------------------------------------- *)
  (** ** submatrix_as_blackbox *)
  (** A new array and a new object that owns it. *)
  Lemma new_owned X P (s0 : mem) L d o s r :
    inv s -> ext X P s0 s -> o_kind o = KBfo -> o_own o = true ->
    o_a o = Some (length (heap s)) -> o_b o = None -> o_c o = None -> zlen d = extent o Sa ->
    let s' := mk_mem (heap s ++ [mk_block Lib false d]) r (vars s ++ [Some o]) in
    inv s' /\ ext X P s0 s' /\ step L s s'.
  Proof.
    intros I E K W Ga Gb Gc Hd s'. set (n := length (vars s)). set (h := length (heap s)) in *.
    assert (Vr : forall y, var s' y = if Nat.eqb n y then Some o else var s y) by (intros y; unfold s'; rewrite var_new; reflexivity).
    assert (Hb : forall a, (a < h)%nat -> blk s' a = blk s a) by (intros a La; unfold blk, s'; cbn [heap]; now rewrite nth_error_app1).
    assert (Hb0 : blk s' h = Some (mk_block Lib false d)) by (unfold blk, s', h; cbn [heap]; rewrite nth_error_app2, Nat.sub_diag by lia; reflexivity).
    assert (Lb : forall a b, blk s a = Some b -> (a < h)%nat) by (intros a b Ea; apply nth_error_Some; unfold blk in Ea; rewrite Ea; discriminate).
    assert (Sl : forall f a, get_slot o f = Some a -> f = Sa /\ a = h) by (intros [| |] a G; cbn in G; split; congruence).
    assert (Vn : forall y p, var s' y = Some p -> (y = n /\ p = o) \/ (y <> n /\ var s y = Some p)).
    { intros y p Ep. rewrite Vr in Ep. destruct (Nat.eqb_spec n y) as [<-|N]; [inj; auto|auto]. }
    assert (Vo : forall y p, var s y = Some p -> var s' y = Some p).
    { intros y p Ep. rewrite Vr. apply var_lt in Ep as Ly. fold n in Ly. destruct (Nat.eqb_spec n y); [lia|exact Ep]. }
    assert (Ow : forall y f a, owns s' y f a -> (y = n /\ f = Sa /\ a = h) \/ (y <> n /\ owns s y f a /\ (a < h)%nat)).
    { intros y f a (p & Ep & Wp & G). destruct (Vn _ _ Ep) as [(-> & ->)|(N & Ep')].
      - destruct (Sl _ _ G). auto.
      - right. split; [exact N|]. split; [exists p; auto|]. apply (i_ptr s I y f a). exists p. auto. }
    split; [|split].
    - constructor.
      + intros y f a (p & Ep & G). unfold s'. cbn [heap]. rewrite app_length. cbn [length]. destruct (Vn _ _ Ep) as [(-> & ->)|(N & Ep')].
        * destruct (Sl _ _ G) as [_ ->]. unfold h. lia.
        * assert (a < length (heap s))%nat by (apply (i_ptr s I y f a); exists p; auto). lia.
      + intros y p f a Ep Wp G. destruct (Vn _ _ Ep) as [(-> & ->)|(N & Ep')].
        * destruct (Sl _ _ G) as [-> ->]. exists d. auto.
        * destruct (i_own s I y p f a Ep' Wp G) as (d' & Ed & Ld). exists d'. rewrite Hb; [auto|]. eapply Lb; eauto.
      + intros y f z g a A B. apply Ow in A. apply Ow in B.
        destruct A as [(-> & -> & ->)|(N1 & A & La)], B as [(-> & -> & Eb)|(N2 & B & Lb')]; auto; try lia. eapply (i_uniq s I); eauto.
      + intros a d' Ed. destruct (Nat.eq_dec a h) as [->|Na].
        * exists n, Sa, o. rewrite Vr, Nat.eqb_refl. auto.
        * assert (La : (a < h)%nat).
          { assert (a < length (heap s'))%nat by (apply nth_error_Some; unfold blk in Ed; rewrite Ed; discriminate).
            unfold s' in H. cbn [heap] in H. rewrite app_length in H. cbn [length] in H. unfold h in *. lia. }
          rewrite Hb in Ed by exact La. destruct (i_leak s I a d' Ed) as (y & f & p & Ep & R). exists y, f, p. auto.
      + intros y p Ep Kp Wp Np. destruct (Vn _ _ Ep) as [(-> & ->)|(N & Ep')]; [congruence|]. eapply (i_skop s I); eauto.
      + intros y p Ep Kp. destruct (Vn _ _ Ep) as [(-> & ->)|(N & Ep')]; [auto|]. eapply (i_dense s I); eauto.
    - pose proof (e_hlen _ _ _ _ E). pose proof (e_vlen _ _ _ _ E). constructor.
      + unfold s'. cbn [heap]. rewrite app_length. lia.
      + unfold s'. cbn [vars]. rewrite app_length. lia.
      + intros z Lz N. rewrite Vr. fold n in H0. destruct (Nat.eqb_spec n z); [lia|]. apply E; auto.
      + intros a w fr d' Ea. destruct (e_heap _ _ _ _ E _ _ _ _ Ea) as (d1 & E1 & L1 & S1). exists d1. rewrite Hb; [auto|]. eapply Lb; eauto.
      + intros z f a Tz (p & Ep & G) La. destruct (Vn _ _ Ep) as [(-> & ->)|(N & Ep')].
        * destruct (Sl _ _ G) as [_ ->]. fold h in H. lia.
        * apply (e_pts _ _ _ _ E z f a Tz); [exists p; auto|exact La].
    - constructor.
      + split; [unfold s'; cbn [heap]; rewrite app_length; lia|]. intros a w fr d' Ea. exists d'. rewrite Hb; [auto|]. eapply Lb; eauto.
      + unfold s'. cbn [vars]. rewrite app_length. lia.
      + intros z Lz N. fold n in Lz. rewrite Vr. destruct (Nat.eqb_spec n z); [lia|reflexivity].
      + intros z p Ep. exists p. auto.
  Qed.
  Lemma more_requests X P (s0 : mem) L s r : inv s -> ext X P s0 s ->
    let s' := mk_mem (heap s) r (vars s) in inv s' /\ ext X P s0 s' /\ step L s s'.
  Proof.
    intros I E s'. split; [|split]; [constructor; apply I|constructor; apply E|].
    constructor; [apply hpres_same; reflexivity|cbn; lia|reflexivity|]. intros z p Ep. exists p. auto.
  Qed.
  Lemma set_nth_snoc {T} (l : list T) a b : set_nth (l ++ [a]) (length l) b = l ++ [b].
  Proof. induction l as [|c l IH]; [reflexivity|]. cbn. f_equal. exact IH. Qed.
  Lemma tri_blackbox junk oom X P (s0 : mem) L x o r c ro co d s :
    inv s -> ext X P s0 s -> var s x = Some o ->
    tri X P s0 L (submatrix_as_blackbox junk oom true x r c ro co d) s
      (fun y s' => y = length (vars s) /\ var s' y = Some (mk_obj KBfo true r c 0 0 (Some (length (heap s))) None None) /\
                   heap s' = heap s ++ [mk_block Lib false (some_data d (r * c))] /\ forall w, (w < length (vars s))%nat -> var s' w = var s w).
  Proof.
    intros I E Ho. unfold submatrix_as_blackbox. get_ x. req_ H1. req_ H2. apply Z.leb_le in H1, H2.
    unfold tri, seq, alloc. destruct (Z.ltb_spec (r * c) 0) as [Hneg|Hnn]; [auto using step_refl|].
    destruct (oom (requests s)); [apply (more_requests X P s0 L s); auto|].
    unfold require. replace (o_rows o >=? r + ro) with true by lia. replace (o_cols o >=? c + co) with true by lia. unfold ret.
    assert (Wr : write (Some (length (heap s))) (some_data d (r * c)) (mk_mem (heap s ++ [mk_block Lib false (repeat junk (Z.to_nat (r * c)))]) (S (requests s)) (vars s)) =
                 Val tt (mk_mem (heap s ++ [mk_block Lib false (some_data d (r * c))]) (S (requests s)) (vars s))).
    { unfold write. destruct (some_data d (r * c)) as [|v l] eqn:Ed.
      - assert (Z0 : r * c = 0) by (pose proof (zlen_some_data d (r * c)) as Q; rewrite Ed, zlen_nil in Q; lia). rewrite Z0. reflexivity.
      - cbn [heap]. rewrite nth_error_app2, Nat.sub_diag by lia. cbn [nth_error].
        assert (Zl : zlen (v :: l) = r * c) by (rewrite <- Ed, zlen_some_data; lia).
        rewrite zlen_repeat, Zl. destruct (Z.leb_spec (r * c) (Z.of_nat (Z.to_nat (r * c)))); [|lia].
        rewrite <- Zl. unfold zlen. rewrite Nat2Z.id. rewrite skipn_all2 by (rewrite repeat_length; lia). rewrite app_nil_r.
        cbn [requests vars]. rewrite set_nth_snoc. reflexivity. }
    rewrite Wr. unfold new_obj, return_obj, ret. cbn [vars heap requests].
    set (p := mk_obj KBfo _ _ _ _ _ _ _ _).
    destruct (new_owned X P s0 L (some_data d (r * c)) p s (S (requests s)) I E) as (I' & E' & S'); try reflexivity.
    { rewrite zlen_some_data. cbn. lia. }
    split; [exact I'|]. split; [exact E'|]. split; [exact S'|]. split; [reflexivity|]. split; [|split; [reflexivity|]].
    - rewrite var_new, Nat.eqb_refl. reflexivity.
    - intros w Lw. rewrite var_new. destruct (Nat.eqb_spec (length (vars s)) w); [lia|reflexivity].
  Qed.

  (* ---------------------------------------------------------------- *)
  (** ** Sketching *)
  Lemma access_no_throw x (s s' : mem) : access x s <> Exc s'.
  Proof.
    assert (R : forall p n u u', read (V := V) p n u <> Exc u').
    { intros p n u u'. unfold read. repeat match goal with |- context [match ?m with _ => _ end] => destruct m end; discriminate. }
    unfold access, seq, get_obj, ret. destruct (nth_error (vars s) x) as [[o|]|]; try discriminate.
    destruct (read (o_a o) (extent o Sa) s) as [? s1|s1|] eqn:E1; [|exfalso; eapply R; eauto|discriminate].
    destruct (read (o_b o) (extent o Sb) s1) as [? s2|s2|] eqn:E2; [|exfalso; eapply R; eauto|discriminate].
    destruct (read (o_c o) (extent o Sc) s2) as [? s3|s3|] eqn:E3; [discriminate|exfalso; eapply R; eauto|discriminate].
  Qed.
  Lemma tri_sketch_dense junk oom elide X P (s0 : mem) L x o r c ro co d bad s :
    inv s -> ext X P s0 s -> var s x = Some o -> o_kind o = KDense -> lent_ok s o -> elide = true \/ o_a o <> None ->
    tri X P s0 L (sketch_dense junk oom elide x r c ro co d bad) s (fun _ _ => True).
  Proof.
    intros I E Ho K Lo El. unfold sketch_dense. get_ x. destruct (is_null (o_a o)) eqn:Nu.
    - destruct El as [->|Na]; [|exfalso; apply Na, null_slot, Nu]. apply trib_tri. eapply trib_seq; [apply tri_trib; [apply step_refl|]; eapply tri_blackbox; eauto|].
      cbn beta. intros y s1 I1 E1 S1 (-> & Vy & Hh & Fr). set (y := length (vars s)) in *. set (p := mk_obj KBfo _ _ _ _ _ _ _ _) in *.
      assert (Ap : arrays_valid s1 p) by (eapply own_valid; eauto).
      assert (Bp : attached p) by (intros [| |] Hf; cbn in *; [discriminate|lia|lia]).
      assert (New : forall f a, owns s1 y f a -> (length (heap s0) <= a)%nat /\ (length (heap s) <= a)%nat).
      { intros f a (q & Eq & _ & G). rewrite Eq in Vy. inj. destruct f; cbn in G; [|discriminate|discriminate]. inj. pose proof (e_hlen _ _ _ _ E). lia. }
      apply (tri_scoped X P s0 L s y); [pose proof (e_vlen _ _ _ _ E); unfold y; lia|unfold y; lia|exact S1|eauto|].
      unfold seq, when. destruct bad; [unfold raise; split; [exact I1|]; split; [exact E1|]; split; [exact S1|]; split; [eauto|exact New]|].
      unfold ret. pose proof (tri_access X P s0 L y p s1 I1 E1 Vy Ap Bp) as T. unfold tri in T. destruct (access y s1) as [[] s2|s2|] eqn:Ac; [|exfalso; eapply access_no_throw; eauto|exact T].
      destruct T as (_ & _ & _ & ->). split; [exact I1|]. split; [exact E1|]. split; [exact S1|]. split; [eauto|]. split; [exact New|auto].
    - req_ H1. req_ H2. eapply tri_seq with (Q := fun _ s' => s' = s).
      + apply tri_when; [intros _; apply tri_raise; auto|auto].
      + intros _ s1 _ _ _ ->. eapply tri_post; [eapply (tri_access X P s0 L x o); eauto; [eapply lent_valid; eauto|]|auto].
        intros [| |] Hf; unfold extent in Hf; rewrite K in Hf; [|lia|lia]. cbn. destruct (o_a o); [discriminate|discriminate Nu].
  Qed.

  Lemma tri_apply_view junk oom elide X P (s0 : mem) L x o nnz dv dr dc sv sr sc bad s :
    inv s -> ext X P s0 s -> touches X s0 x -> In x L -> var s x = Some o -> o_kind o = KSkop -> skop_ok s o -> 0 < nnz <= o_full o ->
    tri X P s0 L (apply_view junk oom elide x nnz dv dr dc sv sr sc bad) s (fun _ _ => True).
  Proof.
    intros I E T IL Ho K Sk Hn. unfold apply_view. apply trib_tri.
    eapply trib_seq; [apply tri_trib; [apply step_refl|]; eapply (tri_coo_view junk oom elide X P s0 L x o); eauto|].
    cbn beta. intros v s1 I1 E1 S1 (L0 & Ls & o1 & p & Vx & Vv & Wp & Kp & Ap & Bp & _).
    assert (New : forall s2 : mem, (exists q, var s2 v = Some q /\ o_own q = false) -> forall f a, owns s2 v f a -> (length (heap s0) <= a)%nat /\ (length (heap s) <= a)%nat).
    { intros s2 (q & Eq & Wq) f a (q' & Eq' & Wq' & _). rewrite Eq in Eq'. inj. congruence. }
    apply (tri_scoped X P s0 L s v); [exact L0|exact Ls|exact S1|eauto|].
    unfold seq, when. destruct bad; [unfold raise; split; [exact I1|]; split; [exact E1|]; split; [exact S1|]; split; [eauto|apply New; eauto]|].
    unfold ret. pose proof (tri_overwrite X P s0 L v p sv sr sc s1 I1 E1 (or_intror L0) Vv Ap Bp) as Tw. unfold tri in Tw.
    destruct (overwrite v sv sr sc s1) as [[] s2|s2|]; [| |exact Tw].
    - destruct Tw as (I2 & E2 & S2 & Ev & _). assert (Vv2 : var s2 v = Some p) by (rewrite (var_vars _ _ Ev); exact Vv).
      split; [exact I2|]. split; [exact E2|]. split; [eapply step_trans; eauto|]. split; [eauto|]. split; [apply New; eauto|auto].
    - destruct Tw as (I2 & E2 & S2). destruct (st_alive _ _ _ S2 _ _ Vv) as (q & Eq & _ & Wq).
      split; [exact I2|]. split; [exact E2|]. split; [eapply step_trans; eauto|]. split; [eauto|]. apply New. exists q. split; [exact Eq|congruence].
  Qed.

  Lemma skop_ok_pres (s s' : mem) o : hpres s s' -> skop_ok s o -> skop_ok s' o.
  Proof. intros H [A B]. split; [|exact B]. intros W. eapply valid_pres; [exact H|auto]. Qed.

  Lemma tri_sketch_sparse junk oom elide X P (s0 : mem) L rhs x o nnz dv dr dc sv sr sc bad s :
    inv s -> ext X P s0 s -> touches X s0 x -> In x L -> var s x = Some o -> o_kind o = KSkop -> skop_ok s o -> 0 < nnz <= o_full o ->
    tri X P s0 L (sketch_sparse junk oom elide rhs x nnz dv dr dc sv sr sc bad) s (fun _ _ => True).
  Proof.
    intros I E T IL Ho K Sk Hn. unfold sketch_sparse. get_ x. destruct (o_nnz o <? 0); [|eapply tri_apply_view; eauto].
    set (q := mk_obj KSkop true (o_rows o) (o_cols o) (o_full o) (-1) None None None).
    pose proof (e_vlen _ _ _ _ E) as Lv. pose proof (e_hlen _ _ _ _ E) as Lh.
    (* the filled copy *)
    assert (First : forall k (R : unit -> mem -> Prop),
        (forall s', inv s' -> ext X P s0 s' -> step [] s s' -> tri X P s0 L k s' R) ->
        tri X P s0 L (seq (new_skop (o_rows o) (o_cols o) (o_full o)) (fun t =>
          seq (scoped t (seq (fill_sparse junk oom t nnz dv dr dc) (fun _ => apply_view junk oom elide t nnz dv dr dc sv sr sc bad))) (fun _ => k))) s R).
    { intros k R Hk. unfold new_skop. fold q.
      assert (T1 : tri X P s0 [] (new_obj q) s (fun y s' => y = length (vars s) /\ heap s' = heap s /\ var s' y = Some q /\ length (vars s') = S (length (vars s)) /\
                                            forall w, (w < length (vars s))%nat -> var s' w = var s w)).
      { apply tri_new_obj; auto; cbn; try lia; try (intros [| |] a G; discriminate G); intuition congruence. }
      unfold tri in T1. unfold tri, seq at 1. destruct (new_obj q s) as [t s1|s1|]; [| |exact T1].
      2:{ destruct T1 as (A & B & C). split; [exact A|]. split; [exact B|]. eapply step_incl; [|exact C]. intros z []. }
      destruct T1 as (I1 & E1 & S1 & -> & Hh1 & Vt & Ln & Fr). set (t := length (vars s)) in *.
      assert (E0 : ext [t] nothing s1 s1).
      { apply ext_refl. intros z f a [<-|[]] (p & Ep & G). rewrite Ep in Vt. inj. destruct f; discriminate G. }
      assert (Tt : touches [t] s1 t) by (left; left; reflexivity).
      assert (In1 : tri [t] nothing s1 [t] (seq (fill_sparse junk oom t nnz dv dr dc) (fun _ => apply_view junk oom elide t nnz dv dr dc sv sr sc bad)) s1 (fun _ _ => True)).
      { eapply tri_seq; [eapply (tri_fill_sparse junk oom [t] nothing s1 [t] t q); eauto; try (left; reflexivity); intros Q; discriminate Q|].
        cbn beta. intros _ s2 I2 E2 S2 (o2 & V2 & K2 & W2 & _ & _ & F2 & _).
        eapply (tri_apply_view junk oom elide [t] nothing s1 [t] t o2); eauto; try (left; reflexivity); [|rewrite F2; exact Hn].
        split; intros Q; rewrite W2 in Q; discriminate Q. }
      assert (Fin : forall s2, inv s2 -> ext [t] nothing s1 s2 -> step [t] s1 s2 ->
                 ext X P s0 s2 /\ step [] s s2 /\ (exists p, var s2 t = Some p) /\
                 (forall f a, owns s2 t f a -> (length (heap s0) <= a)%nat /\ (length (heap s) <= a)%nat)).
      { intros s2 I2 E2 S2. split; [eapply ext_trans; [exact E1|exact E2|intros y [<-|[]]; right; unfold t; lia|intros a _ []]|].
        split; [eapply step_drop; [eapply step_trans; [eapply step_incl; [|exact S1]; intros z []|exact S2]|unfold t; lia]|].
        destruct (st_alive _ _ _ S2 _ _ Vt) as (p & Ep & _). split; [eauto|].
        intros f a (p' & Ep' & _ & G). destruct (Nat.lt_ge_cases a (length (heap s1))) as [La|La].
        - exfalso. apply (e_pts _ _ _ _ E2 t f a Tt); [exists p'; auto|exact La].
        - rewrite Hh1 in La. lia. }
      assert (Sc : trib X P s0 [] s (scoped t (seq (fill_sparse junk oom t nnz dv dr dc) (fun _ => apply_view junk oom elide t nnz dv dr dc sv sr sc bad))) s1 (fun _ _ => True)).
      { apply (tri_scoped X P s0 [] s t); [unfold t; lia|unfold t; lia|exact S1|eauto|]. unfold tri in In1.
        destruct (seq _ _ s1) as [u s2|s2|]; [| |exact In1].
        - destruct In1 as (I2 & E2 & S2 & _). destruct (Fin s2 I2 E2 S2) as (A & B & C & D). auto 10.
        - destruct In1 as (I2 & E2 & S2). destruct (Fin s2 I2 E2 S2) as (A & B & C & D). auto 10. }
      unfold trib in Sc. unfold seq at 1. destruct (scoped t _ s1) as [u s2|s2|]; [| |exact Sc].
      - destruct Sc as (I2 & E2 & S2 & _). apply (tri_trib X P s0 L s k s2); [eapply step_incl; [|exact S2]; intros z []|]. apply Hk; auto.
      - destruct Sc as (I2 & E2 & S2). split; [exact I2|]. split; [exact E2|]. eapply step_incl; [|exact S2]; intros z []. }
    apply First. intros s' I' E' S'. apply tri_when; [|auto]. intros _.
    eapply (tri_apply_view junk oom elide X P s0 L x o); eauto.
    - rewrite (st_var _ _ _ S'); [exact Ho|eapply var_lt; eauto|intros []].
    - eapply skop_ok_pres; [apply S'|exact Sk].
  Qed.
End OwnProofs4.
