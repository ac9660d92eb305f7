From Verif Require Import Base OwnModel OwnSpec OwnProofs OwnProofs2 OwnProofs3 OwnProofs4.

Section OwnProofs5.
  Context {V : Type}.
  Notation mem := (@mem V).

  (** Arrays a command can reach. *)
  Definition named (s : mem) (c : @cmd V) (a : nat) : Prop :=
    (exists x f, In x (named_vars c) /\ points s x f a) \/ In (Some a) (named_ptrs c).
  Definition special (c : @cmd V) : bool :=
    match c with UserFree _ | Destroy _ | Attach _ _ => true | _ => false end.

  Lemma tri_drop {A} X P (s0 : mem) L (m : @prog V A) s Q :
    tri X P s0 L m s Q -> tri X P s0 L (drop m) s (fun _ _ => True).
  Proof. intros H. unfold drop. eapply tri_seq; [exact H|]. intros a s' I E _ _. apply tri_ret; auto. Qed.

  Lemma tri_user_alloc X P (s : mem) L data : inv s -> ext X P s s ->
    tri X P s L (fun s => Val tt (mk_mem (heap s ++ [mk_block User false data]) (requests s) (vars s))) s (fun _ _ => True).
  Proof.
    intros I E. unfold tri. set (s' := mk_mem _ _ _). set (h := length (heap s)).
    assert (Hb : forall a, (a < h)%nat -> blk s' a = blk s a) by (intros a La; unfold blk, s'; cbn [heap]; now rewrite nth_error_app1).
    assert (Lb : forall a b, blk s a = Some b -> (a < h)%nat) by (intros a b Ea; apply nth_error_Some; unfold blk in Ea; rewrite Ea; discriminate).
    assert (Vr : forall y, var s' y = var s y) by reflexivity.
    split; [|split; [|split]]; [| | |exact Logic.I].
    - constructor.
      + intros y f a (p & Ep & G). assert (a < length (heap s))%nat by (apply (i_ptr s I y f a); exists p; auto).
        unfold s'. cbn [heap]. rewrite app_length. lia.
      + intros y p f a Ep W G. destruct (i_own s I y p f a Ep W G) as (d & Ed & Ld). exists d. rewrite Hb; [auto|]. eapply Lb; eauto.
      + apply I.
      + intros a d Ed. destruct (Nat.lt_ge_cases a h) as [La|La].
        * rewrite Hb in Ed by exact La. apply (i_leak s I a d Ed).
        * exfalso. unfold blk, s' in Ed. cbn [heap] in Ed. rewrite nth_error_app2 in Ed by exact La.
          destruct (a - length (heap s))%nat as [|[|k]]; cbn in Ed; discriminate.
      + apply I.
      + apply I.
    - constructor.
      + unfold s'. cbn [heap]. rewrite app_length. lia.
      + cbn. lia.
      + intros z _ _. apply Vr.
      + intros a w fr d Ea. exists d. rewrite Hb; [auto|]. eapply Lb; eauto.
      + intros z f a T Pz La. apply (e_pts _ _ _ _ E z f a T Pz La).
    - constructor.
      + split; [unfold s'; cbn [heap]; rewrite app_length; lia|]. intros a w fr d Ea. exists d. rewrite Hb; [auto|]. eapply Lb; eauto.
      + cbn. lia.
      + intros z _ _. apply Vr.
      + intros z p Ep. exists p. auto.
  Qed.

  Lemma exec_tri junk zero oom elide (c : @cmd V) s :
    inv s -> legal s c -> no_bfo_copy elide s c -> special c = false ->
    tri (named_vars c) (named s c) s (named_vars c) (exec junk zero oom elide c) s (fun _ _ => True).
  Proof.
    intros I Lg Nb Sp.
    assert (E : ext (named_vars c) (named s c) s s).
    { apply ext_refl. intros z f a Hz Hp. left. eauto. }
    assert (Tx : forall x, In x (named_vars c) -> touches (named_vars c) s x) by (intros x Hx; left; exact Hx).
    assert (Ptr : forall p, In p (named_ptrs c) -> forall a, p = Some a -> named s c a) by (intros p Hp a ->; right; exact Hp).
    destruct c; try discriminate Sp; cbn [legal] in Lg; cbn [exec].
    - apply tri_user_alloc; auto.
    - eapply tri_drop, tri_new_obj; auto; cbn; try lia; try (intuition congruence). intros [| |] a G; discriminate G.
    - eapply tri_drop, tri_new_obj; auto; cbn; try lia; try (intuition congruence). intros [| |] a G; discriminate G.
    - destruct Lg as (A1 & A2 & A3). eapply tri_drop, tri_new_obj; auto; cbn; try lia; try (intuition congruence).
      intros f a G. split; [reflexivity|]. split; [destruct f; cbn in G; auto|]. intros _.
      destruct f; cbn in G; eapply Ptr; try exact G; cbn; auto.
    - eapply tri_drop, tri_new_obj; auto; cbn; try lia; try (intuition congruence). intros [| |] a G; discriminate G.
    - destruct Lg as (A1 & A2 & A3 & Rd). eapply tri_drop. unfold new_coo_expert. eapply tri_seq with (Q := fun _ s' => s' = s).
      + apply tri_when; [intros Hs|auto]. destruct (Rd Hs) as [R1 R2].
        eapply tri_seq; [apply tri_read; auto|]. intros _ s1 _ _ _ (-> & _). eapply tri_seq; [apply tri_read; auto|]. intros _ s2 _ _ _ (-> & _). apply tri_ret; auto.
      + intros _ s1 _ _ _ ->. apply tri_new_obj; auto; cbn; try lia; try (intuition congruence).
        intros f a G. split; [reflexivity|]. split; [destruct f; cbn in G; auto|]. intros _. destruct f; cbn in G; eapply Ptr; try exact G; cbn; auto.
    - eapply tri_drop, tri_new_obj; auto; cbn; try lia; try (intuition congruence). intros [| |] a G; discriminate G.
    - destruct Lg as (A1 & A2 & A3). eapply tri_drop, tri_new_obj; auto; cbn; try lia; try (intuition congruence).
      intros f a G. split; [reflexivity|]. split; [destruct f; cbn in G; auto|]. intros _. destruct f; cbn in G; eapply Ptr; try exact G; cbn; auto.
    - eapply tri_drop, tri_new_obj; auto; cbn; try lia; try (intuition congruence). intros [| |] a G; discriminate G.
    - destruct Lg as (A1 & A2 & A3). eapply tri_drop, tri_new_obj; auto; cbn; try lia; try (intuition congruence).
      intros f a G. split; [reflexivity|]. split; [destruct f; cbn in G; auto|]. intros _. destruct f; cbn in G; eapply Ptr; try exact G; cbn; auto.
    - destruct Lg as (o & Ho & K & Lo). eapply tri_post; [eapply tri_fill_dense; eauto|auto]; cbn; auto. apply Tx. cbn. auto.
    - destruct Lg as (o & Ho & K & Lo & Hn). eapply tri_post; [eapply tri_fill_sparse; eauto|auto]; cbn; auto. apply Tx. cbn. auto.
    - destruct Lg as (o & Ho & K). eapply tri_post; [eapply tri_reserve; eauto|auto]; cbn; auto. apply Tx. cbn. auto.
    - destruct Lg as (o & Ho & K). eapply tri_dense_to_sparse; eauto; cbn; auto. apply Tx. cbn. auto.
    - destruct Lg as (ox & oy & Hx & Hy & Lo & B & K). eapply tri_incl; [|eapply (tri_convert junk zero oom _ _ _ x y ox oy); eauto; apply Tx; cbn; auto].
      intros z [<-|[]]. cbn. auto.
    - destruct Lg as (o & Ho & Lo & B). eapply tri_post; [eapply tri_access; eauto; eapply lent_valid; eauto|auto].
    - destruct Lg as (o & Ho & Lo & B). eapply tri_post; [eapply tri_overwrite; eauto; [apply Tx; cbn; auto|eapply lent_valid; eauto]|auto].
    - destruct Lg as (o & Ho & K). eapply tri_drop, (tri_move _ _ _ _ x o); auto; cbn; auto. apply Tx. cbn. auto.
    - destruct Lg as (o & Ho & K & Sk & Hn). eapply tri_drop, (tri_coo_view junk oom elide _ _ _ _ x o); auto; cbn; auto. apply Tx. cbn. auto.
    - destruct Lg as (o & Ho & K). eapply tri_drop, (tri_coo_transpose elide _ _ _ _ x o); auto. apply Tx. cbn. auto.
    - destruct Lg as (o & Ho & K & Sh). apply tri_drop with (Q := fun _ _ => True). destruct share.
      + unfold transpose_as_csr. eapply tri_seq; [eapply (tri_get _ _ _ _ x o); eauto|]. intros ? ? _ _ _ (-> & ->).
        apply trib_tri. unfold new_csr_expert. eapply trib_post; [eapply trib_view; eauto using step_refl; [apply Tx; cbn; auto|..]; cbn; auto|auto].
        intros [| |] a G; cbn in G; [exists Sa|exists Sc|exists Sb]; exact G.
      + destruct (Sh eq_refl) as [Lo B]. pose proof (tri_transpose_as_csr_copy zero oom elide x o s I Ho K Lo B) as T. unfold tri in T.
        assert (Ex : forall s', ext [] nothing s s' -> ext (named_vars (TransposeAsCsr (V := V) x false)) (named s (TransposeAsCsr x false)) s s').
        { intros s' E'. eapply ext_trans; [exact E|exact E'|intros y []|intros a _ []]. }
        unfold tri. destruct (transpose_as_csr zero oom elide x false s) as [z s'|s'|]; [| |exact T].
        * destruct T as (I' & E' & S' & Q). split; [exact I'|]. split; [auto|]. split; [eapply step_incl; [|exact S']; intros ? []|auto].
        * destruct T as (I' & E' & S'). split; [exact I'|]. split; [auto|]. eapply step_incl; [|exact S']; intros ? [].
    - destruct Lg as (o & Ho & K & Sh). apply tri_drop with (Q := fun _ _ => True). destruct share.
      + unfold transpose_as_csc. eapply tri_seq; [eapply (tri_get _ _ _ _ x o); eauto|]. intros ? ? _ _ _ (-> & ->).
        apply trib_tri. unfold new_csc_expert. eapply trib_post; [eapply trib_view; eauto using step_refl; [apply Tx; cbn; auto|..]; cbn; auto|auto].
        intros [| |] a G; cbn in G; [exists Sa|exists Sc|exists Sb]; exact G.
      + destruct (Sh eq_refl) as [Lo B]. pose proof (tri_transpose_as_csc_copy zero oom elide x o s I Ho K Lo B) as T. unfold tri in T.
        assert (Ex : forall s', ext [] nothing s s' -> ext (named_vars (TransposeAsCsc (V := V) x false)) (named s (TransposeAsCsc x false)) s s').
        { intros s' E'. eapply ext_trans; [exact E|exact E'|intros y []|intros a _ []]. }
        unfold tri. destruct (transpose_as_csc zero oom elide x false s) as [z s'|s'|]; [| |exact T].
        * destruct T as (I' & E' & S' & Q). split; [exact I'|]. split; [auto|]. split; [eapply step_incl; [|exact S']; intros ? []|auto].
        * destruct T as (I' & E' & S'). split; [exact I'|]. split; [auto|]. eapply step_incl; [|exact S']; intros ? [].
    - destruct Lg as (o & Ho & _). destruct Nb as [->|[]]. eapply tri_drop, (tri_blackbox junk oom _ _ _ _ x o); auto.
    - destruct Lg as (o & Ho & K & Lo & _). eapply (tri_sketch_dense junk oom elide _ _ _ _ x o); auto. destruct Nb as [->|Nb]; [auto|right; eapply Nb; eauto].
    - destruct Lg as (o & Ho & K & Sk & Hn). eapply (tri_sketch_sparse junk oom elide _ _ _ _ rhs x o); auto; cbn; auto. apply Tx. cbn. auto.
  Qed.

  (* ---------------------------------------------------------------- *)
  (** ** Effect of any command *)
  Record effect (c : @cmd V) (s s' : mem) : Prop := {
    f_inv : inv s';
    f_hlen : (length (heap s) <= length (heap s'))%nat;
    f_vlen : (length (vars s) <= length (vars s'))%nat;
    f_var : forall y, (y < length (vars s))%nat -> ~ In y (named_vars c) -> var s' y = var s y;
    f_blk : forall a b, blk s a = Some b -> ~ named s c a -> blk s' a = Some b;
    f_pts : forall z f a, In z (named_vars c) \/ (length (vars s) <= z)%nat -> points s' z f a -> (a < length (heap s))%nat -> named s c a;
    f_free : forall a w fr d, blk s a = Some (mk_block w fr d) ->
               exists fr' d', blk s' a = Some (mk_block w fr' d') /\ length d' = length d /\
                 (fr' = fr \/ (fr = false /\ fr' = true /\
                   ((exists x f, c = Destroy x /\ owns s x f a /\ w = Lib) \/ (c = UserFree a /\ w = User)))) }.

  Lemma ext_effect c (s s' : mem) : inv s' -> ext (named_vars c) (named s c) s s' -> effect c s s'.
  Proof.
    intros I E. constructor; auto; try apply E.
    - intros a [w fr d] Eb Nn. destruct (e_heap _ _ _ _ E _ _ _ _ Eb) as (d' & E' & _ & Sm). rewrite Sm in E' by exact Nn. exact E'.
    - intros a w fr d Eb. destruct (e_heap _ _ _ _ E _ _ _ _ Eb) as (d' & E' & Ll & _). exists fr, d'. auto.
  Qed.

  Lemma destroy_effect x (s s' : mem) : inv s -> destroyed x s s' -> effect (Destroy x) s s'.
  Proof.
    intros I D. pose proof (var_destroyed _ _ _ D) as Vr. pose proof (inv_destroyed _ _ _ I D) as I'. destruct D as (Ev & El & Hin & Hout).
    constructor; auto; cbn [named_vars In].
    - lia.
    - rewrite Ev, length_set_nth. lia.
    - intros y Ly N. rewrite Vr. destruct (Nat.eqb_spec x y); [exfalso; auto|reflexivity].
    - intros a b Eb Nn. rewrite Hout; [exact Eb|]. intros (f & o & Eo & W & G). apply Nn. left. exists x, f. cbn. split; [auto|]. exists o. auto.
    - intros z f a T (o & Eo & G) La. rewrite Vr in Eo. destruct (Nat.eqb_spec x z) as [<-|N]; [discriminate|].
      destruct T as [[T|[]]|T]; [congruence|]. apply var_lt in Eo. lia.
    - intros a w fr d Eb. destruct (owns_dec s x a) as [O|O].
      + destruct O as (f & O). pose proof O as (o & Eo & W & G). destruct (i_own s I x o f a Eo W G) as (d' & Ed & _). rewrite Eb in Ed. inj.
        exists true, d'. split; [apply Hin; eauto|]. split; [reflexivity|]. right. split; [reflexivity|]. split; [reflexivity|]. left. exists x, f. auto.
      + exists fr, d. rewrite Hout by exact O. auto.
  Qed.
  Lemma userfree_effect junk zero oom elide a (s : mem) : inv s -> (exists d, blk s a = Some (mk_block User false d)) ->
    exists s', exec junk zero oom elide (UserFree a) s = Val tt s' /\ effect (UserFree a) s s'.
  Proof.
    intros I (d & Ed). cbn [exec]. unfold blk in Ed. rewrite Ed. set (s' := mk_mem _ _ _). exists s'. split; [reflexivity|].
    assert (La : (a < length (heap s))%nat) by (apply nth_error_Some; rewrite Ed; discriminate).
    assert (Hb : forall b, blk s' b = if Nat.eqb a b then Some (mk_block User true d) else blk s b).
    { intros b. unfold blk, s'. cbn [heap]. rewrite nth_set_nth. apply Nat.ltb_lt in La. rewrite La. reflexivity. }
    fold (blk s a) in Ed.
    constructor; cbn [named_vars In].
    - constructor; try apply I.
      + intros y f b Hp. unfold s'. cbn [heap]. rewrite length_set_nth. apply (i_ptr s I y f b Hp).
      + intros y o f b Eo W G. destruct (i_own s I y o f b Eo W G) as (d' & Eb & Ll). exists d'. rewrite Hb. destruct (Nat.eqb_spec a b) as [<-|N]; [congruence|auto].
      + intros b d' Eb. rewrite Hb in Eb. destruct (Nat.eqb_spec a b) as [<-|N]; [discriminate|]. apply (i_leak s I b d' Eb).
    - unfold s'. cbn [heap]. rewrite length_set_nth. lia.
    - cbn. lia.
    - reflexivity.
    - intros b bb Eb Nn. rewrite Hb. destruct (Nat.eqb_spec a b) as [<-|N]; [|exact Eb]. exfalso. apply Nn. right. cbn. auto.
    - intros z f b [[]|Lz] (o & Eo & _) _. change (var s z = Some o) in Eo. apply var_lt in Eo. lia.
    - intros b w fr d' Eb. rewrite Hb. destruct (Nat.eqb_spec a b) as [<-|N]; [|exists fr, d'; auto].
      rewrite Eb in Ed. inj. exists true, d. split; [reflexivity|]. split; [reflexivity|]. right. auto.
  Qed.
  Lemma attach_effect junk zero oom elide x p (s : mem) : inv s -> legal s (Attach x p) ->
    exists s', exec junk zero oom elide (Attach x p) s = Val tt s' /\ effect (Attach x p) s s'.
  Proof.
    intros I (o & Ho & K & Na & Ep). pose proof (var_lt _ _ _ Ho) as Lx. apply Nat.ltb_lt in Lx as Lxb.
    destruct (i_dense s I x o Ho (or_introl K)) as [Nb Nc].
    cbn [exec]. unfold seq, get_obj, put_obj. rewrite (var_nth _ _ _ Ho). rewrite (var_nth _ _ _ Ho). set (o' := mk_obj _ _ _ _ _ _ _ _ _). set (s' := mk_mem _ _ _).
    exists s'. split; [reflexivity|].
    assert (Vr : forall y, var s' y = if Nat.eqb x y then Some o' else var s y) by (intros y; unfold s'; rewrite var_put, Lxb; reflexivity).
    assert (Sl : forall f a, get_slot o' f = Some a -> f = Sa /\ p = Some a) by (intros [| |] a G; cbn in G; [auto|congruence|congruence]).
    assert (No : forall f a, ~ owns s x f a).
    { intros f a (q & Eq & W & G). rewrite Eq in Ho. inj. specialize (Na W). destruct f; cbn in G; congruence. }
    assert (Ow : forall y f a, owns s' y f a <-> owns s y f a).
    { intros y f a. unfold owns. rewrite Vr. destruct (Nat.eqb_spec x y) as [<-|N]; [|reflexivity]. split; intros (q & Eq & W & G).
      - inj. discriminate W.
      - exfalso. apply (No f a). exists q. auto. }
    constructor; cbn [named_vars In].
    - constructor.
      + intros y f a (q & Eq & G). rewrite Vr in Eq. change (heap s') with (heap s). destruct (Nat.eqb_spec x y) as [<-|N].
        * inj. destruct (Sl _ _ G) as [_ ->]. auto.
        * apply (i_ptr s I y f a). exists q. auto.
      + intros y q f a Eq W G. rewrite Vr in Eq. destruct (Nat.eqb_spec x y) as [<-|N]; [inj; discriminate W|]. apply (i_own s I y q f a); auto.
      + intros y f z g a A B. apply Ow in A. apply Ow in B. eapply (i_uniq s I); eauto.
      + intros a d Ed. destruct (i_leak s I a d Ed) as (y & f & A). exists y, f. apply Ow, A.
      + intros y q Eq Kq. rewrite Vr in Eq. destruct (Nat.eqb_spec x y) as [<-|N]; [inj; cbn in Kq; congruence|]. eapply (i_skop s I); eauto.
      + intros y q Eq Kq. rewrite Vr in Eq. destruct (Nat.eqb_spec x y) as [<-|N]; [inj; auto|]. eapply (i_dense s I); eauto.
    - cbn. lia.
    - unfold s'. cbn [vars]. rewrite length_set_nth. lia.
    - intros y _ N. rewrite Vr. destruct (Nat.eqb_spec x y); [exfalso; auto|reflexivity].
    - intros a b Eb _. exact Eb.
    - intros z f a T (q & Eq & G) La. rewrite Vr in Eq. destruct (Nat.eqb_spec x z) as [<-|N].
      + inj. destruct (Sl _ _ G) as [_ ->]. right. cbn. auto.
      + destruct T as [[T|[]]|T]; [congruence|]. apply var_lt in Eq. lia.
    - intros a w fr d Eb. exists fr, d. auto.
  Qed.

  Theorem exec_effect junk zero oom elide (c : @cmd V) s :
    inv s -> legal s c -> no_bfo_copy elide s c ->
    match exec junk zero oom elide c s with
    | Val _ s' => effect c s s'
    | Exc s' => effect c s s' /\ special c = false
    | Undef => False
    end.
  Proof.
    intros I Lg Nb. destruct (special c) eqn:Sp.
    - destruct c; try discriminate Sp.
      + cbn [legal] in Lg. destruct (userfree_effect junk zero oom elide a s I Lg) as (s' & -> & F). exact F.
      + destruct (attach_effect junk zero oom elide x p s I Lg) as (s' & -> & F). exact F.
      + cbn [legal] in Lg. destruct Lg as (o & Ho). cbn [exec]. destruct (destroy_spec s x o I Ho) as (s' & -> & D). apply destroy_effect; auto.
    - pose proof (exec_tri junk zero oom elide c s I Lg Nb Sp) as T. unfold tri in T.
      destruct (exec junk zero oom elide c s) as [u s'|s'|]; [| |exact T].
      + destruct T as (I' & E' & _). apply ext_effect; auto.
      + destruct T as (I' & E' & _). split; [apply ext_effect; auto|reflexivity].
  Qed.
  Lemma reach_inv junk zero oom elide s : reach (V := V) junk zero oom elide s -> inv s.
  Proof.
    induction 1 as [|s c s' R IH Lg Nb Ex]; [apply inv_start|]. pose proof (exec_effect junk zero oom elide c s IH Lg Nb) as F.
    destruct Ex as [Ex|Ex]; rewrite Ex in F; [apply F|destruct F as [F _]; apply F].
  Qed.
End OwnProofs5.
