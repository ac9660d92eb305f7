From Verif Require Import Base OwnModel OwnSpec OwnProofs OwnProofs2 OwnProofs3 OwnProofs4 OwnProofs5.

Section OwnProofs6.
  Context {V : Type}.
  Notation mem := (@mem V).

  Lemma exec_effect' junk zero oom elide (c : @cmd V) s s' :
    inv s -> legal s c -> no_bfo_copy elide s c ->
    exec junk zero oom elide c s = Val tt s' \/ exec junk zero oom elide c s = Exc s' -> effect c s s'.
  Proof. intros I Lg Nb Ex. pose proof (exec_effect junk zero oom elide c s I Lg Nb) as F. destruct Ex as [Ex|Ex]; rewrite Ex in F; [exact F|apply F]. Qed.

  (** No other variable has a member pointing to an array of z. *)
  Definition private (s : mem) (z : nat) : Prop := forall f a y g, points s z f a -> points s y g a -> y = z.

  Lemma avoids_step (c : @cmd V) s s' z p : inv s -> effect c s s' -> var s z = Some p -> private s z -> avoids z p c ->
    var s' z = Some p /\ (forall f a, get_slot p f = Some a -> blk s' a = blk s a) /\ private s' z.
  Proof.
    intros I F Hz Pr [Nv Np]. pose proof (var_lt _ _ _ Hz) as Lz.
    assert (Hz' : var s' z = Some p) by (rewrite (f_var _ _ _ F z Lz Nv); exact Hz).
    assert (Pz : forall f a, get_slot p f = Some a -> points s z f a) by (intros f a G; exists p; auto).
    assert (Nn : forall f a, get_slot p f = Some a -> ~ named s c a).
    { intros f a G [(y & g & Hy & Q)|Q]; [|exact (Np f a G Q)]. pose proof (Pr f a y g (Pz f a G) Q). subst y. exact (Nv Hy). }
    split; [exact Hz'|]. split.
    - intros f a G. pose proof (i_ptr s I z f a (Pz f a G)) as La. destruct (blk s a) as [b|] eqn:Eb.
      + apply (f_blk _ _ _ F); [exact Eb|]. eapply Nn; eauto.
      + unfold blk in Eb. apply nth_error_None in Eb. lia.
    - intros f a y g (q & Eq & G) Q. rewrite Hz' in Eq. inj.
      assert (In y (named_vars c) \/ ~ In y (named_vars c)) as [Hy|Hy] by (destruct (in_dec Nat.eq_dec y (named_vars c)); auto).
      + exfalso. apply (Nn f a G). apply (f_pts _ _ _ F y g a); auto. apply (i_ptr s I z f a). auto.
      + destruct (Nat.lt_ge_cases y (length (vars s))) as [Ly|Ly].
        * apply (Pr f a y g); [auto|]. destruct Q as (qy & Ey & Gy). rewrite (f_var _ _ _ F y Ly Hy) in Ey. exists qy. auto.
        * exfalso. apply (Nn f a G). apply (f_pts _ _ _ F y g a); auto. apply (i_ptr s I z f a). auto.
  Qed.
  Lemma avoids_run junk zero oom elide z p (s s' : mem) : run junk zero oom elide (avoids z p) s s' ->
    inv s -> var s z = Some p -> private s z ->
    var s' z = Some p /\ (forall f a, get_slot p f = Some a -> blk s' a = blk s a) /\ private s' z.
  Proof.
    induction 1 as [s|s c s1 s2 Lg Nb Pc Ex Rn IH]; intros I Hz Pr; [auto|].
    pose proof (exec_effect' _ _ _ _ _ _ _ I Lg Nb Ex) as F. destruct (avoids_step c s s1 z p I F Hz Pr Pc) as (A & B & C).
    destruct (IH (f_inv _ _ _ F) A C) as (A' & B' & C'). split; [exact A'|]. split; [|exact C'].
    intros f a G. rewrite (B' f a G). eauto.
  Qed.

  (** Variables newer than s0 reach only arrays newer than s0. *)
  Definition apart (s0 s : mem) : Prop :=
    (length (vars s0) <= length (vars s))%nat /\ (length (heap s0) <= length (heap s))%nat /\
    forall y f a, (length (vars s0) <= y)%nat -> points s y f a -> (length (heap s0) <= a)%nat.
  Lemma newer_run junk zero oom elide s0 (s s' : mem) : run junk zero oom elide (newer s0) s s' ->
    inv s -> apart s0 s -> (forall y, (y < length (vars s0))%nat -> var s' y = var s y) /\ (forall a, (a < length (heap s0))%nat -> blk s' a = blk s a).
  Proof.
    induction 1 as [s|s c s1 s2 Lg Nb [Pv Pp] Ex Rn IH]; intros I (Av & Ah & Ap); [auto|].
    pose proof (exec_effect' _ _ _ _ _ _ _ I Lg Nb Ex) as F.
    assert (Nn : forall a, named s c a -> (length (heap s0) <= a)%nat).
    { intros a [(y & g & Hy & Q)|Q]; [apply (Ap y g a); auto|auto]. }
    assert (A1 : apart s0 s1).
    { pose proof (f_vlen _ _ _ F). pose proof (f_hlen _ _ _ F). split; [lia|]. split; [lia|]. intros y f a Ly Q.
      destruct (Nat.lt_ge_cases a (length (heap s))) as [La|La]; [|lia].
      destruct (in_dec Nat.eq_dec y (named_vars c)) as [Hy|Hy]; [apply Nn, (f_pts _ _ _ F y f a); auto|].
      destruct (Nat.lt_ge_cases y (length (vars s))) as [Lyy|Lyy]; [|apply Nn, (f_pts _ _ _ F y f a); auto].
      apply (Ap y f a Ly). destruct Q as (q & Eq & G). rewrite (f_var _ _ _ F y Lyy Hy) in Eq. exists q. auto. }
    destruct (IH (f_inv _ _ _ F) A1) as (B & C). split.
    - intros y Ly. rewrite (B y Ly). apply (f_var _ _ _ F); [lia|]. intros Hy. specialize (Pv y Hy). lia.
    - intros a La. rewrite (C a La). destruct (blk s a) as [b|] eqn:Eb.
      + apply (f_blk _ _ _ F); [exact Eb|]. intros N. specialize (Nn a N). lia.
      + unfold blk in Eb. apply nth_error_None in Eb. lia.
  Qed.

  (** The state after an operation that starts from nothing named: a new variable's arrays are new. *)
  Lemma ext_nothing_apart (s s' : mem) : ext [] nothing s s' -> apart s s'.
  Proof.
    intros E. split; [apply E|]. split; [apply E|]. intros y f a Ly Q. destruct (Nat.lt_ge_cases a (length (heap s))) as [La|La]; [|exact La].
    destruct (e_pts _ _ _ _ E y f a (or_intror Ly) Q La).
  Qed.
  Lemma ext_nothing_same (s s' : mem) : ext [] nothing s s' ->
    (forall y, (y < length (vars s))%nat -> var s' y = var s y) /\ (forall a, (a < length (heap s))%nat -> blk s' a = blk s a).
  Proof.
    intros E. split; [intros y Ly; apply E; auto|]. intros a La. destruct (blk s a) as [[w fr d]|] eqn:Eb.
    - destruct (e_heap _ _ _ _ E _ _ _ _ Eb) as (d' & Ed & _ & Sm). rewrite Sm in Ed by (intros []). exact Ed.
    - unfold blk in Eb. apply nth_error_None in Eb. lia.
  Qed.

  (** Number of variables. *)
  Definition keeps {A} (m : @prog V A) : Prop :=
    forall s, match m s with Val _ s' | Exc s' => length (vars s') = length (vars s) | Undef => True end.
  Lemma keeps_seq {A B} (m : @prog V A) (k : A -> @prog V B) : keeps m -> (forall a, keeps (k a)) -> keeps (seq m k).
  Proof.
    intros H K s. unfold seq. specialize (H s). destruct (m s) as [a s1|s1|]; auto. specialize (K a s1).
    destruct (k a s1); auto; congruence.
  Qed.
  Lemma keeps_ret {A} (a : A) : keeps (ret a). Proof. intros s. reflexivity. Qed.
  Lemma keeps_require b : keeps (require b). Proof. intros s. destruct b; reflexivity. Qed.
  Lemma keeps_get x : keeps (get_obj x). Proof. intros s. unfold get_obj. destruct (nth_error (vars s) x) as [[o|]|]; auto. Qed.
  Lemma keeps_put x o : keeps (put_obj x o).
  Proof. intros s. unfold put_obj. destruct (nth_error (vars s) x) as [[p|]|]; auto. cbn [vars]. apply length_set_nth. Qed.
  Lemma keeps_kill x : keeps (kill x). Proof. intros s. unfold kill. cbn [vars]. apply length_set_nth. Qed.
  Lemma keeps_alloc oom n (v : V) : keeps (alloc oom n v).
  Proof. intros s. unfold alloc. destruct (n <? 0); [reflexivity|]. destruct (oom (requests s)); reflexivity. Qed.
  Lemma keeps_delete q : keeps (delete q).
  Proof. intros s. unfold delete. destruct q as [a|]; [|reflexivity]. destruct (nth_error (heap s) a) as [[[|] [|] d]|]; auto. Qed.
  Lemma keeps_read q n : keeps (read q n).
  Proof.
    intros s. unfold read. destruct (n <=? 0); [reflexivity|]. destruct q as [a|]; [|auto].
    destruct (nth_error (heap s) a) as [[w [|] d]|]; auto. destruct (n <=? zlen d); auto.
  Qed.
  Lemma keeps_write q l : keeps (write q l).
  Proof.
    intros s. unfold write. destruct l as [|v l]; [reflexivity|]. destruct q as [a|]; [|auto].
    destruct (nth_error (heap s) a) as [[w [|] d]|]; auto. destruct (_ <=? _); auto.
  Qed.
  Lemma keeps_when b m : keeps m -> keeps (when b m). Proof. intros H. destruct b; [exact H|apply keeps_ret]. Qed.
  Lemma keeps_assign oom x f n (v : V) : keeps (assign_new oom x f n v).
  Proof. unfold assign_new. apply keeps_seq; [apply keeps_alloc|]. intros q. apply keeps_seq; [apply keeps_get|]. intros o. apply keeps_put. Qed.
  Lemma keeps_destroy x : keeps (destroy x).
  Proof.
    unfold destroy. apply keeps_seq; [apply keeps_get|]. intros o. apply keeps_seq; [|intros _; apply keeps_kill]. apply keeps_when.
    destruct (o_kind o); repeat (first [apply keeps_delete | apply keeps_seq; [apply keeps_delete|intros _]]).
  Qed.
  Lemma keeps_reserve_csr zero oom n x : keeps (reserve_csr zero oom n x).
  Proof.
    unfold reserve_csr. repeat first [apply keeps_require|apply keeps_get|apply keeps_put|apply keeps_assign|apply keeps_when|apply keeps_seq; [|intros]].
  Qed.
  Lemma keeps_reserve_csc zero oom n x : keeps (reserve_csc zero oom n x).
  Proof.
    unfold reserve_csc. repeat first [apply keeps_require|apply keeps_get|apply keeps_put|apply keeps_assign|apply keeps_when|apply keeps_seq; [|intros]].
  Qed.

  (** After m, the only variable from number n on is the result. *)
  Definition only (n : nat) (m : @prog V nat) : Prop :=
    forall s z s', m s = Val z s' -> length (vars s) = S n -> forall y, (n <= y)%nat -> y <> z -> var s' y = None.
  Lemma only_keeps {A} n (m : @prog V A) k : keeps m -> (forall a, only n (k a)) -> only n (seq m k).
  Proof.
    intros Km Kk s z s' E Ls. unfold seq in E. specialize (Km s). destruct (m s) as [a s1|s1|]; try discriminate. eapply Kk; [exact E|congruence].
  Qed.
  Lemma var_out (s : mem) y : (length (vars s) <= y)%nat -> var s y = None.
  Proof. intros L. unfold var. apply nth_error_None in L. now rewrite L. Qed.
  Lemma only_return elide n : only n (return_obj elide n).
  Proof.
    unfold return_obj. destruct elide.
    - intros s z s' E Ls y Ly Ny. unfold ret in E. injection E as <- <-. apply var_out. lia.
    - intros s z s' E Ls y Ly Ny. unfold move, seq in E. destruct (get_obj n s) as [o s0|s0|] eqn:G; try discriminate.
      assert (s0 = s) by (unfold get_obj in G; destruct (nth_error (vars s) n) as [[q|]|]; congruence). subst s0.
      unfold new_obj in E. set (s1 := mk_mem _ _ _) in E. assert (L1 : length (vars s1) = S (S n)) by (unfold s1; cbn [vars]; rewrite app_length; cbn [length]; lia).
      set (m := match o_kind o with KDense => _ | _ => _ end) in E.
      assert (Km : keeps m) by (unfold m; destruct (o_kind o); first [apply keeps_put|apply keeps_ret]).
      specialize (Km s1). destruct (m s1) as [u s2|s2|]; try discriminate. unfold ret in E at 1. destruct (destroy n s2) as [u2 s3|s3|] eqn:D; try discriminate.
      pose proof (keeps_destroy n s2) as K3. rewrite D in K3. unfold ret in E. injection E as <- <-.
      assert (Hn : (y = n \/ S (S n) <= y)%nat) by lia. destruct Hn as [->|Hy]; [|apply var_out; lia].
      unfold destroy, seq in D. destruct (get_obj n s2) as [o2 s4|s4|]; try discriminate. destruct (when _ _ s4) as [u4 s5|s5|]; try discriminate.
      unfold kill in D. injection D as _ <-. unfold var. cbn [vars]. rewrite nth_set_nth, Nat.eqb_refl.
      destruct (n <? length (vars s5))%nat; reflexivity.
  Qed.
  Lemma transpose_as_csr_only zero oom elide x (s : mem) z s' : transpose_as_csr zero oom elide x false s = Val z s' ->
    forall y, (length (vars s) <= y)%nat -> y <> z -> var s' y = None.
  Proof.
    intros E. unfold transpose_as_csr in E. unfold seq at 1 in E. pose proof (keeps_get x s) as Kg. destruct (get_obj x s) as [o s0|s0|]; try discriminate.
    unfold seq at 1 in E. unfold new_csr, new_obj in E. set (s1 := mk_mem _ _ _) in E.
    assert (L1 : length (vars s1) = S (length (vars s))) by (unfold s1; cbn [vars]; rewrite app_length; cbn [length]; lia). rewrite Kg in E.
    match type of E with match ?m with _ => _ end = _ => pose proof (keeps_reserve_csr zero oom (o_nnz o) (length (vars s)) s1) as Kr; destruct m as [u s2|s2|] end.
    - match type of E with ?m s2 = _ => assert (O : only (length (vars s)) m) end; [|apply (O _ _ _ E); congruence].
      apply only_keeps; [apply keeps_get|intros t].
      repeat first [apply only_return|apply only_keeps; [first [apply keeps_read|apply keeps_write]|intros]].
    - unfold seq in E. destruct (destroy _ _); discriminate.
    - discriminate.
  Qed.
  Lemma transpose_as_csc_only zero oom elide x (s : mem) z s' : transpose_as_csc zero oom elide x false s = Val z s' ->
    forall y, (length (vars s) <= y)%nat -> y <> z -> var s' y = None.
  Proof.
    intros E. unfold transpose_as_csc in E. unfold seq at 1 in E. pose proof (keeps_get x s) as Kg. destruct (get_obj x s) as [o s0|s0|]; try discriminate.
    unfold seq at 1 in E. unfold new_csc, new_obj in E. set (s1 := mk_mem _ _ _) in E.
    assert (L1 : length (vars s1) = S (length (vars s))) by (unfold s1; cbn [vars]; rewrite app_length; cbn [length]; lia). rewrite Kg in E.
    match type of E with match ?m with _ => _ end = _ => pose proof (keeps_reserve_csc zero oom (o_nnz o) (length (vars s)) s1) as Kr; destruct m as [u s2|s2|] end.
    - match type of E with ?m s2 = _ => assert (O : only (length (vars s)) m) end; [|apply (O _ _ _ E); congruence].
      apply only_keeps; [apply keeps_get|intros t].
      repeat first [apply only_return|apply only_keeps; [first [apply keeps_read|apply keeps_write]|intros]].
    - unfold seq in E. destruct (destroy _ _); discriminate.
    - discriminate.
  Qed.

  Lemma copy_private (s s' : mem) z : inv s -> ext [] nothing s s' -> (length (vars s) <= z)%nat ->
    (forall y, (length (vars s) <= y)%nat -> y <> z -> var s' y = None) -> private s' z.
  Proof.
    intros I E Lz On f a y g Qz Qy. destruct (ext_nothing_apart s s' E) as (_ & _ & Ap). pose proof (Ap z f a Lz Qz) as La.
    destruct (Nat.lt_ge_cases y (length (vars s))) as [Ly|Ly].
    - exfalso. destruct Qy as (q & Eq & G). rewrite (e_var _ _ _ _ E y Ly) in Eq by auto.
      assert (a < length (heap s))%nat by (apply (i_ptr s I y g a); exists q; auto). lia.
    - destruct (Nat.eq_dec y z) as [->|Ny]; [reflexivity|]. exfalso. destruct Qy as (q & Eq & _). rewrite (On y Ly Ny) in Eq. discriminate.
  Qed.
End OwnProofs6.
