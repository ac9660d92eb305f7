(** Parallel regions: tasks, interleavings, data races.

    A task is the list of element updates that one loop iteration performs on the
    shared buffer, in program order.  An update is a pair (index, action). *)
From Verif Require Import Base.
From Coq Require Import Permutation.

Section Updates.
  Context {T E : Type}.
  (** [act e x] is the new value of a cell holding [x] under action [e]. *)
  Variable act : E -> T -> T.

  (** Execute updates in sequence. *)
  Definition exec (es : list (Z * E)) (b : list T) : outcome (list T) :=
    foldM (fun e b => x <- rd b (fst e) ;; wr b (fst e) (act (snd e) x)) es b.

  (** The actions performed on cell [p], in order. *)
  Definition at_cell (p : Z) (es : list (Z * E)) : list E :=
    map snd (filter (fun e => fst e =? p) es).
End Updates.

(** [interleaving ts es]: [es] merges the task traces [ts], keeping the order inside
    each trace.  Running whole tasks one after the other on any number of threads is
    a special case. *)
Inductive interleaving {E : Type} : list (list E) -> list E -> Prop :=
| il_nil ts : (forall t, In t ts -> t = []) -> interleaving ts []
| il_step ts1 e t ts2 es :
    interleaving (ts1 ++ t :: ts2) es ->
    interleaving (ts1 ++ (e :: t) :: ts2) (e :: es).

(** Two traces conflict when they touch a common cell. *)
Definition disjoint_tasks {E} (t1 t2 : list (Z * E)) : bool :=
  forallb (fun e1 => forallb (fun e2 => negb (fst e1 =? fst e2)) t2) t1.

Fixpoint race_free {E} (ts : list (list (Z * E))) : bool :=
  match ts with
  | [] => true
  | t :: ts => forallb (disjoint_tasks t) ts && race_free ts
  end.

(** A schedule picks an interleaving of the traces of the region. *)
Definition schedule (E : Type) := list (list (Z * E)) -> list (Z * E).
Definition valid_schedule {E} (sched : schedule E) : Prop :=
  forall ts, interleaving ts (sched ts).

(** An OpenMP parallel loop: a data race is undefined behaviour. *)
Definition omp_exec {T E} (act : E -> T -> T) (sched : schedule E)
    (ts : list (list (Z * E))) (b : list T) : outcome (list T) :=
  if race_free ts then exec act (sched ts) b else UB.

(** The sequential schedule. *)
Definition seq_schedule {E} : schedule E := fun ts => concat ts.

(** Another schedule: last task first. *)
Definition rev_schedule {E} : schedule E := fun ts => concat (rev ts).

(* ================================================================== *)
Section ExecLemmas.
  Context {T E : Type}.
  Variable act : E -> T -> T.
  Notation exec := (exec act).

  Definition run_at (es : list E) (x : T) : T := fold_left (fun x e => act e x) es x.

  Lemma exec_app es1 es2 b : exec (es1 ++ es2) b = (b' <- exec es1 b ;; exec es2 b').
  Proof. apply foldM_app. Qed.

  Lemma exec_Ok es b :
    (forall e, In e es -> 0 <= fst e < zlen b) ->
    exists b', exec es b = Ok b' /\ zlen b' = zlen b /\
      forall p, get b' p = option_map (run_at (at_cell p es)) (get b p).
  Proof.
    revert b; induction es as [|[i e] es IH]; intros b H.
    - exists b. split; [reflexivity|]. split; [reflexivity|]. intros p. cbn.
      destruct (get b p); reflexivity.
    - assert (0 <= i < zlen b) as Hi by (apply (H (i, e)); left; reflexivity).
      unfold Interleave.exec. cbn [foldM fst snd].
      destruct (rd_lt b i Hi) as [x [Ex Gx]]. rewrite Ex. cbn [bind].
      destruct (wr_ex b i (act e x) Hi) as [b1 [E1 [L1 [G1 N1]]]]. rewrite E1. cbn [bind].
      destruct (IH b1) as [b2 [E2 [L2 G2]]].
      { intros e' He'. rewrite L1. apply H. right; exact He'. }
      exists b2. split; [exact E2|]. split; [congruence|]. intros p. rewrite G2.
      unfold at_cell. cbn [filter fst]. destruct (Z.eqb_spec i p) as [->|Hp].
      + rewrite G1, Gx. reflexivity.
      + rewrite (N1 p) by lia. reflexivity.
  Qed.

  (** Executions succeed only when all indices are in range. *)
  Lemma exec_Ok_inv es b b' :
    exec es b = Ok b' -> forall e, In e es -> 0 <= fst e < zlen b.
  Proof.
    revert b; induction es as [|[i e] es IH]; intros b H e' He'; [destruct He'|].
    unfold Interleave.exec in H. cbn [foldM fst snd] in H.
    apply bind_Ok in H as [b1 [H1 H2]]. apply bind_Ok in H1 as [x [Hx Hw]].
    assert (zlen b1 = zlen b) as L by (eapply wr_len; eauto).
    destruct He' as [<-|He'].
    - apply wr_Ok_inv in Hw as [Hw _]. exact Hw.
    - rewrite <- L. eapply IH; eauto.
  Qed.

  Lemma at_cell_app p (es1 es2 : list (Z * E)) : at_cell p (es1 ++ es2) = at_cell p es1 ++ at_cell p es2.
  Proof. unfold at_cell. now rewrite filter_app, map_app. Qed.

  Lemma at_cell_nil_iff p (es : list (Z * E)) :
    at_cell p es = [] <-> (forall e, In e es -> fst e <> p).
  Proof.
    unfold at_cell. induction es as [|[i e] es IH]; cbn [filter fst].
    - split; [intros _ e []|auto].
    - destruct (Z.eqb_spec i p) as [->|Hp]; cbn [map].
      + split; [discriminate|]. intros H. exfalso. apply (H (p, e)); [left; reflexivity|reflexivity].
      + rewrite IH. split.
        * intros H e' [<-|He']; [exact Hp|auto].
        * intros H e' He'. apply H; right; auto.
  Qed.

  Lemma at_cell_concat p (ts : list (list (Z * E))) : at_cell p (concat ts) = concat (map (at_cell p) ts).
  Proof. induction ts as [|t ts IH]; cbn [concat map]; [reflexivity|]. now rewrite at_cell_app, IH. Qed.
End ExecLemmas.

Section Races.
  Context {E : Type}.
  Implicit Types (ts : list (list (Z * E))).

  Lemma disjoint_tasks_spec (t1 t2 : list (Z * E)) :
    disjoint_tasks t1 t2 = true <-> forall e1 e2, In e1 t1 -> In e2 t2 -> fst e1 <> fst e2.
  Proof.
    unfold disjoint_tasks. rewrite forallb_forall. split.
    - intros H e1 e2 H1 H2. specialize (H e1 H1). rewrite forallb_forall in H.
      specialize (H e2 H2). lia.
    - intros H e1 H1. apply forallb_forall. intros e2 H2. specialize (H e1 e2 H1 H2). lia.
  Qed.

  Lemma race_free_split ts1 t ts2 :
    race_free (ts1 ++ t :: ts2) = true ->
    forall t', In t' (ts1 ++ ts2) -> forall e e', In e t -> In e' t' -> fst e <> fst e'.
  Proof.
    induction ts1 as [|u ts1 IH]; cbn [app race_free]; intros H t' Ht' e e' He He'.
    - apply andb_true_iff in H as [H _]. rewrite forallb_forall in H.
      specialize (H t' Ht'). rewrite disjoint_tasks_spec in H. auto.
    - apply andb_true_iff in H as [H1 H2]. destruct Ht' as [<-|Ht'].
      + rewrite forallb_forall in H1. specialize (H1 t). rewrite disjoint_tasks_spec in H1.
        intros Heq. apply (H1 (in_elt t ts1 ts2) e' e He' He). congruence.
      + eapply IH; eauto.
  Qed.

  (** Sufficient condition: each cell belongs to one task. *)
  Lemma race_free_owner ts (owner : Z -> nat) :
    (forall k t, nth_error ts k = Some t -> forall e, In e t -> owner (fst e) = k) ->
    race_free ts = true.
  Proof.
    assert (forall s (us : list (list (Z * E))), (forall k t, nth_error us k = Some t -> forall e, In e t -> owner (fst e) = (s + k)%nat) ->
             race_free us = true) as G.
    { intros s us; revert s; induction us as [|u us IH]; intros s H; cbn [race_free]; [reflexivity|].
      apply andb_true_iff; split.
      - apply forallb_forall. intros t Ht. apply disjoint_tasks_spec. intros e1 e2 H1 H2.
        apply In_nth_error in Ht as [k Hk].
        pose proof (H O u eq_refl e1 H1) as O1.
        pose proof (H (S k) t Hk e2 H2) as O2. intros Heq. rewrite Heq in O1. lia.
      - apply (IH (S s)). intros k t Hk e He. specialize (H (S k) t Hk e He). lia. }
    intros H. apply (G O). exact H.
  Qed.

  Lemma race_free_tail ts1 e t ts2 :
    race_free (ts1 ++ (e :: t) :: ts2) = true -> race_free (ts1 ++ t :: ts2) = true.
  Proof.
    induction ts1 as [|u ts1 IH]; cbn [app race_free]; intros H.
    - apply andb_true_iff in H as [H1 H2]. apply andb_true_iff; split; [|exact H2].
      rewrite forallb_forall in H1 |- *. intros t' Ht'. specialize (H1 t' Ht').
      rewrite disjoint_tasks_spec in H1 |- *. intros e1 e2 I1 I2. apply H1; [right; auto|auto].
    - apply andb_true_iff in H as [H1 H2]. apply andb_true_iff; split; [|auto].
      rewrite forallb_forall in H1 |- *. intros t' Ht'.
      apply in_app_or in Ht' as [Ht'|[<-|Ht']].
      + apply H1. apply in_or_app; auto.
      + specialize (H1 (e :: t)). rewrite disjoint_tasks_spec in H1 |- *. intros e1 e2 I1 I2.
        apply H1; [apply in_elt|auto|right; auto].
      + apply H1. apply in_or_app; right; right; auto.
  Qed.

  (** Main lemma: without races, the updates seen by a cell are those of the
      sequential execution, whatever the interleaving. *)
  Lemma interleaving_at_cell ts es p :
    interleaving ts es -> race_free ts = true ->
    at_cell p es = concat (map (at_cell p) ts).
  Proof.
    induction 1 as [ts H|ts1 e t ts2 es Hi IH]; intros Hr.
    - symmetry. cbn. induction ts as [|t ts IHt]; cbn [map concat]; [reflexivity|].
      rewrite (H t) by (left; reflexivity). cbn. apply IHt; [|].
      + intros t' Ht'; apply H; right; auto.
      + cbn in Hr. apply andb_true_iff in Hr. tauto.
    - specialize (IH (race_free_tail _ _ _ _ Hr)).
      rewrite map_app, concat_app in IH |- *. cbn [map concat] in IH |- *.
      unfold at_cell at 1. cbn [filter]. destruct (Z.eqb_spec (fst e) p) as [Hp|Hp]; cbn [map].
      + fold (at_cell p es). rewrite IH.
        assert (concat (map (at_cell p) ts1) = []) as E1.
        { pose proof (race_free_split _ _ _ Hr) as D.
          assert (forall l : list (list (Z * E)), (forall u, In u l -> at_cell p u = []) -> concat (map (at_cell p) l) = []) as Z.
          { induction l as [|u l IHl]; intros Hl; cbn; [reflexivity|]. rewrite (Hl u) by (left; auto).
            cbn. apply IHl. intros; apply Hl; right; auto. }
          apply Z. intros u Hu. apply at_cell_nil_iff. intros e' He' Heq.
          apply (D u (in_or_app _ _ _ (or_introl Hu)) e e'); [left; auto|auto|congruence]. }
        rewrite E1. cbn [app]. unfold at_cell at 3. cbn [filter].
        destruct (Z.eqb_spec (fst e) p); [|congruence]. reflexivity.
      + fold (at_cell p es). rewrite IH. unfold at_cell at 5. cbn [filter].
        destruct (Z.eqb_spec (fst e) p); [congruence|]. reflexivity.
  Qed.

  Lemma interleaving_in ts es e :
    interleaving ts es -> (In e es <-> exists t, In t ts /\ In e t).
  Proof.
    induction 1 as [ts H|ts1 e0 t ts2 es Hi IH].
    - split; [intros []|]. intros [t [Ht He]]. rewrite (H t Ht) in He. exact He.
    - cbn [In]. rewrite IH. split.
      + intros [<-|[u [Hu He]]].
        * exists (e0 :: t). split; [apply in_elt|left; auto].
        * apply in_app_or in Hu as [Hu|[<-|Hu]].
          -- exists u; split; [apply in_or_app; auto|auto].
          -- exists (e0 :: t); split; [apply in_elt|right; auto].
          -- exists u; split; [apply in_or_app; right; right; auto|auto].
      + intros [u [Hu He]]. apply in_app_or in Hu as [Hu|[<-|Hu]].
        * right; exists u; split; [apply in_or_app; auto|auto].
        * destruct He as [<-|He]; [left; auto|]. right. exists t; split; [apply in_elt|auto].
        * right; exists u; split; [apply in_or_app; right; right; auto|auto].
  Qed.

  Lemma interleaving_skip_nil ts es :
    interleaving ts es -> interleaving ([] :: ts) es.
  Proof.
    induction 1 as [ts H|ts1 e t ts2 es Hi IH].
    - constructor. intros t [<-|Ht]; auto.
    - change ([] :: ts1 ++ (e :: t) :: ts2) with (([] :: ts1) ++ (e :: t) :: ts2).
      constructor. exact IH.
  Qed.

  Lemma interleaving_cons t ts es :
    interleaving ts es -> interleaving (t :: ts) (t ++ es).
  Proof.
    induction t as [|e t IH]; intros H; cbn [app].
    - now apply interleaving_skip_nil.
    - apply (il_step [] e t ts). apply IH. exact H.
  Qed.

  Lemma interleaving_snoc ts t es :
    interleaving ts es -> interleaving (ts ++ [t]) (t ++ es).
  Proof.
    intros H. induction t as [|e t IH]; cbn [app].
    - induction H as [ts H|ts1 e t ts2 es Hi IH].
      + constructor. intros t Ht. apply in_app_or in Ht as [Ht|[<-|[]]]; auto.
      + rewrite <- app_assoc. cbn. constructor. rewrite <- app_assoc in IH. exact IH.
    - apply il_step. exact IH.
  Qed.

  Lemma seq_schedule_valid : valid_schedule (@seq_schedule E).
  Proof.
    intros ts. unfold seq_schedule. induction ts as [|t ts IH]; cbn [concat].
    - constructor. intros t [].
    - now apply interleaving_cons.
  Qed.

  Lemma rev_schedule_valid : valid_schedule (@rev_schedule E).
  Proof.
    intros ts. unfold rev_schedule. induction ts as [|t ts IH] using rev_ind.
    - constructor. intros t [].
    - rewrite rev_app_distr. cbn [rev app concat]. now apply interleaving_snoc.
  Qed.
End Races.

Section OmpExec.
  Context {T E : Type}.
  Variable act : E -> T -> T.

  (** Result of a race-free region, cell by cell. *)
  Lemma omp_exec_Ok (sched : schedule E) ts b :
    valid_schedule sched ->
    race_free ts = true ->
    (forall t e, In t ts -> In e t -> 0 <= fst e < zlen b) ->
    exists b', omp_exec act sched ts b = Ok b' /\ zlen b' = zlen b /\
      forall p, get b' p = option_map (run_at act (at_cell p (concat ts))) (get b p).
  Proof.
    intros Hs Hr Hb. unfold omp_exec. rewrite Hr.
    destruct (exec_Ok act (sched ts) b) as [b' [E1 [L G]]].
    { intros e He. apply (interleaving_in _ _ _ (Hs ts)) in He as [t [Ht He]]. eauto. }
    exists b'. split; [exact E1|]. split; [exact L|]. intros p. rewrite G.
    rewrite (interleaving_at_cell _ _ p (Hs ts) Hr). now rewrite at_cell_concat.
  Qed.

  (** Any two schedules agree, whatever the region (races are UB under both). *)
  Lemma omp_exec_schedule_independent (s1 s2 : schedule E) ts b :
    valid_schedule s1 -> valid_schedule s2 ->
    (forall t e, In t ts -> In e t -> 0 <= fst e < zlen b) ->
    omp_exec act s1 ts b = omp_exec act s2 ts b.
  Proof.
    intros H1 H2 Hb. destruct (race_free ts) eqn:Hr.
    - destruct (omp_exec_Ok s1 ts b H1 Hr Hb) as [b1 [E1 [L1 G1]]].
      destruct (omp_exec_Ok s2 ts b H2 Hr Hb) as [b2 [E2 [L2 G2]]].
      rewrite E1, E2. f_equal. apply list_ext_get; [congruence|].
      intros i _. now rewrite G1, G2.
    - unfold omp_exec. now rewrite Hr.
  Qed.
End OmpExec.
