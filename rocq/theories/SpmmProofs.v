(** Sums in a semiring and effects of parallel accumulation. *)
From Coq Require Import Permutation.
From Verif Require Import Base Interleave Spec SparseSkopModel SparseSpec SparseProofs SpFmtModel SpFmtSpec SpFmtProofs SpmmModel SpmmSpec.

Section Sums.
  Context {T : Type}.
  Variable O : ops T.
  Hypothesis L : semiring O.
  Notation add := (o_add O). Notation mul := (o_mul O). Notation zero := (o_zero O). Notation one := (o_one O).
  Notation sumT := (sumT O).

  Lemma add_0_r x : add x zero = x.
  Proof. now rewrite (sr_add_comm O L), (sr_add_0_l O L). Qed.
  Lemma mul_0_r x : mul x zero = zero.
  Proof. now rewrite (sr_mul_comm O L), (sr_mul_0_l O L). Qed.
  Lemma mul_1_r x : mul x one = x.
  Proof. now rewrite (sr_mul_comm O L), (sr_mul_1_l O L). Qed.
  Lemma distr_r x y z : mul (add y z) x = add (mul y x) (mul z x).
  Proof. rewrite (sr_mul_comm O L), (sr_distr_l O L). f_equal; apply (sr_mul_comm O L). Qed.

  Lemma sumT_app a b : sumT (a ++ b) = add (sumT a) (sumT b).
  Proof.
    induction a as [|x a IH]; cbn [app SpmmSpec.sumT fold_right]; [now rewrite (sr_add_0_l O L)|].
    fold (sumT (a ++ b)). rewrite IH, (sr_add_assoc O L). reflexivity.
  Qed.
  Lemma sumT_cons x a : sumT (x :: a) = add x (sumT a). Proof. reflexivity. Qed.
  Lemma sumT_one x : sumT [x] = x. Proof. apply add_0_r. Qed.
  Lemma sumT_perm a b : Permutation a b -> sumT a = sumT b.
  Proof.
    induction 1 as [|x a b P IH|x y a|a b c P1 I1 P2 I2]; rewrite ?sumT_cons; [reflexivity|now rewrite IH| |congruence].
    rewrite !(sr_add_assoc O L). f_equal. apply (sr_add_comm O L).
  Qed.
  Lemma sumT_flat_map {A} (f : A -> list T) l : sumT (flat_map f l) = sumT (map (fun x => sumT (f x)) l).
  Proof. induction l as [|x l IH]; [reflexivity|]. cbn [flat_map map]. now rewrite sumT_app, IH. Qed.
  Lemma sumT_concat l : sumT (concat l) = sumT (map sumT l).
  Proof. induction l as [|x l IH]; [reflexivity|]. cbn [concat map]. now rewrite sumT_app, IH. Qed.
  Lemma sumT_ext {A} (f g : A -> T) l : (forall x, In x l -> f x = g x) -> sumT (map f l) = sumT (map g l).
  Proof.
    induction l as [|x l IH]; intros H; [reflexivity|]. cbn [map]. rewrite !sumT_cons, (H x) by now left.
    f_equal. apply IH. intros; apply H; now right.
  Qed.
  Lemma sumT_zero {A} (f : A -> T) l : (forall x, In x l -> f x = zero) -> sumT (map f l) = zero.
  Proof.
    induction l as [|x l IH]; intros H; [reflexivity|]. cbn [map]. rewrite sumT_cons, (H x) by now left.
    rewrite (sr_add_0_l O L). apply IH. intros; apply H; now right.
  Qed.
  Lemma sumT_only {A} (f : A -> T) l x0 : NoDup l -> In x0 l -> (forall x, In x l -> x <> x0 -> f x = zero) -> sumT (map f l) = f x0.
  Proof.
    induction 1 as [|x l Hx Hl IH]; intros Hin H; [destruct Hin|]. cbn [map]. rewrite sumT_cons. destruct Hin as [->|Hin].
    - rewrite sumT_zero; [apply add_0_r|]. intros y Hy. apply H; [now right|]. intros ->. contradiction.
    - rewrite (H x); [|now left|intros ->; contradiction]. rewrite (sr_add_0_l O L). apply IH; auto. intros; apply H; auto. now right.
  Qed.
  Lemma sumT_map_add {A} (f g : A -> T) l : sumT (map (fun x => add (f x) (g x)) l) = add (sumT (map f l)) (sumT (map g l)).
  Proof.
    induction l as [|x l IH]; cbn [map]; [cbn; now rewrite (sr_add_0_l O L)|]. rewrite !sumT_cons, IH.
    rewrite <- !(sr_add_assoc O L). f_equal. rewrite !(sr_add_assoc O L). f_equal. apply (sr_add_comm O L).
  Qed.
  Lemma sumT_mul_l {A} c (f : A -> T) l : sumT (map (fun x => mul c (f x)) l) = mul c (sumT (map f l)).
  Proof. induction l as [|x l IH]; cbn [map]; [symmetry; apply mul_0_r|]. now rewrite !sumT_cons, IH, (sr_distr_l O L). Qed.
  Lemma sumT_mul_r {A} c (f : A -> T) l : sumT (map (fun x => mul (f x) c) l) = mul (sumT (map f l)) c.
  Proof. rewrite (sr_mul_comm O L), <- sumT_mul_l. apply sumT_ext. intros. apply (sr_mul_comm O L). Qed.
  Lemma sumT_swap {A B} (f : A -> B -> T) la lb :
    sumT (map (fun a => sumT (map (f a) lb)) la) = sumT (map (fun b => sumT (map (fun a => f a b) la)) lb).
  Proof.
    induction la as [|a la IH]; cbn [map].
    - symmetry. now apply sumT_zero.
    - rewrite sumT_cons, IH, <- sumT_map_add. apply sumT_ext. reflexivity.
  Qed.

  (* -------------------------------------------------------------- *)
  (** What a list of updates adds to cell [p]. *)
  Definition added (p : Z) (us : list (Z * list T)) : T := sumT (map (fun u => if fst u =? p then sumT (snd u) else zero) us).

  Lemma added_app p a b : added p (a ++ b) = add (added p a) (added p b).
  Proof. unfold added. now rewrite map_app, sumT_app. Qed.
  Lemma added_concat p l : added p (concat l) = sumT (map (added p) l).
  Proof. induction l as [|x l IH]; [reflexivity|]. cbn [concat map]. now rewrite added_app, IH. Qed.
  Lemma added_none p us : (forall u, In u us -> fst u <> p) -> added p us = zero.
  Proof. intros H. apply sumT_zero. intros u Hu. specialize (H u Hu). destruct (Z.eqb_spec (fst u) p); [contradiction|reflexivity]. Qed.

  Lemma acc_sum a x : acc O a x = add x (sumT a).
  Proof.
    unfold acc. revert x. induction a as [|y a IH]; intros x; cbn [fold_left]; [symmetry; apply add_0_r|].
    rewrite IH, sumT_cons, (sr_add_assoc O L). reflexivity.
  Qed.
  Lemma run_at_sum p us x : run_at (acc O) (at_cell p us) x = add x (added p us).
  Proof.
    unfold run_at. revert x. induction us as [|[q a] us IH]; intros x; [symmetry; apply add_0_r|].
    unfold at_cell, added. cbn [filter fst map]. destruct (q =? p); cbn [map snd fold_left].
    - fold (at_cell p us). rewrite IH, acc_sum, sumT_cons, (sr_add_assoc O L). reflexivity.
    - fold (at_cell p us). rewrite IH, sumT_cons, (sr_add_0_l O L). reflexivity.
  Qed.

  Lemma omp_acc sched ts C :
    valid_schedule sched -> race_free ts = true -> (forall t e, In t ts -> In e t -> 0 <= fst e < zlen C) ->
    exists C', omp_exec (acc O) sched ts C = Ok C' /\ zlen C' = zlen C /\
      forall p, get C' p = option_map (fun x => add x (added p (concat ts))) (get C p).
  Proof.
    intros Hs Hr Hb. destruct (omp_exec_Ok (acc O) sched ts C Hs Hr Hb) as (C' & E & Ln & G). exists C'. split; [exact E|]. split; [exact Ln|].
    intros p. rewrite G. destruct (get C p); cbn [option_map]; [|reflexivity]. now rewrite run_at_sum.
  Qed.
End Sums.

Lemma race_free_map {A E} (f : A -> list (Z * E)) l :
  NoDup l -> (forall a b, In a l -> In b l -> a <> b -> forall e e', In e (f a) -> In e' (f b) -> fst e <> fst e') ->
  race_free (map f l) = true.
Proof.
  induction 1 as [|x l Hx Hl IH]; intros H; [reflexivity|]. cbn [map race_free]. apply andb_true_iff. split.
  - apply forallb_forall. intros t Ht. apply in_map_iff in Ht as (y & <- & Hy). apply disjoint_tasks_spec. intros e e' He He'.
    apply (H x y); [now left|now right|intros ->; contradiction|assumption..].
  - apply IH. intros a b Ha Hb. apply H; now right.
Qed.

(** An element out of range is undefined behaviour under every schedule, so the schedule
    never matters. *)
Lemma exec_never_throws {T E} (act : E -> T -> T) es b : exec act es b <> Throw.
Proof.
  revert b. induction es as [|[i e] es IH]; intros b; unfold exec; cbn [foldM fst snd]; [discriminate|].
  destruct (rd b i) as [x| |] eqn:R; cbn [bind]; [|exfalso; unfold rd in R; destruct (i <? 0); [discriminate|]; destruct (nth_error b (Z.to_nat i)); discriminate|discriminate].
  unfold wr. destruct (i <? 0); cbn [bind]; [discriminate|]. destruct (i <? zlen b); cbn [bind]; [|discriminate]. apply IH.
Qed.
Lemma exec_UB {T E} (act : E -> T -> T) es b e : In e es -> ~ (0 <= fst e < zlen b) -> exec act es b = UB.
Proof.
  intros He Hr. destruct (exec act es b) as [b'| |] eqn:X; [|exfalso; eapply exec_never_throws; eauto|reflexivity].
  exfalso. apply Hr. eapply exec_Ok_inv; eauto.
Qed.
Lemma omp_exec_any_schedule {T E} (act : E -> T -> T) (s1 s2 : schedule E) ts b :
  valid_schedule s1 -> valid_schedule s2 -> omp_exec act s1 ts b = omp_exec act s2 ts b.
Proof.
  intros H1 H2.
  destruct (forallb (fun e => (0 <=? fst e) && (fst e <? zlen b)) (concat ts)) eqn:B.
  - apply omp_exec_schedule_independent; auto. intros t e Ht He. rewrite forallb_forall in B.
    specialize (B e). assert (In e (concat ts)) as Hin by (apply in_concat; eauto). specialize (B Hin). lia.
  - assert (exists e, In e (concat ts) /\ ~ (0 <= fst e < zlen b)) as (e & He & Hr).
    { clear - B. induction (concat ts) as [|e es IH]; [discriminate|]. cbn [forallb] in B. apply andb_false_iff in B as [B|B].
      - exists e. split; [now left|lia].
      - destruct (IH B) as (e' & ? & ?). exists e'. split; [now right|assumption]. }
    apply in_concat in He as (t & Ht & He).
    unfold omp_exec. destruct (race_free ts); [|reflexivity].
    rewrite !(exec_UB act _ b e); auto; apply (interleaving_in ts); eauto.
Qed.
