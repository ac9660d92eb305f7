(** Every value a contracted kernel can give is accurate (for C66). *)
From Coq Require Import ZArith Reals Lra Permutation.
From Flocq Require Import Core BinarySingleNaN.
From Verif Require Import Base Interleave Spec SparseSkopModel SparseSpec SpFmtModel SpFmtSpec PropsSpFmt SpmmModel SpmmSpec RoundModel RoundSpec RoundSpec2 RoundProofs RoundProofs2 RoundProofs6 RoundProofs7 RoundProofs8 ContractModel.
Local Open Scope R_scope.

Section Contract.
  Context {prec emax : Z} {pp : Prec_gt_0 prec} {pe : Prec_lt_emax prec emax}.
  Local Notation bf := (binary_float prec emax).
  Local Notation ex := (expr prec emax).

  Fixpoint usem (e : ex) : ur := match e with EVal x => ue x | EAdd a b => uadd (usem a) (usem b) | EMul a b => umul (usem a) (usem b) end.

  Definition Le (e : ex) (t : ur) : Prop :=
    (forall y, gives e y -> Lh y t) /\
    (forall a b, e = EMul a b -> forall x y z r, gives a x -> gives b y -> Rh z r -> Lh (Bfma mode_NE x y z) (uadd t r)).
  Definition Re (e : ex) (t : ur) : Prop := e = EVal (B754_zero false) /\ t = uzero \/ Le e t.

  Lemma Re_gives e t y : Re e t -> gives e y -> Rh y t.
  Proof. intros [[-> ->]|[H _]] G; [inversion G; subst; left; repeat split|right; now apply H]. Qed.
  Lemma Le_val x : Le (EVal x) (ue x).
  Proof. split; [intros y H; inversion H; subst; apply Lh_e|discriminate]. Qed.
  Lemma Le_mul x t y s : Le x t -> Le y s -> Le (EMul x y) (umul t s).
  Proof.
    intros [H1 _] [H2 _]. split; [intros v G; inversion G; subst; apply Lh_mul; auto|].
    intros a b E u w z r G1 G2 Hz. injection E as <- <-. apply Lh_fma; auto.
  Qed.
  Lemma Le_add x t y s : Re x t -> Le y s -> Le (EAdd x y) (uadd t s).
  Proof.
    intros H1 H2. split; [|discriminate]. intros v G. inversion G; subst.
    - apply Lh_add; [now apply (Re_gives x)|now apply H2].
    - destruct H1 as [[E _]|H1]; [discriminate|]. destruct H1 as [_ H1]. eapply H1; eauto. right. now apply H2.
    - rewrite uadd_C. destruct H2 as [_ H2]. eapply H2; eauto. now apply (Re_gives x).
  Qed.
  Lemma Le_usem e : Le e (usem e).
  Proof. induction e; cbn [usem]; [apply Le_val|apply Le_add; [now right|assumption]|now apply Le_mul]. Qed.

  Lemma Rh_pos (y : bf) t : (1 <= un t)%Z -> Rh y t -> Lh y t.
  Proof. intros H [(-> & _)|L]; [cbn in H; lia|exact L]. Qed.
  Lemma Rh_un (y : bf) t : Rh y t -> (0 <= un t)%Z.
  Proof. intros [(-> & _)|(_ & d & f & _ & N & _)]; [cbn; lia|lia]. Qed.
  Lemma Le_scale (a : bf) : Beqb a (B754_zero false) = false -> forall x t, Le x t -> Le (EMul (EVal a) x) (umul (ues a) t).
  Proof.
    intros N x t [H1 _]. split.
    - intros v G. inversion G as [| |? ? u w G1 G2| |]; subst. inversion G1; subst. apply Lh_scale; auto.
    - intros p q E u w z r G1 G2 Hz. injection E as <- <-. inversion G1; subst. unfold ues. rewrite N. destruct (Beqb u Bone) eqn:E1.
      + rewrite umul_1_l. destruct (fma_one u w z E1) as [F1 F2]. apply H1 in G2. apply Rh_pos.
        * pose proof (Rh_un _ _ Hz). destruct G2 as (_ & d & f & _ & Nn & _). cbn [uadd un]. lia.
        * apply (Rh_ext (Bplus mode_NE w z)); [exact F1|exact F2|]. apply Rh_add; [now right|exact Hz].
      + apply Lh_fma; auto. apply Lh_e.
  Qed.

  Theorem contract_left (alpha beta : bf) sched nt ss l opA opB d n m (A : spmat ex) ro co B ldb C ldc :
    valid_schedule sched -> sort_ok ss -> valid_sp A -> sp_base A = BZero -> (0 <= d)%Z -> (0 <= n)%Z -> (0 <= m)%Z -> window_ok A (rows_before opA d m) (cols_before opA d m) ro co ->
    (zero_f alpha \/ sp_safe nt l opA opB d n m A ro co /\ tight A opA ro co d n m) ->
    fits_buffer l ldb (rows_before opB m n) (cols_before opB m n) (zlen B) -> fits_buffer l ldc d n (zlen C) ->
    exists A' C', left_spmm eops sched ss nt nt l opA opB d n m (EVal alpha) A ro co B ldb (EVal beta) C ldc = Ok (A', C') /\ same_sp A A' /\ others_kept l d n C ldc C' /\
      forall i j c p, (0 <= i < d)%Z -> (0 <= j < n)%Z -> get C (addr l ldc i j) = Some (EVal c) ->
      terms (op_ent opA (fun i k => at_pos A (ro + i) (co + k))) (op_ent opB (cell eops l ldb B)) m i j = map (fun r => (EVal (fst r), EVal (snd r))) p ->
      exists e, get C' (addr l ldc i j) = Some e /\ forall y, gives e y -> finite_near alpha p beta c y /\ surely_near alpha p beta c y.
  Proof.
    intros Hs Hss HV HB Hd Hn Hm HW Hsafe FB FC.
    pose proof (left_transfer eops urops Re Le urops_semiring (fun x t H => or_intror H) (or_introl (conj eq_refl eq_refl)) Le_mul Le_add
      (EVal alpha) (EVal beta) (ues alpha) (ues beta) (ues_0 alpha) (ues_1 alpha) (Le_scale alpha) (ues_0 beta) (Le_scale beta)
      usem Le_usem urops_01 ss Hss (@isort _) (isort_ok _) sched nt l opA opB d n m A ro co B ldb C ldc Hs HV HB Hd Hn Hm HW) as Q.
    destruct Q as (A' & C' & E & Lc & SA & Fr & G); [|exact FB|exact FC|].
    { destruct Hsafe as [H|[H Ht]]; [left; now apply Beqb_zero|right; split; [exact H|now right]]. }
    exists A', C'. do 2 (split; [assumption|]). split; [split; assumption|]. intros i j c p Hi Hj Gc Ep. destruct (G i j (EVal c) Hi Hj Gc) as (e & Ge & Re1). exists e. split; [exact Ge|].
    intros y Gy. unfold want in Re1. rewrite Ep, map_map in Re1. cbn [fst snd usem] in Re1. apply (Re_gives _ _ y) in Re1; [|exact Gy].
    split; [apply read_u; apply Rh_Uf; exact Re1|apply read_h; exact Re1].
  Qed.
End Contract.
