(** Rounding errors of a product with a sparse matrix. *)
From Coq Require Import ZArith Reals Lra Permutation.
From Flocq Require Import Core BinarySingleNaN.
From Verif Require Import Base Interleave Spec SparseSkopModel SparseSpec SpFmtModel SpFmtSpec PropsSpFmt SpmmModel SpmmSpec RoundModel RoundSpec RoundProofs RoundProofs2.

Local Open Scope R_scope.

Lemma sum_tv {A} (f g : A -> tr) l : tv (sumT trops (map (fun p => tmul (f p) (g p)) l)) = Rtotal (map (fun p => tv (f p) * tv (g p)) l).
Proof. induction l as [|p l IH]; [reflexivity|]. cbn [map sumT fold_right Rtotal]. change (fold_right Rplus 0 ?x) with (Rtotal x). rewrite <- IH. reflexivity. Qed.
Lemma sum_ta {A} (f g : A -> tr) l : ta (sumT trops (map (fun p => tmul (f p) (g p)) l)) = Rtotal (map (fun p => ta (f p) * ta (g p)) l).
Proof. induction l as [|p l IH]; [reflexivity|]. cbn [map sumT fold_right Rtotal]. change (fold_right Rplus 0 ?x) with (Rtotal x). rewrite <- IH. reflexivity. Qed.
Lemma Rtotal_ext {A} (f g : A -> R) l : (forall x, In x l -> f x = g x) -> Rtotal (map f l) = Rtotal (map g l).
Proof. induction l as [|x l IH]; intros H; [reflexivity|]. cbn. change (fold_right Rplus 0 ?x) with (Rtotal x). rewrite (H x) by now left. f_equal. apply IH. intros; apply H; now right. Qed.
(** Degrees and counts of sums of products of single values. *)
Definition le_d (o : option Z) (d : Z) : Prop := match o with Some x => (x <= d)%Z | None => True end.
Lemma le_d_max a b d : le_d a d -> le_d b d -> le_d (omax a b) d.
Proof. destruct a, b; cbn; auto; lia. Qed.
Lemma le_d_add a b d e : le_d a d -> le_d b e -> le_d (oadd a b) (d + e).
Proof. destruct a, b; cbn; auto; lia. Qed.
Lemma le_d_mono a d e : le_d a d -> (d <= e)%Z -> le_d a e.
Proof. destruct a; cbn; auto; lia. Qed.

Section Final.
  Context {prec emax : Z} {pp : Prec_gt_0 prec} {pe : Prec_lt_emax prec emax}.
  Local Notation bf := (binary_float prec emax).
  Variables (g h K D : Z).
  Hypothesis Hg : (0 <= g /\ D * g <= emax + prec - 3)%Z.
  Hypothesis Hh : (0 <= h /\ D * h + K + 2 <= emax)%Z.
  Hypothesis HK : (0 <= K /\ 2 ^ K + D <= 2 ^ (prec - 1))%Z.
  Local Notation emb := (@emb prec emax g h K).
  Local Notation embs := (@embs prec emax pp pe g h K).
  Local Notation md := (moderate (prec - 1 - g) h).

  Lemma emb_ok (x : bf) : md x -> emb x = {| tv := B2R x; ta := Rabs (B2R x); tn := 1; td := Some 1%Z |}.
  Proof. intros H. unfold RoundProofs.emb. now rewrite (proj2 (okb_spec g h x) H). Qed.
  Lemma embs_ok (x : bf) : md x -> tv (embs x) = B2R x /\ ta (embs x) = Rabs (B2R x) /\ (0 <= tn (embs x) <= 1)%Z /\ le_d (td (embs x)) 1 /\ (B2R x = 1 -> le_d (td (embs x)) 0).
  Proof.
    intros H. assert (F : is_finite x = true) by apply H. unfold RoundProofs.embs. destruct (Beqb x (B754_zero false)) eqn:E0.
    { apply Beqb_B2R in E0; auto. change (B2R (B754_zero false)) with 0 in E0. rewrite E0, Rabs_R0. cbn; repeat split; auto; try lia. }
    destruct (Beqb x Bone) eqn:E1.
    { apply Beqb_B2R in E1; auto; [|apply is_finite_Bone]. rewrite Bone_R in E1. rewrite E1, Rabs_R1. cbn [tone tv ta tn td le_d]; repeat split; auto; lia. }
    rewrite (emb_ok x H). cbn [tv ta tn td le_d]. repeat split; auto; try lia. intros E. exfalso. enough (Beqb x Bone = true) by congruence. apply Beqb_B2R; auto; [apply is_finite_Bone|]. now rewrite Bone_R.
  Qed.
  Lemma embs_0_iff (x : bf) : md x -> B2R x = 0 -> embs x = tzero.
  Proof. intros H E. unfold RoundProofs.embs. assert (F : is_finite x = true) by apply H. now rewrite (proj2 (Beqb_B2R x (B754_zero false) F eq_refl) E). Qed.

  Lemma sum_nd (p : list (bf * bf)) : (forall v x, In (v, x) p -> md v /\ md x) ->
    tn (sumT trops (map (fun q => tmul (emb (fst q)) (emb (snd q))) p)) = zlen p /\ le_d (td (sumT trops (map (fun q => tmul (emb (fst q)) (emb (snd q))) p))) 2.
  Proof.
    induction p as [|[v x] p IH]; intros H; [split; [reflexivity|exact I]|]. cbn [map sumT fold_right fst snd]. change (fold_right (o_add trops) (o_zero trops) ?z) with (sumT trops z).
    destruct (H v x (or_introl eq_refl)) as [Hv Hx]. destruct IH as [I1 I2]; [intros; apply H; now right|]. rewrite (emb_ok v Hv), (emb_ok x Hx). cbn [trops o_add tadd tmul tn td oadd]. rewrite I1, zlen_cons. split; [lia|].
    apply le_d_max; [cbn; lia|exact I2].
  Qed.

  (** From the tracked entry to the bound. *)
  Lemma read_off (alpha beta c y : bf) (p : list (bf * bf)) :
    (D = 3%Z \/ D = 2%Z /\ B2R alpha = 1) -> md alpha -> md beta ->
    (B2R alpha <> 0 -> (zlen p < 2 ^ K)%Z /\ forall v x, In (v, x) p -> md v /\ md x) -> (B2R beta <> 0 -> md c) ->
    Rf g h K D y (tadd (tmul (embs alpha) (sumT trops (map (fun q => tmul (emb (fst q)) (emb (snd q))) p))) (tmul (embs beta) (emb c))) ->
    within (zlen p + D - 1) alpha p beta c y.
  Proof.
    intros HD Ma Mb Hp Hc HR. set (S := sumT trops _) in *. set (t := tadd _ _) in *. pose proof (zlen_nonneg p) as Lp.
    destruct (embs_ok alpha Ma) as (A1 & A2 & A3 & A4 & A5). destruct (embs_ok beta Mb) as (B1 & B2 & B3 & B4 & _).
    assert (P1 : tv (tmul (embs alpha) S) = B2R alpha * Rtotal (map (fun q => B2R (fst q) * B2R (snd q)) p) /\
                 ta (tmul (embs alpha) S) = Rabs (B2R alpha) * Rtotal (map (fun q => Rabs (B2R (fst q)) * Rabs (B2R (snd q))) p) /\
                 (0 <= tn (tmul (embs alpha) S) <= zlen p)%Z /\ (tn (tmul (embs alpha) S) < 2 ^ K)%Z /\ le_d (td (tmul (embs alpha) S)) D).
    { assert (0 < 2 ^ K)%Z by (apply Z.pow_pos_nonneg; lia). destruct (Req_dec (B2R alpha) 0) as [Z0|N0].
      - rewrite (embs_0_iff alpha Ma Z0), Z0, Rabs_R0. cbn [tmul tzero tv ta tn td oadd le_d]. rewrite !Rmult_0_l, Z.mul_0_l. repeat split; auto; lia.
      - destruct (Hp N0) as [Lt Hin]. destruct (sum_nd p Hin) as [N1 N2]. fold S in N1, N2. cbn [tmul tv ta tn td]. rewrite A1, A2. unfold S at 1 2. rewrite sum_tv, sum_ta. split; [|split; [|split; [|split]]].
        + f_equal. apply Rtotal_ext. intros [v x] Hq. destruct (Hin v x Hq) as [Hv Hx]. cbn [fst snd]. now rewrite (emb_ok v Hv), (emb_ok x Hx).
        + f_equal. apply Rtotal_ext. intros [v x] Hq. destruct (Hin v x Hq) as [Hv Hx]. cbn [fst snd]. now rewrite (emb_ok v Hv), (emb_ok x Hx).
        + rewrite N1. nia.
        + rewrite N1. nia.
        + destruct HD as [->|[-> E1]]; [apply (le_d_add _ _ 1 2); auto|apply (le_d_add _ _ 0 2); auto]. }
    assert (P2 : tv (tmul (embs beta) (emb c)) = B2R beta * B2R c /\ ta (tmul (embs beta) (emb c)) = Rabs (B2R beta) * Rabs (B2R c) /\
                 (0 <= tn (tmul (embs beta) (emb c)) <= 1)%Z /\ le_d (td (tmul (embs beta) (emb c))) D).
    { destruct (Req_dec (B2R beta) 0) as [Z0|N0].
      - rewrite (embs_0_iff beta Mb Z0), Z0, Rabs_R0. cbn [tmul tzero tv ta tn td oadd le_d]. rewrite !Rmult_0_l, Z.mul_0_l. repeat split; auto; lia.
      - rewrite (emb_ok c (Hc N0)). cbn [tmul tv ta tn td]. rewrite B1, B2. split; [reflexivity|]. split; [reflexivity|]. split; [lia|]. apply le_d_mono with (1 + 1)%Z; [apply le_d_add; auto; cbn; lia|]. destruct HD; lia. }
    destruct P1 as (V1 & W1 & X1 & Y1 & Z1). destruct P2 as (V2 & W2 & X2 & Z2).
    assert (Et : tv t = exact_cell alpha p beta c /\ ta t = size_cell alpha p beta c /\ (tn t <= zlen p + 1)%Z /\ (tn t <= 2 ^ K)%Z /\ le_d (td t) D).
    { unfold t, exact_cell, size_cell. cbn [tadd tv ta tn td]. rewrite V1, V2, W1, W2. split; [reflexivity|]. split; [reflexivity|]. split; [lia|]. split; [lia|]. now apply le_d_max. }
    destruct Et as (Ev & Ea & En & En2 & Ed). unfold within. rewrite <- Ev, <- Ea.
    destruct HR as [(T0 & F & Z0)|(N & d & P1 & E & G)].
    - split; [exact F|]. rewrite Z0, T0. cbn [tzero tv ta]. rewrite Rminus_0_r, Rabs_R0, Rmult_0_r. lra.
    - rewrite E in Ed. cbn [le_d] in Ed. destruct (G En2 Ed) as (F & V & _ & Er & _). split; [exact F|]. eapply Rle_trans; [exact Er|]. apply Rmult_le_compat_r; [pose proof (Rabs_pos (tv t)); lra|].
      apply Rplus_le_compat_r. apply (@q_mono prec emax pp). unfold ex. apply Z2Nat.inj_le; lia.
  Qed.

  Theorem left_error (alpha beta : bf) :
    (D = 3%Z \/ D = 2%Z /\ B2R alpha = 1) -> md alpha -> md beta ->
    forall sched nt ss l opA opB d n m (A : spmat bf) ro co B ldb C ldc,
    valid_schedule sched -> sort_ok ss -> valid_sp A -> sp_base A = BZero -> (0 <= d)%Z -> (0 <= n)%Z -> (0 <= m)%Z -> window_ok A (rows_before opA d m) (cols_before opA d m) ro co ->
    (B2R alpha = 0 \/ sp_safe nt l opA opB d n m A ro co /\ tight A opA ro co d n m) ->
    fits_buffer l ldb (rows_before opB m n) (cols_before opB m n) (zlen B) -> fits_buffer l ldc d n (zlen C) ->
    exists A' C', left_spmm (fops prec emax) sched ss nt nt l opA opB d n m alpha A ro co B ldb beta C ldc = Ok (A', C') /\ same_sp A A' /\ others_kept l d n C ldc C' /\
      forall i j c p, (0 <= i < d)%Z -> (0 <= j < n)%Z -> get C (addr l ldc i j) = Some c ->
      p = terms (op_ent opA (fun i k => at_pos A (ro + i) (co + k))) (op_ent opB (cell (fops prec emax) l ldb B)) m i j ->
      (B2R alpha <> 0 -> (zlen p < 2 ^ K)%Z /\ forall v x, In (v, x) p -> md v /\ md x) -> (B2R beta <> 0 -> md c) ->
      exists y, get C' (addr l ldc i j) = Some y /\ within (zlen p + D - 1) alpha p beta c y.
  Proof.
    intros HD Ma Mb sched nt ss l opA opB d n m A ro co B ldb C ldc Hs Hss HV HB Hd Hn Hm HW Hsafe FB FC.
    assert (HD1 : (1 <= D)%Z) by (destruct HD; lia).
    pose proof (left_transfer (fops prec emax) trops (Rf g h K D) (Lf g h K D) trops_semiring (Lf_Rf g h K D) (Rf_0 g h K D) (Lf_mul g h K D Hg Hh HK HD1) (Lf_add g h K D Hg Hh HK HD1)
      alpha beta (embs alpha) (embs beta) (embs_0 g h K D HK alpha) (embs_1 g h K D HK alpha) (Lf_scale g h K D Hg Hh HK HD1 alpha) (embs_0 g h K D HK beta) (Lf_scale g h K D Hg Hh HK HD1 beta)
      emb (Lf_emb g h K D HK) trops_01 ss Hss (@isort _) (isort_ok _) sched nt l opA opB d n m A ro co B ldb C ldc Hs HV HB Hd Hn Hm HW) as Q.
    destruct Q as (A' & C' & E & Lc & SA & Fr & G); [|exact FB|exact FC|].
    { destruct Hsafe as [H|[H Ht]]; [left|right; split; [exact H|now right]]. assert (F : is_finite alpha = true) by apply Ma. now apply (Beqb_B2R alpha (B754_zero false) F eq_refl). }
    exists A', C'. do 2 (split; [assumption|]). split; [split; assumption|]. intros i j c p Hi Hj Gc -> Hp Hc. destruct (G i j c Hi Hj Gc) as (y & Gy & Ry). exists y. split; [exact Gy|].
    apply (read_off alpha beta c y _ HD Ma Mb Hp Hc). exact Ry.
  Qed.
End Final.
