(** Any evaluation of a sum of products is accurate. *)
From Coq Require Import ZArith Reals Lra Psatz Permutation.
From Flocq Require Import Core BinarySingleNaN Plus_error Relative.
From Verif Require Import Base Spec SparseSkopModel SparseSpec SpFmtModel SpFmtSpec SpmmModel SpmmSpec RoundModel RoundSpec RoundSpec2 RoundSpec3 RoundProofs RoundProofs6 RoundProofs7.
Local Open Scope R_scope.

Local Notation usum p := (sumT urops (map (fun r => umul (ue (fst r)) (ue (snd r))) p)).
Section Evaluation.
  Context {prec emax : Z} {pp : Prec_gt_0 prec} {pe : Prec_lt_emax prec emax}.
  Local Notation bf := (binary_float prec emax).
  Let fexp := SpecFloat.fexp prec emax.
  Local Notation rnd := (round radix2 fexp ZnearestE).

  Definition umono (m : list bf) : ur := fold_right (fun x t => umul (ue x) t) uone m.
  Definition upoly (P : list (list bf)) : ur := fold_right (fun m t => uadd (umono m) t) uzero P.

  Lemma uadd_0_l x : uadd uzero x = x. Proof. exact (sr_add_0_l _ urops_semiring x). Qed.
  Lemma uadd_C x y : uadd x y = uadd y x. Proof. exact (sr_add_comm _ urops_semiring x y). Qed.
  Lemma uadd_0_r x : uadd x uzero = x. Proof. rewrite uadd_C. apply uadd_0_l. Qed.
  Lemma uadd_A x y z : uadd x (uadd y z) = uadd (uadd x y) z. Proof. pose proof (sr_add_assoc _ urops_semiring x y z) as H. cbn [urops o_add] in H. congruence. Qed.
  Lemma umul_C x y : umul x y = umul y x. Proof. exact (sr_mul_comm _ urops_semiring x y). Qed.
  Lemma umul_1_l x : umul uone x = x. Proof. exact (sr_mul_1_l _ urops_semiring x). Qed.
  Lemma umul_1_r x : umul x uone = x. Proof. rewrite umul_C. apply umul_1_l. Qed.
  Lemma umul_0_l x : umul uzero x = uzero. Proof. exact (sr_mul_0_l _ urops_semiring x). Qed.
  Lemma umul_0_r x : umul x uzero = uzero. Proof. rewrite umul_C. apply umul_0_l. Qed.
  Lemma umul_A x y z : umul x (umul y z) = umul (umul x y) z. Proof. pose proof (sr_mul_assoc _ urops_semiring x y z) as H. cbn [urops o_mul] in H. congruence. Qed.
  Lemma umul_D x y z : umul x (uadd y z) = uadd (umul x y) (umul x z).
  Proof. apply ur_eq; cbn [uadd umul uzero uone uv u0 u1 u2 u3 un ud]; [ring|ring|ring|ring|ring|ring|].
    destruct (ud x) as [[? []]|], (ud y) as [[? []]|], (ud z) as [[? []]|]; cbn [umax uplus andb]; try reflexivity; f_equal; f_equal; lia. Qed.

  Lemma umono_app m n : umono (m ++ n) = umul (umono m) (umono n).
  Proof. induction m as [|x m IH]; [symmetry; apply umul_1_l|]. cbn [app umono fold_right]. fold (umono (m ++ n)) (umono m). now rewrite IH, umul_A. Qed.
  Lemma upoly_app P Q : upoly (P ++ Q) = uadd (upoly P) (upoly Q).
  Proof. induction P as [|m P IH]; [symmetry; apply uadd_0_l|]. cbn [app upoly fold_right]. fold (upoly (P ++ Q)) (upoly P). now rewrite IH, uadd_A. Qed.
  Lemma upoly_map m Q : upoly (map (fun n => m ++ n) Q) = umul (umono m) (upoly Q).
  Proof. induction Q as [|n Q IH]; [symmetry; apply umul_0_r|]. cbn [map upoly fold_right]. fold (upoly (map (fun n => m ++ n) Q)) (upoly Q). now rewrite IH, umul_D, umono_app. Qed.
  Lemma upoly_products P Q : upoly (products P Q) = umul (upoly P) (upoly Q).
  Proof.
    induction P as [|m P IH]; [symmetry; apply umul_0_l|]. unfold products in *. cbn [flat_map]. rewrite upoly_app, IH, upoly_map. cbn [upoly fold_right]. fold (upoly P).
    rewrite !(umul_C _ (upoly Q)). symmetry. apply umul_D.
  Qed.
  Lemma umono_perm m n : Permutation m n -> umono m = umono n.
  Proof. induction 1 as [|x m n _ IH|x y m|m n o _ IH1 _ IH2]; [reflexivity|cbn; fold (umono m) (umono n); now rewrite IH| |congruence]. cbn. fold (umono m). rewrite !umul_A. f_equal. apply umul_C. Qed.
  Lemma upoly_perm P Q : Permutation P Q -> upoly P = upoly Q.
  Proof. induction 1 as [|x m n _ IH|x y m|m n o _ IH1 _ IH2]; [reflexivity|cbn; fold (upoly m) (upoly n); now rewrite IH| |congruence]. cbn. fold (upoly m). rewrite !uadd_A. f_equal. apply uadd_C. Qed.
  Lemma upoly_same P Q : same_sum P Q -> upoly P = upoly Q /\ (P = [] <-> Q = []).
  Proof.
    intros (P' & H1 & H2). rewrite (upoly_perm P P' H1). split.
    - clear H1. induction H2 as [|m n P' Q Hm _ IH]; [reflexivity|]. cbn. fold (upoly P') (upoly Q). now rewrite IH, (umono_perm m n Hm).
    - pose proof (Permutation_length H1) as L1. assert (L2 : length P' = length Q) by (clear - H2; induction H2; cbn; congruence). destruct P, Q, P'; cbn in L1, L2; split; intros; congruence || lia.
  Qed.

  (** ** Multiplication by one, addition of zero *)
  Lemma Rh_ext (x y : bf) t : is_finite x = is_finite y -> B2R x = B2R y -> Rh x t -> Rh y t.
  Proof.
    intros EF EV [(-> & F & Z)|(U & d & f & P & N & E & G)]; [left; repeat split; congruence|right]. split.
    - intros F. specialize (U ltac:(congruence)). unfold ugood in *. now rewrite <- EV.
    - exists d, f. do 3 (split; [assumption|]). now rewrite <- EF.
  Qed.
  Lemma one_R (a : bf) : Beqb a Bone = true -> is_finite a = true /\ B2R a = 1.
  Proof. intros H. pose proof (Beqb_fin _ _ (is_finite_Bone prec emax pp pe) H) as Fa. split; [exact Fa|]. apply Beqb_B2R in H; auto; [|apply is_finite_Bone]. now rewrite Bone_R in H. Qed.
  Lemma mul_one (a x : bf) : Beqb a Bone = true -> is_finite (Bmult mode_NE a x) = is_finite x /\ B2R (Bmult mode_NE a x) = B2R x.
  Proof.
    intros H. destruct (one_R a H) as [Fa Va]. pose proof (Bmult_correct prec emax pp pe mode_NE a x) as C. cbn [round_mode] in C. rewrite Va, Rmult_1_l, rnd_B2R, Rlt_bool_true in C by apply abs_B2R_lt_emax.
    destruct C as (C1 & C2 & _). now rewrite C1, C2, Fa.
  Qed.
  Lemma fma_one (a x z : bf) : Beqb a Bone = true -> is_finite (Bplus mode_NE x z) = is_finite (Bfma mode_NE a x z) /\ B2R (Bplus mode_NE x z) = B2R (Bfma mode_NE a x z).
  Proof.
    intros H. destruct (one_R a H) as [Fa Va].
    assert (K : is_finite x = true /\ is_finite z = true \/ (is_finite x = false \/ is_finite z = false)) by (destruct (is_finite x), (is_finite z); auto).
    destruct K as [[Fx Fz]|K].
    - pose proof (Bfma_correct prec emax pp pe mode_NE a x z Fa Fx Fz) as C1. pose proof (Bplus_correct prec emax pp pe mode_NE x z Fx Fz) as C2. cbn [round_mode] in C1, C2. cbv zeta in C1. rewrite Va, Rmult_1_l in C1.
      destruct (Rlt_bool _ _); [destruct C1 as (C1 & C1' & _), C2 as (C2 & C2' & _); split; congruence|]. destruct C2 as [C2 _].
      destruct (Bfma mode_NE a x z), (Bplus mode_NE x z); cbn in C1, C2; try discriminate; split; reflexivity.
    - assert (F1 : is_finite (Bplus mode_NE x z) = false). { apply Bool.not_true_iff_false. intros F. apply add_fin in F as (F1 & F2 & _). destruct K; congruence. }
      assert (F2 : is_finite (Bfma mode_NE a x z) = false). { apply Bool.not_true_iff_false. intros F. apply fma_args in F as (_ & F2 & F3). destruct K; congruence. }
      rewrite F1, F2. split; [reflexivity|]. destruct (Bplus mode_NE x z), (Bfma mode_NE a x z); try discriminate; reflexivity.
  Qed.
  Lemma add_zero_r (x y : bf) t : is_finite y = true -> B2R y = 0 -> Rh x t -> Rh (Bplus mode_NE x y) t.
  Proof.
    intros Fy Zy H. apply (Rh_ext x); [| |exact H]; destruct (is_finite x) eqn:Fx.
    - pose proof (Bplus_correct prec emax pp pe mode_NE x y Fx Fy) as C. cbn [round_mode] in C. rewrite Zy, Rplus_0_r, rnd_B2R, Rlt_bool_true in C by apply abs_B2R_lt_emax. symmetry. apply C.
    - symmetry. apply Bool.not_true_iff_false. intros F. apply add_fin in F as (F & _). congruence.
    - pose proof (Bplus_correct prec emax pp pe mode_NE x y Fx Fy) as C. cbn [round_mode] in C. rewrite Zy, Rplus_0_r, rnd_B2R, Rlt_bool_true in C by apply abs_B2R_lt_emax. symmetry. apply C.
    - destruct x as [|s1| |]; try discriminate; destruct y; try discriminate; reflexivity.
  Qed.
  Lemma Rh_add (x y : bf) t s : Rh x t -> Rh y s -> Rh (Bplus mode_NE x y) (uadd t s).
  Proof. intros H1 [(-> & F & Z)|H2]; [rewrite uadd_0_r; now apply add_zero_r|right; now apply Lh_add]. Qed.

  Definition tracks (P : list (list bf)) (x : bf) : Prop := (P = [] -> is_finite x = true /\ B2R x = 0) /\ (P <> [] -> Lh x (upoly P)).
  Lemma tracks_Rh P x : tracks P x -> Rh x (upoly P).
  Proof. intros [H0 H1]. destruct P as [|m P]; [left; split; [reflexivity|now apply H0]|right; now apply H1]. Qed.
  Lemma un_nonneg P : (0 <= un (upoly P))%Z /\ (P <> [] -> (1 <= un (upoly P))%Z).
  Proof.
    assert (M : forall m, un (umono m) = 1%Z) by (induction m as [|x m IH]; [reflexivity|]; cbn [umono fold_right umul ue un]; fold (umono m); rewrite IH; reflexivity).
    induction P as [|m P [IH _]]; [split; [cbn; lia|congruence]|]. cbn [upoly fold_right uadd un]. fold (upoly P). rewrite M. split; [lia|intros _; lia].
  Qed.
  Lemma Rh_tracks P x : Rh x (upoly P) -> tracks P x.
  Proof.
    intros H. split.
    - intros ->. destruct H as [(_ & H)|(_ & d & f & _ & N & _)]; [exact H|cbn in N; lia].
    - intros HP. destruct H as [(H & _)|H]; [exfalso; apply (f_equal un) in H; pose proof (proj2 (un_nonneg P) HP); cbn in H; lia|exact H].
  Qed.

  Lemma evaluates_tracks P x : evaluates P x -> tracks P x.
  Proof.
    induction 1 as [s|x|P Q x y _ IH1 _ IH2|P Q x y HP HQ _ IH1 _ IH2|P Q T x y z HP HQ _ IH1 _ IH2 _ IH3|a P x Ha _ IH|a P Q x z Ha _ IH1 _ IH2|P Q x HS _ IH].
    - split; [intros _; split; reflexivity|congruence].
    - split; [discriminate|intros _]. cbn. rewrite uadd_0_r, umul_1_r. apply Lh_e.
    - apply Rh_tracks. rewrite upoly_app. apply Rh_add; now apply tracks_Rh.
    - apply Rh_tracks. rewrite upoly_products. right. apply Lh_mul; [now apply IH1|now apply IH2].
    - apply Rh_tracks. rewrite upoly_app, upoly_products. right. apply Lh_fma; [now apply IH1|now apply IH2|now apply tracks_Rh].
    - apply Rh_tracks. destruct (mul_one a x Ha) as [E1 E2]. apply (Rh_ext x); [easy|easy|now apply tracks_Rh].
    - apply Rh_tracks. rewrite upoly_app. destruct (fma_one a x z Ha) as [E1 E2]. apply (Rh_ext (Bplus mode_NE x z)); [exact E1|exact E2|]. apply Rh_add; now apply tracks_Rh.
    - destruct (upoly_same P Q HS) as [E1 E2]. destruct IH as [I1 I2]. split; [tauto|]. rewrite <- E1. tauto.
  Qed.

  Lemma umono_times a m : umono (times a m) = umul (if Beqb a Bone then uone else ue a) (umono m).
  Proof. unfold times. destruct (Beqb a Bone); [symmetry; apply umul_1_l|reflexivity]. Qed.
  Lemma upoly_entry alpha p beta c : upoly (entry_sum alpha p beta c) = uadd (umul (ues alpha) (usum p)) (umul (ues beta) (ue c)).
  Proof.
    unfold entry_sum. rewrite upoly_app. f_equal; unfold ues.
    - destruct (Beqb alpha (B754_zero false)); [now rewrite umul_0_l|]. induction p as [|[v x] p IH]; [symmetry; apply umul_0_r|]. cbn [map upoly fold_right]. fold (upoly (map (fun r => times alpha [fst r; snd r]) p)).
      rewrite IH, umono_times. cbn [map sumT fold_right fst snd urops o_add]. fold (usum p). rewrite umul_D. f_equal. cbn [umono fold_right]. now rewrite umul_1_r.
    - destruct (Beqb beta (B754_zero false)); [now rewrite umul_0_l|]. cbn [upoly fold_right]. rewrite uadd_0_r, umono_times. cbn [umono fold_right]. now rewrite umul_1_r.
  Qed.

  (** Any evaluation is accurate. *)
  Lemma computed_near alpha p beta c (y : bf) : computed alpha p beta c y -> (p = [] -> is_finite alpha = true) ->
    finite_near alpha p beta c y /\ surely_near alpha p beta c y.
  Proof.
    intros H Hp. specialize (H Hp). apply evaluates_tracks, tracks_Rh in H. rewrite upoly_entry in H. split; [apply read_u; now apply Rh_Uf|now apply read_h].
  Qed.
End Evaluation.
