(** Second moments for operators whose entries are drawn two at a time: the two values of a
    pair are uncorrelated but not independent (used by PropsNorm3.v). *)
From Verif Require Import Base Spec RngModel DenseModel FyProofs IsoSpec IsoProofs PropsIso StatSpec StatProofs DenseIsoProofs NormSpec NormProofs NormProofs3 NormProofs4.
From Coq Require Import Lra Psatz.
Local Open Scope R_scope.

Lemma ind_le_one {B} (p : B -> bool) l : NoDup l -> (forall x y, In x l -> In y l -> p x = true -> p y = true -> x = y) ->
  Rsum (map (fun x => if p x then 1 else 0) l) <= 1.
Proof.
  intros ND. induction ND as [|x l Hx ND IH]; intros H; cbn [map Rsum]; [lra|].
  destruct (p x) eqn:E.
  - rewrite (Rsum_zero _ l); [lra|]. intros y Hy. destruct (p y) eqn:Ey; [|reflexivity]. exfalso. apply Hx. rewrite (H x y); cbn; auto.
  - specialize (IH (fun a b Ha Hb => H a b (or_intror Ha) (or_intror Hb))). lra.
Qed.
Lemma NoDup_join {B} (l1 l2 : list B) : NoDup l1 -> NoDup l2 -> (forall x, In x l1 -> In x l2 -> False) -> NoDup (l1 ++ l2).
Proof.
  intros N1 N2. induction N1 as [|x l Hx N1 IH]; intros D; [exact N2|]. cbn [app]. constructor.
  - intros H. apply in_app_or in H as [H|H]; [contradiction|]. now apply (D x); [left|].
  - apply IH. intros y Hy. apply D. now right.
Qed.
Lemma NoDup_prod {B C} (l : list B) (l' : list C) : NoDup l -> NoDup l' -> NoDup (list_prod l l').
Proof.
  intros ND ND'. induction ND as [|x l Hx ND IH]; cbn [list_prod]; [constructor|]. apply NoDup_join; auto.
  - apply FinFun.Injective_map_NoDup; [|exact ND']. intros a b E. congruence.
  - intros [a b] H1 H2. apply in_map_iff in H1 as (c & E & _). apply in_prod_iff in H2 as [H2 _]. congruence.
Qed.
Lemma Rsum_prod {B C} (f : B -> C -> R) l l' : Rsum (map (fun p => f (fst p) (snd p)) (list_prod l l')) = Rsum (map (fun x => Rsum (map (f x) l')) l).
Proof. induction l as [|x l IH]; cbn [list_prod map Rsum]; [reflexivity|]. rewrite map_app, Rsum_app, map_map, IH. reflexivity. Qed.
Lemma average_sq_le {B} (l : list B) f : l <> [] -> average l f * average l f <= average l (fun x => f x * f x).
Proof.
  intros H. pose proof (length_pos l H) as P. pose proof (cauchy_schwarz (fun _ => 1) f l) as C. cbv beta in C. rewrite Rsum_const in C.
  rewrite (Rsum_ext (fun x => 1 * f x) f) in C by (intros; lra). unfold average. set (a := Rsum (map f l)) in *. set (b := Rsum (map (fun x => f x * f x) l)) in *. set (n := INR (length l)) in *.
  apply (Rmult_le_reg_r (n * n)); [now apply Rmult_lt_0_compat|]. replace (a / n * (a / n) * (n * n)) with (a * a) by (field; lra). replace (b / n * (n * n)) with (n * b) by (field; lra). lra.
Qed.

(** ** Bilinear forms with few correlations *)
Section Quad.
  Context {T : Type}.
  Variable ts : list T.
  Variable G : T -> Z -> Z -> R.
  Variable m : Z.
  Variable Q : R.
  Variable E : Z -> Z -> R.
  Hypothesis HQ : 0 <= Q.
  Notation dl := IsoSpec.delta.
  Hypothesis cov : forall i j i' j', (0 <= i < m)%Z -> (0 <= j < m)%Z -> (0 <= i' < m)%Z -> (0 <= j' < m)%Z ->
    Rabs (Rsum (map (fun t => G t i j * G t i' j') ts)) <= Q * (dl i' i * dl j' j + dl i' j * dl j' i) + dl j i * dl j' i' * E i i'.
  Notation I := (range 0 m).
  Lemma quad_moment2 x y :
    Rsum (map (fun t => Rsum (map (fun i => Rsum (map (fun j => x i * y j * G t i j) I)) I) * Rsum (map (fun i => Rsum (map (fun j => x i * y j * G t i j) I)) I)) ts) <=
    Q * (2 * (dot m x x * dot m y y)) + Rsum (map (fun i => Rsum (map (fun i' => Rabs (x i * y i) * Rabs (x i' * y i') * E i i') I)) I).
  Proof.
    rewrite (Rsum_ext _ (fun t => Rsum (map (fun i => Rsum (map (fun j => Rsum (map (fun i' => Rsum (map (fun j' => x i * y j * (x i' * y j') * (G t i j * G t i' j')) I)) I)) I)) I))).
    2: { intros t _. rewrite Rsum_mul_r. apply Rsum_ext. intros i _. rewrite Rsum_mul_r. apply Rsum_ext. intros j _.
         rewrite Rmult_comm, Rsum_mul_r. apply Rsum_ext. intros i' _. rewrite Rsum_mul_r. apply Rsum_ext. intros j' _. lra. }
    rewrite Rsum_swap. set (a := fun i j => Rabs (x i * y j)).
    apply (Rle_trans _ (Rsum (map (fun i => Rsum (map (fun j => Rsum (map (fun i' => Rsum (map (fun j' =>
        Q * (dl i' i * dl j' j * (a i j * a i' j') + dl i' j * dl j' i * (a i j * a i' j')) + dl j i * dl j' i' * (a i j * a i' j' * E i i')) I)) I)) I)) I))).
    - apply Rsum_le. intros i Hi. rewrite Rsum_swap. apply Rsum_le. intros j Hj. rewrite Rsum_swap. apply Rsum_le. intros i' Hi'. rewrite Rsum_swap. apply Rsum_le. intros j' Hj'.
      apply in_range in Hi, Hj, Hi', Hj'. rewrite Rsum_scal. pose proof (cov i j i' j' Hi Hj Hi' Hj') as B.
      set (S := Rsum (map (fun t => G t i j * G t i' j') ts)) in *.
      apply (Rle_trans _ (Rabs (x i * y j * (x i' * y j')) * Rabs S)); [rewrite <- Rabs_mult; apply Rle_abs|].
      rewrite (Rabs_mult (x i * y j)). fold (a i j). fold (a i' j'). assert (0 <= a i j * a i' j') by (apply Rmult_le_pos; apply Rabs_pos).
      eapply Rle_trans; [apply Rmult_le_compat_l; [assumption|exact B]|]. right. ring.
    - assert (C : forall i j, In i I -> In j I -> Rsum (map (fun i' => Rsum (map (fun j' =>
        Q * (dl i' i * dl j' j * (a i j * a i' j') + dl i' j * dl j' i * (a i j * a i' j')) + dl j i * dl j' i' * (a i j * a i' j' * E i i')) I)) I)
          = Q * (a i j * a i j + a i j * a j i) + dl j i * Rsum (map (fun i' => a i j * a i' i' * E i i') I)).
      { intros i j Hi Hj. apply in_range in Hi, Hj. rewrite <- Rsum_scal.
        replace (Q * (a i j * a i j + a i j * a j i)) with (Rsum (map (fun i' => dl i' i * (Q * (a i j * a i' j)) + dl i' j * (Q * (a i j * a i' i))) I))
          by (rewrite Rsum_plus, (Rsum_delta (fun i' => Q * (a i j * a i' j))), (Rsum_delta (fun i' => Q * (a i j * a i' i))) by assumption; lra).
        rewrite <- Rsum_plus. apply Rsum_ext. intros i' Hi'. apply in_range in Hi'.
        rewrite (Rsum_ext _ (fun j' => dl j' j * (Q * (dl i' i * (a i j * a i' j'))) + (dl j' i * (Q * (dl i' j * (a i j * a i' j'))) + dl j' i' * (dl j i * (a i j * a i' j' * E i i'))))) by (intros; ring).
        rewrite !Rsum_plus, (Rsum_delta (fun j' => Q * (dl i' i * (a i j * a i' j')))), (Rsum_delta (fun j' => Q * (dl i' j * (a i j * a i' j')))), (Rsum_delta (fun j' => dl j i * (a i j * a i' j' * E i i'))) by assumption. ring. }
      rewrite (Rsum_ext _ (fun i => Rsum (map (fun j => Q * (a i j * a i j + a i j * a j i) + dl j i * Rsum (map (fun i' => a i j * a i' i' * E i i') I)) I))) by (intros i Hi; apply Rsum_ext; intros j Hj; now apply C). clear C.
      rewrite (Rsum_ext _ (fun i => Q * Rsum (map (fun j => a i j * a i j + a i j * a j i) I) + Rsum (map (fun i' => a i i * a i' i' * E i i') I))).
      2: { intros i Hi. apply in_range in Hi. rewrite Rsum_plus, Rsum_scal. f_equal. apply (Rsum_delta (fun j => Rsum (map (fun i' => a i j * a i' i' * E i i') I))). exact Hi. }
      rewrite Rsum_plus, Rsum_scal. apply Rplus_le_compat_r. apply Rmult_le_compat_l; [exact HQ|].
      rewrite (Rsum_ext _ (fun i => Rsum (map (fun j => x i * x i * (y j * y j)) I) + Rsum (map (fun j => Rabs (x i * y i) * Rabs (x j * y j)) I))).
      + rewrite Rsum_plus. rewrite <- (Rsum_mul (fun i => x i * x i) (fun j => y j * y j)), <- (Rsum_mul (fun i => Rabs (x i * y i)) (fun j => Rabs (x j * y j))).
        fold (dot m x x). fold (dot m y y). pose proof (cauchy_schwarz (fun i => Rabs (x i)) (fun i => Rabs (y i)) I) as CS. cbv beta in CS.
        rewrite (Rsum_ext (fun i => Rabs (x i) * Rabs (y i)) (fun i => Rabs (x i * y i))) in CS by (intros; now rewrite Rabs_mult).
        assert (AB : forall z : Z -> R, Rsum (map (fun i => Rabs (z i) * Rabs (z i)) I) = dot m z z).
        { intros z. apply Rsum_ext. intros i _. rewrite <- Rabs_mult. apply Rabs_right, Rle_ge, Rle_0_sqr. }
        rewrite !AB in CS. lra.
      + intros i _. rewrite <- Rsum_plus. apply Rsum_ext. intros j _. unfold a. rewrite !Rabs_mult. f_equal; [|ring].
        replace (Rabs (x i) * Rabs (y j) * (Rabs (x i) * Rabs (y j))) with ((Rabs (x i) * Rabs (x i)) * (Rabs (y j) * Rabs (y j))) by ring.
        rewrite <- (Rabs_mult (x i) (x i)), <- (Rabs_mult (y j) (y j)), (Rabs_right (x i * x i)), (Rabs_right (y j * y j)) by (apply Rle_ge, Rle_0_sqr). reflexivity.
  Qed.
End Quad.

(** ** Slots: the place of an entry is a pair (block, index in the block) and one of its two halves *)
Section Slots.
  Context {A : Type}.
  Variable U : list A.
  Hypothesis HU : U <> [].
  Variables n L : nat.
  Notation ts := (tapes n (tapes L U)).
  Notation N := (INR (length ts)).
  Variable u0 : A.
  Variables d m : Z.
  Hypothesis Hd : (0 < d)%Z.
  Hypothesis Hm : (0 < m)%Z.
  Variable pb pl : Z -> Z -> nat.
  Variable ph : Z -> Z -> bool.
  Notation slot := (Z * Z)%type.
  Definition inside (a : slot) : Prop := (0 <= fst a < d)%Z /\ (0 <= snd a < m)%Z.
  Definition sc (a : slot) : nat * nat := (pb (fst a) (snd a), pl (fst a) (snd a)).
  Definition sh (a : slot) : bool := ph (fst a) (snd a).
  Hypothesis Hpos : forall a, inside a -> (fst (sc a) < n)%nat /\ (snd (sc a) < L)%nat.
  Hypothesis Hinj : forall a b, inside a -> inside b -> sc a = sc b -> sh a = sh b -> a = b.
  Definition sc_dec (a b : slot) : {sc a = sc b} + {sc a <> sc b}.
  Proof. decide equality; apply Nat.eq_dec. Defined.
  Definition ent (f : bool -> A -> R) (t : list (list A)) (a : slot) : R := f (sh a) (cell u0 t (fst (sc a)) (snd (sc a))).
  Definition fre (a : slot) (g : list (list A) -> R) : Prop := free_of U n L (fst (sc a)) (snd (sc a)) g.
  Lemma N_pos : 0 < N. Proof using HU. now apply tapes_pos, tapes_ne. Qed.
  Lemma fre_mul a f g : fre a f -> fre a g -> fre a (fun t => f t * g t).
  Proof. intros F G t u Ht. now rewrite F, G. Qed.
  Lemma fre_plus a f g : fre a f -> fre a g -> fre a (fun t => f t + g t).
  Proof. intros F G t u Ht. now rewrite F, G. Qed.
  Lemma fre_const a c : fre a (fun _ => c). Proof. intros t u _. reflexivity. Qed.
  Lemma fre_ent a b f : sc a <> sc b -> fre a (fun t => ent f t b).
  Proof. intros Ne t u _. unfold ent. f_equal. apply cell_other. destruct (sc a), (sc b). cbn. congruence. Qed.
  (** All the randomness of one pair averaged out. *)
  Lemma split_slot a (F : A -> R) g : inside a -> fre a g ->
    Rsum (map (fun t => F (cell u0 t (fst (sc a)) (snd (sc a))) * g t) ts) = average U F * Rsum (map g ts).
  Proof using HU Hpos. intros Ha Hg. destruct (Hpos a Ha) as [B1 B2]. exact (split_sum U HU n L u0 _ _ F g B1 B2 Hg). Qed.
  Lemma lone f a g : inside a -> average U (f (sh a)) = 0 -> fre a g -> Rsum (map (fun t => ent f t a * g t) ts) = 0.
  Proof using HU Hpos. intros Ha Hf Hg. unfold ent. rewrite (split_slot a (f (sh a)) g Ha Hg), Hf. lra. Qed.
  Lemma pair_out f a b g : inside a -> sc a = sc b -> fre a g -> Rsum (map (fun t => ent f t a * ent f t b * g t) ts) = average U (fun w => f (sh a) w * f (sh b) w) * Rsum (map g ts).
  Proof using HU Hpos. intros Ha E Hg. unfold ent. rewrite <- E. exact (split_slot a (fun w => f (sh a) w * f (sh b) w) g Ha Hg). Qed.

  Definition act (f : bool -> A -> R) (t : list (list A)) (x : Z -> R) (r : Z) : R := Rsum (map (fun i => ent f t (r, i) * x i) (range 0 m)).

  (** *** The ideal values: odd moments vanish *)
  Section Ideal.
    Variable g : bool -> A -> R.
    Variables sg k4 kp Q eta : R.
    Hypothesis G1 : forall h, average U (g h) = 0.
    Hypothesis G2 : forall h h', average U (fun w => g h w * g h' w) = if Bool.eqb h h' then sg else 0.
    Hypothesis G4 : forall h, average U (fun w => g h w * g h w * (g h w * g h w)) = k4.
    Hypothesis G31 : forall h, average U (fun w => g h w * g h w * (g h w * g (negb h) w)) = 0.
    Hypothesis G22 : average U (fun w => g true w * g true w * (g false w * g false w)) = kp.
    Hypothesis Q1 : sg * sg <= Q.
    Hypothesis Q2 : Rabs (k4 - sg * sg) <= 2 * Q.
    Hypothesis Q3 : 0 <= kp <= Q.
    Hypothesis Q4 : Rabs (kp - sg * sg) <= eta.
    Notation e := (ent g).
    Definition same (a b : slot) : R := if sc_dec a b then (if Bool.eqb (sh a) (sh b) then 1 else 0) else 0.
    Definition mate (a b : slot) : R := if sc_dec a b then (if Bool.eqb (sh a) (sh b) then 0 else 1) else 0.
    Lemma Q_nonneg : 0 <= Q. Proof using Q3. lra. Qed.
    Lemma eta_nonneg : 0 <= eta. Proof using Q4. pose proof (Rabs_pos (kp - sg * sg)). lra. Qed.
    Lemma same_sq a b : same a b = 0 \/ same a b = 1. Proof. unfold same. destruct (sc_dec a b); [destruct (Bool.eqb _ _)|]; auto. Qed.
    Lemma mate_sq a b : mate a b = 0 \/ mate a b = 1. Proof. unfold mate. destruct (sc_dec a b); [destruct (Bool.eqb _ _)|]; auto. Qed.
    Lemma same_ne a b : sc a <> sc b -> same a b = 0. Proof. intros H. unfold same. destruct (sc_dec a b); [contradiction|reflexivity]. Qed.
    Lemma same_eq a b : sc a = sc b -> same a b = if Bool.eqb (sh a) (sh b) then 1 else 0. Proof. intros H. unfold same. destruct (sc_dec a b); [reflexivity|contradiction]. Qed.
    Lemma mate_eq a b : sc a = sc b -> mate a b = if Bool.eqb (sh a) (sh b) then 0 else 1. Proof. intros H. unfold mate. destruct (sc_dec a b); [reflexivity|contradiction]. Qed.
    Lemma cov2 a b : inside a -> inside b -> Rsum (map (fun t => e t a * e t b) ts) = N * (sg * same a b).
    Proof using HU Hpos G1 G2.
      intros Ha Hb. destruct (sc_dec a b) as [E|Ne].
      - rewrite (Rsum_ext _ (fun t => e t a * e t b * 1)) by (intros; lra). rewrite (pair_out g a b (fun _ => 1) Ha E (fre_const a 1)), Rsum_const, G2, (same_eq a b E). destruct (Bool.eqb _ _); lra.
      - rewrite (same_ne a b Ne). rewrite (lone g a _ Ha (G1 _) (fre_ent a b g Ne)). lra.
    Qed.
    Definition bnd (a b c f : slot) : R := Q * (same a c * same b f + same a f * same b c) + same a b * same c f * (eta * mate a c).
    Lemma bnd_nonneg a b c f : 0 <= bnd a b c f.
    Proof using Q3 Q4.
      pose proof Q_nonneg. pose proof eta_nonneg. unfold bnd.
      assert (S : forall u v, 0 <= same u v) by (intros u v; destruct (same_sq u v) as [-> | ->]; lra).
      assert (M : 0 <= mate a c) by (destruct (mate_sq a c) as [-> | ->]; lra).
      apply Rplus_le_le_0_compat; [apply Rmult_le_pos; [assumption|apply Rplus_le_le_0_compat; apply Rmult_le_pos; apply S]|].
      apply Rmult_le_pos; [apply Rmult_le_pos; apply S|apply Rmult_le_pos; assumption].
    Qed.
    Lemma quad4 a b c f : inside a -> inside b -> inside c -> inside f ->
      Rabs (Rsum (map (fun t => e t a * e t b * (e t c * e t f)) ts) - N * (sg * sg * (same a b * same c f))) <= N * bnd a b c f.
    Proof using HU Hpos G1 G2 G4 G31 G22 Q1 Q2 Q3 Q4.
      intros Ha Hb Hc Hf. pose proof N_pos as PN. pose proof (bnd_nonneg a b c f) as PB.
      assert (Z0 : forall S, S = 0 -> same a b * same c f = 0 -> Rabs (S - N * (sg * sg * (same a b * same c f))) <= N * bnd a b c f).
      { intros S -> ->. rewrite Rmult_0_r, Rmult_0_r, Rminus_0_r, Rabs_R0. apply Rmult_le_pos; lra. }
      assert (LA : sc a <> sc b -> sc a <> sc c -> sc a <> sc f -> Rsum (map (fun t => e t a * e t b * (e t c * e t f)) ts) = 0).
      { intros. rewrite (Rsum_ext _ (fun t => e t a * (e t b * (e t c * e t f)))) by (intros; ring). apply lone; auto. repeat apply fre_mul; now apply fre_ent. }
      assert (LB : sc b <> sc a -> sc b <> sc c -> sc b <> sc f -> Rsum (map (fun t => e t a * e t b * (e t c * e t f)) ts) = 0).
      { intros. rewrite (Rsum_ext _ (fun t => e t b * (e t a * (e t c * e t f)))) by (intros; ring). apply lone; auto. repeat apply fre_mul; now apply fre_ent. }
      assert (LC : sc c <> sc a -> sc c <> sc b -> sc c <> sc f -> Rsum (map (fun t => e t a * e t b * (e t c * e t f)) ts) = 0).
      { intros. rewrite (Rsum_ext _ (fun t => e t c * (e t a * (e t b * e t f)))) by (intros; ring). apply lone; auto. repeat apply fre_mul; now apply fre_ent. }
      assert (LF : sc f <> sc a -> sc f <> sc b -> sc f <> sc c -> Rsum (map (fun t => e t a * e t b * (e t c * e t f)) ts) = 0).
      { intros. rewrite (Rsum_ext _ (fun t => e t f * (e t a * (e t b * e t c)))) by (intros; ring). apply lone; auto. repeat apply fre_mul; now apply fre_ent. }
      assert (TWO : forall p q r s, inside p -> inside r -> sc p = sc q -> sc r = sc s -> sc p <> sc r -> Rsum (map (fun t => e t p * e t q * (e t r * e t s)) ts) = N * (sg * sg * (same p q * same r s))).
      { intros p q r s Hp Hr E1 E2 Ne. rewrite (pair_out g p q _ Hp E1) by (apply fre_mul; apply fre_ent; congruence).
        rewrite (Rsum_ext _ (fun t => e t r * e t s * 1)) by (intros; lra). rewrite (pair_out g r s _ Hr E2 (fre_const r 1)), Rsum_const, !G2, (same_eq p q E1), (same_eq r s E2).
        destruct (Bool.eqb (sh p) (sh q)), (Bool.eqb (sh r) (sh s)); ring. }
      assert (BQ : N * (sg * sg) <= N * Q) by (apply Rmult_le_compat_l; lra). assert (BP : 0 <= N * (sg * sg)) by (apply Rmult_le_pos; [lra|apply Rle_0_sqr]).
      destruct (sc_dec a b) as [Eab|Nab]; destruct (sc_dec c f) as [Ecf|Ncf].
      - destruct (sc_dec a c) as [Eac|Nac].
        + assert (S : Rsum (map (fun t => e t a * e t b * (e t c * e t f)) ts) = N * average U (fun w => g (sh a) w * g (sh b) w * (g (sh c) w * g (sh f) w))).
          { unfold ent. rewrite <- Ecf, <- Eab, <- Eac. rewrite Rmult_comm.
            pose proof (split_slot a (fun w => g (sh a) w * g (sh b) w * (g (sh c) w * g (sh f) w)) (fun _ => 1) Ha (fre_const a 1)) as X. cbv beta in X. rewrite Rsum_const, Rmult_1_r in X. rewrite <- X. apply Rsum_ext. intros; lra. }
          rewrite S. unfold bnd. rewrite (same_eq a b Eab), (same_eq c f Ecf), (same_eq a c Eac), (mate_eq a c Eac), (same_eq a f), (same_eq b c), (same_eq b f) by congruence.
          rewrite <- Rmult_minus_distr_l, Rabs_mult, (Rabs_right N) by lra. apply Rmult_le_compat_l; [lra|].
          pose proof Q_nonneg as QN. pose proof eta_nonneg as EN. clear S Z0 LA LB LC LF TWO PB.
          destruct (sh a), (sh b), (sh c), (sh f); cbn [Bool.eqb];
          first [ rewrite (G4 true) | rewrite (G4 false) | rewrite G22
            | rewrite (average_ext _ _ (fun w => g true w * g true w * (g true w * g (negb true) w))) by (intros; cbn [negb]; ring); rewrite G31
            | rewrite (average_ext _ _ (fun w => g false w * g false w * (g false w * g (negb false) w))) by (intros; cbn [negb]; ring); rewrite G31
            | rewrite (average_ext _ _ (fun w => g true w * g true w * (g false w * g false w))) by (intros; ring); rewrite G22 ];
          match goal with
          | |- Rabs (k4 - _) <= _ => replace (k4 - sg * sg * (1 * 1)) with (k4 - sg * sg) by ring; lra
          | |- Rabs (kp - sg * sg * (1 * 1)) <= _ => replace (kp - sg * sg * (1 * 1)) with (kp - sg * sg) by ring; lra
          | |- Rabs (kp - _) <= _ => rewrite Rabs_right; lra
          | |- Rabs (0 - _) <= _ => rewrite Rabs_right; lra
          end.
        + rewrite TWO by assumption. rewrite Rminus_diag_eq, Rabs_R0 by reflexivity. apply Rmult_le_pos; lra.
      - apply Z0; [|rewrite (same_ne c f Ncf); lra]. destruct (sc_dec a c); [apply LF|apply LC]; congruence.
      - apply Z0; [|rewrite (same_ne a b Nab); lra]. destruct (sc_dec a c); [apply LB|apply LA]; congruence.
      - assert (S0 : same a b * same c f = 0) by (rewrite (same_ne a b Nab); lra).
        destruct (sc_dec a c) as [Eac|Nac]; [|destruct (sc_dec a f) as [Eaf|Naf]; [|apply Z0; [now apply LA|exact S0]]].
        + destruct (sc_dec b f) as [Ebf|Nbf]; [|apply Z0; [apply LB; congruence|exact S0]].
          rewrite S0. rewrite (Rsum_ext _ (fun t => e t a * e t c * (e t b * e t f))) by (intros; ring). rewrite TWO by congruence.
          unfold bnd. rewrite (same_ne a f) by congruence. rewrite (same_ne a b Nab).
          replace (N * (sg * sg * (same a c * same b f)) - N * (sg * sg * 0)) with (N * (sg * sg) * (same a c * same b f)) by ring.
          destruct (same_sq a c) as [-> | ->], (same_sq b f) as [-> | ->]; rewrite Rabs_right; lra.
        + destruct (sc_dec b c) as [Ebc|Nbc]; [|apply Z0; [apply LB; congruence|exact S0]].
          rewrite S0. rewrite (Rsum_ext _ (fun t => e t a * e t f * (e t b * e t c))) by (intros; ring). rewrite TWO by congruence.
          unfold bnd. rewrite (same_ne a c) by congruence. rewrite (same_ne a b Nab).
          replace (N * (sg * sg * (same a f * same b c)) - N * (sg * sg * 0)) with (N * (sg * sg) * (same a f * same b c)) by ring.
          destruct (same_sq a f) as [-> | ->], (same_sq b c) as [-> | ->]; rewrite Rabs_right; lra.
    Qed.
    Notation dl := IsoSpec.delta.
    Lemma in_mk r i : (0 <= r < d)%Z -> (0 <= i < m)%Z -> inside (r, i). Proof. intros; split; assumption. Qed.
    Lemma same_delta r i s j : inside (r, i) -> inside (s, j) -> same (r, i) (s, j) = if (r =? s)%Z then dl i j else 0.
    Proof using Hinj.
      intros H1 H2. unfold same, IsoSpec.delta. destruct (sc_dec (r, i) (s, j)) as [E|Ne].
      - destruct (Bool.eqb (sh (r, i)) (sh (s, j))) eqn:Eh.
        + apply Bool.eqb_prop in Eh. pose proof (Hinj _ _ H1 H2 E Eh) as X. injection X as -> ->. now rewrite !Z.eqb_refl.
        + destruct (Z.eqb_spec r s) as [->|]; [|reflexivity]. destruct (Z.eqb_spec i j) as [->|]; [|reflexivity]. rewrite Bool.eqb_reflx in Eh. discriminate.
      - destruct (Z.eqb_spec r s) as [->|]; [|reflexivity]. destruct (Z.eqb_spec i j) as [->|]; [|reflexivity]. now elim Ne.
    Qed.
    Definition row (t : list (list A)) (r i j : Z) : R := e t (r, i) * e t (r, j) - sg * dl i j.
    Lemma row_cov r s i j i' j' : inside (r, i) -> inside (r, j) -> inside (s, i') -> inside (s, j') ->
      Rabs (Rsum (map (fun t => row t r i j * row t s i' j') ts)) <= N * bnd (r, i) (r, j) (s, i') (s, j').
    Proof using HU Hpos Hinj G1 G2 G4 G31 G22 Q1 Q2 Q3 Q4.
      intros Hi Hj Hi' Hj'. pose proof (quad4 _ _ _ _ Hi Hj Hi' Hj') as B.
      assert (S1 : same (r, i) (r, j) = dl i j) by (rewrite same_delta, Z.eqb_refl by assumption; reflexivity).
      assert (S2 : same (s, i') (s, j') = dl i' j') by (rewrite same_delta, Z.eqb_refl by assumption; reflexivity).
      rewrite (Rsum_ext _ (fun t => e t (r, i) * e t (r, j) * (e t (s, i') * e t (s, j')) - sg * dl i' j' * (e t (r, i) * e t (r, j)) - (sg * dl i j * (e t (s, i') * e t (s, j')) - sg * dl i j * (sg * dl i' j')))) by (intros; unfold row; ring).
      rewrite !Rsum_minus, !(Rsum_scal (_ * _)), !cov2, Rsum_const by assumption. rewrite S1, S2 in *.
      eapply Rle_trans; [|exact B]. right. f_equal. ring.
    Qed.
    Definition Gd (t : list (list A)) (i j : Z) : R := Rsum (map (fun r => row t r i j) (range 0 d)).
    Definition mates (i i' : Z) : R := Rsum (map (fun r => Rsum (map (fun s => mate (r, i) (s, i')) (range 0 d))) (range 0 d)).
    Lemma Gd_cov i j i' j' : (0 <= i < m)%Z -> (0 <= j < m)%Z -> (0 <= i' < m)%Z -> (0 <= j' < m)%Z ->
      Rabs (Rsum (map (fun t => Gd t i j * Gd t i' j') ts)) <= IZR d * (N * Q) * (dl i' i * dl j' j + dl i' j * dl j' i) + dl j i * dl j' i' * (N * eta * mates i i').
    Proof using HU Hd Hpos Hinj G1 G2 G4 G31 G22 Q1 Q2 Q3 Q4.
      intros Hi Hj Hi' Hj'. rewrite (Rsum_ext _ (fun t => Rsum (map (fun r => Rsum (map (fun s => row t r i j * row t s i' j') (range 0 d))) (range 0 d)))) by (intros t _; unfold Gd; apply Rsum_mul).
      rewrite Rsum_swap. eapply Rle_trans; [apply Rsum_abs|].
      set (X := dl i' i * dl j' j + dl i' j * dl j' i).
      apply (Rle_trans _ (Rsum (map (fun r => Rsum (map (fun s => (if (r =? s)%Z then N * Q * X else 0) + dl j i * dl j' i' * (N * eta) * mate (r, i) (s, i')) (range 0 d))) (range 0 d)))).
      - apply Rsum_le. intros r Hr. apply in_range in Hr. rewrite Rsum_swap. eapply Rle_trans; [apply Rsum_abs|]. apply Rsum_le. intros s Hs. apply in_range in Hs.
        eapply Rle_trans; [apply row_cov; now apply in_mk|]. right. unfold bnd. rewrite !same_delta by now apply in_mk. rewrite !Z.eqb_refl.
        assert (Y : forall p q, dl p q = dl q p) by (intros p q; unfold IsoSpec.delta; now rewrite Z.eqb_sym).
        rewrite (Y i i'), (Y j j'), (Y i j'), (Y j i'), (Y i j), (Y i' j'). unfold X. destruct (r =? s)%Z; ring.
      - right. unfold mates. rewrite <- !Rsum_scal.
        replace (IZR d * (N * Q) * X) with (Rsum (map (fun _ : Z => N * Q * X) (range 0 d))) by (rewrite Rsum_range_const by lia; ring).
        rewrite <- Rsum_plus. apply Rsum_ext. intros r Hr. apply in_range in Hr. rewrite Rsum_plus, Rsum_if by exact Hr. f_equal. rewrite Rsum_scal. ring.
    Qed.
    Lemma mate_unique a b c : inside a -> inside b -> inside c -> mate a b = 1 -> mate a c = 1 -> b = c.
    Proof using Hinj.
      intros Ha Hb Hc. unfold mate. destruct (sc_dec a b) as [E1|]; [|lra]. destruct (sc_dec a c) as [E2|]; [|lra].
      destruct (sh a) eqn:X, (sh b) eqn:Y, (sh c) eqn:Z; cbn [Bool.eqb]; intros; try lra; apply Hinj; auto; congruence.
    Qed.
    Lemma mate_sym a b : mate a b = mate b a.
    Proof. unfold mate. destruct (sc_dec a b), (sc_dec b a); try congruence. destruct (sh a), (sh b); reflexivity. Qed.
    Lemma mate_sum a : inside a -> Rsum (map (fun s => Rsum (map (fun i => mate a (s, i)) (range 0 m))) (range 0 d)) <= 1.
    Proof using Hinj.
      intros Ha. rewrite <- (Rsum_prod (fun s i => mate a (s, i))).
      set (p := fun b : slot => if Req_EM_T (mate a b) 1 then true else false).
      rewrite (Rsum_ext _ (fun b => if p b then 1 else 0)).
      - apply ind_le_one; [apply NoDup_prod; apply NoDup_range|]. intros [s i] [s' i'] H1 H2 P1 P2.
        apply in_prod_iff in H1 as [A1 A2]. apply in_prod_iff in H2 as [A3 A4]. apply in_range in A1, A2, A3, A4. unfold p in P1, P2.
        destruct (Req_EM_T (mate a (s, i)) 1) as [M1|]; [|discriminate]. destruct (Req_EM_T (mate a (s', i')) 1) as [M2|]; [|discriminate].
        apply (mate_unique a); auto using in_mk.
      - intros [s i] _. cbn [fst snd]. unfold p. destruct (Req_EM_T (mate a (s, i)) 1) as [M1|M1]; [exact M1|]. destruct (mate_sq a (s, i)); [assumption|contradiction].
    Qed.
    Lemma mates_sum z : (forall i, 0 <= z i) -> Rsum (map (fun i => Rsum (map (fun i' => z i * z i' * mates i i') (range 0 m))) (range 0 m)) <= IZR d * Rsum (map (fun i => z i * z i) (range 0 m)).
    Proof using Hinj Hd.
      intros Hz.
      assert (F : forall q : Z -> R, Rsum (map (fun r => Rsum (map (fun i => Rsum (map (fun s => Rsum (map (fun i' => q i * q i * mate (r, i) (s, i')) (range 0 m))) (range 0 d))) (range 0 m))) (range 0 d)) <= IZR d * Rsum (map (fun i => q i * q i) (range 0 m))).
      { intros q. rewrite <- (Rsum_range_const (Rsum (map (fun i => q i * q i) (range 0 m)))) by lia. apply Rsum_le. intros r Hr. apply Rsum_le. intros i Hi. apply in_range in Hr, Hi.
        rewrite (Rsum_ext _ (fun s => q i * q i * Rsum (map (fun i' => mate (r, i) (s, i')) (range 0 m)))) by (intros; now rewrite Rsum_scal). rewrite Rsum_scal.
        rewrite <- (Rmult_1_r (q i * q i)) at 2. apply Rmult_le_compat_l; [apply Rle_0_sqr|]. apply mate_sum. now apply in_mk. }
      assert (E1 : forall h : Z -> Z -> R, Rsum (map (fun i => Rsum (map (fun i' => h i i' * mates i i') (range 0 m))) (range 0 m)) =
        Rsum (map (fun r => Rsum (map (fun i => Rsum (map (fun s => Rsum (map (fun i' => h i i' * mate (r, i) (s, i')) (range 0 m))) (range 0 d))) (range 0 m))) (range 0 d))).
      { intros h. rewrite (Rsum_swap (fun r i => Rsum (map (fun s => Rsum (map (fun i' => h i i' * mate (r, i) (s, i')) (range 0 m))) (range 0 d)))). apply Rsum_ext. intros i _.
        rewrite (Rsum_ext (fun r => Rsum _) (fun r => Rsum (map (fun i' => Rsum (map (fun s => h i i' * mate (r, i) (s, i')) (range 0 d))) (range 0 m)))) by (intros; apply Rsum_swap).
        rewrite Rsum_swap. apply Rsum_ext. intros i' _. unfold mates. rewrite <- Rsum_scal. apply Rsum_ext. intros r _. now rewrite Rsum_scal. }
      pose proof (F z) as F1. rewrite <- (E1 (fun i _ => z i * z i)) in F1.
      assert (SY : forall i i', mates i i' = mates i' i).
      { intros i i'. unfold mates. rewrite Rsum_swap. apply Rsum_ext. intros r _. apply Rsum_ext. intros s _. apply mate_sym. }
      assert (F2 : Rsum (map (fun i => Rsum (map (fun i' => z i' * z i' * mates i i') (range 0 m))) (range 0 m)) <= IZR d * Rsum (map (fun i => z i * z i) (range 0 m))).
      { rewrite Rsum_swap. eapply Rle_trans; [|exact F1]. right. apply Rsum_ext. intros i _. apply Rsum_ext. intros i' _. now rewrite SY. }
      apply (Rle_trans _ (/ 2 * Rsum (map (fun i => Rsum (map (fun i' => z i * z i * mates i i') (range 0 m))) (range 0 m)) + / 2 * Rsum (map (fun i => Rsum (map (fun i' => z i' * z i' * mates i i') (range 0 m))) (range 0 m)))); [|lra].
      rewrite <- !Rsum_scal, <- Rsum_plus. apply Rsum_le. intros i _. rewrite <- !Rsum_scal, <- Rsum_plus. apply Rsum_le. intros i' _.
      assert (PM : 0 <= mates i i'). { unfold mates. apply Rsum_nonneg. intros r _. apply Rsum_nonneg. intros s _. destruct (mate_sq (r, i) (s, i')) as [-> | ->]; lra. }
      pose proof (Rle_0_sqr (z i - z i')) as Sq. unfold Rsqr in Sq.
      replace (/ 2 * (z i * z i * mates i i') + / 2 * (z i' * z i' * mates i i')) with ((z i * z i + z i' * z i') / 2 * mates i i') by field. apply Rmult_le_compat_r; [exact PM|lra].
    Qed.
    Lemma diag_le x y : Rsum (map (fun i => Rabs (x i * y i) * Rabs (x i * y i)) (range 0 m)) <= dot m x x * dot m y y.
    Proof.
      assert (NN : forall z k, (0 <= k)%Z -> z k * z k <= dot m z z \/ (m <= k)%Z).
      { intros z k Hk. destruct (Z_lt_le_dec k m); [left|now right]. unfold dot.
        rewrite <- (Rsum_delta (fun i => z i * z i) m k) by lia. apply Rsum_le. intros i _. unfold IsoSpec.delta. pose proof (Rle_0_sqr (z i)) as S. unfold Rsqr in S. destruct (i =? k)%Z; lra. }
      unfold dot at 1. rewrite Rsum_mul_r. apply Rsum_le. intros i Hi. apply in_range in Hi.
      rewrite <- Rabs_mult, Rabs_right by (apply Rle_ge, Rle_0_sqr). replace (x i * y i * (x i * y i)) with (x i * x i * (y i * y i)) by ring.
      apply Rmult_le_compat_l; [apply Rle_0_sqr|]. destruct (NN y i ltac:(lia)); [assumption|lia].
    Qed.
    Lemma ideal_ip t x y : dot d (act g t x) (act g t y) = Rsum (map (fun i => Rsum (map (fun j => x i * y j * Gd t i j) (range 0 m))) (range 0 m)) + IZR d * (sg * dot m x y).
    Proof using Hd.
      set (I := range 0 m).
      assert (E1 : forall r, act g t x r * act g t y r = Rsum (map (fun i => Rsum (map (fun j => x i * y j * row t r i j) I)) I) + sg * dot m x y).
      { intros r. unfold act, dot. fold I. rewrite Rsum_mul, <- Rsum_scal, <- Rsum_plus. apply Rsum_ext. intros i Hi. apply in_range in Hi.
        replace (sg * (x i * y i)) with (Rsum (map (fun j => dl j i * (x i * y j * sg)) (range 0 m))) by (rewrite Rsum_delta by assumption; ring).
        fold I. rewrite <- Rsum_plus. apply Rsum_ext. intros j _. unfold row, IsoSpec.delta. rewrite (Z.eqb_sym j i). ring. }
      unfold dot at 1. rewrite (Rsum_ext _ _ _ (fun r _ => E1 r)). rewrite Rsum_plus, Rsum_range_const by lia. f_equal.
      rewrite Rsum_swap. apply Rsum_ext. intros i _. rewrite Rsum_swap. apply Rsum_ext. intros j _. unfold Gd. now rewrite Rsum_scal.
    Qed.
    Lemma ideal_moment x y :
      Rsum (map (fun t => (dot d (act g t x) (act g t y) - IZR d * (sg * dot m x y)) * (dot d (act g t x) (act g t y) - IZR d * (sg * dot m x y))) ts)
      <= N * (IZR d * (2 * Q + eta) * (dot m x x * dot m y y)).
    Proof using HU Hd Hpos Hinj G1 G2 G4 G31 G22 Q1 Q2 Q3 Q4.
      pose proof N_pos as PN. pose proof Q_nonneg as PQ. pose proof eta_nonneg as PE. assert (Pd : 0 < IZR d) by (apply IZR_lt; lia).
      assert (HQ : 0 <= IZR d * (N * Q)) by (apply Rmult_le_pos; [lra|apply Rmult_le_pos; lra]).
      pose proof (quad_moment2 ts Gd m (IZR d * (N * Q)) (fun i i' => N * eta * mates i i') HQ Gd_cov x y) as B.
      rewrite (Rsum_ext _ (fun t => Rsum (map (fun i => Rsum (map (fun j => x i * y j * Gd t i j) (range 0 m))) (range 0 m)) * Rsum (map (fun i => Rsum (map (fun j => x i * y j * Gd t i j) (range 0 m))) (range 0 m)))) by (intros; rewrite ideal_ip; ring).
      eapply Rle_trans; [exact B|]. clear B.
      rewrite (Rsum_ext (fun i => Rsum (map (fun i' => Rabs (x i * y i) * Rabs (x i' * y i') * (N * eta * mates i i')) (range 0 m))) (fun i => N * eta * Rsum (map (fun i' => Rabs (x i * y i) * Rabs (x i' * y i') * mates i i') (range 0 m))))
        by (intros i _; rewrite <- Rsum_scal; apply Rsum_ext; intros; ring). rewrite (Rsum_scal (N * eta)).
      pose proof (mates_sum (fun i => Rabs (x i * y i)) (fun i => Rabs_pos _)) as M. pose proof (diag_le x y) as D. cbv beta in M.
      assert (PNE : 0 <= N * eta) by (apply Rmult_le_pos; lra).
      set (xy := dot m x x * dot m y y) in *. set (q1 := Rsum (map (fun i => Rsum _) (range 0 m))) in *. set (q2 := Rsum (map (fun i => Rabs (x i * y i) * Rabs (x i * y i)) (range 0 m))) in *.
      assert (IZR d * q2 <= IZR d * xy) by (apply Rmult_le_compat_l; lra).
      assert (N * eta * q1 <= N * eta * (IZR d * xy)) by (apply Rmult_le_compat_l; [exact PNE|lra]). lra.
    Qed.
    Lemma ideal_linear x b : Rsum (map (fun t => dot d (act g t x) b * dot d (act g t x) b) ts) = N * (sg * (dot m x x * dot d b b)).
    Proof using HU Hpos Hinj G1 G2.
      rewrite (Rsum_ext _ (fun t => Rsum (map (fun r => Rsum (map (fun i => Rsum (map (fun s => Rsum (map (fun j => b r * x i * (b s * x j) * (e t (r, i) * e t (s, j))) (range 0 m))) (range 0 d))) (range 0 m))) (range 0 d)))).
      2: { intros t _. unfold dot, act. rewrite Rsum_mul_r. apply Rsum_ext. intros r _. rewrite (Rmult_assoc (Rsum _)), Rsum_mul_r. apply Rsum_ext. intros i _.
           rewrite (Rmult_comm (b r)), <- Rmult_assoc, (Rmult_comm (_ * x i)), Rmult_assoc, Rsum_mul_r.
           apply Rsum_ext. intros s _. rewrite (Rmult_assoc (Rsum _)), Rsum_mul_r. apply Rsum_ext. intros j _. ring. }
      rewrite Rsum_swap. unfold dot at 2. rewrite (Rmult_comm (dot m x x)), Rsum_mul_r, <- !Rsum_scal. apply Rsum_ext. intros r Hr. apply in_range in Hr.
      rewrite Rsum_swap. unfold dot. rewrite <- !Rsum_scal. apply Rsum_ext. intros i Hi. apply in_range in Hi.
      rewrite Rsum_swap. replace (N * (sg * (b r * b r * (x i * x i)))) with (Rsum (map (fun s => dl s r * (N * (sg * (b r * b s * (x i * x i))))) (range 0 d))) by (rewrite (Rsum_delta (fun s => N * (sg * (b r * b s * (x i * x i))))) by exact Hr; reflexivity).
      apply Rsum_ext. intros s Hs. apply in_range in Hs. rewrite Rsum_swap.
      replace (dl s r * (N * (sg * (b r * b s * (x i * x i))))) with (Rsum (map (fun j => dl j i * (dl s r * (N * (sg * (b r * b s * (x i * x j)))))) (range 0 m))) by (rewrite (Rsum_delta (fun j => dl s r * (N * (sg * (b r * b s * (x i * x j)))))) by exact Hi; reflexivity).
      apply Rsum_ext. intros j Hj. apply in_range in Hj. rewrite Rsum_scal, cov2, same_delta by now apply in_mk.
      unfold IsoSpec.delta. rewrite (Z.eqb_sym s r), (Z.eqb_sym j i). destruct (r =? s)%Z, (i =? j)%Z; ring.
    Qed.
  End Ideal.
End Slots.
