(** Second moments for operators with independent entries (used by PropsNorm2.v). *)
From Verif Require Import Base Spec RngModel DenseModel FyProofs IsoSpec IsoProofs PropsIso StatSpec StatProofs NormSpec NormProofs NormProofs3.
From Coq Require Import Lra.
Local Open Scope R_scope.

(** ** Tapes of blocks *)
Lemma tapes_map {A B} (h : A -> B) n U : tapes n (map h U) = map (map h) (tapes n U).
Proof.
  induction n as [|n IH]; [reflexivity|]. cbn [tapes]. rewrite IH. clear IH. generalize (tapes n U). intros l. induction U as [|u U IU]; [reflexivity|].
  cbn [map flat_map]. rewrite map_app, !map_map. f_equal. exact IU.
Qed.
Lemma length_pos {A} (l : list A) : l <> [] -> 0 < INR (length l).
Proof. intros H. apply lt_0_INR. destruct l; [congruence|cbn; lia]. Qed.
Section Nested.
  Context {A : Type}.
  Variable U : list A.
  Hypothesis HU : U <> [].
  Variables n L : nat.
  Notation ts := (tapes n (tapes L U)).
  Definition upd (t : list (list A)) (b l : nat) (u : A) : list (list A) := set_nth t b (set_nth (nth b t []) l u).
  Lemma tapes_ne {B} k (V : list B) : V <> [] -> tapes k V <> [].
  Proof. intros H E. pose proof (tapes_pos k V H) as P. rewrite E in P. cbn in P. lra. Qed.
  Lemma nested_resample b l (F : list (list A) -> R) : (b < n)%nat -> (l < L)%nat ->
    INR (length U) * Rsum (map F ts) = Rsum (map (fun t => Rsum (map (fun u => F (upd t b l u)) U)) ts).
  Proof.
    intros Hb Hl. pose proof (tapes_pos L U HU) as PL.
    apply (Rmult_eq_reg_l (INR (length (tapes L U)))); [|lra].
    rewrite (resample (tapes L U) n b (fun t => Rsum (map (fun u => F (upd t b l u)) U)) Hb).
    rewrite <- Rmult_assoc, (Rmult_comm (INR (length (tapes L U)))), Rmult_assoc, (resample (tapes L U) n b F Hb), <- Rsum_scal.
    apply Rsum_ext. intros t Ht. apply tapes_len in Ht. rewrite (resample U L l (fun B => F (set_nth t b B)) Hl).
    apply Rsum_ext. intros B _. apply Rsum_ext. intros u _. unfold upd. rewrite nth_set_eq by lia. now rewrite set_nth_twice.
  Qed.
  Definition cell (u0 : A) (t : list (list A)) (b l : nat) : A := nth l (nth b t []) u0.
  Lemma cell_upd u0 t b l u : In t ts -> (b < n)%nat -> (l < L)%nat -> cell u0 (upd t b l u) b l = u.
  Proof.
    intros Ht Hb Hl. pose proof (tapes_len _ _ _ Ht) as Lt. unfold cell, upd. rewrite nth_set_eq by lia. apply nth_set_eq.
    assert (In (nth b t []) (tapes L U)) as Hin by (eapply tapes_in; [exact Ht|apply nth_In; lia]). apply tapes_len in Hin. lia.
  Qed.
  Lemma cell_other u0 t b l u b' l' : (b, l) <> (b', l') -> cell u0 (upd t b l u) b' l' = cell u0 t b' l'.
  Proof.
    intros N. unfold cell, upd. destruct (Nat.eq_dec b b') as [<-|Nb].
    - destruct (le_lt_dec (length t) b) as [H|H].
      + rewrite (nth_overflow (set_nth t b _)); [|now rewrite length_set_nth]. now rewrite (nth_overflow t).
      + rewrite nth_set_eq by exact H. apply nth_set_ne. congruence.
    - now rewrite nth_set_ne.
  Qed.
  Definition free_of (b l : nat) (g : list (list A) -> R) : Prop := forall t u, In t ts -> g (upd t b l u) = g t.
  Lemma split_sum u0 b l (f : A -> R) g : (b < n)%nat -> (l < L)%nat -> free_of b l g ->
    Rsum (map (fun t => f (cell u0 t b l) * g t) ts) = average U f * Rsum (map g ts).
  Proof.
    intros Hb Hl Hg. assert (PU : 0 < INR (length U)) by (apply lt_0_INR; destruct U; [congruence|cbn; lia]).
    apply (Rmult_eq_reg_l (INR (length U))); [|lra]. rewrite (nested_resample b l _ Hb Hl).
    rewrite (Rsum_ext _ (fun t => Rsum (map f U) * g t)).
    - rewrite Rsum_scal. unfold average. field. lra.
    - intros t Ht. rewrite Rsum_mul_r. apply Rsum_ext. intros u _. rewrite cell_upd by assumption. now rewrite Hg.
  Qed.
End Nested.

(** ** Root mean squares add up at most *)
Lemma minkowski {T} (ts : list T) p q P Q' N : 0 <= N -> 0 <= P -> 0 <= Q' ->
  Rsum (map (fun t => p t * p t) ts) <= N * (P * P) -> Rsum (map (fun t => q t * q t) ts) <= N * (Q' * Q') ->
  Rsum (map (fun t : T => (p t + q t) * (p t + q t)) ts) <= N * ((P + Q') * (P + Q')).
Proof.
  intros HN HP HQ A B. pose proof (cauchy_schwarz p q ts) as C.
  rewrite (Rsum_ext _ (fun t => p t * p t + (q t * q t + 2 * (p t * q t)))) by (intros; ring). rewrite !Rsum_plus, Rsum_scal.
  assert (0 <= Rsum (map (fun t => p t * p t) ts)) by (apply Rsum_nonneg; intros; apply Rle_0_sqr).
  assert (0 <= Rsum (map (fun t => q t * q t) ts)) by (apply Rsum_nonneg; intros; apply Rle_0_sqr).
  set (a := Rsum (map (fun t => p t * p t) ts)) in *. set (b := Rsum (map (fun t => q t * q t) ts)) in *. set (c := Rsum (map (fun t => p t * q t) ts)) in *.
  clearbody a b c. assert (D : c * c <= (N * (P * Q')) * (N * (P * Q'))).
  { eapply Rle_trans; [exact C|]. apply (Rle_trans _ (N * (P * P) * (N * (Q' * Q')))); [apply Rmult_le_compat; assumption|right; ring]. }
  assert (0 <= N * (P * Q')) by (repeat apply Rmult_le_pos; assumption). assert (c <= N * (P * Q')); [|lra].
  destruct (Rle_dec c (N * (P * Q'))); [assumption|]. exfalso. assert (N * (P * Q') * (N * (P * Q')) < c * c) by (apply Rmult_le_0_lt_compat; lra). lra.
Qed.

Lemma Rsum_abs {A} (f : A -> R) l : Rabs (Rsum (map f l)) <= Rsum (map (fun x => Rabs (f x)) l).
Proof. induction l as [|x l IH]; cbn; [rewrite Rabs_R0; lra|]. eapply Rle_trans; [apply Rabs_triang|]. lra. Qed.
Lemma Rsum_if (c : R) n a : (0 <= a < n)%Z -> Rsum (map (fun i => if (a =? i)%Z then c else 0) (range 0 n)) = c.
Proof.
  intros Ha. rewrite (Rsum_one _ _ a); [now rewrite Z.eqb_refl|apply NoDup_range|now apply in_range|].
  intros y _ Ny. destruct (Z.eqb_spec a y); [congruence|reflexivity].
Qed.
Lemma sum_sq m x : (0 <= m)%Z -> Rsum (map x (range 0 m)) * Rsum (map x (range 0 m)) <= IZR m * dot m x x.
Proof.
  intros Hm. pose proof (cauchy_schwarz (fun _ => 1) x (range 0 m)) as C. cbv beta in C. rewrite (Rsum_range_const (1 * 1)) in C by exact Hm.
  rewrite (Rsum_ext (fun i => 1 * x i) x) in C by (intros; lra). unfold dot. lra.
Qed.

(** ** Matrices with independent entries *)
Section Entries.
  Context {A : Type}.
  Variable U : list A.
  Hypothesis HU : U <> [].
  Variables n L : nat.
  Notation ts := (tapes n (tapes L U)).
  Variable u0 : A.
  Variable v : A -> R.
  Variables d m : Z.
  Hypothesis Hd : (0 < d)%Z.
  Hypothesis Hm : (0 < m)%Z.
  (** Where entry (r,i) comes from. *)
  Variable pb pl : Z -> Z -> nat.
  Hypothesis Hpos : forall r i, (0 <= r < d)%Z -> (0 <= i < m)%Z -> (pb r i < n)%nat /\ (pl r i < L)%nat.
  Hypothesis Hinj : forall r i r' i', (0 <= r < d)%Z -> (0 <= i < m)%Z -> (0 <= r' < d)%Z -> (0 <= i' < m)%Z ->
    (pb r i, pl r i) = (pb r' i', pl r' i') -> r = r' /\ i = i'.
  Definition mu : R := average U v.
  Definition cw (w : A) : R := v w - mu.
  Definition s2 : R := average U (fun w => cw w * cw w).
  Definition k4 : R := average U (fun w => cw w * cw w * (cw w * cw w)).
  Definition entry (t : list (list A)) (r i : Z) : R := v (cell u0 t (pb r i) (pl r i)).
  Definition ce (t : list (list A)) (r i : Z) : R := cw (cell u0 t (pb r i) (pl r i)).
  Notation rng r i := ((0 <= r < d)%Z /\ (0 <= i < m)%Z).
  Definition fr (r i : Z) (g : list (list A) -> R) : Prop := free_of U n L (pb r i) (pl r i) g.
  Notation N := (INR (length ts)).

  Lemma PU : 0 < INR (length U). Proof using HU. exact (length_pos U HU). Qed.
  Lemma mean_zero : average U cw = 0.
  Proof using HU. unfold cw, average. rewrite Rsum_minus, Rsum_const. unfold mu, average. pose proof PU. field. lra. Qed.
  Lemma fr_mul r i f g : fr r i f -> fr r i g -> fr r i (fun t => f t * g t).
  Proof. intros F G t u Ht. now rewrite F, G. Qed.
  Lemma fr_minus r i f g : fr r i f -> fr r i g -> fr r i (fun t => f t - g t).
  Proof. intros F G t u Ht. now rewrite F, G. Qed.
  Lemma fr_const r i c : fr r i (fun _ => c). Proof. intros t u _. reflexivity. Qed.
  Lemma fr_ce r i r' i' : rng r i -> rng r' i' -> (r, i) <> (r', i') -> fr r i (fun t => ce t r' i').
  Proof using Hinj.
    intros [H1 H2] [H3 H4] Ne t u _. unfold ce. f_equal. apply cell_other. intros E. destruct (Hinj r i r' i' H1 H2 H3 H4 E) as [-> ->]. now apply Ne.
  Qed.
  Lemma lone r i g : rng r i -> fr r i g -> Rsum (map (fun t => ce t r i * g t) ts) = 0.
  Proof using HU Hpos.
    intros [H1 H2] Hg. destruct (Hpos r i H1 H2) as [B1 B2]. unfold ce.
    rewrite (split_sum U HU n L u0 (pb r i) (pl r i) cw g B1 B2 Hg), mean_zero. lra.
  Qed.
  Lemma square r i g : rng r i -> fr r i g -> Rsum (map (fun t => ce t r i * ce t r i * g t) ts) = s2 * Rsum (map g ts).
  Proof using HU Hpos.
    intros [H1 H2] Hg. destruct (Hpos r i H1 H2) as [B1 B2]. unfold ce.
    apply (split_sum U HU n L u0 (pb r i) (pl r i) (fun w => cw w * cw w) g B1 B2 Hg).
  Qed.
  Lemma fourth r i : rng r i -> Rsum (map (fun t => ce t r i * ce t r i * (ce t r i * ce t r i)) ts) = k4 * N.
  Proof using HU Hpos.
    intros [H1 H2]. destruct (Hpos r i H1 H2) as [B1 B2]. unfold ce.
    pose proof (split_sum U HU n L u0 (pb r i) (pl r i) (fun w => cw w * cw w * (cw w * cw w)) (fun _ => 1) B1 B2 ltac:(intros t u _; reflexivity)) as S.
    rewrite Rsum_const, Rmult_1_r in S. unfold k4. rewrite <- S. apply Rsum_ext. intros; lra.
  Qed.
  Notation dl := IsoSpec.delta.
  Definition row (t : list (list A)) (r i j : Z) : R := ce t r i * ce t r j - s2 * dl i j.
  Lemma row_sym t r i j : row t r i j = row t r j i.
  Proof. unfold row, IsoSpec.delta. rewrite (Z.eqb_sym i j). lra. Qed.
  Lemma fr_row r i s a b : rng r i -> rng s a -> rng s b -> (r, i) <> (s, a) -> (r, i) <> (s, b) -> fr r i (fun t => row t s a b).
  Proof using Hinj. intros. apply fr_minus; [apply fr_mul; now apply fr_ce|apply fr_const]. Qed.
  (** i not among i', j' (or another row): nothing to pair it with. *)
  Lemma row_lone r s i j i' j' : rng r i -> rng r j -> rng s i' -> rng s j' -> (r, i) <> (s, i') -> (r, i) <> (s, j') ->
    Rsum (map (fun t => row t r i j * row t s i' j') ts) = 0.
  Proof using HU Hpos Hinj.
    intros Hi Hj Hi' Hj' N1 N2. pose proof (fr_row r i s i' j' Hi Hi' Hj' N1 N2) as F. destruct (Z.eq_dec i j) as [<-|Nij].
    - rewrite (Rsum_ext _ (fun t => ce t r i * ce t r i * row t s i' j' - s2 * row t s i' j')).
      + rewrite Rsum_minus, Rsum_scal, square by assumption. lra.
      + intros t _. unfold row at 1, IsoSpec.delta. rewrite Z.eqb_refl. ring.
    - rewrite (Rsum_ext _ (fun t => ce t r i * (ce t r j * row t s i' j'))).
      + apply lone; [assumption|]. apply fr_mul; [|assumption]. apply fr_ce; auto. congruence.
      + intros t _. unfold row at 1, IsoSpec.delta. destruct (Z.eqb_spec i j); [contradiction|]. ring.
  Qed.
  Variable Q : R.
  Hypothesis Q1 : s2 * s2 <= Q.
  Hypothesis Q2 : k4 - s2 * s2 <= 2 * Q.
  Lemma s2_nonneg : 0 <= s2.
  Proof using HU. unfold s2, average. apply Rmult_le_pos; [apply Rsum_nonneg; intros; apply Rle_0_sqr|]. apply Rlt_le, Rinv_0_lt_compat, PU. Qed.
  Lemma Q_nonneg : 0 <= Q. Proof using HU Q1. pose proof s2_nonneg. nra. Qed.
  Lemma N_pos : 0 < N. Proof using HU. now apply tapes_pos, tapes_ne. Qed.
  Lemma row_cov r s i j i' j' : rng r i -> rng r j -> rng s i' -> rng s j' ->
    Rabs (Rsum (map (fun t => row t r i j * row t s i' j') ts)) <= (if (r =? s)%Z then N * Q else 0) * (dl i' i * dl j' j + dl i' j * dl j' i).
  Proof using HU Hpos Hinj Q1 Q2.
    intros Hi Hj Hi' Hj'. pose proof N_pos as PN. pose proof Q_nonneg as PQ. assert (PNQ : 0 <= N * Q) by (apply Rmult_le_pos; lra).
    assert (RH : 0 <= (if (r =? s)%Z then N * Q else 0) * (dl i' i * dl j' j + dl i' j * dl j' i)).
    { apply Rmult_le_pos; [destruct (r =? s)%Z; lra|]. unfold IsoSpec.delta. repeat destruct (_ =? _)%Z; lra. }
    assert (Z0 : forall S, S = 0 -> Rabs S <= (if (r =? s)%Z then N * Q else 0) * (dl i' i * dl j' j + dl i' j * dl j' i)) by (intros S ->; now rewrite Rabs_R0).
    destruct (Z.eqb_spec r s) as [<-|Nr]; [|apply Z0, row_lone; auto; congruence].
    destruct (Z.eq_dec i i') as [<-|A1]; [|destruct (Z.eq_dec i j') as [<-|A2]; [|apply Z0, row_lone; auto; congruence]].
    - destruct (Z.eq_dec j j') as [<-|B2]; [|destruct (Z.eq_dec j i) as [->|B1]].
      + destruct (Z.eq_dec i j) as [<-|Nij].
        * rewrite (Rsum_ext _ (fun t => ce t r i * ce t r i * (ce t r i * ce t r i) - (2 * s2) * (ce t r i * ce t r i * 1) + s2 * s2)).
          2: { intros t _. unfold row, IsoSpec.delta. rewrite Z.eqb_refl. ring. }
          rewrite Rsum_plus, Rsum_minus, Rsum_scal, fourth, (square r i (fun _ => 1)), !Rsum_const by (try assumption; apply fr_const).
          unfold IsoSpec.delta. rewrite Z.eqb_refl.
          assert (NN : 0 <= k4 * N - 2 * s2 * (s2 * (N * 1)) + N * (s2 * s2)).
          { rewrite <- (fourth r i Hi). replace (s2 * (N * 1)) with (Rsum (map (fun t => ce t r i * ce t r i * 1) ts)) by (rewrite (square r i (fun _ => 1)) by (try assumption; apply fr_const); now rewrite Rsum_const).
            rewrite <- (Rsum_const (s2 * s2) ts), <- Rsum_scal, <- Rsum_minus, <- Rsum_plus. apply Rsum_nonneg. intros t _.
            replace (_ + s2 * s2) with ((ce t r i * ce t r i - s2) * (ce t r i * ce t r i - s2)) by ring. apply Rle_0_sqr. }
          rewrite Rabs_right by lra. assert (N * (k4 - s2 * s2) <= N * (2 * Q)) by (apply Rmult_le_compat_l; lra). lra.
        * rewrite (Rsum_ext _ (fun t => ce t r i * ce t r i * (ce t r j * ce t r j * 1))).
          2: { intros t _. unfold row, IsoSpec.delta. destruct (Z.eqb_spec i j); [contradiction|]. ring. }
          rewrite square, (square r j (fun _ => 1)), Rsum_const; try assumption; try apply fr_const.
          2: { apply fr_mul; [apply fr_mul; apply fr_ce; auto; congruence|apply fr_const]. }
          unfold IsoSpec.delta. rewrite !Z.eqb_refl. destruct (Z.eqb_spec i j); [contradiction|].
          replace (s2 * (s2 * (N * 1))) with (N * (s2 * s2)) by ring. pose proof s2_nonneg.
          rewrite Rabs_right by (apply Rle_ge, Rmult_le_pos; [lra|nra]). assert (N * (s2 * s2) <= N * Q) by (apply Rmult_le_compat_l; lra). destruct (j =? i)%Z; lra.
      + apply Z0. rewrite (Rsum_ext _ (fun t => row t r j' i * row t r i i)) by (intros t _; rewrite (row_sym t r i j'); lra).
        apply row_lone; auto; congruence.
      + apply Z0. rewrite (Rsum_ext _ (fun t => row t r j i * row t r i j')) by (intros t _; now rewrite (row_sym t r i j)). apply row_lone; auto; congruence.
    - destruct (Z.eq_dec j i') as [<-|B1].
      + rewrite (Rsum_ext _ (fun t => ce t r i * ce t r i * (ce t r j * ce t r j * 1))).
        2: { intros t _. rewrite (row_sym t r j i). unfold row, IsoSpec.delta. destruct (Z.eqb_spec i j); [congruence|]. ring. }
        rewrite square, (square r j (fun _ => 1)), Rsum_const; try assumption; try apply fr_const.
        2: { apply fr_mul; [apply fr_mul; apply fr_ce; auto; congruence|apply fr_const]. }
        unfold IsoSpec.delta. rewrite !Z.eqb_refl. destruct (Z.eqb_spec j i); [congruence|].
        replace (s2 * (s2 * (N * 1))) with (N * (s2 * s2)) by ring. pose proof s2_nonneg.
        rewrite Rabs_right by (apply Rle_ge, Rmult_le_pos; [lra|nra]). assert (N * (s2 * s2) <= N * Q) by (apply Rmult_le_compat_l; lra). lra.
      + apply Z0. destruct (Z.eq_dec j i) as [->|B2].
        * rewrite (Rsum_ext _ (fun t => row t r i' i * row t r i i)) by (intros t _; lra). apply row_lone; auto; congruence.
        * rewrite (Rsum_ext _ (fun t => row t r j i * row t r i' i)) by (intros t _; now rewrite (row_sym t r i j)). apply row_lone; auto; congruence.
  Qed.

  Definition Gd (t : list (list A)) (i j : Z) : R := Rsum (map (fun r => row t r i j) (range 0 d)).
  Lemma Gd_cov i j i' j' : (0 <= i < m)%Z -> (0 <= j < m)%Z -> (0 <= i' < m)%Z -> (0 <= j' < m)%Z ->
    Rabs (Rsum (map (fun t => Gd t i j * Gd t i' j') ts)) <= IZR d * (N * Q) * (dl i' i * dl j' j + dl i' j * dl j' i).
  Proof.
    intros Hi Hj Hi' Hj'. rewrite (Rsum_ext _ (fun t => Rsum (map (fun r => Rsum (map (fun s => row t r i j * row t s i' j') (range 0 d))) (range 0 d)))) by (intros t _; unfold Gd; apply Rsum_mul).
    rewrite Rsum_swap. eapply Rle_trans; [apply Rsum_abs|]. set (X := dl i' i * dl j' j + dl i' j * dl j' i).
    apply (Rle_trans _ (Rsum (map (fun r => Rsum (map (fun s => (if (r =? s)%Z then N * Q else 0) * X) (range 0 d))) (range 0 d)))).
    - apply Rsum_le. intros r Hr. apply in_range in Hr. rewrite Rsum_swap. eapply Rle_trans; [apply Rsum_abs|]. apply Rsum_le. intros s Hs. apply in_range in Hs.
      apply row_cov; auto.
    - right. rewrite (Rsum_ext _ (fun _ => N * Q * X)).
      + rewrite Rsum_range_const by lia. ring.
      + intros r Hr. apply in_range in Hr. rewrite <- Rsum_mul_r, Rsum_if by exact Hr. reflexivity.
  Qed.
  Lemma ce_cov r i s j : rng r i -> rng s j -> Rsum (map (fun t => ce t r i * ce t s j) ts) = if (r =? s)%Z then (if (i =? j)%Z then N * s2 else 0) else 0.
  Proof.
    intros H1 H2. destruct (Z.eqb_spec r s) as [<-|Nr]; [destruct (Z.eqb_spec i j) as [<-|Ni]|].
    - rewrite (Rsum_ext _ (fun t => ce t r i * ce t r i * 1)) by (intros; lra). rewrite (square r i (fun _ => 1)), Rsum_const by (try assumption; apply fr_const). lra.
    - apply lone; auto. apply fr_ce; auto. congruence.
    - apply lone; auto. apply fr_ce; auto. congruence.
  Qed.
  Definition lin (t : list (list A)) (x : Z -> R) : R := Rsum (map (fun r => Rsum (map (fun i => ce t r i * x i) (range 0 m))) (range 0 d)).
  Lemma lin_sq x : Rsum (map (fun t => lin t x * lin t x) ts) = N * (IZR d * s2 * dot m x x).
  Proof.
    rewrite (Rsum_ext _ (fun t => Rsum (map (fun r => Rsum (map (fun i => Rsum (map (fun s => Rsum (map (fun j => x i * x j * (ce t r i * ce t s j)) (range 0 m))) (range 0 d))) (range 0 m))) (range 0 d)))).
    2: { intros t _. unfold lin. rewrite Rsum_mul_r. apply Rsum_ext. intros r _. rewrite Rsum_mul_r. apply Rsum_ext. intros i _. rewrite Rmult_comm, Rsum_mul_r.
         apply Rsum_ext. intros s _. rewrite Rsum_mul_r. apply Rsum_ext. intros j _. ring. }
    rewrite Rsum_swap. rewrite (Rsum_ext _ (fun _ => N * s2 * dot m x x)); [rewrite Rsum_range_const by lia; ring|].
    intros r Hr. apply in_range in Hr. rewrite Rsum_swap. unfold dot. rewrite <- Rsum_scal. apply Rsum_ext. intros i Hi. apply in_range in Hi.
    rewrite Rsum_swap. rewrite <- (Rsum_if (N * s2 * (x i * x i)) d r Hr). apply Rsum_ext. intros s Hs. apply in_range in Hs.
    rewrite Rsum_swap. destruct (Z.eqb_spec r s) as [<-|Nr].
    - rewrite <- (Rsum_if (N * s2 * (x i * x i)) m i Hi). apply Rsum_ext. intros j Hj. apply in_range in Hj. rewrite Rsum_scal, ce_cov by auto. rewrite Z.eqb_refl.
      destruct (Z.eqb_spec i j) as [<-|]; ring.
    - apply Rsum_zero. intros j Hj. apply in_range in Hj. rewrite Rsum_scal, ce_cov by auto. destruct (Z.eqb_spec r s); [contradiction|]. ring.
  Qed.

  Definition act (t : list (list A)) (x : Z -> R) (r : Z) : R := Rsum (map (fun i => entry t r i * x i) (range 0 m)).
  Lemma act_split t x r : act t x r = Rsum (map (fun i => ce t r i * x i) (range 0 m)) + mu * Rsum (map x (range 0 m)).
  Proof. unfold act. rewrite <- Rsum_scal, <- Rsum_plus. apply Rsum_ext. intros i _. unfold entry, ce, cw. ring. Qed.
  Lemma ip_split t x y : dot d (act t x) (act t y) =
    Rsum (map (fun i => Rsum (map (fun j => x i * y j * Gd t i j) (range 0 m))) (range 0 m)) + IZR d * (s2 * dot m x y) +
    mu * (Rsum (map y (range 0 m)) * lin t x + Rsum (map x (range 0 m)) * lin t y) + IZR d * (mu * mu * (Rsum (map x (range 0 m)) * Rsum (map y (range 0 m)))).
  Proof.
    set (I := range 0 m). set (X := Rsum (map x I)). set (Y := Rsum (map y I)).
    assert (E1 : forall r, act t x r * act t y r = Rsum (map (fun i => Rsum (map (fun j => x i * y j * row t r i j) I)) I) + s2 * dot m x y +
      mu * (Y * Rsum (map (fun i => ce t r i * x i) I) + X * Rsum (map (fun i => ce t r i * y i) I)) + mu * mu * (X * Y)).
    { intros r. rewrite !act_split. fold I X Y. set (a := Rsum (map (fun i => ce t r i * x i) I)). set (b := Rsum (map (fun i => ce t r i * y i) I)).
      assert (Eab : a * b = Rsum (map (fun i => Rsum (map (fun j => x i * y j * row t r i j) I)) I) + s2 * dot m x y).
      { unfold a, b, dot. fold I. rewrite Rsum_mul, <- Rsum_scal, <- Rsum_plus. apply Rsum_ext. intros i Hi. apply in_range in Hi.
        replace (s2 * (x i * y i)) with (Rsum (map (fun j => dl j i * (x i * y j * s2)) (range 0 m))) by (rewrite Rsum_delta by assumption; ring).
        fold I. rewrite <- Rsum_plus. apply Rsum_ext. intros j _. unfold row, IsoSpec.delta. rewrite (Z.eqb_sym j i). ring. }
      rewrite <- Eab. ring. }
    unfold dot at 1. rewrite (Rsum_ext _ _ _ (fun r _ => E1 r)). rewrite !Rsum_plus, (Rsum_scal mu), Rsum_plus, (Rsum_scal Y), (Rsum_scal X), !Rsum_range_const by lia.
    unfold I. fold (lin t x). fold (lin t y). f_equal. f_equal. f_equal.
    rewrite Rsum_swap. apply Rsum_ext. intros i _. rewrite Rsum_swap. apply Rsum_ext. intros j _. unfold Gd. now rewrite Rsum_scal.
  Qed.

  Definition slack : R := sqrt (2 * Q / IZR d) + Rabs (s2 - 1) + 2 * (Rabs mu * sqrt (s2 * IZR m / IZR d)) + mu * mu * IZR m.
  Lemma ip_moment x y :
    average ts (fun t => (/ IZR d * dot d (act t x) (act t y) - dot m x y) ^ 2) <= slack ^ 2 * (dot m x x * dot m y y).
  Proof.
    pose proof N_pos as PN. pose proof Q_nonneg as PQ. pose proof s2_nonneg as P2. assert (Pd : 0 < IZR d) by (apply IZR_lt; lia). assert (Pm : 0 < IZR m) by (apply IZR_lt; lia).
    set (xx := dot m x x). set (yy := dot m y y). assert (Px : 0 <= xx) by apply dot_nonneg. assert (Py : 0 <= yy) by apply dot_nonneg.
    set (X := Rsum (map x (range 0 m))). set (Y := Rsum (map y (range 0 m))).
    assert (HX : X * X <= IZR m * xx) by (apply sum_sq; lia). assert (HY : Y * Y <= IZR m * yy) by (apply sum_sq; lia).
    assert (HXY : dot m x y * dot m x y <= xx * yy) by apply cauchy_schwarz.
    set (r := sqrt xx * sqrt yy). assert (Pr : 0 <= r) by (apply Rmult_le_pos; apply sqrt_pos).
    assert (Er : r * r = xx * yy). { unfold r. replace (sqrt xx * sqrt yy * (sqrt xx * sqrt yy)) with ((sqrt xx * sqrt xx) * (sqrt yy * sqrt yy)) by ring. now rewrite !sqrt_sqrt. }
    set (p := fun t => Rsum (map (fun i => Rsum (map (fun j => x i * y j * Gd t i j) (range 0 m))) (range 0 m))).
    set (q0 := sqrt (2 * Q / IZR d)). set (q2 := sqrt (s2 * IZR m / IZR d)).
    assert (Pid : 0 < / IZR d) by (apply Rinv_0_lt_compat; exact Pd).
    assert (S0 : q0 * q0 = 2 * Q / IZR d) by (apply sqrt_sqrt; apply Rmult_le_pos; lra).
    assert (S2 : q2 * q2 = s2 * IZR m / IZR d) by (apply sqrt_sqrt; apply Rmult_le_pos; [apply Rmult_le_pos|]; lra).
    assert (Q0 : 0 <= q0) by apply sqrt_pos. assert (Q2' : 0 <= q2) by apply sqrt_pos.
    assert (T1 : Rsum (map (fun t => / IZR d * p t * (/ IZR d * p t)) ts) <= N * (q0 * r * (q0 * r))).
    { rewrite (Rsum_ext _ (fun t => / IZR d * / IZR d * (p t * p t))) by (intros; ring). rewrite Rsum_scal.
      pose proof (quad_moment ts Gd m (IZR d * (N * Q)) ltac:(repeat apply Rmult_le_pos; lra) Gd_cov x y) as B. fold xx yy in B.
      change (Rsum (map (fun t => p t * p t) ts) <= IZR d * (N * Q) * (2 * (xx * yy))) in B.
      apply (Rle_trans _ (/ IZR d * / IZR d * (IZR d * (N * Q) * (2 * (xx * yy))))); [apply Rmult_le_compat_l; [apply Rmult_le_pos; lra|exact B]|].
      right. replace (q0 * r * (q0 * r)) with ((q0 * q0) * (r * r)) by ring. rewrite S0, Er. field. lra. }
    assert (T2 : Rsum (map (fun _ : list (list A) => (s2 - 1) * dot m x y * ((s2 - 1) * dot m x y)) ts) <= N * (Rabs (s2 - 1) * r * (Rabs (s2 - 1) * r))).
    { rewrite Rsum_const. apply Rmult_le_compat_l; [lra|]. replace (Rabs (s2 - 1) * r * (Rabs (s2 - 1) * r)) with ((Rabs (s2 - 1) * Rabs (s2 - 1)) * (r * r)) by ring.
      rewrite <- Rabs_mult, (Rabs_right (_ * _)) by (apply Rle_ge, Rle_0_sqr). rewrite Er.
      replace ((s2 - 1) * dot m x y * ((s2 - 1) * dot m x y)) with ((s2 - 1) * (s2 - 1) * (dot m x y * dot m x y)) by ring. apply Rmult_le_compat_l; [apply Rle_0_sqr|exact HXY]. }
    assert (AM : Rabs mu * Rabs mu = mu * mu) by (rewrite <- Rabs_mult; apply Rabs_right, Rle_ge, Rle_0_sqr).
    assert (TL : forall z zz w ww, zz = dot m z z -> w * w <= IZR m * ww -> zz * ww = xx * yy ->
      Rsum (map (fun t => mu / IZR d * w * lin t z * (mu / IZR d * w * lin t z)) ts) <= N * (Rabs mu * q2 * r * (Rabs mu * q2 * r))).
    { intros z zz w ww Ez Hw Ezw. rewrite (Rsum_ext _ (fun t => mu * mu * / IZR d * / IZR d * (w * w) * (lin t z * lin t z))) by (intros; unfold Rdiv; ring). rewrite Rsum_scal, lin_sq, <- Ez.
      replace (Rabs mu * q2 * r * (Rabs mu * q2 * r)) with ((Rabs mu * Rabs mu) * (q2 * q2) * (r * r)) by ring. rewrite AM, S2, Er, <- Ezw.
      replace (mu * mu * / IZR d * / IZR d * (w * w) * (N * (IZR d * s2 * zz))) with ((mu * mu * / IZR d * N * s2 * zz) * (w * w)) by (field; lra).
      replace (N * (mu * mu * (s2 * IZR m / IZR d) * (zz * ww))) with ((mu * mu * / IZR d * N * s2 * zz) * (IZR m * ww)) by (unfold Rdiv; ring).
      apply Rmult_le_compat_l; [|exact Hw]. assert (0 <= zz) by (rewrite Ez; apply dot_nonneg). pose proof (Rle_0_sqr mu) as Sm. unfold Rsqr in Sm. clear - Sm Pid PN P2 H. generalize dependent N. intros NN PN. revert Sm P2. generalize (mu * mu) s2. intros mm s Sm P2. repeat apply Rmult_le_pos; lra. }
    pose proof (TL x xx Y yy eq_refl HY eq_refl) as T3. pose proof (TL y yy X xx eq_refl HX ltac:(ring)) as T4.
    assert (T5 : Rsum (map (fun _ : list (list A) => mu * mu * (X * Y) * (mu * mu * (X * Y))) ts) <= N * (mu * mu * IZR m * r * (mu * mu * IZR m * r))).
    { rewrite Rsum_const. apply Rmult_le_compat_l; [lra|]. replace (mu * mu * IZR m * r * (mu * mu * IZR m * r)) with ((mu * mu * (mu * mu)) * (IZR m * IZR m * (r * r))) by ring.
      rewrite Er. replace (mu * mu * (X * Y) * (mu * mu * (X * Y))) with ((mu * mu * (mu * mu)) * ((X * X) * (Y * Y))) by ring. apply Rmult_le_compat_l; [apply Rle_0_sqr|].
      replace (IZR m * IZR m * (xx * yy)) with (IZR m * xx * (IZR m * yy)) by ring. apply Rmult_le_compat; auto; apply Rle_0_sqr. }
    clear TL. pose proof (Rabs_pos mu) as A1. pose proof (Rabs_pos (s2 - 1)) as A2. pose proof (Rle_0_sqr mu) as A3. unfold Rsqr in A3.
    assert (R1 : 0 <= q0 * r) by (now apply Rmult_le_pos). assert (R2 : 0 <= Rabs (s2 - 1) * r) by (now apply Rmult_le_pos).
    assert (R3 : 0 <= Rabs mu * q2 * r) by (apply Rmult_le_pos; [now apply Rmult_le_pos|assumption]). assert (R5 : 0 <= mu * mu * IZR m * r) by (apply Rmult_le_pos; [apply Rmult_le_pos; lra|assumption]).
    pose proof (minkowski ts _ _ _ _ N (Rlt_le _ _ PN) R1 R2 T1 T2) as M1.
    pose proof (minkowski ts _ _ _ _ N (Rlt_le _ _ PN) (Rplus_le_le_0_compat _ _ R1 R2) R3 M1 T3) as M2.
    pose proof (minkowski ts _ _ _ _ N (Rlt_le _ _ PN) (Rplus_le_le_0_compat _ _ (Rplus_le_le_0_compat _ _ R1 R2) R3) R3 M2 T4) as M3.
    pose proof (minkowski ts _ _ _ _ N (Rlt_le _ _ PN) (Rplus_le_le_0_compat _ _ (Rplus_le_le_0_compat _ _ (Rplus_le_le_0_compat _ _ R1 R2) R3) R3) R5 M3 T5) as M4.
    clear M1 M2 M3 T1 T2 T3 T4 T5. unfold average. apply (Rmult_le_reg_r N); [exact PN|]. unfold Rdiv at 1. rewrite Rmult_assoc, Rinv_l, Rmult_1_r by lra.
    eapply Rle_trans; [|eapply Rle_trans; [exact M4|]].
    - right. apply Rsum_ext. intros t _. rewrite ip_split. fold X Y. fold (p t). unfold Rdiv. cbn [pow]. field. lra.
    - right. rewrite <- Er. unfold slack. fold q0 q2. ring.
  Qed.
End Entries.
