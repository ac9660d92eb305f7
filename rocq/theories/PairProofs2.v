(** Entries drawn in pairs, continued: fourth moments of centred errors, and the sketched inner
    products of values that are near ideal ones (used by PropsNorm3.v). *)
From Verif Require Import Base Spec RngModel DenseModel FyProofs IsoSpec IsoProofs PropsIso StatSpec StatProofs DenseIsoProofs NormSpec NormProofs NormProofs3 NormProofs4 PairProofs.
From Coq Require Import Lra Psatz.
Local Open Scope R_scope.

Lemma sqrt_unique_le a b : 0 <= a -> 0 <= b -> a * a <= b * b -> a <= b.
Proof. intros Ha Hb H. destruct (Rle_dec a b) as [|N]; [assumption|]. exfalso. assert (b * b < a * a) by (apply Rmult_le_0_lt_compat; lra). lra. Qed.
Lemma fourth_sum a b : (a + b) * (a + b) * ((a + b) * (a + b)) <= 8 * (a * a * (a * a)) + 8 * (b * b * (b * b)).
Proof.
  assert (S1 : (a + b) * (a + b) <= 2 * (a * a + b * b)) by (pose proof (Rle_0_sqr (a - b)) as S; unfold Rsqr in S; lra).
  assert (S0 : 0 <= (a + b) * (a + b)) by apply Rle_0_sqr.
  assert (S2 : (a + b) * (a + b) * ((a + b) * (a + b)) <= 2 * (a * a + b * b) * (2 * (a * a + b * b))) by (apply Rmult_le_compat; lra).
  pose proof (Rle_0_sqr (a * a - b * b)) as S. unfold Rsqr in S. lra.
Qed.

Section Slots.
  Context {A : Type}.
  Variable U : list A.
  Hypothesis HU : U <> [].
  Variables n L : nat.
  Notation ts := (tapes n (tapes L U)).
  Notation N := (INR (length ts)).
  Variable u0 : A.
  Variables d m : Z.
  Hypothesis Hd : (0 < d)%Z.
  Hypothesis Hm : (0 < m)%Z.
  Variable pb pl : Z -> Z -> nat.
  Variable ph : Z -> Z -> bool.
  Notation slot := (Z * Z)%type.
  Notation inside := (inside d m).
  Notation sc := (sc pb pl).
  Notation sh := (sh ph).
  Notation ent := (ent u0 pb pl ph).
  Notation act := (act u0 m pb pl ph).
  Hypothesis Hpos : forall a, inside a -> (fst (sc a) < n)%nat /\ (snd (sc a) < L)%nat.
  Hypothesis Hinj : forall a b, inside a -> inside b -> sc a = sc b -> sh a = sh b -> a = b.
  Notation fre := (fre U n L pb pl).

  Section Fourth.
    Variable f : bool -> A -> R.
    Variable al : R.
    Hypothesis F1 : forall h, average U (f h) = 0.
    Hypothesis F4 : forall h, average U (fun w => f h w * f h w * (f h w * f h w)) <= al * al * (al * al).
    Variable r : Z.
    Hypothesis Hr : (0 <= r < d)%Z.
    Variable x : Z -> R.
    Notation S t is := (Rsum (map (fun i => ent f t (r, i) * x i) is)).
    Notation X is := (Rsum (map (fun i => x i * x i) is)).
    Variable h : bool.
    Definition good (is : list Z) : Prop := NoDup is /\ (forall i, In i is -> (0 <= i < m)%Z /\ ph r i = h).
    Lemma good_fre i is : good (i :: is) -> fre (r, i) (fun t => S t is).
    Proof using Hinj Hr.
      intros [ND HI]. apply NoDup_cons_iff in ND as [Ni _]. destruct (HI i (or_introl eq_refl)) as [Bi Pi].
      assert (Hj : forall j, In j is -> (0 <= j < m)%Z /\ ph r j = h /\ j <> i) by (intros j J; destruct (HI j (or_intror J)); repeat split; try tauto; intros ->; contradiction).
      clear HI Ni. induction is as [|j is IH]; cbn [map Rsum]; [apply fre_const|].
      destruct (Hj j (or_introl eq_refl)) as (Bj & Pj & Nj). apply (fre_plus U n L pb pl (r, i) (fun t => ent f t (r, j) * x j) (fun t => S t is)); [|apply IH; intros k K; apply Hj; now right].
      apply (fre_mul U n L pb pl (r, i) (fun t => ent f t (r, j)) (fun _ => x j)); [|apply fre_const]. apply (fre_ent U n L u0 pb pl ph). intros E. apply Nj. assert (Q : (r, i) = (r, j)); [|congruence].
      apply Hinj; try (split; assumption); [exact E|]. unfold PairProofs.sh. cbn. congruence.
    Qed.
    Definition va : R := average U (fun w => f h w * f h w).
    Lemma va_nonneg : 0 <= va.
    Proof using HU. unfold va, average. apply Rmult_le_pos; [apply Rsum_nonneg; intros; apply Rle_0_sqr|]. apply Rlt_le, Rinv_0_lt_compat, length_pos, HU. Qed.
    Lemma va_le : va <= al * al.
    Proof using HU F4.
      apply sqrt_unique_le; [apply va_nonneg|apply Rle_0_sqr|]. eapply Rle_trans; [apply (average_sq_le U (fun w => f h w * f h w) HU)|]. apply F4.
    Qed.
    Lemma S_zero is : good is -> Rsum (map (fun t => S t is) ts) = 0.
    Proof using HU Hpos Hinj Hr F1.
      induction is as [|i is IH]; intros G; cbn [map Rsum]; [now rewrite Rsum_const, Rmult_0_r|]. pose proof G as [ND HI]. apply NoDup_cons_iff in ND as [_ ND]. destruct (HI i (or_introl eq_refl)) as [Bi Pi].
      rewrite Rsum_plus, IH by (split; [exact ND|intros; apply HI; now right]).
      rewrite (lone U HU n L u0 d m pb pl ph Hpos f (r, i) (fun _ => x i)); [lra|split; assumption|apply F1|apply fre_const].
    Qed.
    Lemma S_two is : good is -> Rsum (map (fun t => S t is * S t is) ts) = N * (va * X is).
    Proof using HU Hpos Hinj Hr F1.
      induction is as [|i is IH]; intros G; cbn [map Rsum]; [rewrite Rsum_const; lra|]. pose proof G as [ND HI]. apply NoDup_cons_iff in ND as [_ ND]. destruct (HI i (or_introl eq_refl)) as [Bi Pi].
      specialize (IH (conj ND (fun j J => HI j (or_intror J)))). pose proof (good_fre i is G) as Fr.
      rewrite (Rsum_ext _ (fun t => (ent f t (r, i) * ent f t (r, i) * (x i * x i) + ent f t (r, i) * (2 * x i * S t is)) + S t is * S t is)) by (intros; ring).
      rewrite !Rsum_plus, IH.
      rewrite (pair_out U HU n L u0 d m pb pl ph Hpos f (r, i) (r, i) (fun _ => x i * x i) ltac:(split; assumption) eq_refl ltac:(apply fre_const)), Rsum_const.
      rewrite (lone U HU n L u0 d m pb pl ph Hpos f (r, i) (fun t => 2 * x i * S t is)); [|split; assumption|apply F1|apply (fre_mul U n L pb pl (r, i) (fun _ => 2 * x i)); [apply fre_const|exact Fr]].
      unfold va, PairProofs.sh. cbn [fst snd]. rewrite Pi. ring.
    Qed.
    Lemma X_nonneg is : 0 <= X is. Proof. apply Rsum_nonneg. intros; apply Rle_0_sqr. Qed.
    Lemma S_four is : good is -> Rsum (map (fun t => S t is * S t is * (S t is * S t is)) ts) <= N * (3 * (al * al * (al * al)) * (X is * X is)).
    Proof using HU Hpos Hinj Hr F1 F4.
      pose proof (N_pos U HU n L) as PN. pose proof va_nonneg as V0. pose proof va_le as V1.
      induction is as [|i is IH]; intros G; cbn [map Rsum]; [rewrite Rsum_const; lra|]. pose proof G as [ND HI]. apply NoDup_cons_iff in ND as [_ ND]. destruct (HI i (or_introl eq_refl)) as [Bi Pi].
      pose proof (conj ND (fun j J => HI j (or_intror J))) as G'. specialize (IH G'). pose proof (good_fre i is G) as Fr. pose proof (S_zero is G') as Z1. pose proof (S_two is G') as Z2. pose proof (X_nonneg is) as PX.
      assert (In0 : inside (r, i)) by (split; assumption).
      rewrite (Rsum_ext _ (fun t => ent f t (r, i) * ent f t (r, i) * (ent f t (r, i) * ent f t (r, i)) * (x i * x i * (x i * x i)) + ent f t (r, i) * ent f t (r, i) * ent f t (r, i) * (4 * (x i * x i * x i) * S t is)
         + (ent f t (r, i) * ent f t (r, i) * (6 * (x i * x i) * (S t is * S t is)) + ent f t (r, i) * (4 * x i * (S t is * (S t is * S t is)))) + S t is * S t is * (S t is * S t is))) by (intros; ring).
      rewrite !Rsum_plus.
      assert (Fm : forall a g1 g2, fre a g1 -> fre a g2 -> fre a (fun t => g1 t * g2 t)) by (intros a g1 g2; apply (fre_mul U n L pb pl)).
      assert (Fc : forall a c, fre a (fun _ => c)) by (intros; apply fre_const).
      assert (T1 : Rsum (map (fun t => ent f t (r, i) * ent f t (r, i) * (ent f t (r, i) * ent f t (r, i)) * (x i * x i * (x i * x i))) ts) <= N * (al * al * (al * al) * (x i * x i * (x i * x i)))).
      { unfold PairProofs.ent. rewrite (split_slot U HU n L u0 d m pb pl Hpos (r, i) (fun w => f (sh (r, i)) w * f (sh (r, i)) w * (f (sh (r, i)) w * f (sh (r, i)) w)) (fun _ => x i * x i * (x i * x i)) In0 (Fc _ _)), Rsum_const.
        pose proof (F4 (sh (r, i))) as B. assert (0 <= x i * x i * (x i * x i)) by apply Rle_0_sqr. assert (P : 0 <= N * (x i * x i * (x i * x i))) by (apply Rmult_le_pos; lra).
        apply (Rmult_le_compat_r _ _ _ P) in B. lra. }
      assert (T2 : Rsum (map (fun t => ent f t (r, i) * ent f t (r, i) * ent f t (r, i) * (4 * (x i * x i * x i) * S t is)) ts) = 0).
      { unfold PairProofs.ent at 1 2 3. rewrite (split_slot U HU n L u0 d m pb pl Hpos (r, i) (fun w => f (sh (r, i)) w * f (sh (r, i)) w * f (sh (r, i)) w) (fun t => 4 * (x i * x i * x i) * S t is) In0).
        - rewrite Rsum_scal, Z1. lra.
        - apply Fm; [apply Fc|exact Fr]. }
      assert (T3 : Rsum (map (fun t => ent f t (r, i) * ent f t (r, i) * (6 * (x i * x i) * (S t is * S t is))) ts) <= N * (6 * (al * al * (al * al)) * (x i * x i * X is))).
      { rewrite (pair_out U HU n L u0 d m pb pl ph Hpos f (r, i) (r, i) (fun t => 6 * (x i * x i) * (S t is * S t is)) In0 eq_refl); [|apply Fm; [apply Fc|apply Fm; exact Fr]].
        rewrite Rsum_scal, Z2. replace (average U (fun w => f (sh (r, i)) w * f (sh (r, i)) w)) with va by (unfold va, PairProofs.sh; cbn [fst snd]; now rewrite Pi).
        assert (VV : va * va <= al * al * (al * al)) by (apply Rmult_le_compat; lra). assert (P : 0 <= N * (6 * (x i * x i * X is))) by (apply Rmult_le_pos; [lra|]; apply Rmult_le_pos; [lra|]; apply Rmult_le_pos; [apply Rle_0_sqr|exact PX]).
        apply (Rmult_le_compat_r _ _ _ P) in VV. lra. }
      assert (T4 : Rsum (map (fun t => ent f t (r, i) * (4 * x i * (S t is * (S t is * S t is)))) ts) = 0).
      { apply (lone U HU n L u0 d m pb pl ph Hpos f (r, i) (fun t => 4 * x i * (S t is * (S t is * S t is))) In0 (F1 _)). apply Fm; [apply Fc|]. apply Fm; [exact Fr|apply Fm; exact Fr]. }
      rewrite T2, T4.
      assert (E : N * (3 * (al * al * (al * al)) * ((x i * x i + X is) * (x i * x i + X is))) - (N * (al * al * (al * al) * (x i * x i * (x i * x i))) + N * (6 * (al * al * (al * al)) * (x i * x i * X is)) + N * (3 * (al * al * (al * al)) * (X is * X is)))
        = N * (2 * (al * al * (al * al)) * (x i * x i * (x i * x i)))) by ring.
      assert (PE : 0 <= N * (2 * (al * al * (al * al)) * (x i * x i * (x i * x i)))).
      { apply Rmult_le_pos; [lra|]. apply Rmult_le_pos; [|apply Rle_0_sqr]. apply Rmult_le_pos; [lra|apply Rle_0_sqr]. } lra.
    Qed.
  End Fourth.

  Section Norm4.
    Variable f : bool -> A -> R.
    Variable al : R.
    Hypothesis Hal : 0 <= al.
    Hypothesis F1 : forall h, average U (f h) = 0.
    Hypothesis F4 : forall h, average U (fun w => f h w * f h w * (f h w * f h w)) <= al * al * (al * al).
    Lemma filter_sum (p : Z -> bool) (q : Z -> R) l : Rsum (map q l) = Rsum (map q (filter p l)) + Rsum (map q (filter (fun i => negb (p i)) l)).
    Proof. induction l as [|i l IH]; cbn [map Rsum filter]; [lra|]. destruct (p i); cbn [negb map Rsum]; lra. Qed.
    Lemma row_four r x : (0 <= r < d)%Z ->
      Rsum (map (fun t => act f t x r * act f t x r * (act f t x r * act f t x r)) ts) <= N * (48 * (al * al * (al * al)) * (dot m x x * dot m x x)).
    Proof using HU Hpos Hinj F1 F4.
      intros Hr. set (l1 := filter (fun i => ph r i) (range 0 m)). set (l2 := filter (fun i => negb (ph r i)) (range 0 m)).
      assert (G1 : good r true l1). { split; [apply NoDup_filter, NoDup_range|]. intros i Hi. apply filter_In in Hi as [Hi E]. apply in_range in Hi. split; [lia|exact E]. }
      assert (G2 : good r false l2). { split; [apply NoDup_filter, NoDup_range|]. intros i Hi. apply filter_In in Hi as [Hi E]. apply in_range in Hi. split; [lia|now destruct (ph r i)]. }
      pose proof (S_four f al F1 F4 r Hr x true l1 G1) as B1. pose proof (S_four f al F1 F4 r Hr x false l2 G2) as B2. pose proof (N_pos U HU n L) as PN.
      set (X1 := Rsum (map (fun i => x i * x i) l1)) in *. set (X2 := Rsum (map (fun i => x i * x i) l2)) in *.
      assert (EX : dot m x x = X1 + X2) by (unfold dot, X1, X2, l1, l2; apply filter_sum). assert (P1 : 0 <= X1) by (apply Rsum_nonneg; intros; apply Rle_0_sqr). assert (P2 : 0 <= X2) by (apply Rsum_nonneg; intros; apply Rle_0_sqr).
      apply (Rle_trans _ (Rsum (map (fun t => 8 * (Rsum (map (fun i => ent f t (r, i) * x i) l1) * Rsum (map (fun i => ent f t (r, i) * x i) l1) * (Rsum (map (fun i => ent f t (r, i) * x i) l1) * Rsum (map (fun i => ent f t (r, i) * x i) l1)))
        + 8 * (Rsum (map (fun i => ent f t (r, i) * x i) l2) * Rsum (map (fun i => ent f t (r, i) * x i) l2) * (Rsum (map (fun i => ent f t (r, i) * x i) l2) * Rsum (map (fun i => ent f t (r, i) * x i) l2)))) ts))).
      - apply Rsum_le. intros t _. unfold PairProofs.act. rewrite (filter_sum (fun i => ph r i) (fun i => ent f t (r, i) * x i) (range 0 m)). apply fourth_sum.
      - rewrite Rsum_plus, !Rsum_scal, EX. set (q := al * al * (al * al)) in *. assert (Pq : 0 <= q) by apply Rle_0_sqr.
        assert (W : 3 * q * (X1 * X1) + 3 * q * (X2 * X2) <= 6 * q * ((X1 + X2) * (X1 + X2))).
        { assert (0 <= X1 * X2) by (now apply Rmult_le_pos). assert (0 <= X1 * X1) by (now apply Rmult_le_pos). assert (0 <= X2 * X2) by (now apply Rmult_le_pos).
          assert (0 <= q * (X1 * X2)) by (now apply Rmult_le_pos). assert (0 <= q * (X1 * X1)) by (now apply Rmult_le_pos). assert (0 <= q * (X2 * X2)) by (now apply Rmult_le_pos). lra. }
        apply (Rmult_le_compat_l (8 * N)) in W; [|lra]. lra.
    Qed.
    Lemma norm_four x : Rsum (map (fun t => dot d (act f t x) (act f t x) * dot d (act f t x) (act f t x)) ts) <= N * (7 * (al * al) * IZR d * dot m x x * (7 * (al * al) * IZR d * dot m x x)).
    Proof using HU Hd Hpos Hinj F1 F4.
      assert (Pd : 0 < IZR d) by (apply IZR_lt; lia). pose proof (N_pos U HU n L) as PN.
      apply (Rle_trans _ (Rsum (map (fun t => IZR d * Rsum (map (fun r => act f t x r * act f t x r * (act f t x r * act f t x r)) (range 0 d))) ts))).
      - apply Rsum_le. intros t _. pose proof (sum_sq d (fun r => act f t x r * act f t x r) ltac:(lia)) as S. exact S.
      - rewrite Rsum_scal, Rsum_swap. apply (Rle_trans _ (IZR d * Rsum (map (fun _ : Z => N * (48 * (al * al * (al * al)) * (dot m x x * dot m x x))) (range 0 d)))).
        + apply Rmult_le_compat_l; [lra|]. apply Rsum_le. intros r Hr. apply in_range in Hr. now apply row_four.
        + rewrite Rsum_range_const by lia. assert (P : 0 <= N * ((al * al * (al * al)) * (IZR d * IZR d * (dot m x x * dot m x x)))).
          { apply Rmult_le_pos; [lra|]. apply Rmult_le_pos; [apply Rle_0_sqr|]. apply Rmult_le_pos; [apply Rle_0_sqr|apply Rle_0_sqr]. } lra.
    Qed.
    Lemma norm_two x : Rsum (map (fun t => dot d (act f t x) (act f t x)) ts) <= N * (7 * (al * al) * IZR d * dot m x x).
    Proof using HU Hd Hpos Hinj F1 F4.
      pose proof (N_pos U HU n L) as PN. assert (Pd : 0 < IZR d) by (apply IZR_lt; lia). pose proof (norm_four x) as B. pose proof (cauchy_schwarz (fun _ => 1) (fun t => dot d (act f t x) (act f t x)) ts) as C. cbv beta in C.
      rewrite Rsum_const in C. rewrite (Rsum_ext (fun t => 1 * dot d (act f t x) (act f t x)) (fun t => dot d (act f t x) (act f t x))) in C by (intros; lra).
      apply sqrt_unique_le.
      - apply Rsum_nonneg. intros. apply dot_nonneg.
      - apply Rmult_le_pos; [lra|]. apply Rmult_le_pos; [|apply dot_nonneg]. apply Rmult_le_pos; [|lra]. apply Rmult_le_pos; [lra|apply Rle_0_sqr].
      - eapply Rle_trans; [exact C|]. apply (Rmult_le_compat_l N) in B; [|lra]. lra.
    Qed.
  End Norm4.
  Lemma cross f g al be x y : 0 <= al -> 0 <= be ->
    (forall h, average U (f h) = 0) -> (forall h, average U (fun w => f h w * f h w * (f h w * f h w)) <= al * al * (al * al)) ->
    (forall h, average U (g h) = 0) -> (forall h, average U (fun w => g h w * g h w * (g h w * g h w)) <= be * be * (be * be)) ->
    Rsum (map (fun t => dot d (act f t x) (act g t y) * dot d (act f t x) (act g t y)) ts) <= N * (49 * (al * be * (al * be)) * (IZR d * IZR d) * (dot m x x * dot m y y)).
  Proof using HU Hd Hpos Hinj.
    intros Ha Hb F1 F4 G1 G4. pose proof (N_pos U HU n L) as PN. assert (Pd : 0 < IZR d) by (apply IZR_lt; lia).
    pose proof (norm_four f al F1 F4 x) as B1. pose proof (norm_four g be G1 G4 y) as B2.
    apply (Rle_trans _ (Rsum (map (fun t => dot d (act f t x) (act f t x) * dot d (act g t y) (act g t y)) ts))); [apply Rsum_le; intros; apply cauchy_schwarz|].
    pose proof (cauchy_schwarz (fun t => dot d (act f t x) (act f t x)) (fun t => dot d (act g t y) (act g t y)) ts) as C. cbv beta in C.
    apply sqrt_unique_le.
    - apply Rsum_nonneg. intros. apply Rmult_le_pos; apply dot_nonneg.
    - apply Rmult_le_pos; [lra|]. apply Rmult_le_pos; [|apply Rmult_le_pos; apply dot_nonneg]. apply Rmult_le_pos; [|apply Rle_0_sqr]. apply Rmult_le_pos; [lra|apply Rle_0_sqr].
    - eapply Rle_trans; [exact C|]. eapply Rle_trans; [apply Rmult_le_compat; [apply Rsum_nonneg; intros; apply Rle_0_sqr|apply Rsum_nonneg; intros; apply Rle_0_sqr|exact B1|exact B2]|]. right. ring.
  Qed.
End Slots.
