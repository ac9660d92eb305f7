(** Exponential tail bounds for sums of squares of signed sums (used by PropsTail4.v): signs are drawn
    one at a time, the exponent is bounded by a potential. *)
From Coq Require Import ZArith Reals Lra Psatz.
From Verif Require Import Base Spec DenseModel IsoSpec IsoProofs StatSpec StatProofs NormSpec NormProofs NormProofs3 TailProofs.
Local Open Scope R_scope.

(** ** cosh u <= exp (u^2 / 2) *)
Lemma fact_double j : (2 ^ j * fact j <= fact (2 * j))%nat.
Proof.
  induction j as [|j IH]; [cbn; lia|]. replace (2 * S j)%nat with (S (S (2 * j))) by lia. change (fact (S (S (2 * j)))) with (S (S (2 * j)) * (S (2 * j) * fact (2 * j)))%nat.
  change (fact (S j)) with (S j * fact j)%nat. rewrite Nat.pow_succ_r'. nia.
Qed.
Lemma cosh_bound u : (exp u + exp (- u)) / 2 <= exp (u ^ 2 / 2).
Proof.
  set (f := fun x k => / INR (fact k) * x ^ k).
  assert (B : forall n, (sum_f_R0 (f u) (2 * n) + sum_f_R0 (f (- u)) (2 * n)) / 2 <= exp (u ^ 2 / 2)).
  { intros n. replace ((sum_f_R0 (f u) (2 * n) + sum_f_R0 (f (- u)) (2 * n)) / 2) with (sum_f_R0 (fun k => (f u k + f (- u) k) / 2) (2 * n)).
    2: { clear. induction (2 * n)%nat as [|p IH]; cbn [sum_f_R0]; [lra|]. rewrite IH. lra. }
    rewrite sum_even.
    2: { intros i. unfold f. replace (S (2 * i)) with (2 * i + 1)%nat by lia. rewrite !pow_add, !pow_mult. replace ((- u) ^ 2) with (u ^ 2) by ring. cbn [pow]. lra. }
    apply (Rle_trans _ (sum_f_R0 (f (u ^ 2 / 2)) n)).
    - apply sum_Rle. intros j _. unfold f. rewrite !pow_mult. replace ((- u) ^ 2) with (u ^ 2) by ring. set (y := u ^ 2). assert (0 <= y) by apply pow2_ge_0.
      assert (P : 0 <= y ^ j) by now apply pow_le. assert (Q : / INR (fact (2 * j)) <= / INR (fact j) * (/ 2) ^ j).
      { rewrite pow_inv, <- Rinv_mult. apply Rinv_le_contravar.
        - apply Rmult_lt_0_compat; [apply INR_fact_pos|apply pow_lt; lra].
        - pose proof (le_INR _ _ (fact_double j)) as L. rewrite mult_INR, pow_INR in L. change (INR 2) with 2 in L. lra. }
      replace ((y / 2) ^ j) with (y ^ j * (/ 2) ^ j) by (unfold Rdiv; now rewrite Rpow_mult_distr). nra.
    - destruct (Rle_or_lt (sum_f_R0 (f (u ^ 2 / 2)) n) (exp (u ^ 2 / 2))) as [L|L]; [exact L|]. exfalso.
      assert (G : Un_growing (sum_f_R0 (f (u ^ 2 / 2)))).
      { intros p. cbn [sum_f_R0]. assert (0 <= f (u ^ 2 / 2) (S p)); [|lra]. unfold f. apply Rmult_le_pos; [apply Rlt_le, Rinv_0_lt_compat, INR_fact_pos|]. apply pow_le. pose proof (pow2_ge_0 u). lra. }
      apply (Rlt_irrefl (exp (u ^ 2 / 2))). eapply Rlt_le_trans; [exact L|]. exact (growing_ineq _ _ G (exp_series (u ^ 2 / 2)) n). }
  assert (Cv : Un_cv (fun n => (sum_f_R0 (f u) (2 * n) + sum_f_R0 (f (- u)) (2 * n)) / 2) ((exp u + exp (- u)) / 2)).
  { pose proof (CV_plus _ _ _ _ (exp_series u) (exp_series (- u))) as A.
    intros eps He. destruct (A eps He) as [N0 HN]. exists N0. intros n Hn. specialize (HN (2 * n)%nat ltac:(lia)). unfold f. unfold R_dist in *.
    match goal with |- Rabs ?a < _ => match type of HN with Rabs ?b < _ => replace a with (b / 2) by lra end end.
    unfold Rdiv. rewrite Rabs_mult, (Rabs_pos_eq (/ 2)) by lra. match goal with |- Rabs ?b * _ < _ => pose proof (Rabs_pos b) end. lra. }
  exact (cv_le _ _ _ Cv B).
Qed.

(** ** Signs *)
Section Signs.
  Context {I : Type}.
  Variable U : list Z.
  Hypothesis HU : U <> [].
  Variable sg : Z -> R.
  Hypothesis Hsg : forall w, sg w = 1 \/ sg w = -1.
  Hypothesis Hodd : Rsum (map sg U) = 0.
  Variable n : nat.
  Notation ts := (tapes n U).
  Lemma balance (phi : R -> list Z -> R) p : (p < n)%nat -> (forall s t u, length t = n -> phi s (set_nth t p u) = phi s t) ->
    Rsum (map (fun t => phi (sg (nth p t 0%Z)) t) ts) = Rsum (map (fun t => (phi 1 t + phi (-1) t) / 2) ts).
  Proof.
    intros Hp Hf. pose proof (odd_zero U n p 0%Z sg (fun t => (phi 1 t - phi (-1) t) / 2) Hp HU Hodd) as O.
    rewrite (Rsum_ext (fun t => phi (sg (nth p t 0%Z)) t) (fun t => (phi 1 t + phi (-1) t) / 2 + sg (nth p t 0%Z) * ((phi 1 t - phi (-1) t) / 2))).
    - rewrite Rsum_plus, O; [lra|]. intros t u Ht. now rewrite !Hf.
    - intros t _. destruct (Hsg (nth p t 0%Z)) as [-> | ->]; lra.
  Qed.
  Variable pos : I -> nat.
  Variable os : list I.
  Hypothesis Hnd : NoDup (map pos os).
  Hypothesis Hpos : forall o, In o os -> (pos o < n)%nat.
  Variable d : Z.
  Variable row : list Z -> I -> Z.
  Hypothesis Hrow : forall t o, In o os -> (0 <= row t o < d)%Z.
  Hypothesis Hkeep : forall t u o o', In o os -> In o' os -> length t = n -> row (set_nth t (pos o) u) o' = row t o'.
  Variable c : I -> R.
  Definition part (l : list I) (t : list Z) (r : Z) : R := Rsum (map (fun o => IsoSpec.delta (row t o) r * (sg (nth (pos o) t 0%Z) * c o)) l).
  Definition rest (l : list I) (t : list Z) (r : Z) : R := Rsum (map (fun o => IsoSpec.delta (row t o) r * (c o * c o)) l).
  Variable w : R.
  Variables G H : R -> R.
  Hypothesis HG : forall V y, 0 <= V -> 0 <= y -> V + y <= w -> G V + H V * y <= G (V + y).
  Hypothesis HH : forall V y, 0 <= V -> 0 <= y -> V + y <= w -> H V + 2 * H V * H V * y <= H (V + y).
  Variable g : list Z -> R.
  Hypothesis Hg0 : forall t, In t ts -> 0 <= g t.
  Hypothesis Hgw : forall t, In t ts -> 0 < g t -> forall r, (0 <= r < d)%Z -> rest os t r <= w.
  Hypothesis Hgk : forall t u o, In o os -> length t = n -> g (set_nth t (pos o) u) = g t.
  Definition pot (pre suf : list I) (t : list Z) : R := Rsum (map (fun r => G (rest suf t r) + H (rest suf t r) * (part pre t r * part pre t r)) (range 0 d)).
  Lemma rest_nonneg l t r : 0 <= rest l t r.
  Proof. apply Rsum_nonneg. intros o _. unfold IsoSpec.delta. destruct (_ =? _)%Z; [|lra]. pose proof (Rle_0_sqr (c o)). unfold Rsqr in *. lra. Qed.
  Lemma rest_app l l' t r : rest (l ++ l') t r = rest l t r + rest l' t r.
  Proof. unfold rest. now rewrite map_app, Rsum_app. Qed.
  Lemma part_app l l' t r : part (l ++ l') t r = part l t r + part l' t r.
  Proof. unfold part. now rewrite map_app, Rsum_app. Qed.
  Lemma one_step a V z : 0 <= V -> V + a * a <= w ->
    (exp (H V * ((z + a) * (z + a) - z * z)) + exp (H V * ((z - a) * (z - a) - z * z))) / 2 <=
    exp (G (V + a * a) + H (V + a * a) * (z * z) - (G V + H V * (z * z))).
  Proof.
    intros V0 Vw. set (h := H V). assert (A0 : 0 <= a * a) by apply Rle_0_sqr. specialize (HG V (a * a) V0 A0 Vw). specialize (HH V (a * a) V0 A0 Vw). fold h in HG, HH.
    replace (h * ((z + a) * (z + a) - z * z)) with (h * (a * a) + 2 * h * a * z) by ring. replace (h * ((z - a) * (z - a) - z * z)) with (h * (a * a) + - (2 * h * a * z)) by ring.
    rewrite !exp_plus. replace ((exp (h * (a * a)) * exp (2 * h * a * z) + exp (h * (a * a)) * exp (- (2 * h * a * z))) / 2) with (exp (h * (a * a)) * ((exp (2 * h * a * z) + exp (- (2 * h * a * z))) / 2)) by lra.
    eapply Rle_trans; [apply Rmult_le_compat_l; [apply Rlt_le, exp_pos|apply cosh_bound]|]. rewrite <- exp_plus.
    match goal with |- exp ?p <= exp ?q => assert (L : p <= q) end.
    - assert (0 <= z * z) by apply Rle_0_sqr. replace ((2 * h * a * z) ^ 2 / 2) with (2 * h * h * (a * a) * (z * z)) by field. nra.
    - destruct L as [L|E]; [apply Rlt_le, exp_increasing, L|rewrite E; lra].
  Qed.
  Lemma draw_one pre o suf : pre ++ o :: suf = os -> Rsum (map (fun t => g t * exp (pot (pre ++ [o]) suf t)) ts) <= Rsum (map (fun t => g t * exp (pot pre (o :: suf) t)) ts).
  Proof.
    intros Eo. assert (Io : In o os) by (rewrite <- Eo; apply in_or_app; right; now left).
    assert (Ip : forall o', In o' pre -> In o' os /\ pos o' <> pos o).
    { intros o' H'. split; [rewrite <- Eo; apply in_or_app; now left|]. intros E. rewrite <- Eo, map_app in Hnd. cbn [map] in Hnd. apply NoDup_remove_2 in Hnd. apply Hnd, in_or_app. left. rewrite <- E. now apply in_map. }
    assert (Is : forall o', In o' suf -> In o' os) by (intros o' H'; rewrite <- Eo; apply in_or_app; right; now right).
    set (base := fun t => Rsum (map (fun r => G (rest suf t r) + H (rest suf t r) * (part pre t r * part pre t r)) (range 0 d))).
    set (phi := fun s t => g t * exp (base t + H (rest suf t (row t o)) * ((part pre t (row t o) + s * c o) * (part pre t (row t o) + s * c o) - part pre t (row t o) * part pre t (row t o)))).
    assert (Kr : forall t u l r, length t = n -> (forall o', In o' l -> In o' os) -> rest l (set_nth t (pos o) u) r = rest l t r).
    { intros t u l r Ht Hl. apply Rsum_ext. intros o' Ho'. rewrite Hkeep by auto. reflexivity. }
    assert (Kp : forall t u r, length t = n -> part pre (set_nth t (pos o) u) r = part pre t r).
    { intros t u r Ht. apply Rsum_ext. intros o' Ho'. destruct (Ip o' Ho') as [J1 J2]. rewrite Hkeep by auto. rewrite nth_set_ne by congruence. reflexivity. }
    rewrite (Rsum_ext _ (fun t => phi (sg (nth (pos o) t 0%Z)) t)).
    2: { intros t _. unfold phi. f_equal. f_equal. unfold pot, base. set (r0 := row t o).
      rewrite (Rsum_ext _ (fun r => (G (rest suf t r) + H (rest suf t r) * (part pre t r * part pre t r)) +
         IsoSpec.delta r r0 * (H (rest suf t r) * ((part pre t r + sg (nth (pos o) t 0%Z) * c o) * (part pre t r + sg (nth (pos o) t 0%Z) * c o) - part pre t r * part pre t r)))).
      - rewrite Rsum_plus. f_equal. apply (Rsum_delta (fun r => H (rest suf t r) * ((part pre t r + sg (nth (pos o) t 0%Z) * c o) * (part pre t r + sg (nth (pos o) t 0%Z) * c o) - part pre t r * part pre t r))). now apply Hrow.
      - intros r _. rewrite part_app. unfold part at 2 4. cbn [map Rsum]. fold r0. unfold IsoSpec.delta. rewrite (Z.eqb_sym r r0). destruct (r0 =? r)%Z; ring. }
    rewrite (balance phi (pos o) (Hpos o Io)).
    2: { intros s t u Ht. unfold phi, base. rewrite Hgk, (Hkeep t u o o Io Io Ht), Kp, !Kr by auto. f_equal. f_equal. f_equal. apply Rsum_ext. intros r _. now rewrite Kp, Kr by auto. }
    apply Rsum_le. intros t Ht. unfold phi. destruct (Rle_lt_or_eq_dec _ _ (Hg0 t Ht)) as [Gp|<-]; [|lra].
    set (r0 := row t o). set (V := rest suf t r0). set (z := part pre t r0).
    assert (Hr0 : (0 <= r0 < d)%Z) by now apply Hrow.
    assert (Vw : V + c o * c o <= w).
    { specialize (Hgw t Ht Gp r0 Hr0). rewrite <- Eo, rest_app in Hgw. pose proof (rest_nonneg pre t r0). unfold rest at 2 in Hgw. cbn [map Rsum] in Hgw. fold (rest suf t r0) in Hgw. fold r0 in Hgw. fold V in Hgw. unfold IsoSpec.delta in Hgw. rewrite Z.eqb_refl in Hgw. lra. }
    assert (Ep : pot pre (o :: suf) t = base t + (G (V + c o * c o) + H (V + c o * c o) * (z * z) - (G V + H V * (z * z)))).
    { unfold pot, base. set (F := fun r => G (rest suf t r + c o * c o) + H (rest suf t r + c o * c o) * (part pre t r * part pre t r) - (G (rest suf t r) + H (rest suf t r) * (part pre t r * part pre t r))).
      change (G (V + c o * c o) + H (V + c o * c o) * (z * z) - (G V + H V * (z * z))) with (F r0). rewrite <- (Rsum_delta F d r0 Hr0), <- Rsum_plus. apply Rsum_ext. intros r _.
      replace (rest (o :: suf) t r) with (rest suf t r + IsoSpec.delta r0 r * (c o * c o)) by (unfold rest; cbn [map Rsum]; fold r0; lra). unfold F, IsoSpec.delta. rewrite (Z.eqb_sym r r0). destruct (r0 =? r)%Z.
      - rewrite !Rmult_1_l. ring.
      - rewrite !Rmult_0_l, Rplus_0_r. ring. }
    rewrite Ep. pose proof (one_step (c o) V z (rest_nonneg suf t r0) Vw) as O. rewrite exp_plus.
    replace (z + 1 * c o) with (z + c o) by ring. replace (z + -1 * c o) with (z - c o) by ring. rewrite !(exp_plus (base t)).
    set (b := exp (base t)). assert (0 < b) by apply exp_pos. set (A1 := exp (H V * ((z + c o) * (z + c o) - z * z))) in *. set (A2 := exp (H V * ((z - c o) * (z - c o) - z * z))) in *. set (A3 := exp _) in O |- *.
    replace ((g t * (b * A1) + g t * (b * A2)) / 2) with (g t * (b * ((A1 + A2) / 2))) by field. apply Rmult_le_compat_l; [lra|]. apply Rmult_le_compat_l; [lra|]. exact O.
  Qed.
  Lemma draw_all suf : forall pre, pre ++ suf = os -> Rsum (map (fun t => g t * exp (pot os [] t)) ts) <= Rsum (map (fun t => g t * exp (pot pre suf t)) ts).
  Proof.
    induction suf as [|o suf IH]; intros pre E; [rewrite app_nil_r in E; subst pre; lra|].
    eapply Rle_trans; [apply (IH (pre ++ [o])); rewrite <- app_assoc; exact E|]. now apply draw_one.
  Qed.
  Lemma signs_exp : G 0 = 0 -> Rsum (map (fun t => g t * exp (H 0 * Rsum (map (fun r => part os t r * part os t r) (range 0 d)))) ts) <=
    Rsum (map (fun t => g t * exp (Rsum (map (fun r => G (rest os t r)) (range 0 d)))) ts).
  Proof.
    intros G0. pose proof (draw_all os [] eq_refl) as A.
    rewrite (Rsum_ext _ (fun t => g t * exp (pot os [] t))). 2: { intros t _. unfold pot, rest. cbn [map Rsum]. rewrite G0, <- Rsum_scal. f_equal. f_equal. apply Rsum_ext. intros; lra. }
    eapply Rle_trans; [exact A|]. right. apply Rsum_ext. intros t _. f_equal. f_equal. apply Rsum_ext. intros r _. unfold part. cbn [map Rsum]. lra.
  Qed.
End Signs.

(** The two potentials: for growing and for shrinking lengths. *)
Lemma exp_le a b : a <= b -> exp a <= exp b.
Proof. intros [L|E]; [apply Rlt_le, exp_increasing, L|rewrite E; lra]. Qed.
Section Potentials.
  Variables l w : R.
  Hypothesis Hl : 0 <= l.
  Hypothesis Hw : 4 * (l * w) <= 1.
  Definition up_G V := l * V + 2 * (l * V) * (l * V).
  Definition up_H V := l / (1 - 2 * (l * V)).
  Lemma small V y : 0 <= V -> 0 <= y -> V + y <= w -> 0 <= l * V /\ 0 <= l * y /\ l * V + l * y <= / 4.
  Proof. intros A B C. assert (l * (V + y) <= l * w) by (apply Rmult_le_compat_l; lra). assert (0 <= l * V) by (apply Rmult_le_pos; lra). assert (0 <= l * y) by (apply Rmult_le_pos; lra). lra. Qed.
  Lemma up_G_ok V y : 0 <= V -> 0 <= y -> V + y <= w -> up_G V + up_H V * y <= up_G (V + y).
  Proof.
    intros A B C. destruct (small V y A B C) as (S1 & S2 & S3). unfold up_G, up_H.
    assert (Hh : l / (1 - 2 * (l * V)) <= l + 4 * l * (l * V)).
    { apply (Rmult_le_reg_r (1 - 2 * (l * V))); [lra|]. unfold Rdiv. rewrite Rmult_assoc, Rinv_l, Rmult_1_r by lra.
      assert (0 <= l * (l * V)) by (apply Rmult_le_pos; lra). set (q := l * V) in *. clearbody q. nra. }
    assert (l / (1 - 2 * (l * V)) * y <= (l + 4 * l * (l * V)) * y) by (apply Rmult_le_compat_r; lra). replace (l * (V + y)) with (l * V + l * y) by ring.
    replace ((l + 4 * l * (l * V)) * y) with (l * y + 4 * (l * V) * (l * y)) in * by ring. set (p := l * y) in *. set (q := l * V) in *. assert (0 <= p * p) by apply Rle_0_sqr. clearbody p q. lra.
  Qed.
  Lemma up_H_ok V y : 0 <= V -> 0 <= y -> V + y <= w -> up_H V + 2 * up_H V * up_H V * y <= up_H (V + y).
  Proof.
    intros A B C. destruct (small V y A B C) as (S1 & S2 & S3). unfold up_H. replace (l * (V + y)) with (l * V + l * y) by ring.
    replace (2 * (l / (1 - 2 * (l * V))) * (l / (1 - 2 * (l * V))) * y) with (2 * (l * y) * l / ((1 - 2 * (l * V)) * (1 - 2 * (l * V)))) by (field; lra).
    set (p := l * y) in *. set (q := l * V) in *. clearbody p q.
    apply (Rmult_le_reg_r ((1 - 2 * q) * (1 - 2 * q) * (1 - 2 * (q + p)))); [apply Rmult_lt_0_compat; [apply Rmult_lt_0_compat|]; lra|].
    replace ((l / (1 - 2 * q) + 2 * p * l / ((1 - 2 * q) * (1 - 2 * q))) * ((1 - 2 * q) * (1 - 2 * q) * (1 - 2 * (q + p)))) with (l * ((1 - 2 * q + 2 * p) * (1 - 2 * q - 2 * p))) by (field; lra).
    replace (l / (1 - 2 * (q + p)) * ((1 - 2 * q) * (1 - 2 * q) * (1 - 2 * (q + p)))) with (l * ((1 - 2 * q) * (1 - 2 * q))) by (field; lra).
    apply Rmult_le_compat_l; [lra|]. assert (0 <= p * p) by apply Rle_0_sqr. nra.
  Qed.
  Definition dn_G V := - (l * V) + (l * V) * (l * V).
  Definition dn_H V := - (l - 2 * l * (l * V)).
  Lemma dn_G_ok V y : 0 <= V -> 0 <= y -> V + y <= w -> dn_G V + dn_H V * y <= dn_G (V + y).
  Proof.
    intros A B C. unfold dn_G, dn_H. replace (- (l - 2 * l * (l * V)) * y) with (- (l * y) + 2 * (l * V) * (l * y)) by ring. replace (l * (V + y)) with (l * V + l * y) by ring.
    assert (0 <= (l * y) * (l * y)) by apply Rle_0_sqr. set (p := l * y) in *. set (q := l * V) in *. lra.
  Qed.
  Lemma dn_H_ok V y : 0 <= V -> 0 <= y -> V + y <= w -> dn_H V + 2 * dn_H V * dn_H V * y <= dn_H (V + y).
  Proof.
    intros A B C. destruct (small V y A B C) as (S1 & S2 & S3). unfold dn_H. replace (l * (V + y)) with (l * V + l * y) by ring.
    replace (2 * - (l - 2 * l * (l * V)) * - (l - 2 * l * (l * V)) * y) with (2 * l * (l * y) * ((1 - 2 * (l * V)) * (1 - 2 * (l * V)))) by ring.
    set (p := l * y) in *. set (q := l * V) in *. clearbody p q. assert (0 <= l * p) by (apply Rmult_le_pos; lra). assert ((1 - 2 * q) * (1 - 2 * q) <= 1) by nra. nra.
  Qed.
End Potentials.
