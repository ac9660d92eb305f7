(** Exponential tails for rows made of Box-Muller pairs (used by PropsTail2.v). *)
From Coq Require Import ZArith Reals Lra Psatz.
From Verif Require Import Base Spec SparseSkopModel PropsFloat IsoSpec IsoProofs PropsIso StatSpec StatProofs DenseIsoProofs DenseIsoProofs2 NormSpec NormProofs NormProofs3 NormProofs4 NormProofs5
  BoxModel BoxSpec BoxProofs BoxProofs2 BoxProofs4 LogMoments TailSpec TailProofs TailProofs2 TailProofs3 TailProofs4 PairProofs PairProofs3 GaussMoments GaussNorm TailGauss.
Local Open Scope R_scope.

(** ** Rows of independent terms, known up to an error *)
Section RowsExp.
  Context {T : Type}.
  Variable ts : list T.
  Hypothesis Nt : ts <> [].
  Variables d q : Z.
  Hypothesis Hd : (0 < d)%Z.
  Hypothesis Hq : (0 <= q)%Z.
  Variable w : T -> Z -> Z -> R.
  Variable res : Z -> Z -> T -> T -> Prop.
  Hypothesis Hres : forall r i r' i' t t', (0 <= r < d)%Z -> (0 <= i < q)%Z -> (0 <= r' < d)%Z -> (0 <= i' < q)%Z -> (r, i) <> (r', i') ->
    In t ts -> res r i t t' -> w t' r' i' = w t r' i'.
  Variable M : Z -> Z -> nat -> R.
  Hypothesis Hind : forall r i n G, (0 <= r < d)%Z -> (0 <= i < q)%Z -> indep ts res r i G ->
    Rsum (map (fun t => w t r i ^ n * G t) ts) = M r i n * Rsum (map G ts).
  Variable a : Z -> R.
  Hypothesis Ha : forall i, (0 <= i < q)%Z -> 0 <= a i.
  Hypothesis Hodd : forall r i k, (0 <= r < d)%Z -> (0 <= i < q)%Z -> M r i (S (2 * k)) = 0.
  Hypothesis Heven : forall r i k, (0 <= r < d)%Z -> (0 <= i < q)%Z -> 0 <= M r i (2 * k) <= dfact k * a i ^ k.
  Variable v : R.
  Hypothesis Hvar : forall r i, (0 <= r < d)%Z -> (0 <= i < q)%Z -> v * a i <= M r i 2.
  Variables s s0 sigma tau eta : R.
  Hypothesis Hs : 0 < s.
  Hypothesis Hs0 : 1 <= s0 <= 1 + sigma.
  Hypothesis Htot : total a q = s0 * s.
  Hypothesis Htau : 0 <= tau.
  Hypothesis Hv0 : 1 - tau <= v * s0.
  Hypothesis Heta : 0 < eta.
  Variable y : T -> Z -> R.
  Hypothesis Hy : forall t r, In t ts -> (0 <= r < d)%Z -> (y t r - partial_sum w t r q) * (y t r - partial_sum w t r q) <= eta * eta * s.
  Notation rho := (3 / 2 * sigma + tau).
  Lemma rows_exp e : 0 < e <= / 2 ->
    probability ts (fun t => exceeds (Rabs (/ IZR d * dot d (y t) (y t) - s)) ((e + (rho + (3 / 2 + 1 + rho) * eta + eta * eta)) * s)) <= 2 * exp (- (IZR d * e ^ 2 / 6)).
  Proof.
    intros He.
    pose proof (fun r k c => energy_moments ts d q w res Hres M Hind a Ha Hodd Heven v Hvar r k c Hq) as M1.
    pose proof (fun r c => energy_variance ts d q w res Hres M Hind a Ha Hodd Heven v Hvar r c Hq) as M2.
    cbv zeta in M1, M2. rewrite Htot in *. assert (S0 : 0 < s0 * s) by (apply Rmult_lt_0_compat; lra).
    pose proof (chernoff_up_simple ts Nt (fun t r => partial_sum w t r q) d Hd (s0 * s) (v * (s0 * s)) S0 M1 M2 e He) as Up.
    pose proof (chernoff_down ts Nt (fun t r => partial_sum w t r q) d Hd (s0 * s) (v * (s0 * s)) S0 M1 M2 e (proj1 He)) as Lo.
    replace (2 * exp (- (IZR d * e ^ 2 / 6))) with (exp (- (IZR d * e ^ 2 / 6)) + exp (- (IZR d * e ^ 2 / 6))) by ring.
    refine (two_sided _ _ _ _ _ _ _ Up Lo). intros t Ht A1 A2. apply exceeds_false in A1, A2.
    assert (ED : energy (fun t r => partial_sum w t r q) d t = dot d (fun r => partial_sum w t r q) (fun r => partial_sum w t r q)) by (unfold energy, dot; apply Rsum_ext; intros; ring).
    rewrite ED in A1, A2. apply exceeds_le.
    refine (perturb d (y t) (fun r => partial_sum w t r q) s eta rho e Hd (Rlt_le _ _ Hs) Heta _ (proj2 He) _ _).
    - lra.
    - intros r Hr. now apply Hy.
    - assert (Pd : 0 < IZR d) by (apply IZR_lt; exact Hd). split.
      + eapply Rle_trans; [|exact A2]. apply Rmult_le_compat_r; [lra|]. replace (v * (s0 * s) - e * (s0 * s)) with ((v * s0 - e * s0) * s) by ring. apply Rmult_le_compat_r; [lra|]. nra.
      + eapply Rle_trans; [exact A1|]. apply Rmult_le_compat_r; [lra|]. rewrite <- Rmult_assoc. apply Rmult_le_compat_r; [lra|]. nra.
  Qed.
End RowsExp.

(** ** Sums over pairs of neighbours *)
Definition odd_part (m : Z) (h : Z -> R) (p : Z) : R := if (2 * p + 1 <? m)%Z then h (2 * p + 1)%Z else 0.
Lemma sum_pairs (h : Z -> R) m : (0 <= m)%Z -> Rsum (map h (range 0 m)) = Rsum (map (fun p => h (2 * p)%Z + odd_part m h p) (range 0 ((m + 1) / 2))).
Proof.
  intros Hm.
  assert (E : forall k, Rsum (map h (range 0 (2 * Z.of_nat k))) = Rsum (map (fun p => h (2 * p)%Z + h (2 * p + 1)%Z) (range 0 (Z.of_nat k)))).
  { induction k as [|k IH]; [reflexivity|]. replace (2 * Z.of_nat (S k))%Z with (2 * Z.of_nat k + 1 + 1)%Z by lia. rewrite range_snoc, map_app, Rsum_app by lia. rewrite range_snoc, map_app, Rsum_app by lia. rewrite IH.
    replace (Z.of_nat (S k)) with (Z.of_nat k + 1)%Z by lia. rewrite (range_snoc 0 (Z.of_nat k)), map_app, Rsum_app by lia. cbn [map Rsum]. lra. }
  assert (Ext : forall k, (2 * Z.of_nat k <= m)%Z -> Rsum (map (fun p => h (2 * p)%Z + h (2 * p + 1)%Z) (range 0 (Z.of_nat k))) = Rsum (map (fun p => h (2 * p)%Z + odd_part m h p) (range 0 (Z.of_nat k)))).
  { intros k Hk. apply Rsum_ext. intros p Hp. apply in_range in Hp. unfold odd_part. destruct (Z.ltb_spec (2 * p + 1) m); [reflexivity|lia]. }
  pose proof (Z.div_mod m 2 ltac:(lia)) as DM. pose proof (Z.mod_pos_bound m 2 ltac:(lia)) as MB. assert (K0 : (0 <= m / 2)%Z) by (apply Z.div_pos; lia).
  set (k := Z.to_nat (m / 2)). assert (Hk : Z.of_nat k = (m / 2)%Z) by (unfold k; apply Z2Nat.id; exact K0). destruct (Z.eq_dec (m mod 2) 0) as [Z0|Z1].
  - replace ((m + 1) / 2)%Z with (Z.of_nat k) by (rewrite Hk; Z.div_mod_to_equations; lia). rewrite <- Ext by lia. rewrite <- E. do 3 f_equal. lia.
  - replace ((m + 1) / 2)%Z with (Z.of_nat k + 1)%Z by (rewrite Hk; Z.div_mod_to_equations; lia). rewrite (range_snoc 0 (Z.of_nat k)), map_app, Rsum_app by lia. rewrite <- Ext by lia. rewrite <- E.
    replace m with (2 * Z.of_nat k + 1)%Z at 1 by lia. rewrite range_snoc, map_app, Rsum_app by lia. cbn [map Rsum]. unfold odd_part. destruct (Z.ltb_spec (2 * Z.of_nat k + 1) m); [lia|]. lra.
Qed.

Section GaussRows.
  Variable W : Z.
  Hypothesis HW : (3 <= W)%Z.
  Notation words := (range 0 (2 ^ W)).
  Variable bm : Z -> Z -> R * R.
  Variable rho : Z -> R.
  Variable c : R.
  Notation ok u := (0 <= u < 2 ^ W)%Z.
  Variable eps : R.
  Hypothesis Heps : 0 < eps.
  Notation U2 := (U2 W).
  Notation vv := (vv bm).
  Notation gg := (gg W rho).
  Hypothesis Hnear : forall h p, In p U2 -> Rabs (vv h p - gg h p) <= eps.
  Hypothesis Hr : forall u, ok u -> Rabs (rho u * rho u - radius2 W u) <= c * (1 + radius2 W u).
  Hypothesis Hc : 0 <= c <= / 500.
  Hypothesis HcW : / IZR (2 ^ W) <= c.
  Variable q : nat.
  Hypothesis Hq0 : (0 < q)%nat.
  Hypothesis HQ : (2 * (W + 1) * Z.of_nat q <= 2 ^ W)%Z.
  Hypothesis HQc : / INR q <= c.
  Let HW2 : (2 <= W)%Z. Proof. clear - HW; lia. Qed.
  Let HW0 : (0 < W)%Z. Proof. clear - HW; lia. Qed.
  Lemma radius_moments k : 0 <= average words (fun u => rho u ^ (2 * k)) <= INR (fact k) * (2 + 3 * c) ^ k.
  Proof using HW Hr Hc.
    assert (NE : words <> []) by (apply words_nonempty; exact HW0). pose proof (length_pos words NE) as LP. split.
    - unfold average. apply Rmult_le_pos; [|apply Rlt_le, Rinv_0_lt_compat, LP]. apply Rsum_nonneg. intros; apply pow_even_nonneg.
    - apply (Rle_trans _ (average words (fun u => (2 * (1 + c) * ell W u + c) ^ k))).
      + apply average_le. intros u Hu. apply in_range in Hu. rewrite pow_mult. apply pow_incr. split; [apply pow2_ge_0|]. specialize (Hr u Hu). unfold ell. apply abs_bounds in Hr. cbn [pow]. lra.
      + unfold average. rewrite (Rsum_ext _ (fun u => sum_f_R0 (fun i => C k i * (2 * (1 + c)) ^ i * c ^ (k - i) * ell W u ^ i) k)) by (intros; rewrite binomial; apply sum_eq; intros; rewrite Rpow_mult_distr; ring).
        rewrite Rsum_sum_f. apply (Rle_trans _ (sum_f_R0 (fun i => C k i * (2 * (1 + c)) ^ i * c ^ (k - i)) k * INR (fact k))).
        * unfold Rdiv. rewrite Rmult_comm, scal_sum, (Rmult_comm (sum_f_R0 _ _)), scal_sum. apply sum_Rle. intros i Hi. rewrite Rsum_scal, Rmult_assoc. apply Rmult_le_compat_l.
          { apply Rmult_le_pos; [apply Rmult_le_pos; [apply Rlt_le, C_pos|apply pow_le; lra]|apply pow_le; lra]. }
          pose proof (mean_ell_le W HW0 i) as ME. unfold average in ME. eapply Rle_trans; [exact ME|]. apply le_INR. now apply fact_le.
        * rewrite <- binomial. rewrite Rmult_comm. right. do 2 f_equal. ring.
  Qed.
  Lemma angle_moment_odd a b k : average words (fun u => (a * sin (angle W u) + b * cos (angle W u)) ^ S (2 * k)) = 0.
  Proof using HW.
    destruct (polar a b) as (r & phi & _ & _ & E). rewrite (average_ext _ _ (fun u => r ^ S (2 * k) * cos (angle W u + phi) ^ S (2 * k))) by (intros; rewrite E; apply Rpow_mult_distr).
    rewrite average_const_mul, (angle_odd W HW2). lra.
  Qed.
  Lemma angle_moment_even a b k : 0 <= average words (fun u => (a * sin (angle W u) + b * cos (angle W u)) ^ (2 * k)) <= (a * a + b * b) ^ k * (dfact k / (2 ^ k * INR (fact k)) * (1 + / INR q) ^ k).
  Proof using HW HQ Hq0.
    destruct (polar a b) as (r & phi & _ & R2 & E). rewrite (average_ext _ _ (fun u => (r * r) ^ k * cos (angle W u + phi) ^ (2 * k))) by (intros; rewrite E, Rpow_mult_distr, pow_mult; f_equal; f_equal; ring).
    rewrite average_const_mul, R2. assert (P : 0 <= (a * a + b * b) ^ k) by (rewrite <- R2; apply pow_le, Rle_0_sqr). destruct (angle_even W HW2 q Hq0 HQ phi k) as [A B]. split; [now apply Rmult_le_pos|now apply Rmult_le_compat_l].
  Qed.
  Definition s0 : R := (1 + 3 / 2 * c) * (1 + / INR q).
  Definition pm (a b : R) (n : nat) : R := average U2 (fun p => (a * gg true p + b * gg false p) ^ n).
  Lemma pm_sep a b n : pm a b n = average words (fun u => (a * sin (angle W u) + b * cos (angle W u)) ^ n) * average words (fun u => rho u ^ n).
  Proof using HW.
    unfold pm. apply (sep' W HW (fun u => (a * sin (angle W u) + b * cos (angle W u)) ^ n) (fun u => rho u ^ n) _ _ eq_refl). intros p. rewrite <- Rpow_mult_distr. f_equal. unfold GaussMoments.gg. ring.
  Qed.
  Lemma pm_odd a b k : pm a b (S (2 * k)) = 0. Proof using HW. rewrite pm_sep, angle_moment_odd. lra. Qed.
  Lemma pm_even a b k : 0 <= pm a b (2 * k) <= dfact k * (s0 * (a * a + b * b)) ^ k.
  Proof using HW HQ Hq0 Hr Hc.
    rewrite pm_sep. destruct (angle_moment_even a b k) as [A0 A1]. destruct (radius_moments k) as [B0 B1]. split; [now apply Rmult_le_pos|].
    eapply Rle_trans; [apply (Rmult_le_compat _ _ _ _ A0 B0 A1 B1)|]. right. unfold s0. rewrite !Rpow_mult_distr. replace (2 + 3 * c) with (2 * (1 + 3 / 2 * c)) by field. rewrite (Rpow_mult_distr 2). pose proof (INR_fact_pos k). assert (0 < 2 ^ k) by (apply pow_lt; lra). field. lra.
  Qed.
  Lemma pm_var a b : (1 - 2 * c) * (a * a + b * b) <= pm a b 2.
  Proof using HW Hr Hc HcW.
    assert (E : pm a b 2 = R2 W rho / 2 * (a * a + b * b)).
    { unfold pm. rewrite (average_ext _ _ (fun p => a * a * (gg true p * gg true p) + (2 * a * b * (gg true p * gg false p) + b * b * (gg false p * gg false p)))) by (intros; ring).
      rewrite !avg_plus, !average_const_mul, !(g2 W HW). cbn [Bool.eqb]. ring. }
    rewrite E. pose proof (R2_near W HW rho c Hr Hc HcW) as B. apply abs_bounds in B. apply Rmult_le_compat_r; [|lra]. pose proof (Rle_0_sqr a). pose proof (Rle_0_sqr b). unfold Rsqr in *. lra.
  Qed.

  Variables n L : nat.
  Notation ts := (tapes n (tapes L U2)).
  Variable u0 : Z * Z.
  Variables d m : Z.
  Hypothesis Hd : (0 < d)%Z.
  Hypothesis Hm : (0 < m)%Z.
  Variable pb pl : Z -> Z -> nat.
  Variable ph : Z -> Z -> bool.
  Hypothesis Hpos : forall a, inside d m a -> (fst (sc pb pl a) < n)%nat /\ (snd (sc pb pl a) < L)%nat.
  Hypothesis Hinj : forall a b, inside d m a -> inside d m b -> sc pb pl a = sc pb pl b -> sh ph a = sh ph b -> a = b.
  (** Neighbours share a pair. *)
  Hypothesis Hfirst : forall r p, (0 <= r < d)%Z -> (0 <= 2 * p < m)%Z -> ph r (2 * p)%Z = true.
  Hypothesis Hsecond : forall r p, (0 <= r < d)%Z -> (0 <= 2 * p)%Z -> (2 * p + 1 < m)%Z ->
    ph r (2 * p + 1)%Z = false /\ pb r (2 * p + 1)%Z = pb r (2 * p)%Z /\ pl r (2 * p + 1)%Z = pl r (2 * p)%Z.
  Notation np := ((m + 1) / 2)%Z.
  Lemma np_range p : (0 <= p < np)%Z -> (0 <= 2 * p < m)%Z. Proof. clear. intros H. Z.div_mod_to_equations. lia. Qed.
  Section Vector.
    Variable x : Z -> R.
    Hypothesis Hx : 0 < dot m x x.
    Definition pterm (t : list (list (Z * Z))) (r p : Z) : R :=
      let z := cell u0 t (pb r (2 * p)%Z) (pl r (2 * p)%Z) in x (2 * p)%Z * gg true z + odd_part m x p * gg false z.
    Definition pres (r p : Z) (t t' : list (list (Z * Z))) : Prop := exists u, t' = upd t (pb r (2 * p)%Z) (pl r (2 * p)%Z) u.
    Definition weight (p : Z) : R := s0 * (x (2 * p)%Z * x (2 * p)%Z + odd_part m x p * odd_part m x p).
    Lemma pterm_res r i r' i' t t' : (0 <= r < d)%Z -> (0 <= i < np)%Z -> (0 <= r' < d)%Z -> (0 <= i' < np)%Z -> (r, i) <> (r', i') ->
      In t ts -> pres r i t t' -> pterm t' r' i' = pterm t r' i'.
    Proof using Hinj Hfirst.
      intros H1 H2 H3 H4 N _ [u ->]. apply np_range in H2, H4. unfold pterm. cbv zeta. rewrite cell_other; [reflexivity|]. intros E.
      assert (X : (r, 2 * i)%Z = (r', 2 * i')%Z). { apply Hinj; [split; assumption|split; assumption|exact E|]. unfold sh. cbn [fst snd]. rewrite !Hfirst by assumption. reflexivity. }
      apply N. assert (X1 := f_equal fst X). assert (X2 := f_equal snd X). cbn [fst snd] in X1, X2. f_equal; [exact X1|clear - X2; lia].
    Qed.
    Lemma pterm_ind r i k G : (0 <= r < d)%Z -> (0 <= i < np)%Z -> indep ts pres r i G ->
      Rsum (map (fun t => pterm t r i ^ k * G t) ts) = pm (x (2 * i)%Z) (odd_part m x i) k * Rsum (map G ts).
    Proof using HW Hpos.
      intros H1 H2 HG. apply np_range in H2. destruct (Hpos (r, 2 * i)%Z (conj H1 H2)) as [B1 B2]. unfold sc in B1, B2. cbn [fst snd] in B1, B2.
      apply (split_sum U2 (U2_ne W HW) n L u0 (pb r (2 * i)%Z) (pl r (2 * i)%Z) (fun z => (x (2 * i)%Z * gg true z + odd_part m x i * gg false z) ^ k) G B1 B2). intros t u Ht. apply (HG t); [exact Ht|]. now exists u.
    Qed.
    Lemma weights : total weight np = s0 * dot m x x.
    Proof using Hm.
      unfold total, weight, dot. rewrite Rsum_scal. f_equal. rewrite (sum_pairs (fun i => x i * x i)) by (clear - Hm; lia). apply Rsum_ext. intros p _. unfold odd_part. destruct (2 * p + 1 <? m)%Z; ring.
    Qed.
    Lemma rows t r : (0 <= r < d)%Z -> partial_sum pterm t r np = act u0 m pb pl ph gg t x r.
    Proof using Hm Hfirst Hsecond.
      intros H1. unfold partial_sum, act. rewrite (sum_pairs (fun i => ent u0 pb pl ph gg t (r, i) * x i)) by (clear - Hm; lia). apply Rsum_ext. intros p Hp. apply in_range in Hp. apply np_range in Hp.
      unfold pterm, odd_part, ent, sc, sh. cbn [fst snd]. rewrite Hfirst by assumption. destruct (Z.ltb_spec (2 * p + 1) m) as [Q|Q].
      - destruct (Hsecond r p H1 (proj1 Hp) Q) as (-> & -> & ->). ring.
      - ring.
    Qed.
    Lemma near_row t r : In t ts -> (0 <= r < d)%Z -> let y := act u0 m pb pl ph vv t x r in
      (y - partial_sum pterm t r np) * (y - partial_sum pterm t r np) <= eps * sqrt (IZR m) * (eps * sqrt (IZR m)) * dot m x x.
    Proof using Hpos Hnear Hm Heps Hfirst Hsecond.
      intros Ht Hr0 y. rewrite rows by exact Hr0. assert (B : Rabs (y - act u0 m pb pl ph gg t x r) <= eps * Rsum (map (fun i => Rabs (x i)) (range 0 m))).
      { unfold y, act. rewrite <- Rsum_minus. eapply Rle_trans; [apply Rsum_abs|]. rewrite <- Rsum_scal. apply Rsum_le. intros i Hi. apply in_range in Hi. unfold ent.
        destruct (Hpos (r, i) (conj Hr0 Hi)) as [B1 B2]. set (bb := fst (sc pb pl (r, i))) in *. set (ll := snd (sc pb pl (r, i))) in *. assert (I : In (cell u0 t bb ll) U2).
        { pose proof (tapes_len _ _ _ Ht) as Lt. assert (J : In (nth bb t []) (tapes L U2)) by (eapply tapes_in; [exact Ht|apply nth_In; rewrite Lt; exact B1]).
          eapply tapes_in; [exact J|]. apply nth_In. apply tapes_len in J. rewrite J. exact B2. }
        specialize (Hnear (sh ph (r, i)) _ I). rewrite <- Rmult_minus_distr_r, Rabs_mult. apply Rmult_le_compat_r; [apply Rabs_pos|exact Hnear]. }
      pose proof (abs_sum_sq m x ltac:(clear - Hm; lia)) as S2. assert (P : 0 <= Rsum (map (fun i => Rabs (x i)) (range 0 m))) by (apply Rsum_nonneg; intros; apply Rabs_pos).
      assert (SM : sqrt (IZR m) * sqrt (IZR m) = IZR m) by (apply sqrt_sqrt, IZR_le; clear - Hm; lia). set (a := Rsum _) in *. set (z := y - _) in *. clearbody a z.
      replace (eps * sqrt (IZR m) * (eps * sqrt (IZR m)) * dot m x x) with (eps * eps * (sqrt (IZR m) * sqrt (IZR m) * dot m x x)) by ring. rewrite SM.
      apply (Rle_trans _ (eps * a * (eps * a))).
      - apply abs_bounds in B. assert (0 <= eps * a) by (apply Rmult_le_pos; lra). clear - B H. nra.
      - replace (eps * a * (eps * a)) with (eps * eps * (a * a)) by ring. apply Rmult_le_compat_l; [|exact S2]. apply Rlt_le, Rmult_lt_0_compat; exact Heps.
    Qed.
    Lemma gauss_tail e : 0 < e <= / 2 ->
      probability ts (fun t => exceeds (Rabs (/ IZR d * dot d (act u0 m pb pl ph vv t x) (act u0 m pb pl ph vv t x) - dot m x x)) ((e + gaussian_slack c eps m) * dot m x x)) <= 2 * exp (- (IZR d * e ^ 2 / 6)).
    Proof using All.
      intros He. assert (Pq : 0 < / INR q) by (apply Rinv_0_lt_compat, lt_0_INR; exact Hq0). assert (S0 : 1 <= s0 <= 1 + 2.51 * c) by (unfold s0; split; nra).
      assert (Nt : ts <> []) by (apply tapes_ne, tapes_ne, (U2_ne W HW)). assert (Sm : 0 < sqrt (IZR m)) by (apply sqrt_lt_R0, IZR_lt; exact Hm).
      assert (Np : (0 <= np)%Z) by (apply Z.div_pos; clear - Hm; lia).
      assert (Wp : forall i, (0 <= i < np)%Z -> 0 <= weight i) by (intros i _; unfold weight; apply Rmult_le_pos; [lra|]; pose proof (Rle_0_sqr (x (2 * i)%Z)); pose proof (Rle_0_sqr (odd_part m x i)); unfold Rsqr in *; lra).
      assert (Vp : forall r i, (0 <= r < d)%Z -> (0 <= i < np)%Z -> (1 - 2 * c) / s0 * weight i <= pm (x (2 * i)%Z) (odd_part m x i) 2).
      { intros r i _ _. unfold weight. replace ((1 - 2 * c) / s0 * (s0 * (x (2 * i)%Z * x (2 * i)%Z + odd_part m x i * odd_part m x i))) with ((1 - 2 * c) * (x (2 * i)%Z * x (2 * i)%Z + odd_part m x i * odd_part m x i)) by (field; lra). apply pm_var. }
      pose proof (rows_exp ts Nt d np Hd Np pterm pres pterm_res (fun r i k => pm (x (2 * i)%Z) (odd_part m x i) k) pterm_ind weight Wp (fun r i k _ _ => pm_odd _ _ k) (fun r i k _ _ => pm_even _ _ k)
        ((1 - 2 * c) / s0) Vp (dot m x x) s0 (2.51 * c) (2 * c) (eps * sqrt (IZR m)) Hx S0 weights ltac:(lra) ltac:(right; field; lra) (Rmult_lt_0_compat _ _ Heps Sm) (fun t => act u0 m pb pl ph vv t x) near_row e He) as G.
      eapply Rle_trans; [|exact G]. unfold probability. apply average_le. intros t _. unfold indicator, exceeds.
      assert (B : (e + (3 / 2 * (2.51 * c) + 2 * c + (3 / 2 + 1 + (3 / 2 * (2.51 * c) + 2 * c)) * (eps * sqrt (IZR m)) + eps * sqrt (IZR m) * (eps * sqrt (IZR m)))) * dot m x x <= (e + gaussian_slack c eps m) * dot m x x).
      { apply Rmult_le_compat_r; [lra|]. unfold gaussian_slack. assert (SM : sqrt (IZR m) * sqrt (IZR m) = IZR m) by (apply sqrt_sqrt, IZR_le; clear - Hm; lia). set (z := sqrt (IZR m)) in *. rewrite <- SM. clearbody z. assert (0 <= eps * z) by (apply Rmult_le_pos; lra).
        assert ((3 / 2 + 1 + (3 / 2 * (2.51 * c) + 2 * c)) * (eps * z) <= 3 * (eps * z)) by (apply Rmult_le_compat_r; lra). cbn [pow]. lra. }
      destruct (Rlt_dec _ _), (Rlt_dec _ _); lra.
    Qed.
  End Vector.
End GaussRows.
