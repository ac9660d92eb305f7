(** Exponential tails for dense operators with uniform entries (used by PropsTail.v). *)
From Coq Require Import ZArith Reals Lra Psatz.
From Verif Require Import Base Spec Interleave RngModel DenseModel DenseSpec DenseProofs DenseProofs2 DenseProofs3 SparseSpec IsoSpec IsoProofs PropsIso StatSpec DenseFloatModel DenseIsoProofs DenseIsoProofs2
  NormSpec NormProofs NormProofs3 NormProofs4 NormProofs5 TailSpec TailProofs TailProofs2 TailProofs3.
Local Open Scope R_scope.

(** ** Rows known up to an error *)
Lemma perturb d (y z : Z -> R) s eta rho e : (0 < d)%Z -> 0 <= s -> 0 < eta -> 0 <= rho -> e <= / 2 ->
  (forall r, (0 <= r < d)%Z -> (y r - z r) * (y r - z r) <= eta * eta * s) ->
  (1 - rho - e) * s * IZR d <= dot d z z <= (1 + rho + e) * s * IZR d ->
  Rabs (/ IZR d * dot d y y - s) <= (e + (rho + (3 / 2 + 1 + rho) * eta + eta * eta)) * s.
Proof.
  intros Hd Hs He Hr Hh HD [Lo Up]. assert (Pd : 0 < IZR d) by (apply IZR_lt; lia).
  assert (K : Rabs (dot d y y - dot d z z) <= eta * dot d z z + IZR d * (eta * s + eta * eta * s)).
  { assert (E : dot d y y - dot d z z = Rsum (map (fun r => y r * y r - z r * z r) (range 0 d))) by (unfold dot; now rewrite <- Rsum_minus). rewrite E.
    eapply Rle_trans; [apply Rsum_abs|]. unfold dot. rewrite <- (Rsum_range_const (eta * s + eta * eta * s) d) by lia. rewrite <- Rsum_scal, <- Rsum_plus. apply Rsum_le. intros r Hr'. apply in_range in Hr'. specialize (HD r Hr').
    set (a := y r - z r) in *. replace (y r * y r - z r * z r) with (a * a + 2 * a * z r) by (unfold a; ring). clearbody a. set (b := z r). clearbody b. clear - He HD Hs.
    assert (Q1 : 2 * a * b <= eta * s + eta * (b * b) /\ - (2 * a * b) <= eta * s + eta * (b * b)).
    { assert (H : forall c, c * c = a * a -> 2 * c * b <= eta * s + eta * (b * b)).
      { intros c Hc. apply (Rmult_le_reg_l eta); [exact He|]. pose proof (Rle_0_sqr (c - eta * b)) as P. unfold Rsqr in P. nra. }
      split; [apply H; reflexivity|]. specialize (H (- a) ltac:(ring)). lra. }
    assert (0 <= a * a) by apply Rle_0_sqr. apply Rabs_le. lra. }
  assert (U2 : eta * dot d z z <= eta * ((3 / 2 + rho) * s * IZR d)).
  { apply Rmult_le_compat_l; [lra|]. eapply Rle_trans; [exact Up|]. apply Rmult_le_compat_r; [lra|]. apply Rmult_le_compat_r; [exact Hs|]. lra. }
  replace (/ IZR d * dot d y y - s) with (/ IZR d * (dot d y y - s * IZR d)) by (field; lra). rewrite Rabs_mult, (Rabs_pos_eq (/ IZR d)) by (apply Rlt_le, Rinv_0_lt_compat, Pd).
  apply (Rmult_le_reg_l (IZR d)); [exact Pd|]. rewrite <- Rmult_assoc, Rinv_r, Rmult_1_l by lra. apply abs_bounds in K. apply Rabs_le. lra.
Qed.
Lemma two_sided {T} (ts : list T) (P A B : T -> bool) a b : (forall t, In t ts -> A t = false -> B t = false -> P t = false) ->
  probability ts A <= a -> probability ts B <= b -> probability ts P <= a + b.
Proof.
  intros H HA HB. apply (Rle_trans _ (probability ts A + probability ts B)); [|lra]. unfold probability. rewrite <- avg_plus. apply average_le. intros t Ht. specialize (H t Ht). unfold indicator.
  destruct (A t), (B t), (P t); try lra.
Qed.
Lemma exceeds_false a b : exceeds a b = false -> a <= b.
Proof. unfold exceeds. destruct (Rlt_dec b a); [discriminate|]. intros _. lra. Qed.
Lemma exceeds_le a b : a <= b -> exceeds a b = false.
Proof. unfold exceeds. destruct (Rlt_dec b a); [lra|reflexivity]. Qed.
Lemma dot_zero m x : dot m x x = 0 -> forall i, (0 <= i < m)%Z -> x i = 0.
Proof. intros H i Hi. pose proof (coord m x i Hi) as C. rewrite H in C. apply Rsqr_0_uniq. unfold Rsqr. pose proof (Rle_0_sqr (x i)) as P. unfold Rsqr in P. lra. Qed.
Lemma abs_sum_sq m x : (0 <= m)%Z -> Rsum (map (fun i => Rabs (x i)) (range 0 m)) * Rsum (map (fun i => Rabs (x i)) (range 0 m)) <= IZR m * dot m x x.
Proof.
  intros Hm. pose proof (sum_sq m (fun i => Rabs (x i)) Hm) as H. replace (dot m x x) with (dot m (fun i => Rabs (x i)) (fun i => Rabs (x i))); [exact H|].
  apply Rsum_ext. intros i _. rewrite <- Rabs_mult. apply Rabs_pos_eq, Rle_0_sqr.
Qed.

(** ** Independent symmetric entries *)
Section EntriesExp.
  Context {A : Type}.
  Variable U : list A.
  Hypothesis HU : U <> [].
  Variables n L : nat.
  Notation ts := (tapes n (tapes L U)).
  Variable u0 : A.
  (** The stored and the ideal value. *)
  Variables v id : A -> R.
  Variables d m : Z.
  Hypothesis Hd : (0 < d)%Z.
  Hypothesis Hm : (0 < m)%Z.
  Variable pb pl : Z -> Z -> nat.
  Hypothesis Hpos : forall r i, (0 <= r < d)%Z -> (0 <= i < m)%Z -> (pb r i < n)%nat /\ (pl r i < L)%nat.
  Hypothesis Hinj : forall r i r' i', (0 <= r < d)%Z -> (0 <= i < m)%Z -> (0 <= r' < d)%Z -> (0 <= i' < m)%Z ->
    (pb r i, pl r i) = (pb r' i', pl r' i') -> r = r' /\ i = i'.
  Hypothesis Hodd : forall k, average U (fun u => id u ^ S (2 * k)) = 0.
  Hypothesis Heven : forall k, 0 <= average U (fun u => id u ^ (2 * k)) <= dfact k.
  Variable rho : R.
  Hypothesis Hrho : 0 <= rho.
  Hypothesis Hvar : 1 - rho <= average U (fun u => id u ^ 2).
  Variable eps : R.
  Hypothesis Heps : 0 < eps.
  Hypothesis Hnear : forall u, In u U -> Rabs (v u - id u) <= eps.
  Section Vector.
    Variable x : Z -> R.
    Hypothesis Hx : 0 < dot m x x.
    Definition term (t : list (list A)) (r i : Z) : R := x i * id (cell u0 t (pb r i) (pl r i)).
    Definition resam (r i : Z) (t t' : list (list A)) : Prop := exists u, t' = upd t (pb r i) (pl r i) u.
    Definition mom (r i : Z) (k : nat) : R := x i ^ k * average U (fun u => id u ^ k).
    Lemma term_res r i r' i' t t' : (0 <= r < d)%Z -> (0 <= i < m)%Z -> (0 <= r' < d)%Z -> (0 <= i' < m)%Z -> (r, i) <> (r', i') ->
      In t ts -> resam r i t t' -> term t' r' i' = term t r' i'.
    Proof using Hinj.
      intros H1 H2 H3 H4 N _ [u ->]. unfold term. do 2 f_equal. apply cell_other. intros E. destruct (Hinj r i r' i' H1 H2 H3 H4 E) as [-> ->]. now apply N.
    Qed.
    Lemma term_ind r i k G : (0 <= r < d)%Z -> (0 <= i < m)%Z -> indep ts resam r i G ->
      Rsum (map (fun t => term t r i ^ k * G t) ts) = mom r i k * Rsum (map G ts).
    Proof using HU Hpos.
      intros Hr Hi HG. destruct (Hpos r i Hr Hi) as [B1 B2]. unfold term, mom. rewrite (Rsum_ext _ (fun t => x i ^ k * ((fun u => id u ^ k) (cell u0 t (pb r i) (pl r i)) * G t))) by (intros; rewrite Rpow_mult_distr; ring).
      rewrite Rsum_scal. rewrite (split_sum U HU n L u0 (pb r i) (pl r i) (fun u => id u ^ k) G B1 B2); [ring|]. intros t u Ht. apply (HG t); [exact Ht|]. now exists u.
    Qed.
    Notation z t r := (partial_sum term t r m).
    Lemma term_odd r i k : mom r i (S (2 * k)) = 0. Proof using Hodd. unfold mom. rewrite Hodd. ring. Qed.
    Lemma term_even r i k : 0 <= mom r i (2 * k) <= dfact k * (x i ^ 2) ^ k.
    Proof using Heven.
      unfold mom. rewrite pow_mult. destruct (Heven k) as [E0 E1]. assert (P : 0 <= (x i ^ 2) ^ k) by (apply pow_le; apply pow2_ge_0). split; [now apply Rmult_le_pos|]. rewrite Rmult_comm. now apply Rmult_le_compat_r.
    Qed.
    Lemma term_var r i : (1 - rho) * x i ^ 2 <= mom r i 2.
    Proof using Hvar. unfold mom. rewrite Rmult_comm. apply Rmult_le_compat_l; [apply pow2_ge_0|exact Hvar]. Qed.
    Lemma total_norm : total (fun i => x i ^ 2) m = dot m x x.
    Proof. unfold total, dot. apply Rsum_ext. intros i _. ring. Qed.
    Lemma energy_dot t : energy (fun t r => z t r) d t = dot d (fun r => z t r) (fun r => z t r).
    Proof. unfold energy, dot. apply Rsum_ext. intros i _. ring. Qed.
    Lemma two_tails e : 0 < e <= / 2 ->
      probability ts (fun t => exceeds (energy (fun t r => z t r) d t) ((1 + e) * dot m x x * IZR d)) <= exp (- (IZR d * e ^ 2 / 6)) /\
      probability ts (fun t => exceeds (((1 - rho) * dot m x x - e * dot m x x) * IZR d) (energy (fun t r => z t r) d t)) <= exp (- (IZR d * e ^ 2 / 6)).
    Proof using HU Hpos Hinj Hodd Heven Hvar Hd Hm Hx.
      clear Hnear Heps. clear v eps. intros He. assert (Nt : ts <> []) by (apply tapes_ne, tapes_ne, HU).
      assert (Hm' : (0 <= m)%Z) by lia.
      assert (A0 : forall i, (0 <= i < m)%Z -> 0 <= x i ^ 2) by (intros; apply pow2_ge_0).
      pose proof (fun r k c => energy_moments ts d m term resam term_res mom term_ind (fun i => x i ^ 2) A0 (fun r i k _ _ => term_odd r i k) (fun r i k _ _ => term_even r i k) (1 - rho) (fun r i _ _ => term_var r i) r k c Hm') as M1.
      pose proof (fun r c => energy_variance ts d m term resam term_res mom term_ind (fun i => x i ^ 2) A0 (fun r i k _ _ => term_odd r i k) (fun r i k _ _ => term_even r i k) (1 - rho) (fun r i _ _ => term_var r i) r c Hm') as M2.
      cbv zeta in M1, M2. rewrite total_norm in *. split.
      - apply (chernoff_up_simple ts Nt (fun t r => z t r) d Hd (dot m x x) ((1 - rho) * dot m x x) Hx M1 M2 e He).
      - apply (chernoff_down ts Nt (fun t r => z t r) d Hd (dot m x x) ((1 - rho) * dot m x x) Hx M1 M2 e). apply He.
    Qed.
    Lemma near_rows t r : In t ts -> (0 <= r < d)%Z -> let y := act u0 v m pb pl t x r in
      (y - z t r) * (y - z t r) <= eps * sqrt (IZR m) * (eps * sqrt (IZR m)) * dot m x x.
    Proof using Hpos Hnear Hm Heps.
      clear Hodd Hinj Heven. intros Ht Hr y. assert (B : Rabs (y - z t r) <= eps * Rsum (map (fun i => Rabs (x i)) (range 0 m))).
      { unfold y, act, dot, partial_sum. rewrite <- Rsum_minus. eapply Rle_trans; [apply Rsum_abs|]. rewrite <- Rsum_scal. apply Rsum_le. intros i Hi. apply in_range in Hi. unfold entry, term.
        destruct (Hpos r i Hr Hi) as [B1 B2]. assert (I : In (cell u0 t (pb r i) (pl r i)) U).
        { pose proof (tapes_len _ _ _ Ht) as Lt. assert (J : In (nth (pb r i) t []) (tapes L U)) by (eapply tapes_in; [exact Ht|apply nth_In; lia]).
          eapply tapes_in; [exact J|]. apply nth_In. apply tapes_len in J. lia. }
        specialize (Hnear _ I). set (c := cell u0 t (pb r i) (pl r i)) in *. replace (v c * x i - x i * id c) with ((v c - id c) * x i) by ring. rewrite Rabs_mult. apply Rmult_le_compat_r; [apply Rabs_pos|exact Hnear]. }
      pose proof (abs_sum_sq m x ltac:(lia)) as S2. assert (P : 0 <= Rsum (map (fun i => Rabs (x i)) (range 0 m))) by (apply Rsum_nonneg; intros; apply Rabs_pos).
      assert (SM : sqrt (IZR m) * sqrt (IZR m) = IZR m) by (apply sqrt_sqrt, IZR_le; lia). set (a := Rsum _) in *. set (w := y - z t r) in *. clearbody a w.
      replace (eps * sqrt (IZR m) * (eps * sqrt (IZR m)) * dot m x x) with (eps * eps * (sqrt (IZR m) * sqrt (IZR m) * dot m x x)) by ring. rewrite SM.
      apply (Rle_trans _ (eps * a * (eps * a))).
      - apply abs_bounds in B. assert (0 <= eps * a) by (apply Rmult_le_pos; lra). clear - B H. nra.
      - replace (eps * a * (eps * a)) with (eps * eps * (a * a)) by ring. apply Rmult_le_compat_l; [|exact S2]. apply Rlt_le, Rmult_lt_0_compat; exact Heps.
    Qed.
  End Vector.
  Definition loss : R := rho + (3 / 2 + 1 + rho) * (eps * sqrt (IZR m)) + eps * sqrt (IZR m) * (eps * sqrt (IZR m)).
  Lemma entries_lengths x e : 0 < e <= / 2 -> 0 < dot m x x ->
    probability ts (fun t => exceeds (Rabs (/ IZR d * dot d (act u0 v m pb pl t x) (act u0 v m pb pl t x) - dot m x x)) ((e + loss) * dot m x x)) <= 2 * exp (- (IZR d * e ^ 2 / 6)).
  Proof using HU Hpos Hinj Hodd Heven Hvar Hd Hm Hrho Heps Hnear.
    intros He Hx. destruct (two_tails x Hx e He) as [Up Lo]. replace (2 * exp (- (IZR d * e ^ 2 / 6))) with (exp (- (IZR d * e ^ 2 / 6)) + exp (- (IZR d * e ^ 2 / 6))) by ring.
    refine (two_sided _ _ _ _ _ _ _ Up Lo). intros t Ht A1 A2. apply exceeds_false in A1, A2. rewrite energy_dot in A1, A2. apply exceeds_le.
    assert (Sm : 0 < sqrt (IZR m)) by (apply sqrt_lt_R0, IZR_lt; lia).
    refine (perturb d (act u0 v m pb pl t x) (fun r => partial_sum (term x) t r m) (dot m x x) (eps * sqrt (IZR m)) rho e Hd (Rlt_le _ _ Hx) _ Hrho (proj2 He) _ _).
    - now apply Rmult_lt_0_compat.
    - intros r Hr. now apply near_rows.
    - assert (Pd : 0 < IZR d) by (apply IZR_lt; lia). assert (0 <= rho * dot m x x * IZR d) by (apply Rmult_le_pos; [apply Rmult_le_pos|]; lra). split; lra.
  Qed.
End EntriesExp.

Section UniformExp.
  Context {K X T : Type}.
  Variables (cast : X -> T) (toR : T -> R) (env : dense_env K X T) (sched : schedule T).
  Variables (nr nc : Z) (D : dense_dist) (seed : rng_state K).
  Hypothesis Hs : valid_schedule sched.
  Hypothesis HD : mk_dense_dist nr nc Uniform Long = Ok D.
  Hypothesis HF : dense_fits env D seed.
  Notation L := (g_len (env_unif env)).
  Variables (dflt : list X).
  Hypothesis Hd : zlen dflt = L.
  Variables (W : Z) (tr : Z -> X) (eps : R).
  Hypothesis HW : (0 < W)%Z.
  Hypothesis He : 0 < eps <= / IZR (2 ^ 20).
  Hypothesis HeW : / IZR (2 ^ W) <= eps.
  Hypothesis Hv : forall w, (0 <= w < 2 ^ W)%Z -> Rabs (toR (env_scal3 env (cast (tr w))) - sqrt 3 * ideal W w) <= eps.
  Notation d := (Z.min nr nc).
  Notation m := (Z.max nr nc).
  Lemma loss_bound : (0 < m)%Z -> 0 <= loss m (/ IZR (2 ^ W) * / IZR (2 ^ W)) eps <= uniform_slack eps m.
  Proof.
    intros Hm. assert (P : 0 < / IZR (2 ^ W)) by (apply Rinv_0_lt_compat, IZR_lt, Z.pow_pos_nonneg; lia). destruct He as [E0 E1]. assert (E2 : eps <= / 1048576) by exact E1. assert (M1 : 1 <= IZR m) by (apply IZR_le; lia).
    assert (S1 : 1 <= sqrt (IZR m)) by (rewrite <- sqrt_1; now apply sqrt_le_1_alt). assert (SS : sqrt (IZR m) * sqrt (IZR m) = IZR m) by (apply sqrt_sqrt; lra). unfold loss, uniform_slack.
    set (q := / IZR (2 ^ W)) in *. set (s := sqrt (IZR m)) in *. clearbody q s. rewrite <- SS. assert (Q : q * q <= eps * eps) by (apply Rmult_le_compat; lra).
    assert (Q2 : eps * eps <= eps * / 1048576) by (apply Rmult_le_compat_l; lra). assert (Es : eps * eps <= eps * s * (eps * s)) by (apply Rmult_le_compat; nra). assert (0 <= q * q) by nra. assert (Z0 : 0 <= eps * s) by nra. split.
    - assert (0 <= (3 / 2 + 1 + q * q) * (eps * s)) by (apply Rmult_le_pos; lra). nra.
    - assert ((3 / 2 + 1 + q * q) * (eps * s) <= 3 * (eps * s)) by (apply Rmult_le_compat_r; lra). cbn [pow]. lra.
  Qed.
  Lemma uniform_geometry_exp :
    geometry_kept_exp (tapes (Z.to_nat (dense_blocks D L)) (map (map tr) (tapes (Z.to_nat L) (range 0 (2 ^ W))))) (dense_iso2 D)
      (dense_drawn cast toR env sched nr nc D seed dflt) d m (uniform_slack eps m).
  Proof.
    destruct (mk_dense_dist_inv _ _ _ _ _ HD) as (P1 & P2 & _).
    assert (EI : dense_iso2 D = / IZR d).
    { unfold dense_iso2. assert (EI : dd_iso_inv2 D = d). { unfold mk_dense_dist in HD. destruct (nr >? 0)%Z; [|discriminate]. destruct (nc >? 0)%Z; [|discriminate]. injection HD as <-. reflexivity. } now rewrite EI. }
    rewrite EI. assert (Hmm : (0 < m)%Z) by lia. assert (Hdd : (0 < d)%Z) by lia. pose proof (loss_bound Hmm) as [LB0 LB].
    assert (Lin : forall t, linear m (dense_drawn cast toR env sched nr nc D seed dflt t)) by (intros t; apply sketch_of_linear).
    assert (Pv : 0 <= / IZR (2 ^ W) * / IZR (2 ^ W)) by (apply Rle_0_sqr).
    assert (NR : forall u, In u (range 0 (2 ^ W)) -> Rabs (wv cast toR env Uniform tr u - unif W u) <= eps) by (intros u Hu; apply in_range in Hu; now apply Hv).
    pose proof (words_nonempty W HW) as NW. pose proof (unif_odd W HW) as O. pose proof (unif_even W HW) as EV. assert (VR : 1 - / IZR (2 ^ W) * / IZR (2 ^ W) <= average (range 0 (2 ^ W)) (fun w => unif W w ^ 2)) by (rewrite unif_var by exact HW; lra).
    clear Hv. revert NW O EV VR NR LB LB0 Pv. generalize (range 0 (2 ^ W)) as words. generalize (/ IZR (2 ^ W) * / IZR (2 ^ W)) as rho. intros rho words NW O EV VR NR LB LB0 Pv.
    apply embed_geometry_exp.
    - lra.
    - exact Lin.
    - intros x e Hh. assert (P0 : 0 <= 2 * exp (- (IZR d * e ^ 2 / 6))) by (pose proof (exp_pos (- (IZR d * e ^ 2 / 6))); lra).
      destruct (Rle_lt_or_eq_dec _ _ (dot_nonneg m x)) as [Px|Zx].
      + eapply Rle_trans; [|apply (entries_lengths words NW (Z.to_nat (dense_blocks D L)) (Z.to_nat L) 0%Z (wv cast toR env Uniform tr) (unif W) d m Hdd Hmm
          (place_b env nr nc Uniform D) (place_l env nr nc Uniform D)
          ltac:(intros r i Hr Hi; pose proof (place_range cast toR env nr nc Uniform D seed HD HF tr 0%Z r i Hr Hi); unfold place_b, place_l; change (env_gen env Uniform) with (env_unif env) in *; lia)
          (place_inj cast toR env nr nc Uniform D seed HD HF tr 0%Z) O EV rho Pv VR eps (proj1 He) NR x e Hh Px)].
        unfold probability. rewrite tapes_map, average_map. apply average_le. intros t Ht. unfold indicator.
        rewrite (dot_ext d (dense_drawn cast toR env sched nr nc D seed dflt (map (map tr) t) x) (act 0%Z (wv cast toR env Uniform tr) m (place_b env nr nc Uniform D) (place_l env nr nc Uniform D) t x)
          (dense_drawn cast toR env sched nr nc D seed dflt (map (map tr) t) x) (act 0%Z (wv cast toR env Uniform tr) m (place_b env nr nc Uniform D) (place_l env nr nc Uniform D) t x)).
        2, 3: intros r Hr; apply (drawn_act cast toR env sched nr nc Uniform D seed Hs HD HF dflt Hd tr words 0%Z); assumption.
        unfold exceeds. assert ((e + loss m rho eps) * dot m x x <= (e + uniform_slack eps m) * dot m x x) by (apply Rmult_le_compat_r; lra). destruct (Rlt_dec _ _), (Rlt_dec _ _); lra.
      + eapply Rle_trans; [|exact P0]. unfold probability. rewrite (average_ext _ _ (fun _ => 0)).
        * unfold average. rewrite Rsum_const. right. unfold Rdiv. ring.
        * intros t _. rewrite exceeds_le; [reflexivity|]. apply (zero_kept (/ IZR d) (dense_drawn cast toR env sched nr nc D seed dflt) d m Lin). now apply dot_zero.
    - apply Rlt_le, Rinv_0_lt_compat, IZR_lt, Hdd.
  Qed.
End UniformExp.
