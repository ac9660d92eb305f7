(** Exponential tails for dense operators with Gaussian entries (used by PropsTail2.v). *)
From Coq Require Import ZArith Reals Lra Psatz Lia List.
From Flocq Require Import Core BinarySingleNaN.
From Verif Require Import Base Spec Interleave RngModel DenseModel DenseSpec DenseProofs DenseProofs2 DenseProofs3 SparseSkopModel SparseSpec FloatModel
  IsoSpec IsoProofs PropsIso StatSpec DenseFloatModel DenseIsoProofs DenseIsoProofs2 NormSpec NormProofs NormProofs3 NormProofs4 NormProofs5
  BoxPi BoxModel BoxSpec BoxProofs BoxProofs2 BoxProofs4 BoxFloatProofs BoxProofs5 LogMoments PairProofs PairProofs3 GaussMoments GaussNorm
  TailSpec TailProofs TailProofs3 TailProofs4 TailGauss TailGauss2.
Import ListNotations.
Local Open Scope R_scope.

(** ** The largest radius *)
Lemma radius2_le W u : (0 < W)%Z -> (0 <= u < 2 ^ W)%Z -> radius2 W u <= 7 / 5 * IZR (W + 1).
Proof.
  intros HW Hu. pose proof (ell_nl W HW u (proj1 Hu)) as E. unfold ell in E. destruct (nl_half_cell W HW) as [_ N].
  assert (H0 : 0 < half_cell W) by (unfold half_cell; apply Rinv_0_lt_compat, IZR_lt, Z.pow_pos_nonneg; lia).
  assert (A : nl (IZR (2 * u + 1) * half_cell W) <= nl (half_cell W)).
  { apply nl_anti. split; [exact H0|]. rewrite <- (Rmult_1_l (half_cell W)) at 1. apply Rmult_le_compat_r; [lra|]. apply IZR_le. lia. }
  lra.
Qed.

Lemma near_entries W bm rho c w : (0 < W)%Z -> 0 <= c -> 1 + 7 / 5 * IZR (W + 1) <= w ->
  (forall u0 u1, (0 <= u0 < 2 ^ W)%Z -> (0 <= u1 < 2 ^ W)%Z -> Rabs (fst (bm u0 u1) - sin (angle W u0) * rho u1) <= c * (1 + radius2 W u1)) ->
  (forall u0 u1, (0 <= u0 < 2 ^ W)%Z -> (0 <= u1 < 2 ^ W)%Z -> Rabs (snd (bm u0 u1) - cos (angle W u0) * rho u1) <= c * (1 + radius2 W u1)) ->
  forall h p, In p (U2 W) -> Rabs (vv bm h p - gg W rho h p) <= w * c.
Proof.
  intros HW Hc Hw Hx Hy h [u0 u1] Hp. apply in_U2 in Hp. destruct Hp as [H0 H1]. cbn [fst snd] in H0, H1.
  pose proof (radius2_le W u1 HW H1) as R1. apply (Rle_trans _ (c * (1 + radius2 W u1))).
  - unfold vv, gg. cbn [fst snd]. destruct h; [now apply Hx|now apply Hy].
  - rewrite Rmult_comm. apply Rmult_le_compat_r; lra.
Qed.

(** ** Neighbouring entries share a Box-Muller pair *)
Section GaussExp.
  Context {K F T : Type}.
  Variables (cast : F -> T) (toR : T -> R) (env : dense_env K F T) (sched : schedule T).
  Variables (nr nc : Z) (D : dense_dist) (seed : rng_state K).
  Hypothesis Hs : valid_schedule sched.
  Hypothesis HD : mk_dense_dist nr nc Gaussian Long = Ok D.
  Hypothesis HF : dense_fits env D seed.
  Hypothesis Hsq : nr <> nc.
  Notation L := (g_len (env_gauss env)).
  Hypothesis Ev : Z.even L = true.
  Variables (dflt : list F) (junk : F).
  Hypothesis Hd : zlen dflt = L.
  Variable W : Z.
  Hypothesis HW : (3 <= W)%Z.
  Variable fbm : Z -> Z -> F * F.
  Notation rbm := (rbm cast toR fbm).
  Notation words := (range 0 (2 ^ W)).
  Notation nb := (Z.to_nat (dense_blocks D L)).
  Notation d := (Z.min nr nc).
  Notation m := (Z.max nr nc).
  Notation drawn := (fun t => sketch_of nr nc (dense_sampled cast toR (with_blocks env seed dflt t) sched D seed)).
  Notation gpb := (gpb env nr nc D).
  Notation gpl := (gpl env nr nc D).
  Notation gph := (gph env nr nc D).

  Lemma place_long r i : place env nr nc Gaussian D r i = (r * ceil_div (dd_major D) L + i / L, i mod L)%Z.
  Proof using HD Hsq HF.
    assert (EL : dd_layout D = natural_layout Long nr nc) by (unfold mk_dense_dist in HD; destruct (nr >? 0)%Z; [|discriminate]; destruct (nc >? 0)%Z; [|discriminate]; injection HD as <-; reflexivity).
    unfold place, entry_block. rewrite EL. unfold natural_layout, major_pos. cbn [env_gen]. destruct (Z.leb_spec nr nc) as [A|A], (Z.ltb_spec nr nc) as [B|B]; try (exfalso; clear - Hsq A B; lia); reflexivity.
  Qed.
  Lemma even_len : exists l, (L = 2 * l /\ 0 < l)%Z.
  Proof using HD HF Ev junk cast toR.
    destruct (dims cast toR env nr nc Gaussian D seed HD HF (fun x => x) junk) as (_ & _ & _ & _ & _ & _ & H & _). cbn [env_gen] in H. set (n := L) in *. clearbody n. clear - Ev H. apply Z.even_spec in Ev. destruct Ev as [l E]. exists l. lia.
  Qed.
  Lemma pair_div l p : (0 < l)%Z -> (0 <= p)%Z -> ((2 * p + 1) / (2 * l) = 2 * p / (2 * l) /\ (2 * p) mod (2 * l) = 2 * (p mod l) /\ (2 * p + 1) mod (2 * l) = 2 * (p mod l) + 1)%Z.
  Proof using.
    clear.
    intros Hl Hp. pose proof (Z.div_mod p l ltac:(lia)) as E. pose proof (Z.mod_pos_bound p l Hl) as B.
    assert (A : forall b, (0 <= b < 2)%Z -> ((2 * p + b) / (2 * l) = p / l)%Z) by (intros b Hb; symmetry; apply (Z.div_unique _ _ _ (2 * (p mod l) + b)); [left; lia|nia]).
    assert (M : forall b, (0 <= b < 2)%Z -> ((2 * p + b) mod (2 * l) = 2 * (p mod l) + b)%Z) by (intros b Hb; symmetry; apply (Z.mod_unique _ _ (p / l)); [left; lia|nia]).
    pose proof (A 0%Z ltac:(lia)) as A0. pose proof (M 0%Z ltac:(lia)) as M0. rewrite !Z.add_0_r in A0, M0. rewrite A0, (A 1%Z), M0, (M 1%Z) by lia. rewrite Z.add_0_r. auto.
  Qed.
  Lemma first_half r p : (0 <= r < d)%Z -> (0 <= 2 * p < m)%Z -> gph r (2 * p)%Z = true.
  Proof using HD HF Ev junk cast toR Hsq.
    intros _ Hp. unfold GaussNorm.gph. rewrite place_long. cbn [snd]. destruct even_len as (l & E & Hl). rewrite E. destruct (pair_div l p Hl ltac:(clear - Hp; lia)) as (_ & -> & _). now rewrite Z.even_mul.
  Qed.
  Lemma second_half r p : (0 <= r < d)%Z -> (0 <= 2 * p)%Z -> (2 * p + 1 < m)%Z ->
    gph r (2 * p + 1)%Z = false /\ gpb r (2 * p + 1)%Z = gpb r (2 * p)%Z /\ gpl r (2 * p + 1)%Z = gpl r (2 * p)%Z.
  Proof using HD HF Ev junk cast toR Hsq.
    intros _ Hp _. unfold GaussNorm.gph, GaussNorm.gpb, GaussNorm.gpl. rewrite !place_long. cbn [fst snd]. destruct even_len as (l & E & Hl). rewrite E. destruct (pair_div l p Hl ltac:(clear - Hp; lia)) as (-> & -> & ->).
    split; [|split].
    - rewrite Z.even_add, Z.even_mul. reflexivity.
    - reflexivity.
    - f_equal. rewrite (Z.mul_comm 2 (p mod l)), Z.div_add_l, Z.div_mul by discriminate. change (1 / 2)%Z with 0%Z. apply Z.add_0_r.
  Qed.

  Variable rho : Z -> R.
  Variables c eps : R.
  Notation ok u := (0 <= u < 2 ^ W)%Z.
  Hypothesis Heps : 0 < eps.
  Hypothesis Hnear : forall h p, In p (U2 W) -> Rabs (vv rbm h p - gg W rho h p) <= eps.
  Hypothesis Hr : forall u, ok u -> Rabs (rho u * rho u - radius2 W u) <= c * (1 + radius2 W u).
  Hypothesis Hc : 0 <= c <= / 500.
  Hypothesis HcW : / IZR (2 ^ W) <= c.
  Variable q : Z.
  Hypothesis Hq0 : (0 < q)%Z.
  Hypothesis HQ : (2 * (W + 1) * q <= 2 ^ W)%Z.
  Hypothesis HQc : / IZR q <= c.
  Lemma gauss_geometry_exp :
    geometry_kept_exp (tapes nb (map (boxmul_block fbm junk) (tapes (Z.to_nat L) words))) (dense_iso2 D) drawn d m (gaussian_slack c eps m).
  Proof.
    destruct (dims cast toR env nr nc Gaussian D seed HD HF (fun x => x) junk) as (P1 & P2 & ER & EC & EF & V & HL & EI).
    assert (D0 : (0 < d)%Z) by (clear - P1 P2; lia). assert (M0 : (0 < m)%Z) by (clear - P1 P2; lia).
    assert (L0 : (0 <= L)%Z) by (cbn [env_gen] in HL; clear - HL; lia).
    assert (Q0 : (0 < Z.to_nat q)%nat) by (clear - Hq0; lia).
    assert (Q1 : (2 * (W + 1) * Z.of_nat (Z.to_nat q) <= 2 ^ W)%Z) by (rewrite Z2Nat.id by (clear - Hq0; lia); exact HQ).
    assert (Q2 : / INR (Z.to_nat q) <= c) by (rewrite INR_IZR_INZ, Z2Nat.id by (clear - Hq0; lia); exact HQc).
    pose proof (gauss_tail W HW rbm rho c eps Heps Hnear Hr Hc HcW (Z.to_nat q) Q0 Q1 Q2 nb (Z.to_nat (L / 2)) (0, 0)%Z d m D0 M0 gpb gpl gph
      (gpos cast toR env nr nc D seed HD HF Ev junk fbm) (ginj cast toR env nr nc D seed HD HF Ev junk fbm) first_half second_half) as G.
    pose proof (gdrawn cast toR env sched nr nc D seed Hs HD HF Ev dflt junk Hd W HW fbm) as GD. pose proof (bblocks_eq fbm junk words L L0 Ev) as BE. unfold bblocks in BE. rewrite BE. clear BE.
    unfold dense_iso2. rewrite EI. assert (Lin : forall t, linear m (drawn t)) by (intros t; apply sketch_of_linear).
    apply embed_geometry_exp.
    - unfold gaussian_slack. assert (0 <= eps * sqrt (IZR m)) by (apply Rmult_le_pos; [lra|apply sqrt_pos]). assert (0 <= eps ^ 2 * IZR m) by (apply Rmult_le_pos; [apply pow2_ge_0|apply IZR_le; clear - M0; lia]). lra.
    - exact Lin.
    - intros x e Hh. destruct (Rle_lt_or_eq_dec _ _ (dot_nonneg m x)) as [Px|Zx].
      + eapply Rle_trans; [|exact (G x Px e Hh)]. unfold probability. rewrite tapes_map, average_map. apply Req_le, average_ext. intros t Ht. unfold indicator. assert (DE : dot d (drawn (map (pairwise fbm) t) x) (drawn (map (pairwise fbm) t) x) = dot d (act (0, 0)%Z m gpb gpl gph (vv rbm) t x) (act (0, 0)%Z m gpb gpl gph (vv rbm) t x)) by (apply dot_ext; intros r Hr0; now apply GD). cbv beta in DE. rewrite DE. reflexivity.
      + apply (Rle_trans _ 0); [|pose proof (exp_pos (- (IZR d * e ^ 2 / 6))); lra]. unfold probability. rewrite (average_ext _ _ (fun _ => 0)).
        * unfold average. rewrite Rsum_const. right. unfold Rdiv. ring.
        * intros t _. rewrite exceeds_le; [reflexivity|]. apply (zero_kept (/ IZR d) drawn d m Lin). now apply dot_zero.
    - apply Rlt_le, Rinv_0_lt_compat, IZR_lt. exact D0.
  Qed.
End GaussExp.
