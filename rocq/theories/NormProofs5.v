(** Second moments for dense operators with uniform entries (used by PropsNorm2.v). *)
From Verif Require Import Base Spec Interleave RngModel DenseModel DenseSpec DenseProofs DenseProofs2 DenseProofs3 SparseSkopModel SparseSpec FloatModel
  IsoSpec IsoProofs PropsIso StatSpec DenseFloatModel DenseIsoProofs DenseIsoProofs2 NormSpec NormProofs NormProofs3 NormProofs4.
From Coq Require Import Lra.
Local Open Scope R_scope.

Section DenseNorm.
  Context {K X T U : Type}.
  Variables (cast : X -> T) (toR : T -> R) (env : dense_env K X T) (sched : schedule T).
  Variables (nr nc : Z) (fam : DenseModel.family) (D : dense_dist) (seed : rng_state K).
  Hypothesis Hs : valid_schedule sched.
  Hypothesis HD : mk_dense_dist nr nc fam Long = Ok D.
  Hypothesis HF : dense_fits env D seed.
  Notation L := (g_len (env_gen env fam)).
  Variables (dflt : list X).
  Hypothesis Hd : zlen dflt = L.
  Variables (tr : U -> X) (words : list U) (u0 : U).
  Hypothesis HU : words <> [].
  Notation nb := (Z.to_nat (dense_blocks D L)).
  Notation draws := (tapes nb (map (map tr) (tapes (Z.to_nat L) words))).
  Notation d := (Z.min nr nc).
  Notation m := (Z.max nr nc).
  Definition dense_drawn (t : list (list X)) (x : Z -> R) : Z -> R :=
    sketch_of nr nc (dense_sampled cast toR (with_blocks env seed dflt t) sched D seed) x.
  Definition wv (u : U) : R := toR (family_map env fam (cast (tr u))).
  Definition place (r i : Z) : Z * Z := if (nr <=? nc)%Z then entry_block D L r i else entry_block D L i r.
  Definition place_b r i : nat := Z.to_nat (fst (place r i)).
  Definition place_l r i : nat := Z.to_nat (snd (place r i)).

  Lemma dims : (0 < nr)%Z /\ (0 < nc)%Z /\ dd_rows D = nr /\ dd_cols D = nc /\ dd_family D = fam /\ valid_dist D /\ (2 <= L)%Z /\ dd_iso_inv2 D = d.
  Proof.
    pose proof (mk_dense_dist_inv _ _ _ _ _ HD) as (P1 & P2 & ER & EC & _ & EF & _). destruct HF as (We & _).
    split; [exact P1|]. split; [exact P2|]. split; [exact ER|]. split; [exact EC|]. split; [exact EF|]. split; [exists nr, nc, fam, Long; exact HD|].
    split; [destruct (env_gen_wf env fam We); lia|].
    unfold mk_dense_dist in HD. destruct (nr >? 0)%Z; [|discriminate]. destruct (nc >? 0)%Z; [|discriminate]. injection HD as <-. reflexivity.
  Qed.
  Lemma place_range r i : (0 <= r < d)%Z -> (0 <= i < m)%Z -> (0 <= fst (place r i) < dense_blocks D L)%Z /\ (0 <= snd (place r i) < L)%Z.
  Proof.
    intros Hr Hi. destruct dims as (P1 & P2 & ER & EC & EF & V & HL & _). unfold place, dense_blocks.
    destruct (Z.leb_spec nr nc); apply entry_block_range; auto; lia.
  Qed.
  Lemma place_inj r i r' i' : (0 <= r < d)%Z -> (0 <= i < m)%Z -> (0 <= r' < d)%Z -> (0 <= i' < m)%Z ->
    (place_b r i, place_l r i) = (place_b r' i', place_l r' i') -> r = r' /\ i = i'.
  Proof.
    intros Hr Hi Hr' Hi' E. destruct dims as (P1 & P2 & ER & EC & EF & V & HL & _).
    destruct (place_range r i Hr Hi) as [A1 A2]. destruct (place_range r' i' Hr' Hi') as [B1 B2]. injection E as E1 E2. unfold place_b, place_l in E1, E2.
    apply Z2Nat.inj in E1; [|lia|lia]. apply Z2Nat.inj in E2; [|lia|lia].
    assert (EP : place r i = place r' i') by (destruct (place r i), (place r' i'); cbn [fst snd] in *; congruence).
    unfold place in EP. destruct (Z.leb_spec nr nc).
    - apply (entry_block_inj D L r i r' i') in EP; auto; lia.
    - apply (entry_block_inj D L i r i' r') in EP; auto; lia.
  Qed.
  Lemma sampled_cell t i j : In t (tapes nb (tapes (Z.to_nat L) words)) -> (0 <= i < nr)%Z -> (0 <= j < nc)%Z ->
    dense_sampled cast toR (with_blocks env seed dflt (map (map tr) t)) sched D seed i j =
    wv (cell u0 t (Z.to_nat (fst (entry_block D L i j))) (Z.to_nat (snd (entry_block D L i j)))).
  Proof.
    intros Ht Hi Hj. destruct dims as (P1 & P2 & ER & EC & EF & V & HL & _). pose proof HF as (We & Hgl & Hsz & Hc & Hn).
    pose proof (sampled_entry_value cast toR env sched D seed Hs We V Hsz Hc Hn Hgl dflt) as SV. unfold lane, value, dense_blocks in *. rewrite EF, ER, EC in SV.
    rewrite (SV Hd (tr u0) (map (map tr) (tapes (Z.to_nat L) words)) (fun b => block_len tr words L b ltac:(lia)) (map (map tr) t) i j); auto.
    2: { rewrite tapes_map. now apply in_map. }
    unfold wv, cell. do 3 f_equal.
    pose proof (entry_block_range D L i j V HL ltac:(lia) ltac:(lia)) as [R1 R2]. destruct (entry_block D L i j) as [b l]. cbn [fst snd] in *.
    pose proof (tapes_len _ _ _ Ht) as Lt. assert (Hb : (Z.to_nat b < length t)%nat) by lia.
    rewrite (nth_indep _ dflt (map tr [])) by (rewrite map_length; exact Hb). rewrite map_nth.
    apply map_nth.
  Qed.
  Lemma drawn_act t x r : In t (tapes nb (tapes (Z.to_nat L) words)) -> (0 <= r < d)%Z ->
    dense_drawn (map (map tr) t) x r = act u0 wv m place_b place_l t x r.
  Proof.
    intros Ht Hr. destruct dims as (P1 & P2 & ER & EC & EF & V & HL & _). unfold dense_drawn, sketch_of, act, entry, dot, place_b, place_l, place.
    destruct (Z.leb_spec nr nc) as [Q|Q].
    - rewrite Z.max_r by lia. apply Rsum_ext. intros i Hi. apply in_range in Hi. rewrite sampled_cell by (auto; lia). reflexivity.
    - rewrite Z.max_l by lia. apply Rsum_ext. intros i Hi. apply in_range in Hi. rewrite sampled_cell by (auto; lia). reflexivity.
  Qed.

  Variable Q : R.
  Hypothesis Q1 : s2 words wv * s2 words wv <= Q.
  Hypothesis Q2 : k4 words wv - s2 words wv * s2 words wv <= 2 * Q.
  Lemma dense_inner_products : inner_products_kept draws (dense_iso2 D) dense_drawn d m (slack words wv d m Q ^ 2).
  Proof.
    intros x y. destruct dims as (P1 & P2 & ER & EC & EF & V & HL & EI). rewrite tapes_map, average_map.
    rewrite (average_ext _ _ (fun t => (/ IZR d * dot d (act u0 wv m place_b place_l t x) (act u0 wv m place_b place_l t y) - dot m x y) ^ 2)).
    - apply (ip_moment words HU nb (Z.to_nat L) u0 wv d m ltac:(lia) ltac:(lia) place_b place_l).
      + intros r i Hr Hi. pose proof (place_range r i Hr Hi). unfold place_b, place_l. lia.
      + exact place_inj.
      + exact Q1.
      + exact Q2.
    - intros t Ht. unfold dense_iso2. rewrite EI. do 3 f_equal. apply dot_ext; intros r Hr; now apply drawn_act.
  Qed.
End DenseNorm.

(** ** Moments of uniform entries *)
Section UniformMoments.
  Variable W : Z.
  Hypothesis HW : (0 < W)%Z.
  Variable v : Z -> R.
  Variable eps : R.
  Hypothesis He : 0 < eps <= / IZR (2 ^ 20).
  Hypothesis HeW : / IZR (2 ^ W) <= eps.
  Hypothesis Hv : forall w, (0 <= w < 2 ^ W)%Z -> Rabs (v w - sqrt 3 * ideal W w) <= eps.
  Notation words := (range 0 (2 ^ W)).
  Notation mu := (mu words v).
  Notation s2 := (s2 words v).
  Notation k4 := (k4 words v).
  Lemma wne : words <> []. Proof. exact (words_nonempty W HW). Qed.
  Lemma avg_plus {A} (l : list A) f g : average l (fun t => f t + g t) = average l f + average l g.
  Proof. unfold average. rewrite Rsum_plus. lra. Qed.
  Lemma avg_const {A} (l : list A) c : l <> [] -> average l (fun _ => c) = c.
  Proof. intros H. unfold average. rewrite Rsum_const. pose proof (length_pos l H). field. lra. Qed.
  Lemma s2_eq : s2 = average words (fun w => v w * v w) - mu * mu.
  Proof.
    unfold NormProofs4.s2, cw. rewrite (average_ext _ _ (fun w => v w * v w + (- (2 * mu) * v w + mu * mu))) by (intros; ring).
    rewrite !avg_plus, average_const_mul, avg_const by exact wne. fold mu. unfold NormProofs4.mu. ring.
  Qed.
  Lemma mu_small : Rabs mu <= eps. Proof. apply (mean_small W HW v eps Hv). Qed.
  Lemma e20 : eps <= / 1048576. Proof. destruct He as [_ H]. exact H. Qed.
  Lemma s2_near : Rabs (s2 - 1) <= 4 * eps.
  Proof.
    pose proof (square_close W HW v eps Hv) as B. pose proof mu_small as M. pose proof e20 as E. destruct He as [E0 _]. rewrite s2_eq.
    assert (P : 0 < / IZR (2 ^ W)) by (apply Rinv_0_lt_compat, IZR_lt, Z.pow_pos_nonneg; lia).
    set (q := / IZR (2 ^ W)) in *. set (a := average words (fun w => v w * v w)) in *. set (b := mu) in *. clearbody q a b.
    apply abs_bounds in M, B. assert (q * q <= eps * eps) by (apply Rmult_le_compat; lra). assert (b * b <= eps * eps) by nra. assert (0 <= b * b) by nra.
    assert (eps * eps <= eps * / 1048576) by (apply Rmult_le_compat_l; lra). apply Rabs_le. split; lra.
  Qed.
  Lemma cw_bound w : In w words -> cw words v w * cw words v w <= 3 + 7 * eps.
  Proof.
    intros Hw. apply in_range in Hw. pose proof (Hv w Hw) as B. pose proof (ideal_abs W HW v eps Hv w Hw) as I. pose proof mu_small as M. pose proof e20 as E. destruct He as [E0 _].
    pose proof sqrt3_bounds as S. assert (S3 : sqrt 3 * sqrt 3 = 3) by (apply sqrt_sqrt; lra). unfold cw.
    set (b := mu) in *. set (x := v w) in *. set (y := ideal W w) in *. set (r := sqrt 3) in *. clearbody b x y r. apply abs_bounds in B, I, M.
    assert (- r <= r * y <= r) by nra. assert (H1 : - (r + 2 * eps) <= x - b <= r + 2 * eps) by lra.
    assert (H2 : (x - b) * (x - b) <= (r + 2 * eps) * (r + 2 * eps)) by nra.
    assert (eps * eps <= eps * / 1048576) by (apply Rmult_le_compat_l; lra).
    assert (r * eps <= 1.7320509 * eps) by (apply Rmult_le_compat_r; lra).
    replace ((r + 2 * eps) * (r + 2 * eps)) with (3 + 4 * (r * eps) + 4 * (eps * eps)) in H2 by (rewrite <- S3; ring). lra.
  Qed.
  Lemma k4_bound : k4 <= (3 + 7 * eps) * s2.
  Proof.
    unfold NormProofs4.k4, NormProofs4.s2. rewrite <- average_const_mul. apply average_le. intros w Hw. apply Rmult_le_compat_r; [apply Rle_0_sqr|now apply cw_bound].
  Qed.
  Lemma U_Q1 : s2 * s2 <= 1 + 14 * eps.
  Proof.
    pose proof s2_near as B. pose proof e20 as E. destruct He as [E0 _]. set (s := s2) in *. clearbody s. apply abs_bounds in B.
    assert (eps * eps <= eps * / 1048576) by (apply Rmult_le_compat_l; lra). nra.
  Qed.
  Lemma U_Q2 : k4 - s2 * s2 <= 2 * (1 + 14 * eps).
  Proof.
    pose proof s2_near as B. pose proof k4_bound as K. pose proof e20 as E. destruct He as [E0 _]. set (k := k4) in *. set (s := s2) in *. clearbody s k. apply abs_bounds in B.
    assert (eps * eps <= eps * / 1048576) by (apply Rmult_le_compat_l; lra). nra.
  Qed.
  (** The root mean square error, in closed form. *)
  Definition uniform_error (d m : Z) : R := (1 + 7 * eps) * sqrt (2 / IZR d) + 4 * eps + 3 * eps * sqrt (IZR m / IZR d) + eps ^ 2 * IZR m.
  Lemma slack_bound d m : (0 < d)%Z -> (0 < m)%Z -> 0 <= slack words v d m (1 + 14 * eps) <= uniform_error d m.
  Proof.
    intros Hd Hm. assert (Pd : 0 < IZR d) by (apply IZR_lt; lia). assert (Pm : 0 < IZR m) by (apply IZR_lt; lia). assert (Pid : 0 < / IZR d) by (now apply Rinv_0_lt_compat).
    pose proof s2_near as B. pose proof mu_small as M. pose proof e20 as E. destruct He as [E0 _]. unfold slack, uniform_error.
    assert (P2 : 0 <= s2) by (apply s2_nonneg, wne). set (s := s2) in *. set (b := mu) in *. clearbody s b. pose proof (Rabs_pos (s - 1)) as A1. pose proof (Rabs_pos b) as A2.
    assert (C1 : sqrt (2 * (1 + 14 * eps) / IZR d) <= (1 + 7 * eps) * sqrt (2 / IZR d)).
    { rewrite <- (sqrt_square (1 + 7 * eps)) by lra. rewrite <- sqrt_mult_alt by (apply Rmult_le_pos; lra). apply sqrt_le_1_alt. unfold Rdiv.
      replace ((1 + 7 * eps) * (1 + 7 * eps) * (2 * / IZR d)) with (2 * ((1 + 7 * eps) * (1 + 7 * eps)) * / IZR d) by ring. apply Rmult_le_compat_r; [lra|]. nra. }
    assert (C2 : sqrt (s * IZR m / IZR d) <= 1.5 * sqrt (IZR m / IZR d)).
    { rewrite <- (sqrt_square 1.5) by lra. rewrite <- sqrt_mult_alt by lra. apply sqrt_le_1_alt. unfold Rdiv. rewrite Rmult_assoc. apply Rmult_le_compat_r; [apply Rmult_le_pos; lra|]. apply abs_bounds in B. lra. }
    assert (C3 : Rabs b * sqrt (s * IZR m / IZR d) <= eps * (1.5 * sqrt (IZR m / IZR d))) by (apply Rmult_le_compat; auto using sqrt_pos).
    assert (C4 : b * b <= eps ^ 2) by (cbn [pow]; apply abs_bounds in M; nra). assert (C5 : 0 <= b * b) by apply Rle_0_sqr.
    assert (C6 : b * b * IZR m <= eps ^ 2 * IZR m) by (apply Rmult_le_compat_r; lra).
    pose proof (sqrt_pos (2 * (1 + 14 * eps) / IZR d)). pose proof (sqrt_pos (s * IZR m / IZR d)) as SP.
    assert (0 <= Rabs b * sqrt (s * IZR m / IZR d)) by (now apply Rmult_le_pos). assert (0 <= b * b * IZR m) by (apply Rmult_le_pos; lra). split; lra.
  Qed.
End UniformMoments.

Section UniformNorm.
  Context {K X T : Type}.
  Variables (cast : X -> T) (toR : T -> R) (env : dense_env K X T) (sched : schedule T).
  Variables (nr nc : Z) (D : dense_dist) (seed : rng_state K).
  Hypothesis Hs : valid_schedule sched.
  Hypothesis HD : mk_dense_dist nr nc Uniform Long = Ok D.
  Hypothesis HF : dense_fits env D seed.
  Notation L := (g_len (env_unif env)).
  Variables (dflt : list X).
  Hypothesis Hd : zlen dflt = L.
  Variables (W : Z) (tr : Z -> X) (eps : R).
  Hypothesis HW : (0 < W)%Z.
  Hypothesis He : 0 < eps <= / IZR (2 ^ 20).
  Hypothesis HeW : / IZR (2 ^ W) <= eps.
  Hypothesis Hv : forall w, (0 <= w < 2 ^ W)%Z -> Rabs (toR (env_scal3 env (cast (tr w))) - sqrt 3 * ideal W w) <= eps.
  Lemma uniform_geometry :
    geometry_kept (tapes (Z.to_nat (dense_blocks D L)) (map (map tr) (tapes (Z.to_nat L) (range 0 (2 ^ W))))) (dense_iso2 D)
      (dense_drawn cast toR env sched nr nc D seed dflt) (Z.min nr nc) (Z.max nr nc) (uniform_spread eps (Z.min nr nc) (Z.max nr nc)).
  Proof.
    destruct (mk_dense_dist_inv _ _ _ _ _ HD) as (P1 & P2 & _).
    pose proof (U_Q1 W HW _ eps He HeW Hv) as Q1. pose proof (U_Q2 W HW _ eps He HeW Hv) as Q2.
    pose proof (slack_bound W HW _ eps He HeW Hv (Z.min nr nc) (Z.max nr nc) ltac:(lia) ltac:(lia)) as SB.
    pose proof (words_nonempty W HW) as NW. clear Hv. revert NW Q1 Q2 SB. generalize (range 0 (2 ^ W)) as words. intros words NW Q1 Q2 SB.
    apply embed_geometry.
    - intros t. apply sketch_of_linear.
    - intros x y. eapply Rle_trans; [apply (dense_inner_products cast toR env sched nr nc Uniform D seed Hs HD HF dflt Hd tr words 0%Z NW (1 + 14 * eps) Q1 Q2)|].
      apply Rmult_le_compat_r; [apply Rmult_le_pos; apply dot_nonneg|]. change (uniform_spread eps (Z.min nr nc) (Z.max nr nc)) with (uniform_error eps (Z.min nr nc) (Z.max nr nc) ^ 2).
      apply pow_incr. exact SB.
    - unfold dense_iso2. assert (EI : dd_iso_inv2 D = Z.min nr nc).
      { unfold mk_dense_dist in HD. destruct (nr >? 0)%Z; [|discriminate]. destruct (nc >? 0)%Z; [|discriminate]. injection HD as <-. reflexivity. }
      rewrite EI. apply Rlt_le, Rinv_0_lt_compat, IZR_lt. lia.
  Qed.
End UniformNorm.
