(** C64: Gaussian entries are made by the Box-Muller transform; what they are distributed like
    when all sequences of random words are equally likely, in exact and in IEEE arithmetic.

    Definitions read by these statements: BoxSpec.v ([box_muller], [angle], [radius2], [pairs],
    [libm_accurate]); IsoSpec.v, StatSpec.v ([tapes], [average], [delta], [dense_sampled],
    [with_blocks], [long_gram], [dense_iso2]). *)
From Coq Require Import ZArith Reals Lra Psatz Lia List.
From Flocq Require Import Core BinarySingleNaN.
From Verif Require Import Base Spec Interleave RngModel DenseModel DenseSpec DenseProofs DenseProofs2 DenseProofs3 SparseSkopModel FloatModel FloatProofs FloatProofs2 PropsFloat
  IsoSpec IsoProofs StatSpec DenseFloatModel DenseIsoProofs2 BoxModel BoxSpec BoxProofs BoxProofs2 BoxProofs4 BoxFloatProofs BoxLibm BoxProofs5.
Import ListNotations.
Local Open Scope R_scope.

(** boxmulall never leaves its arrays, for blocks of any length: values 2i and 2i+1 are the
    two results for words 2i and 2i+1.  The last value of a block of odd length is
    uninitialised memory. *)
Theorem C64_pairs_of_words :
  forall {W F} (bm : W -> W -> F * F) (junk : F) (ri : list W),
    exists ro, boxmulall bm junk ri = Ok ro /\ zlen ro = zlen ri /\
      (forall i, (0 <= i)%Z -> (2 * i + 1 < zlen ri)%Z ->
         exists u0 u1, get ri (2 * i) = Some u0 /\ get ri (2 * i + 1) = Some u1 /\
           get ro (2 * i) = Some (fst (bm u0 u1)) /\ get ro (2 * i + 1) = Some (snd (bm u0 u1))) /\
      (Z.even (zlen ri) = false -> get ro (zlen ri - 1) = Some junk).
Proof. intros. apply block_pairs. Qed.
Print Assumptions C64_pairs_of_words.
(** The block of Gaussian values of a (counter, key) pair is made of the block of words of the
    same pair. *)
Theorem C64_same_counter_and_key :
  forall {K W F} (bm : W -> W -> F * F) (junk : F) (g : generator K W) (c : Z) (k : K),
    let words := g_fun g c k in let values := g_fun (boxmul_gen bm junk g) c k in
    zlen values = zlen words /\
    forall i, (0 <= i)%Z -> (2 * i + 1 < zlen words)%Z ->
      exists u0 u1, get words (2 * i) = Some u0 /\ get words (2 * i + 1) = Some u1 /\
        get values (2 * i) = Some (fst (bm u0 u1)) /\ get values (2 * i + 1) = Some (snd (bm u0 u1)).
Proof.
  intros K W F bm junk g c k words values. destruct (C64_pairs_of_words bm junk words) as (ro & E & L & G & _).
  assert (V : values = ro) by (unfold values; cbn [boxmul_gen g_fun]; unfold boxmul_block; fold words; now rewrite E). rewrite V. auto.
Qed.
Print Assumptions C64_same_counter_and_key.

(** In exact arithmetic the two values made of two uniform W-bit words have mean 0, are
    uncorrelated, and have the same variance v, between 1 - 2^-(W+1) and 1. *)
Theorem C64_box_muller_moments :
  forall W, (2 <= W)%Z -> exists v, 1 - / IZR (2 ^ (W + 1)) <= v <= 1 /\
    let mean f := average (pairs (range 0 (2 ^ W))) (fun u => f (fst (box_muller W (fst u) (snd u))) (snd (box_muller W (fst u) (snd u)))) in
    mean (fun x y => x) = 0 /\ mean (fun x y => y) = 0 /\ mean (fun x y => x * y) = 0 /\
    mean (fun x y => x * x) = v /\ mean (fun x y => y * y) = v.
Proof.
  intros W HW. exists (variance W). split; [now apply variance_bounds|]. intros mean.
  assert (Z : forall x v, Rabs (x - v) <= 3 * 0 -> x = v) by (intros x v H; apply Rabs_le_inv in H; lra).
  assert (Z0 : forall x, Rabs x <= 3 * 0 -> x = 0) by (intros x H; apply Z; now rewrite Rminus_0_r).
  assert (SQ : forall u, (0 <= u < 2 ^ W)%Z -> sqrt (radius2 W u) * sqrt (radius2 W u) = radius2 W u) by (intros u Hu; apply sqrt_sqrt, radius2_nonneg; [lia|exact Hu]).
  assert (G : forall x y r2 : R, x = y -> Rabs (x - y) <= 0 * (1 + r2)) by (intros x y r2 ->; rewrite Rminus_diag_eq, Rabs_R0 by reflexivity; lra).
  unfold mean. repeat split; [apply Z0|apply Z0|apply Z0|apply Z|apply Z].
  - apply (mean_x W HW (box_muller W) (fun u => sqrt (radius2 W u)) 0); [|lra]. intros u0 u1 _ _. now apply G.
  - apply (mean_y W HW (box_muller W) (fun u => sqrt (radius2 W u)) 0); [|lra]. intros u0 u1 _ _. now apply G.
  - apply (mean_xy W HW (box_muller W) 0); [|lra]. intros u0 u1 _ H1. apply G. unfold box_muller. cbn [fst snd]. rewrite <- (SQ u1 H1) at 3. ring.
  - apply (mean_xx W HW (box_muller W) 0); [|lra]. intros u0 u1 _ H1. apply G. unfold box_muller. cbn [fst snd]. rewrite <- (SQ u1 H1) at 3. ring.
  - apply (mean_yy W HW (box_muller W) 0); [|lra]. intros u0 u1 _ H1. apply G. unfold box_muller. cbn [fst snd]. rewrite <- (SQ u1 H1) at 3. ring.
Qed.
Print Assumptions C64_box_muller_moments.

(** Exact arithmetic: scaled by isometry_scale, a Gaussian operator (major axis Long) is in
    expectation an isometry up to the factor v of the moments above. *)
Theorem C64_gaussian_exact :
  forall W, (2 <= W)%Z -> exists v, 1 - / IZR (2 ^ (W + 1)) <= v <= 1 /\
  forall {K} (env : dense_env K R R) sched n_rows n_cols D (seed : rng_state K) (dflt : list R) junk,
    valid_schedule sched -> mk_dense_dist n_rows n_cols Gaussian Long = Ok D -> dense_fits env D seed ->
    let L := g_len (env_gauss env) in
    Z.even L = true -> zlen dflt = L ->
    forall a b, (0 <= a < Z.max n_rows n_cols)%Z -> (0 <= b < Z.max n_rows n_cols)%Z ->
      average (tapes (Z.to_nat (dense_blocks D L)) (map (boxmul_block (box_muller W) junk) (tapes (Z.to_nat L) (range 0 (2 ^ W)))))
        (fun t => dense_iso2 D * long_gram D (dense_sampled (fun x => x) (fun x => x) (with_blocks env seed dflt t) sched D seed) a b)
      = v * delta a b.
Proof.
  intros W HW. exists (variance W). split; [now apply variance_bounds|]. intros K env sched nr nc D seed dflt junk Hs HD HF L Ev Hd a b Ha Hb.
  assert (SQ : forall u, (0 <= u < 2 ^ W)%Z -> sqrt (radius2 W u) * sqrt (radius2 W u) = radius2 W u) by (intros u Hu; apply sqrt_sqrt, radius2_nonneg; [lia|exact Hu]).
  assert (G : forall x y r2 : R, x = y -> Rabs (x - y) <= 0 * (1 + r2)) by (intros x y r2 ->; rewrite Rminus_diag_eq, Rabs_R0 by reflexivity; lra).
  pose proof (gauss_gram_near (fun x => x) (fun x => x) env sched nr nc D seed Hs HD HF Ev dflt junk Hd W HW (box_muller W) (fun u => sqrt (radius2 W u)) 0) as N.
  assert (X : forall x v : R, Rabs (x - v) <= 3 * 0 -> x = v) by (intros x v H; apply Rabs_le_inv in H; lra).
  apply X. apply N; try assumption; try lra; intros u0 u1 H0 H1; apply G; unfold rbm, box_muller; cbn [fst snd]; try reflexivity; rewrite <- (SQ u1 H1) at 3; ring.
Qed.
Print Assumptions C64_gaussian_exact.

(** Bit-exact, T = float, 32-bit words: uneg11, u01, the product by pi, sqrt and all products
    are IEEE operations as in the code; of sincosf and logf only an accuracy eps is assumed.
    The scaled operator is an isometry in expectation up to 2^-16 + 15 eps. *)
Theorem C64_gaussian_float_nearly_isometry :
  forall {K} (env : dense_env K b32 b32) sched n_rows n_cols D (seed : rng_state K) (dflt : list b32) junk sincosf logf eps,
    valid_schedule sched -> mk_dense_dist n_rows n_cols Gaussian Long = Ok D -> dense_fits env D seed ->
    libm_accurate sincosf logf eps -> 0 <= eps <= / 4096 ->
    let L := g_len (env_gauss env) in
    Z.even L = true -> zlen dflt = L ->
    forall a b, (0 <= a < Z.max n_rows n_cols)%Z -> (0 <= b < Z.max n_rows n_cols)%Z ->
      Rabs (average (tapes (Z.to_nat (dense_blocks D L)) (map (boxmul_block (boxmuller_32 sincosf logf) junk) (tapes (Z.to_nat L) (range 0 (2 ^ 32)))))
        (fun t => dense_iso2 D * long_gram D (dense_sampled (fun x => x) B2R (with_blocks env seed dflt t) sched D seed) a b) - delta a b)
      <= / IZR (2 ^ 16) + 15 * eps.
Proof.
  intros K env sched nr nc D seed dflt junk sincosf logf eps Hs HD HF Hl He L Ev Hd a b Ha Hb.
  set (cc := 79 * bpow radix2 (- 24) + 5 * eps). assert (C3 : 0 <= cc <= / 3) by (unfold cc; cbn; lra).
  pose proof (gauss_gram_near (fun x => x) B2R env sched nr nc D seed Hs HD HF Ev dflt junk Hd 32 ltac:(lia) (boxmuller_32 sincosf logf) (rho32 logf) cc) as N.
  pose proof (close32 sincosf logf eps Hl He) as Q.
  specialize (N (fun u0 u1 H0 H1 => proj1 (proj1 (proj2 (Q u0 u1 H0 H1)))) (fun u0 u1 H0 H1 => proj2 (proj1 (proj2 (Q u0 u1 H0 H1))))
    (fun u0 u1 H0 H1 => proj1 (proj2 (proj2 (Q u0 u1 H0 H1)))) (fun u0 u1 H0 H1 => proj1 (proj2 (proj2 (proj2 (Q u0 u1 H0 H1)))))
    (fun u0 u1 H0 H1 => proj2 (proj2 (proj2 (proj2 (Q u0 u1 H0 H1))))) C3 a b Ha Hb).
  fold L in N. set (m := average _ _) in *. clearbody m. clear Q.
  pose proof (variance_bounds 32 ltac:(lia)) as V. apply Rabs_le_inv in N. apply Rabs_le. unfold cc in N. unfold delta in *.
  assert (N24 : bpow radix2 (- 24) = / 16777216) by reflexivity. assert (N33 : / IZR (2 ^ (32 + 1)) = / 8589934592) by reflexivity. assert (N16 : / IZR (2 ^ 16) = / 65536) by reflexivity.
  rewrite N24 in N. rewrite N33 in V. rewrite N16. destruct (a =? b)%Z; lra.
Qed.
Print Assumptions C64_gaussian_float_nearly_isometry.

(** The same with T = double and 32-bit words (the float values are widened) ... *)
Theorem C64_gaussian_double_nearly_isometry :
  forall {K} (env : dense_env K b32 b64) sched n_rows n_cols D (seed : rng_state K) (dflt : list b32) junk sincosf logf eps,
    valid_schedule sched -> mk_dense_dist n_rows n_cols Gaussian Long = Ok D -> dense_fits env D seed ->
    libm_accurate sincosf logf eps -> 0 <= eps <= / 4096 ->
    let L := g_len (env_gauss env) in
    Z.even L = true -> zlen dflt = L ->
    forall a b, (0 <= a < Z.max n_rows n_cols)%Z -> (0 <= b < Z.max n_rows n_cols)%Z ->
      Rabs (average (tapes (Z.to_nat (dense_blocks D L)) (map (boxmul_block (boxmuller_32 sincosf logf) junk) (tapes (Z.to_nat L) (range 0 (2 ^ 32)))))
        (fun t => dense_iso2 D * long_gram D (dense_sampled to64 B2R (with_blocks env seed dflt t) sched D seed) a b) - delta a b)
      <= / IZR (2 ^ 16) + 15 * eps.
Proof.
  intros K env sched nr nc D seed dflt junk sincosf logf eps Hs HD HF Hl He L Ev Hd a b Ha Hb.
  set (cc := 79 * bpow radix2 (- 24) + 5 * eps). assert (C3 : 0 <= cc <= / 3) by (unfold cc; cbn; lra).
  pose proof (gauss_gram_near to64 B2R env sched nr nc D seed Hs HD HF Ev dflt junk Hd 32 ltac:(lia) (boxmuller_32 sincosf logf) (rho32 logf) cc) as N.
  pose proof (close32 sincosf logf eps Hl He) as Q.
  assert (Wd : forall u0 u1, (0 <= u0 < 2 ^ 32)%Z -> (0 <= u1 < 2 ^ 32)%Z ->
    rbm to64 B2R (boxmuller_32 sincosf logf) u0 u1 = (B2R (fst (boxmuller_32 sincosf logf u0 u1)), B2R (snd (boxmuller_32 sincosf logf u0 u1)))).
  { intros u0 u1 H0 H1. destruct (Q u0 u1 H0 H1) as ([F1 F2] & _). unfold rbm. rewrite (proj1 (to64_ok _ F1)), (proj1 (to64_ok _ F2)). reflexivity. }
  assert (N' : Rabs (average (tapes (Z.to_nat (dense_blocks D L)) (map (boxmul_block (boxmuller_32 sincosf logf) junk) (tapes (Z.to_nat L) (range 0 (2 ^ 32)))))
        (fun t => dense_iso2 D * long_gram D (dense_sampled to64 B2R (with_blocks env seed dflt t) sched D seed) a b) - variance 32 * delta a b) <= 3 * cc).
  { apply N; try assumption; intros u0 u1 H0 H1; rewrite (Wd u0 u1 H0 H1); cbn [fst snd]; destruct (Q u0 u1 H0 H1) as (_ & (A & B) & X & Y & XY); assumption. }
  clear N. rename N' into N. set (m := average _ _) in *. clearbody m. clear Q.
  pose proof (variance_bounds 32 ltac:(lia)) as V. apply Rabs_le_inv in N. apply Rabs_le. unfold cc in N. unfold delta in *.
  assert (N24 : bpow radix2 (- 24) = / 16777216) by reflexivity. assert (N33 : / IZR (2 ^ (32 + 1)) = / 8589934592) by reflexivity. assert (N16 : / IZR (2 ^ 16) = / 65536) by reflexivity.
  rewrite N24 in N. rewrite N33 in V. rewrite N16. destruct (a =? b)%Z; lra.
Qed.
Print Assumptions C64_gaussian_double_nearly_isometry.

(** ... and with T = double and 64-bit words. *)
Theorem C64_gaussian_wide_words_nearly_isometry :
  forall {K} (env : dense_env K b64 b64) sched n_rows n_cols D (seed : rng_state K) (dflt : list b64) junk sincos log eps,
    valid_schedule sched -> mk_dense_dist n_rows n_cols Gaussian Long = Ok D -> dense_fits env D seed ->
    libm_accurate sincos log eps -> 0 <= eps <= / 4096 ->
    let L := g_len (env_gauss env) in
    Z.even L = true -> zlen dflt = L ->
    forall a b, (0 <= a < Z.max n_rows n_cols)%Z -> (0 <= b < Z.max n_rows n_cols)%Z ->
      Rabs (average (tapes (Z.to_nat (dense_blocks D L)) (map (boxmul_block (boxmuller_64 sincos log) junk) (tapes (Z.to_nat L) (range 0 (2 ^ 64)))))
        (fun t => dense_iso2 D * long_gram D (dense_sampled (fun x => x) B2R (with_blocks env seed dflt t) sched D seed) a b) - delta a b)
      <= / IZR (2 ^ 45) + 15 * eps.
Proof.
  intros K env sched nr nc D seed dflt junk sincos log eps Hs HD HF Hl He L Ev Hd a b Ha Hb.
  set (cc := 79 * bpow radix2 (- 53) + 5 * eps). assert (C3 : 0 <= cc <= / 3) by (unfold cc; cbn; lra).
  pose proof (gauss_gram_near (fun x => x) B2R env sched nr nc D seed Hs HD HF Ev dflt junk Hd 64 ltac:(lia) (boxmuller_64 sincos log) (rho64 log) cc) as N.
  pose proof (close64 sincos log eps Hl He) as Q.
  specialize (N (fun u0 u1 H0 H1 => proj1 (proj1 (proj2 (Q u0 u1 H0 H1)))) (fun u0 u1 H0 H1 => proj2 (proj1 (proj2 (Q u0 u1 H0 H1))))
    (fun u0 u1 H0 H1 => proj1 (proj2 (proj2 (Q u0 u1 H0 H1)))) (fun u0 u1 H0 H1 => proj1 (proj2 (proj2 (proj2 (Q u0 u1 H0 H1)))))
    (fun u0 u1 H0 H1 => proj2 (proj2 (proj2 (proj2 (Q u0 u1 H0 H1))))) C3 a b Ha Hb).
  fold L in N. set (m := average _ _) in *. clearbody m. clear Q.
  pose proof (variance_bounds 64 ltac:(lia)) as V. apply Rabs_le_inv in N. apply Rabs_le. unfold cc in N. unfold delta in *.
  assert (N53 : bpow radix2 (- 53) = / 9007199254740992) by reflexivity. assert (N65 : / IZR (2 ^ (64 + 1)) = / 36893488147419103232) by reflexivity. assert (N45 : / IZR (2 ^ 45) = / 35184372088832) by reflexivity.
  rewrite N53 in N. rewrite N65 in V. rewrite N45. destruct (a =? b)%Z; lra.
Qed.
Print Assumptions C64_gaussian_wide_words_nearly_isometry.

(** Whatever words the generator returns, every entry of every window of a Gaussian operator
    is a finite number of magnitude at most 7 (32-bit words) ... *)
Theorem C64_gaussian_entries_finite_float :
  forall {K} (env : dense_env K b32 b32) (g : generator K Z) sched lay D n_rows n_cols ro co (buff : list b32) (seed : rng_state K) junk sincosf logf eps,
    valid_schedule sched -> wf_env env -> valid_dist D -> size_ok D (g_len (env_gauss env)) -> dd_family D = Gaussian ->
    env_gauss env = boxmul_gen (boxmuller_32 sincosf logf) junk g ->
    wf_generator g -> Z.even (g_len g) = true -> (forall c k w, In w (g_fun g c k) -> (0 <= w < 2 ^ 32)%Z) ->
    libm_accurate sincosf logf eps -> 0 <= eps <= / 4096 ->
    (1 <= n_rows)%Z -> (1 <= n_cols)%Z -> (0 <= ro)%Z -> (0 <= co)%Z -> (ro + n_rows <= dd_rows D)%Z -> (co + n_cols <= dd_cols D)%Z -> (n_rows * n_cols <= zlen buff)%Z ->
    exists buff' st, fill_dense_unpacked (fun x => x) env sched lay D n_rows n_cols ro co buff seed = Ok (buff', st) /\
      forall i j, (0 <= i < n_rows)%Z -> (0 <= j < n_cols)%Z ->
        exists x, mat lay (min_ld lay n_rows n_cols) 0 buff' i j = Some x /\ is_finite x = true /\ -7 <= B2R x <= 7.
Proof.
  intros K env g sched lay D nr nc ro co buff seed junk sincosf logf eps Hs Hwf HD Hsz HG HE Hg Ev Hw Hl He H1 H2 H3 H4 H5 H6 Hb.
  apply (window_entries (fun x => x) env sched lay D nr nc ro co buff seed (fun x => is_finite x = true /\ -7 <= B2R x <= 7)); auto.
  intros c x Hx. rewrite HE in Hx. cbn [boxmul_gen g_fun] in Hx. apply block_lane in Hx as (l & u0 & u1 & I0 & I1 & ->).
  - apply (finite32 sincosf logf eps); eauto.
  - rewrite (wf_fun _ Hg). exact Ev.
Qed.
Print Assumptions C64_gaussian_entries_finite_float.

(** ... and at most 10 (64-bit words). *)
Theorem C64_gaussian_entries_finite_double :
  forall {K} (env : dense_env K b64 b64) (g : generator K Z) sched lay D n_rows n_cols ro co (buff : list b64) (seed : rng_state K) junk sincos log eps,
    valid_schedule sched -> wf_env env -> valid_dist D -> size_ok D (g_len (env_gauss env)) -> dd_family D = Gaussian ->
    env_gauss env = boxmul_gen (boxmuller_64 sincos log) junk g ->
    wf_generator g -> Z.even (g_len g) = true -> (forall c k w, In w (g_fun g c k) -> (0 <= w < 2 ^ 64)%Z) ->
    libm_accurate sincos log eps -> 0 <= eps <= / 4096 ->
    (1 <= n_rows)%Z -> (1 <= n_cols)%Z -> (0 <= ro)%Z -> (0 <= co)%Z -> (ro + n_rows <= dd_rows D)%Z -> (co + n_cols <= dd_cols D)%Z -> (n_rows * n_cols <= zlen buff)%Z ->
    exists buff' st, fill_dense_unpacked (fun x => x) env sched lay D n_rows n_cols ro co buff seed = Ok (buff', st) /\
      forall i j, (0 <= i < n_rows)%Z -> (0 <= j < n_cols)%Z ->
        exists x, mat lay (min_ld lay n_rows n_cols) 0 buff' i j = Some x /\ is_finite x = true /\ -10 <= B2R x <= 10.
Proof.
  intros K env g sched lay D nr nc ro co buff seed junk sincos log eps Hs Hwf HD Hsz HG HE Hg Ev Hw Hl He H1 H2 H3 H4 H5 H6 Hb.
  apply (window_entries (fun x => x) env sched lay D nr nc ro co buff seed (fun x => is_finite x = true /\ -10 <= B2R x <= 10)); auto.
  intros c x Hx. rewrite HE in Hx. cbn [boxmul_gen g_fun] in Hx. apply block_lane in Hx as (l & u0 & u1 & I0 & I1 & ->).
  - apply (finite64 sincos log eps); eauto.
  - rewrite (wf_fun _ Hg). exact Ev.
Qed.
Print Assumptions C64_gaussian_entries_finite_double.

(** The transform itself, float and double: close to the exact one for every pair of words.
    (Squares and product of the two values; the values themselves are C64_..._finite.) *)
Theorem C64_box_muller_float_accurate :
  forall sincosf logf eps u0 u1, libm_accurate sincosf logf eps -> 0 <= eps <= / 4096 ->
    (0 <= u0 < 2 ^ 32)%Z -> (0 <= u1 < 2 ^ 32)%Z ->
    let '(x, y) := boxmuller_32 sincosf logf u0 u1 in
    let '(X, Y) := box_muller 32 u0 u1 in
    let bound := (/ IZR (2 ^ 17) + 5 * eps) * (1 + radius2 32 u1) in
    Rabs (B2R x * B2R x - X * X) <= bound /\ Rabs (B2R y * B2R y - Y * Y) <= bound /\ Rabs (B2R x * B2R y - X * Y) <= bound.
Proof.
  intros sincosf logf eps u0 u1 Hl He H0 H1. pose proof (close32 sincosf logf eps Hl He u0 u1 H0 H1) as (_ & _ & A & B & C).
  destruct (boxmuller_32 sincosf logf u0 u1) as [x y]. unfold box_muller. cbn [fst snd] in *.
  pose proof (radius2_nonneg 32 ltac:(lia) u1 H1) as R0. pose proof (sqrt_sqrt _ R0) as Q. set (r := sqrt (radius2 32 u1)) in *.
  assert (M : forall s c, s * r * (c * r) = s * c * radius2 32 u1) by (intros; rewrite <- Q; ring). rewrite !M.
  assert (LE : (79 * bpow radix2 (- 24) + 5 * eps) * (1 + radius2 32 u1) <= (/ IZR (2 ^ 17) + 5 * eps) * (1 + radius2 32 u1)).
  { apply Rmult_le_compat_r; [lra|]. cbn. lra. }
  repeat split; (eapply Rle_trans; [eassumption|exact LE]).
Qed.
Print Assumptions C64_box_muller_float_accurate.

(** Concrete cases: accurate library functions exist for both formats; a 2 x 3 Gaussian
    operator on a generator with two-word blocks; the pi literals. *)
Example C64_libm_exists :
  libm_accurate (near_sincos 24 128) (near_log 24 128) (/ 4096) /\ libm_accurate (near_sincos 53 1024) (near_log 53 1024) (/ 4096).
Proof. split; apply accurate; lia. Qed.
Definition G23 : dense_dist :=
  match mk_dense_dist 2 3 Gaussian Long with Ok D => D | _ => {| dd_rows := 0; dd_cols := 0; dd_axis := Long; dd_iso_inv2 := 0; dd_minor := 0; dd_major := 0; dd_family := Gaussian; dd_layout := RowMajor |} end.
Definition g_words : generator unit Z := mk_generator unit Z 2 64 (fun c _ => [c mod 2 ^ 32; 12345]%Z).
Definition env_gauss32 : dense_env unit b32 b32 :=
  let g := boxmul_gen (boxmuller_32 (near_sincos 24 128) (near_log 24 128)) (of_Z32 0) g_words in
  {| env_gauss := g; env_unif := g; env_scal3 := scal3_32; env_junk := of_Z32 0 |}.
Lemma g_words_wf : wf_generator g_words.
Proof. split; cbn; [lia|lia|reflexivity]. Qed.
Example C64_case :
  mk_dense_dist 2 3 Gaussian Long = Ok G23 /\ dense_fits env_gauss32 G23 (mk_state 7 tt) /\ Z.even (g_len (env_gauss env_gauss32)) = true /\
  (forall c k w, In w (g_fun g_words c k) -> (0 <= w < 2 ^ 32)%Z) /\
  boxmulall (fun a b => (a + b, a - b)%Z) 0%Z [5; 3; 10; 4; 9]%Z = Ok [8; 2; 14; 6; 0]%Z /\
  (forall l, B2SF (fst (boxmuller_32 (fun x => (x, of_Z32 1)) (fun _ => of_Z32 (-2)) 0 l)) = SpecFloat.S754_finite false 13176795 (-53)).
Proof.
  split; [reflexivity|]. split.
  { split; [split; apply boxmul_gen_wf, g_words_wf|]. repeat split; cbn; lia. }
  split; [reflexivity|]. split; [|split; [reflexivity|intros l; vm_compute; reflexivity]].
  intros c k w [<-|[<-|[]]]; [apply Z.mod_pos_bound; lia|lia].
Qed.
