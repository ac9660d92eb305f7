(** From single vectors to point sets and subspaces: the union bound, and a grid as a net
    (used by PropsTail.v). *)
From Coq Require Import ZArith Reals Lra Psatz.
From Flocq Require Import Core.
From Verif Require Import Base Spec IsoSpec IsoProofs PropsIso StatSpec StatProofs NormSpec NormProofs NormProofs3 NormProofs4 TailSpec.
Local Open Scope R_scope.

Lemma in_tapes {A} (U : list A) l : (forall x, In x l -> In x U) -> In l (tapes (length l) U).
Proof.
  induction l as [|x l IH]; intros H; [now left|]. cbn [length tapes]. apply in_flat_map. exists x. split; [apply H; now left|]. apply in_map, IH. intros y Hy. apply H. now right.
Qed.
Lemma nth_zseq lo n k : (k < n)%nat -> nth k (zseq lo n) 0%Z = (lo + Z.of_nat k)%Z.
Proof. revert lo k. induction n as [|n IH]; intros lo [|k] H; cbn [zseq nth]; try lia. rewrite IH by lia. lia. Qed.
Lemma union_bound {T X} (ts : list T) (P : X -> T -> bool) xs b : (forall x, In x xs -> probability ts (P x) <= b) ->
  probability ts (fun t => existsb (fun x => P x t) xs) <= INR (length xs) * b.
Proof.
  induction xs as [|x xs IH]; intros H.
  - cbn [existsb length]. unfold probability, average, indicator. rewrite Rsum_const. cbn [INR]. rewrite Rmult_0_r. unfold Rdiv. lra.
  - cbn [existsb length]. rewrite S_INR. specialize (IH (fun y Hy => H y (or_intror Hy))). pose proof (H x (or_introl eq_refl)) as Hx.
    apply (Rle_trans _ (probability ts (P x) + probability ts (fun t => existsb (fun x => P x t) xs))); [|lra].
    unfold probability, average. rewrite <- Rdiv_plus_distr, <- Rsum_plus. apply Rmult_le_compat_r.
    + destruct ts as [|t ts]; [cbn; rewrite Rinv_0; lra|]. apply Rlt_le, Rinv_0_lt_compat, lt_0_INR. cbn. lia.
    + apply Rsum_le. intros t _. unfold indicator. destruct (P x t), (existsb (fun x => P x t) xs); cbn; lra.
Qed.

(** ** Quadratic forms on a grid *)
Section Net.
  Variable q : Z.
  Hypothesis Hq : (0 < q)%Z.
  Variable g : Z -> Z -> R.
  Hypothesis Hg : forall a b, g a b = g b a.
  Definition bil (u w : Z -> R) : R := Rsum (map (fun a => Rsum (map (fun b => u a * w b * g a b) (range 0 q))) (range 0 q)).
  Notation nrm z := (dot q z z).
  Definition hgrid : Z := (4 * Z.sqrt_up q)%Z.
  Definition vec (l : list Z) (i : Z) : R := IZR (nth (Z.to_nat i) l 0%Z) / IZR hgrid.
  Definition net : list (list Z) := tapes (Z.to_nat q) (range (- hgrid) (hgrid + 1)).
  Lemma hgrid_pos : (0 < hgrid)%Z. Proof using Hq. clear - Hq. unfold hgrid. pose proof (Z.sqrt_up_pos q). lia. Qed.
  Lemma net_length : INR (length net) = IZR (net_size q).
  Proof using Hq.
    clear - Hq. unfold net. rewrite tapes_length. rewrite INR_IZR_INZ. f_equal. rewrite Nat2Z.inj_pow. pose proof hgrid_pos as H. fold (zlen (range (- hgrid) (hgrid + 1))).
    rewrite zlen_range, Z2Nat.id by lia. unfold net_size, hgrid. f_equal. lia.
  Qed.
  Lemma bil_sym u w : bil u w = bil w u.
  Proof. unfold bil. rewrite Rsum_swap. apply Rsum_ext. intros b _. apply Rsum_ext. intros a _. rewrite (Hg a b). ring. Qed.
  Lemma bil_plus u u' w : bil (fun i => u i + u' i) w = bil u w + bil u' w.
  Proof. unfold bil. rewrite <- Rsum_plus. apply Rsum_ext. intros a _. rewrite <- Rsum_plus. apply Rsum_ext. intros b _. ring. Qed.
  Lemma bil_scal c u w : bil (fun i => c * u i) w = c * bil u w.
  Proof. unfold bil. rewrite <- Rsum_scal. apply Rsum_ext. intros a _. rewrite <- Rsum_scal. apply Rsum_ext. intros b _. ring. Qed.
  Lemma bil_ext u u' w w' : (forall i, (0 <= i < q)%Z -> u i = u' i) -> (forall i, (0 <= i < q)%Z -> w i = w' i) -> bil u w = bil u' w'.
  Proof. intros A B. unfold bil. apply Rsum_ext. intros a Ha. apply in_range in Ha. apply Rsum_ext. intros b Hb. apply in_range in Hb. now rewrite A, B. Qed.
  Lemma quad_plus u w : bil (fun i => u i + w i) (fun i => u i + w i) = bil u u + 2 * bil u w + bil w w.
  Proof. rewrite bil_plus, !(bil_sym _ (fun i => u i + w i)), !bil_plus, (bil_sym w u). ring. Qed.
  Lemma quad_scal c u : bil (fun i => c * u i) (fun i => c * u i) = c * c * bil u u.
  Proof. rewrite bil_scal, bil_sym, bil_scal. ring. Qed.
  Lemma nrm_plus u w : nrm (fun i => u i + w i) = nrm u + 2 * dot q u w + nrm w.
  Proof. unfold dot. rewrite <- Rsum_scal, <- !Rsum_plus. apply Rsum_ext. intros i _. ring. Qed.
  Lemma nrm_scal c u : nrm (fun i => c * u i) = c * c * nrm u.
  Proof. unfold dot. rewrite <- Rsum_scal. apply Rsum_ext. intros i _. ring. Qed.
  Lemma coord z i : (0 <= i < q)%Z -> z i * z i <= nrm z.
  Proof using.
    clear. intros Hi. unfold dot. assert (In i (range 0 q)) as I by (apply in_range; lia). revert I. generalize (range 0 q). clear. induction l as [|x l IH]; intros []; cbn [map Rsum].
    - subst. assert (0 <= Rsum (map (fun i => z i * z i) l)) by (apply Rsum_nonneg; intros; nra). lra.
    - specialize (IH H). nra.
  Qed.
  Definition crude : R := Rsum (map (fun a => Rsum (map (fun b => Rabs (g a b)) (range 0 q))) (range 0 q)).
  Lemma quad_crude z : Rabs (bil z z) <= crude * nrm z.
  Proof.
    unfold bil, crude. eapply Rle_trans; [apply Rsum_abs|]. rewrite Rsum_mul_r. apply Rsum_le. intros a Ha. apply in_range in Ha.
    eapply Rle_trans; [apply Rsum_abs|]. rewrite Rsum_mul_r. apply Rsum_le. intros b Hb. apply in_range in Hb.
    rewrite Rabs_mult, Rmult_comm. apply Rmult_le_compat_l; [apply Rabs_pos|]. pose proof (coord z a Ha). pose proof (coord z b Hb). apply Rabs_le. split; nra.
  Qed.
  Variable e : R.
  Hypothesis He : 0 <= e.
  Hypothesis Hnet : forall l, In l net -> Rabs (bil (vec l) (vec l)) <= e * nrm (vec l).
  Definition snap (z : Z -> R) : list Z := map (fun i => Zfloor (z i * IZR hgrid + / 2)) (range 0 q).
  Lemma snap_near z : nrm z <= 1 -> In (snap z) net /\ nrm (fun i => z i - vec (snap z) i) <= / 64.
  Proof using Hq.
    clear - Hq. intros Hz. pose proof hgrid_pos as Hh. assert (PH : 0 < IZR hgrid) by (apply IZR_lt; exact Hh).
    assert (Zi : forall i, (0 <= i < q)%Z -> -1 <= z i <= 1). { intros i Hi. pose proof (coord z i Hi). split; nra. }
    assert (Fl : forall i, let f := Zfloor (z i * IZR hgrid + / 2) in IZR f <= z i * IZR hgrid + / 2 < IZR f + 1).
    { intros i f. split; [apply Zfloor_lb|apply Zfloor_ub]. }
    split.
    - unfold net. assert (Ls : length (snap z) = Z.to_nat q). { unfold snap. rewrite map_length. pose proof (zlen_range 0 q ltac:(lia)) as E. unfold zlen in E. lia. }
      rewrite <- Ls. apply in_tapes. intros x Hx. unfold snap in Hx. apply in_map_iff in Hx as (i & <- & Hi). apply in_range in Hi. specialize (Zi i Hi). specialize (Fl i). cbv zeta in Fl.
      apply in_range. set (f := Zfloor _) in *. clearbody f. assert (A : z i * IZR hgrid <= IZR hgrid) by nra. assert (B : - IZR hgrid <= z i * IZR hgrid) by nra.
      split.
      + apply Z.lt_succ_r. apply lt_IZR. unfold Z.succ. rewrite plus_IZR, opp_IZR. lra.
      + apply lt_IZR. rewrite plus_IZR. lra.
    - apply (Rle_trans _ (Rsum (map (fun _ => / (2 * IZR hgrid) * / (2 * IZR hgrid)) (range 0 q)))).
      + unfold dot. apply Rsum_le. intros i Hi. apply in_range in Hi. assert (V : vec (snap z) i = IZR (Zfloor (z i * IZR hgrid + / 2)) / IZR hgrid).
        { unfold vec, snap. f_equal. f_equal. rewrite (nth_indep _ 0%Z (Zfloor (z 0%Z * IZR hgrid + / 2))).
          2: { rewrite map_length. pose proof (zlen_range 0 q ltac:(lia)) as E. unfold zlen in E. lia. }
          rewrite (map_nth (fun i => Zfloor (z i * IZR hgrid + / 2))). do 2 f_equal. f_equal. unfold range. rewrite nth_zseq by lia. rewrite Z2Nat.id by lia. now rewrite Z.add_0_l. }
        rewrite V. specialize (Fl i). cbv zeta in Fl. set (f := IZR (Zfloor _)) in *. clearbody f.
        assert (Q : Rabs (z i - f / IZR hgrid) <= / (2 * IZR hgrid)).
        { replace (z i - f / IZR hgrid) with ((z i * IZR hgrid - f) * / IZR hgrid) by (field; lra). rewrite Rabs_mult, (Rabs_pos_eq (/ _)) by (apply Rlt_le, Rinv_0_lt_compat, PH).
          rewrite Rinv_mult. apply Rmult_le_compat_r; [apply Rlt_le, Rinv_0_lt_compat, PH|]. apply Rabs_le. lra. }
        apply abs_bounds in Q. assert (0 < / (2 * IZR hgrid)) by (apply Rinv_0_lt_compat; lra). set (y := / (2 * IZR hgrid)) in *. clearbody y. nra.
      + rewrite Rsum_range_const by lia. pose proof (Z.sqrt_up_spec q ltac:(lia)) as [_ Sq]. apply IZR_le in Sq. rewrite mult_IZR in Sq.
        assert (Ps : 0 < IZR (Z.sqrt_up q)) by (apply IZR_lt; pose proof (Z.sqrt_up_pos q); lia). unfold hgrid. rewrite mult_IZR. set (s := IZR (Z.sqrt_up q)) in *. clearbody s.
        apply (Rmult_le_reg_r (64 * s * s)); [nra|]. replace (IZR q * (/ (2 * (4 * s)) * / (2 * (4 * s))) * (64 * s * s)) with (IZR q) by (field; lra). lra.
  Qed.
  Lemma net_form z : Rabs (bil z z) <= 2 * e * nrm z.
  Proof.
    set (S := fun r => exists z, nrm z <= 1 /\ r = Rabs (bil z z)).
    assert (Cr : 0 <= crude) by (unfold crude; apply Rsum_nonneg; intros a _; apply Rsum_nonneg; intros b _; apply Rabs_pos).
    assert (BS : bound S). { exists crude. intros r (y & Hy & ->). pose proof (quad_crude y). pose proof (dot_nonneg q y). nra. }
    assert (Z0 : nrm (fun _ => 0) = 0). { unfold dot. rewrite (Rsum_ext _ (fun _ => 0)) by (intros; lra). rewrite Rsum_const. lra. }
    assert (ES : exists r, S r). { exists (Rabs (bil (fun _ => 0) (fun _ => 0))), (fun _ => 0). split; [rewrite Z0; lra|reflexivity]. }
    destruct (completeness S BS ES) as (M & HM & LM).
    assert (M0 : 0 <= M). { apply (Rle_trans _ (Rabs (bil (fun _ => 0) (fun _ => 0)))); [apply Rabs_pos|]. apply HM. exists (fun _ => 0). split; [rewrite Z0; lra|reflexivity]. }
    assert (Scaled : forall y, Rabs (bil y y) <= M * nrm y).
    { intros y. pose proof (dot_nonneg q y) as P. destruct (Rle_lt_or_eq_dec _ _ P) as [L|E].
      - set (c := / sqrt (nrm y)). assert (SP : 0 < sqrt (nrm y)) by (now apply sqrt_lt_R0). assert (SS : sqrt (nrm y) * sqrt (nrm y) = nrm y) by (now apply sqrt_sqrt).
        assert (CC : c * c * nrm y = 1) by (unfold c; rewrite <- SS at 3; field; lra).
        assert (H : Rabs (bil (fun i => c * y i) (fun i => c * y i)) <= M). { apply HM. exists (fun i => c * y i). split; [rewrite nrm_scal, CC; lra|reflexivity]. }
        rewrite quad_scal, Rabs_mult, (Rabs_pos_eq (c * c)) in H by nra. apply (Rmult_le_compat_r _ _ _ P) in H. rewrite Rmult_assoc, (Rmult_comm (Rabs _)), <- Rmult_assoc, CC in H. lra.
      - pose proof (quad_crude y) as Q. rewrite <- E in *. lra. }
    assert (Pol : forall u w, Rabs (bil u w) <= M * (nrm u + nrm w) / 2).
    { intros u w. pose proof (Scaled (fun i => u i + w i)) as A. pose proof (Scaled (fun i => u i + -1 * w i)) as B.
      rewrite quad_plus, nrm_plus in A. rewrite (quad_plus u (fun i => -1 * w i)), (nrm_plus u (fun i => -1 * w i)), quad_scal, nrm_scal, (bil_sym u (fun i => -1 * w i)), bil_scal, (bil_sym w u) in B.
      assert (D : dot q u (fun i => -1 * w i) = - dot q u w). { unfold dot. rewrite (Rsum_ext _ (fun i => -1 * (u i * w i))) by (intros; ring). rewrite Rsum_scal. ring. }
      rewrite D in B. apply abs_bounds in A, B. apply Rabs_le. lra. }
    assert (Unit : forall y, nrm y <= 1 -> Rabs (bil y y) <= (81 * e + 19 * M) / 64).
    { intros y Hy. destruct (snap_near y Hy) as [I Nr]. set (p := vec (snap y)) in *. set (r := fun i => y i - p i) in *. specialize (Hnet _ I). fold p in Hnet.
      assert (Np : nrm p <= 81 / 64).
      { assert (E : nrm p = nrm (fun i => y i + -1 * r i)) by (apply dot_ext; intros; unfold r; lra). rewrite E, (nrm_plus y (fun i => -1 * r i)), nrm_scal.
        assert (C : Rabs (dot q y (fun i => -1 * r i)) <= / 8).
        { assert (C1 : Rabs (dot q y (fun i => -1 * r i)) <= (nrm y / 8 + 8 * nrm r) / 2).
          { unfold dot. eapply Rle_trans; [apply Rsum_abs|]. apply (Rle_trans _ (Rsum (map (fun i => / 16 * (y i * y i) + 4 * (r i * r i)) (range 0 q)))).
            - apply Rsum_le. intros i _. generalize (y i) (r i). clear. intros p r. pose proof (Rle_0_sqr (p / 4 - 2 * r)). pose proof (Rle_0_sqr (p / 4 + 2 * r)). unfold Rsqr in *. apply Rabs_le. lra.
            - rewrite Rsum_plus, !Rsum_scal. lra. }
          pose proof (dot_nonneg q y). lra. }
        apply abs_bounds in C. lra. }
      assert (Ey : bil y y = bil p p + 2 * bil p r + bil r r). { rewrite <- quad_plus. apply bil_ext; intros; unfold r; lra. }
      assert (Bpr : Rabs (bil p r) <= 9 / 64 * M).
      { assert (E3 : bil p r = bil (fun i => / 3 * p i) (fun i => 3 * r i)). { rewrite bil_scal, (bil_sym p (fun i => 3 * r i)), bil_scal, (bil_sym r p). field. }
        rewrite E3. eapply Rle_trans; [apply Pol|]. rewrite !nrm_scal. pose proof (dot_nonneg q p). pose proof (dot_nonneg q r). nra. }
      assert (Brr : Rabs (bil r r) <= M / 64). { eapply Rle_trans; [apply Scaled|]. pose proof (dot_nonneg q r). nra. }
      rewrite Ey. apply abs_bounds in Hnet, Bpr, Brr. assert (e * nrm p <= e * (81 / 64)) by (apply Rmult_le_compat_l; assumption). apply Rabs_le. lra. }
    assert (MB : M <= (81 * e + 19 * M) / 64). { apply LM. intros r (y & Hy & ->). now apply Unit. }
    eapply Rle_trans; [apply Scaled|]. apply Rmult_le_compat_r; [apply dot_nonneg|]. lra.
  Qed.
End Net.

(** ** From vectors to sets of vectors *)
Section EmbedWithin.
  Context {T : Type}.
  Variable ts : list T.
  Variable c : R.
  Variable sk : T -> (Z -> R) -> Z -> R.
  Variables d m : Z.
  Hypothesis Lin : forall t, linear m (sk t).
  Definition off (e : R) (x : Z -> R) (t : T) : bool := exceeds (Rabs (c * dot d (sk t x) (sk t x) - dot m x x)) (e * dot m x x).
  Lemma off_false e x t : off e x t = false -> Rabs (c * dot d (sk t x) (sk t x) - dot m x x) <= e * dot m x x.
  Proof. unfold off, exceeds. destruct (Rlt_dec _ _); [discriminate|]. intros _. lra. Qed.
  Lemma same_kept e x x' t : (forall i, (0 <= i < m)%Z -> x' i = x i) ->
    Rabs (c * dot d (sk t x) (sk t x) - dot m x x) <= e * dot m x x -> Rabs (c * dot d (sk t x') (sk t x') - dot m x' x') <= e * dot m x' x'.
  Proof.
    intros H K. rewrite (dot_ext m x' x x' x H H). rewrite (dot_ext d (sk t x') (sk t x) (sk t x') (sk t x)); [exact K| |]; intros; apply (proj2 (Lin t)); assumption.
  Qed.
  Lemma zero_kept e x t : (forall i, (0 <= i < m)%Z -> x i = 0) -> Rabs (c * dot d (sk t x) (sk t x) - dot m x x) <= e * dot m x x.
  Proof.
    intros H. assert (Zs : forall s, sk t x s = 0).
    { intros s. rewrite (proj2 (Lin t) x (combine 0 (fun _ _ => 0) (fun _ => 0)) s) by (intros; rewrite H by assumption; reflexivity). rewrite (proj1 (Lin t)). reflexivity. }
    assert (D0 : dot d (sk t x) (sk t x) = 0). { unfold dot. rewrite (Rsum_ext _ (fun _ => 0)) by (intros; rewrite Zs; lra). rewrite Rsum_const. lra. }
    assert (X0 : dot m x x = 0). { unfold dot. rewrite (Rsum_ext _ (fun _ => 0)) by (intros i Hi; apply in_range in Hi; rewrite H by assumption; lra). rewrite Rsum_const. lra. }
    rewrite D0, X0, Rmult_0_r, Rminus_eq_0, Rabs_R0. lra.
  Qed.
  Variables e delta : R.
  Hypothesis He : 0 <= e.
  Hypothesis LE : lengths_kept_within ts c sk d m e delta.
  Lemma delta_nonneg : 0 <= delta.
  Proof.
    eapply Rle_trans; [|apply (LE (fun _ => 0))]. unfold probability, average. apply Rmult_le_pos; [apply Rsum_nonneg; intros; unfold indicator; destruct (exceeds _ _); lra|].
    destruct ts as [|t0 l]; [cbn; rewrite Rinv_0; lra|]. apply Rlt_le, Rinv_0_lt_compat, lt_0_INR. cbn. lia.
  Qed.
  (** Pairs a < b of [0, n). *)
  Definition below_pairs (n : nat) : list (Z * Z) := flat_map (fun b => map (fun a => (a, Z.of_nat b)) (range 0 (Z.of_nat b))) (seq 0 n).
  Lemma below_length n : (2 * Z.of_nat (length (below_pairs n)) = Z.of_nat n * (Z.of_nat n - 1))%Z.
  Proof.
    induction n as [|n IH]; [reflexivity|]. unfold below_pairs in *. rewrite seq_S, flat_map_app, app_length. cbn [flat_map]. rewrite app_nil_r, map_length. cbn [Nat.add].
    pose proof (zlen_range 0 (Z.of_nat n) ltac:(lia)) as E. unfold zlen in E. nia.
  Qed.
  Lemma in_below n a b : (0 <= a < b)%Z -> (b < Z.of_nat n)%Z -> In (a, b) (below_pairs n).
  Proof. intros Ha Hb. unfold below_pairs. apply in_flat_map. exists (Z.to_nat b). split; [apply in_seq; lia|]. rewrite Z2Nat.id by lia. apply in_map_iff. exists a. split; [reflexivity|]. apply in_range. lia. Qed.
  Lemma embed_distances_within : distances_kept_within ts c sk d m e delta.
  Proof.
    intros N X HN. set (P := fun p : Z * Z => off e (fun i => X (fst p) i - X (snd p) i)). exists (fun t => existsb (fun p => P p t) (below_pairs (Z.to_nat N))). split.
    - eapply Rle_trans; [apply (union_bound ts P (below_pairs (Z.to_nat N)) delta); intros p _; apply LE|].
      right. pose proof (below_length (Z.to_nat N)) as L. rewrite Z2Nat.id in L by exact HN. rewrite INR_IZR_INZ, <- L, mult_IZR. field.
    - intros t Ht Hb.
      assert (K : forall a b, (0 <= a < b)%Z -> (b < N)%Z -> let x i := X a i - X b i in Rabs (c * dot d (sk t x) (sk t x) - dot m x x) <= e * dot m x x).
      { intros a b Ha Hb' x. apply off_false. destruct (off e x t) eqn:E; [|reflexivity]. exfalso. assert (existsb (fun p => P p t) (below_pairs (Z.to_nat N)) = true); [|congruence].
        apply existsb_exists. exists (a, b). split; [apply in_below; lia|exact E]. }
      intros a b Ha Hb' x. destruct (Z.lt_trichotomy a b) as [L|[<-|L]].
      + apply K; lia.
      + apply zero_kept. intros i _. unfold x. lra.
      + specialize (K b a ltac:(lia) ltac:(lia)). cbv zeta in K. set (y := fun i => X b i - X a i) in *.
        assert (Sy : forall s, sk t x s = - sk t y s).
        { intros s. rewrite (proj2 (Lin t) x (combine 1 (fun _ => y) (fun _ => -1)) s) by (intros i _; unfold x, y, combine; change (range 0 1) with [0%Z]; cbn [map Rsum]; lra). rewrite (proj1 (Lin t)). unfold combine. change (range 0 1) with [0%Z]. cbn [map Rsum]. lra. }
        replace (dot m x x) with (dot m y y) by (apply Rsum_ext; intros i _; unfold x, y; ring).
        replace (dot d (sk t x) (sk t x)) with (dot d (sk t y) (sk t y)) by (apply Rsum_ext; intros i _; rewrite !Sy; ring). exact K.
  Qed.
  Lemma embed_subspaces_within : subspaces_kept_within ts c sk d m e delta.
  Proof.
    intros q V Hq HV. destruct (Z.eq_dec q 0) as [->|Nq].
    { exists (fun _ => false). split.
      - unfold probability, average, indicator. rewrite Rsum_const. rewrite Rmult_0_r. unfold Rdiv at 1. rewrite Rmult_0_l. change (net_size 0) with 1%Z. pose proof delta_nonneg. lra.
      - intros t _ _ z x. apply zero_kept. intros i _. reflexivity. }
    set (P := fun l => off e (combine q V (vec q l))). exists (fun t => existsb (fun l => P l t) (net q)). split.
    - eapply Rle_trans; [apply (union_bound ts P (net q) delta); intros p _; apply LE|].
      right. rewrite net_length by lia. ring.
    - intros t Ht Hb z x. set (g := gram_error c sk d m t V).
      assert (Qe : forall y, c * dot d (sk t (combine q V y)) (sk t (combine q V y)) - dot m (combine q V y) (combine q V y) = bil q g y y).
      { intros y. rewrite (dot_ext d _ (combine q (fun j => sk t (V j)) y) _ (combine q (fun j => sk t (V j)) y)) by (intros; apply (proj1 (Lin t))). rewrite !gram_combine. unfold bil.
        rewrite <- Rsum_scal, <- Rsum_minus. apply Rsum_ext. intros a _. rewrite <- Rsum_scal, <- Rsum_minus. apply Rsum_ext. intros b _. unfold g, gram_error. lra. }
      unfold x. rewrite Qe, combine_norm by exact HV. apply net_form; [lia| | |].
      + intros a b. unfold g, gram_error. rewrite (dot_sym d), (dot_sym m). reflexivity.
      + exact He.
      + intros l Hl. rewrite <- Qe, <- (combine_norm m q V _ HV). apply off_false. destruct (off e (combine q V (vec q l)) t) eqn:E; [|reflexivity]. exfalso.
        assert (existsb (fun l => P l t) (net q) = true); [|congruence]. apply existsb_exists. exists l. split; [exact Hl|exact E].
  Qed.
  Lemma embed_least_squares_within : 0 <= c -> least_squares_kept_within ts sk d m e delta.
  Proof.
    intros Hi q V Hq HV. destruct (embed_subspaces_within q V Hq HV) as (bad & P & B). exists bad. split; [exact P|].
    intros t Ht Hb n C cb A b residual sketched zs Hmin z. specialize (B t Ht Hb).
    assert (R1 : forall z i, residual z i = combine q V (fun l => combine n C z l - cb l) i).
    { intros z' i. unfold residual, A, b, combine. rewrite (Rsum_ext (fun l => V l i * (Rsum (map (fun j => C j l * z' j) (range 0 n)) - cb l)) (fun l => V l i * Rsum (map (fun j => C j l * z' j) (range 0 n)) - V l i * cb l)) by (intros; lra). rewrite Rsum_minus. f_equal.
      rewrite (Rsum_ext _ (fun j => Rsum (map (fun l => V l i * (C j l * z' j)) (range 0 q)))) by (intros; rewrite Rsum_mul_r; apply Rsum_ext; intros; lra).
      rewrite Rsum_swap. apply Rsum_ext. intros l _. now rewrite Rsum_scal. }
    assert (S1 : forall z, sketched z = dot d (sk t (combine q V (fun l => combine n C z l - cb l))) (sk t (combine q V (fun l => combine n C z l - cb l)))).
    { intros z'. unfold sketched. apply dot_ext; intros i _; apply (proj2 (Lin t)); intros; apply R1. }
    assert (N1 : forall z, dot m (residual z) (residual z) = dot m (combine q V (fun l => combine n C z l - cb l)) (combine q V (fun l => combine n C z l - cb l))) by (intros; apply dot_ext; intros; apply R1).
    pose proof (B (fun l => combine n C zs l - cb l)) as B1. pose proof (B (fun l => combine n C z l - cb l)) as B2. cbv zeta in B1, B2. rewrite <- S1, <- N1 in B1, B2.
    specialize (Hmin z). apply (Rmult_le_compat_l _ _ _ Hi) in Hmin. apply abs_bounds in B1, B2. lra.
  Qed.
  Lemma embed_geometry_within : 0 <= c -> geometry_kept_within ts c sk d m e delta.
  Proof. intros Hc. split; [exact LE|]. split; [exact embed_distances_within|]. split; [exact embed_subspaces_within|now apply embed_least_squares_within]. Qed.
End EmbedWithin.

Section EmbedExp.
  Context {T : Type}.
  Variable ts : list T.
  Variable c : R.
  Variable sk : T -> (Z -> R) -> Z -> R.
  Variables d m : Z.
  Variable slack : R.
  Hypothesis Hsl : 0 <= slack.
  Hypothesis Lin : forall t, linear m (sk t).
  Hypothesis LE : lengths_kept_exp ts c sk d m slack.
  Lemma exp_within e : 0 < e <= / 2 -> 0 <= c -> geometry_kept_within ts c sk d m (e + slack) (2 * exp (- (IZR d * e ^ 2 / 6))).
  Proof. intros He. apply embed_geometry_within; [exact Lin|lra|]. intros x. now apply LE. Qed.
  Lemma embed_geometry_exp : 0 <= c -> geometry_kept_exp ts c sk d m slack.
  Proof.
    intros Hc. split; [exact LE|]. split; [|split].
    - intros N X e HN He. destruct (exp_within e He Hc) as (_ & A & _ & _). destruct (A N X HN) as (bad & P & B). exists bad. split; [|exact B]. eapply Rle_trans; [exact P|]. right. field.
    - intros q V e Hq HV He. destruct (exp_within e He Hc) as (_ & _ & A & _). destruct (A q V Hq HV) as (bad & P & B). exists bad. split; [|exact B]. eapply Rle_trans; [exact P|]. right. ring.
    - intros q V e Hq HV He. destruct (exp_within e He Hc) as (_ & _ & _ & A). destruct (A q V Hq HV) as (bad & P & B). exists bad. split; [|exact B]. eapply Rle_trans; [exact P|]. right. ring.
  Qed.
End EmbedExp.
