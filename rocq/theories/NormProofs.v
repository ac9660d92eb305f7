(** Second moments of inner products of sketches (used by PropsNorm.v). *)
From Verif Require Import Base Spec RngModel DenseModel DenseSpec SparseSkopModel FySpec FyProofs SparseSpec LasoProofs
  SparseProofs SparseProofs2 IsoSpec IsoProofs StatSpec StatProofs NormSpec.
From Coq Require Import Lra Permutation.
Local Open Scope R_scope.

(** ** Sums *)
Lemma Rsum_le {A} (f g : A -> R) l : (forall x, In x l -> f x <= g x) -> Rsum (map f l) <= Rsum (map g l).
Proof. induction l as [|x l IH]; intros H; cbn; [lra|]. pose proof (H x (or_introl eq_refl)). specialize (IH (fun y Hy => H y (or_intror Hy))). lra. Qed.
Lemma Rsum_nonneg {A} (f : A -> R) l : (forall x, In x l -> 0 <= f x) -> 0 <= Rsum (map f l).
Proof. intros H. replace 0 with (Rsum (map (fun _ : A => 0) l)) by (now apply Rsum_zero). now apply Rsum_le. Qed.
Lemma Rsum_mul {A B} (f : A -> R) (g : B -> R) la lb :
  Rsum (map f la) * Rsum (map g lb) = Rsum (map (fun a => Rsum (map (fun b => f a * g b) lb)) la).
Proof. rewrite Rmult_comm, <- Rsum_scal. apply Rsum_ext. intros a _. rewrite Rmult_comm, <- Rsum_scal. reflexivity. Qed.
Lemma Rsum_mul_r {A} (f : A -> R) c l : Rsum (map f l) * c = Rsum (map (fun a => f a * c) l).
Proof. rewrite Rmult_comm, <- Rsum_scal. apply Rsum_ext. intros; lra. Qed.
Lemma Rsum_prod {A B} (f : A * B -> R) la lb :
  Rsum (map f (list_prod la lb)) = Rsum (map (fun a => Rsum (map (fun b => f (a, b)) lb)) la).
Proof.
  induction la as [|a la IH]; [reflexivity|]. cbn [list_prod map Rsum]. rewrite map_app, Rsum_app, IH, map_map. reflexivity.
Qed.
Lemma Rsum_minus {A} (f g : A -> R) l : Rsum (map (fun x => f x - g x) l) = Rsum (map f l) - Rsum (map g l).
Proof. induction l as [|x l IH]; cbn; lra. Qed.
Lemma Rsum_delta (f : Z -> R) n a : (0 <= a < n)%Z -> Rsum (map (fun i => IsoSpec.delta i a * f i) (range 0 n)) = f a.
Proof.
  intros Ha. rewrite (Rsum_one _ _ a); [|apply NoDup_range|now apply in_range|].
  - unfold IsoSpec.delta. rewrite Z.eqb_refl. lra.
  - intros y _ N. unfold IsoSpec.delta. destruct (Z.eqb_spec y a); [contradiction|lra].
Qed.
Lemma Rsum_range_const c n : (0 <= n)%Z -> Rsum (map (fun _ => c) (range 0 n)) = IZR n * c.
Proof. intros H. rewrite Rsum_const, INR_IZR_INZ. pose proof (zlen_range 0 n H) as E. unfold zlen in E. rewrite E, Z.sub_0_r. reflexivity. Qed.

(** ** Independence: values at distinct positions against everything else *)
Lemma indep_product {A} (U : list A) n d (ps : list nat) : NoDup ps -> (forall p, In p ps -> (p < n)%nat) ->
  forall (g : list A -> R) (h : list A -> R),
    (forall p t u, In p ps -> length t = n -> g (set_nth t p u) = g t) ->
    INR (length U) ^ length ps * Rsum (map (fun t => g t * h (map (fun p => nth p t d) ps)) (tapes n U)) =
    Rsum (map g (tapes n U)) * Rsum (map h (tapes (length ps) U)).
Proof.
  intros Nd. induction Nd as [|p ps Np Nd IH]; intros Hlt g h Hg.
  - cbn [length pow tapes map Rsum]. rewrite Rmult_1_l, Rsum_mul_r. apply Rsum_ext. intros; lra.
  - cbn [length pow tapes]. rewrite Rsum_flat_map.
    rewrite (Rmult_comm (INR (length U))), Rmult_assoc, (resample U n p) by (apply Hlt; now left).
    rewrite (Rsum_ext _ (fun t => Rsum (map (fun u => g t * h (u :: map (fun p => nth p t d) ps)) U))).
    + rewrite Rsum_swap, <- Rsum_scal, <- Rsum_scal. apply Rsum_ext. intros u _. rewrite map_map.
      rewrite (IH (fun q Hq => Hlt q (or_intror Hq)) g (fun v => h (u :: v))); [reflexivity|]. intros; apply Hg; auto; now right.
    + intros t Ht. apply tapes_len in Ht. apply Rsum_ext. intros u _. rewrite (Hg p t u (or_introl eq_refl) Ht). f_equal. f_equal. cbn [map]. f_equal.
      * apply nth_set_eq. rewrite Ht. apply Hlt. now left.
      * apply map_ext_in. intros q Hq. apply nth_set_ne. intros ->. contradiction.
Qed.

(** ** Inclusion probability of one index in a Fisher-Yates sample *)
Fixpoint pivots (n : Z) (ws : list Z) : list Z := match ws with [] => [] | w :: ws => (w mod n)%Z :: pivots (n - 1) ws end.
Lemma pivots_map (f : Z -> Z) n k : (0 <= k)%Z -> pivots n (map f (range 0 k)) = map (fun j => (f j mod (n - j))%Z) (range 0 k).
Proof.
  intros Hk. assert (G : forall m lo, pivots (n - lo) (map f (zseq lo m)) = map (fun j => (f j mod (n - j))%Z) (zseq lo m)).
  { induction m as [|m IH]; intros lo; [reflexivity|]. cbn [zseq map pivots]. f_equal. rewrite <- IH. f_equal. lia. }
  unfold range. rewrite <- (G _ 0%Z). f_equal. lia.
Qed.
Definition mem (s : Z) (l : list Z) : bool := existsb (Z.eqb s) l.
Lemma mem_in s l : mem s l = true <-> In s l.
Proof. unfold mem. rewrite existsb_exists. split; [intros (x & H & E); apply Z.eqb_eq in E; now subst|intros H; exists s; split; [exact H|apply Z.eqb_refl]]. Qed.

Lemma fy_inclusion W N : (0 <= W)%Z -> (N <= 2 ^ W)%Z -> forall (k : nat) (l : list Z) s, NoDup l -> In s l -> (Z.of_nat k <= zlen l <= N)%Z ->
  Rsum (map (fun ws => indicator (mem s (fy l (pivots (zlen l) ws)))) (tapes k (range 0 (2 ^ W)))) <=
  INR (length (range 0 (2 ^ W))) ^ k * (INR k / IZR (zlen l) * (1 + IZR N / IZR (2 ^ W)) ^ k).
Proof.
  intros HW HN. set (U := range 0 (2 ^ W)). set (e := IZR N / IZR (2 ^ W)).
  assert (PW : (0 < 2 ^ W)%Z) by (apply Z.pow_pos_nonneg; lia).
  assert (LU : INR (length U) = IZR (2 ^ W)). { unfold U. rewrite INR_IZR_INZ. pose proof (zlen_range 0 (2 ^ W) ltac:(lia)) as E. unfold zlen in E. rewrite E. f_equal. lia. }
  assert (PU : 0 < INR (length U)) by (rewrite LU; apply IZR_lt; lia).
  induction k as [|k IH]; intros l s Nd Hs Hk.
  - cbn [tapes map Rsum pivots fy mem existsb indicator INR pow]. unfold mem. cbn [existsb indicator]. lra.
  - assert (Hn : (1 <= zlen l)%Z) by lia. assert (Pn : 0 < IZR (zlen l)) by (apply IZR_lt; lia).
    assert (He : 0 <= e) by (unfold e; apply Rmult_le_pos; [apply IZR_le; lia|apply Rlt_le, Rinv_0_lt_compat, IZR_lt; lia]).
    apply In_nth_error in Hs as Hs'. destruct Hs' as [p0 Hp0].
    set (P := Z.of_nat p0). assert (HP : get l P = Some s) by (unfold P, get; destruct (Z.ltb_spec (Z.of_nat p0) 0); [lia|now rewrite Nat2Z.id]).
    assert (HPb : (0 <= P < zlen l)%Z) by (apply get_Some_lt in HP; exact HP).
    set (m := zlen l) in *.
    (* by first pivot *)
    cbn [tapes]. rewrite Rsum_flat_map.
    set (B := INR (length U) ^ k * (INR k / (IZR m - 1) * (1 + e) ^ k)).
    assert (Step : forall w, In w U -> Rsum (map (fun ws => indicator (mem s (fy l (pivots m ws)))) (map (cons w) (tapes k U))) <=
              (if (w mod m =? P)%Z then INR (length U) ^ k else B)).
    { intros w _. rewrite map_map. destruct (Z.eqb_spec (w mod m) P) as [E|E].
      - rewrite <- (Rmult_1_r (INR (length U) ^ k)), <- pow_INR, <- tapes_length, <- Rsum_const. apply Rsum_le. intros ws _. unfold indicator. destruct (mem _ _); lra.
      - cbn [pivots fy]. destruct (get_lt l (w mod m)) as [x Hx]; [apply Z.mod_pos_bound; lia|]. rewrite Hx.
        pose proof (fy_rest_perm _ _ _ Hx) as Pm. pose proof (fy_rest_len _ _ _ Hx) as Ln. fold m in Ln.
        assert (Nx : x <> s). { intros ->. apply E. eapply get_inj_NoDup; eauto. }
        assert (Nd' : NoDup (fy_rest l (w mod m))). { apply (Permutation_NoDup Pm) in Nd. now inversion Nd. }
        assert (Hs2 : In s (fy_rest l (w mod m))). { apply (Permutation_in _ Pm) in Hs. destruct Hs; [contradiction|assumption]. }
        rewrite (Rsum_ext _ (fun ws => indicator (mem s (fy (fy_rest l (w mod m)) (pivots (zlen (fy_rest l (w mod m))) ws))))).
        + eapply Rle_trans; [apply IH; auto; lia|]. rewrite Ln, minus_IZR. unfold B. apply Rle_refl.
        + intros ws _. rewrite Ln. unfold mem. cbn [existsb]. destruct (Z.eqb_spec s x); [congruence|reflexivity]. }
    eapply Rle_trans; [apply Rsum_le, Step|].
    (* counts *)
    set (c := Rsum (map (fun w => if (w mod m =? P)%Z then 1 else 0) U)).
    assert (Hc : c <= INR (length U) * (/ IZR m * (1 + e))).
    { pose proof (residue_probability W m P N HW ltac:(lia) HN HPb) as [_ Q]. unfold probability, average in Q. fold U in Q. fold e in Q.
      change (Rsum (map (fun t : Z => indicator (t mod m =? P)%Z) U)) with c in Q. apply (Rmult_le_compat_l (INR (length U))) in Q; [|lra].
      replace (INR (length U) * (c / INR (length U))) with c in Q by (field; lra). exact Q. }
    assert (Hc0 : 0 <= c <= INR (length U)).
    { split; [apply Rsum_nonneg; intros w _; destruct (_ =? _)%Z; lra|]. rewrite <- (Rmult_1_r (INR (length U))), <- Rsum_const. apply Rsum_le. intros w _. destruct (_ =? _)%Z; lra. }
    assert (Sp : Rsum (map (fun w => if (w mod m =? P)%Z then INR (length U) ^ k else B) U) = c * INR (length U) ^ k + Rsum (map (fun w => if (w mod m =? P)%Z then 0 else 1) U) * B).
    { unfold c. rewrite !Rsum_mul_r, <- Rsum_plus. apply Rsum_ext. intros w _. destruct (_ =? _)%Z; lra. }
    rewrite Sp. clear Sp Step.
    set (o := Rsum (map (fun w => if (w mod m =? P)%Z then 0 else 1) U)) in *.
    assert (Ho : o = INR (length U) - c).
    { unfold o, c. rewrite <- (Rmult_1_r (INR (length U))), <- Rsum_const, <- Rsum_minus. apply Rsum_ext. intros w _. destruct (_ =? _)%Z; lra. }
    assert (Ho1 : o <= INR (length U) * ((IZR m - 1 + e) / IZR m)).
    { pose proof (residue_probability W m P N HW ltac:(lia) HN HPb) as [Q _]. unfold probability, average in Q. fold U in Q. fold e in Q.
      change (Rsum (map (fun t : Z => indicator (t mod m =? P)%Z) U)) with c in Q. apply (Rmult_le_compat_l (INR (length U))) in Q; [|lra].
      replace (INR (length U) * (c / INR (length U))) with c in Q by (field; lra). rewrite Ho.
      replace (INR (length U) * ((IZR m - 1 + e) / IZR m)) with (INR (length U) - INR (length U) * (/ IZR m * (1 - e))) by (field; lra). lra. }
    assert (Pk : 0 < INR (length U) ^ k) by (now apply pow_lt). set (V := INR (length U) ^ k) in *.
    assert (Pe : 1 <= (1 + e) ^ k) by (apply pow_R1_Rle; lra). set (X := (1 + e) ^ k) in *.
    assert (Hk0 : (Z.of_nat k <= m - 1)%Z) by lia. assert (0 <= INR k) by apply pos_INR.
    cbn [pow]. fold V X.
    apply (Rle_trans _ (INR (length U) * (/ IZR m * (1 + e)) * V + INR (length U) * (INR k / IZR m * (1 + e) * X) * V)).
    + apply Rplus_le_compat; [apply Rmult_le_compat_r; lra|]. unfold B. destruct k as [|k'].
      * cbn [INR]. unfold Rdiv. rewrite !Rmult_0_l. lra.
      * assert (2 <= IZR m) by (apply IZR_le; lia). set (kk := INR (S k')) in *.
        replace (INR (length U) * (kk / IZR m * (1 + e) * X) * V) with (INR (length U) * ((IZR m - 1) * (1 + e) / IZR m) * (V * (kk / (IZR m - 1) * X))) by (field; lra).
        apply Rmult_le_compat_r. { apply Rmult_le_pos; [lra|]. apply Rmult_le_pos; [|lra]. apply Rmult_le_pos; [lra|]. apply Rlt_le, Rinv_0_lt_compat; lra. }
        eapply Rle_trans; [exact Ho1|]. apply Rmult_le_compat_l; [lra|]. apply Rmult_le_compat_r; [apply Rlt_le, Rinv_0_lt_compat; lra|]. nra.
    + rewrite S_INR. set (kk := INR k) in *. set (u := INR (length U)) in *.
      replace (u * V * ((kk + 1) / IZR m * ((1 + e) * X))) with (u * (/ IZR m * ((1 + e) * X)) * V + u * (kk / IZR m * (1 + e) * X) * V) by (field; lra).
      apply Rplus_le_compat_r. apply Rmult_le_compat_r; [lra|]. apply Rmult_le_compat_l; [lra|]. apply Rmult_le_compat_l; [apply Rlt_le, Rinv_0_lt_compat; lra|]. nra.
Qed.
