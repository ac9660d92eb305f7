(** From sketches in real numbers to computed sketches, with exponentially small failure
    probability (used by PropsTail3.v). *)
From Coq Require Import Lra.
From Verif Require Import Base IsoSpec IsoProofs StatSpec NormSpec NormProofs NormProofs3 NormProofs4 GramProofs TailSpec.
Local Open Scope R_scope.

Section ComputedExp.
  Context {T : Type}.
  Variable ts : list T.
  Variable c : R.
  Variable sk : T -> (Z -> R) -> Z -> R.
  Variables d m n : Z.
  Variable slack : R.
  Hypothesis Lin : forall t, linear m (sk t).
  Variable X : Z -> Z -> R.
  Variable Y : T -> Z -> Z -> R.
  Variables round least : R.
  Hypothesis Hr : 0 <= round.
  Hypothesis Hn : (0 <= n)%Z.
  Hypothesis Hpair : forall t a b, In t ts -> (0 <= a < n)%Z -> (0 <= b < n)%Z -> a <> b ->
    let x i := X a i - X b i in let y r := Y t a r - Y t b r in let norms := dot m (X a) (X a) + dot m (X b) (X b) in least <= norms ->
    Rabs (dot d y y - c * dot d (sk t x) (sk t x)) <= 2 * round * norms.
  Hypothesis Hall : forall t z, In t ts -> let x := combine n X z in let y := combine n (Y t) z in
    Rabs (dot d y y - c * dot d (sk t x) (sk t x)) <= round * frob2 n m X * dot n z z.
  Lemma computed_distances : 0 <= slack -> distances_kept_exp ts c sk d m slack -> computed_distances_kept ts d m n X Y slack round least.
  Proof.
    intros Hsl JL e He. destruct (JL n X e Hn He) as (bad & P & B). exists bad. split; [exact P|].
    intros t Ht Hb a b Ha Hb' x y norms Hl. pose proof (dot_nonneg m x) as X0. assert (N0 : 0 <= norms) by (pose proof (dot_nonneg m (X a)); pose proof (dot_nonneg m (X b)); unfold norms; lra).
    destruct (Z.eq_dec a b) as [->|N].
    - assert (D0 : forall k (f : Z -> R), (forall i, f i = 0) -> dot k f f = 0) by (intros k f F; unfold dot; rewrite (Rsum_ext _ (fun _ => 0)) by (intros; rewrite F; ring); rewrite Rsum_const; lra).
      rewrite (D0 d y), (D0 m x) by (intros; unfold x, y; ring). rewrite Rminus_0_r, Rabs_R0. assert (0 <= 2 * round * norms) by (apply Rmult_le_pos; lra). lra.
    - specialize (B t Ht Hb a b Ha Hb'). specialize (Hpair t a b Ht Ha Hb' N Hl). cbv zeta in B, Hpair. fold x y in B, Hpair. fold norms in Hpair.
      apply abs_bounds in B, Hpair. apply Rabs_le. lra.
  Qed.
  Lemma computed_combinations : subspaces_kept_exp ts c sk d m slack -> computed_combinations_kept ts d m n X Y slack round.
  Proof.
    intros SE q V C e Hq HV HC He. destruct (SE q V e Hq HV He) as (bad & P & B). exists bad. split; [exact P|].
    intros t Ht Hb data sketched. specialize (B t Ht Hb).
    assert (R1 : forall z i, (0 <= i < m)%Z -> combine n X z i = combine q V (combine n C z) i).
    { intros z i Hi. unfold combine at 1. rewrite (Rsum_ext _ (fun j => Rsum (map (fun l => V l i * (C j l * z j)) (range 0 q)))).
      - rewrite Rsum_swap. unfold combine. apply Rsum_ext. intros l _. now rewrite Rsum_scal.
      - intros j Hj. apply in_range in Hj. rewrite HC by assumption. unfold combine. rewrite Rsum_mul_r. apply Rsum_ext. intros; ring. }
    assert (K : forall z, Rabs (sketched z - data z) <= 2 * (e + slack) * data z + round * frob2 n m X * dot n z z).
    { intros z. specialize (B (combine n C z)). cbv zeta in B. specialize (Hall t z Ht). cbv zeta in Hall. fold (sketched z) in Hall.
      rewrite (dot_ext m (combine q V (combine n C z)) (combine n X z) (combine q V (combine n C z)) (combine n X z)) in B by (intros; symmetry; now apply R1). fold (data z) in B.
      rewrite (dot_ext d (sk t (combine q V (combine n C z))) (sk t (combine n X z)) (sk t (combine q V (combine n C z))) (sk t (combine n X z))) in B by (intros; apply (proj2 (Lin t)); intros; symmetry; now apply R1).
      apply abs_bounds in B, Hall. apply Rabs_le. lra. }
    split; [exact K|]. intros z1 z2 Hz. pose proof (K z1) as K1. pose proof (K z2) as K2. apply abs_bounds in K1, K2. lra.
  Qed.
End ComputedExp.

(** Two columns of a matrix. *)
Definition pick {A} (a b : A) (j : Z) : A := if (j =? 0)%Z then a else b.
Lemma pick_frob m (X : Z -> Z -> R) a b : frob2 2 m (fun j => X (pick a b j)) = dot m (X a) (X a) + dot m (X b) (X b).
Proof. unfold frob2. change (range 0 2) with [0; 1]%Z. cbn [map Rsum]. unfold pick. cbn [Z.eqb]. lra. Qed.
Definition minus (j : Z) : R := if (j =? 0)%Z then 1 else -1.
Lemma pick_minus (X : Z -> Z -> R) a b i : combine 2 (fun j => X (pick a b j)) minus i = X a i - X b i.
Proof. unfold combine. change (range 0 2) with [0; 1]%Z. cbn [map Rsum]. unfold pick, minus. cbn [Z.eqb]. lra. Qed.
Lemma minus_norm : dot 2 minus minus = 2.
Proof. unfold dot. change (range 0 2) with [0; 1]%Z. cbn [map Rsum]. unfold minus. cbn [Z.eqb]. lra. Qed.
Lemma frob2_two n m X a b : (0 <= a < n)%Z -> (0 <= b < n)%Z -> a <> b -> dot m (X a) (X a) + dot m (X b) (X b) <= frob2 n m X.
Proof.
  intros Ha Hb N. unfold frob2. assert (W : forall a b, (0 <= a < n)%Z -> (0 <= b < n)%Z -> (a < b)%Z -> dot m (X a) (X a) + dot m (X b) (X b) <= Rsum (map (fun j => dot m (X j) (X j)) (range 0 n))).
  { clear a b Ha Hb N. intros a b Ha Hb L. rewrite (range_split 0 b n) by lia. rewrite map_app, Rsum_app.
    assert (G : forall l h k, (l <= k < h)%Z -> dot m (X k) (X k) <= Rsum (map (fun j => dot m (X j) (X j)) (range l h))).
    { intros l h k Hk. assert (I : In k (range l h)) by now apply in_range. revert I. generalize (range l h). intros r. induction r as [|y r IH]; intros I; [destruct I|]. cbn [map Rsum].
      pose proof (dot_nonneg m (X y)). assert (0 <= Rsum (map (fun j => dot m (X j) (X j)) r)) by (apply Rsum_nonneg; intros; apply dot_nonneg). destruct I as [->|I]; [lra|]. specialize (IH I). lra. }
    pose proof (G 0%Z b a ltac:(lia)). pose proof (G b n b ltac:(lia)). lra. }
  destruct (Z.lt_trichotomy a b) as [L|[L|L]]; [now apply W|contradiction|]. rewrite Rplus_comm. now apply W.
Qed.
