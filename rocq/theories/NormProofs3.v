(** From a bound on the covariances of the entries of Gram matrices to lengths, subspaces and
    least squares (used by PropsNorm.v and PropsNorm2.v). *)
From Verif Require Import Base Spec RngModel DenseModel IsoSpec IsoProofs StatSpec StatProofs NormSpec NormProofs.
From Coq Require Import Lra.
Local Open Scope R_scope.

Lemma abs_bounds x e : Rabs x <= e -> - e <= x <= e.
Proof. unfold Rabs. destruct (Rcase_abs x); intros; lra. Qed.

(** ** Quadratic forms *)
Section Quad.
  Context {T : Type}.
  Variable ts : list T.
  Variable G : T -> Z -> Z -> R.
  Variable m : Z.
  Variable Q : R.
  Hypothesis HQ : 0 <= Q.
  Notation dl := IsoSpec.delta.
  Hypothesis cov : forall i j i' j', (0 <= i < m)%Z -> (0 <= j < m)%Z -> (0 <= i' < m)%Z -> (0 <= j' < m)%Z ->
    Rabs (Rsum (map (fun t => G t i j * G t i' j') ts)) <= Q * (dl i' i * dl j' j + dl i' j * dl j' i).
  Lemma quad_moment x y :
    Rsum (map (fun t => Rsum (map (fun i => Rsum (map (fun j => x i * y j * G t i j) (range 0 m))) (range 0 m)) *
                        Rsum (map (fun i => Rsum (map (fun j => x i * y j * G t i j) (range 0 m))) (range 0 m))) ts) <= Q * (2 * (dot m x x * dot m y y)).
  Proof.
    set (I := range 0 m).
    rewrite (Rsum_ext _ (fun t => Rsum (map (fun i => Rsum (map (fun j => Rsum (map (fun i' => Rsum (map (fun j' => x i * y j * (x i' * y j') * (G t i j * G t i' j')) I)) I)) I)) I))).
    2: { intros t _. rewrite Rsum_mul_r. apply Rsum_ext. intros i _. rewrite Rsum_mul_r. apply Rsum_ext. intros j _.
         rewrite Rmult_comm, Rsum_mul_r. apply Rsum_ext. intros i' _. rewrite Rsum_mul_r. apply Rsum_ext. intros j' _. lra. }
    rewrite Rsum_swap.
    set (A := fun i j => x i * y j * (x i * y j)).
    apply (Rle_trans _ (Rsum (map (fun i => Rsum (map (fun j => Rsum (map (fun i' => Rsum (map (fun j' =>
        Q * (dl i' i * dl j' j * A i j + dl i' j * dl j' i * ((A i j + A j i) / 2))) I)) I)) I)) I))).
    - apply Rsum_le. intros i Hi. rewrite Rsum_swap. apply Rsum_le. intros j Hj. rewrite Rsum_swap. apply Rsum_le. intros i' Hi'. rewrite Rsum_swap. apply Rsum_le. intros j' Hj'.
      apply in_range in Hi, Hj, Hi', Hj'. rewrite Rsum_scal. pose proof (cov i j i' j' Hi Hj Hi' Hj') as B.
      set (S := Rsum (map (fun t => G t i j * G t i' j') ts)) in *.
      apply (Rle_trans _ (Rabs (x i * y j * (x i' * y j')) * Rabs S)); [rewrite <- Rabs_mult; apply Rle_abs|].
      set (ab := Rabs (x i * y j * (x i' * y j'))). assert (Hab : 0 <= ab) by apply Rabs_pos.
      apply (Rle_trans _ (ab * (Q * (dl i' i * dl j' j + dl i' j * dl j' i)))); [apply Rmult_le_compat_l; assumption|].
      replace (ab * (Q * (dl i' i * dl j' j + dl i' j * dl j' i))) with (Q * (dl i' i * dl j' j * ab + dl i' j * dl j' i * ab)) by lra.
      apply Rmult_le_compat_l; [exact HQ|]. apply Rplus_le_compat.
      + unfold IsoSpec.delta. destruct (Z.eqb_spec i' i) as [->|]; [|lra]. destruct (Z.eqb_spec j' j) as [->|]; [|lra].
        unfold ab, A. rewrite Rabs_right; [lra|]. apply Rle_ge, Rle_0_sqr.
      + unfold IsoSpec.delta. destruct (Z.eqb_spec i' j) as [->|]; [|lra]. destruct (Z.eqb_spec j' i) as [->|]; [|lra].
        unfold ab, A. set (a := x i * y j). set (b := x j * y i).
        assert (Sq : 0 <= (a - b) * (a - b)) by apply Rle_0_sqr. assert (Sq2 : 0 <= (a + b) * (a + b)) by apply Rle_0_sqr.
        assert (Rabs (a * b) <= (a * a + b * b) / 2); [|lra]. apply Rabs_le. split; lra.
    - assert (C : forall i j, In i I -> In j I -> Rsum (map (fun i' => Rsum (map (fun j' =>
        Q * (dl i' i * dl j' j * A i j + dl i' j * dl j' i * ((A i j + A j i) / 2))) I)) I) = Q * (A i j + (A i j + A j i) / 2)).
      { intros i j Hi Hj. apply in_range in Hi, Hj.
        rewrite (Rsum_ext _ (fun i' => dl i' i * (Q * A i j) + dl i' j * (Q * ((A i j + A j i) / 2)))).
        - unfold I. rewrite Rsum_plus, (Rsum_delta (fun _ => Q * A i j)), (Rsum_delta (fun _ => Q * ((A i j + A j i) / 2))) by assumption. lra.
        - intros i' _. rewrite (Rsum_ext _ (fun j' => dl j' j * (dl i' i * (Q * A i j)) + dl j' i * (dl i' j * (Q * ((A i j + A j i) / 2))))).
          + unfold I. rewrite Rsum_plus, (Rsum_delta (fun _ => dl i' i * (Q * A i j))), (Rsum_delta (fun _ => dl i' j * (Q * ((A i j + A j i) / 2)))) by assumption. reflexivity.
          + intros j' _. lra. }
      rewrite (Rsum_ext _ (fun i => Rsum (map (fun j => Q * (A i j + (A i j + A j i) / 2)) I))) by (intros i Hi; apply Rsum_ext; intros j Hj; auto).
      set (T1 := Rsum (map (fun i => Rsum (map (fun j => A i j) I)) I)).
      assert (T2 : Rsum (map (fun i => Rsum (map (fun j => A j i) I)) I) = T1) by (unfold T1; rewrite Rsum_swap; reflexivity).
      assert (T3 : Rsum (map (fun i => Rsum (map (fun j => Q * (A i j + (A i j + A j i) / 2)) I)) I) = Q * (2 * T1)).
      { rewrite (Rsum_ext _ (fun i => Q * (3 / 2) * Rsum (map (fun j => A i j) I) + Q / 2 * Rsum (map (fun j => A j i) I))).
        - rewrite Rsum_plus, !Rsum_scal, T2. fold T1. lra.
        - intros i _. rewrite <- !Rsum_scal, <- Rsum_plus. apply Rsum_ext. intros j _. lra. }
      rewrite T3. apply Rmult_le_compat_l; [exact HQ|]. apply Rmult_le_compat_l; [lra|].
      unfold T1, dot. fold I. rewrite Rsum_mul. right. apply Rsum_ext. intros i _. apply Rsum_ext. intros j _. unfold A. lra.
  Qed.
End Quad.
(** ** Sums and vectors *)
Lemma cauchy_schwarz {A} (f g : A -> R) l :
  Rsum (map (fun x => f x * g x) l) * Rsum (map (fun x => f x * g x) l) <= Rsum (map (fun x => f x * f x) l) * Rsum (map (fun x => g x * g x) l).
Proof.
  assert (P : 0 <= Rsum (map (fun x => Rsum (map (fun y => (f x * g y - f y * g x) * (f x * g y - f y * g x)) l)) l)).
  { apply Rsum_nonneg. intros x _. apply Rsum_nonneg. intros y _. apply Rle_0_sqr. }
  rewrite (Rsum_ext _ (fun x => f x * f x * Rsum (map (fun y => g y * g y) l) + g x * g x * Rsum (map (fun y => f y * f y) l) - 2 * (f x * g x * Rsum (map (fun y => f y * g y) l)))) in P.
  - rewrite Rsum_minus, Rsum_plus, <- !Rsum_mul_r, Rsum_scal, <- !Rsum_mul_r in P. lra.
  - intros x _. rewrite <- !Rsum_scal, <- Rsum_plus, <- Rsum_minus. apply Rsum_ext. intros y _. lra.
Qed.
Lemma dot_ext n x x' y y' : (forall i, (0 <= i < n)%Z -> x i = x' i) -> (forall i, (0 <= i < n)%Z -> y i = y' i) -> dot n x y = dot n x' y'.
Proof. intros A B. apply Rsum_ext. intros i Hi. apply in_range in Hi. now rewrite A, B. Qed.
Lemma dot_nonneg n x : 0 <= dot n x x.
Proof. apply Rsum_nonneg. intros; apply Rle_0_sqr. Qed.
Lemma dot_combine n q V z y : dot n (combine q V z) y = Rsum (map (fun j => z j * dot n (V j) y) (range 0 q)).
Proof.
  unfold dot, combine. rewrite (Rsum_ext _ (fun i => Rsum (map (fun j => z j * (V j i * y i)) (range 0 q)))).
  - rewrite Rsum_swap. apply Rsum_ext. intros j _. now rewrite Rsum_scal.
  - intros i _. rewrite Rsum_mul_r. apply Rsum_ext. intros j _. lra.
Qed.
Lemma dot_sym n x y : dot n x y = dot n y x.
Proof. apply Rsum_ext. intros; lra. Qed.
Lemma combine_norm m q V z : orthonormal m q V -> dot m (combine q V z) (combine q V z) = dot q z z.
Proof.
  intros O. rewrite dot_combine. apply Rsum_ext. intros a Ha. apply in_range in Ha. rewrite dot_sym, dot_combine.
  rewrite (Rsum_ext _ (fun b => IsoSpec.delta b a * z b)).
  - rewrite Rsum_delta by assumption. reflexivity.
  - intros b Hb. apply in_range in Hb. rewrite O by assumption. lra.
Qed.


(** ** Markov's inequality *)
Lemma average_le {A} (l : list A) f g : (forall t, In t l -> f t <= g t) -> average l f <= average l g.
Proof.
  intros H. unfold average. apply Rmult_le_compat_r; [|now apply Rsum_le]. destruct l as [|x l]; [cbn; rewrite Rinv_0; lra|].
  apply Rlt_le, Rinv_0_lt_compat, lt_0_INR. cbn. lia.
Qed.
Lemma markov {A} (l : list A) (f : A -> R) c : 0 < c -> (forall t, In t l -> 0 <= f t) -> probability l (fun t => exceeds (f t) c) <= average l f / c.
Proof.
  intros Hc Hf. unfold probability. apply (Rle_trans _ (average l (fun t => / c * f t))).
  - apply average_le. intros t Ht. unfold exceeds, indicator. specialize (Hf t Ht). pose proof (Rinv_0_lt_compat c Hc).
    destruct (Rlt_dec c (f t)); [|apply Rmult_le_pos; lra]. apply (Rmult_le_reg_l c); [assumption|]. rewrite <- Rmult_assoc, Rinv_r by lra. lra.
  - unfold average. rewrite Rsum_scal. lra.
Qed.
Lemma average_sum {A B} (l : list A) (f : B -> A -> R) lb : average l (fun t => Rsum (map (fun b => f b t) lb)) = Rsum (map (fun b => average l (f b)) lb).
Proof. unfold average. rewrite Rsum_swap. unfold Rdiv. rewrite Rsum_mul_r. reflexivity. Qed.


(** ** Linear operators *)
(** Sketching commutes with linear combinations and reads m elements. *)
Definition linear (m : Z) (f : (Z -> R) -> Z -> R) : Prop :=
  (forall q V z s, f (combine q V z) s = combine q (fun j => f (V j)) z s) /\
  (forall x x' s, (forall i, (0 <= i < m)%Z -> x i = x' i) -> f x s = f x' s).
Lemma sketch_of_linear nr nc S : linear (Z.max nr nc) (sketch_of nr nc S).
Proof.
  split.
  - intros q V z s. unfold sketch_of. destruct (nr <=? nc)%Z; rewrite dot_sym, dot_combine; apply Rsum_ext; intros j _; rewrite (dot_sym _ (V j)); lra.
  - intros x x' s H. unfold sketch_of. destruct (Z.leb_spec nr nc); apply dot_ext; auto; intros; apply H; lia.
Qed.

Section Embed.
  Context {T : Type}.
  Variable ts : list T.
  Variable c : R.
  Variable sk : T -> (Z -> R) -> Z -> R.
  Variables d m : Z.
  Variable sp : R.
  Hypothesis Lin : forall t, linear m (sk t).
  Hypothesis IP : inner_products_kept ts c sk d m sp.
  Let lin t := proj1 (Lin t).
  (** Lengths: Chebyshev. *)
  Lemma embed_lengths : lengths_kept ts c sk d m sp.
  Proof.
    intros x eps He Hx. pose proof (IP x x) as B. set (X := dot m x x) in *.
    assert (PE : 0 < (eps * X) ^ 2) by (apply pow_lt, Rmult_lt_0_compat; assumption).
    pose proof (markov ts (fun t => (c * dot d (sk t x) (sk t x) - X) ^ 2) _ PE (fun t _ => pow2_ge_0 _)) as M.
    rewrite (probability_ext _ _ (fun t => exceeds (Rabs (c * dot d (sk t x) (sk t x) - X)) (eps * X))) in M.
    - eapply Rle_trans; [exact M|]. apply (Rmult_le_reg_r ((eps * X) ^ 2)); [exact PE|].
      unfold Rdiv. rewrite Rmult_assoc, Rinv_l, Rmult_1_r by lra. eapply Rle_trans; [exact B|]. right. field. lra.
    - intros t _. unfold exceeds. set (z := c * dot d (sk t x) (sk t x) - X).
      assert (Q : Rabs z * Rabs z = z ^ 2) by (cbn [pow]; rewrite Rmult_1_r, <- Rabs_mult, Rabs_right; [reflexivity|apply Rle_ge, Rle_0_sqr]).
      pose proof (Rabs_pos z). assert (0 < eps * X) by (now apply Rmult_lt_0_compat).
      destruct (Rlt_dec ((eps * X) ^ 2) (z ^ 2)) as [A|A], (Rlt_dec (eps * X) (Rabs z)) as [C|C]; try reflexivity; exfalso; rewrite <- Q in A; cbn [pow] in A; nra.
  Qed.

  (** Subspaces of dimension q: outside a set of draws of probability at most q^2 sp/eps^2,
      the sketch keeps the length of every vector of the subspace within eps. *)
  Lemma gram_combine n q P z : dot n (combine q P z) (combine q P z) =
    Rsum (map (fun a => Rsum (map (fun b => z a * z b * dot n (P a) (P b)) (range 0 q))) (range 0 q)).
  Proof.
    rewrite dot_combine. apply Rsum_ext. intros a _. rewrite dot_sym, dot_combine, <- Rsum_scal. apply Rsum_ext. intros b _. rewrite (dot_sym n (P b)). lra.
  Qed.
  Definition gram_error (t : T) (V : Z -> Z -> R) (a b : Z) : R :=
    c * dot d (sk t (V a)) (sk t (V b)) - dot m (V a) (V b).
  Definition total_error (t : T) (q : Z) (V : Z -> Z -> R) : R :=
    Rsum (map (fun a => Rsum (map (fun b => gram_error t V a b ^ 2) (range 0 q))) (range 0 q)).
  Lemma embeds t q V z eps : 0 < eps -> orthonormal m q V -> total_error t q V <= eps ^ 2 ->
    let x := combine q V z in
    Rabs (c * dot d (sk t x) (sk t x) - dot m x x) <= eps * dot m x x.
  Proof.
    intros He HV HE x. assert (Ex : c * dot d (sk t x) (sk t x) - dot m x x =
      Rsum (map (fun p => z (fst p) * z (snd p) * gram_error t V (fst p) (snd p)) (list_prod (range 0 q) (range 0 q)))).
    { rewrite Rsum_prod. unfold x. rewrite (dot_ext d _ (combine q (fun j => sk t (V j)) z) _ (combine q (fun j => sk t (V j)) z)) by (intros; apply (lin t)).
      rewrite !gram_combine. rewrite <- Rsum_scal, <- Rsum_minus. apply Rsum_ext. intros a _. rewrite <- Rsum_scal, <- Rsum_minus. apply Rsum_ext. intros b _. cbn [fst snd]. unfold gram_error. lra. }
    rewrite Ex. unfold x. rewrite combine_norm by exact HV.
    pose proof (cauchy_schwarz (fun p => z (fst p) * z (snd p)) (fun p => gram_error t V (fst p) (snd p)) (list_prod (range 0 q) (range 0 q))) as C. cbv beta in C.
    set (S := Rsum (map (fun p => z (fst p) * z (snd p) * gram_error t V (fst p) (snd p)) _)) in *.
    assert (C1 : Rsum (map (fun p => z (fst p) * z (snd p) * (z (fst p) * z (snd p))) (list_prod (range 0 q) (range 0 q))) = dot q z z * dot q z z).
    { rewrite Rsum_prod. unfold dot. rewrite Rsum_mul. apply Rsum_ext. intros a _. apply Rsum_ext. intros b _. cbn [fst snd]. lra. }
    assert (C2 : Rsum (map (fun p => gram_error t V (fst p) (snd p) * gram_error t V (fst p) (snd p)) (list_prod (range 0 q) (range 0 q))) = total_error t q V).
    { rewrite Rsum_prod. apply Rsum_ext. intros a _. apply Rsum_ext. intros b _. cbn [fst snd pow]. lra. }
    rewrite C1, C2 in C. clearbody S. pose proof (dot_nonneg q z) as Hz. set (Zz := dot q z z) in *. clearbody Zz.
    assert (C3 : S * S <= (eps * Zz) * (eps * Zz)). { eapply Rle_trans; [exact C|]. cbn [pow] in HE. replace (eps * Zz * (eps * Zz)) with (Zz * Zz * (eps * (eps * 1))) by lra. apply Rmult_le_compat_l; [nra|exact HE]. }
    assert (0 <= eps * Zz) by (apply Rmult_le_pos; lra). apply Rabs_le. split; nra.
  Qed.
  Lemma total_error_average : forall q V, (0 <= q)%Z -> orthonormal m q V ->
    average ts (fun t => total_error t q V) <= IZR (q * q) * sp.
  Proof.
    intros q V Hq HV. unfold total_error. rewrite (average_sum ts (fun a t => Rsum (map (fun b => gram_error t V a b ^ 2) (range 0 q)))).
    rewrite mult_IZR, Rmult_assoc, <- Rsum_range_const by exact Hq. apply Rsum_le. intros a Ha. apply in_range in Ha.
    rewrite (average_sum ts (fun b t => gram_error t V a b ^ 2)). rewrite <- Rsum_range_const by exact Hq. apply Rsum_le. intros b Hb. apply in_range in Hb.
    pose proof (IP (V a) (V b)) as B. rewrite (HV a a), (HV b b) in B by assumption. unfold IsoSpec.delta in B. rewrite !Z.eqb_refl in B. unfold gram_error. lra.
  Qed.
  Lemma total_error_nonneg t q V : 0 <= total_error t q V.
  Proof. apply Rsum_nonneg. intros a _. apply Rsum_nonneg. intros b _. apply pow2_ge_0. Qed.

  Lemma embed_subspaces : subspaces_kept ts c sk d m sp.
  Proof.
    intros q V eps Hq HV He. exists (fun t => exceeds (total_error t q V) (eps ^ 2)). assert (P : 0 < eps ^ 2) by (now apply pow_lt). split.
    - eapply Rle_trans; [apply markov; [exact P|intros; apply total_error_nonneg]|]. apply Rmult_le_compat_r; [apply Rlt_le, Rinv_0_lt_compat; exact P|]. now apply total_error_average.
    - intros t _ B z. apply embeds; auto. unfold exceeds in B. destruct (Rlt_dec (eps ^ 2) (total_error t q V)); [discriminate|lra].
  Qed.

  (** Sketch-and-solve: data A (n columns) and b in the subspace.  Outside the same set, every
      minimiser zs of the sketched residual |S(A z - b)| has a residual within a factor
      sqrt((1+eps)/(1-eps)) of the smallest one. *)
  Lemma embed_least_squares : 0 <= c -> least_squares_kept ts sk d m sp.
  Proof.
    intros Hi q V eps Hq HV He. destruct (embed_subspaces q V eps Hq HV He) as (bad & P & B). exists bad. split; [exact P|].
    intros t Ht Hb n C cb A b residual sketched zs Hmin z. specialize (B t Ht Hb).
    assert (R1 : forall z i, residual z i = combine q V (fun l => combine n C z l - cb l) i).
    { intros z' i. unfold residual, A, b, combine. rewrite (Rsum_ext (fun l => V l i * (Rsum (map (fun j => C j l * z' j) (range 0 n)) - cb l)) (fun l => V l i * Rsum (map (fun j => C j l * z' j) (range 0 n)) - V l i * cb l)) by (intros; lra). rewrite Rsum_minus. f_equal.
      rewrite (Rsum_ext _ (fun j => Rsum (map (fun l => V l i * (C j l * z' j)) (range 0 q)))) by (intros; rewrite Rsum_mul_r; apply Rsum_ext; intros; lra).
      rewrite Rsum_swap. apply Rsum_ext. intros l _. now rewrite Rsum_scal. }
    assert (S1 : forall z, sketched z = dot d (sk t (combine q V (fun l => combine n C z l - cb l))) (sk t (combine q V (fun l => combine n C z l - cb l)))).
    { intros z'. unfold sketched. apply dot_ext; intros i _; apply (proj2 (Lin t)); intros; apply R1. }
    assert (N1 : forall z, dot m (residual z) (residual z) = dot m (combine q V (fun l => combine n C z l - cb l)) (combine q V (fun l => combine n C z l - cb l))) by (intros; apply dot_ext; intros; apply R1).
    pose proof (B (fun l => combine n C zs l - cb l)) as B1. pose proof (B (fun l => combine n C z l - cb l)) as B2. cbv zeta in B1, B2. rewrite <- S1, <- N1 in B1, B2.
    specialize (Hmin z).
    apply (Rmult_le_compat_l _ _ _ Hi) in Hmin. apply abs_bounds in B1, B2. lra.
  Qed.
  Lemma embed_geometry : 0 <= c -> geometry_kept ts c sk d m sp.
  Proof. intros Hc. split; [exact IP|]. split; [exact embed_lengths|]. split; [exact embed_subspaces|now apply embed_least_squares]. Qed.
End Embed.
