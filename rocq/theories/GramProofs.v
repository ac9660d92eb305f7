(** Gram matrices of perturbed sketches (for PropsGram.v). *)
From Verif Require Import Base Spec RngModel DenseModel SparseSkopModel SparseSpec IsoSpec IsoProofs StatSpec StatProofs NormSpec NormProofs NormProofs3 NormProofs4.
From Coq Require Import Lra.
Local Open Scope R_scope.

Lemma frob2_nonneg n m X : 0 <= frob2 n m X.
Proof. apply Rsum_nonneg. intros j _. apply dot_nonneg. Qed.

(** Sum over all pairs of columns. *)
Definition Rsum2 (n : Z) (f : Z -> Z -> R) : R := Rsum (map (fun p => f (fst p) (snd p)) (list_prod (range 0 n) (range 0 n))).
Lemma Rsum2_unfold n f : Rsum2 n f = Rsum (map (fun a => Rsum (map (fun b => f a b) (range 0 n))) (range 0 n)).
Proof. unfold Rsum2. rewrite Rsum_prod. apply Rsum_ext. intros a _. apply Rsum_ext. intros b _. reflexivity. Qed.

(** All inner products of the columns of two matrices. *)
Lemma cross n d u v : Rsum2 n (fun a b => dot d (u a) (v b) * dot d (u a) (v b)) <= frob2 n d u * frob2 n d v.
Proof.
  rewrite Rsum2_unfold. unfold frob2. rewrite Rsum_mul. apply Rsum_le. intros a _. apply Rsum_le. intros b _. apply cauchy_schwarz.
Qed.

Lemma minkowski2 n p q P Q : 0 <= P -> 0 <= Q ->
  Rsum2 n (fun a b => p a b * p a b) <= P * P -> Rsum2 n (fun a b => q a b * q a b) <= Q * Q ->
  Rsum2 n (fun a b => (p a b + q a b) * (p a b + q a b)) <= (P + Q) * (P + Q).
Proof.
  intros HP HQ A B. unfold Rsum2 in *.
  pose proof (minkowski (list_prod (range 0 n) (range 0 n)) (fun x => p (fst x) (snd x)) (fun x => q (fst x) (snd x)) P Q 1 ltac:(lra) HP HQ) as M.
  cbv beta in M. rewrite !Rmult_1_l in M. now apply M.
Qed.

Lemma dot_plus_l n x x' y : dot n (fun i => x i + x' i) y = dot n x y + dot n x' y.
Proof. unfold dot. rewrite <- Rsum_plus. apply Rsum_ext. intros; lra. Qed.
Lemma dot_plus_r n x y y' : dot n x (fun i => y i + y' i) = dot n x y + dot n x y'.
Proof. unfold dot. rewrite <- Rsum_plus. apply Rsum_ext. intros; lra. Qed.
Lemma dot_scal n c x y : dot n (fun i => c * x i) (fun i => c * y i) = c * c * dot n x y.
Proof. unfold dot. rewrite <- Rsum_scal. apply Rsum_ext. intros; lra. Qed.

Lemma perturb n d w E F A rho : 0 <= F -> 0 <= A -> 0 <= rho ->
  frob2 n d w <= A * A * F -> frob2 n d E <= rho * rho * F ->
  Rsum2 n (fun a b => (dot d (fun i => w a i + E a i) (fun i => w b i + E b i) - dot d (w a) (w b)) *
                      (dot d (fun i => w a i + E a i) (fun i => w b i + E b i) - dot d (w a) (w b)))
    <= ((2 * A * rho + rho * rho) * F) * ((2 * A * rho + rho * rho) * F).
Proof.
  intros HF HA Hr Hw HE. pose proof (frob2_nonneg n d w) as N1. pose proof (frob2_nonneg n d E) as N2.
  assert (B1 : Rsum2 n (fun a b => dot d (w a) (E b) * dot d (w a) (E b)) <= (A * rho * F) * (A * rho * F)).
  { eapply Rle_trans; [apply cross|]. apply (Rle_trans _ (A * A * F * (rho * rho * F))); [now apply Rmult_le_compat|right; ring]. }
  assert (B2 : Rsum2 n (fun a b => dot d (E a) (w b) * dot d (E a) (w b)) <= (A * rho * F) * (A * rho * F)).
  { eapply Rle_trans; [apply cross|]. apply (Rle_trans _ (rho * rho * F * (A * A * F))); [now apply Rmult_le_compat|right; ring]. }
  assert (B3 : Rsum2 n (fun a b => dot d (E a) (E b) * dot d (E a) (E b)) <= (rho * rho * F) * (rho * rho * F)).
  { eapply Rle_trans; [apply cross|]. now apply Rmult_le_compat. }
  assert (P1 : 0 <= A * rho * F) by (apply Rmult_le_pos; [apply Rmult_le_pos|]; assumption).
  assert (P3 : 0 <= rho * rho * F) by (apply Rmult_le_pos; [apply Rmult_le_pos|]; assumption).
  pose proof (minkowski2 n _ _ _ _ P1 P1 B1 B2) as M1. assert (P2 : 0 <= A * rho * F + A * rho * F) by lra.
  pose proof (minkowski2 n _ _ _ _ P2 P3 M1 B3) as M2.
  match type of M2 with ?l <= ?r => replace ((2 * A * rho + rho * rho) * F * ((2 * A * rho + rho * rho) * F)) with r by ring end.
  eapply Rle_trans; [|exact M2]. right. unfold Rsum2. apply Rsum_ext. intros [a b] _. cbn [fst snd]. rewrite !dot_plus_l, !dot_plus_r. ring.
Qed.

(** The squared length of a combination of columns depends on the Gram matrix only. *)
Lemma combine_gap n d e P Q z K : 0 <= K ->
  Rsum2 n (fun a b => (dot d (P a) (P b) - dot e (Q a) (Q b)) * (dot d (P a) (P b) - dot e (Q a) (Q b))) <= K * K ->
  Rabs (dot d (combine n P z) (combine n P z) - dot e (combine n Q z) (combine n Q z)) <= K * dot n z z.
Proof.
  intros HK HE. set (g := fun a b => dot d (P a) (P b) - dot e (Q a) (Q b)) in *. change (Rsum2 n (fun a b => g a b * g a b) <= K * K) in HE.
  assert (Ex : dot d (combine n P z) (combine n P z) - dot e (combine n Q z) (combine n Q z) = Rsum2 n (fun a b => z a * z b * g a b)).
  { rewrite Rsum2_unfold, !gram_combine, <- Rsum_minus. apply Rsum_ext. intros a _. rewrite <- Rsum_minus. apply Rsum_ext. intros b _. unfold g. ring. }
  rewrite Ex. pose proof (cauchy_schwarz (fun p => z (fst p) * z (snd p)) (fun p => g (fst p) (snd p)) (list_prod (range 0 n) (range 0 n))) as C. cbv beta in C.
  assert (C1 : Rsum (map (fun p => z (fst p) * z (snd p) * (z (fst p) * z (snd p))) (list_prod (range 0 n) (range 0 n))) = dot n z z * dot n z z).
  { rewrite Rsum_prod. unfold dot. rewrite Rsum_mul. apply Rsum_ext. intros a _. apply Rsum_ext. intros b _. cbn [fst snd]. lra. }
  rewrite C1 in C. fold (Rsum2 n (fun a b => z a * z b * g a b)) in C. fold (Rsum2 n (fun a b => g a b * g a b)) in C. clear Ex C1.
  pose proof (dot_nonneg n z) as Hz. set (Zz := dot n z z) in *. set (S := Rsum2 n (fun a b => z a * z b * g a b)) in *. set (G := Rsum2 n (fun a b => g a b * g a b)) in *. clearbody Zz S G.
  assert (C3 : S * S <= (K * Zz) * (K * Zz)). { eapply Rle_trans; [exact C|]. replace (K * Zz * (K * Zz)) with (Zz * Zz * (K * K)) by ring. apply Rmult_le_compat_l; [nra|exact HE]. }
  assert (0 <= K * Zz) by (apply Rmult_le_pos; lra). apply Rabs_le. split; nra.
Qed.

Section Computed.
  Context {T : Type}.
  Variable ts : list T.
  Variable sc : R.
  Variable sk : T -> (Z -> R) -> Z -> R.
  Variables d m n : Z.
  Variable v : R.
  Hypothesis Hsc : 0 <= sc.
  Hypothesis HIP : inner_products_kept ts sc sk d m v.
  Variable X : Z -> Z -> R.
  Variable Y : T -> Z -> Z -> R.
  Notation F := (frob2 n m X).
  Variables A rho : R.
  Hypothesis HF : 0 < F.
  Hypothesis HA : 0 <= A.
  Hypothesis Hrho : 0 <= rho.
  Hypothesis Hw : forall t, In t ts -> sc * frob2 n d (fun j => sk t (X j)) <= A * A * F.
  Hypothesis HE : forall t, In t ts -> frob2 n d (fun j i => Y t j i - sqrt sc * sk t (X j) i) <= rho * rho * F.

  Let err t a b := sc * dot d (sk t (X a)) (sk t (X b)) - dot m (X a) (X b).
  Lemma err_average : average ts (fun t => Rsum2 n (fun a b => err t a b * err t a b)) <= v * (F * F).
  Proof using HIP.
    unfold Rsum2. rewrite average_sum. apply (Rle_trans _ (Rsum (map (fun p => v * (dot m (X (fst p)) (X (fst p)) * dot m (X (snd p)) (X (snd p)))) (list_prod (range 0 n) (range 0 n))))).
    - apply Rsum_le. intros [a b] _. cbn [fst snd]. eapply Rle_trans; [|apply (HIP (X a) (X b))]. right. unfold average. f_equal. apply Rsum_ext. intros t _. unfold err. ring.
    - right. rewrite Rsum_scal. f_equal. rewrite Rsum_prod. cbn [fst snd]. unfold frob2. rewrite Rsum_mul. reflexivity.
  Qed.
  Lemma gap_bound t : In t ts -> forall e, 0 <= e -> Rsum2 n (fun a b => err t a b * err t a b) <= e * F * (e * F) ->
    gram_gap n d (Y t) m X <= (e + (2 * A * rho + rho * rho)) * F.
  Proof using Hsc HF HA Hrho Hw HE.
    intros Ht e He B. unfold gram_gap. assert (PF : 0 <= F) by lra.
    set (w := fun j i => sqrt sc * sk t (X j) i). set (E := fun j i => Y t j i - sqrt sc * sk t (X j) i).
    assert (Ww : frob2 n d w <= A * A * F).
    { eapply Rle_trans; [|exact (Hw t Ht)]. right. unfold frob2. rewrite <- Rsum_scal. apply Rsum_ext. intros j _. unfold w. rewrite dot_scal, sqrt_sqrt by exact Hsc. reflexivity. }
    pose proof (perturb n d w E F A rho PF HA Hrho Ww (HE t Ht)) as Pt.
    assert (Q0 : 0 <= (2 * A * rho + rho * rho) * F).
    { apply Rmult_le_pos; [|exact PF]. assert (0 <= A * rho) by now apply Rmult_le_pos. assert (0 <= rho * rho) by now apply Rmult_le_pos. lra. }
    pose proof (minkowski2 n _ _ (e * F) _ ltac:(now apply Rmult_le_pos) Q0 B Pt) as M.
    rewrite <- (sqrt_square ((e + (2 * A * rho + rho * rho)) * F)) by (rewrite Rmult_plus_distr_r; apply Rplus_le_le_0_compat; [now apply Rmult_le_pos|exact Q0]).
    apply sqrt_le_1_alt. rewrite Rmult_plus_distr_r. eapply Rle_trans; [|exact M]. right. rewrite Rsum2_unfold. apply Rsum_ext. intros a _. apply Rsum_ext. intros b _.
    assert (EY : forall j, dot d (fun i => w a i + E a i) (fun i => w j i + E j i) = dot d (Y t a) (Y t j)) by (intros j; apply dot_ext; intros; unfold w, E; ring).
    rewrite EY. unfold err, w. rewrite dot_scal, sqrt_sqrt by exact Hsc. ring.
  Qed.
  Lemma gram_computed e : 0 < e -> probability ts (fun t => exceeds (gram_gap n d (Y t) m X) ((e + (2 * A * rho + rho * rho)) * F)) <= v / e ^ 2.
  Proof.
    intros He. assert (C0 : 0 < e * F) by (apply Rmult_lt_0_compat; assumption). assert (C : 0 < e * F * (e * F)) by (apply Rmult_lt_0_compat; assumption).
    apply (Rle_trans _ (probability ts (fun t => exceeds (Rsum2 n (fun a b => err t a b * err t a b)) (e * F * (e * F))))).
    - unfold probability. apply average_le. intros t Ht. unfold exceeds, indicator.
      destruct (Rlt_dec _ (gram_gap n d (Y t) m X)) as [L|L]; [|destruct (Rlt_dec _ _); lra].
      destruct (Rlt_dec (e * F * (e * F)) _) as [L'|L']; [lra|]. exfalso. apply Rnot_lt_le in L'. pose proof (gap_bound t Ht e ltac:(lra) L'). lra.
    - eapply Rle_trans; [apply markov; [exact C|]|].
      + intros t _. unfold Rsum2. apply Rsum_nonneg. intros; apply Rle_0_sqr.
      + eapply Rle_trans; [apply Rmult_le_compat_r; [apply Rlt_le, Rinv_0_lt_compat, C|apply err_average]|]. right. field. split; lra.
  Qed.
End Computed.
