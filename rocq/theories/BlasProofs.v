(** Ways to compute one entry of a product that [computed] allows. *)
From Coq Require Import ZArith Reals Lra Psatz Permutation.
From Flocq Require Import Core BinarySingleNaN.
From Verif Require Import Base Spec SpmmModel RoundModel RoundSpec RoundSpec2 RoundSpec3 RoundProofs RoundProofs6 RoundProofs7 RoundProofs8 GemmModel GemmSpec GemmProofs.

Section Entries.
  Context {prec emax : Z} {pp : Prec_gt_0 prec} {pe : Prec_lt_emax prec emax}.
  Local Notation bf := (binary_float prec emax).
  Local Notation zero := (B754_zero false : bf).
  Implicit Types (alpha beta c : bf) (p : list (bf * bf)).

  (** beta * c as BLAS libraries treat it. *)
  Definition scaled beta c : bf := if Beqb beta zero then zero else if Beqb beta Bone then c else Bmult mode_NE beta c.
  (** The reference BLAS (DGEMM, one of its loops): C is scaled by beta, then for every k
      temp = alpha * B(k,j) and C(i,j) = C(i,j) + temp * A(i,k); without and with fused
      multiply-add. *)
  Definition reference_entry alpha p beta c : bf :=
    if Beqb alpha zero then scaled beta c
    else fold_left (fun s r => Bplus mode_NE s (Bmult mode_NE (Bmult mode_NE alpha (snd r)) (fst r))) p (scaled beta c).
  Definition reference_fma_entry alpha p beta c : bf :=
    if Beqb alpha zero then scaled beta c
    else fold_left (fun s r => Bfma mode_NE (Bmult mode_NE alpha (snd r)) (fst r) s) p (scaled beta c).
  (** Sum with fused multiply-adds in the order k-1, ..., 0, then scale. *)
  Definition backward_entry alpha p beta c : bf :=
    if Beqb alpha zero then scaled beta c
    else Bplus mode_NE (Bmult mode_NE alpha (fold_right (fun r s => Bfma mode_NE (fst r) (snd r) s) zero p)) (scaled beta c).

  Definition beta_part beta c : list (list bf) := if Beqb beta zero then [] else [times beta [c]].
  Lemma same_refl (P : list (list bf)) : same_sum P P.
  Proof. exists P. split; [apply Permutation_refl|]. induction P; constructor; auto. Qed.
  Lemma same_perm (P Q : list (list bf)) : Permutation P Q -> same_sum P Q.
  Proof. intros H. exists Q. split; [exact H|]. apply same_refl || (clear; induction Q; constructor; auto). Qed.
  Lemma scale_ev (a : bf) P x : P <> [] -> evaluates P x -> evaluates (map (times a) P) (Bmult mode_NE a x).
  Proof.
    intros HP H. destruct (Beqb a Bone) eqn:E.
    - assert (EQ : map (times a) P = P) by (rewrite <- (map_id P) at 2; apply map_ext; intros m; unfold times; now rewrite E). rewrite EQ. now apply ev_one.
    - replace (map (times a) P) with (products [[a]] P); [apply ev_mul; auto; [discriminate|apply ev_value]|]. unfold products. cbn [flat_map]. rewrite app_nil_r. apply map_ext. intros m. unfold times. now rewrite E.
  Qed.
  Lemma times_perm (a : bf) m n : Permutation m n -> Permutation (times a m) (times a n).
  Proof. intros H. unfold times. destruct (Beqb a Bone); auto. Qed.
  Lemma scaled_ev beta c : evaluates (beta_part beta c) (scaled beta c).
  Proof.
    unfold beta_part, scaled. destruct (Beqb beta zero); [apply ev_zero|]. destruct (Beqb beta Bone) eqn:E; [unfold times; rewrite E; apply ev_value|].
    apply (scale_ev beta [[c]] c); [discriminate|apply ev_value].
  Qed.
  Lemma mult_ev beta c : evaluates (beta_part beta c) (if Beqb beta zero then zero else Bmult mode_NE beta c).
  Proof. unfold beta_part. destruct (Beqb beta zero); [apply ev_zero|]. apply (scale_ev beta [[c]] c); [discriminate|apply ev_value]. Qed.
  (** temp = alpha * x *)
  Lemma temp_ev alpha x : evaluates [times alpha [x]] (Bmult mode_NE alpha x).
  Proof. apply (scale_ev alpha [[x]] x); [discriminate|apply ev_value]. Qed.
  Lemma move_term (P : list (list bf)) m m' : Permutation m m' -> same_sum (P ++ [m]) (m' :: P).
  Proof.
    intros H. exists (m :: P). split; [symmetry; apply Permutation_cons_append|]. constructor; [exact H|]. clear. induction P; constructor; auto.
  Qed.
  Lemma temp_term alpha (v x : bf) : Permutation (times alpha [x] ++ [v]) (times alpha [v; x]).
  Proof. unfold times. destruct (Beqb alpha Bone); cbn [app]; [apply perm_swap|apply perm_skip, perm_swap]. Qed.

  Lemma fold_ev alpha (f : bf -> bf * bf -> bf) :
    (forall P s r, evaluates P s -> evaluates (times alpha [fst r; snd r] :: P) (f s r)) ->
    forall p P s, evaluates P s -> evaluates (map (fun r => times alpha [fst r; snd r]) p ++ P) (fold_left f p s).
  Proof.
    intros Hf p. induction p as [|r p IH]; intros P s H; [exact H|]. cbn [map fold_left]. apply (Hf P s r) in H. apply IH in H.
    refine (ev_same _ _ _ _ H). apply same_perm. cbn [app]. symmetry. apply Permutation_middle.
  Qed.
  Lemma reference_computed alpha p beta c : computed alpha p beta c (reference_entry alpha p beta c).
  Proof.
    intros _. unfold entry_sum, reference_entry. destruct (Beqb alpha zero); [apply scaled_ev|]. apply fold_ev; [|apply scaled_ev].
    intros P s [v x] H. cbn [fst snd]. refine (ev_same _ _ _ _ (ev_add _ _ _ _ H (ev_mul _ [[v]] _ v _ _ (temp_ev alpha x) (ev_value v)))); try discriminate.
    unfold products. cbn [flat_map map app]. apply move_term, temp_term.
  Qed.
  Lemma reference_fma_computed alpha p beta c : computed alpha p beta c (reference_fma_entry alpha p beta c).
  Proof.
    intros _. unfold entry_sum, reference_fma_entry. destruct (Beqb alpha zero); [apply scaled_ev|]. apply fold_ev; [|apply scaled_ev].
    intros P s [v x] H. cbn [fst snd]. refine (ev_same _ _ _ _ (ev_fma _ [[v]] _ _ v _ _ _ (temp_ev alpha x) (ev_value v) H)); try discriminate.
    unfold products. cbn [flat_map map app]. exists ((times alpha [x] ++ [v]) :: P). split; [apply Permutation_refl|]. constructor; [apply temp_term|]. clear. induction P; constructor; auto.
  Qed.
  Lemma dot_ev p : evaluates (map (fun r => [fst r; snd r]) p) (fold_left (fun s r => Bplus mode_NE s (Bmult mode_NE (fst r) (snd r))) p zero).
  Proof.
    assert (G : forall p P s, evaluates P s -> evaluates (P ++ map (fun r => [fst r; snd r]) p) (fold_left (fun s r => Bplus mode_NE s (Bmult mode_NE (fst r) (snd r))) p s)).
    { clear p. intros p. induction p as [|[v x] p IH]; intros P s H; [cbn; now rewrite app_nil_r|]. cbn [map fold_left fst snd].
      replace (P ++ [v; x] :: map (fun r => [fst r; snd r]) p) with ((P ++ [[v; x]]) ++ map (fun r => [fst r; snd r]) p) by now rewrite <- app_assoc. apply IH.
      apply ev_add; [exact H|]. exact (ev_mul [[v]] [[x]] v x ltac:(discriminate) ltac:(discriminate) (ev_value v) (ev_value x)). }
    apply (G p [] zero). apply ev_zero.
  Qed.
  Lemma bdot_ev p : evaluates (map (fun r => [fst r; snd r]) p) (fold_right (fun r s => Bfma mode_NE (fst r) (snd r) s) zero p).
  Proof.
    induction p as [|[v x] p IH]; [apply ev_zero|]. cbn [map fold_right fst snd].
    exact (ev_fma [[v]] [[x]] _ v x _ ltac:(discriminate) ltac:(discriminate) (ev_value v) (ev_value x) IH).
  Qed.
  Lemma times_map alpha p : map (times alpha) (map (fun r => [fst r; snd r]) p) = map (fun r => times alpha [fst r; snd r]) p.
  Proof. now rewrite map_map. Qed.
  Lemma alpha_ev alpha p (x : bf) : Beqb alpha zero = false -> (p = [] -> is_finite alpha = true /\ x = zero) -> evaluates (map (fun r => [fst r; snd r]) p) x ->
    evaluates (map (fun r => times alpha [fst r; snd r]) p) (Bmult mode_NE alpha x).
  Proof.
    intros E0 Hp H. rewrite <- times_map. destruct p as [|r p]; [|apply scale_ev; [discriminate|exact H]].
    destruct (Hp eq_refl) as [F ->]. cbn [map]. destruct alpha as [s|s| |s m e He]; try discriminate; exact (ev_zero _).
  Qed.
  Lemma backward_computed alpha p beta c : computed alpha p beta c (backward_entry alpha p beta c).
  Proof.
    intros Hp. unfold entry_sum, backward_entry. destruct (Beqb alpha zero) eqn:E0; [apply scaled_ev|].
    apply ev_add; [|apply scaled_ev]. apply alpha_ev; [exact E0| |apply bdot_ev]. intros ->. auto.
  Qed.
  Lemma textbook_computed alpha p beta c : computed alpha p beta c (textbook_entry (fops prec emax) alpha p beta c).
  Proof.
    intros Hp. unfold entry_sum, textbook_entry. cbn [fops o_eqb o_zero o_add o_mul]. destruct (Beqb alpha zero) eqn:E0; [apply mult_ev|].
    apply ev_add; [|apply mult_ev]. apply alpha_ev; [exact E0| |apply dot_ev]. intros ->. auto.
  Qed.
End Entries.
