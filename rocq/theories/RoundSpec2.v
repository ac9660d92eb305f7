(** What a finite entry of a floating-point product with a sparse matrix says about the exact
    one, whatever the size of the values. *)
From Coq Require Import ZArith Reals.
From Flocq Require Import Core BinarySingleNaN.
From Verif Require Import Base RoundSpec.

Section Bounds.
  Context {prec emax : Z}.
  Local Notation bf := (binary_float prec emax).
  Local Open Scope R_scope.
  Definition zero_f (x : bf) : Prop := exists s, x = B754_zero s.
  (** Everything that enters alpha * sum of v*x + beta * c is finite; a zero alpha (beta) hides
      the sum (c). *)
  Definition used_finite (alpha : bf) (p : list (bf * bf)) (beta c : bf) : Prop :=
    (zero_f alpha \/ p = [] \/ is_finite alpha = true /\ forall v x, In (v, x) p -> is_finite v = true /\ is_finite x = true) /\
    (zero_f beta \/ is_finite beta = true /\ is_finite c = true).
  (** Half the smallest positive number: the largest error of a product that underflows. *)
  Definition half_tiny : R := bpow radix2 (3 - emax - prec - 1).
  (** Underflow errors are multiplied by alpha and by roundings later on. *)
  Definition underflow (alpha : bf) (p : list (bf * bf)) : R :=
    half_tiny * (Rtotal (map (fun q => 1 + Rabs (B2R alpha) + Rabs (B2R (fst q)) + Rabs (B2R (snd q))) p) + 1).
  (** y is within n relative roundings and the underflow term of the exact cell. *)
  Definition near (n : Z) (alpha : bf) (p : list (bf * bf)) (beta c y : bf) : Prop :=
    let q := (1 + bpow radix2 (- prec)) ^ Z.to_nat n in
    Rabs (B2R y - exact_cell alpha p beta c) <= (q - 1) * size_cell alpha p beta c + q * underflow alpha p.
  Definition finite_near (alpha : bf) (p : list (bf * bf)) (beta c y : bf) : Prop :=
    is_finite y = true -> used_finite alpha p beta c /\ near (zlen p + 2) alpha p beta c y.
  (** No intermediate result can overflow, whatever the order of the operations. *)
  Definition unless_zero (x : bf) (r : R) : R := match x with B754_zero _ => 0 | _ => r end.
  Definition total_size (alpha : bf) (p : list (bf * bf)) (beta c : bf) : R :=
    unless_zero alpha ((1 + Rabs (B2R alpha)) * Rtotal (map (fun q => (1 + Rabs (B2R (fst q))) * (1 + Rabs (B2R (snd q)))) p)) +
    unless_zero beta ((1 + Rabs (B2R beta)) * (1 + Rabs (B2R c))).
  Definition no_overflow (alpha : bf) (p : list (bf * bf)) (beta c : bf) : Prop :=
    (1 + bpow radix2 (- prec)) ^ Z.to_nat (zlen p + 2) * total_size alpha p beta c <= bpow radix2 (emax - 1).
  Definition surely_near (alpha : bf) (p : list (bf * bf)) (beta c y : bf) : Prop :=
    used_finite alpha p beta c -> no_overflow alpha p beta c -> is_finite y = true /\ near (zlen p + 2) alpha p beta c y.
End Bounds.
