(** What a BLAS may do to compute one entry of a matrix product in floating point. *)
From Coq Require Import ZArith Permutation.
From Flocq Require Import BinarySingleNaN.
From Verif Require Import Base RoundSpec2.

Section Evaluation.
  Context {prec emax : Z} {pp : FLX.Prec_gt_0 prec} {pe : Prec_lt_emax prec emax}.
  Local Notation bf := (binary_float prec emax).

  (** Sums of products of numbers: a list of products, each a list of factors. *)
  Definition products (P Q : list (list bf)) : list (list bf) := flat_map (fun m => map (fun n => m ++ n) Q) P.
  (** The same products, in any order, with their factors in any order. *)
  Definition same_sum (P Q : list (list bf)) : Prop := exists P', Permutation P P' /\ Forall2 (@Permutation bf) P' Q.

  (** [evaluates P x]: x can be computed from the numbers in P by some sequence of rounded
      additions, multiplications and fused multiply-adds that, in exact arithmetic, gives the
      sum of the products in P (each number used as often as it occurs). *)
  Inductive evaluates : list (list bf) -> bf -> Prop :=
  | ev_zero s : evaluates [] (B754_zero s)
  | ev_value x : evaluates [[x]] x
  | ev_add P Q x y : evaluates P x -> evaluates Q y -> evaluates (P ++ Q) (Bplus mode_NE x y)
  | ev_mul P Q x y : P <> [] -> Q <> [] -> evaluates P x -> evaluates Q y -> evaluates (products P Q) (Bmult mode_NE x y)
  | ev_fma P Q R x y z : P <> [] -> Q <> [] -> evaluates P x -> evaluates Q y -> evaluates R z ->
      evaluates (products P Q ++ R) (Bfma mode_NE x y z)
  (** multiplications by one *)
  | ev_one a P x : Beqb a Bone = true -> evaluates P x -> evaluates P (Bmult mode_NE a x)
  | ev_fma_one a P Q x z : Beqb a Bone = true -> evaluates P x -> evaluates Q z -> evaluates (P ++ Q) (Bfma mode_NE a x z)
  (** rearrangement *)
  | ev_same P Q x : same_sum P Q -> evaluates P x -> evaluates Q x.

  (** The products in alpha * sum of v*x + beta * c.  As in the BLAS standard a zero alpha
      (beta) means that the sum (c) is not used. *)
  Definition times (a : bf) (m : list bf) : list bf := if Beqb a Bone then m else a :: m.
  Definition entry_sum (alpha : bf) (p : list (bf * bf)) (beta c : bf) : list (list bf) :=
    (if Beqb alpha (B754_zero false) then [] else map (fun r => times alpha [fst r; snd r]) p) ++
    (if Beqb beta (B754_zero false) then [] else [times beta [c]]).
  (** y is computed in some such way.  (Nothing is said about an infinite alpha and an empty sum.) *)
  Definition computed (alpha : bf) (p : list (bf * bf)) (beta c y : bf) : Prop :=
    (p = [] -> is_finite alpha = true) -> evaluates (entry_sum alpha p beta c) y.
End Evaluation.
