(** Definitions read by the theorems on Gaussian entries (PropsGauss.v). *)
From Coq Require Import ZArith Reals.
From Flocq Require Import Core BinarySingleNaN.
From Verif Require Import Base Spec SparseSkopModel FloatModel PropsFloat IsoSpec.
Local Open Scope R_scope.

(** The Box-Muller transform in exact arithmetic, of two W-bit words: the angle is
    pi (2 s + 1) / 2^W for the word read as a signed integer s, the radius is
    sqrt(-2 ln u) with u = (2 w + 1) / 2^(W+1). *)
Definition angle (W u0 : Z) : R := PI * (IZR (2 * signed W u0 + 1) / IZR (2 ^ W)).
Definition radius2 (W u1 : Z) : R := -2 * ln (IZR (2 * u1 + 1) / IZR (2 ^ (W + 1))).
Definition box_muller (W u0 u1 : Z) : R * R :=
  (sin (angle W u0) * sqrt (radius2 W u1), cos (angle W u0) * sqrt (radius2 W u1)).

(** All pairs of elements of U. *)
Definition pairs {A} (U : list A) : list (A * A) := list_prod U U.

(** What is assumed of the C library: on arguments of magnitude at most 4, sincos returns
    finite values within eps of the sine and the cosine; for arguments in (0,1] log returns
    a finite value with relative error at most eps. *)
Definition libm_accurate {prec emax} (sincos : binary_float prec emax -> binary_float prec emax * binary_float prec emax)
    (log : binary_float prec emax -> binary_float prec emax) (eps : R) : Prop :=
  (forall x, is_finite x = true -> Rabs (B2R x) <= 4 ->
     is_finite (fst (sincos x)) = true /\ is_finite (snd (sincos x)) = true /\
     Rabs (B2R (fst (sincos x)) - sin (B2R x)) <= eps /\ Rabs (B2R (snd (sincos x)) - cos (B2R x)) <= eps) /\
  (forall x, is_finite x = true -> 0 < B2R x <= 1 ->
     is_finite (log x) = true /\ Rabs (B2R (log x) - ln (B2R x)) <= eps * Rabs (ln (B2R x))).
