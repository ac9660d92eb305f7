(** Contraction of multiply-add expressions by the compiler.

    C and C++ compilers may compute x*y + z with one rounding (fused multiply-add; default of
    GCC on machines that have the instruction), differently at every place and iteration.  The
    kernels are run on expressions; an expression then has several possible values. *)
From Coq Require Import ZArith.
From Flocq Require Import BinarySingleNaN.
From Verif Require Import Base SpmmModel.

Section Contract.
  Context {prec emax : Z} {pp : FLX.Prec_gt_0 prec} {pe : Prec_lt_emax prec emax}.
  Local Notation bf := (binary_float prec emax).

  (** A number, or a sum or product still to be rounded. *)
  Inductive expr := EVal (x : bf) | EAdd (a b : expr) | EMul (a b : expr).

  (** The type T of the kernels (csr_spmm_impl.hh 44-86, csc_spmm_impl.hh 44-86,
      coo_spmm_impl.hh 107-162, util.hh 54-61, blas::axpy and blas::scal as called there).
      Only alpha and beta are compared, and they are numbers. *)
  Definition eops : ops expr :=
    {| o_add := EAdd; o_mul := EMul; o_zero := EVal (B754_zero false); o_one := EVal Bone;
       o_eqb a b := match a, b with EVal x, EVal y => Beqb x y | _, _ => false end |}.

  (** The values an expression can have: each sum of a product and something else is rounded
      once or twice.  (More than the compiler may do: a product and a sum in different
      statements are never contracted.) *)
  Inductive gives : expr -> bf -> Prop :=
  | g_val x : gives (EVal x) x
  | g_add a b x y : gives a x -> gives b y -> gives (EAdd a b) (Bplus mode_NE x y)
  | g_mul a b x y : gives a x -> gives b y -> gives (EMul a b) (Bmult mode_NE x y)
  | g_fma_l a b c x y z : gives a x -> gives b y -> gives c z -> gives (EAdd (EMul a b) c) (Bfma mode_NE x y z)
  | g_fma_r a b c x y z : gives a x -> gives b y -> gives c z -> gives (EAdd c (EMul a b)) (Bfma mode_NE x y z).

  (** The value without contraction. *)
  Fixpoint plain (e : expr) : bf :=
    match e with EVal x => x | EAdd a b => Bplus mode_NE (plain a) (plain b) | EMul a b => Bmult mode_NE (plain a) (plain b) end.
End Contract.
Arguments expr : clear implicits.
