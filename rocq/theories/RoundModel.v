(** The scalar operations of the sparse kernels on IEEE floating-point numbers. *)
From Coq Require Import ZArith Reals.
From Flocq Require Import Core BinarySingleNaN.
From Verif Require Import Base SpmmModel.

(** float and double as the type T of the kernels: operator+, operator*, the constants 0 and
    1, and operator== (csr_spmm_impl.hh 44-86, csc_spmm_impl.hh 44-86, coo_spmm_impl.hh
    107-162, util.hh 54-61, and blas::scal as called there).  Round to nearest even; every
    product is rounded before it is added (no fused multiply-add). *)
Definition fops (prec emax : Z) {pp : Prec_gt_0 prec} {pe : Prec_lt_emax prec emax} : ops (binary_float prec emax) :=
  {| o_add := Bplus mode_NE; o_mul := Bmult mode_NE; o_zero := B754_zero false; o_one := Bone; o_eqb := Beqb |}.
