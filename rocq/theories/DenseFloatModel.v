(** Uniform dense entries with the floating-point values the code produces. *)
From Coq Require Import ZArith Reals.
From Flocq Require Import Core BinarySingleNaN.
From Verif Require Import Base RngModel FloatModel IsoSpec.

(** dense_skops.hh 562: (T)std::sqrt(3).  std::sqrt of an int is computed in double. *)
Definition sqrt3_64 : b64 := Bsqrt mode_NE (of_Z64 3).
Definition sqrt3_32 : b32 := to32 sqrt3_64.
(** dense_skops.hh 562: one step of blas::scal(n, (T)std::sqrt(3), buff, 1). *)
Definition scal3_32 (x : b32) : b32 := mul32 sqrt3_32 x.
Definition scal3_64 (x : b64) : b64 := mul64 sqrt3_64 x.

(** random_gen.hh 170-181: the block that uneg11 makes of a block of raw words, for all
    blocks of L words. *)
Definition uneg11_blocks32 (L : Z) : list (list b32) := map (map uneg11_32) (tapes (Z.to_nat L) (range 0 (2 ^ 32))).
Definition uneg11_blocks64 (L : Z) : list (list b64) := map (map uneg11_64) (tapes (Z.to_nat L) (range 0 (2 ^ 64))).
