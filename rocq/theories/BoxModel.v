(** Gaussian entries: boxmulall and boxmul::generate of random_gen.hh, the sincospi wrappers
    of that file, and Random123's boxmuller, which it calls. *)
From Coq Require Import ZArith Reals.
From Flocq Require Import Core BinarySingleNaN.
From Verif Require Import Base RngModel FloatModel.

Section BoxMulAll.
  Context {W F : Type}.
  (** r123::boxmuller(u0, u1) (Random123/boxmuller.hpp, external): two words to two values. *)
  Variable bm : W -> W -> F * F.
  (** Contents of the uninitialised std::array ro (line 108). *)
  Variable junk : F.

  (** random_gen.hh 109-116: the loop of boxmulall over nit = static_size / 2 pairs. *)
  Definition boxmulall_loop (ri : list W) (ro : list F) : outcome (list F) :=
    for_ 0 (Z.quot (zlen ri) 2) (fun i ro =>
      u0 <- rd ri (2 * i) ;;
      u1 <- rd ri (2 * i + 1) ;;
      let '(v0, v1) := bm u0 u1 in
      ro <- wr ro (2 * i) v0 ;;
      wr ro (2 * i + 1) v1) ro.
  (** random_gen.hh 105-118: boxmulall. *)
  Definition boxmulall (ri : list W) : outcome (list F) := boxmulall_loop ri (repeat junk (length ri)).
  (** The array that boxmulall returns (it always returns one: C64). *)
  Definition boxmul_block (ri : list W) : list F := match boxmulall ri with Ok ro => ro | _ => [] end.

  (** random_gen.hh 142-150: boxmul::generate, as a generator made of the raw generator. *)
  Definition boxmul_gen {K} (g : generator K W) : generator K F :=
    mk_generator K F (g_len g) (g_bits g) (fun c k => boxmul_block (g_fun g c k)).
End BoxMulAll.

Section BoxMuller.
  Context {prec emax : Z} {Hp : Prec_gt_0 prec} {He : Prec_lt_emax prec emax}.
  Notation bf := (binary_float prec emax).
  (** The C library: sincos (random_gen.hh 50-58 for platforms without it) and log. *)
  Variable sincos : bf -> bf * bf.
  Variable log : bf -> bf.
  Variables pi mtwo : bf.
  Variables uneg11 u01 : Z -> bf.

  (** random_gen.hh 63-71: sincospif, sincospi. *)
  Definition sincospi (x : bf) : bf * bf := sincos (Bmult mode_NE pi x).
  (** Random123/boxmuller.hpp (external):
        sincospi(uneg11(u0), &x, &y);  r = sqrt(-2 * log(u01(u1)));  x *= r;  y *= r; *)
  Definition boxmuller (u0 u1 : Z) : bf * bf :=
    let '(x, y) := sincospi (uneg11 u0) in
    let r := Bsqrt mode_NE (Bmult mode_NE mtwo (log (u01 u1))) in
    (Bmult mode_NE x r, Bmult mode_NE y r).
End BoxMuller.

(** random_gen.hh 64, 69: the constants 3.1415926535897932f and 3.1415926535897932, rounded
    to the nearest float and double. *)
Definition pi32 : b32 := @B754_finite 24 128 false 13176795 (-22) eq_refl.
Definition pi64 : b64 := @B754_finite 53 1024 false 7074237752028440 (-51) eq_refl.

(** Random123/uniform.hpp (external): u01<T>(in) = Utype(in)*factor + halffactor with
    factor = T(1)/(T(maxTvalue<Utype>()) + T(1)), halffactor = T(0.5)*factor. *)
Definition ufactor32 : b32 := div32 (of_Z32 1) (add32 (of_Z32 (2 ^ 32 - 1)) (of_Z32 1)).
Definition word01_32 (word : Z) : b32 := add32 (mul32 (of_Z32 word) ufactor32) (mul32 half32 ufactor32).
Definition ufactor64 : b64 := div64 (of_Z64 1) (add64 (of_Z64 (2 ^ 64 - 1)) (of_Z64 1)).
Definition word01_64 (word : Z) : b64 := add64 (mul64 (of_Z64 word) ufactor64) (mul64 half64 ufactor64).

(** r123::boxmuller(uint32_t, uint32_t) and r123::boxmuller(uint64_t, uint64_t). *)
Definition boxmuller_32 (sincosf : b32 -> b32 * b32) (logf : b32 -> b32) : Z -> Z -> b32 * b32 :=
  boxmuller sincosf logf pi32 (of_Z32 (-2)) uneg11_32 word01_32.
Definition boxmuller_64 (sincos : b64 -> b64 * b64) (log : b64 -> b64) : Z -> Z -> b64 * b64 :=
  boxmuller sincos log pi64 (of_Z64 (-2)) uneg11_64 word01_64.
