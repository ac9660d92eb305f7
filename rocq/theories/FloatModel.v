(** IEEE binary32/binary64 values used by the samplers of util.hh and random_gen.hh.
    Arithmetic is Flocq's (round to nearest even, with overflow to infinity and NaN). *)
From Coq Require Import ZArith Reals.
From Flocq Require Import Core BinarySingleNaN.
From Verif Require Import Base RngModel SparseSkopModel.

Notation b32 := (binary_float 24 128).
Notation b64 := (binary_float 53 1024).
Definition prec32 : Prec_gt_0 24 := eq_refl.
Definition emax32 : Prec_lt_emax 24 128 := eq_refl.
Definition prec64 : Prec_gt_0 53 := eq_refl.
Definition emax64 : Prec_lt_emax 53 1024 := eq_refl.
#[export] Existing Instance prec32.
#[export] Existing Instance emax32.
#[export] Existing Instance prec64.
#[export] Existing Instance emax64.

Definition add32 : b32 -> b32 -> b32 := Bplus mode_NE.
Definition mul32 : b32 -> b32 -> b32 := Bmult mode_NE.
Definition div32 : b32 -> b32 -> b32 := Bdiv mode_NE.
Definition add64 : b64 -> b64 -> b64 := Bplus mode_NE.
Definition mul64 : b64 -> b64 -> b64 := Bmult mode_NE.
Definition div64 : b64 -> b64 -> b64 := Bdiv mode_NE.

(** Conversions from integers: (float) z, (double) z. *)
Definition of_Z32 (z : Z) : b32 := binary_normalize 24 128 _ _ mode_NE z 0 false.
Definition of_Z64 (z : Z) : b64 := binary_normalize 53 1024 _ _ mode_NE z 0 false.

(** Conversion float -> double, (double) x. *)
Definition to64 (x : b32) : b64 :=
  match x with
  | B754_zero s => B754_zero s
  | B754_infinity s => B754_infinity s
  | B754_nan => B754_nan
  | B754_finite s m e _ => binary_normalize 53 1024 _ _ mode_NE (cond_Zopp s (Zpos m)) e s
  end.

(** Random123/uniform.hpp (external; included at random_gen.hh 85 and called at
    random_gen.hh 180): uneg11<T,uintW_t>(in) = Stype(in)*factor + halffactor with
    factor = T(1)/(maxTvalue<Stype>() + T(1)), halffactor = T(0.5)*factor. *)
Definition half32 : b32 := div32 (of_Z32 1) (of_Z32 2).
Definition factor32 : b32 := div32 (of_Z32 1) (add32 (of_Z32 (2 ^ 31 - 1)) (of_Z32 1)).
Definition uneg11_32 (word : Z) : b32 :=
  add32 (mul32 (of_Z32 (to_sint 32 word)) factor32) (mul32 half32 factor32).

(** The same for 64-bit words, where T = double (random_gen.hh 171-172). *)
Definition half64 : b64 := div64 (of_Z64 1) (of_Z64 2).
Definition factor64 : b64 := div64 (of_Z64 1) (add64 (of_Z64 (2 ^ 63 - 1)) (of_Z64 1)).
Definition uneg11_64 (word : Z) : b64 :=
  add64 (mul64 (of_Z64 (to_sint 64 word)) factor64) (mul64 half64 factor64).

(** util.hh 434-437: uneg11_to_u01<TO>(in) for TO = float and TO = double, in : float. *)
Definition u01_32 (x : b32) : b32 := div32 (add32 x (of_Z32 1)) (of_Z32 2).
Definition u01_64 (x : b64) : b64 := div64 (add64 x (of_Z64 1)) (of_Z64 2).

(** util.hh 489-493: dN = (double) n; sample_index = (sint_t) dN * random_unif01.  The
    cast binds tighter than the product: dN is truncated to sint_t, converted back to
    double for the product, and the product is truncated.  (sint_t is wide enough.) *)
Definition uniform_index (n : Z) (x : b64) : Z :=
  Btrunc (mul64 (of_Z64 (Btrunc (of_Z64 n))) (u01_64 x)).
Definition uniform_index_32 (n : Z) (x : b32) : Z := uniform_index n (to64 x).

(* ------------------------------------------------------------------ *)
(** * Searching a CDF *)
Section LowerBound.
  Context {A B : Type}.
  Variable lt : A -> B -> bool.

  (** std::lower_bound (called at util.hh 464): the loop of the C++ standard library,
      first/len/half/middle; [fuel] bounds the number of iterations by len. *)
  Fixpoint lower_bound_loop (fuel : nat) (a : list A) (v : B) (first len : Z) : outcome Z :=
    match fuel with
    | O => Ok first
    | S fuel =>
        if len <=? 0 then Ok first else
        let half := Z.quot len 2 in
        x <- rd a (first + half) ;;
        if lt x v
        then lower_bound_loop fuel a v (first + half + 1) (len - half - 1)
        else lower_bound_loop fuel a v first half
    end.
  Definition lower_bound (a : list A) (n : Z) (v : B) : outcome Z :=
    lower_bound_loop (Z.to_nat n) a v 0 n.
End LowerBound.

(* ------------------------------------------------------------------ *)
(** * weights_to_cdf *)
Section Cdf.
  Context {A : Type}.
  (** Arithmetic of the scalar type: a+b, a*b, a/b, a<=b (false on NaN), constants, and
      the threshold (T) std::sqrt(n) * epsilon. *)
  Variables (add mul div : A -> A -> A) (leb : A -> A -> bool) (zero one : A) (thr : Z -> A).

  (** std::max(a,b) = (a < b) ? b : a, with a < b read as not (b <= a) when neither is
      NaN; here a passed the test a >= error_if_below, so it is not NaN. *)
  Definition fmax (a b : A) : A := if leb b a then a else b.

  (** util.hh 420-432: weights_to_cdf(n, w, error_if_below). *)
  Definition cdf_step (lo : A) (i : Z) (st : A * list A) : outcome (A * list A) :=
    let '(sum, w) := st in
    val <- rd w i ;;
    req (leb lo val) ;;
    let sum := add sum (fmax val zero) in
    w <- wr w i sum ;;
    Ok (sum, w).
  Definition scal (n : Z) (alpha : A) (w : list A) : outcome (list A) :=
    for_ 0 n (fun i w => x <- rd w i ;; wr w i (mul alpha x)) w.
  Definition weights_to_cdf (n : Z) (w : list A) (lo : A) : outcome (list A) :=
    '(sum, w) <- for_ 0 n (cdf_step lo) (zero, w) ;;
    req (leb (thr n) sum) ;;
    scal n (div one sum) w.
End Cdf.

(** Conversion double -> float, (float) x. *)
Definition to32 (x : b64) : b32 :=
  match x with
  | B754_zero s => B754_zero s
  | B754_infinity s => B754_infinity s
  | B754_nan => B754_nan
  | B754_finite s m e _ => binary_normalize 24 128 _ _ mode_NE (cond_Zopp s (Zpos m)) e s
  end.

(** util.hh 429: ((T) std::sqrt(n)) * std::numeric_limits<T>::epsilon(); std::sqrt of an
    int64_t is computed in double. *)
Definition eps32 : b32 := div32 (of_Z32 1) (of_Z32 (2 ^ 23)).
Definition eps64 : b64 := div64 (of_Z64 1) (of_Z64 (2 ^ 52)).
Definition thr32 (n : Z) : b32 := mul32 (to32 (Bsqrt mode_NE (of_Z64 n))) eps32.
Definition thr64 (n : Z) : b64 := mul64 (Bsqrt mode_NE (of_Z64 n)) eps64.

(** util.hh 420-432 at T = float and T = double. *)
Definition weights_to_cdf32 (n : Z) (w : list b32) (lo : b32) : outcome (list b32) :=
  weights_to_cdf add32 mul32 div32 Bleb (of_Z32 0) (of_Z32 1) thr32 n w lo.
Definition weights_to_cdf64 (n : Z) (w : list b64) (lo : b64) : outcome (list b64) :=
  weights_to_cdf add64 mul64 div64 Bleb (of_Z64 0) (of_Z64 1) thr64 n w lo.

(** util.hh 460-464: the index computed from one element x of rv_array, T = float or
    T = double, 32-bit generator.  [Bltb] is IEEE < (false on NaN). *)
Definition cdf_index32 (n : Z) (cdf : list b32) (x : b32) : outcome Z :=
  lower_bound Bltb cdf n (u01_32 x).
Definition cdf_index64 (n : Z) (cdf : list b64) (x : b32) : outcome Z :=
  lower_bound Bltb cdf n (u01_64 (to64 x)).

(** random_gen.hh 173-181: r123ext::uneg11::generate for a generator of 32-bit (64-bit)
    words: the transformation applied to each word of the block rng(c,k). *)
Definition unif32 {K} (raw : generator K Z) : generator K b32 :=
  mk_generator K b32 (g_len raw) (g_bits raw) (fun c k => map uneg11_32 (g_fun raw c k)).
Definition unif64 {K} (raw : generator K Z) : generator K b64 :=
  mk_generator K b64 (g_len raw) (g_bits raw) (fun c k => map uneg11_64 (g_fun raw c k)).

(** util.hh 490: (rv >= 0). *)
Definition nonneg32 (x : b32) : bool := Bleb (of_Z32 0) x.
Definition nonneg64 (x : b64) : bool := Bleb (of_Z64 0) x.

(** util.hh 477-506: sample_indices_iid_uniform, [rad = None] iff WriteRademachers is
    false; 32-bit and 64-bit generators. *)
Definition sample_indices_iid_uniform32 {K T} (raw : generator K Z) (one mone : T) (n k : Z)
    (samples : list Z) (rad : option (list T)) (st : rng_state K) :=
  sample_indices (unif32 raw) (fun x => Ok (uniform_index_32 n x)) nonneg32 one mone k samples rad st.
Definition sample_indices_iid_uniform64 {K T} (raw : generator K Z) (one mone : T) (n k : Z)
    (samples : list Z) (rad : option (list T)) (st : rng_state K) :=
  sample_indices (unif64 raw) (fun x => Ok (uniform_index n x)) nonneg64 one mone k samples rad st.

(** util.hh 453-474: sample_indices_iid<float> and sample_indices_iid<double>, 32-bit
    generator.  (The sign-related parameters of the shared loop are not used.) *)
Definition sample_indices_iid32 {K} (raw : generator K Z) (n : Z) (cdf : list b32) (k : Z)
    (samples : list Z) (st : rng_state K) :=
  sample_indices (unif32 raw) (cdf_index32 n cdf) nonneg32 tt tt k samples None st.
Definition sample_indices_iid64 {K} (raw : generator K Z) (n : Z) (cdf : list b64) (k : Z)
    (samples : list Z) (st : rng_state K) :=
  sample_indices (unif32 raw) (cdf_index64 n cdf) nonneg32 tt tt k samples None st.
