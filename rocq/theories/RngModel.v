(** RNG states and generators: base.hh 60-164 and the Random123 interface it uses. *)
From Verif Require Import Base Spec.

(** A counter-based generator as RandBLAS sees it after the transformation [OP]
    (r123ext::boxmul or r123ext::uneg11): block length (ctr_type::static_size), counter
    width in bits, and the block produced from a counter and a key.
    Random123 is not part of /repo: [g_fun] is an arbitrary function. *)
Record generator (K W : Type) := mk_generator {
  g_len : Z;                       (* ctr_type::static_size *)
  g_bits : Z;                      (* total bits of the counter, 128 for Philox4x32 *)
  g_fun : Z -> K -> list W         (* OP::generate(rng, counter, key) *)
}.
Arguments g_len {K W} _.
Arguments g_bits {K W} _.
Arguments g_fun {K W} _ _ _.

(** base.hh 112: static_assert(len_c >= 2).  Block length is a C++ [int]. *)
Record wf_generator {K W} (g : generator K W) : Prop := {
  wf_len : 2 <= g_len g <= 2 ^ 16;
  wf_bits : 0 < g_bits g;
  wf_fun : forall c k, zlen (g_fun g c k) = g_len g
}.

(** base.hh 65-109: struct RNGState.  The counter array is the extended integer it
    represents (lines 82-96: "interpreted as one 128-bit unsigned int"). *)
Record rng_state (K : Type) := mk_state { counter : Z; key : K }.
Arguments mk_state {K} _ _.
Arguments counter {K} _.
Arguments key {K} _.

(** [ctr.incr(n)]: the argument is converted to a 64-bit unsigned integer
    (Random123 [incr(R123_ULONG_LONG n = 1)]) and added modulo the counter width. *)
Definition incr {K W} (g : generator K W) (c n : Z) : Z :=
  (c + n mod 2 ^ 64) mod 2 ^ (g_bits g).

Lemma incr_small {K W} (g : generator K W) c n :
  0 <= n < 2 ^ 64 -> incr g c n = (c + n) mod 2 ^ (g_bits g).
Proof. intros H. unfold incr. now rewrite (Z.mod_small n). Qed.

Lemma incr_incr {K W} (g : generator K W) c n m :
  0 < g_bits g -> 0 <= n -> 0 <= m -> n + m < 2 ^ 64 ->
  incr g (incr g c n) m = incr g c (n + m).
Proof.
  intros Hb Hn Hm H. rewrite !incr_small by lia.
  rewrite Zplus_mod_idemp_l. f_equal. lia.
Qed.

(** base.hh 254-268: safe_int_product<int64_t>.  [a * b] is evaluated first: overflow
    of a signed product is undefined behaviour.  The later division checks cannot fail
    when the product is representable.  Division [c / a] cannot overflow either, except
    INT64_MIN / -1, excluded because then a*b was not representable. *)
Definition safe_int_product (a b : Z) : outcome Z :=
  if (a =? 0) || (b =? 0) then Ok 0 else
  if negb (int64 (a * b)) then UB else
  let c := a * b in
  let b_check := Z.quot c a in
  let a_check := Z.quot c b in
  if negb (a_check =? a) || negb (b_check =? b) then Throw else Ok c.

Lemma safe_int_product_Ok a b : int64 (a * b) = true -> safe_int_product a b = Ok (a * b).
Proof.
  intros H. unfold safe_int_product.
  destruct (Z.eqb_spec a 0) as [->|Ha]; [reflexivity|].
  destruct (Z.eqb_spec b 0) as [->|Hb]; [cbn; f_equal; lia|]. cbn [orb].
  rewrite H. cbn [negb].
  rewrite Z.quot_mul by exact Hb. rewrite (Z.mul_comm a b), Z.quot_mul by exact Ha.
  rewrite !Z.eqb_refl. cbn. f_equal; lia.
Qed.
