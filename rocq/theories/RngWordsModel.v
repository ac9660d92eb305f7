(** RNGState at the level of its word arrays: base.hh 65-164.

    Everywhere else a counter is one integer ([RngModel.rng_state]); here it is the array
    of words that it is in memory, and RngWordsProofs.v shows that the two agree.

    Random123's arrays are not part of /repo.  [incr_words] follows r123array's member
    incr(R123_ULONG_LONG n) of Random123/array.h, which base.hh 119 and every sampler call. *)
From Verif Require Import Base.

(** Words are unsigned integers of [wb] bits, the first one the least significant. *)
Section Words.
  Variable wb : Z.

  (** incr_carefully: the increment does not fit in a word.  [vtn] is the increment
      truncated to a word; the carry is detected by comparing with it.  The early exit when
      nothing is left to add only saves time and is kept. *)
  Fixpoint incr_carefully (v : list Z) (n : Z) : list Z :=
    match v with
    | [] => []
    | x :: r =>
        let vtn := n mod 2 ^ wb in
        let x' := (x + n) mod 2 ^ wb in
        let n' := (if wb <? 64 then n / 2 ^ wb else 0) + (if x' <? vtn then 1 else 0) in
        x' :: (if n' =? 0 then r else incr_carefully r n')
    end.
  (** The chain of increments of the following words: stops at the first that does not wrap. *)
  Fixpoint carry (v : list Z) : list Z :=
    match v with
    | [] => []
    | x :: r => let x' := (x + 1) mod 2 ^ wb in x' :: (if x' =? 0 then carry r else r)
    end.
  (** incr. [n] is converted to 64 bits on the call. *)
  Definition incr_words (v : list Z) (n : Z) : list Z :=
    let n := n mod 2 ^ 64 in
    if (wb <? 64) && negb (n / 2 ^ wb =? 0) then incr_carefully v n else
    match v with
    | [] => []
    | x :: r => let x' := (x + n) mod 2 ^ wb in x' :: (if n <=? x' then r else carry r)
    end.

  (** base.hh 65-114: struct RNGState: counter and key arrays. *)
  Record wstate := mk_wstate { w_counter : list Z; w_key : list Z }.

  Variables len_c len_k : nat.
  (** base.hh 116: RNGState(). *)
  Definition wstate_default : wstate := mk_wstate (repeat 0 len_c) (repeat 0 len_k).
  (** base.hh 119: RNGState(uint64_t k). *)
  Definition wstate_of_uint64 (k : Z) : wstate := mk_wstate (repeat 0 len_c) (incr_words (repeat 0 len_k) k).
  (** base.hh 122: RNGState(key_type const &k). *)
  Definition wstate_of_key (k : list Z) : wstate := mk_wstate (repeat 0 len_c) k.

  (** std::memcpy of len words. *)
  Definition memcpy (len : nat) (dst src : list Z) : outcome (list Z) :=
    for_ 0 (Z.of_nat len) (fun i d => x <- rd src i ;; wr d i x) dst.
  (** base.hh 139-143: operator=. *)
  Definition wstate_assign (s t : wstate) : outcome wstate :=
    c <- memcpy len_c (w_counter s) (w_counter t) ;;
    k <- memcpy len_k (w_key s) (w_key t) ;;
    Ok (mk_wstate c k).

  (** The comparison loops of base.hh 149-157: returns at the first difference. *)
  Fixpoint words_eq (len : nat) (i : Z) (a b : list Z) : outcome bool :=
    match len with
    | O => Ok true
    | S len => x <- rd a i ;; y <- rd b i ;; if x =? y then words_eq len (i + 1) a b else Ok false
    end.
  (** base.hh 149-158: operator==.  (operator!=, 160-162, compares a pointer with an
      object: it does not compile if used, and is not modelled.) *)
  Definition wstate_eq (s t : wstate) : outcome bool :=
    c <- words_eq len_c 0 (w_counter s) (w_counter t) ;;
    if c then words_eq len_k 0 (w_key s) (w_key t) else Ok false.
End Words.

(** base.hh 254-268: safe_int_product<int64_t> if the compiler is told that signed
    arithmetic wraps (-fwrapv).  INT64_MIN / -1 still traps.  The function under the rules of
    the language is [RngModel.safe_int_product]. *)
Definition wrap64 (z : Z) : Z := (z + 2 ^ 63) mod 2 ^ 64 - 2 ^ 63.
Definition safe_int_product_wrap (a b : Z) : outcome Z :=
  if (a =? 0) || (b =? 0) then Ok 0 else
  let c := wrap64 (a * b) in
  if ((a =? -1) || (b =? -1)) && (c =? - 2 ^ 63) then UB else
  let b_check := Z.quot c a in
  let a_check := Z.quot c b in
  if negb (a_check =? a) || negb (b_check =? b) then Throw else Ok c.
