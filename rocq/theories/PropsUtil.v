(** Utilities: layout changes (C49), triangles and transposes (C50), safe_int_product (C51),
    RNG states (C53), the symmetry check (C54).

    Definitions read by these statements: [mat l ld 0 A i j] (Spec.v), entry (i,j) of the
    matrix stored in A; [fits_buffer] (SpmmSpec.v), the matrix lies in the buffer;
    [square_result], [in_triangle], [asymmetric] (UtilSpec.v); [words_val], [words_ok]
    (RngWordsProofs.v), the integer an array of words represents. *)
From Coq Require Import Reals Lra.
From Flocq Require Import Core BinarySingleNaN Plus_error.
From Verif Require Import Base Spec RngModel DenseModel SparseSkopModel SpmmModel SpmmSpec UtilModel UtilSpec UtilProofs RngWordsModel RngWordsProofs SketchModel FloatModel PropsSpmm.
Open Scope Z_scope.

(* ------------------------------------------------------------------ *)
(** * C49 *)

(** The matrix is the same when read in the other layout with the other leading dimension,
    and the vector has exactly the length the new layout needs. *)
Theorem C49_flip_layout {T} (zero : T) : forall l m n (A : list T) lda_in lda_out, 0 <= m -> 0 <= n ->
  fits_buffer l lda_in m n (zlen A) -> min_ld (flip l) m n <= lda_out ->
  exists A', flip_layout zero l m n A lda_in lda_out = Ok A' /\
    zlen A' = lda_out * (match l with ColMajor => m | RowMajor => n end) /\
    forall i j, 0 <= i < m -> 0 <= j < n -> mat (flip l) lda_out 0 A' i j = mat l lda_in 0 A i j.
Proof. intros. now apply flip_layout_spec. Qed.
Print Assumptions C49_flip_layout.

(** Flipping back gives the matrix in its first layout. *)
Theorem C49_flip_twice {T} (zero : T) : forall l m n (A : list T) lda_in lda_out, 0 <= m -> 0 <= n ->
  fits_buffer l lda_in m n (zlen A) -> min_ld (flip l) m n <= lda_out ->
  exists A1 A2, flip_layout zero l m n A lda_in lda_out = Ok A1 /\ flip_layout zero (flip l) m n A1 lda_out lda_in = Ok A2 /\
    forall i j, 0 <= i < m -> 0 <= j < n -> mat l lda_in 0 A2 i j = mat l lda_in 0 A i j.
Proof.
  intros l m n A lda_in lda_out Hm Hn F Ho. destruct (flip_layout_spec zero l m n A lda_in lda_out Hm Hn F Ho) as (A1 & E1 & L1 & G1).
  destruct (flip_layout_spec zero (flip l) m n A1 lda_out lda_in Hm Hn) as (A2 & E2 & L2 & G2).
  - split; [exact Ho|]. intros i j Hi Hj. rewrite L1. destruct l; cbn [flip min_ld addr] in *; nia.
  - destruct F as [F _]. now destruct l.
  - exists A1, A2. split; [exact E1|]. split; [exact E2|]. intros i j Hi Hj. replace (flip (flip l)) with l in G2 by (now destruct l). rewrite G2, G1; auto.
Qed.
Print Assumptions C49_flip_twice.

(** Leading dimensions that are too small are rejected whatever the vector. *)
Theorem C49_rejects {T} (zero : T) : forall l m n (A : list T) lda_in lda_out,
  lda_in < min_ld l m n \/ lda_out < min_ld (flip l) m n -> flip_layout zero l m n A lda_in lda_out = Throw.
Proof.
  intros l m n A lda_in lda_out H. unfold flip_layout. destruct l; cbn [min_ld flip] in H.
  - destruct (lda_in >=? m) eqn:E; [|reflexivity]. replace (lda_out >=? n) with false by lia. reflexivity.
  - destruct (lda_in >=? n) eqn:E; [|reflexivity]. replace (lda_out >=? m) with false by lia. reflexivity.
Qed.
Print Assumptions C49_rejects.
Example C49_case :
  fits_buffer ColMajor 3 2 3 (zlen [1; 2; 77; 3; 4; 77; 5; 6]) /\
  flip_layout 0 ColMajor 2 3 [1; 2; 77; 3; 4; 77; 5; 6] 3 4 = Ok [1; 3; 5; 3; 2; 4; 6; 6] /\
  flip_layout 0 RowMajor 2 3 [1; 3; 5; 3; 2; 4; 6; 6] 4 3 = Ok [1; 2; 5; 3; 4; 4; 5; 6; 0].
Proof. split; [apply fits_check_ok; reflexivity|]. split; reflexivity. Qed.

(* ------------------------------------------------------------------ *)
(** * C50 *)

(** The named triangle and the diagonal stay, the other triangle mirrors them. *)
Theorem C50_symmetrize {T} (zero : T) : forall l u n (A : list T) lda, fits_buffer l lda n n (zlen A) ->
  exists A', symmetrize l u n A lda = Ok A' /\
    square_result l n lda A (fun i j => match u with
      | Upper => if i <=? j then mat l lda 0 A i j else mat l lda 0 A j i
      | Lower => if j <=? i then mat l lda 0 A i j else mat l lda 0 A j i
      | General => mat l lda 0 A i j end) A'.
Proof. intros. now apply symmetrize_spec. Qed.
(** The result is symmetric. *)
Theorem C50_symmetrize_symmetric {T} (zero : T) : forall l u n (A : list T) lda, fits_buffer l lda n n (zlen A) -> u <> General ->
  exists A', symmetrize l u n A lda = Ok A' /\ forall i j, 0 <= i < n -> 0 <= j < n -> mat l lda 0 A' i j = mat l lda 0 A' j i.
Proof.
  intros l u n A lda F Hu. destruct (symmetrize_spec zero l u n A lda F) as (A' & E & (_ & G & _)). exists A'. split; [exact E|].
  intros i j Hi Hj. rewrite !G by assumption. destruct u; [| |congruence].
  - destruct (Z.leb_spec i j), (Z.leb_spec j i); try reflexivity; try lia. now replace i with j by lia.
  - destruct (Z.leb_spec i j), (Z.leb_spec j i); try reflexivity; try lia. now replace i with j by lia.
Qed.
(** Exactly the entries on or beyond the k-th diagonal become zero. *)
Theorem C50_overwrite_triangle {T} (zero : T) : forall l u n k (A : list T) lda, 0 <= k -> fits_buffer l lda n n (zlen A) -> u <> General ->
  exists A', overwrite_triangle zero l u n k A lda = Ok A' /\
    square_result l n lda A (fun i j => if in_triangle u k i j then Some zero else mat l lda 0 A i j) A'.
Proof. intros. now apply overwrite_triangle_spec. Qed.
Theorem C50_overwrite_rejects {T} (zero : T) : forall l n k (A : list T) lda, overwrite_triangle zero l General n k A lda = Throw.
Proof. intros. unfold overwrite_triangle. now rewrite strides_pair. Qed.
(** A negative offset is not rejected: the first write of the call is outside the buffer. *)
Theorem C50_negative_offset_refuted {T} (zero : T) : forall l u n k (A : list T) lda,
  k < 0 -> 1 <= n -> 1 <= lda -> u <> General -> overwrite_triangle zero l u n k A lda = UB.
Proof. intros. now apply overwrite_triangle_neg. Qed.
(** In-place transposition, for either layout, and twice is the identity. *)
Theorem C50_transpose_square {T} (zero : T) : forall l n (A : list T) lda, fits_buffer l lda n n (zlen A) ->
  exists A', transpose_square A n lda = Ok A' /\ square_result l n lda A (fun i j => mat l lda 0 A j i) A'.
Proof.
  intros l n A lda F. assert (fits_buffer ColMajor lda n n (zlen A)) as F'.
  { destruct l; [exact F|]. destruct F as [F1 F2]. split; [exact F1|]. intros i j Hi Hj. specialize (F2 j i Hj Hi). cbn [addr] in *. lia. }
  destruct (transpose_square_spec zero n A lda F') as (A' & E & (L & G & N)). exists A'. split; [exact E|]. destruct l; [exact (conj L (conj G N))|].
  split; [exact L|]. split.
  - intros i j Hi Hj. specialize (G j i Hj Hi). unfold mat in *. cbn [addr] in *. rewrite (Z.add_comm (i * lda)), (Z.add_comm (j * lda)) in *. exact G.
  - intros p Hp. apply N. intros i j Hi Hj. specialize (Hp j i Hj Hi). cbn [addr] in *. lia.
Qed.
Theorem C50_transpose_involution {T} (zero : T) : forall n (A : list T) lda, fits_buffer ColMajor lda n n (zlen A) ->
  (A1 <- transpose_square A n lda ;; transpose_square A1 n lda) = Ok A.
Proof. intros. now apply transpose_square_involutive. Qed.
Print Assumptions C50_symmetrize.
Print Assumptions C50_symmetrize_symmetric.
Print Assumptions C50_overwrite_triangle.
Print Assumptions C50_overwrite_rejects.
Print Assumptions C50_negative_offset_refuted.
Print Assumptions C50_transpose_square.
Print Assumptions C50_transpose_involution.
Example C50_case :
  let A := [1; 2; 3; 77; 4; 5; 6; 77; 7; 8; 9] in
  fits_buffer ColMajor 4 3 3 (zlen A) /\
  symmetrize ColMajor Upper 3 A 4 = Ok [1; 4; 7; 77; 4; 5; 8; 77; 7; 8; 9] /\
  overwrite_triangle 0 ColMajor Lower 3 1 A 4 = Ok [1; 0; 0; 77; 4; 5; 0; 77; 7; 8; 9] /\
  overwrite_triangle 0 ColMajor Upper 3 0 A 4 = Ok [0; 2; 3; 77; 0; 0; 6; 77; 0; 0; 0] /\
  overwrite_triangle 0 ColMajor Upper 3 (-1) A 4 = UB /\
  transpose_square A 3 4 = Ok [1; 4; 7; 77; 2; 5; 8; 77; 3; 6; 9].
Proof. cbn zeta. split; [apply fits_check_ok; reflexivity|]. vm_compute. auto 10. Qed.

(* ------------------------------------------------------------------ *)
(** * C51 *)

(** A product that fits is returned. *)
Theorem C51_product_partial : forall a b, int64 (a * b) = true -> safe_int_product a b = Ok (a * b).
Proof. exact safe_int_product_Ok. Qed.
(** A product that does not fit is computed all the same: undefined behaviour, never the
    documented exception. *)
Theorem C51_overflow_refuted : forall a b, int64 (a * b) = false -> safe_int_product a b = UB.
Proof.
  intros a b H. unfold safe_int_product. destruct (Z.eqb_spec a 0) as [->|]; [discriminate|]. destruct (Z.eqb_spec b 0) as [->|]; [rewrite Z.mul_0_r in H; discriminate|].
  cbn [orb]. now rewrite H.
Qed.
(** With a compiler that wraps signed products the check is exact, except for the two pairs
    that make INT64_MIN / -1. *)
Theorem C51_wrapping : forall a b, int64 a = true -> int64 b = true ->
  safe_int_product_wrap a b =
    if int64 (a * b) then Ok (a * b)
    else if (a =? -1) && (b =? - 2 ^ 63) || (b =? -1) && (a =? - 2 ^ 63) then UB else Throw.
Proof. exact wrap_spec. Qed.
Print Assumptions C51_product_partial.
Print Assumptions C51_overflow_refuted.
Print Assumptions C51_wrapping.
Example C51_case :
  safe_int_product (2 ^ 31) (- 2 ^ 32) = Ok (- 2 ^ 63) /\ safe_int_product (2 ^ 31) (2 ^ 32) = UB /\
  safe_int_product_wrap (2 ^ 31) (2 ^ 32) = Throw /\ safe_int_product_wrap (2 ^ 32) (2 ^ 32) = Throw /\ safe_int_product_wrap (- 2 ^ 63) (-1) = UB.
Proof. vm_compute. auto. Qed.

(* ------------------------------------------------------------------ *)
(** * C53 *)
Section States.
Variable wb : Z.
Hypothesis Hwb : 0 < wb.
Variables len_c len_k : nat.
Notation kbits := (wb * Z.of_nat len_k).
Definition wstate_ok (s : wstate) : Prop :=
  words_ok wb (w_counter s) /\ words_ok wb (w_key s) /\ length (w_counter s) = len_c /\ length (w_key s) = len_k.

(** RNGState(k): counter zero, key k as one integer. *)
Theorem C53_key_constructor : forall k, 0 <= k < 2 ^ 64 -> 64 <= kbits ->
  let s := wstate_of_uint64 wb len_c len_k k in
  wstate_ok s /\ words_val wb (w_counter s) = 0 /\ words_val wb (w_key s) = k.
Proof using Hwb.
  intros k Hk Hb. cbn zeta. unfold wstate_of_uint64, wstate_ok. cbn [w_counter w_key].
  split; [split; [now apply zeros_ok|]; split; [now apply incr_words_ok, zeros_ok|]; split; [apply repeat_length|]; rewrite incr_words_length; apply repeat_length|].
  split; [apply zeros_val|]. rewrite incr_words_val by (assumption || now apply zeros_ok). rewrite zeros_val, repeat_length, (Z.mod_small k) by lia.
  apply Z.mod_small. split; [lia|]. eapply Z.lt_le_trans; [apply Hk|]. apply Z.pow_le_mono_r; lia.
Qed.
(** The other constructors: all words zero; all counter words zero and the given key. *)
Theorem C53_other_constructors : forall k, words_ok wb k -> length k = len_k ->
  (let s := wstate_default len_c len_k in wstate_ok s /\ words_val wb (w_counter s) = 0 /\ words_val wb (w_key s) = 0) /\
  (let s := wstate_of_key len_c k in wstate_ok s /\ words_val wb (w_counter s) = 0 /\ w_key s = k).
Proof using Hwb.
  intros k Hk Lk. cbn zeta. unfold wstate_default, wstate_of_key, wstate_ok. cbn [w_counter w_key]. rewrite !zeros_val, !repeat_length.
  repeat split; auto; now apply zeros_ok.
Qed.
(** The extended-integer reading of incr that the rest of the model uses. *)
Theorem C53_incr_is_integer_addition : forall v n, words_ok wb v ->
  words_ok wb (incr_words wb v n) /\ length (incr_words wb v n) = length v /\
  words_val wb (incr_words wb v n) = (words_val wb v + n mod 2 ^ 64) mod 2 ^ (wb * Z.of_nat (length v)).
Proof using Hwb. intros v n H. split; [now apply incr_words_ok|]. split; [apply incr_words_length|]. now apply incr_words_val. Qed.
(** operator== is equality of all words, equivalently of the two integers. *)
Theorem C53_equality_exact : forall s t, wstate_ok s -> wstate_ok t ->
  exists r, wstate_eq len_c len_k s t = Ok r /\ (r = true <-> s = t) /\
    (r = true <-> words_val wb (w_counter s) = words_val wb (w_counter t) /\ words_val wb (w_key s) = words_val wb (w_key t)).
Proof using Hwb.
  intros [c k] [c' k'] (C1 & K1 & LC1 & LK1) (C2 & K2 & LC2 & LK2). cbn [w_counter w_key] in *. unfold wstate_eq. cbn [w_counter w_key].
  pose proof (words_eq_spec len_c [] [] c c' LC1 LC2 eq_refl) as E1. pose proof (words_eq_spec len_k [] [] k k' LK1 LK2 eq_refl) as E2. cbn [app] in E1, E2.
  change (zlen []) with 0 in E1, E2. rewrite E1. cbn [bind].
  destruct (list_eq_dec Z.eq_dec c c') as [->|N1].
  - rewrite E2. eexists. split; [reflexivity|]. destruct (list_eq_dec Z.eq_dec k k') as [->|N2]; [tauto|].
    split; split; try discriminate; [congruence|]. intros [_ H]. exfalso. apply N2. apply (val_inj wb Hwb); auto. congruence.
  - exists false. split; [reflexivity|]. split; split; try discriminate; [congruence|]. intros [H _]. exfalso. apply N1. apply (val_inj wb Hwb); auto. congruence.
Qed.
(** Different integers make different states if the key has at least 64 bits. *)
Theorem C53_distinct_keys : forall k k', 0 <= k < 2 ^ 64 -> 0 <= k' < 2 ^ 64 -> k <> k' -> 64 <= kbits ->
  wstate_eq len_c len_k (wstate_of_uint64 wb len_c len_k k) (wstate_of_uint64 wb len_c len_k k') = Ok false.
Proof using Hwb.
  intros k k' Hk Hk' N Hb. destruct (C53_key_constructor k Hk Hb) as (O1 & C1 & K1). destruct (C53_key_constructor k' Hk' Hb) as (O2 & C2 & K2).
  destruct (C53_equality_exact _ _ O1 O2) as (r & E & _ & H). rewrite E. f_equal. destruct r; [|reflexivity]. exfalso. apply N. rewrite <- K1, <- K2. now apply H.
Qed.
(** With a narrower key (Philox2x32 has 32 bits) integers that agree modulo its width make
    the same state. *)
Theorem C53_narrow_keys_collide : forall k k', 0 <= k < 2 ^ 64 -> 0 <= k' < 2 ^ 64 -> k mod 2 ^ kbits = k' mod 2 ^ kbits ->
  wstate_of_uint64 wb len_c len_k k = wstate_of_uint64 wb len_c len_k k'.
Proof using Hwb.
  intros k k' Hk Hk' E. unfold wstate_of_uint64. f_equal. apply (val_inj wb Hwb); try now apply incr_words_ok, zeros_ok.
  - now rewrite !incr_words_length.
  - rewrite !incr_words_val by (assumption || now apply zeros_ok). now rewrite zeros_val, repeat_length, !Z.add_0_l, !(Z.mod_small _ (2 ^ 64)) by lia.
Qed.
(** Advancing by a and then by b is advancing by a + b, word for word. *)
Theorem C53_advance_adds : forall v a b, words_ok wb v -> 0 <= a -> 0 <= b -> a + b < 2 ^ 64 ->
  incr_words wb (incr_words wb v a) b = incr_words wb v (a + b).
Proof using Hwb.
  intros v a b Hv Ha Hb Hab. apply (val_inj wb Hwb); try (repeat apply incr_words_ok; assumption).
  - now rewrite !incr_words_length.
  - rewrite !incr_words_val by (repeat apply incr_words_ok; assumption). rewrite incr_words_length, !(Z.mod_small _ (2 ^ 64)) by lia. rewrite Zplus_mod_idemp_l. f_equal. lia.
Qed.
(** Assignment copies every word; the source is read only. *)
Theorem C53_assignment : forall s t, wstate_ok s -> wstate_ok t -> wstate_assign len_c len_k s t = Ok t.
Proof using.
  intros [c k] [c' k'] (_ & _ & L1 & L2) (_ & _ & L3 & L4). cbn [w_counter w_key] in *. unfold wstate_assign. cbn [w_counter w_key].
  rewrite <- L3. rewrite memcpy_spec by congruence. cbn [bind]. rewrite <- L4. rewrite memcpy_spec by congruence. reflexivity.
Qed.
End States.
Print Assumptions C53_key_constructor.
Print Assumptions C53_other_constructors.
Print Assumptions C53_incr_is_integer_addition.
Print Assumptions C53_equality_exact.
Print Assumptions C53_distinct_keys.
Print Assumptions C53_narrow_keys_collide.
Print Assumptions C53_advance_adds.
Print Assumptions C53_assignment.
(** Philox4x32: four 32-bit counter words, two key words. *)
Example C53_case :
  w_key (wstate_of_uint64 32 4 2 (2 ^ 33 + 5)) = [5; 2] /\ w_counter (wstate_of_uint64 32 4 2 7) = [0; 0; 0; 0] /\
  wstate_eq 4 2 (wstate_of_uint64 32 4 2 (2 ^ 33 + 5)) (wstate_of_uint64 32 4 2 5) = Ok false /\
  wstate_of_uint64 32 2 1 (2 ^ 33 + 5) = wstate_of_uint64 32 2 1 5 /\
  incr_words 32 [4294967295; 4294967295; 7; 0] 1 = [0; 0; 8; 0] /\
  incr_words 32 [4294967295; 4294967295; 7; 0] (2 ^ 63) = [4294967295; 2147483647; 8; 0] /\
  wstate_assign 4 2 (wstate_of_uint64 32 4 2 9) (mk_wstate [1; 2; 3; 4] [5; 6]) = Ok (mk_wstate [1; 2; 3; 4] [5; 6]).
Proof. vm_compute. auto 10. Qed.

(* ------------------------------------------------------------------ *)
(** * C54 *)

(** For any scalar type: the check raises iff tol < 0 is false and some pair i < j satisfies
    the comparison |x - y| > (|x| + |y| + 1) * tol as evaluated by the scalar type. *)
Theorem C54_exact {T} (O : ops T) (Q : cmp_ops T) : forall l (A : list T) n lda tol, fits_buffer l lda n n (zlen A) ->
  (require_symmetric O Q l A n lda tol = Throw <-> o_ltb Q tol (o_zero O) = false /\ asymmetric O Q l A n lda tol) /\
  (require_symmetric O Q l A n lda tol = Ok tt <-> o_ltb Q tol (o_zero O) = true \/ ~ asymmetric O Q l A n lda tol).
Proof. intros. now apply require_symmetric_spec. Qed.
Print Assumptions C54_exact.

(** Real arithmetic. *)
Definition rltb (x y : R) : bool := if Rlt_dec x y then true else false.
Definition rops : ops R := {| o_add := Rplus; o_mul := Rmult; o_zero := 0%R; o_one := 1%R; o_eqb := fun x y => if Req_EM_T x y then true else false |}.
Definition rcmp : cmp_ops R := {| o_sub := Rminus; o_abs := Rabs; o_ltb := rltb |}.
Lemma rltb_true x y : rltb x y = true <-> (x < y)%R. Proof. unfold rltb. destruct (Rlt_dec x y); split; auto; discriminate || tauto. Qed.
Theorem C54_exact_real : forall l (A : list R) n lda tol, fits_buffer l lda n n (zlen A) ->
  (require_symmetric rops rcmp l A n lda tol = Throw <->
   (0 <= tol)%R /\ exists i j x y, 0 <= i < n /\ 0 <= j < n /\ mat l lda 0 A i j = Some x /\ mat l lda 0 A j i = Some y /\
     (Rabs (x - y) > tol * (Rabs x + Rabs y + 1))%R) /\
  require_symmetric rops rcmp l A n lda tol <> UB.
Proof.
  intros l A n lda tol F. destruct (require_symmetric_spec rops rcmp l A n lda tol F) as [H1 H2]. split.
  - rewrite H1. cbn [rops rcmp o_ltb o_zero]. split.
    + intros [E (i & j & x & y & Hi & Hj & Gx & Gy & HL)]. split; [apply Rnot_lt_le; intros X; apply rltb_true in X; congruence|].
      exists i, j, x, y. split; [lia|]. split; [lia|]. split; [exact Gx|]. split; [exact Gy|]. cbn [rcmp rops o_ltb o_mul o_add o_abs o_one o_sub] in HL. apply rltb_true in HL. lra.
    + intros [E (i & j & x & y & Hi & Hj & Gx & Gy & HL)]. split; [destruct (rltb tol 0) eqn:X; [apply rltb_true in X; lra|reflexivity]|].
      destruct (Z.lt_trichotomy i j) as [L|[->|L]].
      * exists i, j, x, y. split; [lia|]. split; [lia|]. split; [exact Gx|]. split; [exact Gy|]. cbn. apply rltb_true. lra.
      * rewrite Gx in Gy. injection Gy as <-. rewrite Rminus_eq_0, Rabs_R0 in HL. pose proof (Rabs_pos x). exfalso.
        assert (0 <= tol * (Rabs x + Rabs x + 1))%R by (apply Rmult_le_pos; lra). lra.
      * exists j, i, y, x. split; [lia|]. split; [lia|]. split; [exact Gy|]. split; [exact Gx|]. cbn. apply rltb_true. rewrite Rabs_minus_sym. lra.
  - intros U. destruct (rltb tol 0) eqn:E.
    + assert (require_symmetric rops rcmp l A n lda tol = Ok tt) by (apply H2; now left). congruence.
    + assert (~ asymmetric rops rcmp l A n lda tol) as N. { intros X. assert (require_symmetric rops rcmp l A n lda tol = Throw) by (apply H1; auto). congruence. }
      assert (require_symmetric rops rcmp l A n lda tol = Ok tt) by (apply H2; now right). congruence.
Qed.
Print Assumptions C54_exact_real.

(** Floating-point arithmetic of any format; float and double are (24,128) and (53,1024). *)
Section Float.
Variables (prec emax : Z).
Context (prec_gt_0_ : Prec_gt_0 prec) (prec_lt_emax_ : Prec_lt_emax prec emax).
Definition fops : ops (binary_float prec emax) :=
  {| o_add := Bplus mode_NE; o_mul := Bmult mode_NE; o_zero := B754_zero false; o_one := Bone; o_eqb := Beqb |}.
Definition fcmp : cmp_ops (binary_float prec emax) := {| o_sub := Bminus mode_NE; o_abs := Babs; o_ltb := Bltb |}.

(** At tolerance 0 the comparison of a pair is exact: it fails iff the two numbers differ,
    provided |x| + |y| + 1 does not overflow. *)
Lemma pair_exact (x y : binary_float prec emax) : is_finite x = true -> is_finite y = true ->
  is_finite (Bplus mode_NE (Bplus mode_NE (Babs x) (Babs y)) Bone) = true ->
  (Bltb (Bmult mode_NE (Bplus mode_NE (Bplus mode_NE (Babs x) (Babs y)) Bone) (B754_zero false)) (Babs (Bminus mode_NE x y)) = true <-> B2R x <> B2R y).
Proof using prec_gt_0_ prec_lt_emax_.
  intros Fx Fy Fs. set (s := Bplus _ _ _) in *. clearbody s.
  pose proof (Bmult_correct prec emax _ _ mode_NE s (B754_zero false)) as M. cbn [B2R] in M. rewrite Rmult_0_r, round_0, Rabs_R0 in M by apply valid_rnd_round_mode.
  rewrite Rlt_bool_true in M by apply bpow_gt_0. destruct M as (M1 & M2 & _). rewrite Fs in M2. cbn [is_finite andb] in M2.
  set (z := Bmult _ _ _) in *. clearbody z.
  pose proof (Bminus_correct prec emax _ _ mode_NE x y Fx Fy) as D.
  destruct (Rlt_bool_spec (Rabs (round radix2 (SpecFloat.fexp prec emax) (round_mode mode_NE) (B2R x - B2R y))) (bpow radix2 emax)) as [L|L].
  - destruct D as (D1 & D2 & _). rewrite Bltb_correct by (rewrite ?is_finite_Babs; assumption). rewrite M1, B2R_Babs, D1. split.
    + intros H E. rewrite E, Rminus_eq_0, round_0, Rabs_R0 in H by apply valid_rnd_round_mode. rewrite Rlt_bool_false in H by lra. discriminate.
    + intros N. apply Rlt_bool_true. apply Rabs_pos_lt. unfold Rminus. apply round_plus_neq_0; try typeclasses eauto.
      * apply generic_format_B2R.
      * apply generic_format_opp, generic_format_B2R.
      * intros X. apply N. lra.
  - destruct D as (D1 & _). split; [|intros _].
    + intros _ E. rewrite E, Rminus_eq_0, round_0, Rabs_R0 in L by apply valid_rnd_round_mode. pose proof (bpow_gt_0 radix2 emax). lra.
    + destruct (Bminus mode_NE x y) as [b|b| |b m e H]; cbn in D1; destruct (Bsign x); try discriminate; destruct z; try discriminate; cbn in M1; destruct b; reflexivity || discriminate.
Qed.
Theorem C54_float_tolerance_zero : forall l (A : list (binary_float prec emax)) n lda, fits_buffer l lda n n (zlen A) ->
  (forall i j x y, 0 <= i < n -> 0 <= j < n -> mat l lda 0 A i j = Some x -> mat l lda 0 A j i = Some y ->
     is_finite x = true /\ is_finite (Bplus mode_NE (Bplus mode_NE (Babs x) (Babs y)) Bone) = true) ->
  (require_symmetric fops fcmp l A n lda (B754_zero false) = Throw <->
   exists i j x y, 0 <= i < n /\ 0 <= j < n /\ mat l lda 0 A i j = Some x /\ mat l lda 0 A j i = Some y /\ B2R x <> B2R y).
Proof using prec_gt_0_ prec_lt_emax_.
  intros l A n lda F HF. destruct (require_symmetric_spec fops fcmp l A n lda (B754_zero false) F) as [H1 _]. rewrite H1. cbn [fops fcmp o_ltb o_zero]. split.
  - intros [_ (i & j & x & y & Hi & Hj & Gx & Gy & HL)]. exists i, j, x, y. split; [lia|]. split; [lia|]. split; [exact Gx|]. split; [exact Gy|].
    destruct (HF i j x y) as [Fx Fs]; auto; try lia. destruct (HF j i y x) as [Fy _]; auto; try lia. exact (proj1 (pair_exact x y Fx Fy Fs) HL).
  - intros (i & j & x & y & Hi & Hj & Gx & Gy & N). split; [reflexivity|].
    destruct (Z.lt_trichotomy i j) as [L|[->|L]]; [| congruence |].
    + exists i, j, x, y. split; [lia|]. split; [lia|]. split; [exact Gx|]. split; [exact Gy|]. destruct (HF i j x y) as [Fx Fs]; auto. destruct (HF j i y x) as [Fy _]; auto.
      exact (proj2 (pair_exact x y Fx Fy Fs) N).
    + exists j, i, y, x. split; [lia|]. split; [lia|]. split; [exact Gy|]. split; [exact Gx|]. destruct (HF j i y x) as [Fy Fs]; auto. destruct (HF i j x y) as [Fx _]; auto.
      exact (proj2 (pair_exact y x Fy Fx Fs) (not_eq_sym N)).
Qed.
End Float.
Print Assumptions C54_float_tolerance_zero.
(** A NaN off the diagonal is not reported, although the documented comparison
    |x - y| / (|x| + |y| + 1) <= tol is false. *)
Theorem C54_nan_refuted : forall x tol : binary_float 53 1024,
  require_symmetric (fops 53 1024 _ _) (fcmp 53 1024 _ _) ColMajor [Bone; B754_nan; x; Bone] 2 2 tol = Ok tt.
Proof.
  intros x tol. destruct (require_symmetric_spec (fops 53 1024 _ _) (fcmp 53 1024 _ _) ColMajor [Bone; B754_nan; x; Bone] 2 2 tol) as [_ H]; [apply fits_check_ok; reflexivity|].
  apply H. right. intros (i & j & a & b & Hi & Hj & Ga & Gb & HL). assert (i = 0) as -> by lia. assert (j = 1) as -> by lia. cbn in Ga, Gb. injection Ga as <-. injection Gb as <-.
  cbn in HL. destruct (Babs x) as [[]|[]| |[] ? ? ?], tol as [[]|[]| |[] ? ? ?]; cbn in HL; try discriminate.
Qed.
Print Assumptions C54_nan_refuted.
(** The largest double against its opposite passes at tolerance 0: |x| + |y| is infinite
    and infinity times 0 is NaN. *)
Definition dbl_max : binary_float 53 1024 := Bmax_float.
Theorem C54_overflow_refuted :
  require_symmetric (fops 53 1024 _ _) (fcmp 53 1024 _ _) ColMajor [Bone; dbl_max; Bopp dbl_max; Bone] 2 2 (B754_zero false) = Ok tt.
Proof. vm_compute. reflexivity. Qed.
Print Assumptions C54_overflow_refuted.
Example C54_case :
  let x := of_Z64 7 in let y := of_Z64 8 in
  fits_buffer RowMajor 3 2 2 (zlen [x; x; y; y; x]) /\
  require_symmetric (fops 53 1024 _ _) (fcmp 53 1024 _ _) RowMajor [x; x; y; y; x] 2 3 (B754_zero false) = Throw /\
  require_symmetric (fops 53 1024 _ _) (fcmp 53 1024 _ _) RowMajor [x; x; y; x; x] 2 3 (B754_zero false) = Ok tt.
Proof. cbn zeta. split; [apply fits_check_ok; reflexivity|]. split; vm_compute; reflexivity. Qed.
