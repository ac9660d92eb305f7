From Verif Require Import Base Spec RngModel RngWordsModel.

(** The integer an array of words represents, least significant word first. *)
Fixpoint words_val (wb : Z) (v : list Z) : Z :=
  match v with [] => 0 | x :: r => x + 2 ^ wb * words_val wb r end.
(** Arrays whose elements are words. *)
Definition words_ok (wb : Z) (v : list Z) : Prop := Forall (fun x => 0 <= x < 2 ^ wb) v.

Section Proofs.
  Variable wb : Z.
  Hypothesis Hwb : 0 < wb.
  Notation B := (2 ^ wb).

  Lemma Bpos : 2 <= B.
  Proof using Hwb. replace 2 with (2 ^ 1) by reflexivity. apply Z.pow_le_mono_r; lia. Qed.

  Lemma val_bound v : words_ok wb v -> 0 <= words_val wb v < 2 ^ (wb * Z.of_nat (length v)).
  Proof using Hwb.
    pose proof Bpos. induction v as [|x r IH]; intros H0; cbn [words_val length]; [rewrite Z.mul_0_r; cbn; lia|]. inversion H0; subst.
    specialize (IH H4). replace (wb * Z.of_nat (S (length r))) with (wb + wb * Z.of_nat (length r)) by lia. rewrite Z.pow_add_r by lia. nia.
  Qed.
  Lemma val_inj v v' : words_ok wb v -> words_ok wb v' -> length v = length v' -> words_val wb v = words_val wb v' -> v = v'.
  Proof using Hwb.
    pose proof Bpos. revert v'. induction v as [|x r IH]; intros [|x' r'] H1 H2 HL HV; try discriminate; [reflexivity|].
    inversion H1; inversion H2; subst. cbn [words_val] in HV.
    assert (x = x') as ->. { rewrite <- (Z.mod_small x B), <- (Z.mod_small x' B) by lia. apply (f_equal (fun z => z mod B)) in HV. now rewrite !(Z.mul_comm B), !Z.mod_add in HV by lia. }
    f_equal. apply IH; auto. nia.
  Qed.

  (** Adding with carry. *)
  Lemma mod_head x y M : 0 <= x -> 0 < M -> 0 <= x < B -> (x + B * y) mod (B * M) = x + B * (y mod M).
  Proof using Hwb.
    pose proof Bpos. intros _ HM Hx. symmetry. apply Z.mod_unique with (q := y / M); [left|]; pose proof (Z.mod_pos_bound y M HM); pose proof (Z.div_mod y M ltac:(lia)); nia.
  Qed.
  Lemma pow_len r : 2 ^ (wb * Z.of_nat (S (length (r : list Z)))) = B * 2 ^ (wb * Z.of_nat (length r)).
  Proof using Hwb. replace (wb * Z.of_nat (S (length r))) with (wb + wb * Z.of_nat (length r)) by lia. apply Z.pow_add_r; lia. Qed.
  Lemma pow_len_pos r : 0 < 2 ^ (wb * Z.of_nat (length (r : list Z))).
  Proof using Hwb. apply Z.pow_pos_nonneg; lia. Qed.
  Lemma step_val x y n n' r : words_ok wb r -> 0 <= x < B -> x + n = (x + n) mod B + B * n' ->
    y = (words_val wb r + n') mod 2 ^ (wb * Z.of_nat (length r)) ->
    (x + n) mod B + B * y = (words_val wb (x :: r) + n) mod 2 ^ (wb * Z.of_nat (S (length r))).
  Proof using Hwb.
    pose proof Bpos. intros Hr Hx Hn ->. rewrite pow_len. pose proof (pow_len_pos r). pose proof (Z.mod_pos_bound (x + n) B ltac:(lia)).
    rewrite <- (mod_head _ _ _) by lia. cbn [words_val]. f_equal. lia.
  Qed.

  Lemma carry_length v : length (carry wb v) = length v.
  Proof using. induction v as [|x r IH]; [reflexivity|]. cbn [carry length]. destruct (_ =? 0); cbn; congruence. Qed.
  Lemma carry_ok v : words_ok wb v -> words_ok wb (carry wb v).
  Proof using Hwb.
    pose proof Bpos. induction v as [|x r IH]; intros H0; [constructor|]. inversion H0; subst. cbn [carry]. constructor; [apply Z.mod_pos_bound; lia|].
    destruct (_ =? 0); auto. now apply IH.
  Qed.
  Lemma carry_val v : words_ok wb v -> words_val wb (carry wb v) = (words_val wb v + 1) mod 2 ^ (wb * Z.of_nat (length v)).
  Proof using Hwb.
    pose proof Bpos. induction v as [|x r IH]; intros H0; [cbn [carry words_val length]; now rewrite Z.mul_0_r|]. inversion H0; subst. cbn [carry length].
    set (x' := (x + 1) mod B). assert (E : x' = if x =? B - 1 then 0 else x + 1).
    { unfold x'. destruct (Z.eqb_spec x (B - 1)) as [->|]; [now rewrite Z.sub_add, Z.mod_same by lia|]. apply Z.mod_small. lia. }
    destruct (Z.eqb_spec x' 0) as [E0|E0]; change (words_val wb (x' :: ?l)) with (x' + B * words_val wb l).
    - apply (step_val x _ 1 1 r); auto. fold x'. destruct (Z.eqb_spec x (B - 1)); lia.
    - apply (step_val x _ 1 0 r); auto.
      + fold x'. destruct (Z.eqb_spec x (B - 1)); lia.
      + rewrite Z.add_0_r, Z.mod_small; [reflexivity|]. now apply val_bound.
  Qed.

  Lemma carefully_length v n : length (incr_carefully wb v n) = length v.
  Proof using. revert n. induction v as [|x r IH]; intros n; [reflexivity|]. cbn [incr_carefully length]. f_equal. destruct (_ =? 0); auto. Qed.
  Lemma carefully_ok v n : words_ok wb v -> words_ok wb (incr_carefully wb v n).
  Proof using Hwb.
    pose proof Bpos. revert n. induction v as [|x r IH]; intros n H0; [constructor|]. inversion H0; subst. cbn [incr_carefully]. constructor; [apply Z.mod_pos_bound; lia|].
    destruct (_ =? 0); [assumption|]. now apply IH.
  Qed.
  (** The carry out of a word: x' < vtn. *)
  Lemma carry_out x n : 0 <= x < B -> 0 <= n -> x + n = (x + n) mod B + B * (n / B + (if (x + n) mod B <? n mod B then 1 else 0)).
  Proof using Hwb.
    pose proof Bpos. intros Hx Hn. pose proof (Z.div_mod n B ltac:(lia)) as E. pose proof (Z.mod_pos_bound n B ltac:(lia)). set (q := n / B) in *. set (m := n mod B) in *.
    assert ((x + n) mod B = if x + m <? B then x + m else x + m - B) as ->.
    { rewrite E. replace (x + (B * q + m)) with (x + m + q * B) by lia. rewrite Z.mod_add by lia.
      destruct (Z.ltb_spec (x + m) B); [apply Z.mod_small; lia|]. symmetry. apply Z.mod_unique with (q := 1); lia. }
    destruct (Z.ltb_spec (x + m) B).
    - replace (x + m <? m) with false by lia. lia.
    - replace (x + m - B <? m) with true by lia. lia.
  Qed.
  Lemma carefully_val v n : words_ok wb v -> 0 <= n -> n < 2 ^ 64 -> words_val wb (incr_carefully wb v n) = (words_val wb v + n) mod 2 ^ (wb * Z.of_nat (length v)).
  Proof using Hwb.
    pose proof Bpos. revert n. induction v as [|x r IH]; intros n H0 Hn Hn2; [cbn [incr_carefully words_val length]; now rewrite Z.mul_0_r, Z.mod_1_r|].
    inversion H0; subst. cbn [incr_carefully length]. cbn zeta.
    assert ((if wb <? 64 then n / B else 0) = n / B) as ->.
    { destruct (Z.ltb_spec wb 64); [reflexivity|]. symmetry. apply Z.div_small. split; [lia|]. eapply Z.lt_le_trans; [exact Hn2|]. apply Z.pow_le_mono_r; lia. }
    pose proof (carry_out x n H3 Hn) as Hc. set (n' := n / B + (if (x + n) mod B <? n mod B then 1 else 0)) in *.
    assert (0 <= n / B <= n / 2) as Hd. { split; [apply Z.div_pos; lia|]. apply Z.div_le_compat_l; lia. }
    assert (n / 2 < 2 ^ 63) as Hd2. { apply Z.div_lt_upper_bound; lia. }
    assert (0 <= n' < 2 ^ 64). { unfold n'. clear Hc. destruct (_ <? _); lia. }
    cbn [words_val]. change (x + B * words_val wb r) with (words_val wb (x :: r)).
    apply (step_val x _ n n' r); auto. destruct (Z.eqb_spec n' 0) as [->|].
    - rewrite Z.add_0_r, Z.mod_small; [reflexivity|]. now apply val_bound.
    - apply IH; lia || auto.
  Qed.

  Lemma incr_words_length v n : length (incr_words wb v n) = length v.
  Proof using. unfold incr_words. cbn zeta. destruct (_ && _); [apply carefully_length|]. destruct v as [|x r]; [reflexivity|]. cbn [length]. f_equal. destruct (_ <=? _); [reflexivity|]. apply carry_length. Qed.
  Lemma incr_words_ok v n : words_ok wb v -> words_ok wb (incr_words wb v n).
  Proof using Hwb.
    pose proof Bpos. intros H0. unfold incr_words. cbn zeta. destruct (_ && _); [now apply carefully_ok|]. destruct v as [|x r]; [constructor|]. inversion H0; subst.
    constructor; [apply Z.mod_pos_bound; lia|]. destruct (_ <=? _); [auto|]. now apply carry_ok.
  Qed.
  Lemma incr_words_val v n : words_ok wb v -> words_val wb (incr_words wb v n) = (words_val wb v + n mod 2 ^ 64) mod 2 ^ (wb * Z.of_nat (length v)).
  Proof using Hwb.
    pose proof Bpos. intros H0. unfold incr_words. pose proof (Z.mod_pos_bound n (2 ^ 64) ltac:(lia)) as Hn. set (m := n mod 2 ^ 64) in *. clearbody m. cbn zeta.
    destruct ((wb <? 64) && negb (m / B =? 0)) eqn:E; [apply carefully_val; auto; lia|].
    assert (m < B) as Hm.
    { apply andb_false_iff in E as [E|E].
      - eapply Z.lt_le_trans; [apply Hn|]. apply Z.pow_le_mono_r; lia.
      - apply negb_false_iff, Z.eqb_eq in E. apply Z.div_small_iff in E; lia. }
    destruct v as [|x r]; [cbn [words_val length]; now rewrite Z.mul_0_r, Z.mod_1_r|]. inversion H0; subst.
    pose proof (carry_out x m H3 ltac:(lia)) as Hc. rewrite (Z.div_small m B), (Z.mod_small m B) in Hc by lia. cbn [words_val length]. change (x + B * words_val wb r) with (words_val wb (x :: r)).
    destruct (Z.leb_spec m ((x + m) mod B)) as [L|L].
    - apply (step_val x _ m 0 r); auto.
      + replace ((x + m) mod B <? m) with false in Hc by lia. lia.
      + rewrite Z.add_0_r, Z.mod_small; [reflexivity|]. now apply val_bound.
    - apply (step_val x _ m 1 r); auto.
      + replace ((x + m) mod B <? m) with true in Hc by lia. lia.
      + now apply carry_val.
  Qed.
  Lemma zeros_ok n : words_ok wb (repeat 0 n).
  Proof using Hwb. pose proof Bpos. induction n; cbn; constructor; auto; lia. Qed.
  Lemma zeros_val n : words_val wb (repeat 0 n) = 0.
  Proof using. induction n; cbn [repeat words_val]; [reflexivity|]. rewrite IHn. lia. Qed.
End Proofs.

(** Comparison and copy. *)
Lemma rd_nth (a : list Z) i x : nth_error a i = Some x -> rd a (Z.of_nat i) = Ok x.
Proof. intros H. unfold rd. replace (Z.of_nat i <? 0) with false by lia. now rewrite Nat2Z.id, H. Qed.
Lemma words_eq_spec : forall len (pa pb a b : list Z), length a = len -> length b = len -> length pa = length pb ->
  words_eq len (zlen pa) (pa ++ a) (pb ++ b) = Ok (if list_eq_dec Z.eq_dec a b then true else false).
Proof.
  induction len as [|len IH]; intros pa pb a b Ha Hb HL.
  - destruct a, b; try discriminate. cbn. reflexivity.
  - destruct a as [|x a]; [discriminate|]. destruct b as [|y b]; [discriminate|]. cbn [words_eq]. unfold zlen at 1 2.
    rewrite (rd_nth _ _ x) by (rewrite nth_error_app2, Nat.sub_diag by lia; reflexivity). cbn [bind].
    rewrite (rd_nth _ _ y) by (rewrite HL, nth_error_app2, Nat.sub_diag by lia; reflexivity). cbn [bind].
    destruct (Z.eqb_spec x y) as [->|N].
    + specialize (IH (pa ++ [y]) (pb ++ [y]) a b). rewrite !app_length in IH. cbn [length] in *. replace (zlen (pa ++ [y])) with (zlen pa + 1) in IH by (unfold zlen; rewrite app_length; cbn; lia).
      rewrite <- !app_assoc in IH. cbn [app] in IH. rewrite IH by lia. f_equal. destruct (list_eq_dec Z.eq_dec a b), (list_eq_dec Z.eq_dec (y :: a) (y :: b)); congruence.
    + destruct (list_eq_dec Z.eq_dec (x :: a) (y :: b)); [congruence|reflexivity].
Qed.
Lemma memcpy_spec dst src : length dst = length src -> memcpy (length src) dst src = Ok src.
Proof.
  intros HL. unfold memcpy.
  destruct (for_inv (fun i d => zlen d = zlen src /\ forall p, 0 <= p < i -> get d p = get src p) 0 (Z.of_nat (length src)) (fun i d => x <- rd src i ;; wr d i x) dst) as (d & E & L & G).
  - lia.
  - split; [unfold zlen; lia|]. intros; lia.
  - intros i d Hi [L G]. destruct (rd_lt src i) as (x & -> & Hx); [exact Hi|]. cbn [bind]. destruct (wr_ex d i x) as (d' & E & L' & G1 & G2); [unfold zlen in *; lia|].
    exists d'. split; [exact E|]. split; [lia|]. intros p Hp. destruct (Z.eq_dec p i) as [->|]; [congruence|]. rewrite G2 by lia. apply G. lia.
  - rewrite E. f_equal. apply list_ext_get; [exact L|]. intros p Hp. apply G. unfold zlen in *. lia.
Qed.

(** safe_int_product with wrapping arithmetic. *)
Lemma wrap64_id z : int64 z = true -> wrap64 z = z.
Proof. unfold int64, int64_min, int64_max, wrap64. intros H. rewrite Z.mod_small by lia. lia. Qed.
Lemma wrap64_near z : exists k, wrap64 z = z - k * 2 ^ 64.
Proof. unfold wrap64. exists ((z + 2 ^ 63) / 2 ^ 64). pose proof (Z.div_mod (z + 2 ^ 63) (2 ^ 64) ltac:(lia)). lia. Qed.
Lemma wrap_spec a b : int64 a = true -> int64 b = true ->
  safe_int_product_wrap a b =
    if int64 (a * b) then Ok (a * b)
    else if (a =? -1) && (b =? - 2 ^ 63) || (b =? -1) && (a =? - 2 ^ 63) then UB else Throw.
Proof.
  intros Ha Hb. unfold safe_int_product_wrap.
  destruct (Z.eqb_spec a 0) as [->|Na]; [reflexivity|]. destruct (Z.eqb_spec b 0) as [->|Nb]; [cbn [orb]; rewrite Z.mul_0_r; reflexivity|]. cbn [orb].
  destruct (int64 (a * b)) eqn:E.
  - rewrite wrap64_id by exact E. assert (((a =? -1) || (b =? -1)) && (a * b =? - 2 ^ 63) = false) as ->.
    { unfold int64, int64_min, int64_max in *. destruct (Z.eqb_spec a (-1)) as [->|]; destruct (Z.eqb_spec b (-1)) as [->|]; cbn [orb andb]; lia. }
    rewrite Z.quot_mul by exact Nb. rewrite (Z.mul_comm a b), Z.quot_mul by exact Na. now rewrite !Z.eqb_refl.
  - destruct (wrap64_near (a * b)) as [k Hk].
    assert (- 2 ^ 63 <= wrap64 (a * b) < 2 ^ 63) as Hr. { unfold wrap64. pose proof (Z.mod_pos_bound (a * b + 2 ^ 63) (2 ^ 64) ltac:(lia)). lia. }
    assert (((a =? -1) || (b =? -1)) && (wrap64 (a * b) =? - 2 ^ 63) = (a =? -1) && (b =? - 2 ^ 63) || (b =? -1) && (a =? - 2 ^ 63)) as ->.
    { unfold int64, int64_min, int64_max in *. destruct (Z.eqb_spec a (-1)) as [->|]; destruct (Z.eqb_spec b (-1)) as [->|]; cbn [orb andb]; lia. }
    destruct (_ && _ || _) eqn:EU; [reflexivity|].
    set (c := wrap64 (a * b)) in *. assert (Z.quot c a =? b = false) as ->.
    { apply Z.eqb_neq. intros Q. pose proof (Z.quot_rem c a Na) as D. rewrite Q in D. pose proof (Z.rem_bound_abs c a Na) as R.
      assert (k = 0) as ->. { unfold int64, int64_min, int64_max in *. clearbody c. assert (c - a * b = Z.rem c a) as D2 by lia. assert (Z.abs (c - a * b) < 2 ^ 64) by (rewrite D2; lia). lia. }
      unfold int64, int64_min, int64_max in *. lia. }
    now rewrite orb_true_r.
Qed.
