(** Specification of sparse formats: which values a structure stores at a position. *)
From Coq Require Import Permutation.
From Verif Require Import Base Spec SparseSkopModel SparseSpec SpFmtModel.

(** Contents behind a pointer; nullptr has none. *)
Definition arrv {A} (p : option (list A)) : list A := match p with Some l => l | None => [] end.
Definition off (b : index_base) : Z := match b with BZero => 0 | BOne => 1 end.

(** Values stored in slice [i] of a compressed structure under index [j], in storage
    order; slice [i] is positions ptr[i] .. ptr[i+1]-1. *)
Definition slice_values {T} (ptr idx : list Z) (vals : list T) (i j : Z) : list T :=
  match get ptr i, get ptr (i + 1) with
  | Some lo, Some hi =>
      flat_map (fun e => match get idx e, get vals e with
                         | Some j', Some v => if j' =? j then [v] else []
                         | _, _ => [] end) (range lo hi)
  | _, _ => []
  end.

(** Values stored at (row i, column j), zero-based, by a matrix in each format. *)
Definition coo_at {T} (M : coo_matrix T) (i j : Z) : list T :=
  coo_values (co_nnz M) (arrv (co_rows M)) (arrv (co_cols M)) (arrv (co_vals M))
    (i + off (co_base M)) (j + off (co_base M)).
Definition csr_at {T} (M : csr_matrix T) (i j : Z) : list T :=
  slice_values (arrv (cr_ptr M)) (arrv (cr_idx M)) (arrv (cr_vals M)) i (j + off (cr_base M)).
Definition csc_at {T} (M : csc_matrix T) (i j : Z) : list T :=
  slice_values (arrv (cc_ptr M)) (arrv (cc_idx M)) (arrv (cc_vals M)) j (i + off (cc_base M)).

(** Well-formed structures: arrays long enough, indices in range; for compressed formats
    the pointer array starts at 0, is nondecreasing and ends at nnz. *)
Definition idx_ok (nnz bound o : Z) (idx : list Z) : Prop :=
  nnz <= zlen idx /\ forall e x, 0 <= e < nnz -> get idx e = Some x -> o <= x < bound + o.
Definition ptr_ok (n nnz : Z) (ptr : list Z) : Prop :=
  n + 1 <= zlen ptr /\ get ptr 0 = Some 0 /\ get ptr n = Some nnz /\
  forall i a b, 0 <= i < n -> get ptr i = Some a -> get ptr (i + 1) = Some b -> a <= b.

Definition valid_coo {T} (M : coo_matrix T) : Prop :=
  0 <= co_nr M /\ 0 <= co_nc M /\ 0 <= co_nnz M /\ co_nnz M <= zlen (arrv (co_vals M)) /\
  idx_ok (co_nnz M) (co_nr M) (off (co_base M)) (arrv (co_rows M)) /\
  idx_ok (co_nnz M) (co_nc M) (off (co_base M)) (arrv (co_cols M)).
Definition valid_csr {T} (M : csr_matrix T) : Prop :=
  0 <= cr_nr M /\ 0 <= cr_nc M /\ 0 <= cr_nnz M /\ cr_nnz M <= zlen (arrv (cr_vals M)) /\
  idx_ok (cr_nnz M) (cr_nc M) (off (cr_base M)) (arrv (cr_idx M)) /\
  ptr_ok (cr_nr M) (cr_nnz M) (arrv (cr_ptr M)).
Definition valid_csc {T} (M : csc_matrix T) : Prop :=
  0 <= cc_nr M /\ 0 <= cc_nc M /\ 0 <= cc_nnz M /\ cc_nnz M <= zlen (arrv (cc_vals M)) /\
  idx_ok (cc_nnz M) (cc_nr M) (off (cc_base M)) (arrv (cc_idx M)) /\
  ptr_ok (cc_nc M) (cc_nnz M) (arrv (cc_ptr M)).

(** Orders on positions. *)
Definition le_csr (a b : Z * Z) : Prop := fst a < fst b \/ fst a = fst b /\ snd a <= snd b.
Definition le_csc (a b : Z * Z) : Prop := snd a < snd b \/ snd a = snd b /\ fst a <= fst b.
Definition lt_rm (a b : Z * Z) : Prop := fst a < fst b \/ fst a = fst b /\ snd a < snd b.

(** [rel] holds between positions (rows[p],cols[p]), (rows[q],cols[q]) for all p < q < nnz. *)
Definition ordered (rel : Z * Z -> Z * Z -> Prop) (nnz : Z) (rows cols : list Z) : Prop :=
  forall p q r1 c1 r2 c2, 0 <= p < q -> q < nnz ->
    get rows p = Some r1 -> get cols p = Some c1 -> get rows q = Some r2 -> get cols q = Some c2 ->
    rel (r1, c1) (r2, c2).
(** Indices increase strictly inside each slice. *)
Definition slices_increasing (n : Z) (ptr idx : list Z) : Prop :=
  forall i lo hi p q x y, 0 <= i < n -> get ptr i = Some lo -> get ptr (i + 1) = Some hi ->
    lo <= p < q -> q < hi -> get idx p = Some x -> get idx q = Some y -> x < y.

(** std::sort's contract for a strict weak order: the result is a permutation in which no
    element is smaller than an earlier one. *)
Definition sort_ok {A} (s : (A -> A -> bool) -> list A -> list A) : Prop :=
  forall lt l,
    (forall x, lt x x = false) ->
    (forall x y z, lt x y = true -> lt y z = true -> lt x z = true) ->
    (forall x y z, lt x y = false -> lt y z = false -> lt x z = false) ->
    Permutation l (s lt l) /\
    forall p q x y, 0 <= p < q -> get (s lt l) p = Some x -> get (s lt l) q = Some y -> lt y x = false.

(** A dense n_rows x n_cols matrix with strides inside a buffer of length [len]. *)
Definition str_ok (nr nc sr sc len : Z) : Prop :=
  forall i j, 0 <= i < nr -> 0 <= j < nc -> 0 <= i * sr + j * sc < len.
Definition str_inj (nr nc sr sc : Z) : Prop :=
  forall i j i' j', 0 <= i < nr -> 0 <= j < nc -> 0 <= i' < nr -> 0 <= j' < nc ->
    i * sr + j * sc = i' * sr + j' * sc -> i = i' /\ j = j'.

(** The dense buffer after writing a sparse matrix with values [at_]: every cell of the
    matrix holds the last value stored there, or zero; other elements are unchanged. *)
Definition dense_result {T} (zero : T) (at_ : Z -> Z -> list T) (nr nc sr sc : Z) (mat mat' : list T) : Prop :=
  zlen mat' = zlen mat /\
  (forall i j, 0 <= i < nr -> 0 <= j < nc -> get mat' (i * sr + j * sc) = Some (last (at_ i j) zero)) /\
  (forall a, (forall i j, 0 <= i < nr -> 0 <= j < nc -> i * sr + j * sc <> a) -> get mat' a = get mat a).

(** The first [nnz] stored triples in storage order. *)
Definition coo_triples {T} (nnz : Z) (rows cols : list Z) (vals : list T) : list (Z * Z * T) :=
  flat_map (fun e => match get rows e, get cols e, get vals e with
                     | Some r, Some c, Some v => [(r, c, v)] | _, _, _ => [] end) (range 0 nnz).

(** Locations: [sorted] = the first nnz elements are nondecreasing; number below [k]. *)
Definition nondecreasing (nnz : Z) (l : list Z) : Prop :=
  forall p q x y, 0 <= p < q -> q < nnz -> get l p = Some x -> get l q = Some y -> x <= y.
Definition count_below (nnz : Z) (l : list Z) (k : Z) : Z :=
  zlen (filter (fun x => x <? k) (firstn (Z.to_nat nnz) l)).

(** [out'] is [out] with the nr x nc matrix at strides (sr',sc') replaced by the matrix
    read from [mat] at strides (sr,sc), entries that are not [big] becoming [zero]. *)
Definition thresholded {T} (zero : T) (big : T -> bool) (nr nc sr sc : Z) (mat : list T) (sr' sc' : Z) (out out' : list T) : Prop :=
  zlen out' = zlen out /\
  (forall i j x, 0 <= i < nr -> 0 <= j < nc -> get mat (i * sr + j * sc) = Some x ->
     get out' (i * sr' + j * sc') = Some (if big x then x else zero)) /\
  (forall a, (forall i j, 0 <= i < nr -> 0 <= j < nc -> i * sr' + j * sc' <> a) -> get out' a = get out a).

(** Index arrays shifted by [d] in the first [n] elements. *)
Definition shifted (n d : Z) (a a' : option (list Z)) : Prop :=
  zlen (arrv a') = zlen (arrv a) /\
  (forall e, 0 <= e < n -> get (arrv a') e = option_map (fun x => x + d) (get (arrv a) e)) /\
  (forall e, n <= e -> get (arrv a') e = get (arrv a) e).
