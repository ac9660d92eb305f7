(** Specification of the layout and triangle utilities. *)
From Verif Require Import Base Spec UtilModel SpmmModel SpmmSpec.

(** A' is A with its n x n matrix replaced by f; nothing else differs. *)
Definition square_result {T} (l : layout) (n lda : Z) (A : list T) (f : Z -> Z -> option T) (A' : list T) : Prop :=
  zlen A' = zlen A /\ (forall i j, 0 <= i < n -> 0 <= j < n -> mat l lda 0 A' i j = f i j) /\
  (forall p, (forall i j, 0 <= i < n -> 0 <= j < n -> addr l lda i j <> p) -> get A' p = get A p).

(** (i,j) is in the upper (lower) triangle offset by k: on or above the k-th superdiagonal
    (on or below the k-th subdiagonal). *)
Definition in_triangle (u : uplo) (k i j : Z) : bool :=
  match u with Upper => i + k <=? j | Lower => j + k <=? i | General => false end.

(** Some pair of entries violates the relative tolerance. *)
Definition asymmetric {T} (O : ops T) (Q : cmp_ops T) (l : layout) (A : list T) (n lda : Z) (tol : T) : Prop :=
  exists i j x y, 0 <= i < j /\ j < n /\ mat l lda 0 A i j = Some x /\ mat l lda 0 A j i = Some y /\
    o_ltb Q (o_mul O (o_add O (o_add O (o_abs Q x) (o_abs Q y)) (o_one O)) tol) (o_abs Q (o_sub Q x y)) = true.
