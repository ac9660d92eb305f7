(** Definitions read by the theorems on preservation of lengths and angles (PropsNorm.v). *)
From Verif Require Import Base Spec RngModel DenseModel SparseSkopModel SparseSpec IsoSpec StatSpec.
Local Open Scope R_scope.

(** Vectors are functions of the index. *)
Definition dot (n : Z) (x y : Z -> R) : R := Rsum (map (fun i => x i * y i) (range 0 n)).
(** The sketch of a vector of max(n_rows, n_cols) elements: S x for a wide operator, S^T x for
    a tall one.  It has min(n_rows, n_cols) elements. *)
Definition sketch_of (n_rows n_cols : Z) (S : Z -> Z -> R) (x : Z -> R) : Z -> R :=
  if n_rows <=? n_cols then fun r => dot n_cols (fun c => S r c) x else fun c => dot n_rows (fun r => S r c) x.
(** The combination of q vectors of a family with the given coefficients. *)
Definition combine (q : Z) (V : Z -> Z -> R) (z : Z -> R) : Z -> R := fun i => Rsum (map (fun j => V j i * z j) (range 0 q)).
(** q orthonormal vectors with m elements. *)
Definition orthonormal (m q : Z) (V : Z -> Z -> R) : Prop :=
  forall a b, (0 <= a < q)%Z -> (0 <= b < q)%Z -> dot m (V a) (V b) = IsoSpec.delta a b.
(** a > b as a truth value. *)
Definition exceeds (a b : R) : bool := if Rlt_dec b a then true else false.

(** What a random operator does to vectors: draws are equally likely, [sketch t x] has d
    elements, x has m elements, [scale] is the square of the isometry scale. *)
Section Kept.
  Context {T : Type}.
  Variable draws : list T.
  Variable scale : R.
  Variable sketch : T -> (Z -> R) -> Z -> R.
  Variables d m : Z.
  (** The mean square error of inner products is at most v |x|^2 |y|^2. *)
  Definition inner_products_kept (v : R) : Prop := forall x y,
    average draws (fun t => (scale * dot d (sketch t x) (sketch t y) - dot m x y) ^ 2) <= v * (dot m x x * dot m y y).
  (** A squared length changes by more than a factor eps with probability at most v/eps^2. *)
  Definition lengths_kept (v : R) : Prop := forall x eps, 0 < eps -> 0 < dot m x x ->
    probability draws (fun t => exceeds (Rabs (scale * dot d (sketch t x) (sketch t x) - dot m x x)) (eps * dot m x x)) <= v / eps ^ 2.
  (** Given a subspace of dimension q, with an orthonormal basis V: outside a set of draws of
      probability at most q^2 v/eps^2 the squared lengths of all vectors of the subspace are
      kept within eps. *)
  Definition subspaces_kept (v : R) : Prop := forall q V eps, (0 <= q)%Z -> orthonormal m q V -> 0 < eps ->
    exists bad : T -> bool, probability draws bad <= IZR (q * q) * v / eps ^ 2 /\
      forall t, In t draws -> bad t = false -> forall z, let x := combine q V z in
        Rabs (scale * dot d (sketch t x) (sketch t x) - dot m x x) <= eps * dot m x x.
  (** Sketch-and-solve, for data A (n columns) and b in the subspace: outside such a set, every
      minimiser zs of the sketched residual |S(A z - b)| has a squared residual within a factor
      (1+eps)/(1-eps) of the smallest one. *)
  Definition least_squares_kept (v : R) : Prop := forall q V eps, (0 <= q)%Z -> orthonormal m q V -> 0 < eps ->
    exists bad : T -> bool, probability draws bad <= IZR (q * q) * v / eps ^ 2 /\
      forall t, In t draws -> bad t = false ->
      forall n (C : Z -> Z -> R) (cb : Z -> R), let A j := combine q V (C j) in let b := combine q V cb in
      let residual z i := combine n A z i - b i in
      let sketched z := dot d (sketch t (residual z)) (sketch t (residual z)) in
      forall zs, (forall z, sketched zs <= sketched z) ->
      forall z, (1 - eps) * dot m (residual zs) (residual zs) <= (1 + eps) * dot m (residual z) (residual z).
  Definition geometry_kept (v : R) : Prop :=
    inner_products_kept v /\ lengths_kept v /\ subspaces_kept v /\ least_squares_kept v.
End Kept.

(** The mean square error for dense operators with uniform entries whose values are off by at
    most eps: 2/d in exact arithmetic. *)
Definition uniform_spread (eps : R) (d m : Z) : R :=
  ((1 + 7 * eps) * sqrt (2 / IZR d) + 4 * eps + 3 * eps * sqrt (IZR m / IZR d) + eps ^ 2 * IZR m) ^ 2.
(** The same for Gaussian entries whose relative errors are of order c: 2/d in exact arithmetic. *)
Definition gaussian_spread (c : R) (d m : Z) : R :=
  ((1 + 7 * c) * sqrt (2 / IZR d) + 200 * c + 7 * c * sqrt (IZR m / IZR d) + 10 * c ^ 2 * IZR m) ^ 2.

(** The squared Frobenius norm of the matrix with n columns X 0, X 1, ... of m elements. *)
Definition frob2 (n m : Z) (X : Z -> Z -> R) : R := Rsum (map (fun j => dot m (X j) (X j)) (range 0 n)).
(** The Frobenius norm of Y^T Y - X^T X for two matrices with n columns, of d and m elements. *)
Definition gram_gap (n d : Z) (Y : Z -> Z -> R) (m : Z) (X : Z -> Z -> R) : R :=
  sqrt (Rsum (map (fun a => Rsum (map (fun b => (dot d (Y a) (Y b) - dot m (X a) (X b)) ^ 2) (range 0 n))) (range 0 n))).
