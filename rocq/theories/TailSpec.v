(** Definitions read by the theorems on exponentially small failure probabilities (PropsTail*.v). *)
From Verif Require Import Base IsoSpec StatSpec NormSpec.
Local Open Scope R_scope.

(** The number of points of a grid of spacing 1 / (4 ceil(sqrt q)) in the cube [-1,1]^q. *)
Definition net_size (q : Z) : Z := ((8 * Z.sqrt_up q + 1) ^ q)%Z.

(** As in NormSpec.v: draws are equally likely, [sketch t x] has d elements, x has m elements,
    [scale] is the square of the isometry scale.  [slack] is what rounding of the entries adds. *)
Section KeptExp.
  Context {T : Type}.
  Variable draws : list T.
  Variable scale : R.
  Variable sketch : T -> (Z -> R) -> Z -> R.
  Variables d m : Z.
  Variable slack : R.
  (** A squared length changes by more than a factor e + slack with probability at most
      2 exp(-d e^2 / 6). *)
  Definition lengths_kept_exp : Prop := forall x e, 0 < e <= / 2 ->
    probability draws (fun t => exceeds (Rabs (scale * dot d (sketch t x) (sketch t x) - dot m x x)) ((e + slack) * dot m x x)) <= 2 * exp (- (IZR d * e ^ 2 / 6)).
  (** Johnson-Lindenstrauss: given N points, outside a set of draws of probability at most
      N (N-1) exp(-d e^2 / 6) all squared distances are kept within e + slack. *)
  Definition distances_kept_exp : Prop := forall N (X : Z -> Z -> R) e, (0 <= N)%Z -> 0 < e <= / 2 ->
    exists bad : T -> bool, probability draws bad <= IZR (N * (N - 1)) * exp (- (IZR d * e ^ 2 / 6)) /\
      forall t, In t draws -> bad t = false -> forall a b, (0 <= a < N)%Z -> (0 <= b < N)%Z ->
      let x i := X a i - X b i in Rabs (scale * dot d (sketch t x) (sketch t x) - dot m x x) <= (e + slack) * dot m x x.
  (** Given a subspace of dimension q, with an orthonormal basis V: outside a set of draws of
      probability at most 2 net_size(q) exp(-d e^2 / 6) the squared lengths of all vectors of the
      subspace are kept within 2 (e + slack). *)
  Definition subspaces_kept_exp : Prop := forall q V e, (0 <= q)%Z -> orthonormal m q V -> 0 < e <= / 2 ->
    exists bad : T -> bool, probability draws bad <= 2 * IZR (net_size q) * exp (- (IZR d * e ^ 2 / 6)) /\
      forall t, In t draws -> bad t = false -> forall z, let x := combine q V z in
        Rabs (scale * dot d (sketch t x) (sketch t x) - dot m x x) <= 2 * (e + slack) * dot m x x.
  (** Sketch-and-solve in such a subspace, as in NormSpec.v. *)
  Definition least_squares_kept_exp : Prop := forall q V e, (0 <= q)%Z -> orthonormal m q V -> 0 < e <= / 2 ->
    exists bad : T -> bool, probability draws bad <= 2 * IZR (net_size q) * exp (- (IZR d * e ^ 2 / 6)) /\
      forall t, In t draws -> bad t = false ->
      forall n (C : Z -> Z -> R) (cb : Z -> R), let A j := combine q V (C j) in let b := combine q V cb in
      let residual z i := combine n A z i - b i in
      let sketched z := dot d (sketch t (residual z)) (sketch t (residual z)) in
      forall zs, (forall z, sketched zs <= sketched z) ->
      forall z, (1 - 2 * (e + slack)) * dot m (residual zs) (residual zs) <= (1 + 2 * (e + slack)) * dot m (residual z) (residual z).
  Definition geometry_kept_exp : Prop :=
    lengths_kept_exp /\ distances_kept_exp /\ subspaces_kept_exp /\ least_squares_kept_exp.
End KeptExp.

(** The same for any failure probability: [delta] bounds, for each vector, the probability that its
    squared length changes by more than a factor e. *)
Section KeptWithin.
  Context {T : Type}.
  Variable draws : list T.
  Variable scale : R.
  Variable sketch : T -> (Z -> R) -> Z -> R.
  Variables d m : Z.
  Variables e delta : R.
  Definition lengths_kept_within : Prop := forall x,
    probability draws (fun t => exceeds (Rabs (scale * dot d (sketch t x) (sketch t x) - dot m x x)) (e * dot m x x)) <= delta.
  Definition distances_kept_within : Prop := forall N (X : Z -> Z -> R), (0 <= N)%Z ->
    exists bad : T -> bool, probability draws bad <= IZR (N * (N - 1)) / 2 * delta /\
      forall t, In t draws -> bad t = false -> forall a b, (0 <= a < N)%Z -> (0 <= b < N)%Z ->
      let x i := X a i - X b i in Rabs (scale * dot d (sketch t x) (sketch t x) - dot m x x) <= e * dot m x x.
  Definition subspaces_kept_within : Prop := forall q V, (0 <= q)%Z -> orthonormal m q V ->
    exists bad : T -> bool, probability draws bad <= IZR (net_size q) * delta /\
      forall t, In t draws -> bad t = false -> forall z, let x := combine q V z in
        Rabs (scale * dot d (sketch t x) (sketch t x) - dot m x x) <= 2 * e * dot m x x.
  Definition least_squares_kept_within : Prop := forall q V, (0 <= q)%Z -> orthonormal m q V ->
    exists bad : T -> bool, probability draws bad <= IZR (net_size q) * delta /\
      forall t, In t draws -> bad t = false ->
      forall n (C : Z -> Z -> R) (cb : Z -> R), let A j := combine q V (C j) in let b := combine q V cb in
      let residual z i := combine n A z i - b i in
      let sketched z := dot d (sketch t (residual z)) (sketch t (residual z)) in
      forall zs, (forall z, sketched zs <= sketched z) ->
      forall z, (1 - 2 * e) * dot m (residual zs) (residual zs) <= (1 + 2 * e) * dot m (residual z) (residual z).
  Definition geometry_kept_within : Prop :=
    lengths_kept_within /\ distances_kept_within /\ subspaces_kept_within /\ least_squares_kept_within.
End KeptWithin.
(** Sparse operators with k nonzeros in every column of d elements, each row met with probability at most p:
    omega bounds the share of a vector that meets one row, outside a set of draws with the probability of the second
    term; tau is a free parameter of that bound. *)
Definition sparse_failure (d k : Z) (p e omega tau : R) : R :=
  2 * exp (- (e ^ 2 / (8 * omega))) + IZR d * exp (p * (exp tau - 1) - tau * (omega * IZR k)).

(** The slack for uniform entries whose values are off by at most eps: vectors with m elements. *)
Definition uniform_slack (eps : R) (m : Z) : R := 3 * (eps * sqrt (IZR m)) + 2 * (eps ^ 2 * IZR m).
(** The same for Gaussian entries: c bounds the relative error of the squared radii, eps the
    absolute error of the entries. *)
Definition gaussian_slack (c eps : R) (m : Z) : R := 6 * c + 3 * (eps * sqrt (IZR m)) + eps ^ 2 * IZR m.

(** ** Computed sketches
    X has n columns X 0, X 1, ... of m elements; for a draw t the computed sketch has the n columns
    Y t 0, Y t 1, ... of d elements.  [slack] comes from the rounding of the entries of the operator, [round] from the
    rounding in the product. *)
Section ComputedExp.
  Context {T : Type}.
  Variable draws : list T.
  Variables d m n : Z.
  Variable X : Z -> Z -> R.
  Variable Y : T -> Z -> Z -> R.
  Variables slack round : R.
  (** Distances between columns, for pairs of columns whose squared norms have at least the sum [least]. *)
  Definition computed_distances_kept (least : R) : Prop := forall e, 0 < e <= / 2 ->
    exists bad : T -> bool, probability draws bad <= IZR (n * (n - 1)) * exp (- (IZR d * e ^ 2 / 6)) /\
      forall t, In t draws -> bad t = false -> forall a b, (0 <= a < n)%Z -> (0 <= b < n)%Z ->
      let x i := X a i - X b i in let y r := Y t a r - Y t b r in
      let norms := dot m (X a) (X a) + dot m (X b) (X b) in least <= norms ->
      Rabs (dot d y y - dot m x x) <= (e + slack) * dot m x x + 2 * round * norms.
  (** Combinations of the columns, if these lie in a space of dimension q with orthonormal basis V.  Then the
      sketched least-squares problem can be solved instead of the original one: if z1 is at least as good
      as z2 for the computed sketch, it is nearly so for the data. *)
  Definition computed_combinations_kept : Prop := forall q V (C : Z -> Z -> R) e, (0 <= q)%Z -> orthonormal m q V ->
    (forall j i, (0 <= j < n)%Z -> (0 <= i < m)%Z -> X j i = combine q V (C j) i) -> 0 < e <= / 2 ->
    exists bad : T -> bool, probability draws bad <= 2 * IZR (net_size q) * exp (- (IZR d * e ^ 2 / 6)) /\
      forall t, In t draws -> bad t = false ->
      let data z := dot m (combine n X z) (combine n X z) in let sketched z := dot d (combine n (Y t) z) (combine n (Y t) z) in
      (forall z, Rabs (sketched z - data z) <= 2 * (e + slack) * data z + round * frob2 n m X * dot n z z) /\
      forall z1 z2, sketched z1 <= sketched z2 ->
        (1 - 2 * (e + slack)) * data z1 <= (1 + 2 * (e + slack)) * data z2 + round * frob2 n m X * (dot n z1 z1 + dot n z2 z2).
End ComputedExp.

(** The same for any failure probability [delta] of a single vector (compare [geometry_kept_within]). *)
Section ComputedWithin.
  Context {T : Type}.
  Variable draws : list T.
  Variables d m n : Z.
  Variable X : Z -> Z -> R.
  Variable Y : T -> Z -> Z -> R.
  Variables e delta round : R.
  Definition computed_distances_within (least : R) : Prop :=
    exists bad : T -> bool, probability draws bad <= IZR (n * (n - 1)) / 2 * delta /\
      forall t, In t draws -> bad t = false -> forall a b, (0 <= a < n)%Z -> (0 <= b < n)%Z ->
      let x i := X a i - X b i in let y r := Y t a r - Y t b r in
      let norms := dot m (X a) (X a) + dot m (X b) (X b) in least <= norms ->
      Rabs (dot d y y - dot m x x) <= e * dot m x x + 2 * round * norms.
  Definition computed_combinations_within : Prop := forall q V (C : Z -> Z -> R), (0 <= q)%Z -> orthonormal m q V ->
    (forall j i, (0 <= j < n)%Z -> (0 <= i < m)%Z -> X j i = combine q V (C j) i) ->
    exists bad : T -> bool, probability draws bad <= IZR (net_size q) * delta /\
      forall t, In t draws -> bad t = false ->
      let data z := dot m (combine n X z) (combine n X z) in let sketched z := dot d (combine n (Y t) z) (combine n (Y t) z) in
      (forall z, Rabs (sketched z - data z) <= 2 * e * data z + round * frob2 n m X * dot n z z) /\
      forall z1 z2, sketched z1 <= sketched z2 ->
        (1 - 2 * e) * data z1 <= (1 + 2 * e) * data z2 + round * frob2 n m X * (dot n z1 z1 + dot n z2 z2).
End ComputedWithin.
