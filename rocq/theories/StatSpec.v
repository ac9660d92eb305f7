(** Definitions read by the statistical theorems of PropsStat.v. *)
From Verif Require Import Base Spec RngModel DenseModel DenseSpec SparseSkopModel SparseSpec IsoSpec.
Local Open Scope R_scope.

Fixpoint Rprod (l : list R) : R := match l with [] => 1 | x :: l => x * Rprod l end.
Definition indicator (b : bool) : R := if b then 1 else 0.
(** The fraction of the elements of draws that satisfy P: the probability of P when all
    elements are equally likely. *)
Definition probability {A} (draws : list A) (P : A -> bool) : R := average draws (fun t => indicator (P t)).
(** n (n-1) ... (n-k+1): the number of ordered samples of k out of n. *)
Definition falling (n k : Z) : R := Rprod (map (fun j => IZR (n - j)) (range 0 k)).
(** A call succeeded and left exactly the list s in its output array. *)
Definition outputs {A} (o : outcome (list Z * A)) (s : list Z) : bool :=
  match o with Ok (l, _) => if list_eq_dec Z.eq_dec l s then true else false | _ => false end.

(** A call of an index sampler succeeded and left exactly the indices s and the signs r. *)
Definition writes {K T} (eqT : forall x y : T, {x = y} + {x <> y}) (o : outcome (list Z * option (list T) * rng_state K)) (s : list Z) (r : option (list T)) : bool :=
  match o with
  | Ok (s', r', _) => (if list_eq_dec Z.eq_dec s' s then true else false) &&
      match r', r with
      | None, None => true
      | Some x, Some y => if list_eq_dec eqT x y then true else false
      | _, _ => false
      end
  | _ => false
  end.

(** q is a probability distribution on 0..n. *)
Definition is_law (n : Z) (q : Z -> R) : Prop :=
  (forall s, 0 <= q s) /\ (forall s, ~ (0 <= s <= n)%Z -> q s = 0) /\ Rsum (map q (range 0 (n + 1))) = 1.
(** The signs, as written: +1 for true, -1 for false. *)
Definition signs_of {T} (one mone : T) (sg : list bool) : list T := map (fun b : bool => if b then one else mone) sg.

(** ** Dense operators *)
(** The generator whose blocks, from counter c0 on, are the elements of a tape of blocks. *)
Definition block_gen {K W} (g : generator K W) (c0 : Z) (dflt : list W) (tape : list (list W)) : generator K W :=
  mk_generator K W (g_len g) (g_bits g) (fun c _ => nth (Z.to_nat ((c - c0) mod 2 ^ g_bits g)) tape dflt).
Definition with_blocks {K W T} (env : dense_env K W T) (seed : rng_state K) (dflt : list W) (tape : list (list W)) : dense_env K W T :=
  {| env_gauss := block_gen (env_gauss env) (counter seed) dflt tape;
     env_unif := block_gen (env_unif env) (counter seed) dflt tape;
     env_scal3 := env_scal3 env; env_junk := env_junk env |}.
(** Entry (i,j), as a real number, of the operator that the constructor of DenseSkOp followed
    by fill_dense produces; toR is the real value of a scalar. *)
Definition dense_sampled {K W T} (cast : W -> T) (toR : T -> R) (env : dense_env K W T) (sched : Interleave.schedule T)
    (D : dense_dist) (seed : rng_state K) (i j : Z) : R :=
  match bind (mk_dense_skop env D seed) (fill_dense_skop cast env sched) with
  | Ok X => match ds_buff X with
            | Some b => match mat (ds_layout X) (dd_major D) 0 b i j with Some x => toR x | None => 0 end
            | None => 0
            end
  | _ => 0
  end.
(** The square of isometry_scale of a dense distribution. *)
Definition dense_iso2 (D : dense_dist) : R := / IZR (dd_iso_inv2 D).
(** Number of generator blocks that sampling the whole operator uses (C08). *)
Definition dense_blocks (D : dense_dist) (L : Z) : Z := dd_minor D * ceil_div (dd_major D) L.
(** The sampler uses no counter twice, and all index computations fit. *)
Definition dense_fits {K W T} (env : dense_env K W T) (D : dense_dist) (seed : rng_state K) : Prop :=
  let g := env_gen env (dd_family D) in
  wf_env env /\ g_len (env_gauss env) = g_len (env_unif env) /\ size_ok D (g_len g) /\
  (0 <= counter seed < 2 ^ g_bits g)%Z /\ (dense_blocks D (g_len g) <= 2 ^ g_bits g)%Z.
(** S^T S for a wide operator, S S^T for a tall one: the square matrix of the larger order
    n_cols (n_rows); S scaled is an isometry in expectation when its mean is the identity. *)
Definition long_gram (D : dense_dist) (S : Z -> Z -> R) (a b : Z) : R :=
  if (dd_rows D <=? dd_cols D)%Z then gram_cols (dd_rows D) S a b else gram_rows (dd_cols D) S a b.
Definition delta (a b : Z) : R := if (a =? b)%Z then 1 else 0.
