(** Specification of sparse operators, stated without the sampler's loops. *)
From Verif Require Import Base Spec RngModel DenseModel DenseSpec SparseSkopModel FySpec.

(** The values stored at (r,c) by the first [nnz] triplets, in storage order. *)
Definition coo_values {T} (nnz : Z) (rows cols : list Z) (vals : list T) (r c : Z) : list T :=
  flat_map (fun p =>
    match get rows p, get cols p, get vals p with
    | Some r', Some c', Some v => if (r' =? r) && (c' =? c) then [v] else []
    | _, _, _ => []
    end) (range 0 nnz).

(** A sample with replacement x_0 .. x_{k-1} with signs v_0 .. v_{k-1}: multiplicity of
    [ell] and position of its first occurrence. *)
Definition mult (x : Z -> Z) (k ell : Z) : Z := zlen (filter (fun t => x t =? ell) (range 0 k)).
Definition first (x : Z -> Z) (k ell : Z) : option Z := find (fun t => x t =? ell) (range 0 k).
Definition merged {T} (sqrtmul : Z -> T -> T) (x : Z -> Z) (v : Z -> T) (k ell : Z) : list T :=
  match first x k ell with None => [] | Some t => [sqrtmul (mult x k ell) (v t)] end.

Section Spec.
  Context {K F T : Type}.
  Variable env : sparse_env K F T.
  Variable D : sparse_dist.
  Variable seed : rng_state K.

  (** Word [l] of raw block [o], lane [l] of transformed block [o]. *)
  Definition raw_word (o l : Z) : Z :=
    match get (g_fun (se_raw env) ((counter seed + o) mod 2 ^ g_bits (se_raw env)) (key seed)) l with
    | Some w => w | None => 0 end.
  Definition unif_lane (o l : Z) : option F :=
    get (g_fun (se_unif env) ((counter seed + o) mod 2 ^ g_bits (se_unif env)) (key seed)) l.

  (** Short axis: vector i is a k-subset of [0,dim_major) drawn by Fisher-Yates from
      blocks i*k .. i*k+k-1; the sign of draw j is the parity of word 1 of its block. *)
  Definition short_sample (i : Z) : list Z :=
    fy (range 0 (sd_major D))
       (map (fun j => raw_word (i * sd_vec_nnz D + j) 0 mod (sd_major D - j)) (range 0 (sd_vec_nnz D))).
  Definition short_sign (i j : Z) : T :=
    if raw_word (i * sd_vec_nnz D + j) 1 mod 2 =? 0 then se_one env else se_mone env.
  Definition short_entry (s i : Z) : list T :=
    match find (fun j => match get (short_sample i) j with Some x => x =? s | None => false end)
               (range 0 (sd_vec_nnz D)) with
    | Some j => [short_sign i j]
    | None => []
    end.

  (** Long axis: vector i consists of k draws; draw t uses lanes 2(t mod h), 2(t mod h)+1
      of block i*ceil(k/h) + t/h, where h is half the block length. *)
  Definition half : Z := g_len (se_unif env) / 2.
  Definition long_index (i t : Z) : Z :=
    match unif_lane (i * ceil_div (sd_vec_nnz D) half + t / half) (2 * (t mod half)) with
    | Some u => se_draw env (sd_major D) u | None => 0 end.
  Definition long_sign (i t : Z) : T :=
    match unif_lane (i * ceil_div (sd_vec_nnz D) half + t / half) (2 * (t mod half) + 1) with
    | Some u => if se_nonneg env u then se_one env else se_mone env | None => se_one env end.
  Definition long_entry (ell i : Z) : list T :=
    merged (se_sqrtmul env) (long_index i) (long_sign i) (sd_vec_nnz D) ell.

  (** Values at (row r, column c): the minor index is the column of a wide Short operator
      and the row of a wide Long operator. *)
  Definition sparse_entry (r c : Z) : list T :=
    let '(short, long) := if sd_rows D <=? sd_cols D then (r, c) else (c, r) in
    match sd_axis D with
    | Short => if (0 <=? long) && (long <? sd_minor D) then short_entry short long else []
    | Long => if (0 <=? short) && (short <? sd_minor D) then long_entry long short else []
    end.
End Spec.

(** What the environment must satisfy. *)
Record wf_senv {K F T} (env : sparse_env K F T) : Prop := {
  ws_raw : wf_generator (se_raw env);
  ws_unif : wf_generator (se_unif env);
  ws_len : g_len (se_unif env) = g_len (se_raw env);
  ws_bits : g_bits (se_unif env) = g_bits (se_raw env);
  ws_even : g_len (se_raw env) mod 2 = 0;
  ws_sb : 1 < se_sb env <= 64;
  ws_sqrt1 : forall v, se_sqrtmul env 1 v = v;
  ws_order : forall i l, Permutation.Permutation l (se_order env i l) }.

(** D was returned by the constructor. *)
Definition valid_sdist (D : sparse_dist) : Prop :=
  mk_sparse_dist (sd_rows D) (sd_cols D) (sd_vec_nnz D) (sd_axis D) = Ok D.

(** Indices fit the index type. *)
Definition sparse_size_ok {K F T} (env : sparse_env K F T) (D : sparse_dist) : Prop :=
  sd_rows D <= sint_max (se_sb env) /\ sd_cols D <= sint_max (se_sb env) /\ sd_full_nnz D <= sint_max (se_sb env).
