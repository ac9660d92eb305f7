(** Specification of dense sampling, stated without the model's loops.

    A dense operator consists of dim_minor "major-axis vectors" of length dim_major.
    Vector number r starts at a fresh RNG block; it occupies ceil(dim_major / L) blocks
    of L words, where L is the block length. *)
From Verif Require Import Base Spec RngModel DenseModel.

Definition ceil_div (a b : Z) : Z := (a + b - 1) / b.

(** (vector number, position in the vector) of entry (i,j): in row-major natural
    order the vectors are the rows, in column-major natural order the columns. *)
Definition major_pos (l : layout) (i j : Z) : Z * Z :=
  match l with RowMajor => (i, j) | ColMajor => (j, i) end.

Section Spec.
  Context {K W T : Type}.
  Variable cast : W -> T.

  Definition family_map (env : dense_env K W T) (f : family) : T -> T :=
    match f with Gaussian => fun x => x | Uniform => env_scal3 env end.

  (** Counter of the RNG block that entry (i,j) is taken from, as an offset from the
      seed's counter, and the lane inside the block. *)
  Definition entry_block (D : dense_dist) (L i j : Z) : Z * Z :=
    let '(r, c) := major_pos (dd_layout D) i j in
    (r * ceil_div (dd_major D) L + c / L, c mod L).

  (** The matrix that (D, seed) denotes. *)
  Definition dense_entry (env : dense_env K W T) (D : dense_dist) (seed : rng_state K) (i j : Z)
      : option T :=
    let g := env_gen env (dd_family D) in
    let '(blk, lane) := entry_block D (g_len g) i j in
    option_map (fun w => family_map env (dd_family D) (cast w))
      (get (g_fun g ((counter seed + blk) mod 2 ^ g_bits g) (key seed)) lane).
End Spec.

(** Both transformations come from the same RNG type. *)
Record wf_env {K W T} (env : dense_env K W T) : Prop := {
  wf_gauss : wf_generator (env_gauss env);
  wf_unif : wf_generator (env_unif env) }.

(** Sizes for which no index computation of the sampler leaves int64_t, and for which
    the [int] loop counters inside a row do not overflow. *)
Definition size_ok (D : dense_dist) (L : Z) : Prop :=
  (dd_major D + L) * dd_minor D < 2 ^ 63 /\ dd_major D / L <= int_max.
