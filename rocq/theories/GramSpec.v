(** Definitions read by the theorems on computed sketches (PropsGram.v). *)
From Verif Require Import Base Interleave Spec RngModel DenseModel SparseSkopModel.

(** S is the operator constructed from D and the seed: fresh, or after fill_sparse. *)
Definition drawn_operator {K F T} (env : sparse_env K F T) (jT : T) (jZ : Z) (D : sparse_dist) (seed : rng_state K) (S : sparse_skop K T) : Prop :=
  S = mk_sparse_skop env D seed \/ fill_sparse env jT jZ (mk_sparse_skop env D seed) = Ok S.
(** The matrix buffer that a call of sketch_general leaves. *)
Definition output {A T} (o : outcome (A * list T)) : list T := match o with Ok (_, B) => B | _ => [] end.
(** S is the dense operator constructed from D and the seed: fresh, or after fill_dense (with
    any number of threads). *)
Definition drawn_dense {K W T} (cast : W -> T) (env : dense_env K W T) (D : dense_dist) (seed : rng_state K) (S : dense_skop K T) : Prop :=
  mk_dense_skop env D seed = Ok S \/
  exists S0 fs, mk_dense_skop env D seed = Ok S0 /\ valid_schedule fs /\ fill_dense_skop cast env fs S0 = Ok S.
