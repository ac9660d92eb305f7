(** Averages over all draws, and the Gram matrix of a sampled operator. *)
From Verif Require Import Base Spec RngModel DenseModel SparseSkopModel SparseSpec.
From Coq Require Export Reals.

Fixpoint Rsum (l : list R) : R := match l with [] => 0%R | x :: l => (x + Rsum l)%R end.
(** All lists of n elements of U: the draws of n independent values, all equally likely. *)
Fixpoint tapes {A} (n : nat) (U : list A) : list (list A) :=
  match n with O => [[]] | S n => flat_map (fun u => map (cons u) (tapes n U)) U end.
Definition average {A} (draws : list A) (f : A -> R) : R := (Rsum (map f draws) / INR (length draws))%R.

(** The generator whose blocks, from counter c0 on, are read off a tape. *)
Definition tape_gen {K W} (g : generator K W) (c0 : Z) (dflt : W) (tape : list W) : generator K W :=
  mk_generator K W (g_len g) (g_bits g)
    (fun c _ => map (fun l => nth (Z.to_nat (((c - c0) mod 2 ^ g_bits g) * g_len g + l)) tape dflt) (range 0 (g_len g))).
(** env with the raw words (Short axis), or the transformed values (Long axis), of a tape. *)
Definition with_words {K F T} (env : sparse_env K F T) (seed : rng_state K) (tape : list Z) : sparse_env K F T :=
  {| se_raw := tape_gen (se_raw env) (counter seed) 0 tape; se_unif := se_unif env; se_sb := se_sb env;
     se_draw := se_draw env; se_nonneg := se_nonneg env; se_one := se_one env; se_mone := se_mone env;
     se_sqrtmul := se_sqrtmul env; se_order := se_order env |}.
Definition with_values {K F T} (env : sparse_env K F T) (seed : rng_state K) (dflt : F) (tape : list F) : sparse_env K F T :=
  {| se_raw := se_raw env; se_unif := tape_gen (se_unif env) (counter seed) dflt tape; se_sb := se_sb env;
     se_draw := se_draw env; se_nonneg := se_nonneg env; se_one := se_one env; se_mone := se_mone env;
     se_sqrtmul := se_sqrtmul env; se_order := se_order env |}.

(** Entry (r,c) of the operator that fill_sparse produces from a fresh SparseSkOp. *)
Definition sampled_entry {K F} (env : sparse_env K F R) (D : sparse_dist) (seed : rng_state K) (r c : Z) : R :=
  match fill_sparse env 0%R 0 (mk_sparse_skop env D seed) with
  | Ok Q => match ss_rows Q, ss_cols Q, ss_vals Q with
            | Some rows, Some cols, Some vals => Rsum (coo_values (ss_nnz Q) rows cols vals r c)
            | _, _, _ => 0%R
            end
  | _ => 0%R
  end.
(** (S^T S)(a,b) and (S S^T)(a,b) for an operator with n_rows rows and n_cols columns. *)
Definition gram_cols (n_rows : Z) (S : Z -> Z -> R) (a b : Z) : R := Rsum (map (fun r => S r a * S r b)%R (range 0 n_rows)).
Definition gram_rows (n_cols : Z) (S : Z -> Z -> R) (a b : Z) : R := Rsum (map (fun c => S a c * S b c)%R (range 0 n_cols)).
(** The square of isometry_scale. *)
Definition iso2 (D : sparse_dist) : R := (IZR (fst (sd_iso2 D)) / IZR (snd (sd_iso2 D)))%R.
Definition delta (a b : Z) : R := if a =? b then 1%R else 0%R.
(** Number of elements of U satisfying P. *)
Definition count {A} (P : A -> bool) (U : list A) : Z := zlen (filter P U).
