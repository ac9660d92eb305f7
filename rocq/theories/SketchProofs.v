(** Sketching drivers: the gemm contract and the dense operators. *)
From Verif Require Import Base Interleave Spec RngModel DenseModel DenseSpec DenseProofs DenseProofs2 DenseProofs3 SparseSkopModel SpFmtModel SpmmModel SpmmSpec SpmmProofs SpmmProofs5 UtilModel SketchModel LoopProofs.

Lemma addr_nonneg l ld i j : 0 <= ld -> 0 <= i -> 0 <= j -> 0 <= addr l ld i j.
Proof. destruct l; cbn [addr]; nia. Qed.
Lemma fits_ld l ld r c len : 0 <= r -> 0 <= c -> fits_buffer l ld r c len -> 0 <= ld.
Proof. intros Hr Hc [H _]. destruct l; cbn [min_ld] in H; lia. Qed.
Lemma fits_addr l ld r c len i j : fits_buffer l ld r c len -> 0 <= i < r -> 0 <= j < c -> 0 <= addr l ld i j < len.
Proof. intros F Hi Hj. split; [|now apply F]. apply addr_nonneg; [apply (fits_ld l ld r c len); auto; lia|lia|lia]. Qed.
Lemma cell_rd {T} (O : ops T) l ld r c (B : list T) i j : fits_buffer l ld r c (zlen B) -> 0 <= i < r -> 0 <= j < c ->
  rd B (addr l ld i j) = Ok (cell O l ld B i j).
Proof. intros F Hi Hj. unfold cell. destruct (get_lt B (addr l ld i j)) as [x G]; [now apply (fits_addr l ld r c)|]. rewrite G. now apply rd_get. Qed.

Section GemmProofs.
  Context {T : Type}.
  Variable O : ops T.
  Hypothesis L : semiring O.
  Notation add := (o_add O). Notation mul := (o_mul O). Notation zero := (o_zero O).

  Lemma dot_spec l opA opB m n k A lda B ldb i j :
    0 <= k -> fits_buffer l lda (rows_before opA m k) (cols_before opA m k) (zlen A) ->
    fits_buffer l ldb (rows_before opB k n) (cols_before opB k n) (zlen B) -> 0 <= i < m -> 0 <= j < n ->
    dot O l opA opB k A lda B ldb i j = Ok (bigsum O (fun p => mul (op_ent opA (cell O l lda A) i p) (op_ent opB (cell O l ldb B) p j)) 0 k).
  Proof.
    intros Hk FA FB Hi Hj. unfold dot.
    destruct (for_inv (fun p s => s = bigsum O (fun p => mul (op_ent opA (cell O l lda A) i p) (op_ent opB (cell O l ldb B) p j)) 0 p) 0 k
      (fun p s => a <- rd A (match opA with NoTrans => addr l lda i p | Trans => addr l lda p i end) ;;
                  b <- rd B (match opB with NoTrans => addr l ldb p j | Trans => addr l ldb j p end) ;; Ok (add s (mul a b))) zero) as (s & E & ->); auto.
    intros p s Hp ->. eexists. split.
    - assert (rd A (match opA with NoTrans => addr l lda i p | Trans => addr l lda p i end) = Ok (op_ent opA (cell O l lda A) i p)) as ->.
      { destruct opA; cbn [op_ent rows_before cols_before] in *; eapply cell_rd; eauto. }
      assert (rd B (match opB with NoTrans => addr l ldb p j | Trans => addr l ldb j p end) = Ok (op_ent opB (cell O l ldb B) p j)) as ->.
      { destruct opB; cbn [op_ent rows_before cols_before] in *; eapply cell_rd; eauto. }
      reflexivity.
    - unfold bigsum. rewrite range_snoc by lia. rewrite map_app, (sumT_app O L). cbn [map]. now rewrite (sumT_one O L).
  Qed.

  Lemma gemm_checks_true l opA opB m n k lda ldb ldc la lb lc :
    0 <= m -> 0 <= n -> 0 <= k -> fits_buffer l lda (rows_before opA m k) (cols_before opA m k) la ->
    fits_buffer l ldb (rows_before opB k n) (cols_before opB k n) lb -> fits_buffer l ldc m n lc ->
    gemm_checks l opA opB m n k lda ldb ldc = true.
  Proof.
    intros Hm Hn Hk [FA _] [FB _] [FC _]. unfold gemm_checks, dims_before_op.
    destruct l, opA, opB; cbn [min_ld rows_before cols_before] in *; rewrite !andb_true_iff, !Z.leb_le; lia.
  Qed.

  (** The gemm contract. *)
  Lemma gemm_spec l opA opB m n k alpha A lda B ldb beta C ldc :
    0 <= m -> 0 <= n -> 0 <= k -> fits_buffer l lda (rows_before opA m k) (cols_before opA m k) (zlen A) ->
    fits_buffer l ldb (rows_before opB k n) (cols_before opB k n) (zlen B) -> fits_buffer l ldc m n (zlen C) ->
    exists C', gemm O l opA opB m n k alpha A lda B ldb beta C ldc = Ok C' /\
      gemm_result O l m n k alpha beta (op_ent opA (cell O l lda A)) (op_ent opB (cell O l ldb B)) C ldc C'.
  Proof.
    intros Hm Hn Hk FA FB FC. unfold gemm. rewrite (gemm_checks_true l opA opB m n k lda ldb ldc _ _ _ Hm Hn Hk FA FB FC). cbn [require bind].
    set (a := op_ent opA (cell O l lda A)). set (b := op_ent opB (cell O l ldb B)).
    destruct (rect_cells m n (addr l ldc) (fun i j x => add (mul alpha (bigsum O (fun k => mul (a i k) (b k j)) 0 k)) (mul beta x))
      (fun i j C => c <- (if o_eqb O beta zero then Ok zero else x <- rd C (addr l ldc i j) ;; Ok (mul beta x)) ;;
        v <- (if o_eqb O alpha zero then Ok c else s <- dot O l opA opB k A lda B ldb i j ;; Ok (add (mul alpha s) c)) ;;
        wr C (addr l ldc i j) v) C) as (C' & E & L1 & G & U).
    - intros i j i' j' Hi Hj Hi' Hj'. apply (addr_inj l m n); auto. apply FC.
    - intros i j Hi Hj. now apply (fits_addr l ldc m n).
    - intros i j D x Hi Hj LD GD. destruct (wr_ex D (addr l ldc i j) (add (mul alpha (bigsum O (fun k => mul (a i k) (b k j)) 0 k)) (mul beta x))) as (D' & E1 & E2 & E3 & E4).
      { rewrite LD. now apply (fits_addr l ldc m n). }
      exists D'. split; [|auto]. rewrite (dot_spec l opA opB m n k A lda B ldb i j) by auto. fold a b.
      apply rd_get in GD. rewrite GD. cbn [bind].
      assert ((if o_eqb O beta zero then Ok zero else Ok (mul beta x)) = Ok (mul beta x)) as ->.
      { destruct (o_eqb O beta zero) eqn:Eb; [|reflexivity]. apply (sr_eqb O L) in Eb. rewrite Eb, (sr_mul_0_l O L). reflexivity. }
      cbn [bind]. destruct (o_eqb O alpha zero) eqn:Ea; cbn [bind]; [|exact E1].
      apply (sr_eqb O L) in Ea. rewrite <- E1. f_equal. rewrite Ea, (sr_mul_0_l O L), (sr_add_0_l O L). reflexivity.
    - exists C'. split; [exact E|]. split; [exact L1|]. split; [exact G|exact U].
  Qed.
End GemmProofs.
