(** Sparse formats: C25-C32. *)
From Coq Require Import Permutation Sorted.
From Flocq Require Import IEEE754.Binary IEEE754.Bits.
From Verif Require Import Base Spec SparseSkopModel SparseSpec SparseProofs SpFmtModel SpFmtSpec SpFmtProofs SpFmtProofs2 SpFmtProofs3 SpFmtProofs4 SpFmtProofs5.

(** Deciding well-formedness of concrete structures. *)
Definition idx_check (nnz bound o : Z) (l : list Z) : bool :=
  (nnz <=? zlen l) && forallb (fun x => (o <=? x) && (x <? bound + o)) l.
Lemma idx_check_ok nnz bound o l : idx_check nnz bound o l = true -> idx_ok nnz bound o l.
Proof.
  unfold idx_check. intros H. apply andb_prop in H as [H1 H2]. split; [lia|]. intros e x He G.
  rewrite forallb_forall in H2. specialize (H2 x). assert (In x l) by (apply get_In; eauto). specialize (H2 H). lia.
Qed.
Definition ptr_check (n nnz : Z) (p : list Z) : bool :=
  (n + 1 <=? zlen p) && match get p 0, get p n with Some a, Some b => (a =? 0) && (b =? nnz) | _, _ => false end &&
  forallb (fun i => match get p i, get p (i + 1) with Some a, Some b => a <=? b | _, _ => true end) (range 0 n).
Lemma ptr_check_ok n nnz p : ptr_check n nnz p = true -> ptr_ok n nnz p.
Proof.
  unfold ptr_check. intros H. apply andb_prop in H as [H1 H2]. apply andb_prop in H1 as [H1 H3]. rewrite forallb_forall in H2.
  split; [lia|]. destruct (get p 0) as [a|]; [|discriminate]. destruct (get p n) as [b|]; [|discriminate].
  split; [f_equal; lia|]. split; [f_equal; lia|]. intros i x y Hi Gx Gy. specialize (H2 i ltac:(apply in_range; lia)). rewrite Gx, Gy in H2. lia.
Qed.
Lemma valid_coo_check {T} (M : coo_matrix T) :
  (0 <=? co_nr M) && (0 <=? co_nc M) && (0 <=? co_nnz M) && (co_nnz M <=? zlen (arrv (co_vals M))) &&
  idx_check (co_nnz M) (co_nr M) (off (co_base M)) (arrv (co_rows M)) && idx_check (co_nnz M) (co_nc M) (off (co_base M)) (arrv (co_cols M)) = true ->
  valid_coo M.
Proof.
  intros H. repeat (apply andb_prop in H; destruct H as [H ?]). unfold valid_coo.
  repeat (split; [lia || (apply idx_check_ok; assumption)|]). apply idx_check_ok; assumption.
Qed.
Lemma valid_csr_check {T} (M : csr_matrix T) :
  (0 <=? cr_nr M) && (0 <=? cr_nc M) && (0 <=? cr_nnz M) && (cr_nnz M <=? zlen (arrv (cr_vals M))) &&
  idx_check (cr_nnz M) (cr_nc M) (off (cr_base M)) (arrv (cr_idx M)) && ptr_check (cr_nr M) (cr_nnz M) (arrv (cr_ptr M)) = true ->
  valid_csr M.
Proof.
  intros H. repeat (apply andb_prop in H; destruct H as [H ?]). unfold valid_csr.
  repeat (split; [lia || (apply idx_check_ok; assumption)|]). apply ptr_check_ok; assumption.
Qed.
Lemma valid_csc_check {T} (M : csc_matrix T) :
  (0 <=? cc_nr M) && (0 <=? cc_nc M) && (0 <=? cc_nnz M) && (cc_nnz M <=? zlen (arrv (cc_vals M))) &&
  idx_check (cc_nnz M) (cc_nr M) (off (cc_base M)) (arrv (cc_idx M)) && ptr_check (cc_nc M) (cc_nnz M) (arrv (cc_ptr M)) = true ->
  valid_csc M.
Proof.
  intros H. repeat (apply andb_prop in H; destruct H as [H ?]). unfold valid_csc.
  repeat (split; [lia || (apply idx_check_ok; assumption)|]). apply ptr_check_ok; assumption.
Qed.

(* ================================================================== *)
(** ** C25  Dense -> sparse -> dense *)
Definition val_of {T} (zero : T) (mat : list T) (sr sc i j : Z) : T :=
  match get mat (i * sr + j * sc) with Some x => x | None => zero end.
Lemma val_of_get {T} (zero : T) mat nr nc sr sc : str_ok nr nc sr sc (zlen mat) ->
  forall i j, 0 <= i < nr -> 0 <= j < nc -> get mat (i * sr + j * sc) = Some (val_of zero mat sr sc i j).
Proof. intros H i j Hi Hj. unfold val_of. destruct (get_lt mat (i * sr + j * sc) (H i j Hi Hj)) as [x ->]. reflexivity. Qed.

Lemma dense_result_thresholded {T} (zero : T) (big : T -> bool) at_ nr nc sr sc mat sr' sc' out out' :
  (forall i j, 0 <= i < nr -> 0 <= j < nc -> at_ i j = if big (val_of zero mat sr sc i j) then [val_of zero mat sr sc i j] else []) ->
  dense_result zero at_ nr nc sr' sc' out out' ->
  thresholded zero big nr nc sr sc mat sr' sc' out out'.
Proof.
  intros H (L & D & U). split; [exact L|]. split; [|exact U].
  intros i j x Hi Hj G. rewrite D, H by assumption. unfold val_of. rewrite G. destruct (big x); reflexivity.
Qed.

Theorem C25_dense_coo_dense : forall {T} (zero junkT : T) (junkZ : Z) (big : T -> bool) nr nc sr sc sr' sc' (mat out : list T),
  0 <= nr -> 0 <= nc -> str_ok nr nc sr sc (zlen mat) ->
  str_ok nr nc sr' sc' (zlen out) -> str_inj nr nc sr' sc' ->
  exists M out',
    dense_to_coo_str junkT junkZ big sr sc mat (mk_coo nr nc) = Ok M /\
    co_nr M = nr /\ co_nc M = nc /\ valid_coo M /\
    ordered lt_rm (co_nnz M) (arrv (co_rows M)) (arrv (co_cols M)) /\
    coo_to_dense_str zero M sr' sc' out = Ok out' /\
    thresholded zero big nr nc sr sc mat sr' sc' out out'.
Proof.
  intros T zero junkT junkZ big nr nc sr sc sr' sc' mat out Hr Hc Hs Hs' Hi.
  destruct (dense_to_coo_spec junkT junkZ big (val_of zero mat sr sc) mat nr nc sr sc) as (M & E & E1 & E2 & _ & Eb & _ & V & O & A); auto.
  { now apply val_of_get. }
  destruct (coo_to_dense_spec zero M sr' sc' out V) as (out' & E' & D); [now rewrite E1, E2..|].
  exists M, out'. rewrite E1, E2 in D. repeat (split; [assumption|]). eapply dense_result_thresholded; eauto.
Qed.
Print Assumptions C25_dense_coo_dense.

(** csr_to_dense stores column indices in an int: the number of columns is at most 2^31. *)
Theorem C25_dense_csr_dense_partial : forall {T} (zero : T) (big : T -> bool) nr nc sr sc sr' sc' (mat out : list T),
  0 <= nr -> 0 <= nc <= 2 ^ 31 -> str_ok nr nc sr sc (zlen mat) ->
  str_ok nr nc sr' sc' (zlen out) -> str_inj nr nc sr' sc' ->
  exists M out',
    dense_to_csr_str zero big sr sc mat (mk_csr nr nc) = Ok M /\
    cr_nr M = nr /\ cr_nc M = nc /\ valid_csr M /\ slices_increasing nr (arrv (cr_ptr M)) (arrv (cr_idx M)) /\
    csr_to_dense_str zero M sr' sc' out = Ok out' /\
    thresholded zero big nr nc sr sc mat sr' sc' out out'.
Proof.
  intros T zero big nr nc sr sc sr' sc' mat out Hr Hc Hs Hs' Hi.
  destruct (dense_to_csr_spec zero big (val_of zero mat sr sc) mat nr nc sr sc) as (M & E & E1 & E2 & _ & Eb & _ & V & O & A); auto; try lia.
  { now apply val_of_get. }
  destruct (csr_to_dense_spec zero M sr' sc' out V Eb) as (out' & E' & D); [rewrite ?E1, ?E2; assumption || lia..|].
  exists M, out'. rewrite E1, E2 in D. repeat (split; [assumption|]). eapply dense_result_thresholded; eauto.
Qed.
Print Assumptions C25_dense_csr_dense_partial.

Theorem C25_dense_csc_dense : forall {T} (zero : T) (big : T -> bool) nr nc sr sc sr' sc' (mat out : list T),
  0 <= nr -> 0 <= nc -> str_ok nr nc sr sc (zlen mat) ->
  str_ok nr nc sr' sc' (zlen out) -> str_inj nr nc sr' sc' ->
  exists M out',
    dense_to_csc_str zero big sr sc mat (mk_csc nr nc) = Ok M /\
    cc_nr M = nr /\ cc_nc M = nc /\ valid_csc M /\ slices_increasing nc (arrv (cc_ptr M)) (arrv (cc_idx M)) /\
    csc_to_dense_str zero M sr' sc' out = Ok out' /\
    thresholded zero big nr nc sr sc mat sr' sc' out out'.
Proof.
  intros T zero big nr nc sr sc sr' sc' mat out Hr Hc Hs Hs' Hi.
  destruct (dense_to_csc_spec zero big (val_of zero mat sr sc) mat nr nc sr sc) as (M & E & E1 & E2 & _ & Eb & _ & V & O & A); auto.
  { now apply val_of_get. }
  destruct (csc_to_dense_spec zero M sr' sc' out V Eb) as (out' & E' & D); [rewrite ?E1, ?E2; assumption..|].
  exists M, out'. rewrite E1, E2 in D. repeat (split; [assumption|]). eapply dense_result_thresholded; eauto.
Qed.
Print Assumptions C25_dense_csc_dense.

(** The two layouts give admissible strides, so the theorems above cover the layout
    overloads; with tolerance 0 the round trip is the identity. *)
Lemma strides_ok cm nr nc len : 0 <= nr -> 0 <= nc -> nr * nc <= len ->
  str_ok nr nc (fst (strides cm nr nc)) (snd (strides cm nr nc)) len /\ str_inj nr nc (fst (strides cm nr nc)) (snd (strides cm nr nc)).
Proof.
  intros Hr Hc L. destruct cm; cbn [strides fst snd]; split.
  - intros i j Hi Hj. nia.
  - intros i j i' j' Hi Hj Hi' Hj' E. assert (j = j') by nia. subst. lia.
  - intros i j Hi Hj. nia.
  - intros i j i' j' Hi Hj Hi' Hj' E. assert (i = i') by nia. subst. lia.
Qed.

Lemma thresholded_identity {T} (zero : T) big nr nc cm (mat out out' : list T) :
  (forall x, big x = false -> x = zero) -> 0 <= nr -> 0 <= nc -> zlen mat = nr * nc -> zlen out = nr * nc ->
  thresholded zero big nr nc (fst (strides cm nr nc)) (snd (strides cm nr nc)) mat (fst (strides cm nr nc)) (snd (strides cm nr nc)) out out' ->
  out' = mat.
Proof.
  intros Hz Hr Hc Lm Lo (L & H & _). apply list_ext_get; [lia|]. intros a [H0 H1]. rewrite L, Lo in H1.
  destruct (get_lt mat a ltac:(lia)) as [x G]. rewrite G.
  assert (Hx : Some (if big x then x else zero) = Some x) by (destruct (big x) eqn:B; [reflexivity|]; now rewrite (Hz x B)).
  rewrite <- Hx. destruct cm; cbn [strides fst snd] in H.
  - assert (Hnr : 0 < nr) by nia. pose proof (Z.div_mod a nr ltac:(lia)). pose proof (Z.mod_pos_bound a nr Hnr).
    assert (0 <= a / nr < nc) by (split; [apply Z.div_pos; lia|apply Z.div_lt_upper_bound; lia]).
    specialize (H (a mod nr) (a / nr) x ltac:(lia) ltac:(lia)). replace (a mod nr * 1 + a / nr * nr) with a in H by lia. auto.
  - assert (Hnc : 0 < nc) by nia. pose proof (Z.div_mod a nc ltac:(lia)). pose proof (Z.mod_pos_bound a nc Hnc).
    assert (0 <= a / nc < nr) by (split; [apply Z.div_pos; lia|apply Z.div_lt_upper_bound; lia]).
    specialize (H (a / nc) (a mod nc) x ltac:(lia) ltac:(lia)). replace (a / nc * nc + a mod nc * 1) with a in H by lia. auto.
Qed.

Theorem C25_zero_tolerance_identity_partial : forall {T} (zero junkT : T) (junkZ : Z) (big : T -> bool) (cm : bool) nr nc (mat out : list T),
  (forall x, big x = false -> x = zero) -> 0 <= nr -> 0 <= nc <= 2 ^ 31 -> zlen mat = nr * nc -> zlen out = nr * nc ->
  (M <- dense_to_coo junkT junkZ big cm mat (mk_coo nr nc) ;; coo_to_dense zero M cm out) = Ok mat /\
  (M <- dense_to_csr zero big cm mat (mk_csr nr nc) ;; csr_to_dense zero M cm out) = Ok mat /\
  (M <- dense_to_csc zero big cm mat (mk_csc nr nc) ;; csc_to_dense zero M cm out) = Ok mat.
Proof.
  intros T zero junkT junkZ big cm nr nc mat out Hz Hr Hc Lm Lo.
  destruct (strides_ok cm nr nc (zlen mat) Hr ltac:(lia) ltac:(lia)) as [S1 _].
  destruct (strides_ok cm nr nc (zlen out) Hr ltac:(lia) ltac:(lia)) as [S2 S3].
  unfold dense_to_coo, coo_to_dense, dense_to_csr, csr_to_dense, dense_to_csc, csc_to_dense. cbn [mk_coo mk_csr mk_csc co_nr co_nc cr_nr cr_nc cc_nr cc_nc].
  set (s := strides cm nr nc) in *. 
  split; [|split].
  - destruct (C25_dense_coo_dense zero junkT junkZ big nr nc (fst s) (snd s) (fst s) (snd s) mat out) as (M & o & E & E1 & E2 & _ & _ & E3 & Th); auto; [lia|].
    rewrite (surjective_pairing s), E. cbn [bind]. rewrite E1, E2. fold s. rewrite (surjective_pairing s), E3.
    f_equal. apply (thresholded_identity zero big nr nc cm mat out o); auto; lia.
  - destruct (C25_dense_csr_dense_partial zero big nr nc (fst s) (snd s) (fst s) (snd s) mat out) as (M & o & E & E1 & E2 & _ & _ & E3 & Th); auto.
    rewrite (surjective_pairing s), E. cbn [bind]. rewrite E1, E2. fold s. rewrite (surjective_pairing s), E3.
    f_equal. apply (thresholded_identity zero big nr nc cm mat out o); auto; lia.
  - destruct (C25_dense_csc_dense zero big nr nc (fst s) (snd s) (fst s) (snd s) mat out) as (M & o & E & E1 & E2 & _ & _ & E3 & Th); auto; [lia|].
    rewrite (surjective_pairing s), E. cbn [bind]. rewrite E1, E2. fold s. rewrite (surjective_pairing s), E3.
    f_equal. apply (thresholded_identity zero big nr nc cm mat out o); auto; lia.
Qed.
Print Assumptions C25_zero_tolerance_identity_partial.

Example C25_case :
  let big x := 1 <? Z.abs x in
  (M <- dense_to_csr 0 big true [5; 0; -1; 7; -3; 0] (mk_csr 2 3) ;; csr_to_dense 0 M false [9; 9; 9; 9; 9; 9; 8]) = Ok [5; 0; -3; 0; 7; 0; 8] /\
  (M <- dense_to_coo 99 99 big true [5; 0; -1; 7; -3; 0] (mk_coo 2 3) ;; coo_to_dense 0 M false [9; 9; 9; 9; 9; 9; 8]) = Ok [5; 0; -3; 0; 7; 0; 8] /\
  (M <- dense_to_csc 0 big true [5; 0; -1; 7; -3; 0] (mk_csc 2 3) ;; csc_to_dense 0 M false [9; 9; 9; 9; 9; 9; 8]) = Ok [5; 0; -3; 0; 7; 0; 8].
Proof. vm_compute. auto. Qed.

(** Finding: for floating-point scalars the premise of the identity fails at NaN (and the
    comparison abs(x) > tol is false there), so a NaN entry is dropped and comes back as 0. *)
Definition big64 (tol x : binary64) : bool := match Bcompare _ _ (b64_abs x) tol with Some Gt => true | _ => false end.
Theorem C25_nan_entry_refuted : exists (x : binary64) out,
  is_nan _ _ x = true /\
  (M <- dense_to_coo (B754_zero 53 1024 false) 0 (big64 (B754_zero _ _ false)) true [x] (mk_coo 1 1) ;;
   coo_to_dense (B754_zero _ _ false) M true [x]) = Ok out /\ out = [B754_zero _ _ false].
Proof. exists (proj1_sig (default_nan_pl64)). eexists. split; [reflexivity|]. split; reflexivity. Qed.
Print Assumptions C25_nan_entry_refuted.

(* ================================================================== *)
(** ** C26  COO -> CSR / CSC *)
(** [fits]: the destination index type of [sb] bits can hold nnz and the minor indices. *)
Theorem C26_coo_to_csr_same_matrix : forall {T} (zero : T) ssort sb (M : coo_matrix T),
  sort_ok ssort -> valid_coo M -> co_base M = BZero -> fits sb (co_nnz M) (co_nc M) ->
  exists M' R, coo_to_csr zero ssort sb M (mk_csr (co_nr M) (co_nc M)) = Ok (M', R) /\
    cr_nr R = co_nr M /\ cr_nc R = co_nc M /\ cr_nnz R = co_nnz M /\ cr_base R = BZero /\ valid_csr R /\
    (forall i j, 0 <= i < co_nr M -> Permutation (csr_at R i j) (coo_at M i j)) /\
    co_nr M' = co_nr M /\ co_nc M' = co_nc M /\ valid_coo M' /\ (forall i j, Permutation (coo_at M' i j) (coo_at M i j)).
Proof.
  intros T zero ssort sb M Hs V Hb F.
  destruct (coo_to_csr_spec zero ssort Hs sb M V Hb F) as (M' & R & H). exists M', R. tauto.
Qed.
Print Assumptions C26_coo_to_csr_same_matrix.

Theorem C26_coo_to_csc_same_matrix : forall {T} (zero : T) ssort sb (M : coo_matrix T),
  sort_ok ssort -> valid_coo M -> co_base M = BZero -> fits sb (co_nnz M) (co_nr M) ->
  exists M' R, coo_to_csc zero ssort sb M (mk_csc (co_nr M) (co_nc M)) = Ok (M', R) /\
    cc_nr R = co_nr M /\ cc_nc R = co_nc M /\ cc_nnz R = co_nnz M /\ cc_base R = BZero /\ valid_csc R /\
    (forall i j, 0 <= j < co_nc M -> Permutation (csc_at R i j) (coo_at M i j)) /\
    co_nr M' = co_nr M /\ co_nc M' = co_nc M /\ valid_coo M' /\ (forall i j, Permutation (coo_at M' i j) (coo_at M i j)).
Proof.
  intros T zero ssort sb M Hs V Hb F.
  destruct (coo_to_csc_spec zero ssort Hs sb M V Hb F) as (M' & R & H). exists M', R. tauto.
Qed.
Print Assumptions C26_coo_to_csc_same_matrix.

(** A sort meeting the contract, for concrete runs: insertion sort. *)
Fixpoint insert_by {A} (lt : A -> A -> bool) (x : A) (l : list A) : list A :=
  match l with [] => [x] | y :: l' => if lt y x then y :: insert_by lt x l' else x :: l end.
Definition isort {A} (lt : A -> A -> bool) (l : list A) : list A := fold_right (insert_by lt) [] l.

Lemma insert_by_perm {A} (lt : A -> A -> bool) x l : Permutation (x :: l) (insert_by lt x l).
Proof.
  induction l as [|y l IH]; [reflexivity|]. cbn [insert_by]. destruct (lt y x); [|reflexivity].
  rewrite perm_swap. now constructor.
Qed.
Lemma isort_ok : forall A, sort_ok (@isort A).
Proof.
  intros A lt l Hirr Htr Hneg.
  assert (S : forall l, Permutation l (isort lt l) /\ Sorted.StronglySorted (fun x y => lt y x = false) (isort lt l)).
  { clear l. induction l as [|x l [P IH]]; [split; constructor|]. cbn [isort fold_right]. fold (isort lt l). split.
    - rewrite P at 1. apply insert_by_perm.
    - clear P. induction IH as [|y s Hs IHs Hall]; cbn [insert_by]; [repeat constructor|].
      destruct (lt y x) eqn:E.
      + constructor; [exact IHs|]. rewrite <- (insert_by_perm lt x s). constructor; [|exact Hall].
        destruct (lt x y) eqn:E'; [|reflexivity]. pose proof (Hirr x) as Hirr0. now rewrite (Htr x y x E' E) in Hirr0.
      + constructor; [constructor; assumption|]. constructor; [exact E|].
        rewrite Forall_forall in *. intros z Hz. specialize (Hall z Hz). apply (Hneg z y x); assumption. }
  destruct (S l) as [P SS]. split; [exact P|]. intros p q x y Hpq Gx Gy. clear P S. revert p q Hpq Gx Gy.
  induction SS as [|z s Hs IHs Hall]; intros p q Hpq Gx Gy.
  - apply get_Some_lt in Gx. change (zlen (@nil A)) with 0 in Gx. lia.
  - rewrite get_cons_S in Gy by lia.
    destruct (Z.eq_dec p 0) as [->|Hp].
    + rewrite get_cons_0 in Gx. inversion Gx; subst. rewrite Forall_forall in Hall. apply Hall. apply get_In. eauto.
    + rewrite get_cons_S in Gx by lia. apply (IHs (p - 1) (q - 1)); auto. lia.
Qed.

Definition coo_ex : coo_matrix Z :=
  Build_coo_matrix 2 3 false 4 BZero (Some [10; 20; 30; 40]) (Some [1; 0; 1; 1]) (Some [2; 1; 0; 2]) SNone.
Example C26_case :
  valid_coo coo_ex /\ fits 32 (co_nnz coo_ex) (co_nc coo_ex) /\ fits 32 (co_nnz coo_ex) (co_nr coo_ex) /\
  coo_at coo_ex 1 2 = [10; 40] /\
  (exists M', coo_to_csr 0 isort 32 coo_ex (mk_csr 2 3) = Ok (M', Build_csr_matrix 2 3 true 4 BZero (Some [20; 30; 10; 40]) (Some [0; 1; 4]) (Some [1; 0; 2; 2]))) /\
  (exists M', coo_to_csc 0 isort 32 coo_ex (mk_csc 2 3) = Ok (M', Build_csc_matrix 2 3 true 4 BZero (Some [30; 20; 10; 40]) (Some [1; 0; 1; 1]) (Some [0; 1; 2; 4]))).
Proof.
  split; [apply valid_coo_check; reflexivity|].
  split; [repeat split; reflexivity || (cbn; lia)|]. split; [repeat split; reflexivity || (cbn; lia)|].
  split; [reflexivity|]. split; eexists; vm_compute; reflexivity.
Qed.

(* ================================================================== *)
(** ** C27  CSR / CSC -> COO *)
(** Finding: csr_to_coo and csc_to_coo write the position of an entry in place of its
    column (row) index, so the result is in general a different matrix. *)
Definition csr_ex : csr_matrix Z := Build_csr_matrix 2 3 false 2 BZero (Some [5; 7]) (Some [0; 1; 2]) (Some [2; 2]).
Definition csc_ex : csc_matrix Z := Build_csc_matrix 3 2 false 2 BZero (Some [5; 7]) (Some [2; 2]) (Some [0; 1; 2]).
Theorem C27_compressed_to_coo_refuted :
  (exists (A : csr_matrix Z) M i j, valid_csr A /\ cr_base A = BZero /\
     csr_to_coo 0 0 64 A (mk_coo (cr_nr A) (cr_nc A)) = Ok M /\ 0 <= i < cr_nr A /\ 0 <= j < cr_nc A /\
     ~ Permutation (coo_at M i j) (csr_at A i j)) /\
  (exists (A : csc_matrix Z) M i j, valid_csc A /\ cc_base A = BZero /\
     csc_to_coo 0 0 64 A (mk_coo (cc_nr A) (cc_nc A)) = Ok M /\ 0 <= i < cc_nr A /\ 0 <= j < cc_nc A /\
     ~ Permutation (coo_at M i j) (csc_at A i j)).
Proof.
  split.
  - exists csr_ex. eexists. exists 0, 2. split.
    { apply valid_csr_check; reflexivity. }
    split; [reflexivity|]. split; [vm_compute; reflexivity|]. cbn [csr_ex cr_nr cr_nc]. split; [lia|]. split; [lia|].
    vm_compute. apply Permutation_nil_cons.
  - exists csc_ex. eexists. exists 2, 0. split.
    { apply valid_csc_check; reflexivity. }
    split; [reflexivity|]. split; [vm_compute; reflexivity|]. cbn [csc_ex cc_nr cc_nc]. split; [lia|]. split; [lia|].
    vm_compute. apply Permutation_nil_cons.
Qed.
Print Assumptions C27_compressed_to_coo_refuted.

(** What does hold: dimensions, number of entries, values and the row (column) of every
    entry are right, the other index is the entry's position; hence the matrix is the same
    whenever every stored index equals its position. *)
Theorem C27_csr_to_coo_partial : forall {T} (junkT : T) junkZ sb (A : csr_matrix T),
  valid_csr A -> cr_base A = BZero -> fits sb (cr_nnz A) (cr_nr A) ->
  exists M, csr_to_coo junkT junkZ sb A (mk_coo (cr_nr A) (cr_nc A)) = Ok M /\
    co_nr M = cr_nr A /\ co_nc M = cr_nc A /\ co_nnz M = cr_nnz A /\ co_base M = BZero /\
    (forall e, 0 <= e < cr_nnz A -> get (arrv (co_vals M)) e = get (arrv (cr_vals A)) e /\ get (arrv (co_cols M)) e = Some e) /\
    (forall i lo hi e, 0 <= i < cr_nr A -> get (arrv (cr_ptr A)) i = Some lo -> get (arrv (cr_ptr A)) (i + 1) = Some hi -> lo <= e < hi ->
       get (arrv (co_rows M)) e = Some i) /\
    ((forall e, 0 <= e < cr_nnz A -> get (arrv (cr_idx A)) e = Some e) ->
     forall i j, 0 <= i < cr_nr A -> coo_at M i j = csr_at A i j).
Proof.
  intros T junkT junkZ sb A V Hb F.
  destruct (csr_to_coo_spec junkT junkZ sb A V Hb F) as (M & E & D1 & D2 & D3 & D4 & _ & L1 & L2 & L3 & H1 & H2).
  exists M. repeat (split; [assumption|]). intros Hid i j Hi. unfold coo_at, csr_at. rewrite D3, D4, Hb. cbn [off]. rewrite !Z.add_0_r.
  destruct V as (_ & _ & Hn & Lv & [Li _] & Hp).
  rewrite <- (csx_coo_values (cr_nr A) (cr_nnz A) (arrv (cr_ptr A)) (arrv (cr_idx A)) (arrv (cr_vals A)) (arrv (co_rows M)) (arrv (co_vals M)) i j); auto.
  - apply coo_values_ext. intros e He. rewrite Hid by exact He. destruct (H1 e He) as [_ ->]. auto.
  - intros e He. apply H1, He.
Qed.
Print Assumptions C27_csr_to_coo_partial.

Theorem C27_csc_to_coo_partial : forall {T} (junkT : T) junkZ sb (A : csc_matrix T),
  valid_csc A -> cc_base A = BZero -> fits sb (cc_nnz A) (cc_nc A) ->
  exists M, csc_to_coo junkT junkZ sb A (mk_coo (cc_nr A) (cc_nc A)) = Ok M /\
    co_nr M = cc_nr A /\ co_nc M = cc_nc A /\ co_nnz M = cc_nnz A /\ co_base M = BZero /\
    (forall e, 0 <= e < cc_nnz A -> get (arrv (co_vals M)) e = get (arrv (cc_vals A)) e /\ get (arrv (co_rows M)) e = Some e) /\
    (forall i lo hi e, 0 <= i < cc_nc A -> get (arrv (cc_ptr A)) i = Some lo -> get (arrv (cc_ptr A)) (i + 1) = Some hi -> lo <= e < hi ->
       get (arrv (co_cols M)) e = Some i) /\
    ((forall e, 0 <= e < cc_nnz A -> get (arrv (cc_idx A)) e = Some e) ->
     forall i j, 0 <= j < cc_nc A -> coo_at M i j = csc_at A i j).
Proof.
  intros T junkT junkZ sb A V Hb F.
  destruct (csc_to_coo_spec junkT junkZ sb A V Hb F) as (M & E & D1 & D2 & D3 & D4 & _ & L1 & L2 & L3 & H1 & H2).
  exists M. repeat (split; [assumption|]). intros Hid i j Hj. unfold coo_at, csc_at. rewrite D3, D4, Hb. cbn [off]. rewrite !Z.add_0_r.
  destruct V as (_ & _ & Hn & Lv & [Li _] & Hp).
  rewrite <- (csx_coo_values (cc_nc A) (cc_nnz A) (arrv (cc_ptr A)) (arrv (cc_idx A)) (arrv (cc_vals A)) (arrv (co_cols M)) (arrv (co_vals M)) j i); auto.
  - rewrite coo_values_swap. apply coo_values_ext. intros e He. rewrite Hid by exact He. destruct (H1 e He) as [_ ->]. auto.
  - intros e He. apply H1, He.
Qed.
Print Assumptions C27_csc_to_coo_partial.

Example C27_case :   (* a 2x2 upper triangle whose indices happen to equal the positions: diag *)
  exists M, csr_to_coo 0 0 64 (Build_csr_matrix 2 2 false 2 BZero (Some [5; 7]) (Some [0; 1; 2]) (Some [0; 1])) (mk_coo 2 2) = Ok M /\
    coo_at M 0 0 = [5] /\ coo_at M 1 1 = [7] /\ coo_at M 0 1 = [].
Proof. eexists. split; [vm_compute; reflexivity|]. vm_compute. auto. Qed.

(* ================================================================== *)
(** ** C28  Transposes *)
Theorem C28_transpose_as_csr : forall {T} (zero : T) (A : csc_matrix T) (share : bool),
  valid_csc A ->
  exists R, transpose_as_csr zero A share = Ok R /\
    cr_nr R = cc_nc A /\ cr_nc R = cc_nr A /\ cr_nnz R = cc_nnz A /\ cr_base R = cc_base A /\ cr_own R = negb share /\ valid_csr R /\
    (forall i j, 0 <= j < cc_nc A -> csr_at R j i = csc_at A i j).
Proof.
  intros T zero A share V. pose proof V as (Hr & Hc & Hn & Lv & [Li Ri] & Hp). destruct share; cbn [transpose_as_csr].
  - eexists. split; [reflexivity|]. cbn [cr_nr cr_nc cr_nnz cr_base cr_own negb]. repeat (split; [reflexivity|]). split; [|reflexivity].
    unfold valid_csr. cbn [cr_nr cr_nc cr_nnz cr_base cr_vals cr_idx cr_ptr]. repeat (split; [assumption|]). split; [split|]; assumption.
  - unfold reserve_csr. cbn [cr_own cr_idx cr_vals cr_ptr is_null cr_nr cr_nc cr_base]. rewrite !require_true. cbn [bind].
    set (At := if cc_nnz A >? 0 then _ else _).
    assert (HA : cr_nr At = cc_nc A /\ cr_nc At = cc_nr A /\ cr_own At = true /\ cr_nnz At = cc_nnz A /\ cr_base At = cc_base A /\
       cr_ptr At = arr 0 (cc_nc A + 1) /\ zlen (arrv (cr_idx At)) = cc_nnz A /\ zlen (arrv (cr_vals At)) = cc_nnz A).
    { unfold At. destruct (Z.gtb_spec (cc_nnz A) 0); cbn [cr_nr cr_nc cr_own cr_nnz cr_base cr_ptr cr_idx cr_vals]; repeat (split; [reflexivity|]).
      - rewrite !zlen_arr by lia. auto.
      - assert (E0 : cc_nnz A = 0) by lia. rewrite E0. auto. }
    clearbody At. destruct HA as (H1 & H2 & H3 & H4 & H5 & H6 & H7 & H8).
    destruct (copy2_spec (cc_nnz A) (cc_idx A) (cr_idx At) (cc_vals A) (cr_vals At)) as (di & dv & -> & K1 & K2 & K3); try lia. cbn [bind].
    destruct Hp as (Lp & Hp'). rewrite H6.
    destruct (copy_arr_spec (cc_nc A + 1) (cc_ptr A) (arr 0 (cc_nc A + 1))) as (dp & -> & J1 & J2); [lia|lia|rewrite zlen_arr by lia; lia|].
    cbn [bind]. eexists. split; [reflexivity|]. cbn [cr_nr cr_nc cr_nnz cr_base cr_own negb]. rewrite H1, H2, H3, H4, H5. repeat (split; [reflexivity|]).
    rewrite zlen_arr in J1 by lia.
    assert (Hp2 : ptr_ok (cc_nc A) (cc_nnz A) (arrv dp)).
    { destruct Hp' as (P0 & Pn & Pm). split; [lia|]. rewrite !J2 by lia. split; [exact P0|]. split; [exact Pn|].
      intros i a b Hi Ga Gb. rewrite J2 in Ga, Gb by lia. apply (Pm i); auto. }
    split.
    + unfold valid_csr. cbn [cr_nr cr_nc cr_nnz cr_base cr_vals cr_idx cr_ptr]. rewrite ?H1, ?H2, ?H4, ?H5.
      repeat (split; [assumption || lia|]). split; [|exact Hp2]. split; [lia|]. intros e x He G. destruct (K3 e He) as [E _]. rewrite E in G. eauto.
    + intros i j Hj. unfold csr_at, csc_at. cbn [cr_ptr cr_idx cr_vals cr_base].
      apply (slice_values_ext _ _ _ _ _ _ (cc_nc A) (cc_nnz A)); auto. split; assumption.
Qed.
Print Assumptions C28_transpose_as_csr.

Theorem C28_transpose_as_csc : forall {T} (zero : T) (A : csr_matrix T) (share : bool),
  valid_csr A ->
  exists R, transpose_as_csc zero A share = Ok R /\
    cc_nr R = cr_nc A /\ cc_nc R = cr_nr A /\ cc_nnz R = cr_nnz A /\ cc_base R = cr_base A /\ cc_own R = negb share /\ valid_csc R /\
    (forall i j, 0 <= i < cr_nr A -> csc_at R j i = csr_at A i j).
Proof.
  intros T zero A share V. pose proof V as (Hr & Hc & Hn & Lv & [Li Ri] & Hp). destruct share; cbn [transpose_as_csc].
  - eexists. split; [reflexivity|]. cbn [cc_nr cc_nc cc_nnz cc_base cc_own negb]. repeat (split; [reflexivity|]). split; [|reflexivity].
    unfold valid_csc. cbn [cc_nr cc_nc cc_nnz cc_base cc_vals cc_idx cc_ptr]. repeat (split; [assumption|]). split; [split|]; assumption.
  - unfold reserve_csc. cbn [cc_own cc_idx cc_vals cc_ptr is_null cc_nr cc_nc cc_base]. rewrite !require_true. cbn [bind].
    set (At := if cr_nnz A >? 0 then _ else _).
    assert (HA : cc_nr At = cr_nc A /\ cc_nc At = cr_nr A /\ cc_own At = true /\ cc_nnz At = cr_nnz A /\ cc_base At = cr_base A /\
       cc_ptr At = arr 0 (cr_nr A + 1) /\ zlen (arrv (cc_idx At)) = cr_nnz A /\ zlen (arrv (cc_vals At)) = cr_nnz A).
    { unfold At. destruct (Z.gtb_spec (cr_nnz A) 0); cbn [cc_nr cc_nc cc_own cc_nnz cc_base cc_ptr cc_idx cc_vals]; repeat (split; [reflexivity|]).
      - rewrite !zlen_arr by lia. auto.
      - assert (E0 : cr_nnz A = 0) by lia. rewrite E0. auto. }
    clearbody At. destruct HA as (H1 & H2 & H3 & H4 & H5 & H6 & H7 & H8).
    destruct (copy2_spec (cr_nnz A) (cr_idx A) (cc_idx At) (cr_vals A) (cc_vals At)) as (di & dv & -> & K1 & K2 & K3); try lia. cbn [bind].
    destruct Hp as (Lp & Hp'). rewrite H6.
    destruct (copy_arr_spec (cr_nr A + 1) (cr_ptr A) (arr 0 (cr_nr A + 1))) as (dp & -> & J1 & J2); [lia|lia|rewrite zlen_arr by lia; lia|].
    cbn [bind]. eexists. split; [reflexivity|]. cbn [cc_nr cc_nc cc_nnz cc_base cc_own negb]. rewrite H1, H2, H3, H4, H5. repeat (split; [reflexivity|]).
    rewrite zlen_arr in J1 by lia.
    assert (Hp2 : ptr_ok (cr_nr A) (cr_nnz A) (arrv dp)).
    { destruct Hp' as (P0 & Pn & Pm). split; [lia|]. rewrite !J2 by lia. split; [exact P0|]. split; [exact Pn|].
      intros i a b Hi Ga Gb. rewrite J2 in Ga, Gb by lia. apply (Pm i); auto. }
    split.
    + unfold valid_csc. cbn [cc_nr cc_nc cc_nnz cc_base cc_vals cc_idx cc_ptr]. rewrite ?H1, ?H2, ?H4, ?H5.
      repeat (split; [assumption || lia|]). split; [|exact Hp2]. split; [lia|]. intros e x He G. destruct (K3 e He) as [E _]. rewrite E in G. eauto.
    + intros i j Hj. unfold csr_at, csc_at. cbn [cc_ptr cc_idx cc_vals cc_base].
      apply (slice_values_ext _ _ _ _ _ _ (cr_nr A) (cr_nnz A)); auto. split; assumption.
Qed.
Print Assumptions C28_transpose_as_csc.

Theorem C28_coo_transpose : forall {T} (A : coo_matrix T),
  valid_coo A ->
  exists R, coo_transpose A = Ok R /\ co_nr R = co_nc A /\ co_nc R = co_nr A /\ co_nnz R = co_nnz A /\ co_base R = co_base A /\ co_own R = false /\ valid_coo R /\
    (forall i j, coo_at R j i = coo_at A i j).
Proof.
  intros T A (Hr & Hc & Hn & Lv & Ir & Ic). unfold coo_transpose, mk_coo_expert. cbn [bind].
  eexists. split; [reflexivity|]. cbn [co_nr co_nc co_nnz co_base co_own]. repeat (split; [reflexivity|]). split.
  - unfold valid_coo. cbn [co_nr co_nc co_nnz co_base co_vals co_rows co_cols]. auto 10.
  - intros i j. unfold coo_at. cbn [co_nr co_nc co_nnz co_base co_vals co_rows co_cols]. apply coo_values_swap.
Qed.
Print Assumptions C28_coo_transpose.

(** Twice: sharing gives back every field (the result does not own its memory); copying
    gives arrays with the same contents. *)
Theorem C28_transpose_twice : forall {T} (zero : T),
  (forall A : csc_matrix T,
     (R <- transpose_as_csr zero A true ;; transpose_as_csc zero R true) =
     Ok (Build_csc_matrix (cc_nr A) (cc_nc A) false (cc_nnz A) (cc_base A) (cc_vals A) (cc_idx A) (cc_ptr A))) /\
  (forall A : csr_matrix T,
     (R <- transpose_as_csc zero A true ;; transpose_as_csr zero R true) =
     Ok (Build_csr_matrix (cr_nr A) (cr_nc A) false (cr_nnz A) (cr_base A) (cr_vals A) (cr_ptr A) (cr_idx A))) /\
  (forall A : coo_matrix T,
     (R <- coo_transpose A ;; coo_transpose R) =
     Ok (Build_coo_matrix (co_nr A) (co_nc A) false (co_nnz A) (co_base A) (co_vals A) (co_rows A) (co_cols A) (co_sort A))) /\
  (forall (A : csc_matrix T) (s1 s2 : bool), valid_csc A ->
     exists A', (R <- transpose_as_csr zero A s1 ;; transpose_as_csc zero R s2) = Ok A' /\
       cc_nr A' = cc_nr A /\ cc_nc A' = cc_nc A /\ cc_nnz A' = cc_nnz A /\ cc_base A' = cc_base A /\ valid_csc A' /\
       forall i j, 0 <= j < cc_nc A -> csc_at A' i j = csc_at A i j) /\
  (forall (A : csr_matrix T) (s1 s2 : bool), valid_csr A ->
     exists A', (R <- transpose_as_csc zero A s1 ;; transpose_as_csr zero R s2) = Ok A' /\
       cr_nr A' = cr_nr A /\ cr_nc A' = cr_nc A /\ cr_nnz A' = cr_nnz A /\ cr_base A' = cr_base A /\ valid_csr A' /\
       forall i j, 0 <= i < cr_nr A -> csr_at A' i j = csr_at A i j).
Proof.
  intros T zero. split; [reflexivity|]. split; [reflexivity|]. split; [intros [? ? ? ? ? ? ? ? []]; reflexivity|]. split.
  - intros A s1 s2 V. destruct (C28_transpose_as_csr zero A s1 V) as (R & -> & R1 & R2 & R3 & R4 & _ & VR & HR). cbn [bind].
    destruct (C28_transpose_as_csc zero R s2 VR) as (A' & -> & Q1 & Q2 & Q3 & Q4 & _ & VA & HA).
    exists A'. split; [reflexivity|]. do 4 (split; [congruence|]). split; [exact VA|].
    intros i j Hj. rewrite HA by lia. apply HR, Hj.
  - intros A s1 s2 V. destruct (C28_transpose_as_csc zero A s1 V) as (R & -> & R1 & R2 & R3 & R4 & _ & VR & HR). cbn [bind].
    destruct (C28_transpose_as_csr zero R s2 VR) as (A' & -> & Q1 & Q2 & Q3 & Q4 & _ & VA & HA).
    exists A'. split; [reflexivity|]. do 4 (split; [congruence|]). split; [exact VA|].
    intros i j Hi. rewrite HA by lia. apply HR, Hi.
Qed.
Print Assumptions C28_transpose_twice.

Example C28_case :
  exists R, transpose_as_csc 0 csr_ex false = Ok R /\ csc_at R 2 0 = [5] /\ csc_at R 2 1 = [7] /\ csc_at R 0 1 = [] /\ cc_nr R = 3 /\
  exists Q, coo_transpose coo_ex = Ok Q /\ coo_at Q 2 1 = [10; 40] /\ coo_at Q 0 1 = [30].
Proof. eexists. split; [vm_compute; reflexivity|]. vm_compute. repeat (split; [reflexivity|]). eexists. split; [reflexivity|]. auto. Qed.

(* ================================================================== *)
(** ** C29  Changing the index base *)
Lemma base_eqb_spec a b : reflect (a = b) (base_eqb a b).
Proof. destruct a, b; constructor; congruence. Qed.
Lemma shift_of_off b d : b <> d -> shift_of b = off d - off b.
Proof. destruct b, d; cbn; congruence. Qed.

Lemma shift_back n d a a' : shifted n d a a' -> is_null a' = is_null a -> 0 <= n -> n <= zlen (arrv a) -> shift_arr n (- d) a' = Ok a.
Proof.
  intros (L & H1 & H2) Nl Hn Hl. destruct (shift_arr_spec n (- d) a' Hn ltac:(lia)) as (a2 & E & L2 & N2 & K1 & K2). rewrite E. f_equal.
  assert (Eq : arrv a2 = arrv a).
  { apply list_ext_get; [lia|]. intros e H0.
    destruct (Z.lt_ge_cases e n).
    - rewrite K1, H1 by lia. destruct (get (arrv a) e); cbn [option_map]; [f_equal; lia|reflexivity].
    - rewrite K2, H2 by lia. reflexivity. }
  destruct a, a', a2; cbn in *; congruence.
Qed.

Theorem C29_reindex_csr : forall {T} (A : csr_matrix T) (b : index_base),
  valid_csr A ->
  exists A', reindex_csr A b = Ok A' /\
    cr_nr A' = cr_nr A /\ cr_nc A' = cr_nc A /\ cr_nnz A' = cr_nnz A /\ cr_own A' = cr_own A /\ cr_vals A' = cr_vals A /\ cr_ptr A' = cr_ptr A /\
    cr_base A' = b /\ shifted (cr_nnz A) (off b - off (cr_base A)) (cr_idx A) (cr_idx A') /\
    valid_csr A' /\ (forall i j, 0 <= i < cr_nr A -> csr_at A' i j = csr_at A i j) /\
    reindex_csr A' b = Ok A' /\ reindex_csr A' (cr_base A) = Ok A.
Proof.
  intros T A b V. pose proof V as (Hr & Hc & Hn & Lv & [Li Ri] & Hp). unfold reindex_csr at 1. destruct (base_eqb_spec (cr_base A) b) as [E|E].
  - subst b. exists A. repeat (split; [reflexivity|]). rewrite Z.sub_diag. split.
    { split; [reflexivity|]. split; [|reflexivity]. intros e He. destruct (get (arrv (cr_idx A)) e); cbn [option_map]; [f_equal; lia|reflexivity]. }
    split; [exact V|]. split; [reflexivity|]. unfold reindex_csr. destruct (base_eqb_spec (cr_base A) (cr_base A)); [auto|congruence].
  - destruct (shift_arr_spec (cr_nnz A) (shift_of (cr_base A)) (cr_idx A) Hn Li) as (idx & -> & L & Nl & S1 & S2). cbn [bind].
    rewrite (shift_of_off _ _ E) in *. eexists. split; [reflexivity|]. cbn [cr_nr cr_nc cr_nnz cr_own cr_vals cr_ptr cr_base cr_idx].
    repeat (split; [reflexivity|]). split; [split; [exact L|split; assumption]|]. split.
    { unfold valid_csr. cbn [cr_nr cr_nc cr_nnz cr_own cr_vals cr_ptr cr_base cr_idx]. repeat (split; [assumption|]). split; [|exact Hp].
      split; [lia|]. intros e x He G. rewrite S1 in G by exact He. destruct (get (arrv (cr_idx A)) e) as [y|] eqn:G'; [|discriminate].
      cbn [option_map] in G. inversion G. specialize (Ri e y He G'). lia. }
    split.
    { intros i j Hi. unfold csr_at, slice_values. cbn [cr_nr cr_nc cr_nnz cr_own cr_vals cr_ptr cr_base cr_idx].
      destruct (slice_bounds _ _ _ i Hp Hi) as (lo & hi & -> & -> & B1 & B2). apply flat_map_ext_in. intros e He. apply in_range in He.
      rewrite S1 by lia. destruct (get (arrv (cr_idx A)) e); cbn [option_map]; [|reflexivity]. destruct (get (arrv (cr_vals A)) e); [|reflexivity].
      replace (z + (off b - off (cr_base A)) =? j + off b) with (z =? j + off (cr_base A)) by lia. reflexivity. }
    unfold reindex_csr. cbn [cr_nr cr_nc cr_nnz cr_own cr_vals cr_ptr cr_base cr_idx]. split.
    + destruct (base_eqb_spec b b); [reflexivity|congruence].
    + destruct (base_eqb_spec b (cr_base A)); [congruence|]. rewrite (shift_of_off b (cr_base A)) by congruence.
      replace (off (cr_base A) - off b) with (- (off b - off (cr_base A))) by lia.
      rewrite (shift_back (cr_nnz A) (off b - off (cr_base A)) (cr_idx A) idx); auto. 2: { split; [exact L|split; assumption]. }
      cbn [bind]. destruct A. reflexivity.
Qed.
Print Assumptions C29_reindex_csr.

Theorem C29_reindex_csc : forall {T} (A : csc_matrix T) (b : index_base),
  valid_csc A ->
  exists A', reindex_csc A b = Ok A' /\
    cc_nr A' = cc_nr A /\ cc_nc A' = cc_nc A /\ cc_nnz A' = cc_nnz A /\ cc_own A' = cc_own A /\ cc_vals A' = cc_vals A /\ cc_ptr A' = cc_ptr A /\
    cc_base A' = b /\ shifted (cc_nnz A) (off b - off (cc_base A)) (cc_idx A) (cc_idx A') /\
    valid_csc A' /\ (forall i j, 0 <= j < cc_nc A -> csc_at A' i j = csc_at A i j) /\
    reindex_csc A' b = Ok A' /\ reindex_csc A' (cc_base A) = Ok A.
Proof.
  intros T A b V. pose proof V as (Hr & Hc & Hn & Lv & [Li Ri] & Hp). unfold reindex_csc at 1. destruct (base_eqb_spec (cc_base A) b) as [E|E].
  - subst b. exists A. repeat (split; [reflexivity|]). rewrite Z.sub_diag. split.
    { split; [reflexivity|]. split; [|reflexivity]. intros e He. destruct (get (arrv (cc_idx A)) e); cbn [option_map]; [f_equal; lia|reflexivity]. }
    split; [exact V|]. split; [reflexivity|]. unfold reindex_csc. destruct (base_eqb_spec (cc_base A) (cc_base A)); [auto|congruence].
  - destruct (shift_arr_spec (cc_nnz A) (shift_of (cc_base A)) (cc_idx A) Hn Li) as (idx & -> & L & Nl & S1 & S2). cbn [bind].
    rewrite (shift_of_off _ _ E) in *. eexists. split; [reflexivity|]. cbn [cc_nr cc_nc cc_nnz cc_own cc_vals cc_ptr cc_base cc_idx].
    repeat (split; [reflexivity|]). split; [split; [exact L|split; assumption]|]. split.
    { unfold valid_csc. cbn [cc_nr cc_nc cc_nnz cc_own cc_vals cc_ptr cc_base cc_idx]. repeat (split; [assumption|]). split; [|exact Hp].
      split; [lia|]. intros e x He G. rewrite S1 in G by exact He. destruct (get (arrv (cc_idx A)) e) as [y|] eqn:G'; [|discriminate].
      cbn [option_map] in G. inversion G. specialize (Ri e y He G'). lia. }
    split.
    { intros j i Hi. unfold csc_at, slice_values. cbn [cc_nr cc_nc cc_nnz cc_own cc_vals cc_ptr cc_base cc_idx].
      destruct (slice_bounds _ _ _ i Hp Hi) as (lo & hi & -> & -> & B1 & B2). apply flat_map_ext_in. intros e He. apply in_range in He.
      rewrite S1 by lia. destruct (get (arrv (cc_idx A)) e); cbn [option_map]; [|reflexivity]. destruct (get (arrv (cc_vals A)) e); [|reflexivity].
      replace (z + (off b - off (cc_base A)) =? j + off b) with (z =? j + off (cc_base A)) by lia. reflexivity. }
    unfold reindex_csc. cbn [cc_nr cc_nc cc_nnz cc_own cc_vals cc_ptr cc_base cc_idx]. split.
    + destruct (base_eqb_spec b b); [reflexivity|congruence].
    + destruct (base_eqb_spec b (cc_base A)); [congruence|]. rewrite (shift_of_off b (cc_base A)) by congruence.
      replace (off (cc_base A) - off b) with (- (off b - off (cc_base A))) by lia.
      rewrite (shift_back (cc_nnz A) (off b - off (cc_base A)) (cc_idx A) idx); auto. 2: { split; [exact L|split; assumption]. }
      cbn [bind]. destruct A. reflexivity.
Qed.
Print Assumptions C29_reindex_csc.

Theorem C29_reindex_coo : forall {T} (A : coo_matrix T) (b : index_base),
  valid_coo A ->
  exists A', reindex_coo A b = Ok A' /\
    co_nr A' = co_nr A /\ co_nc A' = co_nc A /\ co_nnz A' = co_nnz A /\ co_own A' = co_own A /\ co_vals A' = co_vals A /\ co_sort A' = co_sort A /\
    co_base A' = b /\ shifted (co_nnz A) (off b - off (co_base A)) (co_rows A) (co_rows A') /\
    shifted (co_nnz A) (off b - off (co_base A)) (co_cols A) (co_cols A') /\
    valid_coo A' /\ (forall i j, coo_at A' i j = coo_at A i j) /\
    reindex_coo A' b = Ok A' /\ reindex_coo A' (co_base A) = Ok A.
Proof.
  intros T A b V. pose proof V as (Hr & Hc & Hn & Lv & [Lr Rr] & [Lc Rc]). unfold reindex_coo at 1. destruct (base_eqb_spec (co_base A) b) as [E|E].
  - subst b. exists A. repeat (split; [reflexivity|]). rewrite Z.sub_diag.
    assert (S : forall a, shifted (co_nnz A) 0 a a).
    { intros a. split; [reflexivity|]. split; [|reflexivity]. intros e He. destruct (get (arrv a) e); cbn [option_map]; [f_equal; lia|reflexivity]. }
    split; [apply S|]. split; [apply S|]. split; [exact V|]. split; [reflexivity|].
    unfold reindex_coo. destruct (base_eqb_spec (co_base A) (co_base A)); [auto|congruence].
  - destruct (shift_arr_spec (co_nnz A) (shift_of (co_base A)) (co_rows A) Hn Lr) as (rows & -> & L1 & N1 & S1 & S2). cbn [bind].
    destruct (shift_arr_spec (co_nnz A) (shift_of (co_base A)) (co_cols A) Hn Lc) as (cols & -> & L2 & N2 & S3 & S4). cbn [bind].
    rewrite (shift_of_off _ _ E) in *. eexists. split; [reflexivity|]. cbn [co_nr co_nc co_nnz co_own co_vals co_sort co_base co_rows co_cols].
    repeat (split; [reflexivity|]). split; [split; [exact L1|split; assumption]|]. split; [split; [exact L2|split; assumption]|]. split.
    { unfold valid_coo. cbn [co_nr co_nc co_nnz co_own co_vals co_sort co_base co_rows co_cols]. repeat (split; [assumption|]). split; (split; [lia|]); intros e x He G.
      - rewrite S1 in G by exact He. destruct (get (arrv (co_rows A)) e) as [y|] eqn:G'; [|discriminate].
        cbn [option_map] in G. inversion G. specialize (Rr e y He G'). lia.
      - rewrite S3 in G by exact He. destruct (get (arrv (co_cols A)) e) as [y|] eqn:G'; [|discriminate].
        cbn [option_map] in G. inversion G. specialize (Rc e y He G'). lia. }
    split.
    { intros i j. unfold coo_at, coo_values. cbn [co_nr co_nc co_nnz co_own co_vals co_sort co_base co_rows co_cols].
      apply flat_map_ext_in. intros e He. apply in_range in He.
      rewrite S1, S3 by lia. destruct (get (arrv (co_rows A)) e) as [r|]; cbn [option_map]; [|reflexivity].
      destruct (get (arrv (co_cols A)) e) as [c|]; cbn [option_map]; [|reflexivity].
      destruct (get (arrv (co_vals A)) e); [|reflexivity].
      replace (r + (off b - off (co_base A)) =? i + off b) with (r =? i + off (co_base A)) by lia.
      replace (c + (off b - off (co_base A)) =? j + off b) with (c =? j + off (co_base A)) by lia. reflexivity. }
    unfold reindex_coo. cbn [co_nr co_nc co_nnz co_own co_vals co_sort co_base co_rows co_cols]. split.
    + destruct (base_eqb_spec b b); [reflexivity|congruence].
    + destruct (base_eqb_spec b (co_base A)); [congruence|]. rewrite (shift_of_off b (co_base A)) by congruence.
      replace (off (co_base A) - off b) with (- (off b - off (co_base A))) by lia.
      rewrite (shift_back (co_nnz A) (off b - off (co_base A)) (co_rows A) rows); auto. 2: { split; [exact L1|split; assumption]. }
      cbn [bind]. rewrite (shift_back (co_nnz A) (off b - off (co_base A)) (co_cols A) cols); auto. 2: { split; [exact L2|split; assumption]. }
      cbn [bind]. destruct A. reflexivity.
Qed.
Print Assumptions C29_reindex_coo.

Example C29_case :
  exists A, reindex_coo coo_ex BOne = Ok A /\ co_rows A = Some [2; 1; 2; 2] /\ co_cols A = Some [3; 2; 1; 3] /\ coo_at A 1 2 = [10; 40].
Proof. eexists. split; [reflexivity|]. auto. Qed.

(* ================================================================== *)
(** ** C30  Sorting COO data *)
Theorem C30_sort_permutes_into_order : forall {T} ssort (nnz : Z) (vals : option (list T)) rows cols,
  sort_ok ssort -> 0 <= nnz -> nnz <= zlen (arrv vals) -> nnz <= zlen (arrv rows) -> nnz <= zlen (arrv cols) ->
  forall s, s <> SNone ->
  exists vals' rows' cols', sort_coo_data ssort s nnz vals rows cols = Ok (vals', rows', cols') /\
    Permutation (coo_triples nnz (arrv rows) (arrv cols) (arrv vals)) (coo_triples nnz (arrv rows') (arrv cols') (arrv vals')) /\
    ordered (match s with SCSC => le_csc | _ => le_csr end) nnz (arrv rows') (arrv cols') /\
    (zlen (arrv vals') = zlen (arrv vals) /\ zlen (arrv rows') = zlen (arrv rows) /\ zlen (arrv cols') = zlen (arrv cols)) /\
    (forall e, nnz <= e -> get (arrv vals') e = get (arrv vals) e /\ get (arrv rows') e = get (arrv rows) e /\ get (arrv cols') e = get (arrv cols) e).
Proof.
  intros T ssort nnz vals rows cols Hs Hn Lv Lr Lc s Hne.
  destruct (sort_coo_data_spec ssort Hs s nnz vals rows cols Hne Hn Lv Lr Lc) as (v & r & c & E & L1 & L2 & L3 & P & O & U).
  exists v, r, c. repeat (split; [assumption|]). split; [destruct s; exact O || congruence|]. auto.
Qed.
Print Assumptions C30_sort_permutes_into_order.

Theorem C30_sort_type_is_the_real_order : forall nnz rows cols,
  nnz <= zlen (arrv rows) -> nnz <= zlen (arrv cols) ->
  exists s, coo_sort_type nnz rows cols = Ok s /\
    (s = SCSC <-> ordered le_csc nnz (arrv rows) (arrv cols)) /\
    (s = SCSR <-> ordered le_csr nnz (arrv rows) (arrv cols) /\ ~ ordered le_csc nnz (arrv rows) (arrv cols)).
Proof. exact coo_sort_type_spec. Qed.
Print Assumptions C30_sort_type_is_the_real_order.

(** Asking for no order leaves the data alone. *)
Remark sort_no_order_requested : forall {T} ssort nnz (vals : option (list T)) rows cols,
  sort_coo_data ssort SNone nnz vals rows cols = Ok (vals, rows, cols).
Proof. reflexivity. Qed.

Example C30_case :
  sort_ok (@isort (Z * Z * Z)) /\
  sort_coo_data isort SCSR 4 (Some [10; 20; 30; 40; 9]) (Some [1; 0; 1; 1]) (Some [2; 1; 0; 2]) =
    Ok (Some [20; 30; 10; 40; 9], Some [0; 1; 1; 1], Some [1; 0; 2; 2]) /\
  coo_sort_type 4 (Some [1; 0; 1; 1]) (Some [2; 1; 0; 2]) = Ok SNone /\
  coo_sort_type 4 (Some [0; 1; 1; 1]) (Some [1; 0; 2; 2]) = Ok SCSR.
Proof. split; [apply isort_ok|]. vm_compute. auto. Qed.

(* ================================================================== *)
(** ** C31  Pointer arrays *)
Theorem C31_pointer_array_counts_predecessors : forall nnz l n,
  0 <= nnz <= zlen l -> 0 <= n -> n + 1 <= zlen l ->
  (forall e x, 0 <= e < nnz -> get l e = Some x -> 0 <= x < n) ->
  (nondecreasing nnz l /\ exists l', pointer_array nnz l n = Ok l' /\ zlen l' = zlen l /\
     (forall i, 0 <= i <= n -> get l' i = Some (count_below nnz l i)) /\ (forall i, n < i -> get l' i = get l i)) \/
  (~ nondecreasing nnz l /\ pointer_array nnz l n = Throw).
Proof. exact pointer_array_spec. Qed.
Print Assumptions C31_pointer_array_counts_predecessors.

Example C31_case :
  pointer_array 4 [0; 2; 2; 3; 77] 4 = Ok [0; 1; 1; 3; 4] /\ pointer_array 4 [0; 2; 1; 3; 77] 4 = Throw /\
  map (count_below 4 [0; 2; 2; 3; 77]) [0; 1; 2; 3; 4] = [0; 1; 1; 3; 4].
Proof. vm_compute. auto. Qed.

(* ================================================================== *)
(** ** C32  Mismatched dimensions *)
(** Rejected whatever the source and destination contain (in particular with no arrays at
    all, so nothing is read or written before the exception). *)
Theorem C32_mismatch_is_rejected : forall {T} (zero junkT : T) junkZ ssort sb,
  (forall (M : coo_matrix T) R, cr_nr R <> co_nr M \/ cr_nc R <> co_nc M -> coo_to_csr zero ssort sb M R = Throw) /\
  (forall (A : csr_matrix T) M, co_nr M <> cr_nr A \/ co_nc M <> cr_nc A -> csr_to_coo junkT junkZ sb A M = Throw) /\
  (forall (A : csc_matrix T) M, co_nr M <> cc_nr A \/ co_nc M <> cc_nc A -> csc_to_coo junkT junkZ sb A M = Throw) /\
  (forall (M : coo_matrix T) R, cc_nr R <> co_nr M -> coo_to_csc zero ssort sb M R = Throw).
Proof.
  intros T zero junkT junkZ ssort sb. split; [|split; [|split]]; intros M R H.
  - unfold coo_to_csr. destruct (Z.eqb_spec (cr_nr R) (co_nr M)); [|reflexivity]. rewrite require_true. cbn [bind].
    destruct (Z.eqb_spec (cr_nc R) (co_nc M)); [|reflexivity]. lia.
  - unfold csr_to_coo. destruct (Z.eqb_spec (cr_nr M) (co_nr R)); [|reflexivity]. rewrite require_true. cbn [bind].
    destruct (Z.eqb_spec (cr_nc M) (co_nc R)); [|reflexivity]. lia.
  - unfold csc_to_coo. destruct (Z.eqb_spec (cc_nr M) (co_nr R)); [|reflexivity]. rewrite require_true. cbn [bind].
    destruct (Z.eqb_spec (cc_nc M) (co_nc R)); [|reflexivity]. lia.
  - unfold coo_to_csc. destruct (Z.eqb_spec (cc_nr R) (co_nr M)); [lia|reflexivity].
Qed.
Print Assumptions C32_mismatch_is_rejected.

(** No access out of bounds: for any COO matrix whose arrays hold nnz elements (indices
    arbitrary), conversion to CSR ends in success or in an exception, never in UB. *)
Theorem C32_coo_to_csr_in_bounds : forall {T} (zero : T) ssort sb (M : coo_matrix T) nr nc,
  sort_ok ssort -> coo_arrays M -> 0 <= nr ->
  (exists M' R, coo_to_csr zero ssort sb M (mk_csr nr nc) = Ok (M', R) /\ nr = co_nr M /\ nc = co_nc M /\ co_base M = BZero) \/
  (coo_to_csr zero ssort sb M (mk_csr nr nc) = Throw /\ ~ (nr = co_nr M /\ nc = co_nc M /\ co_base M = BZero)).
Proof. intros T zero ssort sb M nr nc Hs A Hr. now apply coo_to_csr_total. Qed.
Print Assumptions C32_coo_to_csr_in_bounds.

(** Finding: coo_to_csc compares csc.n_cols with itself, so a destination with a different
    number of columns is accepted: with fewer columns the pointer array is written out of
    bounds, with more the result claims the destination's shape with a pointer array whose
    last element is not nnz. *)
Theorem C32_coo_to_csc_refuted :
  (exists M : coo_matrix Z, valid_coo M /\ co_base M = BZero /\ co_nc M = 3 /\ coo_to_csc 0 isort 64 M (mk_csc (co_nr M) 2) = UB) /\
  (exists (M : coo_matrix Z) M' R, valid_coo M /\ co_base M = BZero /\ co_nc M = 3 /\ coo_to_csc 0 isort 64 M (mk_csc (co_nr M) 4) = Ok (M', R) /\
     cc_nc R <> co_nc M /\ ~ valid_csc R).
Proof.
  assert (V : valid_coo coo_ex) by apply C26_case.
  split; exists coo_ex.
  - repeat (split; [exact V || reflexivity|]). vm_compute. reflexivity.
  - do 2 eexists. split; [exact V|]. split; [reflexivity|]. split; [reflexivity|]. split; [vm_compute; reflexivity|]. cbn [cc_nc co_nc coo_ex]. split; [lia|].
    intros (_ & _ & _ & _ & _ & _ & _ & Hp & _). vm_compute in Hp. discriminate.
Qed.
Print Assumptions C32_coo_to_csc_refuted.

Example C32_case : coo_to_csr 0 isort 64 coo_ex (mk_csr 2 4) = Throw /\ coo_to_csc 0 isort 64 coo_ex (mk_csc 3 3) = Throw.
Proof. split; reflexivity. Qed.
