(** Small specification vocabulary, independent of the model's helpers.

    These are the notions the RandBLAS documentation uses to say what its functions
    do: storage order, mat(.), op(.), submat(.). *)
From Verif Require Import Base.

(** blas::Layout and blas::Op (real scalars: ConjTrans is not distinguished). *)
Inductive layout := ColMajor | RowMajor.
Inductive op := NoTrans | Trans.

Definition layout_eqb (a b : layout) : bool :=
  match a, b with ColMajor, ColMajor | RowMajor, RowMajor => true | _, _ => false end.
Definition flip (l : layout) : layout := match l with ColMajor => RowMajor | RowMajor => ColMajor end.
Definition flip_op (o : op) : op := match o with NoTrans => Trans | Trans => NoTrans end.

(** Position of entry (i,j) in a buffer: rtd/source/tutorial/gemm.rst, "Details on mat(.)":
    A[i + j*lda] in column-major order, A[i*lda + j] in row-major order. *)
Definition addr (l : layout) (ld i j : Z) : Z :=
  match l with ColMajor => i + j * ld | RowMajor => i * ld + j end.

(** mat(A)_{ij} for a pointer at offset [off] in buffer [b]. *)
Definition mat {T} (l : layout) (ld off : Z) (b : list T) (i j : Z) : option T :=
  get b (off + addr l ld i j).

(** Smallest admissible leading dimension. *)
Definition min_ld (l : layout) (rows cols : Z) : Z :=
  match l with ColMajor => rows | RowMajor => cols end.

(** op(M)_{ij}. *)
Definition ent {A} (o : op) (M : Z -> Z -> A) (i j : Z) : A :=
  match o with NoTrans => M i j | Trans => M j i end.

(** C++ [int64_t] and [int]. *)
Definition int64_max : Z := 2 ^ 63 - 1.
Definition int64_min : Z := - 2 ^ 63.
Definition int_max : Z := 2 ^ 31 - 1.
Definition int64 (x : Z) : bool := (int64_min <=? x) && (x <=? int64_max).

Lemma layout_eqb_eq a b : layout_eqb a b = true <-> a = b.
Proof. destruct a, b; cbn; split; congruence. Qed.

Lemma layout_eqb_refl a : layout_eqb a a = true.
Proof. destruct a; reflexivity. Qed.

Lemma lin_inj n i j i' j' : 0 <= i < n -> 0 <= i' < n -> j * n + i = j' * n + i' -> i = i' /\ j = j'.
Proof.
  intros Hi Hi' H.
  assert (j = j') as ->; [|lia].
  destruct (Z.lt_trichotomy j j') as [L|[L|L]]; [|exact L|]; exfalso; nia.
Qed.

Lemma addr_inj l rows cols ld i j i' j' :
  min_ld l rows cols <= ld ->
  0 <= i < rows -> 0 <= j < cols -> 0 <= i' < rows -> 0 <= j' < cols ->
  addr l ld i j = addr l ld i' j' -> i = i' /\ j = j'.
Proof.
  destruct l; cbn [min_ld addr]; intros.
  - apply (lin_inj ld); lia.
  - destruct (lin_inj ld j i j' i'); lia.
Qed.

(** Every position of a packed buffer is the address of some entry. *)
Lemma addr_surj l rows cols p :
  0 < rows -> 0 < cols -> 0 <= p < rows * cols ->
  exists i j, 0 <= i < rows /\ 0 <= j < cols /\ p = addr l (min_ld l rows cols) i j.
Proof.
  intros Hr Hc Hp. destruct l; cbn [addr min_ld].
  - exists (p mod rows), (p / rows). pose proof (Z.div_mod p rows ltac:(lia)).
    pose proof (Z.mod_pos_bound p rows ltac:(lia)).
    split; [lia|]. split; [|lia]. split; [apply Z.div_pos; lia|]. apply Z.div_lt_upper_bound; lia.
  - exists (p / cols), (p mod cols). pose proof (Z.div_mod p cols ltac:(lia)).
    pose proof (Z.mod_pos_bound p cols ltac:(lia)).
    split; [|lia]. split; [apply Z.div_pos; lia|]. apply Z.div_lt_upper_bound; lia.
Qed.
