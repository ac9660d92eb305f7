(** Vocabulary for memory ownership: what a leak, an owner and a well-behaved caller are. *)
From Verif Require Import Base OwnModel.

Section OwnSpec.
  Context {V : Type}.
  Notation mem := (@mem V).

  (** The object held by variable x, if it exists. *)
  Definition var (s : mem) (x : nat) : option obj :=
    match nth_error (vars s) x with Some v => v | None => None end.
  Definition blk (s : mem) (a : nat) : option (block V) := nth_error (heap s) a.

  (** Some array member of x points to array a. *)
  Definition points (s : mem) (x : nat) (f : slot) (a : nat) : Prop :=
    exists o, var s x = Some o /\ get_slot o f = Some a.
  (** ... and x is responsible for freeing it. *)
  Definition owns (s : mem) (x : nat) (f : slot) (a : nat) : Prop :=
    exists o, var s x = Some o /\ o_own o = true /\ get_slot o f = Some a.

  (** An array the library allocated and has not freed. *)
  Definition lib_live (s : mem) (a : nat) : Prop := exists d, blk s a = Some (mk_block Lib false d).
  Definition by_lib (s : mem) (a : nat) : Prop := exists fr d, blk s a = Some (mk_block Lib fr d).
  Definition freed (s : mem) (a : nat) : Prop := exists w d, blk s a = Some (mk_block w true d).

  (** Every non-null array member of o that is looped over is live and long enough. *)
  Definition arrays_valid (s : mem) (o : obj) : Prop :=
    forall f a, get_slot o f = Some a -> 0 < extent o f ->
      exists w d, blk s a = Some (mk_block w false d) /\ extent o f <= zlen d.
  (** No array member that is looped over is null. *)
  Definition attached (o : obj) : Prop := forall f, 0 < extent o f -> get_slot o f <> None.
  (** The caller keeps the arrays lent to a non-owning object alive.  Nothing is asked of the
      caller for objects that own their memory. *)
  Definition lent_ok (s : mem) (o : obj) : Prop := o_own o = false -> arrays_valid s o.
  (** Lent members of a sparse operator. *)
  Definition skop_ok (s : mem) (o : obj) : Prop :=
    lent_ok s o /\ (o_own o = false -> 0 < o_nnz o -> attached o /\ o_nnz o <= o_full o).

  Definition exists_ptr (s : mem) (p : ptr) : Prop := forall a, p = Some a -> (a < length (heap s))%nat.
  Definition readable (s : mem) (p : ptr) (n : Z) : Prop :=
    0 < n -> exists a w d, p = Some a /\ blk s a = Some (mk_block w false d) /\ n <= zlen d.

  (** What the caller must respect when issuing a command: C++ scoping and types, positive
      dimensions, documented preconditions on lent arrays, and arrays attached before they
      are read.  BLASFriendlyOperator may not be copied (or "moved"). *)
  Definition legal (s : mem) (c : @cmd V) : Prop :=
    match c with
    | UserAlloc _ => True
    | UserFree a => exists d, blk s a = Some (mk_block User false d)
    | NewDense r c => 1 <= r /\ 1 <= c
    | NewSkop _ _ full => 1 <= full
    | NewCoo _ _ => True
    | NewCsr r _ => 0 <= r
    | NewCsc _ c => 0 <= c
    | NewSkopExpert _ _ _ _ p q r => exists_ptr s p /\ exists_ptr s q /\ exists_ptr s r
    | NewCooExpert _ _ nnz p q r sort =>
        exists_ptr s p /\ exists_ptr s q /\ exists_ptr s r /\ (sort = true -> readable s q nnz /\ readable s r nnz)
    | NewCsrExpert _ _ _ p q r => exists_ptr s p /\ exists_ptr s q /\ exists_ptr s r
    | NewCscExpert _ _ _ p q r => exists_ptr s p /\ exists_ptr s q /\ exists_ptr s r
    | Attach x p => exists o, var s x = Some o /\ o_kind o = KDense /\ (o_own o = true -> o_a o = None) /\ exists_ptr s p
    | FillDense x _ => exists o, var s x = Some o /\ o_kind o = KDense /\ lent_ok s o
    | FillSparse x nnz _ _ _ => exists o, var s x = Some o /\ o_kind o = KSkop /\ lent_ok s o /\ 0 < nnz <= o_full o
    | Reserve x _ => exists o, var s x = Some o /\ (o_kind o = KCoo \/ o_kind o = KCsr \/ o_kind o = KCsc)
    | DenseToSparse x nnz _ _ _ => exists o, var s x = Some o /\ (o_kind o = KCoo \/ o_kind o = KCsr \/ o_kind o = KCsc)
    | Convert x y _ _ _ _ _ _ _ =>
        exists ox oy, var s x = Some ox /\ var s y = Some oy /\ lent_ok s ox /\ attached ox /\
          ((o_kind ox = KCoo /\ o_kind oy = KCsr) \/
           (o_kind ox = KCoo /\ o_kind oy = KCsc /\ o_cols oy = o_cols ox) \/
           (o_kind ox = KCsr /\ o_kind oy = KCoo) \/ (o_kind ox = KCsc /\ o_kind oy = KCoo))
    | Access x => exists o, var s x = Some o /\ lent_ok s o /\ attached o
    | Overwrite x _ _ _ => exists o, var s x = Some o /\ lent_ok s o /\ attached o
    | Move x => exists o, var s x = Some o /\ o_kind o <> KBfo
    | Destroy x => exists o, var s x = Some o
    | CooView x nnz _ _ _ => exists o, var s x = Some o /\ o_kind o = KSkop /\ skop_ok s o /\ 0 < nnz <= o_full o
    | CooTranspose x => exists o, var s x = Some o /\ o_kind o = KCoo
    | TransposeAsCsr x share =>
        exists o, var s x = Some o /\ o_kind o = KCsc /\ (share = false -> lent_ok s o /\ attached o)
    | TransposeAsCsc x share =>
        exists o, var s x = Some o /\ o_kind o = KCsr /\ (share = false -> lent_ok s o /\ attached o)
    | Blackbox x r c ro co _ => exists o, var s x = Some o /\ o_kind o = KDense /\ 1 <= r /\ 1 <= c /\ 0 <= ro /\ 0 <= co
    | SketchDense x r c ro co _ _ =>
        exists o, var s x = Some o /\ o_kind o = KDense /\ lent_ok s o /\ 1 <= r /\ 1 <= c /\ 0 <= ro /\ 0 <= co
    | SketchSparse _ x nnz _ _ _ _ _ _ _ =>
        exists o, var s x = Some o /\ o_kind o = KSkop /\ skop_ok s o /\ 0 < nnz <= o_full o
    end.

  (** The first n elements of the array at p. *)
  Definition contents (s : mem) (p : ptr) (n : Z) : list V :=
    match p with
    | None => []
    | Some a => match blk s a with Some b => firstn (Z.to_nat n) (b_data b) | None => [] end
    end.

  Definition start : mem := mk_mem [] 0 [].
  (** The compiler elides the copy of the returned BLASFriendlyOperator, or none is returned. *)
  Definition no_bfo_copy (elide : bool) (s : mem) (c : @cmd V) : Prop :=
    elide = true \/
    match c with
    | Blackbox _ _ _ _ _ _ => False
    | SketchDense x _ _ _ _ _ _ => forall o, var s x = Some o -> o_a o <> None
    | _ => True
    end.
  (** States reached by legal commands; an exception may be caught and the program go on. *)
  Inductive reach (junk zero : V) (oom : nat -> bool) (elide : bool) : mem -> Prop :=
  | reach_start : reach junk zero oom elide start
  | reach_step s c s' :
      reach junk zero oom elide s -> legal s c -> no_bfo_copy elide s c ->
      exec junk zero oom elide c s = Val tt s' \/ exec junk zero oom elide c s = Exc s' ->
      reach junk zero oom elide s'.

  (** Variables and arrays a command names. *)
  Definition named_vars (c : @cmd V) : list nat :=
    match c with
    | Attach x _ | FillDense x _ | FillSparse x _ _ _ _ | Reserve x _ | DenseToSparse x _ _ _ _ | Access x
    | Overwrite x _ _ _ | Move x | Destroy x | CooView x _ _ _ _ | CooTranspose x | TransposeAsCsr x _
    | TransposeAsCsc x _ | Blackbox x _ _ _ _ _ | SketchDense x _ _ _ _ _ _ | SketchSparse _ x _ _ _ _ _ _ _ _ => [x]
    | Convert x y _ _ _ _ _ _ _ => [x; y]
    | _ => []
    end.
  Definition named_ptrs (c : @cmd V) : list ptr :=
    match c with
    | NewSkopExpert _ _ _ _ p q r | NewCooExpert _ _ _ p q r _ | NewCsrExpert _ _ _ p q r | NewCscExpert _ _ _ p q r => [p; q; r]
    | Attach _ p => [p]
    | UserFree a => [Some a]
    | _ => []
    end.
  (** Program fragments all of whose commands satisfy P. *)
  Inductive run (junk zero : V) (oom : nat -> bool) (elide : bool) (P : @cmd V -> Prop) : mem -> mem -> Prop :=
  | run_nil s : run junk zero oom elide P s s
  | run_cons s c s1 s2 :
      legal s c -> no_bfo_copy elide s c -> P c ->
      exec junk zero oom elide c s = Val tt s1 \/ exec junk zero oom elide c s = Exc s1 ->
      run junk zero oom elide P s1 s2 -> run junk zero oom elide P s s2.
  (** c mentions neither variable z nor one of its arrays. *)
  Definition avoids (z : nat) (p : obj) (c : @cmd V) : Prop :=
    ~ In z (named_vars c) /\ forall f a, get_slot p f = Some a -> ~ In (Some a) (named_ptrs c).
  (** c mentions only variables and arrays that did not exist in state s. *)
  Definition newer (s : mem) (c : @cmd V) : Prop :=
    (forall y, In y (named_vars c) -> (length (vars s) <= y)%nat) /\
    (forall a, In (Some a) (named_ptrs c) -> (length (heap s) <= a)%nat).
  (** Variable x and its arrays are the same in both states. *)
  Definition same (x : nat) (s s' : mem) : Prop :=
    var s' x = var s x /\ forall f a, points s x f a -> blk s' a = blk s a.
  (** z is a matrix of class k holding in its own arrays what x held: x's values, and x's index
      arrays with the roles of rows and columns exchanged. *)
  Definition copy_of (s s' : mem) (z : nat) (p : obj) (o : obj) (k : kind) (nb nc : Z) : Prop :=
    var s' z = Some p /\ o_kind p = k /\ o_own p = true /\ o_rows p = o_cols o /\ o_cols p = o_rows o /\ o_nnz p = o_nnz o /\
    contents s' (o_a p) (o_nnz o) = contents s (o_a o) (o_nnz o) /\
    contents s' (o_b p) nb = contents s (o_c o) nb /\
    contents s' (o_c p) nc = contents s (o_b o) nc.
End OwnSpec.
