(** Ownership of memory (C52) and independence of copies (C28).

    Definitions read by these statements (OwnSpec.v): [var s x] the object in variable x;
    [blk s a] array number a; [points], [owns] x has a member pointing to array a (and is
    responsible for it); [lib_live], [by_lib], [freed]; [legal s c] what the caller must
    respect; [reach] the states a program can be in, with exceptions caught at any point and
    any pattern of failing allocations; [contents s p n] the first n elements at p.
    The commands and their meaning are [cmd] and [exec] in OwnModel.v. *)
From Verif Require Import Base OwnModel OwnSpec OwnProofs OwnProofs2 OwnProofs3 OwnProofs4 OwnProofs5 OwnProofs6.
From Verif Require SpFmtModel.

Section C52.
  Context {V : Type}.
  Implicit Types (junk zero : V) (oom : nat -> bool) (elide : bool) (s : @mem V) (c : @cmd V).

  (** Full claim: for every program, including those that copy a BLASFriendlyOperator; that is
      false of the code (see the two _refuted theorems), so the theorems named _partial assume
      [no_bfo_copy].  No command of a legal program has undefined behaviour: nothing is freed twice, no array
      is used after it was freed or beyond its end, nothing the caller allocated is freed. *)
  Theorem C52_no_undefined_behaviour_partial : forall junk zero oom elide s c,
    reach junk zero oom elide s -> legal s c -> no_bfo_copy elide s c ->
    exec junk zero oom elide c s <> Undef.
  Proof.
    intros junk zero oom elide s c R Lg Nb E. pose proof (exec_effect junk zero oom elide c s (reach_inv _ _ _ _ _ R) Lg Nb) as F.
    rewrite E in F. exact F.
  Qed.

  (** Every array the library has allocated and not freed has exactly one owner, and every
      array an object owns is one of those, with the length its class expects. *)
  Theorem C52_one_owner_partial : forall junk zero oom elide s, reach junk zero oom elide s ->
    (forall a, lib_live s a -> exists x f, owns s x f a /\ forall y g, owns s y g a -> y = x /\ g = f) /\
    (forall x o f a, var s x = Some o -> o_own o = true -> get_slot o f = Some a ->
       exists d, blk s a = Some (mk_block Lib false d) /\ zlen d = extent o f).
  Proof.
    intros junk zero oom elide s R. pose proof (reach_inv _ _ _ _ _ R) as I. split.
    - intros a (d & Ed). destruct (i_leak s I a d Ed) as (x & f & O). exists x, f. split; [exact O|]. intros y g O'. eapply (i_uniq s I); eauto.
    - apply (i_own s I).
  Qed.

  (** Once all objects are gone, everything the library allocated has been freed. *)
  Theorem C52_no_leak_partial : forall junk zero oom elide s, reach junk zero oom elide s ->
    (forall x, var s x = None) -> forall a, by_lib s a -> freed s a.
  Proof.
    intros junk zero oom elide s R Gone a ([|] & d & Ed); [exists Lib, d; exact Ed|].
    destruct (i_leak s (reach_inv _ _ _ _ _ R) a d Ed) as (x & f & o & Eo & _). rewrite Gone in Eo. discriminate.
  Qed.

  (** The library's arrays are freed by the destructor of their owner and by nothing else;
      what has been freed stays freed. *)
  Theorem C52_freed_by_owner_partial : forall junk zero oom elide s c s',
    reach junk zero oom elide s -> legal s c -> no_bfo_copy elide s c ->
    exec junk zero oom elide c s = Val tt s' \/ exec junk zero oom elide c s = Exc s' ->
    forall a, by_lib s a ->
      (freed s a -> freed s' a) /\
      (lib_live s a -> freed s' a -> exists x f, c = Destroy x /\ owns s x f a).
  Proof.
    intros junk zero oom elide s c s' R Lg Nb Ex a (fr & d & Ed).
    assert (F : effect c s s').
    { pose proof (exec_effect junk zero oom elide c s (reach_inv _ _ _ _ _ R) Lg Nb) as F. destruct Ex as [Ex|Ex]; rewrite Ex in F; [exact F|apply F]. }
    destruct (f_free _ _ _ F _ _ _ _ Ed) as (fr' & d' & Ed' & _ & Hf). split.
    - intros (w & d0 & E0). rewrite Ed in E0. inj. destruct Hf as [->|(Q & _)]; [|discriminate]. exists Lib, d'. exact Ed'.
    - intros (d0 & E0) (w & d1 & E1). rewrite Ed in E0. inj. rewrite Ed' in E1. inj.
      destruct Hf as [Q|(_ & _ & [(x & f & Ec & O & _)|(_ & Q)])]; [discriminate|eauto|discriminate].
  Qed.

  (** An array supplied by the caller is freed only by the caller, whatever objects use it,
      and never changes length. *)
  Theorem C52_caller_arrays_partial : forall junk zero oom elide s c s',
    reach junk zero oom elide s -> legal s c -> no_bfo_copy elide s c ->
    exec junk zero oom elide c s = Val tt s' \/ exec junk zero oom elide c s = Exc s' ->
    forall a d, blk s a = Some (mk_block User false d) -> c <> UserFree a ->
      exists d', blk s' a = Some (mk_block User false d') /\ length d' = length d.
  Proof.
    intros junk zero oom elide s c s' R Lg Nb Ex a d Ed Nc.
    assert (F : effect c s s').
    { pose proof (exec_effect junk zero oom elide c s (reach_inv _ _ _ _ _ R) Lg Nb) as F. destruct Ex as [Ex|Ex]; rewrite Ex in F; [exact F|apply F]. }
    destruct (f_free _ _ _ F _ _ _ _ Ed) as (fr' & d' & Ed' & Ll & Hf). exists d'. split; [|exact Ll].
    destruct Hf as [->|(_ & _ & [(x & f & _ & _ & Q)|(Q & _)])]; [exact Ed'|discriminate|contradiction].
  Qed.

  (** reserve_* refuses, without changing anything, an object that does not own its memory or
      already has arrays (so no array can be lost by reserving twice). *)
  Theorem C52_reserve_refuses : forall junk zero oom elide s x nnz o, var s x = Some o ->
    match o_kind o with
    | KCoo => o_own o = false \/ o_a o <> None \/ o_b o <> None \/ o_c o <> None
    | KCsr => o_own o = false \/ o_a o <> None \/ o_c o <> None
    | KCsc => o_own o = false \/ o_a o <> None \/ o_b o <> None
    | _ => False
    end -> exec junk zero oom elide (Reserve x nnz) s = Exc s.
  Proof.
    intros junk zero oom elide s x nnz o Ho H. cbn [exec]. unfold reserve, seq, get_obj. rewrite (var_nth _ _ _ Ho).
    destruct (o_kind o); try contradiction; unfold reserve_coo, reserve_csr, reserve_csc, seq, get_obj, require, ret, raise; rewrite (var_nth _ _ _ Ho);
      destruct (o_own o); try reflexivity; destruct (o_a o), (o_b o), (o_c o); cbn [is_null]; try reflexivity; exfalso; intuition congruence.
  Qed.

  (** Not true of BLASFriendlyOperator, the one class that can be copied: after a copy, the
      second destructor frees the array again. *)
  Theorem C52_bfo_copy_refuted : forall junk zero oom elide s x o, reach junk zero oom elide s ->
    var s x = Some o -> o_kind o = KBfo -> o_own o = true -> o_a o <> None ->
    exists y s1 s2, move x s = Val y s1 /\ destroy x s1 = Val tt s2 /\ destroy y s2 = Undef.
  Proof.
    intros junk zero oom elide s x o R Ho K W Na. pose proof (reach_inv _ _ _ _ _ R) as I.
    destruct (o_a o) as [a|] eqn:Ga; [|congruence]. destruct (i_own s I x o Sa a Ho W Ga) as (d & Ed & _).
    pose proof (var_lt _ _ _ Ho) as Lx. pose proof (var_nth _ _ _ Ho) as Nx.
    assert (La : (a < length (heap s))%nat) by (apply nth_error_Some; unfold blk in Ed; rewrite Ed; discriminate).
    unfold move, seq, get_obj, new_obj, ret. rewrite Nx, K.
    do 3 eexists. split; [reflexivity|]. unfold destroy, seq, get_obj, when, delete, kill. cbn [vars heap requests].
    rewrite nth_error_app1 by exact Lx. rewrite Nx. cbv beta iota. rewrite W, K. cbv beta iota. rewrite Ga. cbv beta iota. cbn [vars heap requests]. unfold blk in Ed. rewrite Ed. cbn [vars heap requests].
    split; [reflexivity|]. cbn [vars heap requests].
    rewrite nth_error_set_nth_ne by lia. rewrite nth_error_app2, Nat.sub_diag by lia. cbn [nth_error]. cbv beta iota. rewrite W, K. cbv beta iota. rewrite Ga. cbv beta iota. cbn [heap].
    rewrite nth_error_set_nth_eq by exact La. reflexivity.
  Qed.
  (** So if the compiler does not elide the copy in [return submatrix;] (it may, but need not,
      do so), submatrix_as_blackbox returns an object whose array is already freed. *)
  Theorem C52_blackbox_without_elision_refuted : forall junk zero oom s x o r nc ro co d y s',
    reach junk zero oom false s -> var s x = Some o -> 0 < r * nc ->
    submatrix_as_blackbox junk oom false x r nc ro co d s = Val y s' ->
    access y s' = Undef /\ destroy y s' = Undef.
  Proof.
    intros junk zero oom s x o r nc ro co d y s' R Ho Hrc.
    unfold submatrix_as_blackbox, return_obj, move, seq, get_obj, require. rewrite (var_nth _ _ _ Ho).
    destruct (ro + r <=? o_rows o); [|discriminate]. unfold ret at 1. destruct (co + nc <=? o_cols o); [|discriminate]. unfold ret at 1.
    unfold alloc. destruct (r * nc <? 0); [discriminate|]. destruct (oom (requests s)); [discriminate|].
    destruct (o_rows o >=? r + ro); [|discriminate]. unfold ret at 1. destruct (o_cols o >=? nc + co); [|discriminate]. unfold ret at 1.
    destruct (write _ _ _) as [u s1|s1|] eqn:Wr; [|discriminate|discriminate].
    assert (Hs1 : vars s1 = vars s /\ (length (heap s) < length (heap s1))%nat /\ exists b, nth_error (heap s1) (length (heap s)) = Some (mk_block Lib false b)).
    { unfold write in Wr. cbn [heap requests vars] in Wr. destruct (some_data d (r * nc)) as [|v l] eqn:Sd.
      - pose proof (zlen_some_data d (r * nc)) as Q. rewrite Sd, zlen_nil in Q. lia.
      - rewrite nth_error_app2, Nat.sub_diag in Wr by lia. cbn [nth_error] in Wr. destruct (zlen (v :: l) <=? _); [|discriminate].
        injection Wr as _ <-. cbn [heap vars]. split; [reflexivity|]. rewrite length_set_nth, app_length. cbn [length]. split; [lia|].
        eexists. apply nth_error_set_nth_eq. rewrite app_length. cbn [length]. lia. }
    destruct Hs1 as (Ev & Lh & b & Eb). unfold new_obj. cbn [vars heap requests]. rewrite Ev.
    rewrite nth_error_app2, Nat.sub_diag by lia. cbn [nth_error o_kind]. cbv beta iota delta [ret]. cbn [vars heap requests].
    destruct (destroy _ _) as [u2 s2|s2|] eqn:Ds; [|discriminate|discriminate]. intros Q. injection Q as <- <-.
    unfold destroy, seq, get_obj, when, delete, kill in Ds. cbn [vars heap requests] in Ds.
    rewrite (nth_error_app1 (_ ++ _)) in Ds by (rewrite app_length; cbn; lia). rewrite nth_error_app2, Nat.sub_diag in Ds by lia.
    cbn [nth_error o_own o_kind o_a heap] in Ds. cbv beta iota in Ds. cbn [nth_error o_own o_kind o_a heap] in Ds. rewrite Eb in Ds. cbn [vars heap requests] in Ds. injection Ds as _ <-.
    unfold access, destroy, seq, get_obj, when, delete, kill. cbn [vars heap requests].
    rewrite app_length. cbn [length]. rewrite !nth_error_set_nth_ne by lia. rewrite nth_error_app2 by (rewrite app_length; cbn; lia).
    rewrite app_length. cbn [length]. rewrite Nat.sub_diag. cbn [nth_error o_own o_kind o_a extent o_rows o_cols]. unfold read.
    destruct (Z.leb_spec (r * nc) 0); [lia|]. cbn [heap]. rewrite nth_error_set_nth_eq by exact Lh. split; reflexivity.
  Qed.
End C52.
Print Assumptions C52_no_undefined_behaviour_partial.
Print Assumptions C52_one_owner_partial.
Print Assumptions C52_no_leak_partial.
Print Assumptions C52_freed_by_owner_partial.
Print Assumptions C52_caller_arrays_partial.
Print Assumptions C52_reserve_refuses.
Print Assumptions C52_bfo_copy_refuted.
Print Assumptions C52_blackbox_without_elision_refuted.

(** The checks of reserve_* in the model of the matrix contents (SpFmtModel.v) are the same. *)
Theorem C52_reserve_refuses_values {T} (zero jT : T) (jZ : Z) :
  (forall nnz M, SpFmtModel.co_own M = false \/ SpFmtModel.co_vals M <> None \/ SpFmtModel.co_rows M <> None \/ SpFmtModel.co_cols M <> None ->
     SpFmtModel.reserve_coo jT jZ nnz M = Throw) /\
  (forall nnz M, SpFmtModel.cr_own M = false \/ SpFmtModel.cr_vals M <> None \/ SpFmtModel.cr_idx M <> None -> SpFmtModel.reserve_csr zero nnz M = Throw) /\
  (forall nnz M, SpFmtModel.cc_own M = false \/ SpFmtModel.cc_vals M <> None \/ SpFmtModel.cc_idx M <> None -> SpFmtModel.reserve_csc zero nnz M = Throw).
Proof.
  split; [|split]; intros nnz M H; destruct M as [nr nc own n b va x y]; cbn in H; destruct own; try reflexivity; destruct va, x, y; try reflexivity;
    exfalso; intuition congruence.
Qed.
Print Assumptions C52_reserve_refuses_values.

(** ** C28: a copying transposition is independent of the original *)
Section C28.
  Context {V : Type}.

  (** transpose_as_csr(A, false) returns a matrix z with A's elements in arrays of its own.
      Whatever is done afterwards to anything else (including destroying A, overwriting its
      arrays, freeing what was lent to it) leaves z and its arrays as they are; and whatever is
      done to z, and to anything made from it, leaves A and everything else as it was. *)
  Theorem C28_csr_copy_independent : forall junk zero oom elide (s s' : @mem V) x o z,
    reach junk zero oom elide s -> legal s (TransposeAsCsr x false) -> var s x = Some o ->
    transpose_as_csr zero oom elide x false s = Val z s' ->
    exists p, copy_of s s' z p o KCsr (o_cols o + 1) (o_nnz o) /\
      (forall s'', run junk zero oom elide (avoids z p) s' s'' -> same z s' s'') /\
      (forall s'', run junk zero oom elide (newer s) s' s'' -> forall y, (y < length (vars s))%nat -> same y s s'').
  Proof.
    intros junk zero oom elide s s' x o z R Lg Ho Ex. pose proof (reach_inv _ _ _ _ _ R) as I.
    destruct Lg as (o' & Ho' & K & Sh). rewrite Ho in Ho'. inj. destruct (Sh eq_refl) as [Lo At].
    pose proof (tri_transpose_as_csr_copy zero oom elide x o' s I Ho K Lo At) as T. unfold tri in T. rewrite Ex in T.
    destruct T as (I' & E' & _ & Lz & p & Cp). exists p. split; [exact Cp|]. pose proof Cp as (Vz & _).
    pose proof (copy_private s s' z I E' Lz (transpose_as_csr_only _ _ _ _ _ _ _ Ex)) as Pz. split.
    - intros s'' Rn. destruct (avoids_run _ _ _ _ _ _ _ _ Rn I' Vz Pz) as (A & B & _). split; [congruence|].
      intros f a (q & Eq & G). rewrite Vz in Eq. inj. eauto.
    - intros s'' Rn y Ly. destruct (newer_run _ _ _ _ _ _ _ Rn I' (ext_nothing_apart _ _ E')) as [A B]. destruct (ext_nothing_same _ _ E') as [A' B'].
      split; [rewrite A, A' by exact Ly; reflexivity|]. intros f a Q. pose proof (i_ptr s I y f a Q). rewrite B, B' by assumption. reflexivity.
  Qed.
  Theorem C28_csc_copy_independent : forall junk zero oom elide (s s' : @mem V) x o z,
    reach junk zero oom elide s -> legal s (TransposeAsCsc x false) -> var s x = Some o ->
    transpose_as_csc zero oom elide x false s = Val z s' ->
    exists p, copy_of s s' z p o KCsc (o_nnz o) (o_rows o + 1) /\
      (forall s'', run junk zero oom elide (avoids z p) s' s'' -> same z s' s'') /\
      (forall s'', run junk zero oom elide (newer s) s' s'' -> forall y, (y < length (vars s))%nat -> same y s s'').
  Proof.
    intros junk zero oom elide s s' x o z R Lg Ho Ex. pose proof (reach_inv _ _ _ _ _ R) as I.
    destruct Lg as (o' & Ho' & K & Sh). rewrite Ho in Ho'. inj. destruct (Sh eq_refl) as [Lo At].
    pose proof (tri_transpose_as_csc_copy zero oom elide x o' s I Ho K Lo At) as T. unfold tri in T. rewrite Ex in T.
    destruct T as (I' & E' & _ & Lz & p & Cp). exists p. split; [exact Cp|]. pose proof Cp as (Vz & _).
    pose proof (copy_private s s' z I E' Lz (transpose_as_csc_only _ _ _ _ _ _ _ Ex)) as Pz. split.
    - intros s'' Rn. destruct (avoids_run _ _ _ _ _ _ _ _ Rn I' Vz Pz) as (A & B & _). split; [congruence|].
      intros f a (q & Eq & G). rewrite Vz in Eq. inj. eauto.
    - intros s'' Rn y Ly. destruct (newer_run _ _ _ _ _ _ _ Rn I' (ext_nothing_apart _ _ E')) as [A B]. destruct (ext_nothing_same _ _ E') as [A' B'].
      split; [rewrite A, A' by exact Ly; reflexivity|]. intros f a Q. pose proof (i_ptr s I y f a Q). rewrite B, B' by assumption. reflexivity.
  Qed.
End C28.
Print Assumptions C28_csr_copy_independent.
Print Assumptions C28_csc_copy_independent.

(** ** Concrete programs *)
(** A CSC matrix over arrays the caller allocated, an owning dense operator that is filled,
    and an owning COO matrix that is reserved. *)
Definition demo : list (@cmd Z) :=
  [UserAlloc [7; 8; 9]; UserAlloc [0; 1; 1]; UserAlloc [0; 2; 3];
   NewCscExpert 2 2 3 (Some 0%nat) (Some 1%nat) (Some 2%nat); NewDense 2 3; FillDense 1 (fun i => i * i); NewCoo 4 4; Reserve 2 2].
(** The state after a list of commands none of which raises. *)
Fixpoint after (elide : bool) (l : list (@cmd Z)) (s : mem) : option mem :=
  match l with
  | [] => Some s
  | c :: l => match exec (-1) 0 (fun _ => false) elide c s with Val _ s' => after elide l s' | _ => None end
  end.
Definition demo_state : mem := match after false demo start with Some s => s | None => start end.
(** Replace [R : reach s] by the reachability of the state after c. *)
Ltac advance R c :=
  match type of R with
  | reach _ _ _ ?el ?s =>
      let r := eval vm_compute in (exec (-1) 0 (fun _ => false) el c s) in
      match r with
      | Val _ ?t =>
          let R' := fresh in
          assert (R' : reach (-1) 0 (fun _ => false) el t);
          [apply (reach_step (-1) 0 (fun _ => false) el s c t R); [|right; exact Logic.I|left; vm_compute; reflexivity]|clear R; rename R' into R]
      end
  end.
Lemma demo_reach : reach (-1) 0 (fun _ => false) false demo_state.
Proof.
  pose proof (reach_start (V := Z) (-1) 0 (fun _ => false) false) as R.
  advance R (UserAlloc [7; 8; 9]). { exact Logic.I. }
  advance R (UserAlloc [0; 1; 1]). { exact Logic.I. }
  advance R (UserAlloc [0; 2; 3]). { exact Logic.I. }
  advance R (NewCscExpert (V := Z) 2 2 3 (Some 0%nat) (Some 1%nat) (Some 2%nat)).
  { cbn [legal]. repeat split; intros a Ha; injection Ha as <-; cbn; lia. }
  advance R (NewDense (V := Z) 2 3). { cbn [legal]. lia. }
  advance R (FillDense 1 (fun i => i * i)).
  { eexists. split; [reflexivity|]. split; [reflexivity|]. discriminate. }
  advance R (NewCoo (V := Z) 4 4). { exact Logic.I. }
  advance R (Reserve (V := Z) 2 2). { eexists. split; [reflexivity|]. left. reflexivity. }
  match type of R with reach _ _ _ _ ?t => replace demo_state with t by (vm_compute; reflexivity) end. exact R.
Qed.

(** Hypotheses of C52 are met in a state with lent, owned and freed arrays; the destructor of
    the owner, and only it, frees an array. *)
Example C52_case :
  reach (-1) 0 (fun _ => false) false demo_state /\
  blk demo_state 3 = Some (mk_block Lib false [0; 1; 4; 9; 16; 25]) /\ owns demo_state 1 Sa 3 /\
  legal demo_state (Destroy 0) /\ legal demo_state (Destroy 1) /\
  (exists s', after false [Destroy 0%nat; Destroy 1%nat; Destroy 2%nat] demo_state = Some s' /\
     map (fun b => (b_by b, b_freed b)) (heap s') =
       [(User, false); (User, false); (User, false); (Lib, true); (Lib, true); (Lib, true); (Lib, true)] /\
     forall x, var s' x = None).
Proof.
  split; [exact demo_reach|]. split; [vm_compute; reflexivity|].
  split; [eexists; split; [vm_compute; reflexivity|split; reflexivity]|].
  split; [eexists; vm_compute; reflexivity|]. split; [eexists; vm_compute; reflexivity|].
  destruct (after false _ demo_state) as [s'|] eqn:E; [|vm_compute in E; discriminate]. vm_compute in E. injection E as <-.
  eexists. split; [reflexivity|]. split; [reflexivity|]. intros [|[|[|x]]]; try reflexivity. destruct x; reflexivity.
Qed.
Example C52_reserve_case : exec (-1) 0 (fun _ => false) false (Reserve 2 5) demo_state = Exc demo_state.
Proof.
  destruct (var demo_state 2) as [o|] eqn:E; [|vm_compute in E; discriminate]. eapply C52_reserve_refuses; [exact E|].
  vm_compute in E. injection E as <-. cbn. right. left. discriminate.
Qed.


(** Copying the CSC matrix of [demo]: the copy keeps its contents although the original's
    arrays are overwritten and freed; the caller may overwrite the copy without effect on the
    original. *)
Example C28_copy_case : exists s' z,
  legal demo_state (TransposeAsCsr 0 false) /\
  transpose_as_csr 0 (fun _ => false) false 0 false demo_state = Val z s' /\
  (exists s'', after false [Overwrite 0 (fun _ => -5) (fun _ => 0) (fun _ => 0); UserFree 0] s' = Some s'' /\
     contents s'' (Some 0%nat) 3 = [-5; -5; -5] /\ exists p, var s'' z = Some p /\ contents s'' (o_a p) 3 = [7; 8; 9]) /\
  (exists s'', after false [Overwrite z (fun _ => -5) (fun _ => 0) (fun _ => 0)] s' = Some s'' /\
     contents s'' (Some 0%nat) 3 = [7; 8; 9] /\ exists p, var s'' z = Some p /\ contents s'' (o_a p) 3 = [-5; -5; -5]).
Proof.
  destruct (transpose_as_csr 0 (fun _ => false) false 0 false demo_state) as [z s'|s'|] eqn:E; try (vm_compute in E; discriminate).
  exists s', z. split; [|split; [reflexivity|]].
  { clear E. assert (Hv : var demo_state 0 = Some (mk_obj KCsc false 2 2 0 3 (Some 0%nat) (Some 1%nat) (Some 2%nat))) by (vm_compute; reflexivity).
    eexists. split; [exact Hv|]. split; [reflexivity|]. intros _.
    assert (B : forall a, (a < 3)%nat -> exists d, blk demo_state a = Some (mk_block User false d) /\ zlen d = 3).
    { intros [|[|[|a]]] La; try lia; eexists; (split; [vm_compute; reflexivity|reflexivity]). }
    split.
    - intros _ [| |] a G _; cbn in G; injection G as <-; match goal with |- context [blk demo_state ?n] => destruct (B n) as (d & -> & L); [lia|] end; exists User, d; (split; [reflexivity|]); rewrite L; cbn; lia.
    - intros [| |]; cbn; discriminate. }
  vm_compute in E. injection E as <- <-. split.
  - eexists. split; [vm_compute; reflexivity|]. split; [vm_compute; reflexivity|]. eexists. split; vm_compute; reflexivity.
  - eexists. split; [vm_compute; reflexivity|]. split; [vm_compute; reflexivity|]. eexists. split; vm_compute; reflexivity.
Qed.

(** A temporary BLASFriendlyOperator: fine when the copy is elided, double free otherwise. *)
Example C52_blackbox_case :
  (exists s', after true (demo ++ [Blackbox 1 1 2 0 0 (fun i => i); Destroy 3%nat]) start = Some s') /\
  (exists s', after false (demo ++ [Blackbox 1 1 2 0 0 (fun i => i)]) start = Some s' /\
     access 4 s' = Undef /\ exec (-1) 0 (fun _ => false) false (Destroy 4) s' = Undef).
Proof.
  split; [eexists; vm_compute; reflexivity|]. eexists. split; [vm_compute; reflexivity|]. split; vm_compute; reflexivity.
Qed.
