(** Compression of sorted coordinates and pointer arrays. *)
From Coq Require Import Permutation.
From Verif Require Import Base Spec SparseSkopModel SparseSpec SparseProofs SpFmtModel SpFmtSpec SpFmtProofs SpFmtProofs2 SpFmtProofs3.

(** A loop that advances a counter while a test holds. *)
Lemma while_scan {S} (nnz : Z) (pos : S -> Z) (test : Z -> bool) (cond : S -> outcome bool) (body : S -> outcome S) (I : S -> Prop) :
  (forall s, I s -> pos s <= nnz -> cond s = Ok ((pos s <? nnz) && test (pos s))) ->
  (forall s, I s -> 0 <= pos s < nnz -> test (pos s) = true -> exists s', body s = Ok s' /\ I s' /\ pos s' = pos s + 1) ->
  forall s, I s -> 0 <= pos s <= nnz ->
  exists s', while_ (Datatypes.S (Z.to_nat (nnz - pos s))) cond body s = Ok s' /\ I s' /\ pos s <= pos s' <= nnz /\
    (forall e, pos s <= e < pos s' -> test e = true) /\ (pos s' < nnz -> test (pos s') = false).
Proof.
  intros Hc Hb. 
  assert (Gen : forall fuel s, I s -> 0 <= pos s <= nnz -> fuel = Z.to_nat (nnz - pos s) ->
    exists s', while_ (Datatypes.S fuel) cond body s = Ok s' /\ I s' /\ pos s <= pos s' <= nnz /\
    (forall e, pos s <= e < pos s' -> test e = true) /\ (pos s' < nnz -> test (pos s') = false)).
  { induction fuel as [|fuel IH]; intros s Is Hs Hf.
    - cbn [while_]. rewrite Hc by (auto; lia). cbn [bind]. destruct (Z.ltb_spec (pos s) nnz); [lia|]. cbn [andb].
      exists s. repeat split; auto; intros; lia.
    - change (while_ (Datatypes.S (Datatypes.S fuel)) cond body s) with
        (b <- cond s ;; if b then s' <- body s ;; while_ (Datatypes.S fuel) cond body s' else Ok s).
      rewrite Hc by (auto; lia). cbn [bind]. destruct (Z.ltb_spec (pos s) nnz); [|lia]. cbn [andb].
      destruct (test (pos s)) eqn:Et.
      + destruct (Hb s Is ltac:(lia) Et) as (s1 & -> & I1 & P1). cbn [bind].
        destruct (IH s1 I1 ltac:(lia) ltac:(lia)) as (s' & E & I' & B & A & Z0).
        exists s'. repeat split; auto; try lia. intros e He. destruct (Z.eq_dec e (pos s)) as [->|]; [exact Et|]. apply A. lia.
      + exists s. repeat split; auto; intros; lia. }
  intros s Is Hs. apply Gen; auto.
Qed.

(** [p] separates the locations below [k] from the others. *)
Definition cut (nnz : Z) (major : list Z) (k p : Z) : Prop :=
  forall e x, 0 <= e < nnz -> get major e = Some x -> (x < k <-> e < p).

Lemma cut_step nnz major k p p' :
  nondecreasing nnz major -> nnz <= zlen major -> 0 <= p <= p' -> p' <= nnz -> cut nnz major k p ->
  (forall e x, p <= e < p' -> get major e = Some x -> x = k) ->
  (p' < nnz -> forall x, get major p' = Some x -> x <> k) -> cut nnz major (k + 1) p'.
Proof.
  intros Hs L Hp Hp' Hc Hin Hout e x He G. pose proof (Hc e x He G) as Hce.
  destruct (Z.lt_ge_cases e p').
  - destruct (Z.lt_ge_cases e p); [lia|]. rewrite (Hin e x ltac:(lia) G). lia.
  - destruct (get_lt major p' ltac:(lia)) as [y Gy]. pose proof (Hout ltac:(lia) y Gy) as Hne.
    pose proof (Hc p' y ltac:(lia) Gy) as Hcy.
    destruct (Z.eq_dec p' e) as [->|].
    + rewrite G in Gy. inversion Gy; subst. lia.
    + pose proof (Hs p' e y x ltac:(lia) ltac:(lia) Gy G). lia.
Qed.

Section Compress.
  Context {T : Type}.
  Variables (sb n nnz : Z) (major minor : option (list Z)) (cvals : option (list T)).
  Hypothesis Hn : 0 <= n.
  Hypothesis Hnnz : 0 <= nnz.
  Hypothesis Lmaj : nnz <= zlen (arrv major).
  Hypothesis Lmin : nnz <= zlen (arrv minor).
  Hypothesis Lval : nnz <= zlen (arrv cvals).

  Definition copied (k : Z) (idx : list Z) (vals : list T) : Prop :=
    forall e, 0 <= e < k -> get idx e = option_map (to_sint sb) (get (arrv minor) e) /\ get vals e = get (arrv cvals) e.

  Definition srt : Prop := nondecreasing nnz (arrv major) /\ forall e x, 0 <= e < nnz -> get (arrv major) e = Some x -> 0 <= x.

  Lemma compress_spec idx ptr vals :
    zlen (arrv idx) = nnz -> zlen (arrv vals) = nnz -> n + 1 <= zlen (arrv ptr) ->
    exists idx' vals' ptr' pos, compress sb n nnz major minor cvals idx ptr vals = Ok (idx', vals', ptr') /\
      zlen (arrv idx') = nnz /\ zlen (arrv vals') = nnz /\ zlen (arrv ptr') = zlen (arrv ptr) /\
      copied (pos n) (arrv idx') (arrv vals') /\ pos 0 = 0 /\
      (forall k, 0 <= k <= n -> 0 <= pos k <= nnz /\ (srt -> cut nnz (arrv major) k (pos k)) /\
          get (arrv ptr') k = Some (if k =? 0 then 0 else to_sint sb (pos k))).
  Proof.
    intros Li Lv Lp. unfold compress.
    destruct (wrp_ex ptr 0 0) as (p0 & -> & Lp0 & G0 & _); [lia|]. cbn [bind].
    destruct (for_inv (fun j (st : Z * option (list Z) * option (list T) * option (list Z)) => let '(ell, idx, vals, ptr') := st in
        zlen (arrv idx) = nnz /\ zlen (arrv vals) = nnz /\ zlen (arrv ptr') = zlen (arrv ptr) /\
        copied ell (arrv idx) (arrv vals) /\ 
        exists pos, pos j = ell /\ pos 0 = 0 /\ forall k, 0 <= k <= j -> 0 <= pos k <= nnz /\ (srt -> cut nnz (arrv major) k (pos k)) /\
          get (arrv ptr') k = Some (if k =? 0 then 0 else to_sint sb (pos k)))
      0 n (fun j st =>
        let '(ell, idx, vals, ptr) := st in
        '(ell, idx, vals) <-
          while_ (S (Z.to_nat (nnz - ell)))
            (fun '(ell, _, _) => if ell <? nnz then c <- rdp major ell ;; Ok (c =? j) else Ok false)
            (fun '(ell, idx, vals) =>
               r <- rdp minor ell ;;
               idx <- wrp idx ell (to_sint sb r) ;;
               v <- rdp cvals ell ;;
               vals <- wrp vals ell v ;;
               Ok (ell + 1, idx, vals)) (ell, idx, vals) ;;
        ptr <- wrp ptr (j + 1) (to_sint sb ell) ;;
        Ok (ell, idx, vals, ptr)) (0, idx, vals, p0)) as ([[[ell idx'] vals'] ptr'] & E & I).
    - lia.
    - repeat (split; [lia|]). split; [intros e He; lia|]. exists (fun _ => 0). repeat (split; [reflexivity|]).
      intros k Hk. assert (k = 0) by lia. subst k. split; [lia|]. split; [|rewrite G0; reflexivity].
      intros [_ Hpos] e x He G. specialize (Hpos e x He G). lia.
    - intros j [[[ell idx1] vals1] ptr1] Hj (L1 & L2 & L3 & C1 & pos & Pj & P0 & Hpos).
      destruct (Hpos j ltac:(lia)) as (B1 & Cut1 & _). rewrite Pj in *.
      set (test := fun e => match get (arrv major) e with Some x => x =? j | None => false end).
      destruct (while_scan nnz (fun s : Z * option (list Z) * option (list T) => fst (fst s)) test
         (fun '(ell, _, _) => if ell <? nnz then c <- rdp major ell ;; Ok (c =? j) else Ok false)
         (fun '(ell, idx, vals) =>
               r <- rdp minor ell ;;
               idx <- wrp idx ell (to_sint sb r) ;;
               v <- rdp cvals ell ;;
               vals <- wrp vals ell v ;;
               Ok (ell + 1, idx, vals))
         (fun s => let '(ell, idx, vals) := s in 0 <= ell /\ zlen (arrv idx) = nnz /\ zlen (arrv vals) = nnz /\ copied ell (arrv idx) (arrv vals)))
        with (s := (ell, idx1, vals1)) as ([[ell2 idx2] vals2] & E2 & (Q0 & Q1 & Q2 & Q3) & Q4 & Q5 & Q6).
      + intros [[e i1] v1] (Q0 & Q1 & Q2 & Q3) Hle. cbn [fst] in *. destruct (Z.ltb_spec e nnz); [|reflexivity].
        unfold test. destruct (rdp_ex major e ltac:(lia)) as (x & -> & ->). reflexivity.
      + intros [[e i1] v1] (Q0 & Q1 & Q2 & Q3) Hlt _. cbn [fst] in *.
        destruct (rdp_ex minor e ltac:(lia)) as (r & -> & Gr). cbn [bind].
        destruct (wrp_ex i1 e (to_sint sb r)) as (i2 & -> & Li2 & Gi2 & Ni2); [lia|]. cbn [bind].
        destruct (rdp_ex cvals e ltac:(lia)) as (v & -> & Gv). cbn [bind].
        destruct (wrp_ex v1 e v) as (v2 & -> & Lv2 & Gv2 & Nv2); [lia|]. cbn [bind].
        eexists. split; [reflexivity|]. split; [|reflexivity]. repeat (split; [lia|]).
        intros k Hk. destruct (Z.eq_dec k e) as [->|Hne].
        * rewrite Gi2, Gr, Gv2, Gv. auto.
        * rewrite Ni2, Nv2 by exact Hne. apply Q3. lia.
      + cbn beta iota. auto with zarith.
      + cbn [fst]. lia.
      + cbn [fst] in *. rewrite E2. cbn [bind].
        destruct (wrp_ex ptr1 (j + 1) (to_sint sb ell2)) as (ptr2 & -> & Lp2 & Gp2 & Np2); [lia|]. cbn [bind].
        eexists. split; [reflexivity|]. cbn beta iota. repeat (split; [lia|]). split; [exact Q3|].
        exists (fun k => if k =? j + 1 then ell2 else pos k). rewrite Z.eqb_refl. split; [reflexivity|].
        destruct (Z.eqb_spec 0 (j + 1)); [lia|]. split; [exact P0|].
        intros k Hk. destruct (Z.eqb_spec k (j + 1)) as [->|Hne].
        * split; [lia|]. split.
          -- intros Hs. apply (cut_step nnz (arrv major) j ell ell2); auto; try lia; try apply Hs.
             ++ intros e x He G. specialize (Q5 e He). unfold test in Q5. rewrite G in Q5. now apply Z.eqb_eq.
             ++ intros Hlt x G. specialize (Q6 Hlt). unfold test in Q6. rewrite G in Q6. now apply Z.eqb_neq.
          -- rewrite Gp2. destruct (Z.eqb_spec (j + 1) 0); [lia|reflexivity].
        * rewrite Np2 by exact Hne. apply Hpos. lia.
    - rewrite E. cbn [bind]. destruct I as (L1 & L2 & L3 & C1 & pos & Pj & P0 & Hpos).
      exists idx', vals', ptr', pos. split; [reflexivity|]. rewrite Pj. auto 10.
  Qed.
End Compress.

(** A compressed structure built from sorted coordinates. *)
Lemma compressed_values {T} n nnz (major minor : list Z) (cvals : list T) ptr idx vals pos i j :
  nnz <= zlen major -> 0 <= i < n ->
  (forall e, 0 <= e < nnz -> get idx e = get minor e /\ get vals e = get cvals e) ->
  (forall k, 0 <= k <= n -> 0 <= pos k <= nnz /\ cut nnz major k (pos k) /\ get ptr k = Some (pos k)) ->
  slice_values ptr idx vals i j = coo_values nnz major minor cvals i j.
Proof.
  intros L Hi Hc Hp. unfold slice_values.
  destruct (Hp i ltac:(lia)) as (B1 & C1 & ->). destruct (Hp (i + 1) ltac:(lia)) as (B2 & C2 & ->).
  assert (Hle : pos i <= pos (i + 1) \/ pos (i + 1) < pos i) by lia.
  assert (Hord : pos i <= pos (i + 1)).
  { destruct Hle as [|Hlt]; [auto|]. destruct (get_lt major (pos (i + 1)) ltac:(lia)) as [x G].
    pose proof (C1 (pos (i + 1)) x ltac:(lia) G). pose proof (C2 (pos (i + 1)) x ltac:(lia) G). lia. }
  unfold coo_values. rewrite (range_split 0 (pos i) nnz), (range_split (pos i) (pos (i + 1)) nnz) by lia.
  rewrite !flat_map_app.
  rewrite (flat_map_nil _ (range 0 (pos i))), (flat_map_nil _ (range (pos (i + 1)) nnz)); [cbn [app]; rewrite app_nil_r| |].
  - apply flat_map_ext_in. intros e He. apply in_range in He. destruct (Hc e ltac:(lia)) as [-> ->].
    destruct (get_lt major e ltac:(lia)) as [x G]. rewrite G.
    pose proof (C1 e x ltac:(lia) G). pose proof (C2 e x ltac:(lia) G). assert (x = i) by lia. subst x.
    destruct (get minor e), (get cvals e); try reflexivity. rewrite Z.eqb_refl. reflexivity.
  - intros e He. apply in_range in He. destruct (get_lt major e ltac:(lia)) as [x G]. rewrite G.
    pose proof (C1 e x ltac:(lia) G). pose proof (C2 e x ltac:(lia) G). destruct (get minor e), (get cvals e); try reflexivity.
    destruct (Z.eqb_spec x i); [lia|reflexivity].
  - intros e He. apply in_range in He. destruct (get_lt major e ltac:(lia)) as [x G]. rewrite G.
    pose proof (C1 e x ltac:(lia) G). pose proof (C2 e x ltac:(lia) G). destruct (get minor e), (get cvals e); try reflexivity.
    destruct (Z.eqb_spec x i); [lia|reflexivity].
Qed.

Lemma cut_all nnz major n p : nnz <= zlen major -> 0 <= p <= nnz -> cut nnz major n p ->
  (forall e x, 0 <= e < nnz -> get major e = Some x -> x < n) -> p = nnz.
Proof.
  intros L B C H. destruct (Z.eq_dec p nnz); [auto|]. destruct (get_lt major p ltac:(lia)) as [x G].
  pose proof (C p x ltac:(lia) G). pose proof (H p x ltac:(lia) G). lia.
Qed.

(** Result of coo -> compressed, in terms of the sorted arrays. *)
Section Compressed.
  Context {T : Type}.
  Variables (sb n m nnz : Z) (major minor : option (list Z)) (cvals : option (list T)).
  Hypothesis Hsb : 1 < sb.
  Hypothesis Hn : 0 <= n.
  Hypothesis Hnnz : 0 <= nnz.
  Hypothesis Fits : nnz < 2 ^ (sb - 1) /\ m <= 2 ^ (sb - 1).
  Hypothesis Imaj : idx_ok nnz n 0 (arrv major).
  Hypothesis Imin : idx_ok nnz m 0 (arrv minor).
  Hypothesis Lval : nnz <= zlen (arrv cvals).
  Hypothesis Sorted : nondecreasing nnz (arrv major).

  Theorem compress_valid idx ptr vals :
    zlen (arrv idx) = nnz -> zlen (arrv vals) = nnz -> n + 1 <= zlen (arrv ptr) ->
    exists idx' vals' ptr', compress sb n nnz major minor cvals idx ptr vals = Ok (idx', vals', ptr') /\
      nnz <= zlen (arrv vals') /\ idx_ok nnz m 0 (arrv idx') /\ ptr_ok n nnz (arrv ptr') /\
      forall i j, 0 <= i < n -> slice_values (arrv ptr') (arrv idx') (arrv vals') i j
                  = coo_values nnz (arrv major) (arrv minor) (arrv cvals) i j.
  Proof.
    intros Li Lv Lp. destruct Imaj as [Lmaj Hmaj]. destruct Imin as [Lmin Hmin].
    destruct (compress_spec sb n nnz major minor cvals Hn Hnnz Lmaj Lmin Lval idx ptr vals Li Lv Lp)
      as (idx' & vals' & ptr' & pos & E & Li' & Lv' & Lp' & C & P0 & Hpos).
    assert (Hsrt : srt nnz major). { split; [exact Sorted|]. intros e x He G. specialize (Hmaj e x He G). lia. }
    assert (Hp : forall k, 0 <= k <= n -> 0 <= pos k <= nnz /\ cut nnz (arrv major) k (pos k) /\ get (arrv ptr') k = Some (pos k)).
    { intros k Hk. destruct (Hpos k Hk) as (B & Cu & G). split; [exact B|]. split; [auto|]. rewrite G. f_equal.
      destruct (Z.eqb_spec k 0) as [->|]; [congruence|]. apply to_sint_id; lia. }
    assert (Pn : pos n = nnz).
    { destruct (Hp n ltac:(lia)) as (B & Cu & _). apply (cut_all nnz (arrv major) n); auto.
      intros e x He G. specialize (Hmaj e x He G). lia. }
    rewrite Pn in C.
    assert (Hcp : forall e, 0 <= e < nnz -> get (arrv idx') e = get (arrv minor) e /\ get (arrv vals') e = get (arrv cvals) e).
    { intros e He. destruct (C e He) as [-> ->]. split; [|reflexivity]. destruct (get_lt (arrv minor) e ltac:(lia)) as [x G].
      rewrite G. cbn [option_map]. f_equal. specialize (Hmin e x He G). apply to_sint_id; lia. }
    exists idx', vals', ptr'. split; [exact E|]. split; [lia|]. split; [|split].
    - split; [lia|]. intros e x He G. destruct (Hcp e He) as [G' _]. rewrite G' in G. eauto.
    - split; [lia|]. destruct (Hp 0 ltac:(lia)) as (_ & _ & G0). destruct (Hp n ltac:(lia)) as (_ & _ & Gn).
      split; [congruence|]. split; [congruence|]. intros i a b Hi Ga Gb.
      destruct (Hp i ltac:(lia)) as (B1 & C1 & G1). destruct (Hp (i + 1) ltac:(lia)) as (B2 & C2 & G2).
      rewrite G1 in Ga. rewrite G2 in Gb. inversion Ga; inversion Gb; subst.
      destruct (Z.le_gt_cases (pos i) (pos (i + 1))); [auto|].
      destruct (get_lt (arrv major) (pos (i + 1)) ltac:(lia)) as [x G].
      pose proof (C1 (pos (i + 1)) x ltac:(lia) G). pose proof (C2 (pos (i + 1)) x ltac:(lia) G). lia.
    - intros i j Hi. apply (compressed_values n nnz _ _ _ _ _ _ pos); auto.
  Qed.
End Compressed.

(* ------------------------------------------------------------------ *)
(** ** Pointer arrays *)
Lemma filter_none {A} (f : A -> bool) l : (forall x, In x l -> f x = false) -> filter f l = [].
Proof. induction l as [|x l IH]; intros H; cbn [filter]; [reflexivity|]. rewrite (H x (or_introl eq_refl)). apply IH. intros; apply H; now right. Qed.
Lemma filter_all {A} (f : A -> bool) l : (forall x, In x l -> f x = true) -> filter f l = l.
Proof. induction l as [|x l IH]; intros H; cbn [filter]; [reflexivity|]. rewrite (H x (or_introl eq_refl)). f_equal. apply IH. intros; apply H; now right. Qed.

Lemma cut_count nnz l k p : 0 <= nnz <= zlen l -> 0 <= p <= nnz -> cut nnz l k p -> count_below nnz l k = p.
Proof.
  intros L B C. unfold count_below.
  assert (E : firstn (Z.to_nat nnz) l = firstn (Z.to_nat p) l ++ skipn (Z.to_nat p) (firstn (Z.to_nat nnz) l)).
  { rewrite <- (firstn_skipn (Z.to_nat p) (firstn (Z.to_nat nnz) l)) at 1. f_equal. rewrite firstn_firstn. f_equal. lia. }
  rewrite E, filter_app. rewrite (filter_none _ (skipn _ _)), (filter_all _ (firstn (Z.to_nat p) l)).
  - rewrite app_nil_r. unfold zlen in *. rewrite firstn_length. lia.
  - intros x Hx. apply get_In in Hx as [e G]. pose proof (get_Some_lt _ _ _ G) as Be. unfold zlen in Be. rewrite firstn_length in Be.
    rewrite get_firstn in G by lia. apply Z.ltb_lt. apply (C e x); [lia|exact G|lia].
  - intros x Hx. apply get_In in Hx as [e G]. pose proof (get_Some_lt _ _ _ G) as Be. unfold zlen in Be.
    rewrite skipn_length, firstn_length in Be. rewrite get_skipn in G by lia. rewrite get_firstn in G by lia.
    apply Z.ltb_ge. pose proof (C (e + Z.of_nat (Z.to_nat p)) x ltac:(lia) G). lia.
Qed.

Lemma check_sorted nnz l : 0 <= nnz <= zlen l ->
  for_ 1 nnz (fun i _ => a <- rd l (i - 1) ;; b <- rd l i ;; req (a <=? b) ;; Ok tt) tt =
    Ok tt /\ nondecreasing nnz l \/
  for_ 1 nnz (fun i _ => a <- rd l (i - 1) ;; b <- rd l i ;; req (a <=? b) ;; Ok tt) tt = Throw /\ ~ nondecreasing nnz l.
Proof.
  intros L.
  assert (Gen : forall d, 0 <= d -> 1 + d <= nnz ->
     for_ 1 (1 + d) (fun i _ => a <- rd l (i - 1) ;; b <- rd l i ;; req (a <=? b) ;; Ok tt) tt = Ok tt /\ nondecreasing (1 + d) l \/
     for_ 1 (1 + d) (fun i _ => a <- rd l (i - 1) ;; b <- rd l i ;; req (a <=? b) ;; Ok tt) tt = Throw /\ ~ nondecreasing (1 + d) l).
  { intros d0 Hd0. pattern d0. apply natlike_ind; [| |exact Hd0]; clear d0 Hd0.
    - intros _. left. split; [reflexivity|]. intros p q x y; lia.
    - intros d Hd IH Hle. specialize (IH ltac:(lia)). replace (1 + Z.succ d) with (1 + d + 1) by lia.
      unfold for_ in *. rewrite range_snoc by lia. rewrite foldM_app.
      destruct IH as [[-> S]|[-> S]].
      + cbn [bind foldM]. destruct (rd_lt l (1 + d - 1) ltac:(lia)) as (a & -> & Ga). destruct (rd_lt l (1 + d) ltac:(lia)) as (b & -> & Gb).
        cbn [bind]. destruct (Z.leb_spec a b).
        * left. split; [reflexivity|]. intros p q x y Hp Hq Gx Gy. destruct (Z.eq_dec q (1 + d)) as [->|]; [|apply (S p q); auto; lia].
          rewrite Gb in Gy. inversion Gy; subst. destruct (Z.eq_dec p (1 + d - 1)) as [->|].
          -- rewrite Ga in Gx. inversion Gx; lia.
          -- pose proof (S p (1 + d - 1) x a ltac:(lia) ltac:(lia) Gx Ga). lia.
        * right. split; [reflexivity|]. intros S'. pose proof (S' (1 + d - 1) (1 + d) a b ltac:(lia) ltac:(lia) Ga Gb). lia.
      + right. split; [reflexivity|]. intros S'. apply S. intros p q x y Hp Hq. apply S'; lia. }
  destruct (Z.le_gt_cases nnz 0) as [H|H].
  - rewrite for_nil by lia. left. split; [reflexivity|]. intros p q x y; lia.
  - replace nnz with (1 + (nnz - 1)) by lia. apply Gen; lia.
Qed.

Theorem pointer_array_spec nnz l n :
  0 <= nnz <= zlen l -> 0 <= n -> n + 1 <= zlen l ->
  (forall e x, 0 <= e < nnz -> get l e = Some x -> 0 <= x < n) ->
  (nondecreasing nnz l /\ exists l', pointer_array nnz l n = Ok l' /\ zlen l' = zlen l /\
     (forall i, 0 <= i <= n -> get l' i = Some (count_below nnz l i)) /\ (forall i, n < i -> get l' i = get l i)) \/
  (~ nondecreasing nnz l /\ pointer_array nnz l n = Throw).
Proof.
  intros L Hn Ln Hr. unfold pointer_array.
  destruct (check_sorted nnz l L) as [[-> S]|[-> S]]; [left; split; [exact S|]|right; split; [exact S|reflexivity]].
  cbn [bind].
  destruct (wr_ex (repeat 0 (Z.to_nat (n + 1))) 0 0) as (t0 & -> & Lt0 & Gt0 & _); [rewrite zlen_repeat; lia|]. cbn [bind].
  rewrite zlen_repeat in Lt0.
  destruct (for_inv (fun j (st : Z * list Z) => let '(ell, temp) := st in
      zlen temp = n + 1 /\ 0 <= ell <= nnz /\ cut nnz l j ell /\
      forall k, 0 <= k <= j -> exists p, get temp k = Some p /\ 0 <= p <= nnz /\ cut nnz l k p)
    0 n (fun i '(ell, temp) =>
    ell <- while_ (Datatypes.S (Z.to_nat (nnz - ell)))
      (fun ell => if ell <? nnz then x <- rd l ell ;; Ok (x =? i) else Ok false)
      (fun ell => Ok (ell + 1)) ell ;;
    temp <- wr temp (i + 1) ell ;;
    Ok (ell, temp)) (0, t0)) as ([ell temp] & E & Lt & Be & Cu & Ht).
  - exact Hn.
  - assert (C0 : cut nnz l 0 0) by (intros e x He G; specialize (Hr e x He G); lia).
    split; [lia|]. split; [lia|]. split; [exact C0|]. intros k Hk. assert (k = 0) by lia. subst. exists 0. auto with zarith.
  - intros i [ell temp] Hi (Lt & Be & Cu & Ht).
    set (test := fun e => match get l e with Some x => x =? i | None => false end).
    destruct (while_scan nnz (fun s : Z => s) test (fun ell => if ell <? nnz then x <- rd l ell ;; Ok (x =? i) else Ok false)
      (fun ell => Ok (ell + 1)) (fun s => 0 <= s)) with (s := ell) as (ell2 & E2 & Q0 & Q4 & Q5 & Q6).
    + intros e He Hle. destruct (Z.ltb_spec e nnz); [|reflexivity]. unfold test. destruct (rd_lt l e ltac:(lia)) as (x & -> & ->). reflexivity.
    + intros e He Hle _. exists (e + 1). split; [reflexivity|]. lia.
    + lia.
    + lia.
    + rewrite E2. cbn [bind]. destruct (wr_ex temp (i + 1) ell2) as (t2 & -> & Lt2 & Gt2 & Nt2); [lia|]. cbn [bind].
      eexists. split; [reflexivity|]. cbn beta iota.
      assert (C2 : cut nnz l (i + 1) ell2).
      { apply (cut_step nnz l i ell ell2); auto; try lia.
        - intros e x He G. specialize (Q5 e He). unfold test in Q5. rewrite G in Q5. now apply Z.eqb_eq.
        - intros Hlt x G. specialize (Q6 Hlt). unfold test in Q6. rewrite G in Q6. now apply Z.eqb_neq. }
      split; [lia|]. split; [lia|]. split; [exact C2|].
      intros k Hk. destruct (Z.eq_dec k (i + 1)) as [->|Hne].
      * exists ell2. auto with zarith.
      * rewrite Nt2 by exact Hne. apply Ht. lia.
  - rewrite E. cbn [bind]. destruct (wr_ex l 0 0) as (l0 & -> & Ll0 & Gl0 & Nl0); [lia|]. cbn [bind].
    destruct (for_inv (fun j (l1 : list Z) => zlen l1 = zlen l /\ (forall k, 0 <= k <= j -> get l1 k = Some (count_below nnz l k)) /\
        (forall k, j < k -> get l1 k = get l k)) 0 n (fun i l1 => x <- rd temp (i + 1) ;; wr l1 (i + 1) x) l0) as (l' & E' & I1 & I2 & I3).
    + exact Hn.
    + split; [lia|]. split.
      * intros k Hk. assert (k = 0) by lia. subst. rewrite Gl0. f_equal. symmetry. apply cut_count; [lia|lia|].
        intros e x He G. specialize (Hr e x He G). lia.
      * intros k Hk. apply Nl0. lia.
    + intros i l1 Hi (J1 & J2 & J3). destruct (Ht (i + 1) ltac:(lia)) as (p & Gp & Bp & Cp).
      rewrite (proj2 (rd_get _ _ _) Gp). cbn [bind].
      destruct (wr_ex l1 (i + 1) p) as (l2 & -> & L2 & G2 & N2); [lia|]. eexists. split; [reflexivity|].
      split; [lia|]. split.
      * intros k Hk. destruct (Z.eq_dec k (i + 1)) as [->|Hne].
        -- rewrite G2. f_equal. symmetry. now apply cut_count.
        -- rewrite N2 by exact Hne. apply J2. lia.
      * intros k Hk. rewrite N2 by lia. apply J3. lia.
    + exists l'. split; [exact E'|]. auto.
Qed.
