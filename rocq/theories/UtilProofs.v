(** Proofs about the layout and triangle utilities. *)
From Verif Require Import Base Spec DenseModel DenseProofs SpmmModel SpmmSpec SpmmProofs5 UtilModel UtilSpec LoopProofs SketchProofs.

Lemma strides_addr l ld i j : i * fst (DenseModel.layout_to_strides l ld) + j * snd (DenseModel.layout_to_strides l ld) = addr l ld i j.
Proof. destruct l; cbn; lia. Qed.
Lemma strides_pair l ld : DenseModel.layout_to_strides l ld = (fst (DenseModel.layout_to_strides l ld), snd (DenseModel.layout_to_strides l ld)).
Proof. now destruct (DenseModel.layout_to_strides l ld). Qed.

Section UtilProofs.
  Context {T : Type}.
  Variable zero : T.

  (** Loops over part of the square, one cell per iteration, value known beforehand. *)
  Lemma tri_loop l n lda (A : list T) g (sw : bool) (val : Z -> Z -> T) (body : Z -> Z -> list T -> outcome (list T)) :
    fits_buffer l lda n n (zlen A) -> (forall i, 0 <= i -> 0 <= g i) ->
    let key := fun i j => if sw then addr l lda j i else addr l lda i j in
    (forall i j D, 0 <= i < n -> g i <= j < n -> zlen D = zlen A ->
       (forall p, (forall i' j', 0 <= i' < n -> g i' <= j' < n -> key i' j' <> p) -> get D p = get A p) ->
       body i j D = wr D (key i j) (val i j)) ->
    exists A', for_ 0 n (fun i A => for_ (g i) n (fun j A => body i j A) A) A = Ok A' /\
      square_result l n lda A (fun i j => if (if sw then g j <=? i else g i <=? j) then Some (if sw then val j i else val i j) else mat l lda 0 A i j) A'.
  Proof.
    intros F Hg key Step. rewrite (for_for 0 n g (fun _ => n) body). set (ps := pairs 0 n g (fun _ => n)).
    assert (forall a, In a ps -> 0 <= fst a < n /\ g (fst a) <= snd a < n /\ 0 <= snd a) as HP.
    { intros [i j] H. apply in_pairs in H. cbn [fst snd]. specialize (Hg i). lia. }
    assert (forall i j i' j', 0 <= i < n -> 0 <= j < n -> 0 <= i' < n -> 0 <= j' < n -> key i j = key i' j' -> i = i' /\ j = j') as Inj.
    { intros i j i' j' Hi Hj Hi' Hj' E. unfold key in E. destruct sw; apply (addr_inj l n n lda) in E; try apply F; lia. }
    assert (forall i j, 0 <= i < n -> 0 <= j < n -> 0 <= key i j < zlen A) as Rng.
    { intros i j Hi Hj. unfold key. destruct sw; now apply (fits_addr l lda n n). }
    destruct (foldM_cells ps (fun a => [(key (fst a) (snd a), val (fst a) (snd a))]) (fun ij s => body (fst ij) (snd ij) s) A) as (A' & E & LA & V & U).
    - intros [i j] [i' j'] p v v' Ha Hb [H|[]] [H'|[]]. injection H as <- <-. injection H' as E <-. cbn [fst snd] in *.
      apply HP in Ha, Hb. cbn [fst snd] in *. apply Inj in E as [-> ->]; try lia. reflexivity.
    - intros l1 [i j] l2 D El LD UD VD. assert (In (i, j) ps) as Hin by (rewrite El; apply in_or_app; right; now left).
      apply HP in Hin as (Hi & Hj & Hj0). cbn [fst snd] in *.
      destruct (wr_ex D (key i j) (val i j)) as (D' & ED & LD' & GD & ND). { rewrite LD. apply Rng; lia. }
      exists D'. split.
      + rewrite Step; auto. intros p Hp. apply UD. intros Hin. apply in_map_iff in Hin as ([p' v] & Ep & Hin). cbn in Ep. subst p'.
        apply in_flat_map in Hin as ([i' j'] & Hin & [H|[]]). injection H as H _. cbn [fst snd] in H.
        assert (In (i', j') ps) as Hps by (rewrite El; apply in_or_app; now left). apply HP in Hps as (X1 & X2 & _). cbn [fst snd] in *. now apply (Hp i' j').
      + split; [exact LD'|]. split.
        * intros p v [H|[]]. injection H as <- <-. exact GD.
        * intros p Hp. apply ND. intros ->. apply Hp. now left.
    - exists A'. split; [exact E|]. split; [exact LA|]. split.
      + intros i j Hi Hj. unfold mat. rewrite Z.add_0_l.
        destruct (if sw then g j <=? i else g i <=? j) eqn:Et.
        * apply (V (addr l lda i j)). apply in_flat_map. exists (if sw then (j, i) else (i, j)). split.
          -- destruct sw; apply in_pairs; lia.
          -- left. unfold key. destruct sw; reflexivity.
        * apply U. intros Hin. apply in_map_iff in Hin as ([p' v] & Ep & Hin). cbn in Ep. subst p'.
          apply in_flat_map in Hin as ([i' j'] & Hin & [H|[]]). apply HP in Hin as (X1 & X2 & X3). cbn [fst snd] in *. injection H as H _. unfold key in H.
          destruct sw; apply (addr_inj l n n lda) in H as [-> ->]; try apply F; lia.
      + intros p Hp. apply U. intros Hin. apply in_map_iff in Hin as ([p' v] & Ep & Hin). cbn in Ep. subst p'.
        apply in_flat_map in Hin as ([i' j'] & Hin & [H|[]]). apply HP in Hin as (X1 & X2 & X3). cbn [fst snd] in *. injection H as H _. unfold key in H.
        destruct sw; [apply (Hp j' i')|apply (Hp i' j')]; auto; lia.
  Qed.

  Lemma square_ext l n lda (A A' : list T) f f' : (forall i j, 0 <= i < n -> 0 <= j < n -> f i j = f' i j) ->
    square_result l n lda A f A' -> square_result l n lda A f' A'.
  Proof. intros H (S1 & S2 & S3). split; [exact S1|]. split; [|exact S3]. intros i j Hi Hj. now rewrite <- H, S2. Qed.

  Lemma overwrite_triangle_spec l u n k (A : list T) lda : 0 <= k -> fits_buffer l lda n n (zlen A) -> u <> General ->
    exists A', overwrite_triangle zero l u n k A lda = Ok A' /\
      square_result l n lda A (fun i j => if in_triangle u k i j then Some zero else mat l lda 0 A i j) A'.
  Proof.
    intros Hk F Hu. unfold overwrite_triangle. rewrite strides_pair. destruct u; [| |congruence].
    - destruct (tri_loop l n lda A (fun i => i + k) false (fun _ _ => zero)
        (fun i j A => wr A (i * fst (DenseModel.layout_to_strides l lda) + j * snd (DenseModel.layout_to_strides l lda)) zero)) as (A' & E & R); auto.
      + intros; lia.
      + intros i j D _ _ _ _. now rewrite strides_addr.
      + exists A'. split; [exact E|]. exact R.
    - destruct (tri_loop l n lda A (fun i => i + k) true (fun _ _ => zero)
        (fun i j A => wr A (j * fst (DenseModel.layout_to_strides l lda) + i * snd (DenseModel.layout_to_strides l lda)) zero)) as (A' & E & R); auto.
      + intros; lia.
      + intros i j D _ _ _ _. now rewrite strides_addr.
      + exists A'. split; [exact E|]. exact R.
  Qed.

  Lemma overwrite_triangle_neg l u n k (A : list T) lda : k < 0 -> 1 <= n -> 1 <= lda -> u <> General -> overwrite_triangle zero l u n k A lda = UB.
  Proof.
    intros Hk Hn Hl Hu. unfold overwrite_triangle. rewrite strides_pair.
    assert (forall (body : Z -> Z -> list T -> outcome (list T)), body 0 k A = UB ->
       for_ 0 n (fun i A => for_ (i + k) n (fun j A => body i j A) A) A = UB) as H.
    { intros body HB. rewrite for_for. unfold pairs. rewrite (range_cons 0) by lia. cbn [flat_map]. rewrite Z.add_0_l, (range_cons k) by lia.
      cbn [map app foldM fst snd]. now rewrite HB. }
    assert (forall p v, p < 0 -> wr A p v = UB) as W.
    { intros p v Hp. unfold wr. replace (p <? 0) with true by lia. reflexivity. }
    destruct u; [| |congruence].
    - apply (H (fun i j A => wr A (i * fst (DenseModel.layout_to_strides l lda) + j * snd (DenseModel.layout_to_strides l lda)) zero)).
      rewrite strides_addr. apply W. destruct l; cbn [addr]; nia.
    - apply (H (fun i j A => wr A (j * fst (DenseModel.layout_to_strides l lda) + i * snd (DenseModel.layout_to_strides l lda)) zero)).
      rewrite strides_addr. apply W. destruct l; cbn [addr]; nia.
  Qed.

  Lemma mat_get l lda n (A : list T) i j : fits_buffer l lda n n (zlen A) -> 0 <= i < n -> 0 <= j < n -> exists x, mat l lda 0 A i j = Some x.
  Proof. intros F Hi Hj. unfold mat. rewrite Z.add_0_l. apply get_lt. now apply (fits_addr l lda n n). Qed.

  Lemma symmetrize_spec l u n (A : list T) lda : fits_buffer l lda n n (zlen A) ->
    exists A', symmetrize l u n A lda = Ok A' /\
      square_result l n lda A (fun i j => match u with
        | Upper => if i <=? j then mat l lda 0 A i j else mat l lda 0 A j i
        | Lower => if j <=? i then mat l lda 0 A i j else mat l lda 0 A j i
        | General => mat l lda 0 A i j end) A'.
  Proof.
    intros F. unfold symmetrize. rewrite strides_pair.
    set (val := fun (x : Z -> Z -> option T) i j => match x i j with Some v => v | None => zero end).
    destruct u.
    - destruct (tri_loop l n lda A (fun i => i + 1) true (val (fun i j => mat l lda 0 A i j))
        (fun i j A => x <- rd A (i * fst (DenseModel.layout_to_strides l lda) + j * snd (DenseModel.layout_to_strides l lda)) ;;
                      wr A (j * fst (DenseModel.layout_to_strides l lda) + i * snd (DenseModel.layout_to_strides l lda)) x)) as (A' & E & R); auto.
      + intros; lia.
      + intros i j D Hi Hj LD U. rewrite !strides_addr. destruct (mat_get l lda n A i j F Hi ltac:(lia)) as [x G]. unfold mat in G. rewrite Z.add_0_l in G.
        assert (rd D (addr l lda i j) = Ok x) as ->.
        { apply rd_get. rewrite U; [exact G|]. intros i' j' Hi' Hj' X. apply (addr_inj l n n lda) in X; try apply F; lia. }
        cbn [bind]. unfold val, mat. rewrite Z.add_0_l, G. reflexivity.
      + exists A'. split; [exact E|]. revert R. apply square_ext. intros i j Hi Hj. replace (i <=? j) with (negb (j + 1 <=? i)) by lia.
        destruct (j + 1 <=? i) eqn:X; cbn [negb]; [|reflexivity]. unfold val. destruct (mat_get l lda n A j i F Hj Hi) as [x G]. now rewrite G.
    - destruct (tri_loop l n lda A (fun i => i + 1) false (val (fun i j => mat l lda 0 A j i))
        (fun i j A => x <- rd A (j * fst (DenseModel.layout_to_strides l lda) + i * snd (DenseModel.layout_to_strides l lda)) ;;
                      wr A (i * fst (DenseModel.layout_to_strides l lda) + j * snd (DenseModel.layout_to_strides l lda)) x)) as (A' & E & R); auto.
      + intros; lia.
      + intros i j D Hi Hj LD U. rewrite !strides_addr. destruct (mat_get l lda n A j i F ltac:(lia) Hi) as [x G]. unfold mat in G. rewrite Z.add_0_l in G.
        assert (rd D (addr l lda j i) = Ok x) as ->.
        { apply rd_get. rewrite U; [exact G|]. intros i' j' Hi' Hj' X. apply (addr_inj l n n lda) in X; try apply F; lia. }
        cbn [bind]. unfold val, mat. rewrite Z.add_0_l, G. reflexivity.
      + exists A'. split; [exact E|]. revert R. apply square_ext. intros i j Hi Hj. replace (j <=? i) with (negb (i + 1 <=? j)) by lia.
        destruct (i + 1 <=? j) eqn:X; cbn [negb]; [|reflexivity]. unfold val. destruct (mat_get l lda n A j i F Hj Hi) as [x G]. now rewrite G.
    - exists A. split; [reflexivity|]. split; [reflexivity|]. auto.
  Qed.

  Lemma transpose_square_spec n (A : list T) lda : fits_buffer ColMajor lda n n (zlen A) ->
    exists A', transpose_square A n lda = Ok A' /\
      square_result ColMajor n lda A (fun i j => mat ColMajor lda 0 A j i) A'.
  Proof.
    intros F. unfold transpose_square.
    set (body := fun i j (A : list T) => x <- rd A (i + lda * j) ;; y <- rd A (j + lda * i) ;; A <- wr A (i + lda * j) y ;; wr A (j + lda * i) x).
    change (fun (i : Z) (A0 : list T) => for_ (i + 1) n (fun (j : Z) (A1 : list T) => x <- rd A1 (i + lda * j) ;; y <- rd A1 (j + lda * i) ;; A2 <- wr A1 (i + lda * j) y ;; wr A2 (j + lda * i) x) A0)
      with (fun (i : Z) (A0 : list T) => for_ (i + 1) n (fun (j : Z) (A1 : list T) => body i j A1) A0).
    rewrite (for_for 0 n (fun i => i + 1) (fun _ => n) body). set (ps := pairs 0 n (fun i => i + 1) (fun _ => n)).
    set (val := fun i j => match get A (addr ColMajor lda i j) with Some v => v | None => zero end).
    assert (forall i j, 0 <= i < n -> 0 <= j < n -> get A (addr ColMajor lda i j) = Some (val i j)) as Hval.
    { intros i j Hi Hj. unfold val. destruct (get_lt A (addr ColMajor lda i j)) as [x G]; [now apply (fits_addr ColMajor lda n n)|]. now rewrite G. }
    assert (forall a, In a ps -> 0 <= fst a /\ fst a < snd a /\ snd a < n) as HP.
    { intros [i j] H. apply in_pairs in H. cbn [fst snd]. lia. }
    set (w := fun a : Z * Z => [(addr ColMajor lda (fst a) (snd a), val (snd a) (fst a)); (addr ColMajor lda (snd a) (fst a), val (fst a) (snd a))]).
    assert (forall a p v, In a ps -> In (p, v) (w a) -> exists i j, 0 <= i < n /\ 0 <= j < n /\ ((i, j) = a \/ (j, i) = a) /\ p = addr ColMajor lda i j /\ v = val j i) as HW.
    { intros [i j] p v Ha Hv. apply HP in Ha. cbn [fst snd] in Ha. destruct Hv as [H|[H|[]]]; cbn [fst snd] in H; injection H as <- <-.
      - exists i, j. repeat split; auto; lia.
      - exists j, i. repeat split; auto; lia. }
    destruct (foldM_cells ps w (fun ij s => body (fst ij) (snd ij) s) A) as (A' & E & LA & V & U).
    - intros a b p v v' Ha Hb Hv Hv'. apply HW in Hv as (i & j & Hi & Hj & _ & -> & ->); [|exact Ha]. apply HW in Hv' as (i' & j' & Hi' & Hj' & _ & X & ->); [|exact Hb].
      apply (addr_inj ColMajor n n lda) in X as [-> ->]; try apply F; auto.
    - intros l1 [i j] l2 D El LD UD VD. assert (In (i, j) ps) as Hin by (rewrite El; apply in_or_app; right; now left).
      pose proof (HP _ Hin) as (Hi & Hij & Hj). cbn [fst snd] in *.
      assert (forall p, p = addr ColMajor lda i j \/ p = addr ColMajor lda j i -> get D p = get A p) as GD.
      { intros p Hp. apply UD. intros X. apply in_map_iff in X as ([p' v] & Ep & X). cbn in Ep. subst p'. apply in_flat_map in X as (a & Ha & X).
        assert (In a ps) as Hps by (rewrite El; apply in_or_app; now left).
        assert (NoDup ps) as ND by apply NoDup_pairs. rewrite El in ND. apply NoDup_remove_2 in ND.
        pose proof (HP _ Hps) as Ha'. apply HW in X as (i' & j' & Hi' & Hj' & Ea & -> & _); [|exact Hps].
        assert ((i' = i /\ j' = j) \/ (i' = j /\ j' = i)) as Hc.
        { destruct Hp as [Hp|Hp]; apply (addr_inj ColMajor n n lda) in Hp; try apply F; lia. }
        apply ND. apply in_or_app. left. destruct Hc as [[-> ->]|[-> ->]]; destruct Ea as [<-|<-]; auto; cbn [fst snd] in Ha'; lia. }
      unfold body. replace (i + lda * j) with (addr ColMajor lda i j) by (cbn [addr]; lia). replace (j + lda * i) with (addr ColMajor lda j i) by (cbn [addr]; lia).
      assert (rd D (addr ColMajor lda i j) = Ok (val i j)) as ->. { apply rd_get. rewrite GD by auto. apply Hval; lia. }
      assert (rd D (addr ColMajor lda j i) = Ok (val j i)) as ->. { apply rd_get. rewrite GD by auto. apply Hval; lia. }
      cbn [bind].
      destruct (wr_ex D (addr ColMajor lda i j) (val j i)) as (D1 & E1 & L1 & G1 & N1). { rewrite LD. apply (fits_addr ColMajor lda n n); auto; lia. }
      destruct (wr_ex D1 (addr ColMajor lda j i) (val i j)) as (D2 & E2 & L2 & G2 & N2). { rewrite L1, LD. apply (fits_addr ColMajor lda n n); auto; lia. }
      exists D2. rewrite E1. cbn [bind]. split; [exact E2|]. split; [congruence|]. split.
      + intros p v [H|[H|[]]]; cbn [fst snd] in H; injection H as <- <-; [|exact G2]. rewrite N2; [exact G1|].
        intros X. apply (addr_inj ColMajor n n lda) in X; try apply F; lia.
      + intros p Hp. cbn [w map fst snd] in Hp. rewrite N2, N1; [reflexivity|..]; intros ->; apply Hp; auto; [now left|right; now left].
    - exists A'. split; [exact E|]. split; [exact LA|]. split.
      + intros i j Hi Hj. unfold mat. rewrite !Z.add_0_l, (Hval j i) by auto. destruct (Z.eq_dec i j) as [->|Hne].
        * rewrite U; [now apply Hval|]. intros X. apply in_map_iff in X as ([p' v] & Ep & X). cbn in Ep. subst p'. apply in_flat_map in X as (a & Ha & X).
          pose proof (HP _ Ha) as Ha'. apply HW in X as (i' & j' & Hi' & Hj' & Ea & Eq & _); [|exact Ha].
          apply (addr_inj ColMajor n n lda) in Eq as [-> ->]; try apply F; auto. destruct Ea as [<-|<-]; cbn [fst snd] in Ha'; lia.
        * apply (V (addr ColMajor lda i j)). apply in_flat_map. destruct (Z.lt_ge_cases i j).
          -- exists (i, j). split; [apply in_pairs; lia|now left].
          -- exists (j, i). split; [apply in_pairs; lia|right; now left].
      + intros p Hp. apply U. intros X. apply in_map_iff in X as ([p' v] & Ep & X). cbn in Ep. subst p'. apply in_flat_map in X as (a & Ha & X).
        apply HW in X as (i' & j' & Hi' & Hj' & _ & -> & _); [|exact Ha]. now apply (Hp i' j').
  Qed.

  Lemma square_eq l n lda (A A1 A2 : list T) f : square_result l n lda A f A1 -> square_result l n lda A f A2 -> A1 = A2.
  Proof.
    intros (L1 & G1 & N1) (L2 & G2 & N2). apply list_ext_get; [congruence|]. intros p.
    destruct (List.in_dec Z.eq_dec p (map (fun a => addr l lda (fst a) (snd a)) (pairs 0 n (fun _ => 0) (fun _ => n)))) as [H|H].
    - apply in_map_iff in H as ([i j] & <- & H). apply in_pairs in H as [Hi Hj]. cbn [fst snd].
      specialize (G1 i j Hi Hj). specialize (G2 i j Hi Hj). unfold mat in *. rewrite Z.add_0_l in *. congruence.
    - assert (forall i j, 0 <= i < n -> 0 <= j < n -> addr l lda i j <> p) as X.
      { intros i j Hi Hj E. apply H. apply in_map_iff. exists (i, j). split; [exact E|]. apply in_pairs. lia. }
      now rewrite N1, N2.
  Qed.

  Lemma transpose_square_involutive n (A : list T) lda : fits_buffer ColMajor lda n n (zlen A) ->
    (A1 <- transpose_square A n lda ;; transpose_square A1 n lda) = Ok A.
  Proof.
    intros F. destruct (transpose_square_spec n A lda F) as (A1 & -> & (L1 & G1 & N1)). cbn [bind].
    destruct (transpose_square_spec n A1 lda) as (A2 & -> & (L2 & G2 & N2)); [now rewrite L1|]. f_equal.
    apply (square_eq ColMajor n lda A A2 A (fun i j => mat ColMajor lda 0 A i j)).
    - split; [congruence|]. split.
      + intros i j Hi Hj. now rewrite G2, G1.
      + intros p Hp. now rewrite N2, N1.
    - split; [reflexivity|]. auto.
  Qed.

  (** flip_layout *)
  Lemma flip_layout_spec l m n (A : list T) lda_in lda_out : 0 <= m -> 0 <= n ->
    fits_buffer l lda_in m n (zlen A) -> min_ld (flip l) m n <= lda_out ->
    exists A', flip_layout zero l m n A lda_in lda_out = Ok A' /\ zlen A' = lda_out * (match l with ColMajor => m | RowMajor => n end) /\
      forall i j, 0 <= i < m -> 0 <= j < n -> mat (flip l) lda_out 0 A' i j = mat l lda_in 0 A i j.
  Proof.
    intros Hm Hn F Ho. unfold flip_layout.
    set (len := lda_out * (match l with ColMajor => m | RowMajor => n end)).
    assert ((match l with ColMajor => req (lda_in >=? m) ;; req (lda_out >=? n) ;; Ok (lda_out * m) | RowMajor => req (lda_in >=? n) ;; req (lda_out >=? m) ;; Ok (lda_out * n) end) = Ok len) as ->.
    { destruct F as [F _]. destruct l; cbn [min_ld flip] in *.
      - replace (lda_in >=? m) with true by lia. replace (lda_out >=? n) with true by lia. reflexivity.
      - replace (lda_in >=? n) with true by lia. replace (lda_out >=? m) with true by lia. reflexivity. }
    cbn [bind]. replace (match l with ColMajor => RowMajor | RowMajor => ColMajor end) with (flip l) by (now destruct l).
    rewrite (strides_pair l), (strides_pair (flip l)).
    set (A1 := if len >=? zlen A then A ++ repeat zero (Z.to_nat (len - zlen A)) else A).
    assert (0 <= len) as Hlen. { unfold len. destruct l; cbn [min_ld flip] in *; nia. }
    assert (zlen A <= zlen A1 /\ len <= zlen A1) as [LA1 LA2].
    { unfold A1. destruct (len >=? zlen A) eqn:X; [|lia]. rewrite zlen_app, zlen_repeat. lia. }
    assert (forall p, 0 <= p < zlen A -> get A1 p = get A p) as GA.
    { intros p Hp. unfold A1. destruct (len >=? zlen A); [|reflexivity]. apply get_app_l. lia. }
    assert (forall i j, 0 <= i < m -> 0 <= j < n -> 0 <= addr (flip l) lda_out i j < len) as Rng.
    { intros i j Hi Hj. unfold len. destruct l; cbn [min_ld flip addr] in *; nia. }
    destruct (omatcopy_spec m n A1 (fst (DenseModel.layout_to_strides l lda_in)) (snd (DenseModel.layout_to_strides l lda_in))
      A1 (fst (DenseModel.layout_to_strides (flip l) lda_out)) (snd (DenseModel.layout_to_strides (flip l) lda_out)) Hm Hn) as (A2 & E & L2 & G & _).
    - intros i j Hi Hj. rewrite strides_addr. pose proof (fits_addr l lda_in m n _ i j F Hi Hj). lia.
    - intros i j Hi Hj. rewrite strides_addr. specialize (Rng i j Hi Hj). lia.
    - intros i j i' j' Hi Hj Hi' Hj'. rewrite !strides_addr. now apply (addr_inj (flip l) m n lda_out).
    - rewrite E. cbn [bind]. replace (len <? 0) with false by lia. exists (firstn (Z.to_nat len) A2). split; [reflexivity|]. split.
      + unfold zlen in *. rewrite firstn_length. lia.
      + intros i j Hi Hj. specialize (G i j Hi Hj). rewrite !strides_addr in G. unfold mat. rewrite !Z.add_0_l.
        rewrite get_firstn by (specialize (Rng i j Hi Hj); lia). rewrite G. apply GA. now apply (fits_addr l lda_in m n).
  Qed.
End UtilProofs.

(** require_symmetric *)
Section Sym.
  Context {T : Type}.
  Variable O : ops T.
  Variable Q : cmp_ops T.

  (** A loop whose body either raises or does nothing. *)
  Lemma foldM_guard {A} (bad : A -> bool) (body : A -> unit -> outcome unit) l :
    (forall a, In a l -> body a tt = if bad a then Throw else Ok tt) ->
    foldM body l tt = if existsb bad l then Throw else Ok tt.
  Proof.
    induction l as [|a l IH]; intros H; [reflexivity|]. cbn [foldM existsb]. rewrite H by now left. destruct (bad a); [reflexivity|]. cbn [bind orb].
    apply IH. intros b Hb. apply H. now right.
  Qed.

  Lemma require_symmetric_spec l (A : list T) n lda tol : fits_buffer l lda n n (zlen A) ->
    (require_symmetric O Q l A n lda tol = Throw <-> o_ltb Q tol (o_zero O) = false /\ asymmetric O Q l A n lda tol) /\
    (require_symmetric O Q l A n lda tol = Ok tt <-> o_ltb Q tol (o_zero O) = true \/ ~ asymmetric O Q l A n lda tol).
  Proof.
    intros F. unfold require_symmetric. destruct (o_ltb Q tol (o_zero O)) eqn:Et.
    { split; split; [discriminate|intros [H _]; discriminate|auto|reflexivity]. }
    rewrite strides_pair.
    set (bad := fun a : Z * Z => match mat l lda 0 A (fst a) (snd a), mat l lda 0 A (snd a) (fst a) with
       | Some x, Some y => o_ltb Q (o_mul O (o_add O (o_add O (o_abs Q x) (o_abs Q y)) (o_one O)) tol) (o_abs Q (o_sub Q x y)) | _, _ => false end).
    set (body := (fun i j (_ : unit) =>
      Aij <- rd A (i * fst (DenseModel.layout_to_strides l lda) + j * snd (DenseModel.layout_to_strides l lda)) ;;
      Aji <- rd A (j * fst (DenseModel.layout_to_strides l lda) + i * snd (DenseModel.layout_to_strides l lda)) ;;
      let viol := o_abs Q (o_sub Q Aij Aji) in
      let rel_tol := o_mul O (o_add O (o_add O (o_abs Q Aij) (o_abs Q Aji)) (o_one O)) tol in
      if o_ltb Q rel_tol viol then Throw else Ok tt)).
    rewrite (for_ext 0 n _ (fun i s => for_ (i + 1) n (fun j s => body i j s) s)) by (intros i [] _; reflexivity).
    rewrite (for_for 0 n (fun i => i + 1) (fun _ => n) body).
    rewrite (foldM_guard bad).
    2:{ intros [i j] H. apply in_pairs in H as [Hi Hj]. cbn [fst snd]. unfold body. rewrite !strides_addr. unfold bad, mat. cbn [fst snd]. rewrite !Z.add_0_l.
        destruct (get_lt A (addr l lda i j)) as [x Gx]; [apply (fits_addr l lda n n); auto; lia|].
        destruct (get_lt A (addr l lda j i)) as [y Gy]; [apply (fits_addr l lda n n); auto; lia|].
        rewrite (proj2 (rd_get A _ x) Gx), (proj2 (rd_get A _ y) Gy). cbn [bind]. now rewrite Gx, Gy. }
    assert (existsb bad (pairs 0 n (fun i => i + 1) (fun _ => n)) = true <-> asymmetric O Q l A n lda tol) as HX.
    { rewrite existsb_exists. split.
      - intros ([i j] & H & Hb). apply in_pairs in H as [Hi Hj]. unfold bad in Hb. cbn [fst snd] in Hb.
        destruct (mat l lda 0 A i j) as [x|] eqn:Gx; [|discriminate]. destruct (mat l lda 0 A j i) as [y|] eqn:Gy; [|discriminate].
        exists i, j, x, y. repeat split; auto; lia.
      - intros (i & j & x & y & Hij & Hj & Gx & Gy & H). exists (i, j). split; [apply in_pairs; lia|]. unfold bad. cbn [fst snd]. now rewrite Gx, Gy. }
    destruct (existsb bad _) eqn:Eb.
    - split; split; [intros _; split; [reflexivity|]; now apply HX|auto|discriminate|]. intros [H|H]; [discriminate|]. exfalso. apply H. now apply HX.
    - assert (~ asymmetric O Q l A n lda tol) as NA. { intros H. apply HX in H. discriminate. }
      split; split; [discriminate|intros [_ H]; contradiction|auto|reflexivity].
  Qed.
End Sym.
