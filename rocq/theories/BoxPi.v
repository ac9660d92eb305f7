(** Bounds on pi (by Machin's formula) and ln 2. *)
From Coq Require Import Reals Lra Machin ZArith QArith Qpower Qreals Lia.
From Flocq Require Import Core.
Local Open Scope R_scope.
Definition qterm (n : nat) : Q := ((2 * (1 # 3) ^ (2 * Z.of_nat n + 1) + (1 # 7) ^ (2 * Z.of_nat n + 1)) * (if Nat.even n then 1 else -1) / inject_Z (2 * Z.of_nat n + 1))%Q.
Fixpoint qsum (n : nat) : Q := match n with O => qterm 0 | S n => qsum n + qterm (S n) end%Q.
Lemma Q2R_pow a n : Q2R (a ^ Z.of_nat n)%Q = Q2R a ^ n.
Proof.
  induction n as [|n IH]; [cbn; unfold Q2R; cbn; lra|].
  destruct n as [|n]; [cbn; lra|].
  rewrite Nat2Z.inj_succ. unfold Z.succ.
  rewrite (Qeq_eqR _ (a ^ Z.of_nat (S n) * a)%Q).
  - rewrite Q2R_mult, IH. cbn [pow]. ring.
  - change (Z.of_nat (S n) + 1)%Z with (Z.pos (Pos.of_succ_nat n + 1)). change (Z.of_nat (S n)) with (Z.pos (Pos.of_succ_nat n)).
    cbn [Qpower]. rewrite Qpower_plus_positive. reflexivity.
Qed.
Lemma inject_IZR z : Q2R (inject_Z z) = IZR z. Proof. unfold Q2R, inject_Z; cbn. lra. Qed.
Lemma qterm_ok n : Q2R (qterm n) = tg_alt PI_2_3_7_tg n.
Proof.
  unfold qterm, tg_alt, PI_2_3_7_tg, Ratan_seq.
  replace (2 * Z.of_nat n + 1)%Z with (Z.of_nat (2 * n + 1)) by lia.
  rewrite Q2R_div; [|intros E; apply Qeq_eqR in E; rewrite inject_IZR in E; revert E; replace (Q2R 0) with (IZR 0) by (unfold Q2R; cbn; lra); intros E; apply eq_IZR in E; lia].
  rewrite Q2R_mult, Q2R_plus, Q2R_mult, !Q2R_pow, inject_IZR, INR_IZR_INZ.
  replace (Q2R 2) with 2 by (unfold Q2R; cbn; lra). replace (Q2R (1 # 3)) with (/ 3) by (unfold Q2R; cbn; lra). replace (Q2R (1 # 7)) with (/ 7) by (unfold Q2R; cbn; lra).
  replace (Q2R (if Nat.even n then 1 else -1)) with ((-1) ^ n).
  - field. apply IZR_neq. lia.
  - rewrite (Nat.div2_odd n) at 1. rewrite <- Nat.negb_odd. rewrite pow_add, pow_1_even. destruct (Nat.odd n); cbn; unfold Q2R; cbn; lra.
Qed.
Lemma qsum_ok n : Q2R (qsum n) = sum_f_R0 (tg_alt PI_2_3_7_tg) n.
Proof. induction n as [|n IH]; cbn [qsum sum_f_R0]; [apply qterm_ok|]. now rewrite Q2R_plus, IH, qterm_ok. Qed.
Lemma pi_double : Rabs (PI - 7074237752028440 * / IZR (2 ^ 51)) <= / IZR (2 ^ 52).
Proof.
  destruct (PI_2_3_7_ineq 8) as [A B]. rewrite <- qsum_ok in A, B.
  assert (C : (((7074237752028440 # (2 ^ 51)) - (1 # 2 ^ 52)) * (1 # 4) <= qsum (S (2 * 8)))%Q) by (vm_compute; discriminate).
  assert (D : (qsum (2 * 8) <= ((7074237752028440 # (2 ^ 51)) + (1 # 2 ^ 52)) * (1 # 4))%Q) by (vm_compute; discriminate).
  apply Qle_Rle in C, D. rewrite Q2R_mult in C, D. rewrite Q2R_minus in C. rewrite Q2R_plus in D.
  unfold Q2R in C at 1 2 3. unfold Q2R in D at 2 3 4. cbn [Qnum Qden] in C, D.
  change (Z.pos (2^51)) with (2 ^ 51)%Z in C, D. change (Z.pos (2^52)) with (2 ^ 52)%Z in C, D.
  apply Rabs_le. set (r1 := / IZR (2 ^ 51)) in *. set (r2 := / IZR (2 ^ 52)) in *. clearbody r1 r2.
  split; lra.
Qed.
Lemma pi_float : Rabs (PI - 13176795 * / IZR (2 ^ 22)) <= / 10000000.
Proof. pose proof pi_double as H. apply Rabs_le_inv in H. apply Rabs_le. revert H. cbn -[PI]. lra. Qed.
Lemma ln2_le : ln 2 <= 7 / 10.
Proof.
  assert (H : 2 < exp (7 / 10)).
  { replace (7 / 10) with (INR 64 * (7 / 640)) by (rewrite INR_IZR_INZ; cbn; field).
    assert (E : forall n, exp (INR n * (7 / 640)) = exp (7 / 640) ^ n).
    { induction n as [|n IH]; [cbn; rewrite Rmult_0_l; apply exp_0|]. rewrite S_INR, Rmult_plus_distr_r, exp_plus, IH, Rmult_1_l. cbn [pow]. ring. }
    rewrite E. pose proof (exp_ineq1 (7 / 640) ltac:(lra)) as L. apply Rlt_le_trans with ((1 + 7 / 640) ^ 64); [|apply pow_incr; lra].
    replace 64%nat with (2 * (2 * (2 * (2 * (2 * 2)))))%nat by reflexivity. rewrite !pow_mult.
    set (a1 := (1 + 7 / 640) ^ 2). assert (A1 : 1.02199 <= a1) by (unfold a1; cbn [pow]; lra). clearbody a1.
    set (a2 := a1 ^ 2). assert (A2 : 1.04446 <= a2) by (unfold a2; cbn [pow]; nra). clearbody a2.
    set (a3 := a2 ^ 2). assert (A3 : 1.0908 <= a3) by (unfold a3; cbn [pow]; nra). clearbody a3.
    set (a4 := a3 ^ 2). assert (A4 : 1.1898 <= a4) by (unfold a4; cbn [pow]; nra). clearbody a4.
    set (a5 := a4 ^ 2). assert (A5 : 1.4156 <= a5) by (unfold a5; cbn [pow]; nra). clearbody a5.
    cbn [pow]. nra. }
  rewrite <- (ln_exp (7 / 10)). left. apply ln_increasing; lra.
Qed.
