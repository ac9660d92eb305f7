(** Sampling with replacement (util.hh 454-506): which lane of which block each draw uses. *)
From Verif Require Import Base Spec RngModel DenseModel DenseSpec DenseProofs SparseSkopModel FyProofs.

(** Position of the next draw. *)
Lemma div_mod_succ t h : 0 < h ->
  (t mod h + 1 = h /\ (t + 1) / h = t / h + 1 /\ (t + 1) mod h = 0) \/
  (t mod h + 1 < h /\ (t + 1) / h = t / h /\ (t + 1) mod h = t mod h + 1).
Proof.
  intros Hh. pose proof (Z.div_mod t h ltac:(lia)) as E. pose proof (Z.mod_pos_bound t h Hh) as B.
  set (q := t / h) in *. set (r := t mod h) in *. clearbody q r. subst t.
  destruct (Z.eq_dec (r + 1) h) as [Hr|Hr].
  - left. replace (h * q + r + 1) with (0 + (q + 1) * h) by (rewrite <- Hr; ring).
    rewrite Z.div_add, Z.mod_add, Z.div_0_l, Z.mod_0_l by lia. lia.
  - right. replace (h * q + r + 1) with (r + 1 + q * h) by ring.
    rewrite Z.div_add, Z.mod_add, Z.div_small, Z.mod_small by lia. lia.
Qed.

Lemma ceil_div_cases t h : 0 < h -> 0 <= t ->
  ceil_div t h = if 0 <? t mod h then t / h + 1 else t / h.
Proof.
  intros Hh Ht. unfold ceil_div. pose proof (Z.div_mod t h ltac:(lia)) as E. pose proof (Z.mod_pos_bound t h Hh) as B.
  set (q := t / h) in *. set (r := t mod h) in *. clearbody q r. subst t.
  replace (h * q + r + h - 1) with (r + h - 1 + q * h) by ring. rewrite Z.div_add by lia.
  destruct (Z.ltb_spec 0 r).
  - replace (r + h - 1) with (r - 1 + 1 * h) by ring. rewrite Z.div_add, Z.div_small by lia. lia.
  - rewrite Z.div_small by lia. lia.
Qed.

Section Iid.
  Context {K F T : Type}.
  Variable g : generator K F.
  Variable draw : F -> outcome Z.
  Variable dr : F -> Z.
  Variable nonneg : F -> bool.
  Variables one mone : T.
  Variable d0 : F.
  Hypothesis Hwf : wf_generator g.
  Hypothesis Hdraw : forall x, draw x = Ok (dr x).

  (** Lane [l] of the block at counter offset [o]. *)
  Definition lane (c : Z) (k : K) (o l : Z) : F :=
    match get (g_fun g ((c + o) mod 2 ^ g_bits g) k) l with Some w => w | None => d0 end.

  Lemma get_lane c k o l : 0 <= l < g_len g ->
    get (g_fun g ((c + o) mod 2 ^ g_bits g) k) l = Some (lane c k o l).
  Proof.
    intros Hl. unfold lane. destruct (get_lt (g_fun g ((c + o) mod 2 ^ g_bits g) k) l) as [w G].
    { rewrite (wf_fun _ Hwf). exact Hl. }
    now rewrite G.
  Qed.

  (** Draws per block and words per draw. *)
  Definition per_block (rad : option (list T)) : Z := match rad with None => g_len g | Some _ => g_len g / 2 end.
  Definition per_draw (rad : option (list T)) : Z := match rad with None => 1 | Some _ => 2 end.

  Definition draw_at (rad : option (list T)) (c : Z) (k : K) (t : Z) : Z :=
    dr (lane c k (t / per_block rad) (per_draw rad * (t mod per_block rad))).
  Definition rad_at (rad : option (list T)) (c : Z) (k : K) (t : Z) : T :=
    if nonneg (lane c k (t / per_block rad) (2 * (t mod per_block rad) + 1)) then one else mone.

  Lemma per_block_pos rad : 1 <= per_block rad /\ per_draw rad * per_block rad <= g_len g.
  Proof using Hwf.
    clear - Hwf.
    destruct Hwf as [HL _ _]. destruct rad; cbn [per_block per_draw].
    - pose proof (Z.div_mod (g_len g) 2 ltac:(lia)). pose proof (Z.mod_pos_bound (g_len g) 2 ltac:(lia)).
      lia.
    - lia.
  Qed.

  Lemma sample_indices_spec k samples rad (st : rng_state K) :
    0 <= counter st < 2 ^ g_bits g ->
    0 <= k -> k <= zlen samples -> long_opt k rad ->
    exists samples' rad',
      sample_indices g draw nonneg one mone k samples rad st =
        Ok (samples', rad', mk_state ((counter st + ceil_div k (per_block rad)) mod 2 ^ g_bits g) (key st)) /\
      upd_to k (draw_at rad (counter st) (key st)) samples samples' /\
      upd_opt k (rad_at rad (counter st) (key st)) rad rad'.
  Proof.
    intros Hcs Hk Hs Hr. unfold sample_indices.
    destruct (per_block_pos rad) as [Hh1 Hh2]. set (h := per_block rad) in *. set (s := per_draw rad) in *.
    assert (1 <= s <= 2) as Hs12 by (unfold s, per_draw; destruct rad; lia).
    set (len_c := match rad with None => g_len g | Some _ => 2 * Z.quot (g_len g) 2 end).
    assert (len_c = s * h) as Hlen.
    { unfold len_c, s, h, per_draw, per_block. destruct Hwf as [HL _ _]. destruct rad; [|lia].
      rewrite Z.quot_div_nonneg by lia. reflexivity. }
    set (c := counter st) in *. set (ky := key st).
    destruct (for_inv (fun t (x : list F * Z * Z * list Z * option (list T)) =>
        let '(rv, ix, ctr, smp, rd') := x in
        ctr = (c + t / h) mod 2 ^ g_bits g /\ rv = g_fun g ctr ky /\ ix = s * (t mod h) /\
        upd_to t (draw_at rad c ky) samples smp /\ upd_opt t (rad_at rad c ky) rad rd')
      0 k (sample_step g draw nonneg one mone len_c ky) (g_fun g c ky, 0, c, samples, rad)) as [x' [E H]].
    - lia.
    - rewrite Z.div_0_l, Z.mod_0_l by lia. rewrite Z.add_0_r, Z.mod_small by exact Hcs.
      repeat split; try lia; try apply upd_to_0; try apply upd_opt_0.
    - intros t [[[[rv ix] ctr] smp] rd'] Ht (Hc & Hrv & Hix & Us & Ur).
      unfold sample_step. rewrite Hrv, Hc, Hix.
      pose proof (Z.mod_pos_bound t h ltac:(lia)) as Bm.
      assert (s * (t mod h) + s <= s * h) as Bs.
      { replace (s * (t mod h) + s) with (s * (t mod h + 1)) by ring. apply Z.mul_le_mono_nonneg_l; lia. }
      assert (0 <= s * (t mod h)) as Bs0 by (apply Z.mul_nonneg_nonneg; lia).
      assert (rd (g_fun g ((c + t / h) mod 2 ^ g_bits g) ky) (s * (t mod h)) = Ok (lane c ky (t / h) (s * (t mod h)))) as ->.
      { apply rd_get, get_lane. lia. }
      cbn [bind]. rewrite Hdraw. cbn [bind].
      destruct (upd_to_step t (draw_at rad c ky) samples smp (dr (lane c ky (t / h) (s * (t mod h)))) Us) as [smp' [Es Us']];
        [lia|reflexivity|]. rewrite Es. cbn [bind].
      assert (exists rd'', (match rd' with
         | None => Ok (None, s * (t mod h) + 1)
         | Some r => y <- rd (g_fun g ((c + t / h) mod 2 ^ g_bits g) ky) (s * (t mod h) + 1) ;;
              r0 <- wr r t (if nonneg y then one else mone) ;; Ok (Some r0, s * (t mod h) + 1 + 1)
         end = Ok (rd'', s * (t mod h + 1))) /\ upd_opt (t + 1) (rad_at rad c ky) rad rd'') as [rd'' [Er Ur']].
      { clear Hh2 Hlen. destruct rad as [r0|], rd' as [r|]; cbn [upd_opt] in Ur; try contradiction; cbn [long_opt] in Hr.
        - change s with 2 in *. assert (2 * h <= g_len g) by (apply (proj2 (per_block_pos (Some r0)))).
          assert (rd (g_fun g ((c + t / h) mod 2 ^ g_bits g) ky) (2 * (t mod h) + 1) = Ok (lane c ky (t / h) (2 * (t mod h) + 1))) as ->.
          { apply rd_get, get_lane. lia. }
          cbn [bind].
          destruct (upd_to_step t (rad_at (Some r0) c ky) r0 r (if nonneg (lane c ky (t / h) (2 * (t mod h) + 1)) then one else mone) Ur)
            as [r' [E1 U1]]; [lia|reflexivity|].
          rewrite E1. cbn [bind]. exists (Some r'). split; [replace (2 * (t mod h) + 1 + 1) with (2 * (t mod h + 1)) by ring; reflexivity|exact U1].
        - change s with 1 in *. exists None. split; [replace (1 * (t mod h) + 1) with (1 * (t mod h + 1)) by ring; reflexivity|exact I]. }
      rewrite Er. cbn [bind]. rewrite Hlen.
      destruct (div_mod_succ t h ltac:(lia)) as [(D1 & D2 & D3)|(D1 & D2 & D3)].
      + replace (s * (t mod h + 1) =? s * h) with true by (rewrite D1; symmetry; apply Z.eqb_refl).
        eexists. split; [reflexivity|]. rewrite D2, D3, incr_small by lia. rewrite Zplus_mod_idemp_l.
        replace (c + t / h + 1) with (c + (t / h + 1)) by ring. repeat split; try assumption; try lia; apply Us'.
      + replace (s * (t mod h + 1) =? s * h) with false by (symmetry; apply Z.eqb_neq; intros HH; apply Z.mul_cancel_l in HH; lia).
        eexists. split; [reflexivity|]. rewrite D2, D3. repeat split; try assumption; apply Us'.
    - destruct x' as [[[[rv ix] ctr] smp] rd']. destruct H as (Hc & Hrv & Hix & Us & Ur).
      rewrite E. cbn [bind]. exists smp, rd'. split; [|split; assumption]. rewrite Hix, Hc.
      rewrite (ceil_div_cases k h) by lia. pose proof (Z.mod_pos_bound k h ltac:(lia)) as Bk.
      destruct (Z.ltb_spec 0 (k mod h)) as [Hp|Hp].
      + replace (0 <? s * (k mod h)) with true by (symmetry; apply Z.ltb_lt, Z.mul_pos_pos; lia).
        rewrite incr_small by lia. rewrite Zplus_mod_idemp_l. do 4 f_equal. lia.
      + replace (k mod h) with 0 by lia. rewrite Z.mul_0_r. reflexivity.
  Qed.
End Iid.
