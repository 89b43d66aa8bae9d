(** The track after moveHelixTo in double precision. *)
From Coq Require Import Reals ZArith Lra Lia Psatz.
From Flocq Require Import Core.
From Verif Require Import Num Vec NumFacts FloatWrap PointFloat SpecRound RoundFacts PointFloatFacts SpecPath SpecHelix HelixFacts
  PathTrig PathFloatFacts MoveFloat SpecMoveFloat MoveFloatFacts.
Open Scope R_scope.

Lemma dzp_ok z0 zv dz r q tnl fid : ordinary z0 -> ordinary zv -> ordinary dz -> ordinary tnl -> Rabs q <= bpow radix2 200 ->
  Rabs (r - q) <= uround * Rabs q + least -> Rabs fid <= 32 / 10 -> exists z,
  dzp_d z0 zv dz r tnl fid = Ok z
  /\ Rabs (z - (z0 - zv + dz - q * tnl * fid)) <= 4 * (uround * (Rabs z0 + Rabs zv + Rabs dz + 4 * Rabs (q * tnl))) + speck.
Proof.
  intros [_ O1] [_ O2] [_ O3] [_ O4] BQ ER BF. assert (U := u_small).
  set (Hz := Rabs z0 + Rabs zv + Rabs dz). set (T := Rabs (q * tnl)). set (l := least * (Rabs tnl + 1)).
  assert (HZ0 : 0 <= Hz) by (unfold Hz; generalize (Rabs_pos z0) (Rabs_pos zv) (Rabs_pos dz); lra).
  assert (T0 : 0 <= T) by apply Rabs_pos.
  assert (LP := least_pos). assert (TP := Rabs_pos tnl).
  assert (l0 : least <= l) by (unfold l; nra).
  assert (lT : least * Rabs tnl <= l) by (unfold l; nra).
  assert (lS : 1000 * l <= speck).
  { unfold l, speck. apply Rle_trans with (bpow radix2 10 * (bpow radix2 (-1074) * bpow radix2 101)).
    - assert (Q : Rabs tnl + 1 <= bpow radix2 101).
      { replace 101%Z with (100 + 1)%Z by reflexivity. rewrite bpow_plus. change (bpow radix2 1) with 2.
        assert (1 <= bpow radix2 100) by (change 1 with (bpow radix2 0); apply bpow_le; lia). lra. }
      change (bpow radix2 10) with 1024. fold least. assert (least * (Rabs tnl + 1) <= least * bpow radix2 101) by (apply Rmult_le_compat_l; lra).
      assert (0 <= least * (Rabs tnl + 1)) by (apply Rmult_le_pos; lra). lra.
    - rewrite <- !bpow_plus. apply bpow_le. lia. }
  assert (BH : Hz <= bpow radix2 102).
  { replace 102%Z with (100 + 2)%Z by reflexivity. rewrite bpow_plus. change (bpow radix2 2) with 4. unfold Hz. generalize (bpow_gt_0 radix2 100). lra. }
  assert (BT : T <= bpow radix2 300).
  { unfold T. rewrite Rabs_mult. replace 300%Z with (200 + 100)%Z by reflexivity. rewrite bpow_plus. apply Rmult_le_compat; auto using Rabs_pos. }
  assert (l1 : l <= / 1000) by (assert (speck <= 1) by (change 1 with (bpow radix2 0); apply bpow_le; lia); lra).
  assert (BIG : forall v, v <= 10 * (Hz + T + 1) -> v <= bpow radix2 1000).
  { intros v V. apply Rle_trans with (bpow radix2 6 * bpow radix2 300); [|rewrite <- bpow_plus; apply bpow_le; lia].
    change (bpow radix2 6) with 64. assert (bpow radix2 102 <= bpow radix2 300) by (apply bpow_le; lia).
    assert (1 <= bpow radix2 300) by (change 1 with (bpow radix2 0); apply bpow_le; lia). lra. }
  destruct (rdk (z0 - zv) Hz) as [A1 A2].
  { unfold Hz. assert (Q := Rabs_triang z0 (- zv)). rewrite Rabs_Ropp in Q. generalize (Rabs_pos dz). unfold Rminus. lra. }
  { apply BIG. lra. }
  set (a1 := rnd (z0 - zv)) in *.
  assert (UH : 0 <= uround * Hz <= / 1000000 * Hz) by (split; [apply Rmult_le_pos; lra|apply Rmult_le_compat_r; lra]).
  assert (UT : 0 <= uround * T <= / 1000000 * T) by (split; [apply Rmult_le_pos; lra|apply Rmult_le_compat_r; lra]).
  assert (Ul : 0 <= uround * l <= / 1000000 * l) by (split; [apply Rmult_le_pos; lra|apply Rmult_le_compat_r; lra]).
  destruct (rdk (a1 + dz) (1001 / 1000 * Hz + l)) as [B1 B2].
  { replace (a1 + dz) with ((a1 - (z0 - zv)) + (z0 + (- zv + dz))) by ring. eapply Rle_trans; [apply Rabs_triang|].
    assert (Q := Rabs_triang z0 (- zv + dz)). assert (Q2 := Rabs_triang (- zv) dz). rewrite Rabs_Ropp in Q2. unfold Hz in *. lra. }
  { apply BIG. lra. }
  set (a2 := rnd (a1 + dz)) in *.
  assert (EA : Rabs (a2 - (z0 - zv + dz)) <= 201 / 100 * (uround * Hz) + 3 * l).
  { replace (a2 - (z0 - zv + dz)) with ((a2 - (a1 + dz)) + (a1 - (z0 - zv))) by ring. eapply Rle_trans; [apply Rabs_triang|].
    lra. }
  assert (ET : Rabs (r * tnl - q * tnl) <= uround * T + l).
  { replace (r * tnl - q * tnl) with ((r - q) * tnl) by ring. rewrite Rabs_mult.
    apply Rle_trans with ((uround * Rabs q + least) * Rabs tnl); [apply Rmult_le_compat_r; auto|]. unfold T. rewrite Rabs_mult. lra. }
  assert (ZT := near_size _ _ _ ET). fold T in ZT.
  destruct (rdk (r * tnl) (1001 / 1000 * T + l)) as [C1 C2]; [lra|apply BIG; lra|].
  set (b1 := rnd (r * tnl)) in *.
  assert (EB : Rabs (b1 - q * tnl) <= 2002 / 1000 * (uround * T) + 3 * l).
  { replace (b1 - q * tnl) with ((b1 - r * tnl) + (r * tnl - q * tnl)) by ring. eapply Rle_trans; [apply Rabs_triang|]. lra. }
  assert (ZB := near_size _ _ _ EB). fold T in ZB.
  assert (EF : Rabs (b1 * fid - q * tnl * fid) <= 641 / 100 * (uround * T) + 10 * l).
  { replace (b1 * fid - q * tnl * fid) with ((b1 - q * tnl) * fid) by ring. rewrite Rabs_mult.
    apply Rle_trans with ((2002 / 1000 * (uround * T) + 3 * l) * (32 / 10)); [apply Rmult_le_compat; auto using Rabs_pos|]. lra. }
  assert (ZF : Rabs (b1 * fid) <= 321 / 100 * T + 10 * l).
  { rewrite Rabs_mult. apply Rle_trans with ((T + (2002 / 1000 * (uround * T) + 3 * l)) * (32 / 10)); [apply Rmult_le_compat; auto using Rabs_pos|]. lra. }
  destruct (rdk (b1 * fid) (321 / 100 * T + 10 * l)) as [D1 D2]; [exact ZF|apply BIG; lra|].
  set (b2 := rnd (b1 * fid)) in *.
  assert (EB2 : Rabs (b2 - q * tnl * fid) <= 963 / 100 * (uround * T) + 12 * l).
  { replace (b2 - q * tnl * fid) with ((b2 - b1 * fid) + (b1 * fid - q * tnl * fid)) by ring. eapply Rle_trans; [apply Rabs_triang|]. lra. }
  destruct (rdk (a2 - b2) (101 / 100 * Hz + 33 / 10 * T + 20 * l)) as [F1 F2].
  { replace (a2 - b2) with ((a2 - (a1 + dz)) + ((a1 + dz) + (- (b2 - b1 * fid) + - (b1 * fid)))) by ring.
    eapply Rle_trans; [apply Rabs_triang|]. assert (Q1 := Rabs_triang (a1 + dz) (- (b2 - b1 * fid) + - (b1 * fid))).
    assert (Q2 := Rabs_triang (- (b2 - b1 * fid)) (- (b1 * fid))). rewrite !Rabs_Ropp in Q2.
    assert (Q3 : Rabs (a1 + dz) <= 1001 / 1000 * Hz + l).
    { replace (a1 + dz) with ((a1 - (z0 - zv)) + (z0 + (- zv + dz))) by ring. eapply Rle_trans; [apply Rabs_triang|].
      assert (V1 := Rabs_triang z0 (- zv + dz)). assert (V2 := Rabs_triang (- zv) dz). rewrite Rabs_Ropp in V2. unfold Hz in *. lra. }
    lra. }
  { apply BIG. lra. }
  exists (rnd (a2 - b2)). split.
  - unfold dzp_d. fold a1. rewrite A1. cbn [bind]. rewrite B1. cbn [bind]. rewrite C1. cbn [bind]. rewrite D1. cbn [bind]. exact F1.
  - replace (rnd (a2 - b2) - (z0 - zv + dz - q * tnl * fid)) with ((rnd (a2 - b2) - (a2 - b2)) + ((a2 - (z0 - zv + dz)) + - (b2 - q * tnl * fid))) by ring.
    eapply Rle_trans; [apply Rabs_triang|]. assert (Q := Rabs_triang (a2 - (z0 - zv + dz)) (- (b2 - q * tnl * fid))). rewrite Rabs_Ropp in Q. lra.
Qed.

Lemma lost_ok phi x s : Rabs (x + cos phi) <= 34 * uround -> Rabs (s - x) <= / 16777216 -> Rabs (s - x) * Rabs x <= 11 * uround ->
  Rabs (s - x) <= 12 * lost phi /\ 0 < lost phi <= / 100000000.
Proof.
  intros HX H1 H2. unfold lost. assert (U := u_small).
  change (bpow radix2 (-26)) with (/ 67108864).
  set (c := Rabs (cos phi)).
  assert (XL : c - 34 * uround <= Rabs x).
  { unfold c. rewrite <- (Rabs_Ropp x). replace (cos phi) with (- x + (x + cos phi)) by ring. assert (Q := Rabs_triang (- x) (x + cos phi)). lra. }
  set (m := Rmax (/ 67108864) c). assert (M1 : / 67108864 <= m) by apply Rmax_l. assert (M2 : c <= m) by apply Rmax_r.
  assert (M3 : m = / 67108864 \/ m = c) by (unfold m, Rmax; destruct Rle_dec; auto).
  assert (I : m * / m = 1) by (apply Rinv_r; apply Rgt_not_eq; lra). assert (I0 : 0 < / m) by (apply Rinv_0_lt_compat; lra).
  assert (E : uround / m * m = uround) by (unfold Rdiv; rewrite Rmult_assoc, (Rmult_comm (/ m)), I; ring).
  set (w := uround / m) in *. assert (W0 : 0 < w) by (unfold w; apply Rmult_lt_0_compat; lra). clearbody w. clear I I0.
  assert (D0 := Rabs_pos (s - x)).
  split; [|split; [exact W0|]].
  - destruct M3 as [M3|M3].
    + rewrite M3 in E. unfold uround in E. lra.
    + assert (XM : 99 / 100 * m <= Rabs x) by (rewrite <- M3 in XL; unfold uround in XL; lra).
      apply Rnot_lt_le. intros X. assert (Q : 12 * w * (99 / 100 * m) <= Rabs (s - x) * Rabs x) by (apply Rmult_le_compat; lra). nra.
  - apply Rnot_lt_le. intros X. assert (Q : w * / 67108864 <= w * m) by (apply Rmult_le_compat_l; lra). unfold uround in E. lra.
Qed.

Section M.
Variables (fuel : nat) (L : libm) (at2 : R -> R -> R) (hp : vec5) (rp new : vec3).
Hypothesis HF : (3 <= fuel)%nat.
Hypothesis HL : good_library L at2.
Hypothesis HO : origin_ok at2.
Hypothesis HM : ordinary_move hp rp new.

Let om := hp OMEGA. Let ph := hp PHI0. Let q := / om. Let u := uround.
Let S := move_extent hp rp new.

Lemma q_facts : om <> 0 /\ Rabs q <= bpow radix2 200 /\ bpow radix2 (-100) <= Rabs q.
Proof.
  assert (N := om_curved _ _ _ HM). fold om in N. split; [exact N|].
  destruct (ot_om0 _ _ (om_track _ _ _ HM)) as [Z|Z]; [contradiction|]. fold om in Z.
  destruct (ot_om _ _ (om_track _ _ _ HM)) as [_ O]. fold om in O. unfold q. rewrite Rabs_inv.
  split.
  - replace (bpow radix2 200) with (/ bpow radix2 (-200)) by (rewrite <- bpow_opp; reflexivity). apply Rinv_le; [apply bpow_gt_0|exact Z].
  - replace (bpow radix2 (-100)) with (/ bpow radix2 100) by (rewrite <- bpow_opp; reflexivity). apply Rinv_le; [apply Rabs_pos_lt; exact N|exact O].
Qed.

Lemma S_facts : Rabs q + Rabs (hp D0) + Rabs (vx rp) + Rabs (vy rp) + Rabs (vx new) + Rabs (vy new) = S
  /\ 1000000 * least <= u * S /\ S <= bpow radix2 300.
Proof.
  split; [reflexivity|]. destruct q_facts as (_ & Q1 & Q2). destruct HM as [HT _ _ _ _ [_ X] [_ Y] _].
  destruct (ot_d0 _ _ HT) as [_ D]. destruct (ot_x _ _ HT) as [_ X0]. destruct (ot_y _ _ HT) as [_ Y0].
  assert (E : S = Rabs q + Rabs (hp D0) + Rabs (vx rp) + Rabs (vy rp) + Rabs (vx new) + Rabs (vy new)) by reflexivity.
  generalize (Rabs_pos (hp D0)) (Rabs_pos (vx rp)) (Rabs_pos (vy rp)) (Rabs_pos (vx new)) (Rabs_pos (vy new)). intros.
  assert (U := u_small). fold u in U. split.
  - destruct least_u as [Lu _]. eapply Rle_trans; [exact Lu|]. apply Rmult_le_compat_l; [lra|].
    assert (bpow radix2 (-300) <= bpow radix2 (-100)) by (apply bpow_le; lia). lra.
  - assert (bpow radix2 100 <= bpow radix2 200) by (apply bpow_le; lia).
    apply Rle_trans with (bpow radix2 3 * bpow radix2 200); [change (bpow radix2 3) with 8; generalize (bpow_gt_0 radix2 200); lra|].
    rewrite <- bpow_plus. apply bpow_le. lia.
Qed.

Lemma move_main : exists hp' fid, moveHelixTo_d fuel L at2 hp rp new = Ok (hp', fid)
  /\ hp' OMEGA = om /\ hp' TANL = hp TANL /\ - PI <= hp' PHI0 <= PI /\ - PI <= fid <= PI
  /\ forall f g, is_helix hp rp f -> is_helix hp' new g -> forall s,
     Rabs (vx (g s) - vx (f (s - fid / om))) <= 600 * (u * S)
     /\ Rabs (vy (g s) - vy (f (s - fid / om))) <= (600 * u + 12 * lost ph) * S
     /\ Rabs (vz (g s) - vz (f (s - fid / om))) <= 4 * (u * move_height hp rp new) + speck.
Proof.
  destruct q_facts as (N & Q1 & Q2). destruct S_facts as (ES & SL & SU). assert (P := S0 S SL). assert (U := u_small). fold u in U.
  destruct dPi_num as (PN & P1 & P2 & P3 & P4). destruct least_u as [_ Lu]. fold u in Lu. assert (HA := gl_accurate _ _ HL).
  assert (US : 0 < u * S) by (apply Rmult_lt_0_compat; lra).
  assert (UL : u * S <= / 1000000 * S) by (apply Rmult_le_compat_r; lra).
  assert (HT := om_track _ _ _ HM).
  generalize (Rabs_pos q) (Rabs_pos (hp D0)) (Rabs_pos (vx rp)) (Rabs_pos (vy rp)) (Rabs_pos (vx new)) (Rabs_pos (vy new)).
  intros A1 A2 A3 A4 A5 A6.
  (* the start azimuth *)
  destruct (fi0_ok fuel ph HF (ot_ph _ _ HT) (ot_turn _ _ HT)) as (fi & k0 & Qfi & Dfi & Rfi & Efi). fold u in Efi.
  destruct (turn_cos _ _ _ _ Efi) as [Ec0 Es0].
  assert (TC : cos (ph - PI / 2) = sin ph) by (rewrite cos_minus, cos_PI2, sin_PI2; ring).
  assert (TS : sin (ph - PI / 2) = - cos ph) by (rewrite sin_minus, cos_PI2, sin_PI2; ring).
  rewrite TC in Ec0. rewrite TS in Es0.
  (* the radius *)
  assert (Er : rd_div 1 om = Ok (rnd q) /\ Rabs (rnd q - q) <= u * Rabs q + least).
  { unfold rd_div. destruct Req_EM_T; [contradiction|]. replace (1 / om) with q by (unfold q; field; auto).
    apply rdk; [lra|]. eapply Rle_trans; [exact Q1|]. apply bpow_le. lia. }
  destruct Er as [Er0 Er]. set (r := rnd q) in *.
  assert (Er1 : Rabs (r - q) <= 1001 / 1000 * (u * S)).
  { assert (u * Rabs q <= u * S) by (apply Rmult_le_compat_l; lra). lra. }
  assert (Zr := near_size _ _ _ Er1).
  destruct (rS S SL SU (r + - hp D0) (1001 / 1000)) as [Erd0 Erd]; [eapply Rle_trans; [apply Rabs_triang|rewrite Rabs_Ropp; lra]|lra|].
  fold u in Erd. set (rdr := rnd (r + - hp D0)) in *.
  assert (Erd1 : Rabs (rdr - (q - hp D0)) <= 201 / 100 * (u * S)).
  { replace (rdr - (q - hp D0)) with ((rdr - (r + - hp D0)) + (r - q)) by ring. eapply Rle_trans; [apply Rabs_triang|]. lra. }
  assert (Be : Rabs (q - hp D0) <= Rabs q + Rabs (hp D0)) by (unfold Rminus; eapply Rle_trans; [apply Rabs_triang|rewrite Rabs_Ropp; lra]).
  (* the centre *)
  destruct (sine_ok L fi HA Dfi Rfi) as (sn & Qsn & Dsn & _ & Es1 & Es2).
  destruct (lost_ok ph (sin fi) sn) as [Lo [Lo0 Lo1]]; auto.
  { replace (sin fi + cos ph) with (sin fi - - cos ph) by ring. exact Es0. }
  assert (Ec : Rabs (m_cos L fi - sin ph) <= 37 * u).
  { assert (W := cos_err L fi fi 0 HA Dfi ltac:(rewrite Rminus_diag_eq, Rabs_R0 by reflexivity; lra)). fold u in W.
    replace (m_cos L fi - sin ph) with ((m_cos L fi - cos fi) + (cos fi - sin ph)) by ring. eapply Rle_trans; [apply Rabs_triang|]. lra. }
  assert (Es : Rabs (sn - - cos ph) <= 12 * lost ph + 34 * u).
  { replace (sn - - cos ph) with ((sn - sin fi) + (sin fi - - cos ph)) by ring. eapply Rle_trans; [apply Rabs_triang|]. lra. }
  destruct (centre_ok S SL SU (vx rp) (q - hp D0) rdr (m_cos L fi) (sin ph) (37 * u)) as (Qa & Qx & Ex); [lra|exact Erd1|exact Ec|apply sin_1|lra|].
  destruct (centre_ok S SL SU (vy rp) (q - hp D0) rdr sn (- cos ph) (12 * lost ph + 34 * u)) as (Qb & Qy & Ey);
    [lra|exact Erd1|exact Es|rewrite Rabs_Ropp; apply cos_1|lra|].
  fold u in Ex, Ey. set (xc := rnd (vx rp + rnd (rdr * m_cos L fi))) in *. set (yc := rnd (vy rp + rnd (rdr * sn))) in *.
  assert (LS : lost ph * S <= / 100000000 * S) by (apply Rmult_le_compat_r; lra).
  assert (BX : Rabs (xc - vx new) <= 101 / 100 * S).
  { replace (xc - vx new) with ((xc - (vx rp + (q - hp D0) * sin ph)) + (vx rp + ((q - hp D0) * sin ph + - vx new))) by ring.
    eapply Rle_trans; [apply Rabs_triang|]. assert (Z1 := Rabs_triang (vx rp) ((q - hp D0) * sin ph + - vx new)).
    assert (Z2 := Rabs_triang ((q - hp D0) * sin ph) (- vx new)). rewrite Rabs_Ropp, Rabs_mult in Z2. assert (Z3 := sin_1 ph).
    assert (Rabs (q - hp D0) * Rabs (sin ph) <= Rabs (q - hp D0) * 1) by (apply Rmult_le_compat_l; [apply Rabs_pos|auto]). lra. }
  assert (BY : Rabs (yc - vy new) <= 101 / 100 * S).
  { replace (yc - vy new) with ((yc - (vy rp + (q - hp D0) * - cos ph)) + (vy rp + ((q - hp D0) * - cos ph + - vy new))) by ring.
    eapply Rle_trans; [apply Rabs_triang|]. assert (Z1 := Rabs_triang (vy rp) ((q - hp D0) * - cos ph + - vy new)).
    assert (Z2 := Rabs_triang ((q - hp D0) * - cos ph) (- vy new)). rewrite Rabs_Ropp, Rabs_mult, Rabs_Ropp in Z2. assert (Z3 := cos_1 ph).
    assert (Rabs (q - hp D0) * Rabs (cos ph) <= Rabs (q - hp D0) * 1) by (apply Rmult_le_compat_l; [apply Rabs_pos|auto]). lra. }
  destruct (rS S SL SU _ _ BX) as [Qwx Ewx]; [lra|]. destruct (rS S SL SU _ _ BY) as [Qwy Ewy]; [lra|]. fold u in Ewx, Ewy.
  set (wx := rnd (xc - vx new)) in *. set (wy := rnd (yc - vy new)) in *.
  assert (Zx := near_size _ _ _ Ewx). assert (Zy := near_size _ _ _ Ewy).
  (* the new azimuth *)
  destruct (fi0p_ok fuel L at2 om xc yc (vx new) (vy new) wx wy HF HL HO N Qwx Qwy) as (fp & Qfp & Dfp & Rfp & Al).
  destruct (fid_ok fuel fp fi HF Dfp Dfi Rfp Rfi) as (fid & k1 & Qfid & Dfid & Rfid & Efid). fold u in Efid.
  destruct (phi_ok fuel fp HF Dfp Rfp) as (pn & k2 & Qpn & Dpn & Rpn & Epn). fold u in Epn.
  destruct (drp_ok S SL SU L fp xc yc (vx new) (vy new) r q wx wy HA Dfp Rfp Al Qwx Qwy) as (drp & Qdrp & Edx & Edy); try (fold u; lra).
  fold u in Edx, Edy.
  destruct (dzp_ok (vz rp) (vz new) (hp Z0) r q (hp TANL) fid) as (dzp & Qdzp & Edz); try apply HM; auto; [apply Rabs_le; lra|]. fold u in Edz.
  exists (mk5 om (hp TANL) pn (- drp) dzp), fid. split.
  { unfold moveHelixTo_d. fold om ph. rewrite Qfi. cbn [bind]. rewrite Er0. cbn [bind]. rewrite Erd0. cbn [bind]. fold rdr. rewrite Qsn. cbn [bind].
    rewrite Qa. cbn [bind]. rewrite Qx. cbn [bind]. rewrite Qb. cbn [bind]. rewrite Qy. cbn [bind]. fold xc yc. rewrite Qfp. cbn [bind].
    rewrite Qfid. cbn [bind]. rewrite Qdrp. cbn [bind]. rewrite Qdzp. cbn [bind]. rewrite Qpn. cbn [bind]. reflexivity. }
  split; [reflexivity|]. split; [reflexivity|]. split; [change (- PI <= pn <= PI); lra|]. split; [lra|].
  intros f g Hf Hg s.
  rewrite (helix_is_hcurve _ _ _ N Hf). rewrite (helix_is_hcurve (mk5 om (hp TANL) pn (- drp) dzp) _ _ N Hg).
  unfold hcurve. cbn [vx vy vz].
  change (mk5 om (hp TANL) pn (- drp) dzp D0) with (- drp). change (mk5 om (hp TANL) pn (- drp) dzp PHI0) with pn.
  change (mk5 om (hp TANL) pn (- drp) dzp OMEGA) with om. change (mk5 om (hp TANL) pn (- drp) dzp Z0) with dzp.
  change (mk5 om (hp TANL) pn (- drp) dzp TANL) with (hp TANL). fold om ph.
  replace (1 / om) with q by (unfold q; field; exact N).
  replace (ph - (s - fid / om) * om) with (ph - s * om + fid) by (field; exact N).
  (* the angle at the end *)


  assert (Ea : exists k, Rabs (pn - s * om - (ph - s * om + fid) - 2 * IZR k * PI) <= 106 * u).
  { exists (k2 + k0 - k1)%Z. rewrite minus_IZR, plus_IZR. apply Rabs_le_inv in Efi. apply Rabs_le_inv in Efid. apply Rabs_le_inv in Epn. apply Rabs_le. lra. }
  destruct Ea as (k & Ea). destruct (turn_cos _ _ _ _ Ea) as [Eca Esa].
  (* the new azimuth and the direction *)
  destruct (turn_cos _ _ _ _ Epn) as [Ecp Esp].
  assert (TC2 : cos (fp + PI / 2) = - sin fp) by (rewrite cos_plus, cos_PI2, sin_PI2; ring).
  assert (TS2 : sin (fp + PI / 2) = cos fp) by (rewrite sin_plus, cos_PI2, sin_PI2; ring).
  rewrite TC2 in Ecp. rewrite TS2 in Esp.
  assert (Bd : Rabs (q + drp) <= 22 / 10 * S).
  { replace (q + drp) with (((q + drp) * cos fp - wx) * cos fp + ((q + drp) * sin fp - wy) * sin fp + (wx * cos fp + wy * sin fp))
      by (transitivity ((q + drp) * (sin fp * sin fp + cos fp * cos fp)); [ring|rewrite sc1; ring]).
    assert (B1 : forall v g B, Rabs g <= 1 -> Rabs v <= B -> Rabs (v * g) <= B).
    { intros v g' B G V. rewrite Rabs_mult. apply Rle_trans with (Rabs v * 1); [apply Rmult_le_compat_l; [apply Rabs_pos|auto]|lra]. }
    eapply Rle_trans; [apply Rabs_triang|].
    assert (W1 := Rabs_triang (((q + drp) * cos fp - wx) * cos fp) (((q + drp) * sin fp - wy) * sin fp)).
    assert (W2 := Rabs_triang (wx * cos fp) (wy * sin fp)).
    assert (W3 := B1 _ _ _ (cos_1 fp) Edx). assert (W4 := B1 _ _ _ (sin_1 fp) Edy).
    assert (W5 := B1 _ _ _ (cos_1 fp) Zx). assert (W6 := B1 _ _ _ (sin_1 fp) Zy). lra. }
  assert (Qs : forall a b, Rabs (a - b) <= 106 * u -> Rabs (q * (a - b)) <= 106 * (u * S)).
  { intros a b AB. rewrite Rabs_mult. apply Rle_trans with (S * (106 * u)); [apply Rmult_le_compat; try apply Rabs_pos; lra|lra]. }
  assert (Ds : forall a b, Rabs (a - b) <= 34 * u -> Rabs ((q + drp) * (a - b)) <= 75 * (u * S)).
  { intros a b AB. rewrite Rabs_mult. apply Rle_trans with (22 / 10 * S * (34 * u)); [apply Rmult_le_compat; try apply Rabs_pos; lra|lra]. }
  split; [|split].
  - assert (V1 := Qs _ _ Esa). assert (V2 := Ds _ _ Esp).
    replace (vx new - - drp * sin pn + q * (sin pn - sin (pn - s * om)) - (vx rp - hp D0 * sin ph + q * (sin ph - sin (ph - s * om + fid)))) with
      ((q + drp) * (sin pn - cos fp) + (((q + drp) * cos fp - wx) + ((wx - (xc - vx new)) + ((xc - (vx rp + (q - hp D0) * sin ph)) + - (q * (sin (pn - s * om) - sin (ph - s * om + fid))))))) by ring.
    eapply Rle_trans; [apply Rabs_triang|].
    match goal with |- _ + Rabs (?a + (?b + (?c + ?d))) <= _ =>
      assert (W1 := Rabs_triang a (b + (c + d))); assert (W2 := Rabs_triang b (c + d)); assert (W3 := Rabs_triang c d) end.
    rewrite Rabs_Ropp in W3. lra.
  - assert (V1 := Qs _ _ Eca). assert (V2 := Ds _ _ Ecp).
    replace (vy new + - drp * cos pn - q * (cos pn - cos (pn - s * om)) - (vy rp + hp D0 * cos ph - q * (cos ph - cos (ph - s * om + fid)))) with
      (- ((q + drp) * (cos pn - - sin fp)) + (((q + drp) * sin fp - wy) + ((wy - (yc - vy new)) + ((yc - (vy rp + (q - hp D0) * - cos ph)) + (q * (cos (pn - s * om) - cos (ph - s * om + fid))))))) by ring.
    eapply Rle_trans; [apply Rabs_triang|]. rewrite Rabs_Ropp.
    match goal with |- _ + Rabs (?a + (?b + (?c + ?d))) <= _ =>
      assert (W1 := Rabs_triang a (b + (c + d))); assert (W2 := Rabs_triang b (c + d)); assert (W3 := Rabs_triang c d) end.
    lra.
  - replace (vz new + dzp + s * hp TANL - (vz rp + hp Z0 + (s - fid / om) * hp TANL)) with (dzp - (vz rp - vz new + hp Z0 - q * hp TANL * fid)) by (unfold q; field; exact N).
    unfold move_height. fold om. replace (hp TANL / om) with (q * hp TANL) by (unfold q; field; exact N). exact Edz.
Qed.
End M.
