(** Rounding of the path length to a point: lemmas. *)
From Coq Require Import Reals ZArith Lra Lia Psatz.
From Flocq Require Import Core.
From Verif Require Import Num Vec FloatWrap FloatWrapFacts PointFloat SpecRound RoundFacts PointFloatFacts
  SpecHelix HelixFacts NumFacts PathFloat SpecPath PathTrig.
Open Scope R_scope.

(** a rounded number that is not small was not small *)
Lemma rnd_ge x k : (-1000 <= k)%Z -> bpow radix2 k <= Rabs x -> bpow radix2 k <= Rabs (rnd x).
Proof.
  intros K H. unfold rnd. apply abs_round_ge_generic; auto with typeclass_instances.
  apply generic_format_bpow. unfold FLT_exp. lia.
Qed.

(** half a turn in numbers *)
Lemma PI_num : 314 / 100 < PI < 315 / 100.
Proof. assert (W := dPi_close). assert (U := u_small). apply Rabs_le_inv in W. unfold dPi in W. lra. Qed.

(** quotient and product with errors: the last two operations *)
Lemma last_steps n d sd : 0 < Rabs d <= PI / 2 -> Rabs (sd - sin d) <= 2 * uround * Rabs (sin d) ->
  bpow radix2 (-520) <= Rabs d ->
  sd <> 0 /\ Rabs (rnd (n * d) / sd - n * sinc d) <= 35 / 10 * uround * Rabs (n * sinc d) + bpow radix2 (-550).
Proof.
  intros D S B. assert (U := u_small). assert (P := PI_num).
  assert (N : d <> 0) by (intros Q; rewrite Q, Rabs_R0 in D; lra).
  assert (HS := sinc_range d ltac:(lra)).
  assert (ES : sinc d = d / sin d) by (unfold sinc; destruct Req_EM_T; [contradiction|reflexivity]).
  assert (NS : sin d <> 0).
  { intros Q. rewrite ES, Q in HS. unfold Rdiv in HS. rewrite Rinv_0 in HS. lra. }
  assert (PS : 0 < Rabs (sin d)) by (apply Rabs_pos_lt; auto).
  assert (LB : 999999 / 1000000 * Rabs (sin d) <= Rabs sd).
  { rewrite Rabs_minus_sym in S. assert (W := near_size _ _ _ S).
    assert (2 * uround * Rabs (sin d) <= 2 * / 10000000 * Rabs (sin d)) by (apply Rmult_le_compat_r; [lra|unfold uround; lra]). lra. }
  assert (NZ : sd <> 0) by (intros Q; rewrite Q, Rabs_R0 in LB; lra).
  split; [exact NZ|].
  assert (PD : 0 < Rabs sd) by (apply Rabs_pos_lt; auto).
  assert (E := rnd_err (n * d)). set (w := rnd (n * d)) in *. clearbody w.
  assert (Q : w / sd - n * sinc d = ((w - n * d) + n * sinc d * (sin d - sd)) / sd).
  { rewrite ES. field. auto. }
  rewrite Q. unfold Rdiv. rewrite Rabs_mult, Rabs_inv.
  apply Rmult_le_reg_r with (Rabs sd); auto. rewrite Rmult_assoc, Rinv_l, Rmult_1_r by lra.
  eapply Rle_trans; [apply Rabs_triang|]. rewrite (Rabs_mult (n * sinc d)), (Rabs_minus_sym (sin d)).
  set (Z := Rabs (n * sinc d)) in *. assert (Z0 : 0 <= Z) by apply Rabs_pos.
  assert (EZ : Rabs (n * d) = Z * Rabs (sin d)).
  { unfold Z. rewrite <- Rabs_mult, ES. f_equal. field. auto. }
  rewrite EZ in E.
  assert (Z * Rabs (sd - sin d) <= Z * (2 * uround * Rabs (sin d))) by (apply Rmult_le_compat_l; auto).
  assert (ZU : 0 <= Z * uround) by (apply Rmult_le_pos; lra).
  assert (35 / 10 * uround * Z * (999999 / 1000000 * Rabs (sin d)) <= 35 / 10 * uround * Z * Rabs sd) by (apply Rmult_le_compat_l; lra).
  assert (0 <= Z * uround * Rabs (sin d)) by (apply Rmult_le_pos; lra).
  assert (SD : bpow radix2 (-522) <= Rabs sd).
  { assert (X : Rabs d = sinc d * Rabs (sin d)).
    { rewrite <- (Rabs_pos_eq (sinc d)) by lra. rewrite <- Rabs_mult. f_equal. rewrite ES. field. auto. }
    assert (bpow radix2 (-520) = 4 * bpow radix2 (-522)).
    { replace (-520)%Z with (-522 + 2)%Z by reflexivity. rewrite bpow_plus. change (bpow radix2 2) with 4. ring. }
    assert (G := bpow_gt_0 radix2 (-522)).
    assert (sinc d * Rabs (sin d) <= 2 * Rabs (sin d)) by (apply Rmult_le_compat_r; lra). lra. }
  assert (LS : least <= bpow radix2 (-550) * Rabs sd).
  { apply Rle_trans with (bpow radix2 (-550) * bpow radix2 (-522)).
    - rewrite <- bpow_plus. unfold least. apply bpow_le. lia.
    - apply Rmult_le_compat_l; [apply bpow_ge_0|auto]. }
  lra.
Qed.

Section P.
Variables (L : libm) (at2 : R -> R -> R) (x y : R) (hp : vec5) (rp : vec3) (f : R -> vec3) (s eps : R).
Hypothesis HL : good_library L at2.
Hypothesis HT : ordinary_track hp rp.
Hypothesis Hx : ordinary x.
Hypothesis Hy : ordinary y.
Hypothesis HK : Rabs (hp OMEGA) * extent x y hp rp <= 1000000000.
Hypothesis HH : is_helix hp rp f.
Hypothesis Hs : Rabs (hp OMEGA * s) <= 1.
Hypothesis HX : Rabs (x - vx (f s)) <= eps.
Hypothesis HY : Rabs (y - vy (f s)) <= eps.
Hypothesis HE : Rabs (hp OMEGA) * eps <= / 1000.

Let om := hp OMEGA. Let ph := hp PHI0. Let d0 := hp D0.
Let u := uround. Let t := bpow radix2 (-660). Let tt := bpow radix2 (-550).
Let M := extent x y hp rp.
Let K := Rabs om * M.
Let sn := m_sin L ph. Let cs := m_cos L ph.
Let x0 := rnd (vx rp - rnd (sn * d0)). Let y0 := rnd (vy rp + rnd (cs * d0)).
Let dx := rnd (x - x0). Let dy := rnd (y - y0).
Let ay := rnd (sn - rnd (om * dx)). Let ax := rnd (cs + rnd (om * dy)).
Let px := vx (f s) - (vx rp - sin ph * d0). Let py := vy (f s) - (vy rp + cos ph * d0).
Let th := ph - om * s.
Let ee := u * (301 / 100 + 715 / 100 * K) + 12 * tt + Rabs om * eps.
Let Ps := px * cos ph + py * sin ph.

(** ** the exact point *)
Lemma exact_turn : om * px = sin ph - sin th /\ om * py = cos th - cos ph.
Proof.
  unfold px, py, th, om, ph, d0. destruct (Req_dec (hp OMEGA) 0) as [Z|N].
  - rewrite (helix_is_hline _ _ _ Z HH). unfold hline. cbn [vx vy]. rewrite Z. replace (hp PHI0 - 0 * s) with (hp PHI0) by ring. split; ring.
  - rewrite (helix_is_hcurve _ _ _ N HH). unfold hcurve. cbn [vx vy]. rewrite (Rmult_comm s). split; field; auto.
Qed.
Lemma exact_len : Ps * sinc (om * s) = s.
Proof.
  unfold Ps, px, py, om, ph, d0. destruct (Req_dec (hp OMEGA) 0) as [Z|N].
  - rewrite (helix_is_hline _ _ _ Z HH). unfold hline. cbn [vx vy]. rewrite Z, Rmult_0_l, sinc_0.
    transitivity (s * (sin (hp PHI0) * sin (hp PHI0) + cos (hp PHI0) * cos (hp PHI0))); [ring|]. rewrite sc1. ring.
  - rewrite (helix_is_hcurve _ _ _ N HH). unfold hcurve. cbn [vx vy].
    assert (E : (vx rp - hp D0 * sin (hp PHI0) + 1 / hp OMEGA * (sin (hp PHI0) - sin (hp PHI0 - s * hp OMEGA)) -
      (vx rp - sin (hp PHI0) * hp D0)) * cos (hp PHI0) +
     (vy rp + hp D0 * cos (hp PHI0) - 1 / hp OMEGA * (cos (hp PHI0) - cos (hp PHI0 - s * hp OMEGA)) -
      (vy rp + cos (hp PHI0) * hp D0)) * sin (hp PHI0) = sin (hp OMEGA * s) / hp OMEGA).
    { replace (sin (hp OMEGA * s)) with (sin (hp PHI0 - (hp PHI0 - s * hp OMEGA))) by (f_equal; ring).
      rewrite (sin_minus (hp PHI0) (hp PHI0 - s * hp OMEGA)). field. auto. }
    rewrite E. unfold sinc. destruct (Req_EM_T (hp OMEGA * s) 0) as [Q|Q].
    + rewrite Q, sin_0. apply Rmult_integral in Q. destruct Q as [Q|Q]; [contradiction|]. rewrite Q. field. auto.
    + assert (sin (hp OMEGA * s) <> 0).
      { assert (P := PI_num). assert (W := sinc_range (hp OMEGA * s) ltac:(lra)). unfold sinc in W. destruct Req_EM_T; [contradiction|].
        intros Z. rewrite Z in W. unfold Rdiv in W. rewrite Rinv_0 in W. lra. }
      field. auto.
Qed.
Lemma len_le : Rabs Ps <= Rabs s.
Proof.
  assert (P := PI_num). assert (W := sinc_range (om * s) ltac:(unfold om; lra)). rewrite <- exact_len, Rabs_mult, (Rabs_pos_eq (sinc _)) by lra.
  assert (Q := Rabs_pos Ps). nra.
Qed.
Lemma len_ge : Rabs s <= 1575 / 1000 * Rabs Ps.
Proof.
  assert (P := PI_num). assert (W := sinc_range (om * s) ltac:(unfold om; lra)). rewrite <- exact_len, Rabs_mult at 1. rewrite (Rabs_pos_eq (sinc _)) by lra.
  assert (Q := Rabs_pos Ps). nra.
Qed.
Lemma om_len : Rabs om * Rabs Ps <= 1.
Proof.
  apply Rle_trans with (Rabs om * Rabs s); [apply Rmult_le_compat_l; [apply Rabs_pos|apply len_le]|].
  rewrite <- Rabs_mult. exact Hs.
Qed.

(** ** sizes *)
Lemma M_parts : 0 <= M /\ Rabs (vx rp) + Rabs d0 + Rabs x <= M /\ Rabs (vy rp) + Rabs d0 + Rabs y <= M.
Proof.
  unfold M, extent, d0. generalize (Rabs_pos x) (Rabs_pos y) (Rabs_pos (vx rp)) (Rabs_pos (vy rp)) (Rabs_pos (hp D0)). intros. lra.
Qed.
Lemma M_size : M <= bpow radix2 103.
Proof.
  replace 103%Z with (100 + 3)%Z by reflexivity. rewrite bpow_plus. change (bpow radix2 3) with 8.
  assert (P := bpow_gt_0 radix2 100). destruct Hx as [_ A]. destruct Hy as [_ B]. destruct (ot_d0 _ _ HT) as [_ C].
  destruct (ot_x _ _ HT) as [_ D]. destruct (ot_y _ _ HT) as [_ E]. unfold M, extent. lra.
Qed.
Lemma eps_pos : 0 <= eps.
Proof. eapply Rle_trans; [apply Rabs_pos|exact HX]. Qed.
Lemma tt_facts : 0 < t /\ t <= tt /\ Rabs om * t <= tt /\ least <= t /\ tt <= u / 1000000 /\ 1000 * (tt * M) <= speck / 1000 /\ 1000 * tt <= speck / 1000.
Proof.
  assert (T0 : 0 < t) by apply bpow_gt_0. destruct (ot_om _ _ HT) as [_ O].
  assert (SP : 1000000 * bpow radix2 (-320) <= speck).
  { unfold speck. replace (-300)%Z with (-320 + 20)%Z by reflexivity. rewrite bpow_plus. change (bpow radix2 20) with 1048576.
    assert (P := bpow_gt_0 radix2 (-320)). lra. }
  split; [exact T0|]. split; [apply bpow_le; lia|]. split.
  { apply Rle_trans with (bpow radix2 100 * t); [apply Rmult_le_compat_r; [lra|exact O]|]. unfold t, tt. rewrite <- bpow_plus. apply bpow_le. lia. }
  split; [apply bpow_le; lia|]. split.
  { unfold tt, u, uround. apply Rle_trans with (bpow radix2 (-80)); [apply bpow_le; lia|].
    change (bpow radix2 (-80)) with (/ 1208925819614629174706176). lra. }
  split.
  - assert (tt * M <= bpow radix2 (-320)).
    { apply Rle_trans with (tt * bpow radix2 103); [apply Rmult_le_compat_l; [apply bpow_ge_0|apply M_size]|].
      unfold tt. rewrite <- bpow_plus. apply bpow_le. lia. }
    lra.
  - assert (tt <= bpow radix2 (-320)) by (apply bpow_le; lia). lra.
Qed.
Lemma K_facts : 0 <= K <= 1000000000.
Proof. split; [|exact HK]. apply Rmult_le_pos; [apply Rabs_pos|apply M_parts]. Qed.
Lemma ee_facts : 0 <= ee <= / 100.
Proof.
  assert (Kf := K_facts). destruct tt_facts as (T1 & T2 & T3 & T4 & T5 & _). assert (E := HE). fold om in E.
  assert (0 <= Rabs om * eps) by (apply Rmult_le_pos; [apply Rabs_pos|apply eps_pos]).
  unfold ee, u, uround in *. lra.
Qed.

(** ** one operation after the other *)
Lemma m100 z : ordinary z -> mag z 200. Proof. intros [_ O]. apply (mag_le z 100); [exact O|lia]. Qed.
Lemma sn_err : Rabs (sn - sin ph) <= 2 * u + least /\ Rabs sn <= 1001 / 1000.
Proof. apply sin_at; [apply HL|apply HT]. Qed.
Lemma cs_err : Rabs (cs - cos ph) <= 2 * u + least /\ Rabs cs <= 1001 / 1000.
Proof. apply cos_at; [apply HL|apply HT]. Qed.

Lemma start_err g' g r : Rabs (g' - g) <= 2 * u + least -> Rabs g' <= 1001 / 1000 -> Rabs g <= 1 -> mag r 200 ->
  rd (g' * d0) = Ok (rnd (g' * d0)) /\ rd (r + rnd (g' * d0)) = Ok (rnd (r + rnd (g' * d0)))
  /\ mag (rnd (r + rnd (g' * d0))) 202 /\ Rabs (rnd (r + rnd (g' * d0)) - (r + g * d0)) <= u * (411 / 100 * Rabs d0 + Rabs r) + 5 * t.
Proof.
  intros E S G Mr. assert (U := u_small). fold u in U. destruct tt_facts as (T1 & _).
  destruct (leg_err g' g d0 E S G (m100 _ (ot_d0 _ _ HT))) as (R1 & M1 & E1).
  destruct (plus_err r r _ _ 0 _ (Rabs r) (Rabs d0) 201 (same_err r) E1 (mag_le _ 200 201 Mr ltac:(lia)) M1 ltac:(lia) (Rle_refl _) (leg_size g d0 G))
    as (R2 & M2 & E2).
  split; [exact R1|]. split; [exact R2|]. split; [exact M2|]. fold u t in E2.
  assert (0 <= u * Rabs d0) by (apply Rmult_le_pos; [lra|apply Rabs_pos]). lra.
Qed.

Lemma x0_err : rd (sn * d0) = Ok (rnd (sn * d0)) /\ rd (vx rp - rnd (sn * d0)) = Ok x0 /\ mag x0 202
  /\ Rabs (x0 - (vx rp - sin ph * d0)) <= u * (411 / 100 * Rabs d0 + Rabs (vx rp)) + 5 * t.
Proof.
  destruct sn_err as [A B]. assert (U := u_small). fold u in U. destruct tt_facts as (T1 & _).
  assert (Mr := m100 _ (ot_x _ _ HT)).
  destruct (leg_err sn (sin ph) d0 A B (sin_1 _) (m100 _ (ot_d0 _ _ HT))) as (R1 & M1 & E1).
  assert (E1' : Rabs (- rnd (sn * d0) - - (sin ph * d0)) <= u * (31 / 10 * Rabs d0) + 3 * t).
  { rewrite <- Rabs_Ropp. fold u t in E1. eapply Rle_trans; [|exact E1]. right. f_equal. ring. }
  destruct (plus_err (vx rp) (vx rp) _ _ 0 _ (Rabs (vx rp)) (Rabs d0) 201 (same_err _) E1' (mag_le _ 200 201 Mr ltac:(lia)) (mag_opp _ _ M1) ltac:(lia) (Rle_refl _))
    as (R2 & M2 & E2).
  { rewrite Rabs_Ropp. apply leg_size, sin_1. }
  split; [exact R1|]. split; [exact R2|]. split; [exact M2|]. fold u t in E2.
  assert (0 <= u * Rabs d0) by (apply Rmult_le_pos; [lra|apply Rabs_pos]).
  unfold x0, Rminus. unfold Rminus in E2. lra.
Qed.
Lemma y0_err : rd (cs * d0) = Ok (rnd (cs * d0)) /\ rd (vy rp + rnd (cs * d0)) = Ok y0 /\ mag y0 202
  /\ Rabs (y0 - (vy rp + cos ph * d0)) <= u * (411 / 100 * Rabs d0 + Rabs (vy rp)) + 5 * t.
Proof. destruct cs_err as [A B]. exact (start_err cs (cos ph) (vy rp) A B (cos_1 _) (m100 _ (ot_y _ _ HT))). Qed.

Lemma leg_gen z z0 Z0 r : ordinary z -> mag z0 202 -> Rabs (z0 - Z0) <= u * (411 / 100 * Rabs d0 + Rabs r) + 5 * t ->
  Rabs Z0 <= Rabs r + Rabs d0 -> Rabs r + Rabs d0 + Rabs z <= M ->
  rd (z - z0) = Ok (rnd (z - z0)) /\ mag (rnd (z - z0)) 203 /\ Rabs (rnd (z - z0) - (z - Z0)) <= u * (513 / 100 * M) + 7 * t
  /\ Rabs (z - Z0) <= M /\ Rabs (rnd (z - z0)) <= 1001 / 1000 * M + 7 * t.
Proof.
  intros Oz M0 E S B. assert (U := u_small). fold u in U. destruct tt_facts as (T1 & _).
  assert (E' : Rabs (- z0 - - Z0) <= u * (411 / 100 * Rabs d0 + Rabs r) + 5 * t).
  { rewrite <- Rabs_Ropp. eapply Rle_trans; [|exact E]. right. f_equal. ring. }
  destruct (plus_err z z _ _ 0 _ (Rabs z) (Rabs r + Rabs d0) 202 (same_err _) E' (mag_le _ 200 202 (m100 _ Oz) ltac:(lia)) (mag_opp _ _ M0) ltac:(lia) (Rle_refl _))
    as (R2 & M2 & E2).
  { rewrite Rabs_Ropp. exact S. }
  generalize (Rabs_pos d0) (Rabs_pos r) (Rabs_pos z). intros P1 P2 P3.
  split; [exact R2|]. split; [exact M2|]. fold u t in E2. change (z + - z0) with (z - z0) in E2. change (z + - Z0) with (z - Z0) in E2.
  assert (U1 : u * (411 / 100 * Rabs d0 + Rabs r) <= u * (411 / 100 * (Rabs r + Rabs d0))) by (apply Rmult_le_compat_l; lra).
  assert (U2 : u * (Rabs r + Rabs d0 + Rabs z) <= u * M) by (apply Rmult_le_compat_l; lra).
  assert (U3 : 0 <= u * Rabs z) by (apply Rmult_le_pos; lra).
  assert (U4 : 0 <= u * Rabs d0) by (apply Rmult_le_pos; lra). assert (U5 : 0 <= u * Rabs r) by (apply Rmult_le_pos; lra).
  assert (EE : Rabs (rnd (z - z0) - (z - Z0)) <= u * (513 / 100 * M) + 7 * t) by lra.
  assert (S2 : Rabs (z - Z0) <= M).
  { unfold Rminus. eapply Rle_trans; [apply Rabs_triang|]. rewrite Rabs_Ropp. lra. }
  split; [exact EE|]. split; [exact S2|].
  assert (W := near_size _ _ _ EE). assert (0 <= M) by apply M_parts.
  assert (u * (513 / 100 * M) <= / 1000 * M) by (unfold u, uround; lra). lra.
Qed.
Lemma dx_err : rd (x - x0) = Ok dx /\ mag dx 203 /\ Rabs (dx - (x - (vx rp - sin ph * d0))) <= u * (513 / 100 * M) + 7 * t
  /\ Rabs (x - (vx rp - sin ph * d0)) <= M /\ Rabs dx <= 1001 / 1000 * M + 7 * t.
Proof.
  destruct x0_err as (_ & _ & A & B). apply leg_gen with (vx rp); auto; [|apply M_parts].
  unfold Rminus. eapply Rle_trans; [apply Rabs_triang|]. rewrite Rabs_Ropp. assert (W := leg_size (sin ph) d0 (sin_1 _)). lra.
Qed.
Lemma dy_err : rd (y - y0) = Ok dy /\ mag dy 203 /\ Rabs (dy - (y - (vy rp + cos ph * d0))) <= u * (513 / 100 * M) + 7 * t
  /\ Rabs (y - (vy rp + cos ph * d0)) <= M /\ Rabs dy <= 1001 / 1000 * M + 7 * t.
Proof.
  destruct y0_err as (_ & _ & A & B). apply leg_gen with (vy rp); auto; [|apply M_parts].
  eapply Rle_trans; [apply Rabs_triang|]. assert (W := leg_size (cos ph) d0 (cos_1 _)). lra.
Qed.

(** the change of direction *)
Lemma om_leg z Z : mag z 203 -> Rabs (z - Z) <= u * (513 / 100 * M) + 7 * t -> Rabs Z <= M ->
  rd (om * z) = Ok (rnd (om * z)) /\ mag (rnd (om * z)) 303 /\ Rabs (rnd (om * z) - om * Z) <= u * (614 / 100 * K) + 9 * tt
  /\ Rabs (om * Z) <= K.
Proof.
  intros Mz E S. assert (U := u_small). fold u in U. destruct tt_facts as (T1 & T2 & T3 & T4 & T5 & _). assert (Kf := K_facts).
  assert (PO := Rabs_pos om).
  assert (M1 : mag (om * z) 303). { change 303%Z with (100 + 203)%Z. apply mag_mul; auto. apply (ot_om _ _ HT). }
  split; [apply (mag_rd _ 303); [lia|auto]|]. split; [apply mag_rnd; [lia|auto]|].
  assert (E1 : Rabs (om * z - om * Z) <= u * (513 / 100 * K) + 7 * tt).
  { rewrite <- Rmult_minus_distr_l, Rabs_mult. eapply Rle_trans; [apply Rmult_le_compat_l; [auto|exact E]|]. unfold K. lra. }
  assert (SK : Rabs (om * Z) <= K) by (rewrite Rabs_mult; apply Rmult_le_compat_l; auto).
  assert (W := rnd_step _ _ _ E1). fold u in W. clearbody K u tt t.
  assert (u * Rabs (om * Z) <= u * K) by (apply Rmult_le_compat_l; lra).
  assert (0 <= u * K) by (apply Rmult_le_pos; lra). split; [lra|exact SK].
Qed.

Lemma ay_err : rd (om * dx) = Ok (rnd (om * dx)) /\ rd (sn - rnd (om * dx)) = Ok ay /\ Rabs (ay - sin th) <= ee.
Proof.
  destruct dx_err as (_ & A & B & C & _). destruct (om_leg dx _ A B C) as (R1 & M1 & E1 & S1). destruct sn_err as [Es Ss].
  assert (U := u_small). fold u in U. destruct tt_facts as (T1 & T2 & T3 & T4 & T5 & _). assert (Kf := K_facts).
  set (X := x - (vx rp - sin ph * d0)) in *.
  assert (E1' : Rabs (- rnd (om * dx) - - (om * X)) <= u * (614 / 100 * K) + 9 * tt).
  { rewrite <- Rabs_Ropp. eapply Rle_trans; [|exact E1]. right. f_equal. ring. }
  destruct (plus_err sn (sin ph) _ _ _ _ 1 K 303 Es E1' (mag_le _ 1 303 (mag_1 _ Ss) ltac:(lia)) (mag_opp _ _ M1) ltac:(lia) (sin_1 _)) as (R2 & M2 & E2).
  { rewrite Rabs_Ropp. exact S1. }
  split; [exact R1|]. split; [exact R2|]. fold u t in E2. change (sn + - rnd (om * dx)) with (sn - rnd (om * dx)) in E2. fold ay in E2.
  destruct exact_turn as [Q _].
  assert (D : Rabs (om * X - om * px) <= Rabs om * eps).
  { rewrite <- Rmult_minus_distr_l, Rabs_mult. apply Rmult_le_compat_l; [apply Rabs_pos|]. unfold X, px.
    eapply Rle_trans; [|exact HX]. right. f_equal. ring. }
  replace (ay - sin th) with ((ay - (sin ph + - (om * X))) + - (om * X - om * px)) by (rewrite Q; ring).
  eapply Rle_trans; [apply Rabs_triang|]. rewrite Rabs_Ropp. assert (0 <= u * K) by (apply Rmult_le_pos; lra). unfold ee. lra.
Qed.
Lemma ax_err : rd (om * dy) = Ok (rnd (om * dy)) /\ rd (cs + rnd (om * dy)) = Ok ax /\ Rabs (ax - cos th) <= ee.
Proof.
  destruct dy_err as (_ & A & B & C & _). destruct (om_leg dy _ A B C) as (R1 & M1 & E1 & S1). destruct cs_err as [Es Ss].
  assert (U := u_small). fold u in U. destruct tt_facts as (T1 & T2 & T3 & T4 & T5 & _). assert (Kf := K_facts).
  set (X := y - (vy rp + cos ph * d0)) in *.
  destruct (plus_err cs (cos ph) _ _ _ _ 1 K 303 Es E1 (mag_le _ 1 303 (mag_1 _ Ss) ltac:(lia)) M1 ltac:(lia) (cos_1 _) S1) as (R2 & M2 & E2).
  split; [exact R1|]. split; [exact R2|]. fold u t in E2. fold ax in E2.
  destruct exact_turn as [_ Q].
  assert (D : Rabs (om * X - om * py) <= Rabs om * eps).
  { rewrite <- Rmult_minus_distr_l, Rabs_mult. apply Rmult_le_compat_l; [apply Rabs_pos|]. unfold X, py.
    eapply Rle_trans; [|exact HY]. right. f_equal. ring. }
  replace (ax - cos th) with ((ax - (cos ph + (om * X))) + (om * X - om * py)) by (rewrite Q; ring).
  eapply Rle_trans; [apply Rabs_triang|]. assert (0 <= u * K) by (apply Rmult_le_pos; lra). unfold ee. lra.
Qed.
Lemma not_origin : ax <> 0 \/ ay <> 0.
Proof.
  destruct ay_err as (_ & _ & A). destruct ax_err as (_ & _ & B). assert (E := ee_facts). destruct (Req_dec ax 0) as [Z|N]; [right|left; auto].
  intros Z'. rewrite Z in B. rewrite Z' in A. unfold Rminus in A, B. rewrite Rplus_0_l, Rabs_Ropp in A, B.
  apply Rabs_le_inv in A. apply Rabs_le_inv in B. assert (S := sc1 th). nra.
Qed.

(** ** the angle turned *)
Let phi := at2 ay ax.
Let eta := 211 / 100 * ee + 20 * u.

Lemma phi_err : is_double phi /\ Rabs phi <= PI + 7 * u /\ exists k : Z, Rabs (phi - ph - (- (om * s) + 2 * IZR k * PI)) <= 21 / 10 * ee + 64 / 10 * u.
Proof.
  destruct ay_err as (_ & _ & A). destruct ax_err as (_ & _ & B). assert (E := ee_facts). assert (P := PI_num).
  destruct tt_facts as (T1 & T2 & T3 & T4 & T5 & _). assert (U := u_small). fold u in U.
  destruct (gl_atan2 _ _ HL ay ax (rnd_double _) (rnd_double _) not_origin) as (D & a & Ha & Ea).
  destruct (angle_err th ay ax a ee A B ltac:(lra) Ha) as [k Hk]. fold phi in D, Ea. split; [exact D|].
  assert (Sa : Rabs a <= PI) by (apply Rabs_le; exact (proj1 Ha)).
  assert (Ea' : Rabs (phi - a) <= 64 / 10 * u).
  { assert (2 * uround * Rabs a <= 2 * u * (315 / 100)) by (apply Rmult_le_compat_l; [unfold uround; lra|lra]). clearbody t tt u. lra. }
  split; [assert (W := near_size _ _ _ Ea'); lra|].
  exists k. replace (phi - ph - (- (om * s) + 2 * IZR k * PI)) with ((a - th - 2 * IZR k * PI) + (phi - a)) by (unfold th; ring).
  eapply Rle_trans; [apply Rabs_triang|]. lra.
Qed.

Lemma rough_eta : 0 <= eta <= / 40.
Proof. assert (E := ee_facts). assert (U := u_small). fold u in U. unfold eta. lra. Qed.

Lemma sn_ph0 : ph = 0 -> sn = 0.
Proof.
  intros Z. assert (W := gl_sin _ _ HL 0 (generic_format_0 _ _)). unfold sn. rewrite Z. rewrite sin_0, Rabs_R0, Rmult_0_r, Rminus_0_r in W.
  specialize (W ltac:(lra)). assert (Q := Rabs_pos (m_sin L 0)). destruct (Req_dec (m_sin L 0) 0) as [|N]; auto.
  assert (0 < Rabs (m_sin L 0)) by (apply Rabs_pos_lt; auto). lra.
Qed.

Lemma phi_small : ph = 0 -> phi <> 0 -> bpow radix2 (-520) <= Rabs phi \/ Rabs dx <= bpow radix2 (-310).
Proof.
  intros Z N. destruct (Rle_dec (Rabs dx) (bpow radix2 (-310))) as [Sm|Bg]; [right; auto|left].
  destruct ay_err as (_ & _ & A). destruct ax_err as (_ & _ & B). assert (E := ee_facts).
  assert (Esn := sn_ph0 Z).
  destruct (ot_om0 _ _ HT) as [O|O]; fold om in O.
  { exfalso. apply N. assert (Ay : ay = 0).
    { unfold ay. rewrite Esn, O, Rmult_0_l, rnd_0, Rminus_0_r, rnd_0. reflexivity. }
    unfold phi. rewrite Ay. apply (gl_zero _ _ HL); [apply rnd_double|].
    unfold th in B. rewrite Z, O, Rmult_0_l, Rminus_0_r, cos_0 in B. apply Rabs_le_inv in B. lra. }
  assert (A1 : bpow radix2 (-510) <= Rabs (rnd (om * dx))).
  { apply rnd_ge; [lia|]. rewrite Rabs_mult. change (-510)%Z with (-200 + -310)%Z. rewrite bpow_plus.
    apply Rmult_le_compat; try apply bpow_ge_0; auto. lra. }
  assert (A2 : bpow radix2 (-510) <= Rabs ay).
  { unfold ay. rewrite Esn. apply rnd_ge; [lia|]. unfold Rminus. rewrite Rplus_0_l, Rabs_Ropp. exact A1. }
  destruct (gl_atan2 _ _ HL ay ax (rnd_double _) (rnd_double _) not_origin) as (D & a & (_ & Ec & Es) & Ea). fold phi in D, Ea.
  assert (Sy := near_size _ _ _ A). assert (Sx := near_size _ _ _ B). assert (S1 := sin_1 th). assert (C1 := cos_1 th).
  assert (Rho : 0 <= sqrt (ax * ax + ay * ay) <= 2).
  { split; [apply sqrt_pos|]. rewrite <- (sqrt_square 2) by lra. apply sqrt_le_1_alt.
    assert (Rabs ax * Rabs ax = ax * ax) by (rewrite <- Rabs_mult; apply Rabs_pos_eq; apply Rle_0_sqr).
    assert (Rabs ay * Rabs ay = ay * ay) by (rewrite <- Rabs_mult; apply Rabs_pos_eq; apply Rle_0_sqr).
    assert (Px := Rabs_pos ax). assert (Py := Rabs_pos ay). nra. }
  assert (SL := sin_le a).
  assert (A3 : Rabs ay <= 2 * Rabs a).
  { rewrite <- Es, Rabs_mult, (Rabs_pos_eq (sqrt _)) by lra. assert (Pa := Rabs_pos (sin a)). nra. }
  assert (B1 : bpow radix2 (-510) = 1024 * bpow radix2 (-520)).
  { change (-510)%Z with (-520 + 10)%Z. rewrite bpow_plus. change (bpow radix2 10) with 1024. ring. }
  assert (B2 : least <= bpow radix2 (-520)) by (apply bpow_le; lia).
  rewrite Rabs_minus_sym in Ea. assert (W := near_size _ _ _ Ea).
  assert (Pa := Rabs_pos a). assert (2 * uround * Rabs a <= / 2 * Rabs a) by (apply Rmult_le_compat_r; [auto|unfold uround; lra]). lra.
Qed.

Lemma turn_err : exists dphi, turning_d phi ph = Ok dphi /\ is_double dphi /\ Rabs (dphi + om * s) <= eta
  /\ (om = 0 -> Rabs ph <= 3 -> dphi = rnd (phi - ph))
  /\ (dphi = 0 \/ bpow radix2 (-520) <= Rabs dphi \/ (ph = 0 /\ Rabs dx <= bpow radix2 (-310))).
Proof.
  destruct phi_err as (D & S & k & E). assert (Ef := ee_facts). assert (P := PI_num). assert (U := u_small). fold u in U.
  assert (Hsm := Hs). fold om in Hsm. assert (Re := rough_eta). assert (PC := dPi_close). fold u in PC.
  assert (Tu := ot_turn _ _ HT). fold ph in Tu. destruct tt_facts as (T1 & T2 & T3 & T4 & T5 & _).
  assert (SD : Rabs (phi - ph) <= 3 * PI + 7 * u).
  { unfold Rminus. eapply Rle_trans; [apply Rabs_triang|]. rewrite Rabs_Ropp. lra. }
  assert (KB : (-1 <= k <= 1)%Z).
  { assert (W : Rabs (2 * IZR k * PI) <= 3 * PI + 11 / 10).
    { replace (2 * IZR k * PI) with ((phi - ph) - ((phi - ph - (- (om * s) + 2 * IZR k * PI)) + - (om * s))) by ring.
      unfold Rminus at 1. eapply Rle_trans; [apply Rabs_triang|]. rewrite Rabs_Ropp.
      assert (Rabs (phi - ph - (- (om * s) + 2 * IZR k * PI) + - (om * s)) <= 21 / 10 * ee + 64 / 10 * u + 1).
      { eapply Rle_trans; [apply Rabs_triang|]. rewrite Rabs_Ropp. lra. }
      clearbody u ee. lra. }
    apply Rabs_le_inv in W.
    assert (-2 < IZR k < 2) by (split; nra). split; apply le_IZR; [assert (IZR (-2) < IZR k) by lra|assert (IZR k < IZR 2) by lra];
    match goal with H : IZR _ < IZR _ |- _ => apply lt_IZR in H end; apply IZR_le; lia. }
  assert (RS : Rabs (rnd (phi - ph) - (- (om * s) + 2 * IZR k * PI)) <= 2103 / 1000 * ee + 139 / 10 * u).
  { assert (W := rnd_step _ _ _ E). fold u in W.
    assert (T : Rabs (- (om * s) + 2 * IZR k * PI) <= 73 / 10).
    { eapply Rle_trans; [apply Rabs_triang|]. rewrite Rabs_Ropp, !Rabs_mult, (Rabs_pos_eq 2), (Rabs_pos_eq PI) by lra.
      assert (Rabs (IZR k) <= 1) by (assert (-1 <= IZR k) by (apply IZR_le; lia); assert (IZR k <= 1) by (apply IZR_le; lia); apply Rabs_le; lra). rewrite <- Rabs_mult. nra. }
    assert (u * Rabs (- (om * s) + 2 * IZR k * PI) <= u * (73 / 10)) by (apply Rmult_le_compat_l; lra).
    clearbody u ee tt t. lra. }
  apply Rabs_le_inv in PC. apply Rabs_le_inv in Hsm.
  assert (RDok : rd (phi - ph) = Ok (rnd (phi - ph))).
  { apply rd_ok. apply Rle_trans with (bpow radix2 10); [change (bpow radix2 10) with 1024; lra|apply bpow_le; lia]. }
  unfold turning_d. rewrite RDok. cbn [bind]. clear RDok.
  assert (B5 : bpow radix2 (-520) <= 1) by (apply (bpow_le radix2 (-520) 0); lia).
  assert (Wrap : forall sg : R, sg = 1 \/ sg = -1 -> Rabs (rnd (phi - ph) - (- (om * s) + sg * (2 * PI))) <= 2103 / 1000 * ee + 139 / 10 * u ->
    rd (rnd (phi - ph) - sg * dTwoPi) = Ok (rnd (rnd (phi - ph) - sg * dTwoPi))
    /\ Rabs (rnd (rnd (phi - ph) - sg * dTwoPi) + om * s) <= eta
    /\ (rnd (rnd (phi - ph) - sg * dTwoPi) = 0 \/ bpow radix2 (-520) <= Rabs (rnd (rnd (phi - ph) - sg * dTwoPi)))).
  { intros sg SG W0. rewrite dTwoPi_eq.
    assert (W1 : Rabs (rnd (phi - ph) - sg * (2 * dPi) - - (om * s)) <= 2103 / 1000 * ee + 179 / 10 * u).
    { replace (rnd (phi - ph) - sg * (2 * dPi) - - (om * s)) with ((rnd (phi - ph) - (- (om * s) + sg * (2 * PI))) + sg * (2 * (PI - dPi))) by ring.
      eapply Rle_trans; [apply Rabs_triang|]. assert (Rabs (sg * (2 * (PI - dPi))) <= 4 * u).
      { destruct SG as [-> | ->]; apply Rabs_le; lra. }
      lra. }
    assert (W2 := rnd_step _ _ _ W1). fold u in W2. unfold Rminus in W2 at 1. rewrite Ropp_involutive, Rabs_Ropp in W2.
    assert (u * Rabs (om * s) <= u * 1) by (apply Rmult_le_compat_l; [lra|exact Hs]).
    split; [|split].
    - apply rd_ok. apply Rle_trans with (bpow radix2 10); [|apply bpow_le; lia]. change (bpow radix2 10) with 1024.
      assert (Q := near_size _ _ _ W1). rewrite Rabs_Ropp in Q. unfold om in Q. lra.
    - unfold eta. clearbody u ee tt t. lra.
    - destruct (Req_dec (rnd (phi - ph)) (sg * dTwoPi)) as [Q|Q].
      + left. rewrite dTwoPi_eq in Q. rewrite Q, Rminus_diag_eq, rnd_0 by reflexivity. reflexivity.
      + right. apply rnd_ge; [lia|].
        assert (DD : is_double (sg * dTwoPi)).
        { destruct SG as [-> | ->]; [rewrite Rmult_1_l; apply rnd_double|]. replace (-1 * dTwoPi) with (- dTwoPi) by ring. apply opp_double, rnd_double. }
        assert (G := gap (sg * dTwoPi) (rnd (phi - ph)) DD (rnd_double _) (fun e => Q (eq_sym e))).
        rewrite dTwoPi_eq in G. eapply Rle_trans; [|exact G].
        assert (1 <= Rabs (sg * (2 * dPi))).
        { rewrite Rabs_mult, (Rabs_pos_eq (2 * dPi)) by lra. destruct SG as [-> | ->]; [rewrite Rabs_pos_eq by lra|rewrite Rabs_left by lra]; lra. }
        apply Rle_trans with (bpow radix2 (-54) * 1); [rewrite Rmult_1_r; apply bpow_le; lia|apply Rmult_le_compat_l; [apply bpow_ge_0|auto]]. }
  assert (RSi := RS). apply Rabs_le_inv in RSi.
  assert (KC : k = (-1)%Z \/ k = 0%Z \/ k = 1%Z) by lia.
  destruct (Rlt_dec (rnd (phi - ph)) (- dPi)) as [Lo|NLo].
  - assert (k = (-1)%Z).
    { destruct KC as [Q|[Q|Q]]; auto; exfalso; rewrite Q in RSi; clearbody u ee; lra. }
    subst k. destruct (Wrap (-1)) as (W1 & W2 & W3); [auto|eapply Rle_trans; [|exact RS]; right; f_equal; ring|].
    replace (rnd (phi - ph) - -1 * dTwoPi) with (rnd (phi - ph) + dTwoPi) in * by ring.
    eexists. split; [exact W1|]. split; [apply rnd_double|]. split; [exact W2|]. split.
    { intros O P3. exfalso. apply Rabs_le_inv in P3. apply Rabs_le_inv in S. rewrite O, Rmult_0_l in E. apply Rabs_le_inv in E. clearbody u ee. lra. }
    destruct W3 as [W3|W3]; auto.
  - destruct (Rlt_dec dPi (rnd (phi - ph))) as [Hi|NHi].
    + assert (k = 1%Z).
      { destruct KC as [Q|[Q|Q]]; auto; exfalso; rewrite Q in RSi; clearbody u ee; lra. }
      subst k. destruct (Wrap 1) as (W1 & W2 & W3); [auto|eapply Rle_trans; [|exact RS]; right; f_equal; ring|].
      rewrite Rmult_1_l in W1, W2, W3.
      eexists. split; [exact W1|]. split; [apply rnd_double|]. split; [exact W2|]. split.
      { intros O P3. exfalso. apply Rabs_le_inv in P3. apply Rabs_le_inv in S. rewrite O, Rmult_0_l in E. apply Rabs_le_inv in E. clearbody u ee. lra. }
      destruct W3 as [W3|W3]; auto.
    + assert (k = 0%Z).
      { destruct KC as [Q|[Q|Q]]; auto; exfalso; rewrite Q in RSi; clearbody u ee; lra. }
      subst k. exists (rnd (phi - ph)). split; [reflexivity|]. split; [apply rnd_double|]. split.
      { unfold eta. replace (rnd (phi - ph) + om * s) with (rnd (phi - ph) - (- (om * s) + 2 * 0 * PI)) by ring. clearbody u ee. lra. }
      split; [reflexivity|].
      destruct (Req_dec phi ph) as [Q|Q].
      { left. rewrite Q, Rminus_diag_eq, rnd_0 by reflexivity. reflexivity. }
      right. destruct (ot_ph0 _ _ HT) as [Z|Z]; fold ph in Z.
      * rewrite Z, Rminus_0_r, (rnd_id phi D). rewrite Z in Q. destruct (phi_small Z Q) as [B|B]; auto.
      * left. apply rnd_ge; [lia|]. eapply Rle_trans; [|apply (gap ph phi (ot_ph _ _ HT) D (fun e => Q (eq_sym e)))].
        apply Rle_trans with (bpow radix2 (-54) * bpow radix2 (-300)); [rewrite <- bpow_plus; apply bpow_le; lia|].
        apply Rmult_le_compat_l; [apply bpow_ge_0|exact Z].
Qed.

(** ** the projection on the first direction *)
Let p := rnd (dx * cs). Let q := rnd (dy * sn). Let n := rnd (p + q).

Lemma proj_leg g' g z Z pz : Rabs (g' - g) <= 2 * u + least -> Rabs g' <= 1001 / 1000 -> Rabs g <= 1 ->
  mag z 203 -> Rabs z <= 1001 / 1000 * M + 7 * t -> Rabs (z - Z) <= u * (513 / 100 * M) + 7 * t -> Rabs (Z - pz) <= eps -> Rabs Z <= M ->
  rd (z * g') = Ok (rnd (z * g')) /\ mag (rnd (z * g')) 204
  /\ Rabs (rnd (z * g') - pz * g) <= u * (83 / 10 * M) + 12 * tt + eps /\ Rabs (pz * g) <= M + eps.
Proof.
  intros E S G Mz Sz Ez Ep SZ. assert (U := u_small). fold u in U. destruct tt_facts as (T1 & T2 & T3 & T4 & T5 & _). assert (M0 := proj1 M_parts).
  assert (M1 : mag (z * g') 204). { change 204%Z with (203 + 1)%Z. apply mag_mul; auto. apply mag_1; auto. }
  split; [apply (mag_rd _ 204); [lia|auto]|]. split; [apply mag_rnd; [lia|auto]|].
  assert (Pz := Rabs_pos z).
  assert (A : Rabs (z * g' - z * g) <= Rabs z * (2 * u + least)).
  { rewrite <- Rmult_minus_distr_l, Rabs_mult. apply Rmult_le_compat_l; auto. }
  assert (B := rnd_step _ _ _ A). fold u in B.
  assert (LZ : Rabs z * least <= t).
  { unfold mag in Mz. apply Rle_trans with (bpow radix2 203 * least); [apply Rmult_le_compat_r; [left; apply least_pos|auto]|].
    unfold least, t. rewrite <- bpow_plus. apply bpow_le. lia. }
  assert (C : Rabs (z * g) <= Rabs z).
  { rewrite Rmult_comm. apply leg_size. auto. }
  assert (UZ : u * Rabs z <= u * (1001 / 1000 * M) + 7 * (t * u)) by (assert (u * Rabs z <= u * (1001 / 1000 * M + 7 * t)) by (apply Rmult_le_compat_l; lra); lra).
  assert (UC : u * Rabs (z * g) <= u * Rabs z) by (apply Rmult_le_compat_l; lra).
  assert (TU : t * u <= / 1000000 * t) by (rewrite Rmult_comm; apply Rmult_le_compat_r; lra).
  assert (UM : 0 <= u * M) by (apply Rmult_le_pos; lra).
  assert (D1 : Rabs (z - pz) <= u * (513 / 100 * M) + 7 * t + eps).
  { replace (z - pz) with ((z - Z) + (Z - pz)) by ring. eapply Rle_trans; [apply Rabs_triang|]. lra. }
  assert (D2 : Rabs (z * g - pz * g) <= u * (513 / 100 * M) + 7 * t + eps).
  { rewrite <- Rmult_minus_distr_r, Rmult_comm. eapply Rle_trans; [apply leg_size; auto|exact D1]. }
  split.
  - replace (rnd (z * g') - pz * g) with ((rnd (z * g') - z * g) + (z * g - pz * g)) by ring. eapply Rle_trans; [apply Rabs_triang|].
    clearbody u t tt M. lra.
  - rewrite Rmult_comm. eapply Rle_trans; [apply leg_size; auto|]. rewrite Rabs_minus_sym in Ep. assert (W := near_size _ _ _ Ep). lra.
Qed.

Lemma n_err : rd (dx * cs) = Ok p /\ rd (dy * sn) = Ok q /\ rd (p + q) = Ok n /\ mag n 205
  /\ Rabs (n - Ps) <= u * (187 / 10 * M) + 26 * tt + 2003 / 1000 * eps /\ Rabs Ps <= 2 * (M + eps).
Proof.
  assert (U := u_small). fold u in U. destruct tt_facts as (T1 & T2 & T3 & T4 & T5 & _). assert (M0 := proj1 M_parts). assert (E0 := eps_pos).
  destruct dx_err as (_ & A1 & A2 & A3 & A4). destruct dy_err as (_ & B1 & B2 & B3 & B4). destruct sn_err as [S1 S2]. destruct cs_err as [C1 C2].
  destruct (proj_leg cs (cos ph) dx _ px C1 C2 (cos_1 _) A1 A4 A2) as (P1 & P2 & P3 & P4); auto.
  { unfold px. eapply Rle_trans; [|exact HX]. right. f_equal. ring. }
  destruct (proj_leg sn (sin ph) dy _ py S1 S2 (sin_1 _) B1 B4 B2) as (Q1 & Q2 & Q3 & Q4); auto.
  { unfold py. eapply Rle_trans; [|exact HY]. right. f_equal. ring. }
  destruct (plus_err _ _ _ _ _ _ _ _ 204 P3 Q3 P2 Q2 ltac:(lia) P4 Q4) as (N1 & N2 & N3).
  split; [exact P1|]. split; [exact Q1|]. split; [exact N1|]. split; [exact N2|]. fold p q n u t in N3. fold Ps in N3.
  assert (UM : 0 <= u * M) by (apply Rmult_le_pos; lra).
  assert (u * eps <= / 1000000 * eps) by (apply Rmult_le_compat_r; lra).
  split; [clearbody u t tt M; lra|]. unfold Ps. eapply Rle_trans; [apply Rabs_triang|]. lra.
Qed.

Lemma eta_len : Rabs Ps * eta <= u * (151 / 10 * M) + u * (264 / 10 * Rabs s) + 212 / 100 * eps + speck / 1000.
Proof.
  assert (U := u_small). fold u in U. destruct tt_facts as (T1 & T2 & T3 & T4 & T5 & T6 & T7). assert (M0 := proj1 M_parts). assert (E0 := eps_pos).
  destruct n_err as (_ & _ & _ & _ & _ & S2). assert (L1 := len_le). assert (OL := om_len). assert (PP := Rabs_pos Ps). assert (PO := Rabs_pos om).
  assert (X1 : Rabs Ps * K <= M). { unfold K. assert (Rabs om * Rabs Ps * M <= 1 * M) by (apply Rmult_le_compat_r; auto). lra. }
  assert (X2 : Rabs Ps * (Rabs om * eps) <= eps). { assert (Rabs om * Rabs Ps * eps <= 1 * eps) by (apply Rmult_le_compat_r; auto). lra. }
  assert (X3 : u * Rabs Ps <= u * Rabs s) by (apply Rmult_le_compat_l; lra).
  assert (X4 : u * (Rabs Ps * K) <= u * M) by (apply Rmult_le_compat_l; lra).
  assert (X5 : tt * Rabs Ps <= tt * (2 * (M + eps))) by (apply Rmult_le_compat_l; lra).
  assert (X6 : tt * eps <= / 1000000 * eps) by (apply Rmult_le_compat_r; lra).
  unfold eta, ee. 
  assert (X7 : 0 <= u * M) by (apply Rmult_le_pos; lra). assert (X8 : 0 <= u * Rabs Ps) by (apply Rmult_le_pos; lra).
  clearbody K tt u t M Ps. 
  replace (Rabs Ps * (211 / 100 * (u * (301 / 100 + 715 / 100 * K) + 12 * tt + Rabs om * eps) + 20 * u))
    with (63511 / 10000 * (u * Rabs Ps) + 150865 / 10000 * (u * (Rabs Ps * K)) + 2532 / 100 * (tt * Rabs Ps) + 211 / 100 * (Rabs Ps * (Rabs om * eps)) + 20 * (u * Rabs Ps)) by field.
  lra.
Qed.

Lemma path_main : exists dphi, turning_d phi ph = Ok dphi /\ Rabs (dphi + om * s) <= eta
  /\ (om = 0 -> Rabs ph <= 3 -> dphi = rnd (phi - ph))
  /\ (dphi = 0 -> calculateSfromXY_d L at2 x y hp rp = Ok 0)
  /\ (dphi <> 0 -> exists r, calculateSfromXY_d L at2 x y hp rp = Ok r /\ Rabs (r - s) <= 6 * eps + uround * (50 * (M + Rabs s)) + speck).
Proof.
  destruct turn_err as (dphi & R1 & D & E & O & Sm). exists dphi. split; [exact R1|]. split; [exact E|]. split; [exact O|].
  destruct x0_err as (X1 & X2 & _). destruct y0_err as (Y1 & Y2 & _). destruct dx_err as (X3 & _). destruct dy_err as (Y3 & _).
  destruct ay_err as (X4 & X5 & _). destruct ax_err as (Y4 & Y5 & _). destruct n_err as (N1 & N2 & N3 & N4 & N5 & N6).
  assert (Body : calculateSfromXY_d L at2 x y hp rp = if Req_EM_T dphi 0 then Ok 0 else w <- rd (n * dphi) ;; rd_div w (m_sin L dphi)).
  { unfold calculateSfromXY_d. fold om ph d0 sn cs. rewrite X1. cbn [bind]. rewrite X2. cbn [bind]. rewrite Y1. cbn [bind]. rewrite Y2. cbn [bind].
    rewrite X3. cbn [bind]. rewrite Y3. cbn [bind]. rewrite X4. cbn [bind]. rewrite X5. cbn [bind]. rewrite Y4. cbn [bind]. rewrite Y5. cbn [bind].
    fold phi. rewrite R1. cbn [bind]. destruct Req_EM_T; [reflexivity|]. rewrite N1. cbn [bind]. rewrite N2. cbn [bind]. rewrite N3. reflexivity. }
  rewrite Body. split; [intros Z; destruct Req_EM_T; [reflexivity|contradiction]|]. intros NZ. destruct Req_EM_T; [contradiction|].
  assert (U := u_small). fold u in U. assert (Re := rough_eta). assert (P := PI_num). assert (E0 := eps_pos). assert (M0 := proj1 M_parts).
  destruct tt_facts as (T1 & T2 & T3 & T4 & T5 & T6 & T7).
  assert (SD : Rabs dphi <= 11 / 10).
  { replace dphi with ((dphi + om * s) + - (om * s)) by ring. eapply Rle_trans; [apply Rabs_triang|]. rewrite Rabs_Ropp. unfold om in *. lra. }
  assert (ND : 0 < Rabs dphi) by (apply Rabs_pos_lt; auto).
  assert (Sd := gl_sin _ _ HL dphi D ltac:(lra)).
  assert (SC := sinc_range dphi ltac:(lra)).
  assert (SE : sin dphi <> 0 /\ Rabs dphi = sinc dphi * Rabs (sin dphi)).
  { assert (ES : sinc dphi = dphi / sin dphi) by (unfold sinc; destruct Req_EM_T; [contradiction|reflexivity]).
    assert (NS : sin dphi <> 0). { intros Q. rewrite ES, Q in SC. unfold Rdiv in SC. rewrite Rinv_0 in SC. lra. }
    split; auto. rewrite <- (Rabs_pos_eq (sinc dphi)) by lra. rewrite <- Rabs_mult. f_equal. rewrite ES. field. auto. }
  destruct SE as [NS SE]. assert (PS : 0 < Rabs (sin dphi)) by (apply Rabs_pos_lt; auto).
  assert (LB : 99 / 100 * Rabs (sin dphi) <= Rabs (m_sin L dphi)).
  { rewrite Rabs_minus_sym in Sd. assert (W := near_size _ _ _ Sd).
    assert (2 * uround * Rabs (sin dphi) <= / 100 * Rabs (sin dphi)) by (apply Rmult_le_compat_r; [lra|unfold uround; lra]). lra. }
  assert (NM : m_sin L dphi <> 0) by (intros Q; rewrite Q, Rabs_R0 in LB; lra).
  assert (PM : 0 < Rabs (m_sin L dphi)) by (apply Rabs_pos_lt; auto).
  assert (Mw : mag (n * dphi) 206).
  { change 206%Z with (205 + 1)%Z. apply mag_mul; auto. unfold mag. change (bpow radix2 1) with 2. lra. }
  rewrite (mag_rd _ 206 ltac:(lia) Mw). cbn [bind]. unfold rd_div. destruct Req_EM_T; [contradiction|].
  assert (QS : Rabs (rnd (n * dphi) / m_sin L dphi) <= 4 * Rabs n).
  { unfold Rdiv. rewrite Rabs_mult, Rabs_inv. apply Rmult_le_reg_r with (Rabs (m_sin L dphi)); auto.
    rewrite Rmult_assoc, Rinv_l, Rmult_1_r by lra. eapply Rle_trans; [apply rnd_le2|]. rewrite Rabs_mult, SE.
    assert (Pn := Rabs_pos n). assert (sinc dphi * Rabs (sin dphi) <= 2 * Rabs (m_sin L dphi)).
    { apply Rle_trans with (1575 / 1000 * Rabs (sin dphi)); [apply Rmult_le_compat_r; lra|lra]. }
    assert (Rabs n * (sinc dphi * Rabs (sin dphi)) <= Rabs n * (2 * Rabs (m_sin L dphi))) by (apply Rmult_le_compat_l; auto). lra. }
  assert (Mr : mag (rnd (n * dphi) / m_sin L dphi) 207).
  { unfold mag in *. change 207%Z with (205 + 2)%Z. rewrite bpow_plus. change (bpow radix2 2) with 4. lra. }
  rewrite (mag_rd _ 207 ltac:(lia) Mr). eexists. split; [reflexivity|].
  assert (UM : 0 <= u * M) by (apply Rmult_le_pos; lra). assert (Ss := Rabs_pos s). assert (US : 0 <= u * Rabs s) by (apply Rmult_le_pos; lra).
  assert (SPK : 0 < speck) by apply bpow_gt_0. assert (LG := len_ge).
  fold u. destruct Sm as [Z|[Bg|[Z Sx]]]; [contradiction| |].
  - destruct (last_steps n dphi (m_sin L dphi) ltac:(lra) Sd Bg) as [_ LS]. fold u tt in LS.
    assert (SN : Rabs (n * sinc dphi - s) <= u * (449 / 10 * M) + u * (264 / 10 * Rabs s) + 529 / 100 * eps + speck / 500).
    { assert (XL := exact_len). assert (XQ : n * sinc dphi - s = (n - Ps) * sinc dphi + Ps * (sinc dphi - sinc (om * s))).
      { transitivity (n * sinc dphi - Ps * sinc (om * s)); [rewrite XL; reflexivity|ring]. }
      rewrite XQ.
      eapply Rle_trans; [apply Rabs_triang|]. rewrite !Rabs_mult, (Rabs_pos_eq (sinc dphi)) by lra.
      assert (W1 : Rabs (n - Ps) * sinc dphi <= (u * (187 / 10 * M) + 26 * tt + 2003 / 1000 * eps) * (1575 / 1000)).
      { apply Rmult_le_compat; try lra. apply Rabs_pos. }
      assert (W2 : Rabs (sinc dphi - sinc (om * s)) <= eta).
      { rewrite <- (sinc_opp (om * s)). eapply Rle_trans; [apply sinc_lip; [lra|rewrite Rabs_Ropp; unfold om; lra]|].
        eapply Rle_trans; [|exact E]. right. f_equal. ring. }
      assert (W3 : Rabs Ps * Rabs (sinc dphi - sinc (om * s)) <= Rabs Ps * eta) by (apply Rmult_le_compat_l; [apply Rabs_pos|auto]).
      assert (W4 := eta_len). clearbody u tt t M Ps eta. lra. }
    assert (SZ : Rabs (n * sinc dphi) <= Rabs s + (u * (449 / 10 * M) + u * (264 / 10 * Rabs s) + 529 / 100 * eps + speck / 500)) by (apply near_size; exact SN).
    assert (LS2 : Rabs (rnd (n * dphi) / m_sin L dphi - s) <= u * (45 * M) + u * (30 * Rabs s) + 53 / 10 * eps + speck / 400).
    { replace (rnd (n * dphi) / m_sin L dphi - s) with ((rnd (n * dphi) / m_sin L dphi - n * sinc dphi) + (n * sinc dphi - s)) by ring.
      eapply Rle_trans; [apply Rabs_triang|].
      assert (u * Rabs (n * sinc dphi) <= u * (Rabs s + (u * (449 / 10 * M) + u * (264 / 10 * Rabs s) + 529 / 100 * eps + speck / 500))) by (apply Rmult_le_compat_l; [lra|exact SZ]).
      assert (u * (u * M) <= / 1000000 * (u * M)) by (apply Rmult_le_compat_r; lra).
      assert (u * (u * Rabs s) <= / 1000000 * (u * Rabs s)) by (apply Rmult_le_compat_r; lra).
      assert (u * eps <= / 1000000 * eps) by (apply Rmult_le_compat_r; lra).
      assert (u * speck <= / 1000000 * speck) by (apply Rmult_le_compat_r; lra).
      clearbody u tt t M. lra. }
    assert (W := rnd_step _ _ _ LS2). fold u in W. clearbody u tt t M. lra.
  - assert (Eq : q = 0) by (unfold q; rewrite (sn_ph0 Z), Rmult_0_r, rnd_0; reflexivity).
    assert (Pp : Rabs p <= 3 * bpow radix2 (-310)).
    { unfold p. eapply Rle_trans; [apply rnd_le2|]. rewrite Rabs_mult. destruct cs_err as [_ C2]. assert (Rabs dx * Rabs cs <= bpow radix2 (-310) * (1001 / 1000)) by (apply Rmult_le_compat; auto using Rabs_pos).
      assert (0 < bpow radix2 (-310)) by apply bpow_gt_0. lra. }
    assert (Pn : Rabs n <= 6 * bpow radix2 (-310)).
    { unfold n. rewrite Eq, Rplus_0_r. eapply Rle_trans; [apply rnd_le2|]. lra. }
    assert (B10 : speck = 1024 * bpow radix2 (-310)).
    { unfold speck. change (-300)%Z with (-310 + 10)%Z. rewrite bpow_plus. change (bpow radix2 10) with 1024. ring. }
    assert (W := rnd_le2 (rnd (n * dphi) / m_sin L dphi)).
    assert (SPs : Rabs Ps <= Rabs n + (u * (187 / 10 * M) + 26 * tt + 2003 / 1000 * eps)).
    { rewrite Rabs_minus_sym in N5. apply near_size. exact N5. }
    unfold Rminus. eapply Rle_trans; [apply Rabs_triang|]. rewrite Rabs_Ropp. clearbody u tt t M Ps. lra.
Qed.
End P.
