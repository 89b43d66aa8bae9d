(** Facts about DiskFloat.v. *)
From Coq Require Import Reals ZArith Lra Lia Bool.
From Flocq Require Import Core.
From Verif Require Import Num Vec Helix Isect FloatWrap SpecHelix SpecIsect HelixFacts PathFacts IsectFacts SurfFacts SurfFacts2 PointFloat SpecRound SpecPath RoundFacts
  PointFloatFacts DiskFloat SpecDiskFloat.
Open Scope R_scope.

Section Disk.
Variables (h : R) (hp : vec5) (rp : vec3).
Hypothesis HC : climbing h hp rp.
Let H := vz rp + hp Z0.
Let tl := hp TANL.
Let t := (h - H) / tl.
Let hd := rnd H.
Let dd := rnd (h - hd).
Let sd := rnd (dd / tl).

Lemma tl_nz : tl <> 0.
Proof.
  intros E. assert (T := cl_tanl _ _ _ HC). fold tl in T. rewrite E, Rabs_R0 in T.
  generalize (bpow_gt_0 radix2 (-90)). lra.
Qed.

Lemma m_inv_tl : mag (/ tl) 90.
Proof.
  unfold mag. rewrite Rabs_inv. change (bpow radix2 90) with (bpow radix2 (- (-90))). rewrite bpow_opp.
  apply Rinv_le; [apply bpow_gt_0|exact (cl_tanl _ _ _ HC)].
Qed.

Lemma m_hd : mag hd 101.
Proof.
  apply mag_rnd; [lia|]. apply (mag_add _ _ 100); [exact (proj2 (cl_z _ _ _ HC))|exact (proj2 (cl_z0 _ _ _ HC))].
Qed.

Lemma m_dd : mag dd 102.
Proof.
  apply mag_rnd; [lia|]. apply (mag_sub _ _ 101); [|exact m_hd].
  apply (mag_le _ 100); [exact (proj2 (cl_h _ _ _ HC))|lia].
Qed.

Lemma m_sd : mag sd 192.
Proof. apply mag_rnd; [lia|]. apply (mag_mul _ _ 102 90); [exact m_dd|exact m_inv_tl]. Qed.

Lemma path_runs {A} (k : R -> res A) :
  (x <- rd (vz rp + hp Z0) ;; d <- rd (h - x) ;; s <- rd_div d (hp TANL) ;; k s) = k sd.
Proof.
  fold H. rewrite (mag_rd _ 101); [|lia|].
  2:{ apply (mag_add _ _ 100); [exact (proj2 (cl_z _ _ _ HC))|exact (proj2 (cl_z0 _ _ _ HC))]. }
  cbn [bind]. fold hd. rewrite (mag_rd _ 102); [|lia|].
  2:{ apply (mag_sub _ _ 101); [|exact m_hd]. apply (mag_le _ 100); [exact (proj2 (cl_h _ _ _ HC))|lia]. }
  cbn [bind]. fold dd. unfold rd_div. fold tl. destruct (Req_EM_T tl 0) as [E|_]; [exfalso; exact (tl_nz E)|].
  rewrite (mag_rd _ 192); [reflexivity|lia|]. apply (mag_mul _ _ 102 90); [exact m_dd|exact m_inv_tl].
Qed.

Lemma mod_sd : moderate sd.
Proof. split; [apply rnd_double|]. exact (mag_le _ 192 200 m_sd ltac:(lia)). Qed.

Lemma sd_err : Rabs (sd - t) <= 2 * doubt hp rp + 3 * uround * Rabs t + tiny.
Proof.
  assert (N := tl_nz). assert (U := u_small). assert (LP := least_pos).
  assert (P : 0 < / Rabs tl) by (apply Rinv_0_lt_compat, Rabs_pos_lt, N).
  assert (I := m_inv_tl). unfold mag in I. rewrite Rabs_inv in I.
  assert (E1 := rnd_err H). fold hd in E1.
  assert (E2 := rnd_err (h - hd)). fold dd in E2.
  assert (E3 := rnd_err (dd / tl)). fold sd in E3.
  assert (D : Rabs (h - H) = Rabs t * Rabs tl).
  { rewrite <- Rabs_mult. f_equal. unfold t. field. exact N. }
  assert (B1 : Rabs (h - hd) <= Rabs (h - H) + (uround * Rabs H + least)).
  { replace (h - hd) with ((h - H) - (hd - H)) by ring. eapply Rle_trans; [apply Rabs_triang|]. rewrite Rabs_Ropp. lra. }
  assert (B2 : Rabs (dd - (h - H)) <= uround * Rabs (h - H) + 1001 / 1000 * (uround * Rabs H) + 3 * least).
  { replace (dd - (h - H)) with ((dd - (h - hd)) - (hd - H)) by ring. eapply Rle_trans; [apply Rabs_triang|]. rewrite Rabs_Ropp.
    assert (uround * Rabs (h - hd) <= uround * (Rabs (h - H) + (uround * Rabs H + least))) by (apply Rmult_le_compat_l; lra).
    assert (0 <= uround * Rabs H) by (apply Rmult_le_pos; [lra|apply Rabs_pos]).
    assert (uround * (uround * Rabs H) <= / 1000000 * (uround * Rabs H)) by (apply Rmult_le_compat_r; lra).
    assert (uround * least <= / 1000000 * least) by (apply Rmult_le_compat_r; lra). lra. }
  assert (Q : doubt hp rp = uround * Rabs H * / Rabs tl) by reflexivity.
  set (q := doubt hp rp) in *. assert (Q0 : 0 <= q).
  { rewrite Q. apply Rmult_le_pos; [apply Rmult_le_pos; [lra|apply Rabs_pos]|lra]. }
  assert (T0 := Rabs_pos t).
  set (lt := least * / Rabs tl).
  assert (L0 : 0 <= lt) by (apply Rmult_le_pos; lra).
  assert (B3 : Rabs (dd / tl - t) <= uround * Rabs t + 1001 / 1000 * q + 3 * lt).
  { replace (dd / tl - t) with ((dd - (h - H)) * / tl) by (unfold t; field; exact N).
    rewrite Rabs_mult, Rabs_inv.
    eapply Rle_trans; [apply Rmult_le_compat_r; [lra|exact B2]|]. rewrite D, Q. unfold lt. right. field. apply Rabs_no_R0, N. }
  assert (B4 : Rabs (dd / tl) <= Rabs t + (uround * Rabs t + 1001 / 1000 * q + 3 * lt)) by (apply near_size, B3).
  assert (LT : 4 * lt + least <= tiny).
  { unfold lt. assert (least * / Rabs tl <= bpow radix2 (-984)).
    { change (bpow radix2 (-984)) with (bpow radix2 (-1074 + 90)). rewrite bpow_plus. apply Rmult_le_compat_l; [left; exact LP|exact I]. }
    assert (A : bpow radix2 (-984) <= bpow radix2 (-610)) by (apply bpow_le; lia).
    assert (B : least <= bpow radix2 (-610)) by (apply bpow_le; lia).
    assert (C : tiny = 1024 * bpow radix2 (-610)).
    { unfold tiny. change (-600)%Z with (10 + -610)%Z. rewrite bpow_plus. reflexivity. }
    assert (0 < bpow radix2 (-610)) by apply bpow_gt_0. lra. }
  replace (sd - t) with ((sd - dd / tl) + (dd / tl - t)) by ring.
  eapply Rle_trans; [apply Rabs_triang|].
  assert (uround * Rabs (dd / tl) <= uround * (Rabs t + (uround * Rabs t + 1001 / 1000 * q + 3 * lt))) by (apply Rmult_le_compat_l; lra).
  assert (0 <= uround * Rabs t) by (apply Rmult_le_pos; lra).
  assert (uround * (uround * Rabs t) <= / 1000000 * (uround * Rabs t)) by (apply Rmult_le_compat_r; lra).
  assert (uround * q <= / 1000000 * q) by (apply Rmult_le_compat_r; lra).
  assert (uround * lt <= / 1000000 * lt) by (apply Rmult_le_compat_r; lra). lra.
Qed.

(** rounding keeps the order *)
Lemma sd_sign : (0 < sd -> 0 < t) /\ (sd < 0 -> t < 0).
Proof.
  assert (N := tl_nz). assert (Dh := rnd_id h (proj1 (cl_h _ _ _ HC))).
  assert (M : forall a b, a <= b -> rnd a <= rnd b) by (intros a b; apply round_le; [apply FLT_exp_valid; reflexivity | apply valid_rnd_N]).
  assert (Z0' := rnd_0).
  assert (UP : h - H <= 0 -> dd <= 0).
  { intros A. unfold dd. rewrite <- Z0'. apply M. unfold hd. assert (rnd h <= rnd H) by (apply M; lra). lra. }
  assert (DN : 0 <= h - H -> 0 <= dd).
  { intros A. unfold dd. rewrite <- Z0'. apply M. unfold hd. assert (rnd H <= rnd h) by (apply M; lra). lra. }
  assert (POS : 0 < tl -> 0 < / tl) by apply Rinv_0_lt_compat.
  assert (NEG : tl < 0 -> / tl < 0) by apply Rinv_lt_0_compat.
  split; intros S.
  - apply Rnot_le_lt. intros C. apply (Rlt_not_le _ _ S). unfold sd. rewrite <- Z0'. apply M. unfold Rdiv. unfold t, Rdiv in C.
    destruct (Rlt_dec 0 tl) as [P|P].
    + specialize (POS P). assert (h - H <= 0) by nra. specialize (UP H0). nra.
    + assert (P' : tl < 0) by lra. specialize (NEG P'). assert (0 <= h - H) by nra. specialize (DN H0). nra.
  - apply Rnot_le_lt. intros C. apply (Rlt_not_le _ _ S). unfold sd. rewrite <- Z0'. apply M. unfold Rdiv. unfold t, Rdiv in C.
    destruct (Rlt_dec 0 tl) as [P|P].
    + specialize (POS P). assert (0 <= h - H) by nra. specialize (DN H0). nra.
    + assert (P' : tl < 0) by lra. specialize (NEG P'). assert (h - H <= 0) by nra. specialize (UP H0). nra.
Qed.
End Disk.

(** where the track crosses *)
Lemma crossing h hp rp f t : is_helix hp rp f -> hp TANL <> 0 -> vz (f t) = h -> t = (h - (vz rp + hp Z0)) / hp TANL.
Proof.
  intros Hf N E. destruct (XYZfromS_helix hp rp f Hf t) as (_ & Z & _). rewrite <- E, <- Z.
  unfold calculateZfromS, calculateZ0, calculateTanLambda. field. exact N.
Qed.
