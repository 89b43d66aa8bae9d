(** C90: the crossing of a track with a disk in double precision. *)
From Coq Require Import Reals ZArith Lra Lia Bool.
From Flocq Require Import Core.
From Coquelicot Require Import Coquelicot.
From Verif Require Import Num Vec Helix Isect FloatWrap SpecHelix SpecIsect HelixFacts IsectFacts SurfFacts2 PointFloat SpecRound SpecPath RoundFacts
  PointFloatFacts PropRound PropPath PropMoveFloat PropSurf DiskFloat SpecDiskFloat DiskFloatFacts.
Open Scope R_scope.

Lemma slow F c : (forall s, is_derive F s (c s)) -> (forall s, Rabs (c s) <= 1) -> forall a b, Rabs (F a - F b) <= Rabs (a - b).
Proof.
  intros D C a b. destruct (MVT_gen F b a c) as (k & _ & E).
  - intros x _. apply D.
  - intros x _. apply continuity_pt_filterlim. apply (ex_derive_continuous (V := R_NormedModule)). eexists. apply D.
  - rewrite E, Rabs_mult. generalize (C k) (Rabs_pos (a - b)). intros. nra.
Qed.

Lemma slow_helix hp rp f a b : is_helix hp rp f -> Rabs (vx (f a) - vx (f b)) <= Rabs (a - b) /\ Rabs (vy (f a) - vy (f b)) <= Rabs (a - b).
Proof.
  intros Hf. split.
  - apply (slow (fun t => vx (f t)) (fun s => cos (hp PHI0 - hp OMEGA * s))); [exact (helix_dx _ _ _ Hf)|intros; apply cos_1].
  - apply (slow (fun t => vy (f t)) (fun s => sin (hp PHI0 - hp OMEGA * s))); [exact (helix_dy _ _ _ Hf)|intros; apply sin_1].
Qed.

Lemma answer mode s cb S x : mode_ok mode s && bounds S cb x = true <-> sign_ok mode s /\ (cb = true -> sf_insideBounds S x = true).
Proof. rewrite andb_true_iff, mode_ok_iff, bounds_iff. tauto. Qed.

(** Curved tracks. The track crosses the disk at path length [t]; [s] and [x] are
    returned. *)
Theorem C90_accuracy : forall L S hp rp mode cb f t, accurate L -> climbing (vz (sf_origin S)) hp rp -> bpow radix2 (-200) <= Rabs (hp OMEGA) ->
  is_helix hp rp f -> vz (f t) = vz (sf_origin S) ->
  exists b s x, intersectWithZDisk_d L S hp rp mode cb = Ok (b, (s, x))
  /\ Rabs (s - t) <= 2 * doubt hp rp + 3 * uround * Rabs t + tiny
  /\ vz x = vz (sf_origin S)
  /\ Rabs (vx x - vx (f s)) <= 16 * uround * (Rabs (vx rp) + Rabs (hp D0) + Rabs s * (1 + Rabs (hp PHI0) + Rabs (hp OMEGA * s))) + tiny
  /\ Rabs (vy x - vy (f s)) <= 16 * uround * (Rabs (vy rp) + Rabs (hp D0) + Rabs s * (1 + Rabs (hp PHI0) + Rabs (hp OMEGA * s))) + tiny
  /\ Rabs (vx x - vx (f t)) <= 16 * uround * (Rabs (vx rp) + Rabs (hp D0) + Rabs s * (1 + Rabs (hp PHI0) + Rabs (hp OMEGA * s)))
       + 2 * doubt hp rp + 3 * uround * Rabs t + 2 * tiny
  /\ Rabs (vy x - vy (f t)) <= 16 * uround * (Rabs (vy rp) + Rabs (hp D0) + Rabs s * (1 + Rabs (hp PHI0) + Rabs (hp OMEGA * s)))
       + 2 * doubt hp rp + 3 * uround * Rabs t + 2 * tiny
  /\ (b = true <-> sign_ok mode s /\ (cb = true -> sf_insideBounds S x = true)).
Proof.
  intros L S hp rp mode cb f t HL HC O Hf Ht. set (h := vz (sf_origin S)) in *.
  assert (T := crossing h hp rp f t Hf (tl_nz h hp rp HC) Ht).
  assert (E := sd_err h hp rp HC). assert (M := mod_sd h hp rp HC). rewrite <- T in E.
  unfold intersectWithZDisk_d. cbv zeta. fold h. rewrite (path_runs h hp rp HC).
  set (s := rnd (rnd (h - rnd (vz rp + hp Z0)) / hp TANL)) in *.
  assert (HF : fit_for_double s hp rp).
  { constructor; try apply HC; auto. destruct (cl_z _ _ _ HC) as [D B]. split; [exact D|].
    eapply Rle_trans; [exact B|apply bpow_le; lia]. }
  destruct (C78_fromS L s hp rp f HL HF Hf) as (x & y & _ & Rx & Ry & _ & Ex & Ey & _).
  rewrite Rx. cbn [bind]. rewrite Ry. cbn [bind].
  do 3 eexists. split; [reflexivity|]. cbn [vx vy vz]. split; [exact E|]. split; [reflexivity|].
  destruct (slow_helix hp rp f s t Hf) as [SX SY].
  split; [exact Ex|]. split; [exact Ey|]. split; [|split; [|apply answer]].
  - replace (x - vx (f t)) with ((x - vx (f s)) + (vx (f s) - vx (f t))) by ring.
    eapply Rle_trans; [apply Rabs_triang|]. lra.
  - replace (y - vy (f t)) with ((y - vy (f s)) + (vy (f s) - vy (f t))) by ring.
    eapply Rle_trans; [apply Rabs_triang|]. lra.
Qed.
Print Assumptions C90_accuracy.

(** The direction. A crossing on the wrong side is never accepted; one on the right
    side is accepted if it is not too close. *)
Theorem C90_side : forall L S hp rp mode cb f t b s x, climbing (vz (sf_origin S)) hp rp -> is_helix hp rp f -> vz (f t) = vz (sf_origin S) ->
  intersectWithZDisk_d L S hp rp mode cb = Ok (b, (s, x)) ->
  (b = true -> sign_ok mode t /\ (cb = true -> sf_insideBounds S x = true))
  /\ (4 * doubt hp rp + 2 * tiny < Rabs t -> sign_ok mode t -> (cb = true -> sf_insideBounds S x = true) -> b = true).
Proof.
  intros L S hp rp mode cb f t b s x HC Hf Ht. set (h := vz (sf_origin S)) in *.
  assert (T := crossing h hp rp f t Hf (tl_nz h hp rp HC) Ht).
  assert (E := sd_err h hp rp HC). assert (G := sd_sign h hp rp HC). rewrite <- T in E, G.
  unfold intersectWithZDisk_d. cbv zeta. fold h. rewrite (path_runs h hp rp HC).
  set (s0 := rnd (rnd (h - rnd (vz rp + hp Z0)) / hp TANL)) in *. intros X.
  destruct (calculateXfromS_d L s0 hp rp) as [x0| | | |]; try discriminate X. cbn [bind] in X.
  destruct (calculateYfromS_d L s0 hp rp) as [y0| | | |]; try discriminate X. cbn [bind] in X.
  injection X as X1 X2 X3. subst s x. rewrite <- X1, answer. unfold sign_ok. destruct G as [G1 G2]. split.
  - intros [[A B] C]. auto.
  - intros W [A B] C. split; [|exact C]. assert (U := u_small). assert (P := Rabs_pos t).
    assert (D : Rabs (s0 - t) < Rabs t).
    { eapply Rle_lt_trans; [exact E|]. assert (uround * Rabs t <= / 1000000 * Rabs t) by (apply Rmult_le_compat_r; lra). lra. }
    apply Rabs_def2 in D. split; intros Q; [specialize (A Q); rewrite (Rabs_pos_eq t) in D by lra|specialize (B Q); rewrite (Rabs_left t) in D by lra]; lra.
Qed.
Print Assumptions C90_side.

(** Straight tracks: as C90_accuracy, but y is off by s (cos phi0 - sin phi0). *)
Theorem C90_straight : forall L S hp rp mode cb f t, accurate L -> climbing (vz (sf_origin S)) hp rp -> hp OMEGA = 0 ->
  is_helix hp rp f -> vz (f t) = vz (sf_origin S) ->
  exists b s x, intersectWithZDisk_d L S hp rp mode cb = Ok (b, (s, x))
  /\ Rabs (s - t) <= 2 * doubt hp rp + 3 * uround * Rabs t + tiny
  /\ vz x = vz (sf_origin S)
  /\ Rabs (vx x - vx (f s)) <= 8 * uround * (Rabs (vx rp) + Rabs (hp D0) + Rabs s) + tiny
  /\ Rabs (vy x - (vy (f s) + s * (cos (hp PHI0) - sin (hp PHI0)))) <= 8 * uround * (Rabs (vy rp) + Rabs (hp D0) + Rabs s) + tiny
  /\ (b = true <-> sign_ok mode s /\ (cb = true -> sf_insideBounds S x = true)).
Proof.
  intros L S hp rp mode cb f t HL HC O Hf Ht. set (h := vz (sf_origin S)) in *.
  assert (T := crossing h hp rp f t Hf (tl_nz h hp rp HC) Ht).
  assert (E := sd_err h hp rp HC). assert (M := mod_sd h hp rp HC). rewrite <- T in E.
  unfold intersectWithZDisk_d. cbv zeta. fold h. rewrite (path_runs h hp rp HC).
  set (s := rnd (rnd (h - rnd (vz rp + hp Z0)) / hp TANL)) in *.
  destruct (C78_straight L s hp rp f HL M (cl_hp _ _ _ HC) (cl_x _ _ _ HC) (cl_y _ _ _ HC) O Hf) as (x & y & Rx & Ry & Ex & Ey).
  rewrite Rx. cbn [bind]. rewrite Ry. cbn [bind].
  do 3 eexists. split; [reflexivity|]. cbn [vx vy vz]. split; [exact E|]. split; [reflexivity|].
  split; [exact Ex|]. split; [exact Ey|apply answer].
Qed.
Print Assumptions C90_straight.

(** Level tracks have no finite result. *)
Theorem C90_level : forall L S hp rp mode cb, hp TANL = 0 -> intersectWithZDisk_d L S hp rp mode cb = NonFin.
Proof.
  intros L S hp rp mode cb T. unfold intersectWithZDisk_d. cbv zeta.
  unfold rd at 1. destruct Rlt_dec; cbn [bind]; [|reflexivity].
  unfold rd at 1. destruct Rlt_dec; cbn [bind]; [|reflexivity].
  unfold rd_div. destruct (Req_EM_T (hp TANL) 0); [reflexivity|contradiction].
Qed.
Print Assumptions C90_level.

(** A shallow track: the disk one unit ahead is reported at path length zero, and
    neither ahead nor behind. *)
Definition shallow : vec5 := mk5 (bpow radix2 (-10)) (- bpow radix2 (-60)) 0 0 (bpow radix2 (-60)).
Lemma shallow_climbs : climbing 1 shallow (V3 0 0 1).
Proof.
  assert (M0 := moderate_0). assert (O0 := ordinary_0).
  assert (O1 : ordinary 1) by exact (ord_bpow 0 ltac:(lia)).
  constructor; cbn [vx vy vz]; auto.
  - exact (ord_bpow (-60) ltac:(lia)).
  - intros []; cbn [shallow mk5]; auto.
    + apply (moderate_bpow (-10)). lia.
    + destruct (moderate_bpow (-60) ltac:(lia)) as [D B]. split; [apply opp_double, D|rewrite Rabs_Ropp; exact B].
    + apply (moderate_bpow (-60)). lia.
  - change (shallow TANL) with (- bpow radix2 (-60)). rewrite Rabs_Ropp, Rabs_pos_eq by apply bpow_ge_0. apply bpow_le. lia.
Qed.

Lemma shallow_path : rnd (rnd (1 - rnd (vz (V3 0 0 1) + shallow Z0)) / shallow TANL) = 0.
Proof.
  assert (D : is_double (- bpow radix2 (-60))) by (apply opp_double, (double_bpow (-60)); lia).
  assert (E : rnd (1 + bpow radix2 (-60)) = 1).
  { replace (1 + bpow radix2 (-60)) with (1 - rnd (- bpow radix2 (-60))) by (rewrite (rnd_id _ D); ring).
    apply stuck_angle; [apply (double_bpow 0); lia|]. rewrite Rabs_Ropp, Rabs_R1, Rmult_1_r, Rabs_pos_eq by apply bpow_ge_0. apply bpow_le. lia. }
  cbn [vz]. change (shallow Z0) with (bpow radix2 (-60)). rewrite E, Rminus_diag_eq, rnd_0 by reflexivity.
  unfold Rdiv. rewrite Rmult_0_l. apply rnd_0.
Qed.

Theorem C90_missed_refuted : exists S hp rp f, climbing (vz (sf_origin S)) hp rp /\ is_helix hp rp f
  /\ vz (f 1) = vz (sf_origin S) /\ forall L, accurate L ->
  (exists x, intersectWithZDisk_d L S hp rp 0 false = Ok (true, (0, x)))
  /\ (exists x, intersectWithZDisk_d L S hp rp 1 false = Ok (false, (0, x)))
  /\ exists x, intersectWithZDisk_d L S hp rp (-1) false = Ok (false, (0, x)).
Proof.
  destruct (helix_exists shallow (V3 0 0 1)) as (f & Hf).
  exists (ex_disk 1), shallow, (V3 0 0 1), f. split; [exact shallow_climbs|]. split; [exact Hf|].
  assert (F1 : vz (f 1) = 1).
  { destruct (XYZfromS_helix _ _ _ Hf 1) as (_ & <- & _). unfold calculateZfromS, calculateZ0, calculateTanLambda. cbn [vz].
    change (shallow Z0) with (bpow radix2 (-60)). change (shallow TANL) with (- bpow radix2 (-60)). ring. }
  split; [exact F1|]. intros L HL.
  assert (O : bpow radix2 (-200) <= Rabs (shallow OMEGA)).
  { change (shallow OMEGA) with (bpow radix2 (-10)). rewrite Rabs_pos_eq by apply bpow_ge_0. apply bpow_le. lia. }
  assert (A : forall m, exists b x, intersectWithZDisk_d L (ex_disk 1) shallow (V3 0 0 1) m false = Ok (b, (0, x)) /\ (b = true <-> sign_ok m 0)).
  { intros m. destruct (C90_accuracy L (ex_disk 1) shallow (V3 0 0 1) m false f 1 HL shallow_climbs O Hf F1) as (b & s & x & E & _ & _ & _ & _ & _ & _ & B).
    assert (Z : s = 0).
    { revert E. unfold intersectWithZDisk_d. cbv zeta. change (vz (sf_origin (ex_disk 1))) with 1.
      rewrite (path_runs 1 shallow _ shallow_climbs), shallow_path.
      destruct (calculateXfromS_d L 0 shallow (V3 0 0 1)); try discriminate. destruct (calculateYfromS_d L 0 shallow (V3 0 0 1)); try discriminate.
      cbn [bind]. intros E. injection E as _ E _. auto. }
    subst s. exists b, x. split; [exact E|]. rewrite B. split; [tauto|]. intros W. split; [exact W|discriminate]. }
  split; [|split].
  - destruct (A 0%Z) as (b & x & E & B). exists x. rewrite E. destruct B as [_ B]. rewrite B; [reflexivity|]. split; lia.
  - destruct (A 1%Z) as (b & x & E & B). exists x. rewrite E. destruct b; [|reflexivity]. destruct (proj1 B eq_refl) as [B1 _]. specialize (B1 ltac:(lia)). lra.
  - destruct (A (-1)%Z) as (b & x & E & B). exists x. rewrite E. destruct b; [|reflexivity]. destruct (proj1 B eq_refl) as [_ B1]. specialize (B1 ltac:(lia)). lra.
Qed.
Print Assumptions C90_missed_refuted.

(** A track of radius 1024 and slope one that starts at (1,1,2): the disk at height
    1026 is found 1024 ahead, to 10^-11. *)
Lemma curved_climbs : climbing 1026 curved_hp (V3 1 1 1).
Proof.
  destruct curved_instance as [_ HF]. assert (O1 : ordinary 1) by exact (ord_bpow 0 ltac:(lia)).
  constructor; cbn [vx vy vz]; auto using moderate_1.
  - split.
    + replace 1026 with (IZR 513 * bpow radix2 1) by (change (bpow radix2 1) with 2; lra). apply PathLibFacts.dyadic; lia.
    + rewrite Rabs_pos_eq by lra. apply Rle_trans with (bpow radix2 11); [change (bpow radix2 11) with 2048; lra|apply bpow_le; lia].
  - apply HF.
  - change (curved_hp TANL) with 1. rewrite Rabs_R1. apply (bpow_le radix2 (-90) 0). lia.
Qed.
Example C90_ex : exists f s x, is_helix curved_hp (V3 1 1 1) f /\ vz (f 1024) = 1026
  /\ intersectWithZDisk_d best (ex_disk 1026) curved_hp (V3 1 1 1) 1 false = Ok (true, (s, x))
  /\ Rabs (s - 1024) <= / 100000000000 /\ Rabs (vx x - vx (f 1024)) <= / 10000000000.
Proof.
  destruct (helix_exists curved_hp (V3 1 1 1)) as (f & Hf).
  assert (F : vz (f 1024) = 1026).
  { destruct (XYZfromS_helix _ _ _ Hf 1024) as (_ & <- & _). unfold calculateZfromS, calculateZ0, calculateTanLambda. cbn [vz].
    change (curved_hp Z0) with 1. change (curved_hp TANL) with 1. lra. }
  assert (HO := fd_om _ _ _ (proj2 curved_instance)).
  destruct (C90_accuracy best (ex_disk 1026) curved_hp (V3 1 1 1) 1 false f 1024 best_accurate curved_climbs HO Hf F)
    as (b & s & x & E & Es & _ & _ & _ & Ex & _ & _).
  assert (D : doubt curved_hp (V3 1 1 1) = 2 * uround).
  { unfold doubt. cbn [vz]. change (curved_hp Z0) with 1. change (curved_hp TANL) with 1. rewrite Rabs_R1, Rabs_pos_eq by lra. lra. }
  assert (TI : tiny <= / 1000000000000).
  { unfold tiny. apply Rle_trans with (bpow radix2 (-50)); [apply bpow_le; lia|]. change (bpow radix2 (-50)) with (/ 1125899906842624). lra. }
  rewrite D, (Rabs_pos_eq 1024) in Es, Ex by lra.
  assert (S1 : Rabs (s - 1024) <= / 100000000000) by (eapply Rle_trans; [exact Es|]; unfold uround; lra).
  exists f, s, x. split; [exact Hf|]. split; [exact F|]. split; [|split; [exact S1|]].
  - rewrite E. do 2 f_equal.
    apply (proj2 (C90_side best (ex_disk 1026) curved_hp (V3 1 1 1) 1 false f 1024 b s x curved_climbs Hf F E)).
    + rewrite D, (Rabs_pos_eq 1024) by lra. unfold uround. lra.
    + split; intros; lra || lia.
    + discriminate.
  - eapply Rle_trans; [exact Ex|]. change (curved_hp PHI0) with 1. change (curved_hp OMEGA) with (bpow radix2 (-10)). change (curved_hp D0) with 1. cbn [vx].
    apply Rabs_le_inv in S1. rewrite Rabs_mult, !Rabs_R1, (Rabs_pos_eq s), (Rabs_pos_eq (bpow radix2 (-10))) by (apply bpow_ge_0 || lra).
    change (bpow radix2 (-10)) with (/ 1024). assert (s * (1 + 1 + / 1024 * s) <= 1025 * 4) by (apply Rmult_le_compat; lra).
    unfold uround in *. lra.
Qed.

(** the same without a field: y is off by more than 10 *)
Example C90_straight_ex : exists f s x, is_helix (mk5 0 1 1 1 1) (V3 1 1 1) f /\ vz (f 1024) = 1026
  /\ intersectWithZDisk_d best (ex_disk 1026) (mk5 0 1 1 1 1) (V3 1 1 1) 0 false = Ok (true, (s, x))
  /\ 10 < Rabs (vy x - vy (f s)).
Proof.
  destruct (helix_exists (mk5 0 1 1 1 1) (V3 1 1 1)) as (f & Hf).
  assert (F : vz (f 1024) = 1026).
  { destruct (XYZfromS_helix _ _ _ Hf 1024) as (_ & <- & _). unfold calculateZfromS, calculateZ0, calculateTanLambda. cbn. lra. }
  assert (HC : climbing (vz (sf_origin (ex_disk 1026))) (mk5 0 1 1 1 1) (V3 1 1 1)).
  { destruct curved_climbs. constructor; auto. intros []; cbn; auto using moderate_0, moderate_1. }
  destruct (C90_straight best (ex_disk 1026) (mk5 0 1 1 1 1) (V3 1 1 1) 0 false f 1024 best_accurate HC eq_refl Hf F)
    as (b & s & x & E & Es & _ & _ & Ey & B).
  assert (BT : b = true) by (apply B; split; [split; lia|discriminate]). subst b.
  exists f, s, x. split; [exact Hf|]. split; [exact F|]. split; [exact E|].
  assert (D : doubt (mk5 0 1 1 1 1) (V3 1 1 1) = 2 * uround).
  { unfold doubt. cbn [vz]. change (mk5 0 1 1 1 1 Z0) with 1. change (mk5 0 1 1 1 1 TANL) with 1. rewrite Rabs_R1, Rabs_pos_eq by lra. lra. }
  assert (TI : tiny <= 1) by (apply (bpow_le radix2 (-600) 0); lia).
  rewrite D, (Rabs_pos_eq 1024) in Es by lra.
  assert (S1 : Rabs (s - 1024) <= 2) by (eapply Rle_trans; [exact Es|]; unfold uround; lra). apply Rabs_le_inv in S1.
  change (mk5 0 1 1 1 1 PHI0) with 1 in Ey. change (mk5 0 1 1 1 1 D0) with 1 in Ey. cbn [vx vy] in Ey.
  rewrite !Rabs_R1, (Rabs_pos_eq s) in Ey by lra. assert (8 * uround * (1 + 1 + s) <= 1) by (unfold uround; lra).
  assert (DD : / 10 <= sin 1 - cos 1).
  { assert (Q := sin2_cos2 1). unfold Rsqr in Q. assert (C0 : 0 <= cos 1) by (apply cos_ge_0; generalize PI2_3_2; lra).
    assert (S0 : 0 <= sin 1) by (apply sin_ge_0; generalize PI2_3_2; lra).
    destruct (pre_cos_bound 1 0) as [_ W]; try lra. unfold cos_approx, cos_term in W. cbn [sum_f_R0 Nat.mul Nat.add pow fact INR] in W.
    assert (cos 1 <= 6 / 10) by lra. nra. }
  apply Rabs_le_inv in Ey. rewrite Rabs_minus_sym. eapply Rlt_le_trans; [|apply Rle_abs]. nra.
Qed.
