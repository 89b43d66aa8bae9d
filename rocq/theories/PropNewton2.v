(** C68, continued: the hypotheses near a crossing, disks, planes and a cone. *)
From Coq Require Import Reals Lra Lia Psatz ZArith List Bool.
From Coquelicot Require Import Coquelicot.
From Verif Require Import SpecConst Num NumFacts Vec Helix Isect SpecHelix SpecIsect HelixFacts PathFacts IsectFacts
  SurfFacts SurfFacts2 SpecNewton NewtonFacts NewtonFacts2 PropSurf PropNewton.
Open Scope R_scope.

(** The hypotheses hold around every crossing at which the track is not
    tangent to the surface, if the start is close enough. *)
Theorem C68_near_crossing : forall surf hp f sc r d0 g L,
  (forall s, Rabs (s - sc) <= r -> is_derive (fun t => sf_distance surf (f t)) s (rate surf hp f s)) ->
  (forall s s', Rabs (s - sc) <= r -> Rabs (s' - sc) <= r ->
     Rabs (rate surf hp f s' - rate surf hp f s) <= L * Rabs (s' - s)) ->
  sf_distance surf (f sc) = 0 -> 0 < g -> 0 <= L -> 2 * g <= Rabs (rate surf hp f sc) -> L * r <= g ->
  0 <= r -> (1 + stretch hp) * d0 / g <= r ->
  tame surf hp f (fun s => Rabs (s - sc) <= r) d0 g L.
Proof. exact crossing_tame. Qed.
Print Assumptions C68_near_crossing.

(** for a plane, whatever its direction *)
Theorem C68_plane : forall surf hp rp f n o sc r d0,
  is_helix hp rp f ->
  (forall x, sf_normal surf x = n) -> (forall x, sf_distance surf x = vdot (vsub x o) n) -> vdot n n = 1 ->
  sf_distance surf (f sc) = 0 -> rate surf hp f sc <> 0 ->
  0 <= r -> 2 * Rabs (hp OMEGA) * r <= Rabs (rate surf hp f sc) ->
  2 * (1 + stretch hp) * d0 <= Rabs (rate surf hp f sc) * r ->
  tame surf hp f (fun s => Rabs (s - sc) <= r) d0 (Rabs (rate surf hp f sc) / 2) (Rabs (hp OMEGA)).
Proof.
  intros surf hp rp f n o sc r d0 Hf Hn Hd N Z G R0 H1 H2.
  assert (Pg : 0 < Rabs (rate surf hp f sc)) by (apply Rabs_pos_lt; auto).
  apply crossing_tame; auto; try lra.
  - intros s _. eapply plane_derive; eauto.
  - intros s s' _ _. apply plane_rate_lipschitz with n; auto. unfold vdot in N. nra.
  - apply Rabs_pos.
  - apply Rmult_le_reg_r with (Rabs (rate surf hp f sc) / 2); [lra|].
    replace ((1 + stretch hp) * d0 / (Rabs (rate surf hp f sc) / 2) * (Rabs (rate surf hp f sc) / 2))
      with ((1 + stretch hp) * d0) by (field; lra). lra.
Qed.
Print Assumptions C68_plane.

(** ** disks: the height is linear along the track *)
Lemma disk_tame surf hp rp f h d0 : is_helix hp rp f ->
  (forall x, sf_distance surf x = vz x - h) -> (forall x, sf_normal surf x = V3 0 0 1) -> hp TANL <> 0 ->
  tame surf hp f (fun _ => True) d0 (Rabs (hp TANL)) 0.
Proof.
  intros Hf Hd Hn N.
  assert (E : forall s, rate surf hp f s = hp TANL).
  { intros s. unfold rate. rewrite Hn. unfold vdot, velocity. cbn [vx vy vz]. ring. }
  constructor; auto.
  - apply Rabs_pos_lt; auto.
  - lra.
  - intros s _. rewrite E. lra.
  - intros s s' _ _. rewrite E, !Hd.
    destruct (mvt (fun t => vz (f t)) (fun _ => hp TANL) s s') as (c & _ & Q).
    { intros x _. apply (helix_dz _ _ _ Hf). }
    cbv beta in Q. replace (vz (f s') - h - (vz (f s) - h) - hp TANL * (s' - s)) with (vz (f s') - vz (f s) - hp TANL * (s' - s)) by ring.
    rewrite Q. rewrite Rminus_diag_eq, Rabs_R0 by reflexivity. lra.
Qed.

Lemma bend_0 hp d0 g : bend hp d0 g 0 = 0.
Proof. unfold bend, Rdiv. ring. Qed.

Lemma damping_eq j n : (10 ^ Z.of_nat j = n)%Z -> damping j = / 100000000000 * IZR n.
Proof.
  intros <-. unfold damping. f_equal. replace 10 with (IZR 10) by reflexivity. apply pow_IZR.
Qed.

(** Disks are reached with the search from any start closer than 10^10 cm, if
    the dip angle is below 53.9 degrees (1/cos <= 1.7), or between 63 and 70.5
    degrees and closer than 10^9 cm; for 58.3 to 59.9 degrees the search gives
    up from any start more than 4 cm away, for 60.4 to 62.9 degrees from any
    start more than 1 cm away. *)
Theorem C68_disk : forall surf hp rp f h s0 mode cb, hp OMEGA <> 0 -> is_helix hp rp f ->
  (forall x, sf_distance surf x = vz x - h) -> (forall x, sf_normal surf x = V3 0 0 1) -> hp TANL <> 0 ->
  let k := stretch hp in let d0 := Rabs (sf_distance surf (f s0)) in
  (k <= 17 / 10 -> d0 < 10000000000 ->
     finds surf hp rp f (fun _ => True) (Rabs (hp TANL)) 0 s0 mode cb)
  /\ (22 / 10 <= k <= 3 -> d0 < 1000000000 ->
     finds surf hp rp f (fun _ => True) (Rabs (hp TANL)) 0 s0 mode cb)
  /\ (1901 / 1000 <= k <= 1999 / 1000 -> 4 <= d0 < 10000000000 ->
     exists d, gives_up surf hp rp f (fun _ => True) d s0 mode cb)
  /\ (202 / 100 <= k <= 2199 / 1000 -> 1 <= d0 < 10000000000 ->
     exists d, gives_up surf hp rp f (fun _ => True) d s0 mode cb).
Proof.
  intros surf hp rp f h s0 mode cb Ho Hf Hd Hn N k d0.
  assert (T := disk_tame surf hp rp f h d0 Hf Hd Hn N).
  assert (D0 : 0 <= d0) by apply Rabs_pos.
  destruct (stretch_cos hp) as [K1 _]. fold k in K1.
  assert (Ek : stretch hp = k) by reflexivity. assert (Ed : d0 = Rabs (sf_distance surf (f s0))) by reflexivity.
  clearbody k d0.
  assert (T9 : newton_tol = / 10000) by (unfold newton_tol; lra).
  split; [|split; [|split]].
  - intros Hk Hs.
    apply (C68_converges surf hp rp f (fun _ => True) d0 (Rabs (hp TANL)) 0 (7 / 10) s0 mode cb Ho Hf T); auto; rewrite ?bend_0; rewrite ?Ek; try lra.
  - intros Hk Hs.
    assert (L10 : damping 10 = / 10) by (rewrite (damping_eq 10 10000000000 eq_refl); lra).
    assert (L11 : damping 11 = 1) by (rewrite (damping_eq 11 100000000000 eq_refl); lra).
    apply (C68_damped_converges surf hp rp f (fun _ => True) d0 (Rabs (hp TANL)) 0 (1 / 2) 11 s0 mode cb Ho Hf T); auto;
      rewrite ?bend_0; rewrite ?Ek; try lra; try lia.
    + change (11 - 1)%nat with 10%nat. rewrite L10. lra.
    + rewrite L11, Rplus_0_r. apply Rabs_le. lra.
    + change (useful 11) with 45%nat. lra.
  - intros Hk Hs.
    assert (K : k / (1 + / 100000000000) = k * (100000000000 / 100000000001)) by (field; lra).
    eexists.
    apply (C68_runs_out surf hp rp f (fun _ => True) d0 (Rabs (hp TANL)) 0 (9 / 10) s0 mode cb Ho Hf T); auto; rewrite ?bend_0; rewrite ?Ek, ?K; try lra.
  - intros Hk Hs.
    assert (L9 : damping 9 = / 100) by (rewrite (damping_eq 9 1000000000 eq_refl); lra).
    assert (L10 : damping 10 = / 10) by (rewrite (damping_eq 10 10000000000 eq_refl); lra).
    assert (Ab : Rabs (1 - k / (1 + / 10)) = k / (1 + / 10) - 1) by (rewrite Rabs_left1; lra).
    eexists.
    apply (C68_damped_runs_out surf hp rp f (fun _ => True) d0 (Rabs (hp TANL)) 0 (836 / 1000) 10 s0 mode cb Ho Hf T); auto;
      rewrite ?bend_0; rewrite ?Ek; try lra; try lia; change (10 - 1)%nat with 9%nat; rewrite ?L9, ?L10, ?Ab; try lra.
    change (useful 10) with 45%nat. lra.
Qed.
Print Assumptions C68_disk.

(** Planes of any direction are reached if the dip angle is below 53.9 degrees
    and the track bends little on its way from the start. *)
Theorem C68_plane_reached : forall surf hp rp f n o sc r s0 mode cb,
  hp OMEGA <> 0 -> is_helix hp rp f ->
  (forall x, sf_normal surf x = n) -> (forall x, sf_distance surf x = vdot (vsub x o) n) -> vdot n n = 1 ->
  sf_distance surf (f sc) = 0 -> Rabs (s0 - sc) <= r ->
  let G := Rabs (rate surf hp f sc) in let d0 := Rabs (sf_distance surf (f s0)) in let k := stretch hp in
  2 * Rabs (hp OMEGA) * r <= G -> 2 * (1 + k) * d0 <= G * r ->
  k <= 17 / 10 -> 40 * Rabs (hp OMEGA) * d0 * (k * k) <= G * G -> 0 < G -> d0 <= 100000 ->
  finds surf hp rp f (fun s => Rabs (s - sc) <= r) (G / 2) (Rabs (hp OMEGA)) s0 mode cb.
Proof.
  intros surf hp rp f n o sc r s0 mode cb Ho Hf Hn Hd N Z Hs G d0 k H1 H2 Hk Hb PG Hm.
  assert (R0 : 0 <= r) by (eapply Rle_trans; [apply Rabs_pos|exact Hs]).
  assert (NG : rate surf hp f sc <> 0). { intros E. unfold G in PG. rewrite E, Rabs_R0 in PG. lra. }
  assert (T := C68_plane surf hp rp f n o sc r d0 Hf Hn Hd N Z NG R0 H1 H2).
  assert (Be : bend hp d0 (G / 2) (Rabs (hp OMEGA)) <= 1 / 10).
  { unfold bend. fold k. apply Rmult_le_reg_r with (G / 2 * (G / 2)); [nra|].
    replace (Rabs (hp OMEGA) * d0 * (k * k) / (G / 2 * (G / 2)) * (G / 2 * (G / 2)))
      with (Rabs (hp OMEGA) * d0 * (k * k)) by (field; lra). lra. }
  assert (D0 : 0 <= d0) by apply Rabs_pos.
  assert (T9 : newton_tol = / 10000) by (unfold newton_tol; lra).
  fold G in T.
  assert (Ek : stretch hp = k) by reflexivity. assert (Ed : d0 = Rabs (sf_distance surf (f s0))) by reflexivity.
  clearbody k d0 G.
  apply (C68_converges surf hp rp f _ d0 (G / 2) (Rabs (hp OMEGA)) (8 / 10) s0 mode cb Ho Hf T); auto; rewrite ?Ek; lra.
Qed.
Print Assumptions C68_plane_reached.

(** ** a cone that the track crosses and intersectWithSurface does not find *)
Section Cone.
Let w : R := / 1000.
(** distance from the z axis *)
Definition vrho (x : vec3) : R := sqrt (vx x * vx x + vy x * vy x).
Definition cone_hp : vec5 := mk5 w (15 / 8) 0 0 0.
Definition cone_track (s : R) : vec3 := V3 (1000 * sin (s / 1000)) (1000 * (cos (s / 1000) - 1)) (15 / 8 * s).
Definition chord (s : R) : R := 2000 * sin (s / 2000).
Definition cone_surface : surface :=
  Surf 0 (ST false false true true false) (Some (chord 103, v3zero)) (fun _ => true) (fun _ => v3zero) (fun _ => v3zero)
    (fun x => V3 (4 / 5 * (vx x / vrho x)) (4 / 5 * (vy x / vrho x)) (3 / 5))
    (fun _ => (0, 0)) (fun _ => v3zero) v3zero (Mat 1 1 1 1) (Mat 1 1 1 1) 0 0
    (fun x => 4 / 5 * (vrho x - (chord 100 + 3 / 4 * (15 / 8 * 100))) + 3 / 5 * vz x).

Lemma cone_helix : is_helix cone_hp v3zero cone_track.
Proof.
  assert (H : cone_hp OMEGA <> 0) by (unfold cone_hp, w; simpl; lra).
  assert (E : forall s, cone_track s = hcurve cone_hp v3zero s).
  { intros s. unfold cone_track, hcurve, cone_hp, v3zero, w. simpl. rewrite sin_0, cos_0.
    replace (0 - s * / 1000) with (- (s / 1000)) by (unfold Rdiv; ring). rewrite sin_neg, cos_neg.
    f_equal; field. }
  destruct (hcurve_helix cone_hp v3zero H) as [A B C D]. constructor.
  - rewrite E. exact A.
  - intros s. eapply is_derive_ext; [|apply B]. intros t. cbv beta. rewrite E. reflexivity.
  - intros s. eapply is_derive_ext; [|apply C]. intros t. cbv beta. rewrite E. reflexivity.
  - intros s. eapply is_derive_ext; [|apply D]. intros t. cbv beta. rewrite E. reflexivity.
Qed.

Lemma half s : sin (s / 1000) = 2 * sin (s / 2000) * cos (s / 2000)
  /\ cos (s / 1000) = 1 - 2 * (sin (s / 2000) * sin (s / 2000)).
Proof.
  replace (s / 1000) with (2 * (s / 2000)) by field. rewrite sin_2a, cos_2a_sin. split; ring.
Qed.

Lemma cone_rho s : vrho (cone_track s) = Rabs (chord s).
Proof.
  unfold vrho, cone_track, chord. cbn [vx vy vz]. destruct (half s) as [-> ->].
  set (a := s / 2000). assert (S := sin2_cos2 a). unfold Rsqr in S.
  rewrite <- sqrt_Rsqr_abs. f_equal. unfold Rsqr.
  replace (1000 * (2 * sin a * cos a) * (1000 * (2 * sin a * cos a))
    + 1000 * (1 - 2 * (sin a * sin a) - 1) * (1000 * (1 - 2 * (sin a * sin a) - 1)))
    with (2000 * sin a * (2000 * sin a) * (sin a * sin a + cos a * cos a)) by ring. rewrite S. ring.
Qed.

Lemma chord_pos s : 0 < s < 6000 -> 0 < chord s.
Proof. intros H. unfold chord. apply Rmult_lt_0_compat; [lra|]. apply sin_gt_0; generalize PI2_3_2; lra. Qed.

Lemma cone_distance s : 0 < s < 6000 ->
  sf_distance cone_surface (cone_track s) = 4 / 5 * (chord s - chord 100) + 9 / 8 * (s - 100).
Proof.
  intros H. unfold cone_surface. cbn [sf_distance]. rewrite cone_rho, Rabs_pos_eq by (generalize (chord_pos s H); lra).
  unfold cone_track. cbn [vz]. field.
Qed.

Lemma cone_rate s : 0 < s < 6000 -> rate cone_surface cone_hp cone_track s = 4 / 5 * cos (s / 2000) + 9 / 8.
Proof.
  intros H. assert (P := chord_pos s H). unfold rate, cone_surface. cbn [sf_normal]. rewrite cone_rho, Rabs_pos_eq by lra.
  unfold vdot, velocity, cone_track, cone_hp, w. cbn [vx vy vz]. simpl.
  replace (0 - / 1000 * s) with (- (s / 1000)) by (unfold Rdiv; ring). rewrite sin_neg, cos_neg.
  destruct (half s) as [-> ->]. unfold chord in *. set (a := s / 2000) in *.
  assert (S := sin2_cos2 a). unfold Rsqr in S.
  apply Rmult_eq_reg_r with (2000 * sin a); [|lra].
  transitivity (4 / 5 * 2000 * sin a * cos a * (sin a * sin a + (1 - sin a * sin a)) + 2000 * sin a * (9 / 8)); [|ring].
  field. lra.
Qed.

Lemma cos_lip x y : Rabs (cos x - cos y) <= Rabs (x - y).
Proof.
  destruct (mvt cos (fun t => - sin t) y x) as (c & _ & E).
  { intros t _. apply is_derive_Reals. apply derivable_pt_lim_cos. }
  rewrite E, Rabs_mult. rewrite <- (Rmult_1_l (Rabs (x - y))) at 2. apply Rmult_le_compat_r; [apply Rabs_pos|].
  rewrite Rabs_Ropp. apply Rabs_le. apply SIN_bound.
Qed.

Lemma cone_range s : Rabs (s - 100) <= 40 -> 60 <= s <= 140.
Proof. intros H. apply Rabs_le_between in H. lra. Qed.

Lemma cone_cos s : 0 < s < 3000 -> 0 <= cos (s / 2000) <= 1.
Proof. intros H. split; [apply cos_ge_0; generalize PI2_3_2; lra|apply COS_bound]. Qed.

Lemma cone_d0 : 3375 / 1000 <= Rabs (sf_distance cone_surface (cone_track 103)) <= 5775 / 1000.
Proof.
  rewrite cone_distance by lra.
  destruct (mvt chord (fun t => cos (t / 2000)) 100 103) as (c & Hc & E).
  { intros t _. unfold chord. auto_derive; auto. unfold Rdiv. field. }
  rewrite Rmin_left, Rmax_right in Hc by lra. assert (C := cone_cos c ltac:(lra)). rewrite E.
  rewrite Rabs_pos_eq; lra.
Qed.

Lemma cone_tame : tame cone_surface cone_hp cone_track (fun s => Rabs (s - 100) <= 40)
  (Rabs (sf_distance cone_surface (cone_track 103))) (9 / 16) (/ 2500).
Proof.
  assert (D := cone_d0).
  assert (K : stretch cone_hp = 17 / 8).
  { unfold stretch, cone_hp. simpl. replace (1 + 15 / 8 * (15 / 8)) with (17 / 8 * (17 / 8)) by field. apply sqrt_square. lra. }
  apply crossing_tame; try lra.
  - intros s Hs. apply cone_range in Hs.
    apply is_derive_ext_loc with (fun t => 4 / 5 * (chord t - chord 100) + 9 / 8 * (t - 100)).
    + exists (mkposreal 1 Rlt_0_1). intros t Ht. unfold ball in Ht; simpl in Ht; unfold AbsRing_ball, abs, minus, plus, opp in Ht; simpl in Ht.
      apply Rabs_lt_between in Ht. symmetry. apply cone_distance. lra.
    + rewrite cone_rate by lra. unfold chord. auto_derive; auto. unfold Rdiv. field.
  - intros s s' Hs Hs'. apply cone_range in Hs. apply cone_range in Hs'. rewrite !cone_rate by lra.
    replace (4 / 5 * cos (s' / 2000) + 9 / 8 - (4 / 5 * cos (s / 2000) + 9 / 8))
      with (4 / 5 * (cos (s' / 2000) - cos (s / 2000))) by ring.
    rewrite Rabs_mult, (Rabs_pos_eq (4 / 5)) by lra.
    assert (A := cos_lip (s' / 2000) (s / 2000)).
    replace (s' / 2000 - s / 2000) with (/ 2000 * (s' - s)) in A by field.
    rewrite Rabs_mult, (Rabs_pos_eq (/ 2000)) in A by lra. lra.
  - rewrite cone_distance by lra. ring.
  - rewrite cone_rate by lra. assert (C := cone_cos 100 ltac:(lra)). rewrite Rabs_pos_eq; lra.
  - rewrite K. lra.
Qed.

Lemma cone_cylinder o : intersectWithZCylinder cone_surface cone_hp v3zero o 1 false = Ok (true, OVal 103 (cone_track 103)).
Proof.
  assert (Ho : cone_hp OMEGA <> 0) by (unfold cone_hp, w; simpl; lra).
  assert (Hp : Rabs (cone_hp PHI0) <= 2 * PI) by (unfold cone_hp; simpl; rewrite Rabs_R0; generalize PI_RGT_0; lra).
  assert (Pc : 0 < chord 103) by (apply chord_pos; lra).
  assert (On : forall s, on_cylinder (chord 103) v3zero (cone_track s) <-> Rabs (chord s) = chord 103).
  { intros s. rewrite <- cone_rho. unfold on_cylinder, vrho, v3zero. cbn [vx vy vz].
    rewrite !Rminus_0_r. split.
    - intros ->. apply sqrt_square. lra.
    - intros <-. rewrite sqrt_sqrt; [reflexivity|]. assert (Q := Rle_0_sqr). unfold Rsqr in Q. generalize (Q (vx (cone_track s))) (Q (vy (cone_track s))). lra. }
  assert (NH : forall s, Rabs (cone_hp OMEGA * s) = PI -> ~ on_cylinder (chord 103) v3zero (cone_track s)).
  { intros s Hs Hon. apply On in Hon. unfold cone_hp, w in Hs. simpl in Hs.
    assert (sin (103 / 2000) < 1).
    { rewrite <- sin_PI2. apply sin_increasing_1; generalize PI2_3_2; lra. }
    unfold chord in Hon. rewrite Rabs_mult, (Rabs_pos_eq 2000) in Hon by lra.
    assert (Rabs (sin (s / 2000)) = 1); [|lra].
    assert (E : s / 2000 = PI / 2 \/ s / 2000 = - (PI / 2)).
    { unfold Rabs in Hs. destruct (Rcase_abs (/ 1000 * s)); [right|left]; lra. }
    destruct E as [-> | ->]; rewrite ?sin_neg, ?Rabs_Ropp, sin_PI2; apply Rabs_R1. }
  destruct (C17_first_crossing cone_surface cone_hp v3zero (chord 103) v3zero o cone_track Ho Hp cone_helix Pc eq_refl eq_refl NH) as [A _].
  destruct (proj2 (A 103)) as (x & E).
  - split; [|split].
    + unfold cone_hp, w. simpl. rewrite Rabs_pos_eq by lra. generalize PI2_3_2. intros.
      replace (PI / / 1000) with (1000 * PI) by field. lra.
    + apply On. apply Rabs_pos_eq. lra.
    + intros s' Hs' Hon. apply On in Hon. destruct (Rle_dec 103 s') as [L|L]; auto. exfalso.
      assert (chord s' < chord 103).
      { unfold chord. apply Rmult_lt_compat_l; [lra|]. apply sin_increasing_1; generalize PI2_3_2; lra. }
      destruct (Rle_lt_or_eq_dec 0 s' Hs') as [P|<-].
      * rewrite Rabs_pos_eq in Hon by (generalize (chord_pos s' ltac:(lra)); lra). lra.
      * unfold chord at 1 in Hon. replace (0 / 2000) with 0 in Hon by field. rewrite sin_0, Rmult_0_r, Rabs_R0 in Hon. lra.
  - rewrite E. destruct (zcyl_complete cone_surface cone_hp v3zero (chord 103) v3zero o 1 false cone_track Ho Hp cone_helix Pc eq_refl eq_refl)
      as [(B & _)|[(_ & s & b & _ & _ & _ & B)|(_ & _ & B)]]; rewrite B in E; try discriminate.
    injection E as -> -> <-. reflexivity.
Qed.

(** The track from the origin with 1/cos(lambda) = 17/8 crosses the cone at the
    path length 100 cm, at the height 187.5 cm.  The search starts on the
    middle cylinder, less than 6 cm away, and the cone is reported as missed. *)
Theorem C68_cone_missed_refuted : exists surf hp rp f s r0,
  hp OMEGA <> 0 /\ is_helix hp rp f /\ st_cone (sf_type surf) = true
  /\ (forall x, sf_distance surf x = 4 / 5 * (sqrt (vx x * vx x + vy x * vy x) - (r0 - 3 / 4 * vz x)))
  /\ (forall x, sf_insideBounds surf x = true)
  /\ 0 < s /\ Rabs (hp OMEGA * s) <= 1 / 10 /\ sf_distance surf (f s) = 0
  /\ exists s' x', intersectWithSurface surf hp rp OBad 1 false = Ok (false, OVal s' x') /\ x' = f s'
     /\ newton_tol < Rabs (sf_distance surf x').
Proof.
  exists cone_surface, cone_hp, v3zero, cone_track, 100, (chord 100 + 3 / 4 * (15 / 8 * 100)).
  assert (Ho : cone_hp OMEGA <> 0) by (unfold cone_hp, w; simpl; lra).
  split; [exact Ho|]. split; [exact cone_helix|]. split; [reflexivity|].
  split; [intros x; unfold cone_surface, vrho; cbn [sf_distance]; field|].
  split; [reflexivity|]. split; [lra|].
  split; [unfold cone_hp, w; simpl; rewrite Rabs_pos_eq; lra|].
  split; [rewrite cone_distance by lra; ring|].
  assert (D := cone_d0). assert (T := cone_tame). set (d0 := Rabs (sf_distance cone_surface (cone_track 103))) in *.
  assert (K : stretch cone_hp = 17 / 8).
  { unfold stretch, cone_hp. simpl. replace (1 + 15 / 8 * (15 / 8)) with (17 / 8 * (17 / 8)) by field. apply sqrt_square. lra. }
  assert (Ed : d0 = Rabs (sf_distance cone_surface (cone_track 103))) by reflexivity. clearbody d0.
  assert (B : 0 <= bend cone_hp d0 (9 / 16) (/ 2500) <= 34 / 1000).
  { unfold bend. rewrite K. lra. }
  assert (L9 : damping 9 = / 100) by (rewrite (damping_eq 9 1000000000 eq_refl); lra).
  assert (L10 : damping 10 = / 10) by (rewrite (damping_eq 10 10000000000 eq_refl); lra).
  assert (Ab : Rabs (1 - 17 / 8 / (1 + / 10)) = 41 / 44) by (rewrite Rabs_left1; lra).
  destruct (C68_damped_runs_out cone_surface cone_hp v3zero cone_track _ d0 (9 / 16) (/ 2500) (89 / 100) 10 103 1 false
              Ho cone_helix T) as (s & E & _ & N); auto.
  - rewrite Rabs_pos_eq; lra.
  - lra.
  - lia.
  - change (10 - 1)%nat with 9%nat. rewrite K, L9. lra.
  - rewrite K, L10, Ab. lra.
  - rewrite K, L10, Ab. lra.
  - change (useful 10) with 45%nat. unfold newton_tol. lra.
  - exists s, (cone_track s). split; [|split; [reflexivity|]].
    + unfold intersectWithSurface, intersectWithZCone. cbn -[intersectWithZCylinder intersectWithSurfaceNewton cone_surface cone_hp cone_track].
      change (sf_type cone_surface) with (ST false false true true false). cbn -[intersectWithZCylinder intersectWithSurfaceNewton cone_surface cone_hp cone_track].
      rewrite cone_cylinder. cbn [bind]. exact E.
    + change (useful 10) with 45%nat in N. unfold newton_tol in *. lra.
Qed.
Print Assumptions C68_cone_missed_refuted.
End Cone.

(** an instance of C68_plane_reached: a plane inclined to the axis, reached from
    2 cm behind it *)
Definition inc_hp : vec5 := mk5 (/ 200) (3 / 4) 0 0 0.
Definition inc_track (s : R) : vec3 := V3 (200 * sin (s / 200)) (200 * (cos (s / 200) - 1)) (3 / 4 * s).
Definition inc_plane : surface :=
  ex_surface (ST false true false false false) None v3zero (V3 (3 / 5) 0 (4 / 5)) (fun x => vdot (vsub x v3zero) (V3 (3 / 5) 0 (4 / 5))).

Lemma inc_helix : is_helix inc_hp v3zero inc_track.
Proof.
  assert (H : inc_hp OMEGA <> 0) by (unfold inc_hp; simpl; lra).
  assert (E : forall s, inc_track s = hcurve inc_hp v3zero s).
  { intros s. unfold inc_track, hcurve, inc_hp, v3zero. simpl. rewrite sin_0, cos_0.
    replace (0 - s * / 200) with (- (s / 200)) by (unfold Rdiv; ring). rewrite sin_neg, cos_neg.
    f_equal; field. }
  destruct (hcurve_helix inc_hp v3zero H) as [A B C D]. constructor.
  - rewrite E. exact A.
  - intros s. eapply is_derive_ext; [|apply B]. intros t. cbv beta. rewrite E. reflexivity.
  - intros s. eapply is_derive_ext; [|apply C]. intros t. cbv beta. rewrite E. reflexivity.
  - intros s. eapply is_derive_ext; [|apply D]. intros t. cbv beta. rewrite E. reflexivity.
Qed.

Example C68_instance : exists s, intersectWithSurfaceNewton inc_plane inc_hp v3zero 2 0 true = Ok (true, OVal s (inc_track s))
  /\ Rabs s < / 2000.
Proof.
  assert (Ho : inc_hp OMEGA <> 0) by (unfold inc_hp; simpl; lra).
  assert (K : stretch inc_hp = 5 / 4).
  { unfold stretch, inc_hp. simpl. replace (1 + 3 / 4 * (3 / 4)) with (5 / 4 * (5 / 4)) by field. apply sqrt_square. lra. }
  assert (G : Rabs (rate inc_plane inc_hp inc_track 0) = 6 / 5).
  { unfold rate, inc_plane, ex_surface, vdot, velocity, inc_hp. simpl. rewrite Rmult_0_r, Rminus_0_r, cos_0, sin_0.
    rewrite Rabs_pos_eq; lra. }
  assert (D : Rabs (sf_distance inc_plane (inc_track 2)) <= 24 / 10).
  { unfold inc_plane, ex_surface, vdot, vsub, inc_track, v3zero. simpl.
    assert (A := sin_lt_x (2 / 200) ltac:(lra)).
    assert (B : 0 < sin (2 / 200)) by (apply sin_gt_0; generalize PI2_3_2; lra). rewrite Rabs_pos_eq; lra. }
  assert (D' := Rabs_pos (sf_distance inc_plane (inc_track 2))).
  assert (W : Rabs (inc_hp OMEGA) = / 200) by (unfold inc_hp; simpl; apply Rabs_pos_eq; lra).
  assert (Z : sf_distance inc_plane (inc_track 0) = 0).
  { unfold inc_plane, ex_surface, vdot, vsub, inc_track, v3zero. simpl. unfold Rdiv. rewrite Rmult_0_l, sin_0, cos_0. ring. }
  destruct (C68_plane_reached inc_plane inc_hp v3zero inc_track (V3 (3 / 5) 0 (4 / 5)) v3zero 0 10 2 0 true) as (s & b & E & I & N & B & C);
    rewrite ?G, ?W, ?K in *; auto using inc_helix; try lra.
  - unfold vdot. simpl. lra.
  - rewrite Rminus_0_r, Rabs_pos_eq; lra.
  - exists s. split.
    + rewrite E. f_equal. f_equal. apply B. split; [split; intros; lia|reflexivity].
    + rewrite Rminus_0_r in I. specialize (C 0).
      replace (Rabs (0 - s)) with (Rabs s) in C by (rewrite <- (Rabs_Ropp s); f_equal; ring).
      assert (Q : Rabs s < 2 * newton_tol / (6 / 5 / 2)).
      { apply C; auto; [rewrite Rminus_diag_eq, Rabs_R0 by reflexivity; lra|lra]. }
      unfold newton_tol in Q. lra.
Qed.
