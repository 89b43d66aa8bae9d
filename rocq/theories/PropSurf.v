(** Properties C15-C21, C51: intersections of a helix with surfaces. *)
From Coq Require Import Reals Lra Lia Psatz ZArith List Bool.
From Coquelicot Require Import Coquelicot.
From Verif Require Import SpecConst Num NumFacts Vec Helix Isect SpecHelix SpecIsect HelixFacts PathFacts IsectFacts
  SurfFacts SurfFacts2 SurfFacts3.
Import ListNotations.
Open Scope R_scope.

(** A family of concrete surfaces for the examples: the flags, the cylinder
    data, origin, (constant) normal and distance are given, the rest is inert. *)
Definition ex_surface (t : surfType) (cyl : option (R * vec3)) (o n : vec3) (dist : vec3 -> R) : surface :=
  Surf 0 t cyl (fun _ => true) (fun _ => v3zero) (fun _ => v3zero) (fun _ => n)
    (fun _ => (0, 0)) (fun _ => v3zero) o (Mat 1 1 1 1) (Mat 1 1 1 1) 0 0 dist.

(** unit circle through the origin, starting along +x and turning right *)
Definition ex_hp : vec5 := mk5 1 1 0 0 0.

Lemma ex_curve s : hcurve ex_hp v3zero s = V3 (sin s) (cos s - 1) s.
Proof.
  unfold hcurve, ex_hp, v3zero. simpl.
  rewrite sin_0, cos_0. replace (0 - s * 1) with (- s) by ring. rewrite sin_neg, cos_neg.
  f_equal; field.
Qed.

Lemma ex_om : ex_hp OMEGA <> 0. Proof. simpl. lra. Qed.
Lemma ex_phi : Rabs (ex_hp PHI0) <= 2 * PI.
Proof. simpl. rewrite Rabs_R0. generalize PI_pos; lra. Qed.
Lemma ex_helix : is_helix ex_hp v3zero (fun s => V3 (sin s) (cos s - 1) s).
Proof.
  destruct (hcurve_helix ex_hp v3zero ex_om) as [A B C D]. constructor.
  - rewrite <- A, ex_curve. reflexivity.
  - intros s. refine (is_derive_ext _ _ _ _ _ (B s)). intros t. rewrite ex_curve. reflexivity.
  - intros s. refine (is_derive_ext _ _ _ _ _ (C s)). intros t. rewrite ex_curve. reflexivity.
  - intros s. refine (is_derive_ext _ _ _ _ _ (D s)). intros t. rewrite ex_curve. reflexivity.
Qed.

Definition plane_type : surfType := ST false true false true false.
Definition cyl_type : surfType := ST true false false true false.
Definition disk_type : surfType := ST false true false false true.
Definition cone_type : surfType := ST false false true true false.

(** the plane x = a, with normal (nx,0,0) *)
Definition ex_plane (nx a : R) : surface :=
  ex_surface plane_type None (V3 a 0 0) (V3 nx 0 0) (fun x => nx * (vx x - a)).

Lemma ex_plane_ok nx a : Rabs nx = 1 -> zplane_ok (ex_plane nx a).
Proof.
  intros H. unfold zplane_ok, ex_plane, ex_surface; simpl. split; auto. left.
  rewrite H. unfold eps12, tol12. lra.
Qed.

(** ** C15 *)

(** A reported point is the point of the helix at the reported path length,
    within half a turn.  It lies on the plane if origin . normal >= 0; otherwise
    it lies on the mirror image of the plane and never on the plane. *)
Theorem C15_zplane_point : forall surf hp rp o mode cb f s xx,
  hp OMEGA <> 0 -> Rabs (hp PHI0) <= 2 * PI -> is_helix hp rp f -> zplane_ok surf ->
  intersectWithZPlane surf hp rp o mode cb = Ok (true, OVal s xx) ->
  let d := vdot (sf_origin surf) (sf_normal surf v3zero) in
  xx = f s /\ pointAt s hp rp = Ok xx /\ Rabs (hp OMEGA * s) < PI
  /\ ((0 < mode)%Z -> 0 <= s) /\ ((mode < 0)%Z -> s < 0)
  /\ (cb = true -> sf_insideBounds surf xx = true)
  /\ (0 <= d -> on_plane (sf_origin surf) (sf_normal surf v3zero) xx)
  /\ (d < 0 -> vdot xx (sf_normal surf v3zero) = - d
               /\ ~ on_plane (sf_origin surf) (sf_normal surf v3zero) xx).
Proof. exact zplane_sound. Qed.
Print Assumptions C15_zplane_point.

(** Away from tangency the call finds the crossing the mode asks for. *)
Theorem C15_zplane_complete : forall surf hp rp o mode cb f,
  hp OMEGA <> 0 -> Rabs (hp PHI0) <= 2 * PI -> is_helix hp rp f -> zplane_ok surf ->
  0 <= vdot (sf_origin surf) (sf_normal surf v3zero) ->
  tol9 < plane_margin surf hp rp ->
  let P := on_plane (sf_origin surf) (sf_normal surf v3zero) in
  (forall s, Rabs (hp OMEGA * s) = PI -> ~ P (f s)) ->
  (exists s b, picked 0 mode (crossing f (hp OMEGA) P) s
     /\ (b = true <-> (cb = true -> sf_insideBounds surf (f s) = true))
     /\ intersectWithZPlane surf hp rp o mode cb = Ok (b, OVal s (f s)))
  \/ (none_for mode (crossing f (hp OMEGA) P)
      /\ intersectWithZPlane surf hp rp o mode cb = Ok (false, o)).
Proof. exact zplane_complete_f. Qed.
Print Assumptions C15_zplane_complete.

(** Success with a point that is not finite. *)
Theorem C15_nonfinite_success_iff : forall surf hp rp o mode cb,
  hp OMEGA <> 0 -> Rabs (hp PHI0) <= 2 * PI -> zplane_ok surf ->
  (intersectWithZPlane surf hp rp o mode cb = Ok (true, OBad) <->
   mode = 0%Z /\ cb = false /\ - tol9 <= plane_margin surf hp rp < 0).
Proof. exact zplane_nan. Qed.
Print Assumptions C15_nonfinite_success_iff.

(** Every outcome for a curved track, in terms of the plane the code uses
    ([pline], the given one if origin . normal >= 0). *)
Theorem C15_outcomes : forall surf hp rp o mode cb f,
  hp OMEGA <> 0 -> Rabs (hp PHI0) <= 2 * PI -> is_helix hp rp f -> zplane_ok surf ->
  let P x := on_line (pline surf) (vx x, vy x) in
  let r := intersectWithZPlane surf hp rp o mode cb in
  let m := plane_margin surf hp rp in
  (0 <= vdot (sf_origin surf) (sf_normal surf v3zero) ->
     forall x, P x <-> on_plane (sf_origin surf) (sf_normal surf v3zero) x)
  /\ (m < - tol9 -> r = Ok (false, o))
  /\ (- tol9 <= m < 0 ->
        (mode <> 0%Z -> r = Ok (false, OBad))
        /\ (mode = 0%Z -> cb = false -> r = Ok (true, OBad))
        /\ (mode = 0%Z -> cb = true -> r = NonFin))
  /\ (0 <= m <= tol9 ->
        (exists s, Rabs (hp OMEGA * s) = PI /\ P (f s) /\ r = NonFin)
        \/ (exists s b, crossing f (hp OMEGA) P s
              /\ (b = true <-> sign_ok mode s /\ (cb = true -> sf_insideBounds surf (f s) = true))
              /\ r = Ok (b, OVal s (f s))))
  /\ (tol9 < m ->
        (r = NonFin /\ exists s, Rabs (hp OMEGA * s) = PI /\ P (f s))
        \/ ((forall s, Rabs (hp OMEGA * s) = PI -> ~ P (f s))
            /\ exists s b, picked 0 mode (crossing f (hp OMEGA) P) s
                 /\ (b = true <-> (cb = true -> sf_insideBounds surf (f s) = true))
                 /\ r = Ok (b, OVal s (f s)))
        \/ ((forall s, Rabs (hp OMEGA * s) = PI -> ~ P (f s))
            /\ none_for mode (crossing f (hp OMEGA) P) /\ r = Ok (false, o))).
Proof.
  intros surf hp rp o mode cb f H Hp Hf Hz P r m. split; [intros Hd x; apply on_pline_iff; auto|].
  apply zplane_outcomes; auto.
Qed.
Print Assumptions C15_outcomes.

(** A straight track never meets a plane that is not (nearly) through the
    origin; for a plane through the origin the result is the point of the beam
    line at the height of the start of the track, wherever the track is. *)
Theorem C15_straight_track : forall surf hp rp o mode cb, hp OMEGA = 0 -> zplane_ok surf ->
  let d := vdot (sf_origin surf) (sf_normal surf v3zero) in
  let r := intersectWithZPlane surf hp rp o mode cb in
  let x := V3 0 0 (vz rp + hp Z0) in
  (tol9 < d * d -> r = Ok (false, o))
  /\ (d * d <= tol9 -> d <> 0 ->
        (mode <> 0%Z -> r = Ok (false, OBad))
        /\ (mode = 0%Z -> cb = false -> r = Ok (true, OBad))
        /\ (mode = 0%Z -> cb = true -> r = NonFin))
  /\ (d = 0 ->
        (- (3 * PI) < hp PHI0 <= 3 * PI -> exists b, r = Ok (b, OVal 0 x)
           /\ (b = true <-> mode = 0%Z /\ (cb = true -> sf_insideBounds surf x = true)))
        /\ (~ (- (3 * PI) < hp PHI0 <= 3 * PI) -> r = NonFin)).
Proof. exact zplane_straight_all. Qed.
Print Assumptions C15_straight_track.

(** An exception exactly for a normal without transverse part. *)
Theorem C15_throws : forall surf o hp rp mode cb,
  intersectWithZPlane surf hp rp o mode cb = Throw <->
  Rabs (vx (sf_normal surf v3zero)) < tol12 /\ Rabs (vy (sf_normal surf v3zero)) < tol12.
Proof. exact zplane_throw_iff. Qed.
Print Assumptions C15_throws.

Lemma ex_margin nx a : nx * nx = 1 -> plane_margin (ex_plane nx a) ex_hp v3zero = 1 - a * a.
Proof.
  intros H. unfold plane_margin, overlap, hcircle, pline, ex_plane, ex_surface, ex_hp, v3zero, vdot.
  simpl. rewrite sin_0, cos_0.
  replace (1 / 1) with 1 by field. rewrite Rabs_R1.
  replace (nx * (0 + (1 - 0) * 0) + 0 * (0 - (1 - 0) * 1)) with 0 by ring.
  rewrite Rminus_0_r, Rabs_sq. replace (a * nx + 0 * 0 + 0 * 0) with (a * nx) by ring. nra.
Qed.

Lemma sin_half_first s : 0 <= s <= PI / 6 -> sin s = 1 / 2 -> s = PI / 6.
Proof.
  intros H E. destruct (Rle_lt_or_eq_dec s (PI / 6) (proj2 H)) as [L|L]; auto.
  exfalso. generalize PI_pos; intros HP.
  assert (sin s < sin (PI / 6)) by (apply sin_increasing_1; lra). rewrite sin_PI6 in H0. lra.
Qed.

(** plane x = 1/2: the first crossing is at pi/6 *)
Example C15_example : forall o cb,
  intersectWithZPlane (ex_plane 1 (1/2)) ex_hp v3zero o 1 cb
  = Ok (true, OVal (PI / 6) (V3 (sin (PI / 6)) (cos (PI / 6) - 1) (PI / 6))).
Proof.
  intros o cb. generalize PI_pos; intros HP.
  destruct (C15_zplane_complete (ex_plane 1 (1/2)) ex_hp v3zero o 1 cb _ ex_om ex_phi ex_helix)
    as [(s & b & P & B & E)|(N & E)].
  - apply ex_plane_ok. apply Rabs_R1.
  - unfold vdot; simpl. lra.
  - rewrite ex_margin by lra. unfold eps9, tol9. lra.
  - intros s Hs. simpl in Hs. rewrite Rmult_1_l in Hs. unfold on_plane, vdot, vsub; simpl.
    assert (S0 : sin s = 0).
    { unfold Rabs in Hs. destruct (Rcase_abs s).
      - replace s with (- PI) by lra. rewrite sin_neg, sin_PI. ring.
      - rewrite Hs. apply sin_PI. }
    rewrite S0. lra.
  - destruct P as [[P1 P2] P3 _ _]. destruct (P3 eq_refl) as [P4 P5].
    unfold on_plane, vdot, vsub in P2; simpl in P2.
    assert (s = PI / 6).
    { apply sin_half_first; [|lra]. split; auto. apply P5; [|lra]. split; simpl.
      - rewrite Rmult_1_l, Rabs_pos_eq; lra.
      - unfold on_plane, vdot, vsub; simpl. rewrite sin_PI6. lra. }
    subst s. rewrite E. f_equal. f_equal. apply B. reflexivity.
  - exfalso. destruct (N (PI / 6)) as [[_ A]|[A _]]; try lia; try lra. split; simpl.
    + rewrite Rmult_1_l, Rabs_pos_eq; lra.
    + unfold on_plane, vdot, vsub; simpl. rewrite sin_PI6. lra.
Qed.

(** The same plane with the opposite normal: the track does cross the plane, the
    call reports success with a point on the other side. *)
Theorem C15_mirrored_plane_refuted : exists surf hp rp f s0 s xx,
  hp OMEGA <> 0 /\ Rabs (hp PHI0) <= 2 * PI /\ is_helix hp rp f /\ zplane_ok surf
  /\ on_plane (sf_origin surf) (sf_normal surf v3zero) (f s0)
  /\ intersectWithZPlane surf hp rp OBad 0 false = Ok (true, OVal s xx)
  /\ ~ on_plane (sf_origin surf) (sf_normal surf v3zero) xx.
Proof.
  generalize PI_pos; intros HP.
  assert (HO : Rabs (-1) = 1) by (rewrite Rabs_left; lra).
  assert (Hok := ex_plane_ok (-1) (1/2) HO).
  destruct (zplane_complete (ex_plane (-1) (1/2)) ex_hp v3zero OBad 0 false ex_om ex_phi Hok)
    as [(s & P & E)|(N & _)].
  - change (eps9 < plane_margin (ex_plane (-1) (1/2)) ex_hp v3zero).
    rewrite ex_margin by lra. unfold eps9, tol9. lra.
  - intros s Hs. rewrite ex_curve. simpl in Hs. rewrite Rmult_1_l in Hs. unfold on_line; simpl.
    assert (S0 : sin s = 0).
    { unfold Rabs in Hs. destruct (Rcase_abs s).
      - replace s with (- PI) by lra. rewrite sin_neg, sin_PI. ring.
      - rewrite Hs. apply sin_PI. }
    rewrite S0. unfold vdot; simpl. rewrite Rabs_left; lra.
  - exists (ex_plane (-1) (1/2)), ex_hp, v3zero, (fun s => V3 (sin s) (cos s - 1) s), (PI / 6), s,
      (hcurve ex_hp v3zero s).
    split; [exact ex_om|]. split; [exact ex_phi|]. split; [exact ex_helix|]. split; [exact Hok|].
    split; [unfold on_plane, vdot, vsub; simpl; rewrite sin_PI6; lra|].
    split; [exact E|].
    assert (Q : vdot (V3 (1/2) 0 0) (V3 (-1) 0 0) < 0) by (unfold vdot; simpl; lra).
    apply (C15_zplane_point (ex_plane (-1) (1/2)) ex_hp v3zero OBad 0 false _ s _ ex_om ex_phi
             ex_helix Hok E). exact Q.
  - exfalso. destruct (N (- (PI / 6))) as [[A _]|[A _]]; try lia. split.
    + simpl. rewrite Rmult_1_l, Rabs_left; lra.
    + rewrite ex_curve. unfold on_line, pline, vdot; simpl. rewrite sin_neg, sin_PI6.
      rewrite Rabs_left; lra.
Qed.
Print Assumptions C15_mirrored_plane_refuted.

(** A plane the track misses by 1e-10: success, no finite point. *)
Theorem C15_success_without_point_refuted : exists surf hp rp f,
  hp OMEGA <> 0 /\ Rabs (hp PHI0) <= 2 * PI /\ is_helix hp rp f /\ zplane_ok surf
  /\ 0 <= vdot (sf_origin surf) (sf_normal surf v3zero)
  /\ (forall s, ~ on_plane (sf_origin surf) (sf_normal surf v3zero) (f s))
  /\ intersectWithZPlane surf hp rp (OVal 0 v3zero) 0 false = Ok (true, OBad).
Proof.
  exists (ex_plane 1 (1 + / 10000000000)), ex_hp, v3zero, (fun s => V3 (sin s) (cos s - 1) s).
  assert (Hok := ex_plane_ok 1 (1 + / 10000000000) Rabs_R1).
  split; [exact ex_om|]. split; [exact ex_phi|]. split; [exact ex_helix|]. split; [exact Hok|].
  split; [unfold vdot; simpl; lra|].
  split.
  - intros s. unfold on_plane, vdot, vsub; simpl. generalize (SIN_bound s). lra.
  - apply (C15_nonfinite_success_iff _ _ _ _ _ _ ex_om ex_phi Hok). split; auto. split; auto.
    rewrite ex_margin by lra. unfold eps9, tol9. lra.
Qed.
Print Assumptions C15_success_without_point_refuted.

(** A straight track along x that runs into the plane x = 1 is reported as a miss. *)
Theorem C15_straight_track_refuted : exists surf hp rp f s,
  is_helix hp rp f /\ zplane_ok surf /\ 0 < s
  /\ on_plane (sf_origin surf) (sf_normal surf v3zero) (f s)
  /\ intersectWithZPlane surf hp rp OBad 1 false = Ok (false, OBad).
Proof.
  exists (ex_plane 1 1), (mk5 0 0 0 0 0), v3zero, (hline (mk5 0 0 0 0 0) v3zero), 1.
  split; [apply hline_helix; reflexivity|]. split; [apply ex_plane_ok, Rabs_R1|]. split; [lra|].
  split.
  - unfold on_plane, vdot, vsub, hline; simpl. rewrite sin_0, cos_0. ring.
  - apply (proj1 (C15_straight_track (ex_plane 1 1) (mk5 0 0 0 0 0) v3zero OBad 1 false eq_refl (ex_plane_ok 1 1 Rabs_R1))).
    unfold vdot, eps9, tol9; simpl. lra.
Qed.
Print Assumptions C15_straight_track_refuted.

(** ** C16 *)
Theorem C16_zcylinder_point : forall surf hp rp rho c o mode cb f s xx,
  hp OMEGA <> 0 -> Rabs (hp PHI0) <= 2 * PI -> is_helix hp rp f -> 0 < rho ->
  sf_cyl surf = Some (rho, c) ->
  intersectWithZCylinder surf hp rp o mode cb = Ok (true, OVal s xx) ->
  xx = f s /\ pointAt s hp rp = Ok xx /\ on_cylinder rho c xx /\ Rabs (hp OMEGA * s) < PI
  /\ ((0 < mode)%Z -> 0 <= s) /\ ((mode < 0)%Z -> s < 0)
  /\ (cb = true -> sf_insideBounds surf xx = true).
Proof. exact zcyl_sound. Qed.
Print Assumptions C16_zcylinder_point.

Theorem C16_throws_iff : forall surf hp rp o mode cb,
  intersectWithZCylinder surf hp rp o mode cb = Throw <->
  (st_parallelToZ (sf_type surf) = false \/ sf_cyl surf = None).
Proof. exact zcyl_throw. Qed.
Print Assumptions C16_throws_iff.

(** Straight tracks: missed exactly if the line does not meet the cylinder or
    the search is backward; otherwise the entry point of the line, forward or
    not, with path length 0 and the height of the start of the track. *)
Theorem C16_straight_track : forall surf hp rp rho c o mode cb f,
  hp OMEGA = 0 -> 0 < rho -> is_helix hp rp f ->
  st_parallelToZ (sf_type surf) = true -> sf_cyl surf = Some (rho, c) ->
  let r := intersectWithZCylinder surf hp rp o mode cb in
  let P t := on_cylinder rho c (f t) in
  ((forall t, ~ P t) -> r = Ok (false, o))
  /\ (forall t, P t ->
        (- (3 * PI) < hp PHI0 <= 3 * PI ->
           ((mode < 0)%Z -> r = Ok (false, o))
           /\ ((0 <= mode)%Z -> (forall t', P t' -> t <= t') ->
                let x := V3 (vx (f t)) (vy (f t)) (vz (f 0)) in
                exists b, r = Ok (b, OVal 0 x) /\ (b = true <-> (cb = true -> sf_insideBounds surf x = true))))
        /\ (~ (- (3 * PI) < hp PHI0 <= 3 * PI) -> r = NonFin)).
Proof. exact zcyl_straight_all. Qed.
Print Assumptions C16_straight_track.

Definition ex_cyl (cx cy rho : R) : surface :=
  ex_surface cyl_type (Some (rho, V3 cx cy 0)) (V3 cx cy 0) (V3 1 0 0) (fun _ => 0).

(** Straight track from the centre of a cylinder: success, but the reported
    point is not the point of the track at the reported path length. *)
Theorem C16_straight_track_refuted : exists surf hp rp f xx,
  is_helix hp rp f /\ sf_cyl surf = Some (1, v3zero)
  /\ intersectWithZCylinder surf hp rp OBad 1 false = Ok (true, OVal 0 xx)
  /\ xx <> f 0 /\ on_cylinder 1 v3zero (f 1).
Proof.
  generalize PI_pos; intros HP.
  set (hp := mk5 0 0 0 0 0). set (sf := ex_cyl 0 0 1).
  assert (HL : is_helix hp v3zero (hline hp v3zero)) by (apply hline_helix; reflexivity).
  assert (V : forall t, hline hp v3zero t = V3 t 0 0).
  { intros t. unfold hline, hp, v3zero. simpl. rewrite sin_0, cos_0. f_equal; ring. }
  assert (C : forall t, on_cylinder 1 v3zero (hline hp v3zero t) <-> t * t = 1).
  { intros t. rewrite V. unfold on_cylinder, v3zero. simpl. split; intros; lra. }
  destruct (C16_straight_track sf hp v3zero 1 v3zero OBad 1 false _ eq_refl Rlt_0_1 HL eq_refl eq_refl) as [_ K].
  cbv zeta in K. destruct (K (-1)) as [K1 _]; [apply C; lra|].
  destruct K1 as [_ K1]; [simpl; lra|].
  destruct K1 as (b & E & B); [lia| |].
  { intros t' Ht. apply C in Ht. nra. }
  assert (b = true) by (apply B; discriminate). subst b.
  exists sf, hp, v3zero, (hline hp v3zero). eexists. split; [exact HL|]. split; [reflexivity|].
  split; [exact E|]. rewrite !V. cbn [vx vy vz]. split; [intros Q; injection Q; lra|].
  unfold on_cylinder, v3zero; simpl. ring.
Qed.
Print Assumptions C16_straight_track_refuted.

(** ** C17 *)

(** Every outcome for a curved track on a z-parallel cylinder: not finite iff
    it is crossed exactly at half a turn; otherwise the crossing the mode asks
    for, or a miss if there is none. *)
Theorem C17_zcylinder_complete : forall surf hp rp rho c o mode cb f,
  hp OMEGA <> 0 -> Rabs (hp PHI0) <= 2 * PI -> is_helix hp rp f -> 0 < rho ->
  st_parallelToZ (sf_type surf) = true -> sf_cyl surf = Some (rho, c) ->
  (intersectWithZCylinder surf hp rp o mode cb = NonFin
   /\ exists s, Rabs (hp OMEGA * s) = PI /\ on_cylinder rho c (f s))
  \/ ((forall s, Rabs (hp OMEGA * s) = PI -> ~ on_cylinder rho c (f s))
      /\ exists s b, picked tol4 mode (crossing f (hp OMEGA) (on_cylinder rho c)) s
         /\ (b = true <-> (cb = true -> sf_insideBounds surf (f s) = true))
         /\ pointAt s hp rp = Ok (f s)
         /\ intersectWithZCylinder surf hp rp o mode cb = Ok (b, OVal s (f s)))
  \/ ((forall s, Rabs (hp OMEGA * s) = PI -> ~ on_cylinder rho c (f s))
      /\ none_for mode (crossing f (hp OMEGA) (on_cylinder rho c))
      /\ intersectWithZCylinder surf hp rp o mode cb = Ok (false, o)).
Proof. exact zcyl_complete. Qed.
Print Assumptions C17_zcylinder_complete.

(** first crossing forward, last one backward *)
Theorem C17_first_crossing : forall surf hp rp rho c o f,
  hp OMEGA <> 0 -> Rabs (hp PHI0) <= 2 * PI -> is_helix hp rp f -> 0 < rho ->
  st_parallelToZ (sf_type surf) = true -> sf_cyl surf = Some (rho, c) ->
  (forall s, Rabs (hp OMEGA * s) = PI -> ~ on_cylinder rho c (f s)) ->
  (forall s, (exists x, intersectWithZCylinder surf hp rp o 1 false = Ok (true, OVal s x)) <->
     (0 <= s < PI / Rabs (hp OMEGA) /\ on_cylinder rho c (f s)
      /\ forall s', 0 <= s' -> on_cylinder rho c (f s') -> s <= s'))
  /\ (forall s, (exists x, intersectWithZCylinder surf hp rp o (-1) false = Ok (true, OVal s x)) <->
     (- (PI / Rabs (hp OMEGA)) < s < 0 /\ on_cylinder rho c (f s)
      /\ forall s', s' < 0 -> on_cylinder rho c (f s') -> s' <= s)).
Proof.
  intros surf hp rp rho c o f H Hp Hf Hr Hpar Hcyl NH.
  assert (Ha : 0 < Rabs (hp OMEGA)) by (apply Rabs_pos_lt; auto).
  assert (IF : forall s, Rabs (hp OMEGA * s) < PI <-> - (PI / Rabs (hp OMEGA)) < s < PI / Rabs (hp OMEGA)).
  { intros s. rewrite Rabs_mult. set (a := Rabs (hp OMEGA)) in *.
    assert (E : PI / a * a = PI) by (field; lra).
    split.
    - intros L. assert (L' : Rabs s < PI / a).
      { apply Rmult_lt_reg_r with a; auto. lra. }
      apply Rabs_def2 in L'. lra.
    - intros [L1 L2]. assert (L' : Rabs s < PI / a) by (apply Rabs_def1; lra).
      apply Rmult_lt_compat_l with (r := a) in L'; auto. lra. }
  split; intros s; split.
  - intros [x E]. destruct (zcyl_complete surf hp rp rho c o 1 false f H Hp Hf Hr Hpar Hcyl)
      as [(A & _)|[(_ & s' & b & P & _ & _ & A)|(_ & _ & A)]]; rewrite A in E; try discriminate.
    injection E as -> -> _. destruct P as [[P1 P2] P3 _ _]. destruct (P3 eq_refl) as [P4 P5].
    apply IF in P1. split; [lra|]. split; auto.
    intros s' L' O'. destruct (Rlt_dec s' (PI / Rabs (hp OMEGA))) as [L|L]; [|lra].
    apply P5; auto. split; auto. apply IF. lra.
  - intros (L & O & M). destruct (zcyl_complete surf hp rp rho c o 1 false f H Hp Hf Hr Hpar Hcyl)
      as [(_ & s' & A & B)|[(_ & s' & b & P & B & _ & A)|(_ & N & _)]].
    + exfalso. apply (NH s' A B).
    + exists (f s'). destruct P as [[P1 P2] P3 _ _]. destruct (P3 eq_refl) as [P4 P5].
      assert (s = s').
      { apply Rle_antisym; [apply M; auto|]. apply P5; [|lra]. split; auto. apply IF. lra. }
      subst s'. rewrite A. f_equal. f_equal. apply B. discriminate.
    + exfalso. destruct (N s) as [[_ A]|[A _]]; try lia; try lra. split; auto. apply IF. lra.
  - intros [x E]. destruct (zcyl_complete surf hp rp rho c o (-1) false f H Hp Hf Hr Hpar Hcyl)
      as [(A & _)|[(_ & s' & b & P & _ & _ & A)|(_ & _ & A)]]; rewrite A in E; try discriminate.
    injection E as -> -> _. destruct P as [[P1 P2] _ P3 _]. destruct (P3 eq_refl) as [P4 P5].
    apply IF in P1. split; [lra|]. split; auto.
    intros s' L' O'. destruct (Rlt_dec (- (PI / Rabs (hp OMEGA))) s') as [L|L]; [|lra].
    apply P5; auto. split; auto. apply IF. lra.
  - intros (L & O & M). destruct (zcyl_complete surf hp rp rho c o (-1) false f H Hp Hf Hr Hpar Hcyl)
      as [(_ & s' & A & B)|[(_ & s' & b & P & B & _ & A)|(_ & N & _)]].
    + exfalso. apply (NH s' A B).
    + exists (f s'). destruct P as [[P1 P2] _ P3 _]. destruct (P3 eq_refl) as [P4 P5].
      assert (s = s').
      { apply Rle_antisym; [apply P5; [|lra]; split; auto; apply IF; lra|apply M; auto]. }
      subst s'. rewrite A. f_equal. f_equal. apply B. discriminate.
    + exfalso. destruct (N s) as [[A _]|[_ A]]; try lia; try lra. split; auto. apply IF. lra.
Qed.
Print Assumptions C17_first_crossing.

Lemma ex_half s : Rabs (ex_hp OMEGA * s) = PI -> sin s = 0 /\ cos s = -1.
Proof.
  simpl. rewrite Rmult_1_l. intros Hs. unfold Rabs in Hs. destruct (Rcase_abs s).
  - replace s with (- PI) by lra. rewrite sin_neg, cos_neg, sin_PI, cos_PI. lra.
  - rewrite Hs. rewrite sin_PI, cos_PI. lra.
Qed.

(** cylinder of radius 1 around (1,-1): first crossing at pi/6 *)
Example C17_example : exists x,
  intersectWithZCylinder (ex_cyl 1 (-1) 1) ex_hp v3zero OBad 1 false = Ok (true, OVal (PI / 6) x).
Proof.
  generalize PI_pos; intros HP.
  assert (On : forall s, on_cylinder 1 (V3 1 (-1) 0) (V3 (sin s) (cos s - 1) s) <-> sin s = 1 / 2).
  { intros s. unfold on_cylinder; simpl. generalize (sc1 s). intros. split; intros; nra. }
  apply (C17_first_crossing (ex_cyl 1 (-1) 1) ex_hp v3zero 1 (V3 1 (-1) 0) OBad _ ex_om ex_phi ex_helix
           Rlt_0_1 eq_refl eq_refl).
  - intros s Hs. rewrite On. apply ex_half in Hs. lra.
  - simpl. rewrite Rabs_R1. split; [lra|]. split; [apply On, sin_PI6|].
    intros s' Hs'. rewrite On. intros E. destruct (Rle_dec (PI / 6) s') as [L|L]; auto.
    rewrite (sin_half_first s'); lra.
Qed.

(** A crossing beyond half a turn is missed: the track meets the cylinder
    around (-2,-1) at s = 3 pi / 2, the forward search reports nothing. *)
Theorem C17_beyond_half_turn_refuted : exists surf hp rp f s,
  hp OMEGA <> 0 /\ Rabs (hp PHI0) <= 2 * PI /\ is_helix hp rp f
  /\ st_parallelToZ (sf_type surf) = true /\ sf_cyl surf = Some (1, V3 (-2) (-1) 0)
  /\ 0 < s /\ on_cylinder 1 (V3 (-2) (-1) 0) (f s)
  /\ intersectWithZCylinder surf hp rp OBad 1 false = Ok (false, OBad).
Proof.
  generalize PI_pos; intros HP.
  exists (ex_cyl (-2) (-1) 1), ex_hp, v3zero, (fun s => V3 (sin s) (cos s - 1) s), (3 * (PI / 2)).
  assert (On : forall s, on_cylinder 1 (V3 (-2) (-1) 0) (V3 (sin s) (cos s - 1) s) <-> sin s = -1).
  { intros s. unfold on_cylinder; simpl. generalize (sc1 s). intros. split; intros; nra. }
  split; [exact ex_om|]. split; [exact ex_phi|]. split; [exact ex_helix|].
  split; [reflexivity|]. split; [reflexivity|]. split; [lra|].
  split; [apply On; apply sin_3PI2|].
  destruct (zcyl_complete (ex_cyl (-2) (-1) 1) ex_hp v3zero 1 (V3 (-2) (-1) 0) OBad 1 false _
              ex_om ex_phi ex_helix Rlt_0_1 eq_refl eq_refl)
    as [(_ & s & A & B)|[(_ & s & b & P & _)|(_ & _ & A)]]; auto.
  - exfalso. apply On in B. apply ex_half in A. lra.
  - exfalso. destruct P as [[P1 P2] P3 _ _]. destruct (P3 eq_refl) as [P4 _]. apply On in P2.
    simpl in P1. rewrite Rmult_1_l in P1. rewrite Rabs_pos_eq in P1 by auto.
    generalize (sin_ge_0 s P4 (Rlt_le _ _ P1)). lra.
Qed.
Print Assumptions C17_beyond_half_turn_refuted.

(** ** C18 *)

(** Whatever the surface type: a reported point obeys the mode and the bounds. *)
Theorem C18_mode_and_bounds : forall surf hp rp o mode cb s xx,
  hp OMEGA <> 0 -> Rabs (hp PHI0) <= 2 * PI -> wf_surface surf ->
  intersectWithSurface surf hp rp o mode cb = Ok (true, OVal s xx) ->
  ((0 < mode)%Z -> 0 <= s) /\ ((mode < 0)%Z -> s < 0)
  /\ (cb = true -> sf_insideBounds surf xx = true).
Proof.
  intros surf hp rp o mode cb s xx H Hp W E.
  destruct (dispatch_sound surf hp rp o mode cb _ s xx H Hp (hcurve_helix hp rp H) W E)
    as (_ & _ & A & B & C & _). auto.
Qed.
Print Assumptions C18_mode_and_bounds.

(** Mode 0: no crossing within half a turn is nearer than the reported one (by
    more than 1e-4 for cylinders), and some crossing is reported if one exists. *)
Theorem C18_nearest_cylinder : forall surf hp rp rho c o f,
  hp OMEGA <> 0 -> Rabs (hp PHI0) <= 2 * PI -> is_helix hp rp f -> 0 < rho ->
  st_parallelToZ (sf_type surf) = true -> sf_cyl surf = Some (rho, c) ->
  (forall s, Rabs (hp OMEGA * s) = PI -> ~ on_cylinder rho c (f s)) ->
  (exists s, crossing f (hp OMEGA) (on_cylinder rho c) s
     /\ (forall s', on_cylinder rho c (f s') -> Rabs s <= Rabs s' + / 10000)
     /\ intersectWithZCylinder surf hp rp o 0 false = Ok (true, OVal s (f s)))
  \/ ((forall s, ~ on_cylinder rho c (f s))
      /\ intersectWithZCylinder surf hp rp o 0 false = Ok (false, o)).
Proof.
  intros surf hp rp rho c o f H Hp Hf Hr Hpar Hcyl NH.
  assert (Per : forall s, on_cylinder rho c (f s) ->
    exists s', crossing f (hp OMEGA) (on_cylinder rho c) s' /\ Rabs s' <= Rabs s).
  { intros s O. destruct (Rlt_dec (Rabs (hp OMEGA * s)) PI) as [L|L].
    { exists s. split; [split; auto|lra]. }
    assert (F := helix_is_hcurve hp rp f H Hf).
    destruct (circle_param hp rp (vx (f s)) (vy (f s)) H) as (s' & A & B & C).
    { rewrite F. apply hcurve_on_circle; auto. }
    assert (O' : on_cylinder rho c (f s')) by (unfold on_cylinder in *; rewrite F, B, C; auto).
    exists s'. destruct A as [A|A].
    - split; [split; auto|]. rewrite Rabs_mult in A, L.
      assert (0 < Rabs (hp OMEGA)) by (apply Rabs_pos_lt; auto).
      apply Rmult_le_reg_l with (Rabs (hp OMEGA)); auto. lra.
    - exfalso. apply (NH s' A O'). }
  destruct (zcyl_complete surf hp rp rho c o 0 false f H Hp Hf Hr Hpar Hcyl)
    as [(_ & s & A & B)|[(_ & s & b & P & B & _ & A)|(_ & N & A)]].
  - exfalso. apply (NH s A B).
  - left. exists s. destruct P as [P1 _ _ P4]. split; auto. split.
    + intros s' O. destruct (Per s' O) as (t & T1 & T2). specialize (P4 eq_refl t T1). unfold eps4, tol4 in P4. lra.
    + rewrite A. f_equal. f_equal. apply B. discriminate.
  - right. split; auto. intros s O. destruct (Per s O) as (t & T1 & _).
    destruct (N t T1) as [[M _]|[M _]]; lia.
Qed.
Print Assumptions C18_nearest_cylinder.

Theorem C18_nearest_plane : forall surf hp rp o f,
  hp OMEGA <> 0 -> Rabs (hp PHI0) <= 2 * PI -> is_helix hp rp f -> zplane_ok surf ->
  0 <= vdot (sf_origin surf) (sf_normal surf v3zero) ->
  tol9 < plane_margin surf hp rp ->
  let P := on_plane (sf_origin surf) (sf_normal surf v3zero) in
  (forall s, Rabs (hp OMEGA * s) = PI -> ~ P (f s)) ->
  exists s, P (f s) /\ (forall s', P (f s') -> Rabs s <= Rabs s')
    /\ intersectWithZPlane surf hp rp o 0 false = Ok (true, OVal s (f s)).
Proof.
  intros surf hp rp o f H Hp Hf Hz Hd Hm P NH.
  assert (F := helix_is_hcurve hp rp f H Hf).
  assert (I : forall x, on_line (pline surf) (vx x, vy x) <-> P x)
    by (intros x; apply on_pline_iff; auto).
  assert (Per : forall s, P (f s) -> exists s', crossing f (hp OMEGA) P s' /\ Rabs s' <= Rabs s).
  { intros s O. destruct (Rlt_dec (Rabs (hp OMEGA * s)) PI) as [L|L].
    { exists s. split; [split; auto|lra]. }
    destruct (circle_param hp rp (vx (f s)) (vy (f s)) H) as (s' & A & B & C).
    { rewrite F. apply hcurve_on_circle; auto. }
    assert (O' : P (f s')) by (apply I; rewrite F, B, C; apply I; auto).
    exists s'. destruct A as [A|A].
    - split; [split; auto|]. rewrite Rabs_mult in A, L.
      assert (0 < Rabs (hp OMEGA)) by (apply Rabs_pos_lt; auto).
      apply Rmult_le_reg_l with (Rabs (hp OMEGA)); auto. lra.
    - exfalso. apply (NH s' A O'). }
  destruct (zplane_complete_f surf hp rp o 0 false f H Hp Hf Hz Hd Hm NH) as [(s & b & Q & B & A)|(N & A)].
  - exists s. destruct Q as [[Q0 Q1] _ _ Q4]. split; auto. split.
    + intros s' O. destruct (Per s' O) as (t & T1 & T2). specialize (Q4 eq_refl t T1). lra.
    + rewrite A. f_equal. f_equal. apply B. discriminate.
  - exfalso.
    destruct (pline_made surf Hz) as [_ PL].
    set (D := overlap (hcircle hp rp) (pline surf)).
    assert (Hm' : 0 <= D) by (apply Rlt_le, Rlt_trans with eps9; [unfold eps9, tol9; lra | exact Hm]).
    destruct (proj2 (common_points (hcircle hp rp) (pline surf)
       (line_point (hcircle hp rp) (pline surf) (sqrt D)) PL)) as [O1 O2].
    { exists (sqrt D). split; auto. apply sqrt_sqrt. exact Hm'. }
    destruct (line_point (hcircle hp rp) (pline surf) (sqrt D)) as [X Y].
    destruct (circle_param hp rp X Y H O1) as (s' & _ & B & C).
    assert (O' : P (f s')) by (apply I; rewrite F, B, C; auto).
    destruct (Per s' O') as (t & T1 & _). destruct (N t T1) as [[M _]|[M _]]; lia.
Qed.
Print Assumptions C18_nearest_plane.

(** ** C19 *)
Theorem C19_zdisk : forall surf hp rp o mode cb f, is_helix hp rp f ->
  (hp TANL = 0 -> intersectWithZDisk surf hp rp o mode cb = NonFin)
  /\ (hp TANL <> 0 -> exists s,
        (forall t, vz (f t) = vz (sf_origin surf) <-> t = s)
        /\ exists x b, intersectWithZDisk surf hp rp o mode cb = Ok (b, OVal s x)
        /\ vx x = vx (f s) /\ vz x = vz (f s)
        /\ (hp OMEGA <> 0 -> x = f s)
        /\ (hp OMEGA = 0 -> vy x = vy (f s) + s * (cos (hp PHI0) - sin (hp PHI0))
              /\ (x = f s <-> s = 0 \/ cos (hp PHI0) = sin (hp PHI0)))
        /\ (b = true <-> sign_ok mode s /\ (cb = true -> sf_insideBounds surf x = true))).
Proof. exact zdisk_spec. Qed.
Print Assumptions C19_zdisk.

Definition ex_disk (h : R) : surface :=
  ex_surface disk_type None (V3 0 0 h) (V3 0 0 1) (fun x => vz x - h).

Example C19_example : forall o,
  intersectWithZDisk (ex_disk 2) ex_hp v3zero o 1 true
  = Ok (true, OVal 2 (V3 (sin 2) (cos 2 - 1) 2)).
Proof.
  intros o. destruct (C19_zdisk (ex_disk 2) ex_hp v3zero o 1 true _ ex_helix) as [_ A].
  destruct A as (s & U & x & b & E & _ & _ & X & _ & B); [simpl; lra|].
  assert (s = 2) by (symmetry; apply U; reflexivity). subst s.
  rewrite (X ex_om) in E. rewrite E. f_equal. f_equal. apply B. split; auto.
  unfold sign_ok. split; intros; [lra|lia].
Qed.

(** Straight tracks: the y coordinate of the reported point is wrong. *)
Theorem C19_straight_track_refuted : exists surf hp rp f s x,
  is_helix hp rp f /\ hp TANL <> 0
  /\ intersectWithZDisk surf hp rp OBad 0 false = Ok (true, OVal s x) /\ x <> f s.
Proof.
  set (hp := mk5 0 1 0 0 0).
  assert (HL : is_helix hp v3zero (hline hp v3zero)) by (apply hline_helix; reflexivity).
  destruct (C19_zdisk (ex_disk 2) hp v3zero OBad 0 false _ HL) as [_ A].
  destruct A as (s & U & x & b & E & _ & _ & _ & X & B); [simpl; lra|].
  assert (s = 2) by (symmetry; apply U; unfold hline; simpl; ring). subst s.
  exists (ex_disk 2), hp, v3zero, (hline hp v3zero), 2, x.
  split; auto. split; [simpl; lra|]. split.
  - rewrite E. f_equal. f_equal. apply B. split; [|discriminate]. unfold sign_ok. split; intros; lia.
  - destruct (X eq_refl) as [_ X']. rewrite X'. simpl. rewrite cos_0, sin_0. lra.
Qed.
Print Assumptions C19_straight_track_refuted.

(** ** C20 *)

(** Every result of the Newton search, with the list [l] of the states at which
    the distance was evaluated and found too large. *)
Theorem C20_newton_result : forall surf hp rp s mode cb b o,
  intersectWithSurfaceNewton surf hp rp s mode cb = Ok (b, o) ->
  exists x l st', pointAt s hp rp = Ok x /\ nsteps surf hp rp (start_state s x) l st'
    /\ (forall t, In t l -> pointAt (n_s t) hp rp = Ok (n_xx t) /\ newton_tol <= Rabs (dist_of surf t))
    /\ (((length l <= 100)%nat /\ Rabs (dist_of surf st') < newton_tol
         /\ pointAt (n_s st') hp rp = Ok (n_xx st') /\ o = OVal (n_s st') (n_xx st')
         /\ (b = true <-> sign_ok mode (n_s st') /\ (cb = true -> sf_insideBounds surf (n_xx st') = true)))
        \/ (length l = 101%nat /\ b = false
            /\ (exists s' x', o = OVal s' x' /\ pointAt s' hp rp = Ok x')
            /\ (Rabs (sf_distance surf x) < 10000000000 ->
                exists t, In t l /\ o = OVal (n_s t) (n_xx t)
                /\ forall v, In v l -> Rabs (dist_of surf t) <= Rabs (dist_of surf v)))).
Proof. exact newton_result. Qed.
Print Assumptions C20_newton_result.

(** No outcome other than a result or a non-finite number: the search ends. *)
Theorem C20_terminates : forall surf hp rp s mode cb,
  match intersectWithSurfaceNewton surf hp rp s mode cb with
  | Ok _ => True | NonFin => True | _ => False end.
Proof. exact newton_outcomes. Qed.
Print Assumptions C20_terminates.

(** What one pass does: keep the better of the old and the new point, relax or
    tighten the damping by 10, take the damped step along the tangent from it. *)
Theorem C20_one_pass : forall surf hp rp st st',
  newton_step surf hp rp st = Ok (inr st') ->
  newton_tol <= Rabs (dist_of surf st)
  /\ pointAt (n_s st') hp rp = Ok (n_xx st')
  /\ ((Rabs (dist_of surf st) < Rabs (n_prevDist st)
       /\ n_prevS st' = n_s st /\ n_prevXX st' = n_xx st /\ n_prevDist st' = dist_of surf st
       /\ n_alpha st' = n_alpha st / 10)
      \/ (Rabs (n_prevDist st) <= Rabs (dist_of surf st)
       /\ n_prevS st' = n_prevS st /\ n_prevXX st' = n_prevXX st /\ n_prevDist st' = n_prevDist st
       /\ n_alpha st' = n_alpha st * 10))
  /\ n_s st' = n_prevS st'
       - n_prevDist st' / ((1 + n_alpha st')
           * vdot (sf_normal surf (n_prevXX st')) (calculateTangent (n_prevS st') hp))
  /\ (1 + n_alpha st') * vdot (sf_normal surf (n_prevXX st')) (calculateTangent (n_prevS st') hp) <> 0.
Proof. exact step_inr. Qed.
Print Assumptions C20_one_pass.

Lemma ex_tan_z s : 0 < vz (calculateTangent s ex_hp).
Proof.
  unfold calculateTangent, calculateLambda, calculateTanLambda; simpl.
  apply sin_gt_0; generalize PI_pos; rewrite atan_1; lra.
Qed.

(** a surface that cannot be reached: the search gives up *)
Example C20_example_give_up : exists o,
  intersectWithSurfaceNewton (ex_surface cone_type None v3zero (V3 0 0 1) (fun _ => 1)) ex_hp v3zero 0 0 false
  = Ok (false, o).
Proof.
  set (sf := ex_surface _ _ _ _ _).
  assert (St : forall st, 0 < n_alpha st -> exists st', newton_step sf ex_hp v3zero st = Ok (inr st')
                 /\ 0 < n_alpha st').
  { intros st Ha. unfold newton_step. cbv zeta. cbn [sf_distance sf ex_surface].
    unfold newton_eps, newton_tol. destruct (Rlt_dec (Rabs 1) _) as [L|L]; [rewrite Rabs_R1 in L; lra|].
    assert (G : forall a s d p x q y, 0 < a -> exists st', 
      (q0 <- rdiv d ((1 + n_alpha (NS s x y q p a)) * vdot (sf_normal sf (n_xx (NS s x y q p a)))
                 (calculateTangent (n_s (NS s x y q p a)) ex_hp)) ;;
       xx <- pointAt (n_s (NS s x y q p a) - q0) ex_hp v3zero ;;
       Ok (inr (NS (n_s (NS s x y q p a) - q0) xx (n_prevXX (NS s x y q p a)) (n_prevS (NS s x y q p a))
              (n_prevDist (NS s x y q p a)) (n_alpha (NS s x y q p a)))) : res ((R * vec3) + nstate))
       = Ok (inr st') /\ 0 < n_alpha st').
    { intros a s d p x q y A. cbn [n_alpha n_s n_xx n_prevXX n_prevS n_prevDist].
      rewrite rdiv_ok.
      - cbn [bind]. rewrite pointAt_hcurve by exact ex_om. cbn [bind]. eexists. split; [reflexivity|]. auto.
      - cbn [sf_normal sf ex_surface]. unfold vdot. cbn [vx vy vz].
        generalize (ex_tan_z s). intros Z. nra. }
    unfold alphaIncr, alphaDecr. destruct (Rlt_dec _ _); cbn [fst snd]; apply G;
      unfold alphaIncr; lra. }
  assert (Lp : forall n st, 0 < n_alpha st -> exists s x, newton_loop sf ex_hp v3zero n st = Ok (NGiveUp s x)).
  { induction n as [|n IH]; intros st Ha; cbn [newton_loop]; [eauto|].
    destruct (St st Ha) as (st' & -> & Ha'). cbn [bind]. apply IH; auto. }
  unfold intersectWithSurfaceNewton. rewrite pointAt_hcurve by exact ex_om. cbn [bind].
  destruct (Lp newton_budget (NS 0 (hcurve ex_hp v3zero 0) (hcurve ex_hp v3zero 0) 0 10000000000
              (/ 10000000000))) as (s & x & ->); [simpl; lra|].
  cbn [bind]. eauto.
Qed.

(** ** C51 *)

(** The step divides by the derivative with respect to the length in space, but
    the unknown is the transverse length: on a surface z = h every accepted pass
    multiplies the distance by 1 - 1/((1+alpha) cos lambda) instead of about 0. *)
Theorem C51_newton_overshoots : forall surf hp rp h st st', hp OMEGA <> 0 ->
  (forall x, sf_distance surf x = vz x - h) -> (forall x, sf_normal surf x = V3 0 0 1) ->
  pointAt (n_s st) hp rp = Ok (n_xx st) ->
  newton_step surf hp rp st = Ok (inr st') ->
  Rabs (dist_of surf st) < Rabs (n_prevDist st) ->
  dist_of surf st' = dist_of surf st * (1 - 1 / ((1 + n_alpha st') * cos (atan (hp TANL)))).
Proof. exact newton_height. Qed.
Print Assumptions C51_newton_overshoots.

(** For steep tracks, (1 + alpha) cos lambda <= 1/2, the pass moves away from
    the surface. *)
Theorem C51_steep_tracks_move_away : forall surf hp rp h st st', hp OMEGA <> 0 ->
  (forall x, sf_distance surf x = vz x - h) -> (forall x, sf_normal surf x = V3 0 0 1) ->
  pointAt (n_s st) hp rp = Ok (n_xx st) ->
  newton_step surf hp rp st = Ok (inr st') ->
  Rabs (dist_of surf st) < Rabs (n_prevDist st) ->
  0 < n_alpha st -> (1 + n_alpha st / 10) * cos (atan (hp TANL)) <= 1 / 2 ->
  Rabs (dist_of surf st) <= Rabs (dist_of surf st').
Proof.
  intros surf hp rp h st st' Ho Hd Hn P E Hb Ha Hc.
  rewrite (newton_height surf hp rp h st st' Ho Hd Hn P E Hb).
  destruct (step_inr _ _ _ _ _ E) as (_ & _ & C & _).
  destruct C as [(_ & _ & _ & _ & ->)|(C0 & _)]; [|lra].
  set (k := (1 + n_alpha st / 10) * cos (atan (hp TANL))) in *.
  assert (Hk : 0 < k).
  { unfold k. apply Rmult_lt_0_compat; [lra|]. apply cos_gt_0; generalize (atan_bound (hp TANL)); lra. }
  assert (L : 2 <= 1 / k).
  { apply Rmult_le_reg_r with k; auto. replace (1 / k * k) with 1 by (field; lra). lra. }
  rewrite Rabs_mult. rewrite (Rabs_left1 (1 - 1 / k)) by lra.
  generalize (Rabs_pos (dist_of surf st)). nra.
Qed.
Print Assumptions C51_steep_tracks_move_away.

(** ** C21 *)
Theorem C21_dispatch_order : forall surf hp rp o mode cb,
  let t := sf_type surf in
  (st_cylinder t = true -> st_parallelToZ t = true ->
     intersectWithSurface surf hp rp o mode cb = intersectWithZCylinder surf hp rp o mode cb)
  /\ (st_cylinder t = false -> st_plane t = true -> st_parallelToZ t = true ->
     intersectWithSurface surf hp rp o mode cb = intersectWithZPlane surf hp rp o mode cb)
  /\ (st_plane t = true -> st_parallelToZ t = false -> st_orthogonalToZ t = true ->
     intersectWithSurface surf hp rp o mode cb = intersectWithZDisk surf hp rp o mode cb)
  /\ (st_cylinder t = false -> st_plane t = false -> st_cone t = true ->
     intersectWithSurface surf hp rp o mode cb = intersectWithZCone surf hp rp o mode cb)
  /\ (st_parallelToZ t = false -> st_orthogonalToZ t = false -> st_cone t = false ->
     intersectWithSurface surf hp rp o mode cb = Ok (false, o))
  /\ (st_cylinder t = false -> st_plane t = false -> st_cone t = false ->
     intersectWithSurface surf hp rp o mode cb = Ok (false, o)).
Proof.
  intros surf hp rp o mode cb t. unfold intersectWithSurface, isZCylinder, isZPlane, isZDisk, isCone.
  cbv zeta. fold t.
  repeat split; intros;
    repeat match goal with H : _ = true |- _ => rewrite H; clear H | H : _ = false |- _ => rewrite H; clear H end;
    cbn [andb]; rewrite ?andb_false_r; reflexivity.
Qed.
Print Assumptions C21_dispatch_order.

(** A reported point is on the track and on the surface, for every type. *)
Theorem C21_true_result : forall surf hp rp o mode cb f s xx,
  hp OMEGA <> 0 -> Rabs (hp PHI0) <= 2 * PI -> is_helix hp rp f -> wf_surface surf ->
  intersectWithSurface surf hp rp o mode cb = Ok (true, OVal s xx) ->
  let t := sf_type surf in
  let d := vdot (sf_origin surf) (sf_normal surf v3zero) in
  xx = f s /\ pointAt s hp rp = Ok xx
  /\ ((0 < mode)%Z -> 0 <= s) /\ ((mode < 0)%Z -> s < 0)
  /\ (cb = true -> sf_insideBounds surf xx = true)
  /\ ((exists rho c, st_cylinder t = true /\ sf_cyl surf = Some (rho, c) /\ on_cylinder rho c xx)
      \/ (st_plane t = true /\ st_parallelToZ t = true /\ vdot xx (sf_normal surf v3zero) = Rabs d)
      \/ (st_plane t = true /\ st_orthogonalToZ t = true /\ vz xx = vz (sf_origin surf))
      \/ (st_cone t = true /\ Rabs (sf_distance surf xx) < newton_tol)).
Proof. exact dispatch_sound. Qed.
Print Assumptions C21_true_result.

Theorem C21_success_without_point : forall surf hp rp o mode cb,
  hp OMEGA <> 0 -> Rabs (hp PHI0) <= 2 * PI -> wf_surface surf ->
  intersectWithSurface surf hp rp o mode cb = Ok (true, OBad) ->
  st_plane (sf_type surf) = true /\ st_parallelToZ (sf_type surf) = true
  /\ mode = 0%Z /\ cb = false /\ - tol9 <= plane_margin surf hp rp < 0.
Proof. exact dispatch_bad. Qed.
Print Assumptions C21_success_without_point.

(** Cones: the cylinder step is a precondition, and its failure is passed on;
    its solution is where the iteration starts. *)
Theorem C21_cone : forall surf hp rp o mode cb,
  let cyl := intersectWithZCylinder surf hp rp o mode false in
  let r := intersectWithZCone surf hp rp o mode cb in
  (forall s xx, hp OMEGA <> 0 -> r = Ok (true, OVal s xx) ->
     (exists s0 x0, cyl = Ok (true, OVal s0 x0))
     /\ Rabs (sf_distance surf xx) < newton_tol
     /\ pointAt s hp rp = Ok xx /\ sign_ok mode s
     /\ (cb = true -> sf_insideBounds surf xx = true))
  /\ (forall s0 x0, cyl = Ok (true, OVal s0 x0) -> r = intersectWithSurfaceNewton surf hp rp s0 mode cb)
  /\ (forall o', cyl = Ok (false, o') -> r = Ok (false, o'))
  /\ (cyl = NonFin -> r = NonFin)
  /\ (r = Throw <-> st_parallelToZ (sf_type surf) = false \/ sf_cyl surf = None).
Proof. exact zcone_all. Qed.
Print Assumptions C21_cone.

Example C21_example : forall o,
  intersectWithSurface (ex_disk 2) ex_hp v3zero o 1 true
  = Ok (true, OVal 2 (V3 (sin 2) (cos 2 - 1) 2))
  /\ wf_surface (ex_disk 2) /\ wf_surface (ex_cyl 1 (-1) 1) /\ wf_surface (ex_plane 1 (1/2)).
Proof.
  intros o. split; [exact (C19_example o)|]. unfold wf_surface; simpl. split; [|split].
  - split; intros; discriminate.
  - split; [|intros; discriminate]. intros rho c E. injection E as <- <-. lra.
  - split; [intros; discriminate|]. intros _ _. apply ex_plane_ok, Rabs_R1.
Qed.
