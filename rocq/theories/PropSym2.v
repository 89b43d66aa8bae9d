(** Property C69, continued: where the frame does matter, and an instance. *)
From Coq Require Import Reals Lra Lia ZArith Psatz List Bool FunctionalExtensionality.
From Verif Require Import SpecConst Num NumFacts Vec Helix Isect SpecHelix SpecIsect SpecSym
  HelixFacts PathFacts IsectFacts SurfFacts SurfFacts2 MoveFacts SymFacts SymFacts2 SymFacts3 PropSym.
Import ListNotations.
Open Scope R_scope.

(** a plane through [o] with normal [n] *)
Definition flat (o n : vec3) : surface :=
  Surf 0 (ST false true false true false) None (fun _ => true) (fun _ => V3 0 0 1) (fun _ => V3 0 0 1)
    (fun _ => n) (fun _ => (0, 0)) (fun _ => v3zero) o (Mat 0 0 0 0) (Mat 0 0 0 0) 0 0
    (fun p => vdot (vsub p o) n).
Definition circ1 : vec5 := mk5 1 0 0 0 0.

Lemma flat_answer o n hp rp mode : hp OMEGA <> 0 -> Rabs (hp PHI0) <= 2 * PI ->
  vz n = 0 -> vdot n n = 1 -> tol9 < plane_margin (flat o n) hp rp ->
  forall s0 s1,
  Rabs (hp OMEGA * s0) < PI -> Rabs (hp OMEGA * s1) < PI ->
  line_point (hcircle hp rp) (pline (flat o n)) (sqrt (plane_margin (flat o n) hp rp))
    = (vx (hcurve hp rp s0), vy (hcurve hp rp s0)) ->
  line_point (hcircle hp rp) (pline (flat o n)) (- sqrt (plane_margin (flat o n) hp rp))
    = (vx (hcurve hp rp s1), vy (hcurve hp rp s1)) ->
  forall out, intersectWithZPlane (flat o n) hp rp out mode false
    = match select 0 mode s0 (hcurve hp rp s0) s1 (hcurve hp rp s1) with
      | None => Ok (false, out)
      | Some (s, xx) => Ok (true, OVal s xx)
      end.
Proof.
  intros N K NZ NU MG s0 s1 H0 H1 L0 L1 out.
  assert (U : vx n * vx n + vy n * vy n = 1) by (unfold vdot in NU; rewrite NZ in NU; lra).
  unfold intersectWithZPlane. cbn [flat sf_normal sf_origin].
  rewrite unit_line by (auto using Rabs_pos). cbn [bind].
  assert (PL : proper_line (pline (flat o n))).
  { unfold proper_line, pline; cbn [l_n0 l_n1 flat sf_normal sf_origin].
    destruct (Req_dec (vx n) 0) as [E1|]; [|auto]. destruct (Req_dec (vy n) 0) as [E2|]; [|auto].
    rewrite E1, E2 in U. lra. }
  assert (HC : mkCircle (calculateXCenter hp rp) (calculateYCenter hp rp) (calculateRadius hp) = Ok (hcircle hp rp)).
  { apply circle_made; auto. }
  rewrite HC. cbn [bind].
  change (Line (vx n) (vy n) (Rabs (vdot o n))) with (pline (flat o n)).
  destruct (circle_line_result (hcircle hp rp) _ PL) as (_ & _ & _ & R4).
  change (overlap (hcircle hp rp) (pline (flat o n))) with (plane_margin (flat o n) hp rp) in R4.
  cbv zeta in R4. rewrite R4 by exact MG. rewrite L0, L1. cbn [bind].
  rewrite !SfromXY_inverse by auto. cbn [bind]. cbv zeta.
  assert (Z : forall s, V3 (vx (hcurve hp rp s)) (vy (hcurve hp rp s)) (calculateZfromS s hp rp) = hcurve hp rp s).
  { intros s. rewrite zfroms_hcurve. destruct (hcurve hp rp s); reflexivity. }
  rewrite !Z. reflexivity.
Qed.

Lemma circ1_om : circ1 OMEGA <> 0. Proof. unfold circ1, OMEGA; cbn [mk5]; lra. Qed.
Lemma small_abs0 : Rabs 0 <= 2 * PI. Proof. rewrite Rabs_R0. generalize PI_pos. lra. Qed.

(** A plane shifted across the coordinate origin is lost although track, plane
    and reference point are shifted together. *)
Theorem C69_shifted_plane_refuted : exists g S S' hp rp,
  moved_surface g S S' /\ z_plane (sf_type S) /\ m_flip g = false /\ m_turn g = 0
  /\ phi_kept g hp /\ hp OMEGA <> 0
  /\ vz (sf_normal S v3zero) = 0 /\ vdot (sf_normal S v3zero) (sf_normal S v3zero) = 1
  /\ forall o, exists s x,
       intersectWithSurface S hp rp o 0 false = Ok (true, OVal s x)
       /\ intersectWithSurface S' (map_par g hp) (map_point g rp) o 0 false = Ok (false, o).
Proof.
  set (g := Mot false 0 (V3 (-1) 0 0)). set (S := flat (V3 (1/2) 0 0) (V3 1 0 0)).
  assert (HP := PI_pos).
  exists g, S, (carry g S), circ1, v3zero.
  split; [apply C69_carried; reflexivity|].
  split; [split; reflexivity|]. split; [reflexivity|]. split; [reflexivity|].
  split. { unfold phi_kept, g, hand, circ1, PHI0; cbn [m_flip m_turn mk5].
    replace (1 * 0 + 0) with 0 by ring. split; apply small_abs0. }
  split; [apply circ1_om|]. split; [reflexivity|].
  split; [unfold S, vdot; cbn [flat sf_normal vx vy vz]; ring|].
  intros o.
  destruct (zplane_complete_f S circ1 v3zero o 0 false (hcurve circ1 v3zero)) as [(s & b & _ & B & E)|(NO & _)].
  - apply circ1_om.
  - apply small_abs0.
  - apply hcurve_helix, circ1_om.
  - unfold zplane_ok, S; cbn [flat sf_normal vx vy vz]. split; [reflexivity|].
    left. unfold tol12. rewrite Rabs_R1. lra.
  - unfold S, vdot; cbn [flat sf_normal sf_origin vx vy vz]. lra.
  - unfold plane_margin, overlap, hcircle, pline, S, circ1, OMEGA, D0, PHI0;
      cbn [flat sf_normal sf_origin mk5 c_x c_y c_r l_n0 l_n1 l_d v3zero vx vy vz].
    unfold vdot; cbn [vx vy vz]. rewrite sin_0, cos_0.
    replace (Rabs (1 / 1)) with 1 by (replace (1/1) with 1 by field; rewrite Rabs_R1; reflexivity).
    rewrite Rabs_pos_eq by lra. unfold eps9. lra.
  - intros s Hs. unfold on_plane, S, hcurve, circ1, vdot, vsub, OMEGA, D0, PHI0, TANL, Z0 in *;
      cbn [flat sf_normal sf_origin mk5 v3zero vx vy vz] in *.
    replace (0 - s * 1) with (- s) by ring. rewrite sin_0, sin_neg.
    rewrite Rmult_1_l in Hs.
    assert (E : sin s = 0).
    { destruct (Rcase_abs s) as [n|n].
      - rewrite Rabs_left in Hs by auto. replace s with (- PI) by lra. rewrite sin_neg, sin_PI. ring.
      - rewrite Rabs_pos_eq in Hs by lra. rewrite Hs. apply sin_PI. }
    rewrite E. lra.
  - exists s, (hcurve circ1 v3zero s). split.
    + change (intersectWithSurface S circ1 v3zero o 0 false) with (intersectWithZPlane S circ1 v3zero o 0 false).
      rewrite E. replace b with true by (symmetry; apply B; discriminate). reflexivity.
    + change (intersectWithSurface (carry g S) (map_par g circ1) (map_point g v3zero) o 0 false)
        with (intersectWithZPlane (carry g S) (map_par g circ1) (map_point g v3zero) o 0 false).
      unfold intersectWithZPlane.
      assert (En : sf_normal (carry g S) v3zero = V3 1 0 0).
      { apply vec3_eq; unfold S, g, carry, flat, map_dir, hand; cbn [sf_normal m_flip m_turn vx vy vz];
          rewrite ?cos_0, ?sin_0; ring. }
      assert (Eo : sf_origin (carry g S) = V3 (- (1/2)) 0 0).
      { apply vec3_eq; unfold S, g, carry, flat, map_point, map_dir, vadd, hand;
          cbn [sf_origin m_flip m_turn m_shift vx vy vz]; rewrite ?cos_0, ?sin_0; field. }
      assert (Ep : map_par g circ1 = circ1).
      { extensionality i. unfold map_par, circ1, g, hand, OMEGA, TANL, PHI0, D0, Z0; cbn [m_flip m_turn mk5].
        destruct i; cbn [mk5]; ring. }
      assert (Er : map_point g v3zero = V3 (-1) 0 0).
      { apply vec3_eq; unfold map_point, map_dir, vadd, hand, g, v3zero;
          cbn [m_flip m_turn m_shift vx vy vz]; rewrite ?cos_0, ?sin_0; ring. }
      rewrite En, Eo, Ep, Er. cbn [vx vy vz].
      rewrite unit_line by (try apply Rabs_pos; ring). cbn [bind].
      rewrite circle_made by apply circ1_om. cbn [bind].
      set (l := Line 1 0 _).
      assert (PL : proper_line l) by (left; unfold l; cbn [l_n0]; lra).
      destruct (circle_line_result (hcircle circ1 (V3 (-1) 0 0)) l PL) as (R1 & _).
      cbv zeta in R1. rewrite R1; [reflexivity|].
      unfold overlap, l, hcircle, circ1, OMEGA, D0, PHI0, vdot;
        cbn [mk5 c_x c_y c_r l_n0 l_n1 l_d vx vy vz]. rewrite sin_0, cos_0.
      replace (Rabs (1 / 1)) with 1 by (replace (1/1) with 1 by field; rewrite Rabs_R1; reflexivity).
      rewrite Rabs_left by lra. unfold eps9. lra.
  - exfalso. assert (P6 : sin (PI / 6) = 1 / 2) by apply sin_PI6.
    destruct (NO (PI / 6)) as [[A _]|[A _]]; try lia.
    split.
    + unfold circ1, OMEGA; cbn [mk5]. rewrite Rmult_1_l, Rabs_pos_eq; lra.
    + unfold on_plane, S, hcurve, circ1, vdot, vsub, OMEGA, D0, PHI0, TANL, Z0;
        cbn [flat sf_normal sf_origin mk5 v3zero vx vy vz].
      replace (0 - PI / 6 * 1) with (- (PI / 6)) by ring. rewrite sin_0, sin_neg, P6. field.
Qed.
Print Assumptions C69_shifted_plane_refuted.

(** A plane crossed equally far ahead and behind: with mode 0 a track of positive
    curvature gets the crossing ahead, its mirror image the one behind. *)
Theorem C69_mirrored_plane_refuted : exists g S S' hp rp,
  moved_surface g S S' /\ z_plane (sf_type S)
  /\ m_flip g = true /\ m_turn g = 0 /\ m_shift g = v3zero
  /\ phi_kept g hp /\ hp OMEGA <> 0
  /\ vz (sf_normal S v3zero) = 0 /\ vdot (sf_normal S v3zero) (sf_normal S v3zero) = 1
  /\ 0 <= vdot (sf_origin S) (sf_normal S v3zero)
  /\ forall o, exists s s' x x', 0 < s /\ s' < 0
       /\ intersectWithSurface S hp rp o 0 false = Ok (true, OVal s x)
       /\ intersectWithSurface S' (map_par g hp) (map_point g rp) o 0 false = Ok (true, OVal s' x').
Proof.
  set (g := Mot true 0 v3zero). set (S := flat (V3 0 (-1) 0) (V3 0 (-1) 0)).
  assert (HP := PI_pos).
  exists g, S, (carry g S), circ1, v3zero.
  split; [apply C69_carried; reflexivity|].
  split; [split; reflexivity|]. split; [reflexivity|]. split; [reflexivity|]. split; [reflexivity|].
  split. { unfold phi_kept, g, hand, circ1, PHI0; cbn [m_flip m_turn mk5].
    replace (-1 * 0 + 0) with 0 by ring. split; apply small_abs0. }
  split; [apply circ1_om|]. split; [reflexivity|].
  split; [unfold S, vdot; cbn [flat sf_normal vx vy vz]; ring|].
  split; [unfold S, vdot; cbn [flat sf_normal sf_origin vx vy vz]; lra|].
  intros o.
  assert (R1 : Rabs (1 / 1) = 1) by (replace (1/1) with 1 by field; apply Rabs_R1).
  assert (R1' : Rabs (1 / -1) = 1) by (replace (1/-1) with (-1) by field; rewrite Rabs_left; lra).
  set (mirr := mk5 (-1) 0 0 0 0).
  assert (PM : plane_margin S circ1 v3zero = 1).
  { unfold plane_margin, overlap, hcircle, pline, S, circ1, OMEGA, D0, PHI0;
      cbn [flat sf_normal sf_origin mk5 c_x c_y c_r l_n0 l_n1 l_d v3zero vx vy vz].
    unfold vdot; cbn [vx vy vz]. rewrite sin_0, cos_0, R1, Rabs_pos_eq by lra. field. }
  set (S1 := flat (V3 0 1 0) (V3 0 1 0)).
  assert (PM' : plane_margin S1 mirr v3zero = 1).
  { unfold plane_margin, overlap, hcircle, pline, S1, mirr, OMEGA, D0, PHI0;
      cbn [flat sf_normal sf_origin mk5 c_x c_y c_r l_n0 l_n1 l_d v3zero vx vy vz].
    unfold vdot; cbn [vx vy vz]. rewrite sin_0, cos_0, R1', Rabs_pos_eq by lra. field. }
  assert (Ep : map_par g circ1 = mirr).
  { extensionality i. unfold map_par, circ1, mirr, g, hand, OMEGA, TANL, PHI0, D0, Z0; cbn [m_flip m_turn mk5].
    destruct i; cbn [mk5]; ring. }
  assert (Er : map_point g v3zero = v3zero).
  { apply vec3_eq; unfold map_point, map_dir, vadd, hand, g, v3zero;
      cbn [m_flip m_turn m_shift vx vy vz]; rewrite ?cos_0, ?sin_0; ring. }
  assert (En : sf_normal (carry g S) v3zero = V3 0 1 0).
  { apply vec3_eq; unfold S, g, carry, flat, map_dir, hand; cbn [sf_normal m_flip m_turn vx vy vz];
      rewrite ?cos_0, ?sin_0; ring. }
  assert (Eo : sf_origin (carry g S) = V3 0 1 0).
  { apply vec3_eq; unfold S, g, carry, flat, map_point, map_dir, vadd, hand;
      cbn [sf_origin m_flip m_turn m_shift vx vy vz v3zero]; rewrite ?cos_0, ?sin_0; ring. }
  assert (ES : intersectWithZPlane (carry g S) (map_par g circ1) (map_point g v3zero) o 0 false
               = intersectWithZPlane S1 mirr v3zero o 0 false).
  { unfold intersectWithZPlane. rewrite En, Eo, Ep, Er. reflexivity. }
  exists (PI / 2), (- (PI / 2)), (hcurve circ1 v3zero (PI / 2)), (hcurve mirr v3zero (- (PI / 2))).
  split; [lra|]. split; [lra|].
  assert (TINY : tol9 < 1) by (unfold tol9; lra).
  split.
  - change (intersectWithSurface S circ1 v3zero o 0 false) with (intersectWithZPlane S circ1 v3zero o 0 false).
    unfold S. rewrite (flat_answer _ _ circ1 v3zero 0 circ1_om small_abs0) with (s0 := - (PI / 2)) (s1 := PI / 2).
    + unfold select. destruct (Rlt_dec (- (PI / 2)) 0); [|lra]. destruct (Rlt_dec (PI / 2) 0); [lra|].
      cbn [Z.ltb Z.compare]. rewrite Rplus_0_r, (Rabs_left (- (PI / 2))), (Rabs_pos_eq (PI / 2)) by lra.
      destruct (Rlt_dec (- - (PI / 2)) (PI / 2)); [lra|]. reflexivity.
    + reflexivity.
    + unfold vdot; cbn [vx vy vz]; ring.
    + fold S. rewrite PM. exact TINY.
    + unfold circ1, OMEGA; cbn [mk5]. rewrite Rmult_1_l, Rabs_left; lra.
    + unfold circ1, OMEGA; cbn [mk5]. rewrite Rmult_1_l, Rabs_pos_eq; lra.
    + fold S. rewrite PM, sqrt_1. unfold line_point, hcircle, pline, S, hcurve, circ1, vdot, OMEGA, PHI0, D0, TANL, Z0;
        cbn [flat sf_normal sf_origin mk5 c_x c_y c_r l_n0 l_n1 l_d v3zero vx vy vz].
      replace (0 - - (PI / 2) * 1) with (PI / 2) by ring. rewrite sin_0, cos_0, sin_PI2, cos_PI2, Rabs_pos_eq by lra.
      f_equal; field.
    + fold S. rewrite PM, sqrt_1. unfold line_point, hcircle, pline, S, hcurve, circ1, vdot, OMEGA, PHI0, D0, TANL, Z0;
        cbn [flat sf_normal sf_origin mk5 c_x c_y c_r l_n0 l_n1 l_d v3zero vx vy vz].
      replace (0 - PI / 2 * 1) with (- (PI / 2)) by ring.
      rewrite sin_0, cos_0, sin_neg, cos_neg, sin_PI2, cos_PI2, Rabs_pos_eq by lra.
      f_equal; field.
  - change (intersectWithSurface (carry g S) (map_par g circ1) (map_point g v3zero) o 0 false)
      with (intersectWithZPlane (carry g S) (map_par g circ1) (map_point g v3zero) o 0 false).
    rewrite ES. unfold S1.
    rewrite (flat_answer _ _ mirr v3zero 0) with (s0 := PI / 2) (s1 := - (PI / 2)).
    + unfold select. destruct (Rlt_dec (PI / 2) 0); [lra|]. destruct (Rlt_dec (- (PI / 2)) 0); [|lra].
      cbn [Z.ltb Z.compare]. rewrite Rplus_0_r, (Rabs_left (- (PI / 2))), (Rabs_pos_eq (PI / 2)) by lra.
      destruct (Rlt_dec (PI / 2) (- - (PI / 2))); [lra|]. reflexivity.
    + unfold mirr, OMEGA; cbn [mk5]; lra.
    + apply small_abs0.
    + reflexivity.
    + unfold vdot; cbn [vx vy vz]; ring.
    + fold S1. rewrite PM'. exact TINY.
    + unfold mirr, OMEGA; cbn [mk5]. replace (-1 * (PI / 2)) with (- (PI / 2)) by ring. rewrite Rabs_left; lra.
    + unfold mirr, OMEGA; cbn [mk5]. replace (-1 * - (PI / 2)) with (PI / 2) by ring. rewrite Rabs_pos_eq; lra.
    + fold S1. rewrite PM', sqrt_1. unfold line_point, hcircle, pline, S1, hcurve, mirr, vdot, OMEGA, PHI0, D0, TANL, Z0;
        cbn [flat sf_normal sf_origin mk5 c_x c_y c_r l_n0 l_n1 l_d v3zero vx vy vz].
      replace (0 - PI / 2 * -1) with (PI / 2) by ring. rewrite sin_0, cos_0, sin_PI2, cos_PI2, Rabs_pos_eq by lra.
      f_equal; field.
    + fold S1. rewrite PM', sqrt_1. unfold line_point, hcircle, pline, S1, hcurve, mirr, vdot, OMEGA, PHI0, D0, TANL, Z0;
        cbn [flat sf_normal sf_origin mk5 c_x c_y c_r l_n0 l_n1 l_d v3zero vx vy vz].
      replace (0 - - (PI / 2) * -1) with (- (PI / 2)) by ring.
      rewrite sin_0, cos_0, sin_neg, cos_neg, sin_PI2, cos_PI2, Rabs_pos_eq by lra.
      f_equal; field.
Qed.
Print Assumptions C69_mirrored_plane_refuted.

(** Straight tracks: turning the setup does not turn the points. *)
Theorem C69_straight_refuted : exists g hp rp s, hp OMEGA = 0 /\ m_flip g = false /\ m_shift g = v3zero
  /\ phi_kept g hp
  /\ V3 (calculateXfromS s (map_par g hp) (map_point g rp))
        (calculateYfromS s (map_par g hp) (map_point g rp))
        (calculateZfromS s (map_par g hp) (map_point g rp))
     <> map_point g (V3 (calculateXfromS s hp rp) (calculateYfromS s hp rp) (calculateZfromS s hp rp)).
Proof.
  assert (HP := PI_pos).
  exists (Mot false (PI / 2) v3zero), (mk5 0 0 0 0 0), v3zero, 1.
  split; [reflexivity|]. split; [reflexivity|]. split; [reflexivity|].
  split.
  { unfold phi_kept, hand, PHI0; cbn [m_flip m_turn mk5]. split; [apply small_abs0|].
    replace (1 * 0 + PI / 2) with (PI / 2) by ring. rewrite Rabs_pos_eq; lra. }
  intros E. apply (f_equal vx) in E. cbn [vx] in E.
  destruct (XYZ_line 1 (mk5 0 0 0 0 0) v3zero eq_refl) as (X & _ & Y).
  destruct (XYZ_line 1 (map_par (Mot false (PI / 2) v3zero) (mk5 0 0 0 0 0))
              (map_point (Mot false (PI / 2) v3zero) v3zero)) as (X' & _ & _).
  { unfold map_par, OMEGA, hand; cbn [mk5]. ring. }
  rewrite X' in E. unfold map_point, map_dir, vadd, hand in E; cbn [m_flip m_turn m_shift vx vy vz v3zero] in E.
  rewrite X, Y in E. unfold hline, map_par, hand, PHI0, D0, Z0, TANL, OMEGA in E;
    cbn [m_flip m_turn m_shift vx vy vz v3zero mk5] in E.
  replace (1 * 0 + PI / 2) with (PI / 2) in E by ring.
  rewrite sin_PI2, cos_PI2, sin_0, cos_0 in E. lra.
Qed.
Print Assumptions C69_straight_refuted.

(** ** An instance: a turned, mirrored and shifted barrel layer *)
Definition barrel : surface :=
  Surf 0 (ST true false false true false) (Some (50, V3 1 2 3)) (fun p => if Rle_dec (Rabs (vz p)) 100 then true else false)
    (fun _ => V3 0 0 1) (fun _ => V3 0 0 1)
    (fun p => V3 (vx p - 1) (vy p - 2) 0) (fun _ => (0, 0)) (fun _ => v3zero) (V3 51 2 3)
    (Mat 0 0 0 0) (Mat 0 0 0 0) 0 0
    (fun p => sqrt ((vx p - 1) * (vx p - 1) + (vy p - 2) * (vy p - 2)) - 50).

Example C69_instance :
  let g := Mot true (PI / 3) (V3 7 8 9) in
  let hp := mk5 (/ 100) 1 (1 / 2) 3 4 in
  moved_surface g barrel (carry g barrel) /\ phi_kept g hp /\ hp OMEGA <> 0
  /\ (forall r c, sf_cyl barrel = Some (r, c) -> 0 < r)
  /\ off_axis hp (V3 1 1 1) 0 0
  /\ (forall o mode cb,
        intersectWithSurface (carry g barrel) (map_par g hp) (map_point g (V3 1 1 1)) (map_out g o) mode cb
        = rmap (map_answer g) (intersectWithSurface barrel hp (V3 1 1 1) o mode cb)).
Proof.
  intros g hp. assert (HP := PI_pos). assert (P4 := PI_4). assert (P2 := PI2_3_2).
  assert (M : moved_surface g barrel (carry g barrel)) by (apply C69_carried; intros [E _]; discriminate E).
  assert (K : phi_kept g hp).
  { unfold phi_kept, g, hp, hand, PHI0; cbn [m_flip m_turn mk5]. split; apply Rabs_le; lra. }
  assert (N : hp OMEGA <> 0) by (unfold hp, OMEGA; cbn [mk5]; lra).
  assert (HR : forall r c, sf_cyl barrel = Some (r, c) -> 0 < r).
  { intros r c E. cbn [barrel sf_cyl] in E. injection E as <- _. lra. }
  split; [exact M|]. split; [exact K|]. split; [exact N|]. split; [exact HR|].
  split.
  - intros _. left. unfold hp, OMEGA, D0, PHI0; cbn [mk5 vx].
    assert (0 < sin (1 / 2)) by (apply sin_gt_0; lra).
    replace (1 / / 100) with 100 by field. lra.
  - intros. apply C69_surfaces; auto. intros [E _]; discriminate E.
Qed.
