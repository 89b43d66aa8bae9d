(** Property C69: results do not depend on where the x and y axes point, on where
    the coordinate origin is, or on the handedness of the setup. *)
From Coq Require Import Reals Lra Lia ZArith Psatz List Bool FunctionalExtensionality.
From Coquelicot Require Import Coquelicot.
From Verif Require Import SpecConst Num NumFacts Vec Helix Isect SpecHelix SpecIsect SpecSym
  HelixFacts PathFacts IsectFacts SurfFacts SurfFacts2 MoveFacts SymFacts SymFacts2 SymFacts3.
Import ListNotations.
Open Scope R_scope.

Lemma derive_lin (X Y : R -> R) a b c s x y : is_derive X s x -> is_derive Y s y ->
  is_derive (fun t => a * X t + b * Y t + c) s (a * x + b * y).
Proof.
  intros HX HY. auto_derive.
  - split; [eexists; exact HX|]. split; [eexists; exact HY|]. exact I.
  - change (Derive (fun x => X x) s) with (Derive X s). change (Derive (fun x => Y x) s) with (Derive Y s).
    rewrite (is_derive_unique _ _ _ HX), (is_derive_unique _ _ _ HY). ring.
Qed.

(** The motion acts on helix parameters as it should: the moved curve is the
    helix of the moved parameters. *)
Theorem C69_curve : forall g hp rp f, is_helix hp rp f ->
  is_helix (map_par g hp) (map_point g rp) (fun s => map_point g (f s)).
Proof.
  intros g hp rp f [H0 HX HY HZ].
  assert (D : forall s, hand g * hp PHI0 + m_turn g - hand g * hp OMEGA * s
                        = hand g * (hp PHI0 - hp OMEGA * s) + m_turn g) by (intros; ring).
  constructor.
  - rewrite H0. unfold map_par, OMEGA, PHI0, D0, Z0; cbn [mk5]. rewrite sin_map, cos_map.
    apply vec3_eq; unfold map_point, map_dir, vadd; cbn [vx vy vz];
      destruct (hand_cases g) as [Eh|Eh]; rewrite ?Eh; ring.
  - intros s. unfold map_par, OMEGA, PHI0; cbn [mk5]. fold OMEGA PHI0. rewrite D, cos_map.
    unfold map_point, map_dir, vadd; cbn [vx vy vz].
    replace (cos (m_turn g) * cos (hp PHI0 - hp OMEGA * s) - sin (m_turn g) * (hand g * sin (hp PHI0 - hp OMEGA * s)))
      with (cos (m_turn g) * cos (hp PHI0 - hp OMEGA * s)
            + (- (sin (m_turn g) * hand g)) * sin (hp PHI0 - hp OMEGA * s)) by ring.
    apply (is_derive_ext (fun t => cos (m_turn g) * vx (f t) + (- (sin (m_turn g) * hand g)) * vy (f t)
             + vx (m_shift g))); [intros; match goal with |- ?a = ?b => change (@eq R a b) end; ring|].
    apply (derive_lin (fun t => vx (f t)) (fun t => vy (f t))); auto.
  - intros s. unfold map_par, OMEGA, PHI0; cbn [mk5]. fold OMEGA PHI0. rewrite D, sin_map.
    unfold map_point, map_dir, vadd; cbn [vx vy vz].
    replace (sin (m_turn g) * cos (hp PHI0 - hp OMEGA * s) + cos (m_turn g) * (hand g * sin (hp PHI0 - hp OMEGA * s)))
      with (sin (m_turn g) * cos (hp PHI0 - hp OMEGA * s)
            + (cos (m_turn g) * hand g) * sin (hp PHI0 - hp OMEGA * s)) by ring.
    apply (is_derive_ext (fun t => sin (m_turn g) * vx (f t) + (cos (m_turn g) * hand g) * vy (f t)
             + vy (m_shift g))); [intros; match goal with |- ?a = ?b => change (@eq R a b) end; ring|].
    apply (derive_lin (fun t => vx (f t)) (fun t => vy (f t))); auto.
  - intros s. unfold map_par, TANL; cbn [mk5]. fold TANL.
    unfold map_point, map_dir, vadd; cbn [vx vy vz].
    replace (hp TANL) with (1 * hp TANL + 0 * hp TANL) by ring.
    apply (is_derive_ext (fun t => 1 * vz (f t) + 0 * vz (f t) + vz (m_shift g)));
      [intros; match goal with |- ?a = ?b => change (@eq R a b) end; ring|].
    apply (derive_lin (fun t => vz (f t)) (fun t => vz (f t))); auto.
Qed.
Print Assumptions C69_curve.

(** Points, directions, centre, radius, closest point and momentum move along. *)
Theorem C69_helix : forall g s hp rp,
  pointAt s (map_par g hp) (map_point g rp) = rmap (map_point g) (pointAt s hp rp)
  /\ calculateTangent s (map_par g hp) = map_dir g (calculateTangent s hp)
  /\ calculateRadius (map_par g hp) = calculateRadius hp
  /\ (forall z, V3 (calculateX0 (map_par g hp) (map_point g rp))
                   (calculateY0 (map_par g hp) (map_point g rp)) (z + vz (m_shift g))
                = map_point g (V3 (calculateX0 hp rp) (calculateY0 hp rp) z))
  /\ (forall B B' : vec3 -> vec3, vz (B' (map_point g rp)) = vz (B rp) ->
        momentumAt B' s (map_par g hp) (map_point g rp) = rmap (map_dir g) (momentumAt B s hp rp)
        /\ momentumAtPCA B' (map_par g hp) (map_point g rp) = rmap (map_dir g) (momentumAtPCA B hp rp))
  /\ (hp OMEGA <> 0 ->
      V3 (calculateXfromS s (map_par g hp) (map_point g rp))
         (calculateYfromS s (map_par g hp) (map_point g rp))
         (calculateZfromS s (map_par g hp) (map_point g rp))
      = map_point g (V3 (calculateXfromS s hp rp) (calculateYfromS s hp rp) (calculateZfromS s hp rp))
      /\ forall z, V3 (calculateXCenter (map_par g hp) (map_point g rp))
                      (calculateYCenter (map_par g hp) (map_point g rp)) (z + vz (m_shift g))
                   = map_point g (V3 (calculateXCenter hp rp) (calculateYCenter hp rp) z)).
Proof.
  intros g s hp rp.
  split; [apply pointAt_map|]. split; [apply tangent_map|]. split; [apply radius_map|].
  split; [|split].
  - intros z. unfold calculateX0, calculateY0, calculatePhi0, calculateD0, map_par, PHI0, D0; cbn [mk5].
    rewrite !sin_neg, sin_map, cos_map.
    apply vec3_eq; unfold map_point, map_dir, vadd; cbn [vx vy vz];
      destruct (hand_cases g) as [Eh|Eh]; rewrite ?Eh; ring.
  - intros B B' HB.
    assert (O : forall x, rdiv 1 (hand g * x) = rmap (fun r => hand g * r) (rdiv 1 x)).
    { intros x. unfold rdiv. destruct (Req_EM_T (hand g * x) 0) as [E|E];
        destruct (Req_EM_T x 0) as [F|F]; auto.
      - apply hand_mul_0 in E; contradiction.
      - exfalso; apply E; apply hand_mul_0; auto.
      - cbn [rmap]. rewrite hand_inv. reflexivity. }
    unfold momentumAt, momentumAtPCA, calculateOmega, calculatePhi0, calculateTanLambda,
      map_par, OMEGA, PHI0, TANL; cbn [mk5]. cbv zeta. rewrite HB, O.
    replace (hand g * hp I2 + m_turn g - s * (hand g * hp I0))
      with (hand g * (hp I2 - s * hp I0) + m_turn g) by ring.
    rewrite !sin_map, !cos_map.
    destruct (rdiv 1 (hp I0)) as [r| | | |]; try (split; reflexivity).
    cbn [rmap bind]. rewrite hand_abs.
    split; f_equal; apply vec3_eq; unfold map_dir; cbn [vx vy vz]; ring.
  - intros N. split; [apply XYZ_map; auto|]. intros z.
    destruct (center_map g hp rp N) as [-> ->].
    apply vec3_eq; unfold map_point, map_dir, vadd; cbn [vx vy vz]; ring.
Qed.
Print Assumptions C69_helix.

(** The path length to a point. *)
Theorem C69_path : forall g hp rp x y, phi_kept g hp -> off_axis hp rp x y ->
  let p := map_point g (V3 x y 0) in
  calculateSfromXY (vx p) (vy p) (map_par g hp) (map_point g rp) = calculateSfromXY x y hp rp.
Proof. intros. apply SfromXY_map; auto. Qed.
Print Assumptions C69_path.

(** Crossing with a surface.  For planes (which are not cylinders) the frame may
    be turned but not mirrored, and shifted only so that the coordinate origin
    stays behind the plane. *)
Theorem C69_surfaces : forall g S S' hp rp o mode cb,
  moved_surface g S S' -> phi_kept g hp -> hp OMEGA <> 0 ->
  (forall r c, sf_cyl S = Some (r, c) -> 0 < r) ->
  (z_plane (sf_type S) -> ~ z_cylinder (sf_type S) ->
     m_flip g = false /\ plane_side g S
     /\ vz (sf_normal S v3zero) = 0 /\ vdot (sf_normal S v3zero) (sf_normal S v3zero) = 1) ->
  intersectWithSurface S' (map_par g hp) (map_point g rp) (map_out g o) mode cb
  = rmap (map_answer g) (intersectWithSurface S hp rp o mode cb).
Proof.
  intros g S S' hp rp o mode cb M K N HR HP. unfold intersectWithSurface.
  rewrite (mv_type _ _ _ M). cbv zeta.
  destruct (isZCylinder (sf_type S)) eqn:EC; [apply zcyl_map; auto|].
  destruct (isZPlane (sf_type S)) eqn:EP.
  { apply isZPlane_iff in EP. apply isZCylinder_false in EC. destruct (HP EP EC) as (F & SD & NZ & NU). apply zplane_map; auto. }
  destruct (isZDisk (sf_type S)); [apply zdisk_map; auto|].
  destruct (isCone (sf_type S)); [apply zcone_map; auto|]. reflexivity.
Qed.
Print Assumptions C69_surfaces.

(** The Newton search by itself, from any starting value. *)
Theorem C69_newton : forall g S S' hp rp s mode cb, moved_surface g S S' ->
  intersectWithSurfaceNewton S' (map_par g hp) (map_point g rp) s mode cb
  = rmap (map_answer g) (intersectWithSurfaceNewton S hp rp s mode cb).
Proof. intros. apply newton_map; auto. Qed.
Print Assumptions C69_newton.

(** Moving the reference point to any point off the axis: same turning angle,
    parameters equal up to whole turns of the azimuth, covariance carried along.
    In a mirror the turning angle must not be exactly half a turn. *)
Theorem C69_move : forall g tp v cm,
  tp_par tp OMEGA <> 0 -> off_axis (tp_par tp) (tp_ref tp) (vx v) (vy v) ->
  exists c' p' fid, moveHelixTo tp v cm = Ok (TP c' p' v, fid)
  /\ ((m_flip g = false \/ fid <> PI) ->
      exists p'', moveHelixTo (map_tp g tp) (map_point g v) cm
                  = Ok (TP (map_cov g c') p'' (map_point g v), hand g * fid)
        /\ same_par p'' (map_par g p')).
Proof. exact move_map. Qed.
Print Assumptions C69_move.

(** The helix through three points. *)
Theorem C69_start : forall g x1 x2 x3 tp backward,
  match calculateStartHelix x1 x2 x3 tp backward with
  | Ok tp1 => exists hp', 
      calculateStartHelix (map_point g x1) (map_point g x2) (map_point g x3) tp backward
      = Ok (TP (tp_cov tp) hp' (map_point g x1))
      /\ tp_ref tp1 = x1 /\ same_par hp' (map_par g (tp_par tp1))
  | bad => calculateStartHelix (map_point g x1) (map_point g x2) (map_point g x3) tp backward = bad
  end.
Proof.
  intros g x1 x2 x3 tp b.
  destruct (Req_dec (turn x1 x2 x3) 0) as [Z|Nz].
  - rewrite StartFacts.start_degenerate by auto. apply StartFacts.start_degenerate.
    unfold turn, map_point, map_dir, vadd in *; cbn [vx vy] in *.
    assert (Hsc := sc1 (m_turn g)).
    transitivity ((sin (m_turn g) * sin (m_turn g) + cos (m_turn g) * cos (m_turn g))
      * (hand g * ((vx x2 - vx x1) * (vy x3 - vy x1) - (vy x2 - vy x1) * (vx x3 - vx x1)))); [ring|].
    rewrite Z. ring.
  - destruct (StartFacts.start_through_points x1 x2 x3 tp b Nz) as [hp [E _]].
    rewrite E. cbn [tp_ref tp_par].
    destruct (start_map g x1 x2 x3 tp b hp E) as (hp' & E' & SP). eauto.
Qed.
Print Assumptions C69_start.

(** ** Any surface can be carried along *)
Definition unmap (g : motion) (p : vec3) : vec3 :=
  V3 (cos (m_turn g) * (vx p - vx (m_shift g)) + sin (m_turn g) * (vy p - vy (m_shift g)))
     (hand g * (cos (m_turn g) * (vy p - vy (m_shift g)) - sin (m_turn g) * (vx p - vx (m_shift g))))
     (vz p - vz (m_shift g)).

Lemma unmap_map g p : unmap g (map_point g p) = p.
Proof.
  assert (Hh := hand_sq g). assert (Hsc := sc1 (m_turn g)).
  apply vec3_eq; unfold unmap, map_point, map_dir, vadd; cbn [vx vy vz].
  - transitivity ((sin (m_turn g) * sin (m_turn g) + cos (m_turn g) * cos (m_turn g)) * vx p); [ring|].
    rewrite Hsc. ring.
  - transitivity (hand g * hand g * (sin (m_turn g) * sin (m_turn g) + cos (m_turn g) * cos (m_turn g)) * vy p);
      [ring|]. rewrite Hsc, Hh. ring.
  - ring.
Qed.

Definition carry (g : motion) (S : surface) : surface :=
  Surf (sf_id S) (sf_type S)
    (match sf_cyl S with Some (r, c) => Some (r, map_point g c) | None => None end)
    (fun p => sf_insideBounds S (unmap g p))
    (fun p => map_dir g (sf_u S (unmap g p))) (fun p => map_dir g (sf_v S (unmap g p)))
    (fun p => map_dir g (sf_normal S (unmap g p)))
    (fun p => sf_globalToLocal S (unmap g p)) (fun uv => map_point g (sf_localToGlobal S uv))
    (map_point g (sf_origin S)) (sf_innerMaterial S) (sf_outerMaterial S)
    (sf_innerThickness S) (sf_outerThickness S) (fun p => sf_distance S (unmap g p)).

(** The hypothesis of [C69_surfaces] can be met for every motion and surface (the
    normal of a plane is the same everywhere). *)
Theorem C69_carried : forall g S,
  (z_plane (sf_type S) -> forall p, sf_normal S p = sf_normal S v3zero) ->
  moved_surface g S (carry g S).
Proof.
  intros g S H. constructor; cbn [carry sf_type sf_cyl sf_insideBounds sf_normal sf_origin sf_distance];
    try reflexivity; intros.
  - rewrite unmap_map. reflexivity.
  - rewrite unmap_map. reflexivity.
  - rewrite H by auto. reflexivity.
  - rewrite unmap_map. reflexivity.
Qed.
Print Assumptions C69_carried.
