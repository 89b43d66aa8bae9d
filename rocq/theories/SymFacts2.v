(** Proofs about motions of the whole setup (C69): surfaces. *)
From Coq Require Import Reals Lra Lia ZArith Psatz List Bool.
From Verif Require Import SpecConst Num NumFacts Vec Helix Isect SpecHelix SpecIsect SpecSym
  HelixFacts PathFacts IsectFacts SurfFacts SymFacts.
Import ListNotations.
Open Scope R_scope.

Lemma zfroms_map g s hp rp :
  calculateZfromS s (map_par g hp) (map_point g rp) = calculateZfromS s hp rp + vz (m_shift g).
Proof.
  unfold calculateZfromS, calculateZ0, calculateTanLambda, map_par, Z0, TANL; cbn [mk5].
  unfold map_point, map_dir, vadd; cbn [vx vy vz]. ring.
Qed.

Lemma map_point_3 g x y z :
  map_point g (V3 x y z)
  = V3 (vx (map_point g (V3 x y 0))) (vy (map_point g (V3 x y 0))) (z + vz (m_shift g)).
Proof. apply vec3_eq; unfold map_point, map_dir, vadd; cbn [vx vy vz]; ring. Qed.

Lemma on_circle_off_axis hp rp x y : on_circle (hcircle hp rp) (x, y) -> off_axis hp rp x y.
Proof.
  unfold on_circle, hcircle, off_axis; cbn [c_x c_y c_r fst snd]. intros E N.
  set (cx := vx rp + _) in *. set (cy := vy rp - _) in *.
  destruct (Req_dec x cx) as [->|X]; [|auto]. destruct (Req_dec y cy) as [->|Y]; [|auto].
  exfalso. rewrite Rabs_sq in E.
  assert (Q : 1 / hp OMEGA * (1 / hp OMEGA) = 0) by lra.
  apply Rmult_integral in Q. assert (1 / hp OMEGA <> 0).
  { unfold Rdiv. rewrite Rmult_1_l. apply Rinv_neq_0_compat; auto. }
  tauto.
Qed.

(** one candidate *)
Definition cand (X Y : R) (hp : vec5) (rp : vec3) : res (R * vec3) :=
  s <- calculateSfromXY X Y hp rp ;; Ok (s, V3 X Y (calculateZfromS s hp rp)).

Lemma select_map g tol mode s0 x0 s1 x1 :
  select tol mode s0 (map_point g x0) s1 (map_point g x1)
  = match select tol mode s0 x0 s1 x1 with
    | Some (s, x) => Some (s, map_point g x)
    | None => None
    end.
Proof.
  unfold select. repeat match goal with |- context [if ?b then _ else _] => destruct b end; reflexivity.
Qed.

Lemma bounds_map g S S' cb x : moved_surface g S S' ->
  bounds S' cb (map_point g x) = bounds S cb x.
Proof. intros M. unfold bounds. destruct cb; [apply (mv_bounds _ _ _ M) | reflexivity]. Qed.

(** ** both candidates, common to cylinder and plane *)
Lemma two_map g S S' hp rp tol mode cb o X0 Y0 X1 Y1 X0' Y0' X1' Y1' :
  moved_surface g S S' -> phi_kept g hp ->
  off_axis hp rp X0 Y0 -> off_axis hp rp X1 Y1 ->
  X0' = vx (map_point g (V3 X0 Y0 0)) -> Y0' = vy (map_point g (V3 X0 Y0 0)) ->
  X1' = vx (map_point g (V3 X1 Y1 0)) -> Y1' = vy (map_point g (V3 X1 Y1 0)) ->
  (s0 <- calculateSfromXY X0' Y0' (map_par g hp) (map_point g rp) ;;
   s1 <- calculateSfromXY X1' Y1' (map_par g hp) (map_point g rp) ;;
   let sol0 := V3 X0' Y0' (calculateZfromS s0 (map_par g hp) (map_point g rp)) in
   let sol1 := V3 X1' Y1' (calculateZfromS s1 (map_par g hp) (map_point g rp)) in
   match select tol mode s0 sol0 s1 sol1 with
   | None => Ok (false, map_out g o)
   | Some (s, xx) => Ok (bounds S' cb xx, OVal s xx)
   end)
  = rmap (map_answer g)
  (s0 <- calculateSfromXY X0 Y0 hp rp ;;
   s1 <- calculateSfromXY X1 Y1 hp rp ;;
   let sol0 := V3 X0 Y0 (calculateZfromS s0 hp rp) in
   let sol1 := V3 X1 Y1 (calculateZfromS s1 hp rp) in
   match select tol mode s0 sol0 s1 sol1 with
   | None => Ok (false, o)
   | Some (s, xx) => Ok (bounds S cb xx, OVal s xx)
   end).
Proof.
  intros M K O0 O1 -> -> -> ->.
  rewrite !SfromXY_map by auto.
  destruct (calculateSfromXY X0 Y0 hp rp) as [s0| | | |]; try reflexivity.
  destruct (calculateSfromXY X1 Y1 hp rp) as [s1| | | |]; try reflexivity.
  cbn [bind]. cbv zeta. rewrite !zfroms_map.
  rewrite <- !map_point_3. rewrite select_map.
  destruct (select tol mode s0 _ s1 _) as [[s x]|]; [|reflexivity].
  unfold rmap, map_answer; cbn [fst snd map_out].
  rewrite (bounds_map g S S') by auto. reflexivity.
Qed.

(** ** Cylinder *)
Lemma asin_hand g x : Rabs x <= 1 -> asin (hand g * x) = hand g * asin x.
Proof.
  intros H. destruct (hand_cases g) as [-> | ->]; [rewrite !Rmult_1_l; reflexivity|].
  replace (-1 * x) with (- x) by ring. rewrite asin_opp. ring.
Qed.

Lemma polar_map g rho c0 c1 t t' (k : Z) :
  t' = hand g * t + m_turn g + 2 * IZR k * PI ->
  vx (map_point g (V3 c0 c1 0)) + rho * cos t'
  = vx (map_point g (V3 (c0 + rho * cos t) (c1 + rho * sin t) 0))
  /\ vy (map_point g (V3 c0 c1 0)) + rho * sin t'
  = vy (map_point g (V3 (c0 + rho * cos t) (c1 + rho * sin t) 0)).
Proof.
  intros ->. rewrite cos_2kpi, sin_2kpi, cos_map, sin_map.
  unfold map_point, map_dir, vadd; cbn [vx vy vz]. split; ring.
Qed.

Lemma zcyl_map g S S' hp rp o mode cb :
  moved_surface g S S' -> phi_kept g hp ->
  (forall r c, sf_cyl S = Some (r, c) -> 0 < r) ->
  intersectWithZCylinder S' (map_par g hp) (map_point g rp) (map_out g o) mode cb
  = rmap (map_answer g) (intersectWithZCylinder S hp rp o mode cb).
Proof.
  intros M K HR.
  destruct (sf_cyl S) as [[rho c]|] eqn:EC.
  2:{ unfold intersectWithZCylinder. rewrite (mv_type _ _ _ M), (mv_cyl _ _ _ M), EC.
      destruct (st_parallelToZ (sf_type S)); reflexivity. }
  assert (Hrho := HR rho c eq_refl). clear HR.
  destruct (st_parallelToZ (sf_type S)) eqn:EP.
  2:{ unfold intersectWithZCylinder. rewrite (mv_type _ _ _ M), (mv_cyl _ _ _ M), EC, EP. reflexivity. }
  unfold intersectWithZCylinder. rewrite (mv_type _ _ _ M), (mv_cyl _ _ _ M), EC, EP.
  cbv zeta. unfold calculateOmega, calculatePhi0, calculateD0.
  change (map_par g hp PHI0) with (hand g * hp PHI0 + m_turn g).
  change (map_par g hp OMEGA) with (hand g * hp OMEGA).
  change (map_par g hp D0) with (hand g * hp D0).
  rewrite !sin_map, !cos_map.
  set (dx := vx c - (vx rp - hp D0 * sin (hp PHI0))).
  set (dy := vy c - (vy rp + hp D0 * cos (hp PHI0))).
  set (sox := sin (hp PHI0) - hp OMEGA * dx).
  set (coy := cos (hp PHI0) + hp OMEGA * dy).
  set (num := 2 * dx * sin (hp PHI0) - 2 * dy * cos (hp PHI0) - hp OMEGA * rho * rho
              - hp OMEGA * (dx * dx + dy * dy)).
  assert (Hh := hand_sq g). assert (Hsc := sc1 (m_turn g)).
  set (sp' := sin (m_turn g) * cos (hp PHI0) + cos (m_turn g) * (hand g * sin (hp PHI0))).
  set (cp' := cos (m_turn g) * cos (hp PHI0) - sin (m_turn g) * (hand g * sin (hp PHI0))).
  set (dx' := vx (map_point g c) - (vx (map_point g rp) - hand g * hp D0 * sp')).
  set (dy' := vy (map_point g c) - (vy (map_point g rp) + hand g * hp D0 * cp')).
  assert (DX : dx' = cos (m_turn g) * dx - sin (m_turn g) * (hand g * dy)).
  { unfold dx', dx, dy, sp', map_point, map_dir, vadd; cbn [vx vy vz].
    destruct (hand_cases g) as [-> | ->]; ring. }
  assert (DY : dy' = sin (m_turn g) * dx + cos (m_turn g) * (hand g * dy)).
  { unfold dy', dx, dy, cp', map_point, map_dir, vadd; cbn [vx vy vz].
    destruct (hand_cases g) as [-> | ->]; ring. }
  assert (ES : sp' - hand g * hp OMEGA * dx' = sin (m_turn g) * coy + cos (m_turn g) * (hand g * sox)).
  { rewrite DX. unfold sp', sox, coy. destruct (hand_cases g) as [-> | ->]; ring. }
  assert (EO : cp' + hand g * hp OMEGA * dy' = cos (m_turn g) * coy - sin (m_turn g) * (hand g * sox)).
  { rewrite DY. unfold cp', sox, coy. destruct (hand_cases g) as [-> | ->]; ring. }
  rewrite ES, EO.
  assert (EN : 2 * dx' * sp' - 2 * dy' * cp' - hand g * hp OMEGA * rho * rho
               - hand g * hp OMEGA * (dx' * dx' + dy' * dy') = hand g * num).
  { rewrite DX, DY. unfold sp', cp', num. clearbody dx dy.
    set (sn := sin (m_turn g)) in *. set (cs := cos (m_turn g)) in *.
    set (h := hand g) in *. set (sp := sin (hp PHI0)). set (cp := cos (hp PHI0)).
    transitivity (h * ((sn * sn + cs * cs) * (2 * dx * sp - 2 * dy * cp))
      - h * hp OMEGA * rho * rho
      - h * hp OMEGA * ((sn * sn + cs * cs) * (dx * dx) + (sn * sn + cs * cs) * (h * h) * (dy * dy)));
      [ring|]. rewrite Hsc, Hh. ring. }
  rewrite EN. clear EN ES EO.
  replace ((sin (m_turn g) * coy + cos (m_turn g) * (hand g * sox))
           * (sin (m_turn g) * coy + cos (m_turn g) * (hand g * sox))
           + (cos (m_turn g) * coy - sin (m_turn g) * (hand g * sox))
           * (cos (m_turn g) * coy - sin (m_turn g) * (hand g * sox)))
    with (sox * sox + coy * coy) by (generalize (norm_map g sox coy); lra).
  set (A := sqrt (sox * sox + coy * coy)).
  unfold xdiv.
  destruct (Req_EM_T (2 * rho * A) 0) as [ZA|NA].
  { destruct (Req_EM_T (hand g * num) 0) as [E|E]; destruct (Req_EM_T num 0) as [F|F]; auto.
    - apply hand_mul_0 in E. contradiction.
    - exfalso. apply E. rewrite F. ring. }
  assert (HA : 0 < A).
  { assert (0 <= A) by apply sqrt_pos. destruct (Req_dec A 0) as [Z|]; [|lra].
    exfalso. apply NA. rewrite Z. ring. }
  replace (hand g * num / (2 * rho * A)) with (hand g * (num / (2 * rho * A))) by (field; lra).
  set (gamma := num / (2 * rho * A)).
  rewrite hand_abs.
  destruct (Rlt_dec 1 (Rabs gamma)) as [G|G]; [reflexivity|]. apply Rnot_lt_le in G.
  rewrite asin_hand by auto.
  assert (AB : coy <> 0 \/ sox <> 0).
  { destruct (Req_dec coy 0) as [E1|]; [|auto]. destruct (Req_dec sox 0) as [E2|]; [|auto].
    exfalso. unfold A in HA. rewrite E1, E2 in HA.
    replace (0 * 0 + 0 * 0) with 0 in HA by ring. rewrite sqrt_0 in HA. lra. }
  destruct (atan2_map g sox coy AB) as [k Hk]. rewrite Hk.
  set (phirho := atan2 sox coy) in *. set (asing := asin gamma) in *.
  set (phic0 := asing + phirho).
  set (phic1 := (if Rlt_dec 0 asing then PI - asing else - PI - asing) + phirho).
  destruct (polar_map g rho (vx c) (vy c) phic0
             (hand g * asing + (hand g * phirho + m_turn g + 2 * IZR k * PI)) k) as [PX0 PY0];
    [unfold phic0; ring|].
  assert (T1 : exists k1 : Z,
     (if Rlt_dec 0 (hand g * asing) then PI - hand g * asing else - PI - hand g * asing)
       + (hand g * phirho + m_turn g + 2 * IZR k * PI)
     = hand g * phic1 + m_turn g + 2 * IZR k1 * PI).
  { unfold phic1. destruct (hand_cases g) as [-> | ->].
    - exists k. rewrite !Rmult_1_l. ring.
    - destruct (Rlt_dec 0 (-1 * asing)) as [a|a]; destruct (Rlt_dec 0 asing) as [b|b].
      + lra.
      + exists k. ring.
      + exists k. ring.
      + exists (k - 1)%Z. rewrite minus_IZR. ring. }
  destruct T1 as [k1 T1].
  destruct (polar_map g rho (vx c) (vy c) phic1 _ k1 T1) as [PX1 PY1].
  assert (OFF : off_axis hp rp (vx c + rho * cos phic0) (vy c + rho * sin phic0)
                /\ off_axis hp rp (vx c + rho * cos phic1) (vy c + rho * sin phic1)).
  { destruct (Req_dec (hp OMEGA) 0) as [Z|N].
    - split; intros F; contradiction.
    - assert (Q := cyl_points hp rp rho c N Hrho HA G).
      cbv zeta in Q. split; apply on_circle_off_axis; apply Q; [left|right]; reflexivity. }
  destruct OFF as [O0 O1].
  assert (CX : vx (map_point g c) = vx (map_point g (V3 (vx c) (vy c) 0))) by reflexivity.
  assert (CY : vy (map_point g c) = vy (map_point g (V3 (vx c) (vy c) 0))) by reflexivity.
  rewrite CX, CY, PX0, PY0, PX1, PY1.
  exact (two_map g S S' hp rp eps4 mode cb o _ _ _ _ _ _ _ _ M K O0 O1 eq_refl eq_refl eq_refl eq_refl).
Qed.

(** ** Disk *)
Lemma zdisk_map g S S' hp rp o mode cb :
  moved_surface g S S' -> hp OMEGA <> 0 ->
  intersectWithZDisk S' (map_par g hp) (map_point g rp) (map_out g o) mode cb
  = rmap (map_answer g) (intersectWithZDisk S hp rp o mode cb).
Proof.
  intros M N. unfold intersectWithZDisk. rewrite (mv_origin _ _ _ M).
  unfold calculateTanLambda, calculateZ0. cbv zeta.
  change (map_par g hp TANL) with (hp TANL). change (map_par g hp Z0) with (hp Z0).
  replace (vz (map_point g (sf_origin S)) - (vz (map_point g rp) + hp Z0))
    with (vz (sf_origin S) - (vz rp + hp Z0))
    by (unfold map_point, map_dir, vadd; cbn [vx vy vz]; ring).
  destruct (rdiv (vz (sf_origin S) - (vz rp + hp Z0)) (hp TANL)) as [s| | | |] eqn:E; try reflexivity.
  cbn [bind]. assert (Q := XYZ_map g s hp rp N).
  assert (QX := f_equal vx Q). assert (QY := f_equal vy Q). cbn [vx vy] in QX, QY. clear Q.
  rewrite QX, QY.
  replace (V3 (vx (map_point g (V3 (calculateXfromS s hp rp) (calculateYfromS s hp rp) (calculateZfromS s hp rp))))
              (vy (map_point g (V3 (calculateXfromS s hp rp) (calculateYfromS s hp rp) (calculateZfromS s hp rp))))
              (vz (map_point g (sf_origin S))))
    with (map_point g (V3 (calculateXfromS s hp rp) (calculateYfromS s hp rp) (vz (sf_origin S))))
    by (apply vec3_eq; reflexivity).
  rewrite (bounds_map g S S') by auto. reflexivity.
Qed.

(** ** Newton search *)
Definition map_state (g : motion) (st : nstate) : nstate :=
  NS (n_s st) (map_point g (n_xx st)) (map_point g (n_prevXX st)) (n_prevS st) (n_prevDist st)
     (n_alpha st).

Lemma step_map g S S' hp rp st : moved_surface g S S' ->
  newton_step S' (map_par g hp) (map_point g rp) (map_state g st)
  = rmap (fun r => match r with
                   | inl (s, x) => inl (s, map_point g x)
                   | inr st' => inr (map_state g st')
                   end) (newton_step S hp rp st).
Proof.
  intros M. unfold newton_step. cbv zeta. cbn [map_state n_s n_xx n_prevXX n_prevS n_prevDist n_alpha].
  rewrite (mv_distance _ _ _ M).
  destruct (Rlt_dec (Rabs (sf_distance S (n_xx st))) newton_eps); [reflexivity|].
  destruct (Rlt_dec (Rabs (sf_distance S (n_xx st))) (Rabs (n_prevDist st)));
    cbn [fst snd n_s n_xx n_prevXX n_prevS n_prevDist n_alpha];
    rewrite (mv_normal _ _ _ M), tangent_map, map_dir_dot;
    match goal with |- context [rdiv ?a ?b] => destruct (rdiv a b) as [q| | | |]; try reflexivity end;
    cbn [bind]; rewrite pointAt_map;
    match goal with |- context [pointAt ?a ?b ?c] => destruct (pointAt a b c) as [x| | | |]; try reflexivity end.
Qed.

Lemma loop_map g S S' hp rp n : moved_surface g S S' -> forall st,
  newton_loop S' (map_par g hp) (map_point g rp) n (map_state g st)
  = rmap (fun r => match r with
                   | NDone s x => NDone s (map_point g x)
                   | NGiveUp s x => NGiveUp s (map_point g x)
                   end) (newton_loop S hp rp n st).
Proof.
  intros M. induction n as [|n IH]; intros st; [reflexivity|].
  change (newton_loop S' (map_par g hp) (map_point g rp) (Datatypes.S n) (map_state g st))
    with (r <- newton_step S' (map_par g hp) (map_point g rp) (map_state g st) ;;
          match r with inl (s, xx) => Ok (NDone s xx)
          | inr st' => newton_loop S' (map_par g hp) (map_point g rp) n st' end).
  change (newton_loop S hp rp (Datatypes.S n) st)
    with (r <- newton_step S hp rp st ;;
          match r with inl (s, xx) => Ok (NDone s xx)
          | inr st' => newton_loop S hp rp n st' end).
  rewrite (step_map g S S') by auto.
  destruct (newton_step S hp rp st) as [[[s x]|st']| | | |]; try reflexivity.
  cbn [rmap bind]. apply IH.
Qed.

Lemma newton_map g S S' hp rp s mode cb : moved_surface g S S' ->
  intersectWithSurfaceNewton S' (map_par g hp) (map_point g rp) s mode cb
  = rmap (map_answer g) (intersectWithSurfaceNewton S hp rp s mode cb).
Proof.
  intros M. unfold intersectWithSurfaceNewton. rewrite pointAt_map.
  destruct (pointAt s hp rp) as [x| | | |]; try reflexivity. cbn [rmap bind].
  change (NS s (map_point g x) (map_point g x) s 10000000000 (/ 10000000000))
    with (map_state g (NS s x x s 10000000000 (/ 10000000000))).
  rewrite (loop_map g S S' hp rp newton_budget M).
  destruct (newton_loop S hp rp newton_budget _) as [[s' x'|s' x']| | | |]; try reflexivity.
  cbn [rmap bind]. unfold map_answer; cbn [fst snd map_out].
  rewrite (bounds_map g S S') by auto. reflexivity.
Qed.

Lemma zcone_map g S S' hp rp o mode cb :
  moved_surface g S S' -> phi_kept g hp ->
  (forall r c, sf_cyl S = Some (r, c) -> 0 < r) ->
  intersectWithZCone S' (map_par g hp) (map_point g rp) (map_out g o) mode cb
  = rmap (map_answer g) (intersectWithZCone S hp rp o mode cb).
Proof.
  intros M K HR. unfold intersectWithZCone. rewrite (zcyl_map g S S') by auto.
  destruct (intersectWithZCylinder S hp rp o mode false) as [[[|] [s x|]]| | | |]; try reflexivity.
  cbn [rmap bind map_answer fst snd map_out]. apply newton_map; auto.
Qed.

(** ** Plane *)
Lemma center_map g hp rp : hp OMEGA <> 0 ->
  calculateXCenter (map_par g hp) (map_point g rp)
  = vx (map_point g (V3 (calculateXCenter hp rp) (calculateYCenter hp rp) 0))
  /\ calculateYCenter (map_par g hp) (map_point g rp)
  = vy (map_point g (V3 (calculateXCenter hp rp) (calculateYCenter hp rp) 0)).
Proof.
  intros N. assert (N' := proj2 (om_map g hp) N).
  unfold calculateXCenter, calculateYCenter, calculateOmega, calculateD0, calculatePhi0.
  destruct (Req_EM_T (hp OMEGA) 0); [contradiction|].
  destruct (Req_EM_T (map_par g hp OMEGA) 0); [contradiction|].
  change (map_par g hp PHI0) with (hand g * hp PHI0 + m_turn g).
  change (map_par g hp OMEGA) with (hand g * hp OMEGA).
  change (map_par g hp D0) with (hand g * hp D0).
  rewrite hand_inv, sin_map, cos_map.
  unfold map_point, map_dir, vadd; cbn [vx vy vz].
  destruct (hand_cases g) as [-> | ->]; split; ring.
Qed.

Lemma radius_map g hp : calculateRadius (map_par g hp) = calculateRadius hp.
Proof.
  unfold calculateRadius, calculateCurvature.
  change (map_par g hp OMEGA) with (hand g * hp OMEGA).
  destruct (Req_EM_T (hand g * hp OMEGA) 0) as [E|E]; destruct (Req_EM_T (hp OMEGA) 0) as [F|F]; auto.
  - apply hand_mul_0 in E. contradiction.
  - exfalso. apply E. apply hand_mul_0. exact F.
  - rewrite hand_inv. apply hand_abs.
Qed.

Lemma unit_line a b d : a * a + b * b = 1 -> 0 <= d -> mkStraightLine a b d = Ok (Line a b d).
Proof.
  intros U D. unfold mkStraightLine. destruct (Rlt_dec d 0); [lra|].
  destruct (Rlt_dec (Rabs a) eps12) as [A|]; [|reflexivity].
  destruct (Rlt_dec (Rabs b) eps12) as [B|]; [|reflexivity].
  exfalso. unfold eps12 in *. rewrite <- (Rabs_sq a), <- (Rabs_sq b) in U.
  assert (0 <= Rabs a) by apply Rabs_pos. assert (0 <= Rabs b) by apply Rabs_pos. nra.
Qed.

(** the line moved along with the circle *)
Definition map_ipoint (g : motion) (p : ipoint) : ipoint :=
  match p with
  | Some (x, y) => Some (vx (map_point g (V3 x y 0)), vy (map_point g (V3 x y 0)))
  | None => None
  end.

Lemma circle_line_map g cx cy r a b d :
  m_flip g = false -> a * a + b * b = 1 ->
  intersectCircleStraightLine
    (Circ (vx (map_point g (V3 cx cy 0))) (vy (map_point g (V3 cx cy 0))) r)
    (Line (vx (map_dir g (V3 a b 0))) (vy (map_dir g (V3 a b 0)))
       (d + vdot (m_shift g) (map_dir g (V3 a b 0))))
  = rmap (map (map_ipoint g)) (intersectCircleStraightLine (Circ cx cy r) (Line a b d)).
Proof.
  intros F U. assert (Eh : hand g = 1) by (unfold hand; rewrite F; reflexivity).
  assert (Hsc := sc1 (m_turn g)).
  unfold intersectCircleStraightLine. cbv zeta.
  unfold line_move, normalSquare; cbn [c_x c_y c_r l_n0 l_n1 l_d].
  unfold map_point, map_dir, vadd, vdot; cbn [vx vy vz]. rewrite Eh.
  set (sn := sin (m_turn g)) in *. set (cs := cos (m_turn g)) in *.
  set (tx := vx (m_shift g)). set (ty := vy (m_shift g)). set (tz := vz (m_shift g)).
  set (na := cs * a - sn * (1 * b)). set (nb := sn * a + cs * (1 * b)).
  assert (NN : na * na + nb * nb = a * a + b * b).
  { unfold na, nb. transitivity ((sn * sn + cs * cs) * (a * a + b * b)); [ring|]. rewrite Hsc. ring. }
  rewrite NN.
  assert (DD : d + (tx * na + ty * nb + tz * 0)
               - (na * (cs * cx - sn * (1 * cy) + tx) + nb * (sn * cx + cs * (1 * cy) + ty))
               = d - (a * cx + b * cy)).
  { unfold na, nb. transitivity (d - (sn * sn + cs * cs) * (a * cx + b * cy)); [ring|]. rewrite Hsc. ring. }
  rewrite DD. set (dd := d - (a * cx + b * cy)). rewrite U.
  set (disc := r * r * 1 - dd * dd).
  destruct (Rlt_dec disc (- eps9)); [reflexivity|].
  rewrite rdiv_ok by lra. cbn [bind].
  assert (P : forall D, 
     Some (cs * cx - sn * (1 * cy) + tx + (na * dd + nb * D) * (1 / 1),
           sn * cx + cs * (1 * cy) + ty + (nb * dd - na * D) * (1 / 1))
     = map_ipoint g (Some (cx + (a * dd + b * D) * (1 / 1), cy + (b * dd - a * D) * (1 / 1)))).
  { intros D. unfold map_ipoint, map_point, map_dir, vadd; cbn [vx vy vz]. rewrite Eh.
    fold sn cs tx ty. f_equal. f_equal; unfold na, nb; field. }
  assert (P' : forall D, 
     Some (cs * cx - sn * (1 * cy) + tx + (na * dd - nb * D) * (1 / 1),
           sn * cx + cs * (1 * cy) + ty + (nb * dd + na * D) * (1 / 1))
     = map_ipoint g (Some (cx + (a * dd - b * D) * (1 / 1), cy + (b * dd + a * D) * (1 / 1)))).
  { intros D. unfold map_ipoint, map_point, map_dir, vadd; cbn [vx vy vz]. rewrite Eh.
    fold sn cs tx ty. f_equal. f_equal; unfold na, nb; field. }
  destruct (Rlt_dec disc 0); destruct (Rle_dec (Rabs disc) eps9); cbn [rmap map];
    rewrite ?P, ?P'; reflexivity.
Qed.

Lemma zplane_map g S S' hp rp o mode cb :
  moved_surface g S S' -> phi_kept g hp -> z_plane (sf_type S) ->
  m_flip g = false -> hp OMEGA <> 0 ->
  vz (sf_normal S v3zero) = 0 -> vdot (sf_normal S v3zero) (sf_normal S v3zero) = 1 ->
  plane_side g S ->
  intersectWithZPlane S' (map_par g hp) (map_point g rp) (map_out g o) mode cb
  = rmap (map_answer g) (intersectWithZPlane S hp rp o mode cb).
Proof.
  intros M K T F N NZ NU SIDE.
  unfold intersectWithZPlane. rewrite (mv_normal0 _ _ _ M T), (mv_origin _ _ _ M).
  unfold plane_side in SIDE. set (n := sf_normal S v3zero) in *. cbv zeta in *.
  assert (EO : vdot (map_point g (sf_origin S)) (map_dir g n)
               = vdot (sf_origin S) n + vdot (m_shift g) (map_dir g n)).
  { rewrite <- (map_dir_dot g (sf_origin S) n). unfold map_point, vadd, vdot; cbn [vx vy vz]. ring. }
  assert (ED : Rabs (vdot (map_point g (sf_origin S)) (map_dir g n))
               = Rabs (vdot (sf_origin S) n) + vdot (m_shift g) (map_dir g n)).
  { rewrite EO. destruct SIDE as [Z|[P1 P2]].
    - rewrite Z, !Rplus_0_r. reflexivity.
    - rewrite !Rabs_pos_eq by lra. reflexivity. }
  assert (U : vx n * vx n + vy n * vy n = 1) by (unfold vdot in NU; rewrite NZ in NU; lra).
  assert (U' : vx (map_dir g n) * vx (map_dir g n) + vy (map_dir g n) * vy (map_dir g n) = 1).
  { assert (Q := map_dir_dot g n n). unfold vdot in Q. cbn [map_dir vz] in Q.
    unfold vdot in NU. fold (map_dir g n) in Q. unfold map_dir in *; cbn [vx vy vz] in *. lra. }
  rewrite !unit_line by (auto using Rabs_pos). cbn [bind].
  rewrite ED, radius_map.
  destruct (center_map g hp rp N) as [-> ->].
  assert (RP : 0 <= calculateRadius hp).
  { unfold calculateRadius. destruct (Req_EM_T _ 0); [lra|apply Rabs_pos]. }
  assert (MC : forall a b, mkCircle a b (calculateRadius hp) = Ok (Circ a b (calculateRadius hp))).
  { intros. unfold mkCircle. destruct (Rlt_dec (calculateRadius hp) 0); [lra|reflexivity]. }
  rewrite !MC. cbn [bind].
  assert (ND : map_dir g n = map_dir g (V3 (vx n) (vy n) 0)).
  { rewrite <- NZ. destruct n; reflexivity. }
  rewrite ND, circle_line_map by auto.
  set (cx := calculateXCenter hp rp). set (cy := calculateYCenter hp rp).
  assert (PL : proper_line (Line (vx n) (vy n) (Rabs (vdot (sf_origin S) n)))).
  { unfold proper_line; cbn [l_n0 l_n1].
    destruct (Req_dec (vx n) 0) as [E1|]; [|auto]. destruct (Req_dec (vy n) 0) as [E2|]; [|auto].
    rewrite E1, E2 in U. lra. }
  assert (HC : Circ cx cy (calculateRadius hp) = hcircle hp rp).
  { unfold hcircle, cx, cy, calculateXCenter, calculateYCenter, calculateRadius, calculateCurvature,
      calculateOmega, calculateD0, calculatePhi0.
    destruct (Req_EM_T (hp OMEGA) 0); [contradiction|reflexivity]. }
  rewrite HC. set (l := Line (vx n) (vy n) (Rabs (vdot (sf_origin S) n))) in *.
  destruct (circle_line_spec (hcircle hp rp) l PL) as (H1 & H2 & H3 & H4 & _).
  set (D := overlap (hcircle hp rp) l) in *.
  destruct (Rlt_dec D (- eps9)) as [B1|B1]; [|destruct (Rlt_dec D 0) as [B2|B2];
    [|destruct (Rle_dec D eps9) as [B3|B3]]].
  - rewrite H4 by lra. reflexivity.
  - rewrite H3 by lra. cbn [rmap bind map map_ipoint].
    destruct (Z.eqb mode 0); [destruct cb|]; reflexivity.
  - destruct H2 as ([X Y] & -> & [ON _] & _); [lra|]. apply on_circle_off_axis in ON.
    cbn [rmap bind map map_ipoint]. rewrite SfromXY_map by auto.
    destruct (calculateSfromXY X Y hp rp) as [s| | | |]; try reflexivity. cbn [bind].
    cbv zeta. rewrite zfroms_map, <- map_point_3, (bounds_map g S S') by auto. reflexivity.
  - destruct H1 as ([X0 Y0] & [X1 Y1] & _ & -> & ON); [lra|].
    assert (O0 : off_axis hp rp X0 Y0) by (apply on_circle_off_axis, ON; auto).
    assert (O1 : off_axis hp rp X1 Y1) by (apply on_circle_off_axis, ON; auto).
    cbn [rmap bind map map_ipoint].
    exact (two_map g S S' hp rp 0 mode cb o _ _ _ _ _ _ _ _ M K O0 O1 eq_refl eq_refl eq_refl eq_refl).
Qed.
