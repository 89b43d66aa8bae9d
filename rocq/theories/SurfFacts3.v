(** Every outcome of the plane, cylinder and cone intersections (C15, C16, C21). *)
From Coq Require Import Reals List Bool ZArith Lra Lia Psatz.
From Coquelicot Require Import Coquelicot.
From Verif Require Import SpecConst Num NumFacts Vec Helix SpecHelix HelixFacts PathFacts.
From Verif Require Import Isect SpecIsect IsectFacts SurfFacts SurfFacts2.
Import ListNotations.
Open Scope R_scope.

Lemma SfromXY_no_throw x y hp rp : calculateSfromXY x y hp rp <> Throw.
Proof.
  unfold calculateSfromXY. cbv zeta.
  match goal with |- (if ?b then _ else _) <> _ => destruct b end; [discriminate|].
  unfold rdiv. match goal with |- (if ?b then _ else _) <> _ => destruct b end; discriminate.
Qed.

Lemma zplane_throw_iff surf o hp rp mode cb :
  intersectWithZPlane surf hp rp o mode cb = Throw <->
  Rabs (vx (sf_normal surf v3zero)) < eps12 /\ Rabs (vy (sf_normal surf v3zero)) < eps12.
Proof.
  split; [|intros [A B]; apply pline_throw; auto].
  unfold intersectWithZPlane. cbv zeta. set (n := sf_normal surf v3zero). set (d := Rabs _).
  intros E. destruct (mkStraightLine (vx n) (vy n) d) as [l| | | |] eqn:M; try discriminate.
  - exfalso. cbn [bind] in E.
    assert (R0 : 0 <= calculateRadius hp).
    { unfold calculateRadius, calculateCurvature, calculateOmega. destruct (Req_EM_T (hp OMEGA) 0); [lra|apply Rabs_pos]. }
    unfold mkCircle in E. destruct (Rlt_dec (calculateRadius hp) 0); [lra|]. cbn [bind] in E.
    apply ctor_proper in M. destruct M as (_ & _ & P).
    destruct (circle_line_total (Circ (calculateXCenter hp rp) (calculateYCenter hp rp) (calculateRadius hp)) l P) as [r Er].
    rewrite Er in E. cbn [bind] in E.
    destruct r as [|[[X Y]|] [|[[X' Y']|] r]]; try discriminate.
    + generalize (SfromXY_no_throw X Y hp rp). destruct (calculateSfromXY X Y hp rp); try discriminate; congruence.
    + generalize (SfromXY_no_throw X Y hp rp). destruct (calculateSfromXY X Y hp rp); try discriminate; try congruence.
      generalize (SfromXY_no_throw X' Y' hp rp). cbn [bind] in E.
      destruct (calculateSfromXY X' Y' hp rp); try discriminate; try congruence.
      cbn [bind] in E. destruct (select _ _ _ _ _ _) as [[? ?]|]; discriminate.
    + destruct (Z.eqb mode 0); [destruct cb|]; discriminate.
  - unfold mkStraightLine in M. destruct (Rlt_dec d 0) as [L|L]; [generalize (Rabs_pos (vdot (sf_origin surf) n)); unfold d in L; lra|].
    destruct (Rlt_dec (Rabs (vx n)) eps12); [|discriminate].
    destruct (Rlt_dec (Rabs (vy n)) eps12); [auto|discriminate].
Qed.

Lemma zplane_outcomes surf hp rp o mode cb f :
  hp OMEGA <> 0 -> Rabs (hp PHI0) <= 2 * PI -> is_helix hp rp f -> zplane_ok surf ->
  let P x := on_line (pline surf) (vx x, vy x) in
  let r := intersectWithZPlane surf hp rp o mode cb in
  let m := plane_margin surf hp rp in
  (m < - eps9 -> r = Ok (false, o))
  /\ (- eps9 <= m < 0 ->
        (mode <> 0%Z -> r = Ok (false, OBad))
        /\ (mode = 0%Z -> cb = false -> r = Ok (true, OBad))
        /\ (mode = 0%Z -> cb = true -> r = NonFin))
  /\ (0 <= m <= eps9 ->
        (exists s, Rabs (hp OMEGA * s) = PI /\ P (f s) /\ r = NonFin)
        \/ (exists s b, crossing f (hp OMEGA) P s
              /\ (b = true <-> sign_ok mode s /\ (cb = true -> sf_insideBounds surf (f s) = true))
              /\ r = Ok (b, OVal s (f s))))
  /\ (eps9 < m ->
        (r = NonFin /\ exists s, Rabs (hp OMEGA * s) = PI /\ P (f s))
        \/ ((forall s, Rabs (hp OMEGA * s) = PI -> ~ P (f s))
            /\ exists s b, picked 0 mode (crossing f (hp OMEGA) P) s
                 /\ (b = true <-> (cb = true -> sf_insideBounds surf (f s) = true))
                 /\ r = Ok (b, OVal s (f s)))
        \/ ((forall s, Rabs (hp OMEGA * s) = PI -> ~ P (f s))
            /\ none_for mode (crossing f (hp OMEGA) P) /\ r = Ok (false, o))).
Proof.
  intros H Hp Hf Hz P r m. assert (F := helix_is_hcurve hp rp f H Hf).
  unfold m, plane_margin. unfold r, intersectWithZPlane. cbv zeta.
  destruct (pline_made surf Hz) as [M PL]. cbv zeta in M. rewrite M. clear M. cbn [bind].
  rewrite (circle_made hp rp H). cbn [bind].
  destruct (circle_line_result (hcircle hp rp) (pline surf) PL) as (R1 & R2 & R3 & R4). cbv zeta in *.
  set (D := overlap (hcircle hp rp) (pline surf)) in *.
  assert (E9 : 0 < eps9) by (unfold eps9; lra).
  split; [|split; [|split]]; intros HD.
  - rewrite R1 by auto. reflexivity.
  - rewrite R2 by auto. cbn [bind]. split; [|split].
    + intros N. apply Z.eqb_neq in N. rewrite N. reflexivity.
    + intros -> ->. reflexivity.
    + intros -> ->. reflexivity.
  - rewrite R3 by auto. cbn [bind].
    assert (SD : sqrt D * sqrt D = D) by (apply sqrt_sqrt; lra).
    assert (K : on_circle (hcircle hp rp) (line_point (hcircle hp rp) (pline surf) (sqrt D))
      /\ on_line (pline surf) (line_point (hcircle hp rp) (pline surf) (sqrt D)))
      by (apply (common_points _ _ _ PL); eauto).
    destruct K as [K1 K2]. destruct (line_point _ _ (sqrt D)) as [X Y].
    destruct (SfromXY_circle hp rp X Y H Hp K1) as [(s0 & L0 & E0 & V0)|(s0 & L0 & E0 & V0 & W0)];
      rewrite E0; cbn [bind].
    + right. exists s0. eexists. rewrite V0, F. split; [|split; [|reflexivity]].
      * split; auto. unfold P. rewrite F, <- V0. exact K2.
      * rewrite andb_true_iff, mode_ok_iff, bounds_iff. tauto.
    + left. exists s0. split; auto. split; auto. unfold P. rewrite F, V0, W0. exact K2.
  - rewrite R4 by auto. cbn [bind].
    set (p0 := line_point (hcircle hp rp) (pline surf) (sqrt D)).
    set (p1 := line_point (hcircle hp rp) (pline surf) (- sqrt D)).
    assert (U : forall x, on_circle (hcircle hp rp) x /\ on_line (pline surf) x <-> x = p0 \/ x = p1).
    { intros x. rewrite (common_points _ _ _ PL). fold D. split.
      - intros (u & A & ->). apply sq_sqrt_cases in A; [|lra]. destruct A as [-> | ->]; auto.
      - intros [-> | ->]; [exists (sqrt D) | exists (- sqrt D)]; (split; [|reflexivity]);
          (apply sq_sqrt_cases; [lra | auto]). }
    destruct (two_candidates hp rp (on_line (pline surf)) p0 p1 H Hp U)
      as [[(s & A & B) N]|(s0 & s1 & E0 & E1 & V0 & V1 & HS & NH)].
    + left. split; [|exists s; split; auto; unfold P; rewrite F; auto].
      destruct p0 as [X0 Y0], p1 as [X1 Y1]. cbn [fst snd] in N.
      generalize (SfromXY_circle hp rp X0 Y0 H Hp (proj1 (proj2 (U _) (or_introl eq_refl)))).
      destruct N as [->| ->]; [reflexivity|]. intros [(t & _ & -> & _)|(t & _ & -> & _)]; reflexivity.
    + right. assert (NH' : forall s, Rabs (hp OMEGA * s) = PI -> ~ P (f s)).
      { intros s Hs. unfold P. rewrite F. auto. }
      assert (X : forall t, (Rabs (hp OMEGA * t) < PI /\ on_line (pline surf) (vx (hcurve hp rp t), vy (hcurve hp rp t)))
                  <-> crossing f (hp OMEGA) P t)
        by (intros t; unfold crossing, P; rewrite F; tauto).
      destruct p0 as [X0 Y0], p1 as [X1 Y1]. cbn [fst snd] in *.
      rewrite E0. cbn [bind]. rewrite E1. cbn [bind]. rewrite V0, V1.
      destruct (select 0 mode s0 (hcurve hp rp s0) s1 (hcurve hp rp s1)) as [[s x]|] eqn:Es.
      * left. split; auto. exists s, (bounds surf cb (f s)).
        split; [apply (picked_ext _ _ _ _ _ X); eapply select_picked; eauto; lra|]. split; [apply bounds_iff|].
        apply select_some in Es; [|lra]. destruct Es as (Q1 & _).
        rewrite F. destruct Q1 as [[-> ->]|[-> ->]]; reflexivity.
      * right. split; auto. split; auto. apply (none_ext _ _ _ X).
        apply (select_none_for 0 mode s0 (hcurve hp rp s0) s1 (hcurve hp rp s1)); auto.
Qed.

(** straight track, plane: the circle is the point at the origin *)
Lemma zplane_straight_all surf hp rp o mode cb : hp OMEGA = 0 -> zplane_ok surf ->
  let d := vdot (sf_origin surf) (sf_normal surf v3zero) in
  let r := intersectWithZPlane surf hp rp o mode cb in
  let x := V3 0 0 (vz rp + hp Z0) in
  (eps9 < d * d -> r = Ok (false, o))
  /\ (d * d <= eps9 -> d <> 0 ->
        (mode <> 0%Z -> r = Ok (false, OBad))
        /\ (mode = 0%Z -> cb = false -> r = Ok (true, OBad))
        /\ (mode = 0%Z -> cb = true -> r = NonFin))
  /\ (d = 0 ->
        (- (3 * PI) < hp PHI0 <= 3 * PI -> exists b, r = Ok (b, OVal 0 x)
           /\ (b = true <-> mode = 0%Z /\ (cb = true -> sf_insideBounds surf x = true)))
        /\ (~ (- (3 * PI) < hp PHI0 <= 3 * PI) -> r = NonFin)).
Proof.
  intros H Hz d r x. unfold r, intersectWithZPlane. cbv zeta.
  destruct (pline_made surf Hz) as [M PL]. cbv zeta in M. rewrite M. clear M. cbn [bind].
  unfold calculateRadius, calculateXCenter, calculateYCenter, calculateCurvature, calculateOmega.
  rewrite H. destruct (Req_EM_T 0 0); [|contradiction].
  unfold mkCircle. destruct (Rlt_dec 0 0); [lra|]. cbn [bind].
  destruct (circle_line_result (Circ 0 0 0) (pline surf) PL) as (R1 & R2 & R3 & _). cbv zeta in *.
  assert (O : overlap (Circ 0 0 0) (pline surf) = - (d * d)).
  { unfold overlap, pline; cbn [c_x c_y c_r l_n0 l_n1 l_d]. fold d.
    assert (Rabs d * Rabs d = d * d) by apply Rabs_sq. nra. }
  rewrite O in *. split; [|split].
  - intros G. rewrite R1 by lra. reflexivity.
  - intros G N. rewrite R2 by nra. cbn [bind]. split; [|split].
    + intros M. apply Z.eqb_neq in M. rewrite M. reflexivity.
    + intros -> ->. reflexivity.
    + intros -> ->. reflexivity.
  - intros Z. assert (E9 : 0 < eps9) by (unfold eps9; lra). rewrite R3 by nra. cbn [bind].
    replace (- (d * d)) with 0 by (rewrite Z; ring). rewrite sqrt_0.
    assert (Lp : line_point (Circ 0 0 0) (pline surf) 0 = (0, 0)).
    { unfold line_point, pline. cbn [c_x c_y c_r l_n0 l_n1 l_d]. fold d. rewrite Z, Rabs_R0. f_equal; ring. }
    rewrite Lp. destruct (SfromXY_line_any hp rp 0 0 H) as [S1 S2]. split; intros L.
    + rewrite (S1 L). cbn [bind].
      replace (calculateZfromS 0 hp rp) with (vz rp + hp Z0) by (unfold calculateZfromS, calculateZ0; ring).
      fold x. eexists. split; [reflexivity|]. rewrite andb_true_iff, mode_ok_iff, bounds_iff. unfold sign_ok.
      split; [|intros [-> B]; split; auto; split; lia].
      intros [[A B] C]. split; auto. destruct (Z.lt_trichotomy mode 0) as [G|[G|G]]; auto; [apply B in G|apply A in G]; lra.
    + rewrite (S2 L). reflexivity.
Qed.

(** straight track, cylinder: the entry point with path length zero *)
Lemma zcyl_straight_all surf hp rp rho c o mode cb f :
  hp OMEGA = 0 -> 0 < rho -> is_helix hp rp f ->
  st_parallelToZ (sf_type surf) = true -> sf_cyl surf = Some (rho, c) ->
  let r := intersectWithZCylinder surf hp rp o mode cb in
  let P t := on_cylinder rho c (f t) in
  ((forall t, ~ P t) -> r = Ok (false, o))
  /\ (forall t, P t ->
        (- (3 * PI) < hp PHI0 <= 3 * PI ->
           ((mode < 0)%Z -> r = Ok (false, o))
           /\ ((0 <= mode)%Z -> (forall t', P t' -> t <= t') ->
                let x := V3 (vx (f t)) (vy (f t)) (vz (f 0)) in
                exists b, r = Ok (b, OVal 0 x) /\ (b = true <-> (cb = true -> sf_insideBounds surf x = true))))
        /\ (~ (- (3 * PI) < hp PHI0 <= 3 * PI) -> r = NonFin)).
Proof.
  intros H Hr Hf Hpar Hcyl r P. generalize PI_pos; intros HP.
  assert (F := helix_is_hline hp rp f H Hf).
  unfold r, intersectWithZCylinder. rewrite Hpar, Hcyl. cbv zeta.
  unfold calculateOmega, calculatePhi0, calculateD0. rewrite H.
  rewrite !Rmult_0_l, !Rminus_0_r, Rplus_0_r, sc1, sqrt_1.
  set (p := hp PHI0) in *.
  set (dx := vx c - (vx rp - hp D0 * sin p)). set (dy := vy c - (vy rp + hp D0 * cos p)).
  replace ((2 * dx * sin p - 2 * dy * cos p)) with (2 * (dx * sin p - dy * cos p)) by ring.
  set (N := dx * sin p - dy * cos p). set (T := dx * cos p + dy * sin p).
  unfold xdiv. destruct (Req_EM_T (2 * rho * 1) 0) as [Z|_]; [exfalso; lra|].
  set (g := 2 * N / (2 * rho * 1)).
  assert (Gn : rho * g = N) by (unfold g; field; lra).
  assert (SC := sc1 p).
  assert (Pt : forall t, P t <-> (t - T) * (t - T) + N * N = rho * rho).
  { intros t. unfold P, on_cylinder. rewrite F. unfold hline. cbn [vx vy]. fold p.
    replace ((vx rp - hp D0 * sin p + t * cos p - vx c) * (vx rp - hp D0 * sin p + t * cos p - vx c)
      + (vy rp + hp D0 * cos p + t * sin p - vy c) * (vy rp + hp D0 * cos p + t * sin p - vy c))
      with ((t - T) * (t - T) + N * N); [tauto|].
    transitivity ((t * cos p - dx) * (t * cos p - dx) + (t * sin p - dy) * (t * sin p - dy)); [|unfold dx, dy; ring].
    unfold T, N. clearbody dx dy.
    transitivity (t * t * 1 - 2 * t * (dx * cos p + dy * sin p) + (dx * dx + dy * dy) * (sin p * sin p + cos p * cos p)); [ring|].
    rewrite SC. rewrite <- SC at 1. ring. }
  destruct (Rlt_dec 1 (Rabs g)) as [L|L].
  { split; [auto|]. intros t Ht. exfalso. apply Pt in Ht.
    assert (1 < g * g) by (rewrite <- Rabs_sq; nra). assert (0 <= (t - T) * (t - T)) by apply Rle_0_sqr.
    assert (N * N = rho * rho * (g * g)) by (rewrite <- Gn; ring). assert (0 < rho * rho) by nra. nra. }
  assert (Lg : -1 <= g <= 1) by (apply Rabs_le_inv; lra).
  set (a := asin g). assert (Sa : sin a = g) by (apply sin_asin; auto).
  assert (Ca : 0 <= cos a) by (apply cos_ge_0; destruct (asin_bound g); unfold a; lra).
  assert (Ca2 : cos a * cos a = 1 - g * g) by (rewrite <- Sa; generalize (sc1 a); lra).
  destruct (atan2_mod 1 p Rlt_0_1) as [m Hm]. rewrite !Rmult_1_l in Hm. rewrite Hm.
  set (b1 := (if Rlt_dec 0 a then PI - a else - PI - a)).
  assert (B1 : cos b1 = - cos a /\ sin b1 = sin a).
  { unfold b1. destruct (Rlt_dec 0 a).
    - split; [|apply sin_PI_x]. rewrite cos_minus, cos_PI, sin_PI. ring.
    - replace (- PI - a) with (- (a + PI)) by ring. rewrite cos_neg, sin_neg, neg_cos, neg_sin. split; ring. }
  destruct B1 as [Cb Sb].
  replace (b1 + (p + 2 * IZR m * PI)) with (b1 + p + 2 * IZR m * PI) by ring.
  rewrite (cos_2kpi (b1 + p)), (sin_2kpi (b1 + p)), (cos_plus b1 p), (sin_plus b1 p), Cb, Sb.
  set (te := T - rho * cos a).
  assert (NN : N * N = rho * rho * (g * g)) by (rewrite <- Gn; ring).
  assert (Pe : P te).
  { apply Pt. unfold te. replace ((T - rho * cos a - T) * (T - rho * cos a - T)) with (rho * rho * (cos a * cos a)) by ring.
    rewrite Ca2, NN. ring. }
  assert (Le : forall t, P t -> te <= t).
  { intros t Ht. apply Pt in Ht. unfold te. assert (0 <= rho * cos a) by nra.
    assert ((t - T) * (t - T) = (rho * cos a) * (rho * cos a)).
    { replace (rho * cos a * (rho * cos a)) with (rho * rho * (cos a * cos a)) by ring. rewrite Ca2. lra. }
    nra. }
  assert (Ex : vx c + rho * (- cos a * cos p - sin a * sin p) = vx (f te)).
  { rewrite F. unfold hline, te. cbn [vx]. fold p. rewrite Sa.
    replace (rho * (- cos a * cos p - g * sin p)) with (- rho * cos a * cos p - rho * g * sin p) by ring. rewrite Gn.
    assert (N * sin p + T * cos p = dx) by (transitivity (dx * (sin p * sin p + cos p * cos p)); [unfold N, T; ring|rewrite SC; ring]).
    assert (vx c = dx + (vx rp - hp D0 * sin p)) by (unfold dx; ring). lra. }
  assert (Ey : vy c + rho * (sin a * cos p + - cos a * sin p) = vy (f te)).
  { rewrite F. unfold hline, te. cbn [vy]. fold p. rewrite Sa.
    replace (rho * (g * cos p + - cos a * sin p)) with (- rho * cos a * sin p + rho * g * cos p) by ring. rewrite Gn.
    assert (T * sin p - N * cos p = dy) by (transitivity (dy * (sin p * sin p + cos p * cos p)); [unfold N, T; ring|rewrite SC; ring]).
    assert (vy c = dy + (vy rp + hp D0 * cos p)) by (unfold dy; ring). lra. }
  rewrite Ex, Ey.
  split; [intros K; exfalso; apply (K te); auto|].
  intros t Ht. split; intros Ph.
  - rewrite (proj1 (SfromXY_line_any hp rp _ _ H) Ph). cbn [bind].
    rewrite (proj1 (SfromXY_line_any hp rp _ _ H) Ph). cbn [bind].
    unfold select. destruct (Rlt_dec 0 0) as [?|_]; [lra|]. split.
    + intros Mn. destruct (Z.ltb (-1) mode) eqn:Q; [apply Z.ltb_lt in Q; lia|reflexivity].
    + intros Mn Mt. destruct (Z.ltb (-1) mode) eqn:Q; [|apply Z.ltb_ge in Q; lia].
      assert (t = te) by (apply Rle_antisym; auto). subst t.
      replace (calculateZfromS 0 hp rp) with (vz (f 0))
        by (rewrite (F 0); unfold hline, calculateZfromS, calculateZ0; cbn [vz]; ring).
      cbv zeta. eexists. split; [reflexivity|apply bounds_iff].
  - rewrite (proj2 (SfromXY_line_any hp rp _ _ H) Ph). reflexivity.
Qed.

Lemma zcone_all surf hp rp o mode cb :
  let cyl := intersectWithZCylinder surf hp rp o mode false in
  let r := intersectWithZCone surf hp rp o mode cb in
  (forall s xx, hp OMEGA <> 0 -> r = Ok (true, OVal s xx) ->
     (exists s0 x0, cyl = Ok (true, OVal s0 x0))
     /\ Rabs (sf_distance surf xx) < newton_eps
     /\ pointAt s hp rp = Ok xx /\ sign_ok mode s
     /\ (cb = true -> sf_insideBounds surf xx = true))
  /\ (forall s0 x0, cyl = Ok (true, OVal s0 x0) -> r = intersectWithSurfaceNewton surf hp rp s0 mode cb)
  /\ (forall o', cyl = Ok (false, o') -> r = Ok (false, o'))
  /\ (cyl = NonFin -> r = NonFin)
  /\ (r = Throw <-> st_parallelToZ (sf_type surf) = false \/ sf_cyl surf = None).
Proof.
  intros cyl r. split; [intros s xx H; apply zcone_sound; auto|]. unfold r, intersectWithZCone. fold cyl.
  split; [intros s0 x0 E; rewrite E; reflexivity|].
  split; [intros o' E; rewrite E; reflexivity|].
  split; [intros E; rewrite E; reflexivity|].
  rewrite <- (zcyl_throw surf hp rp o mode false). fold cyl.
  split; [|intros ->; reflexivity].
  destruct cyl as [[[] [s0 x0|]]| | | |]; cbn [bind]; try discriminate; auto.
  intros E. exfalso. generalize (newton_outcomes surf hp rp s0 mode cb). rewrite E. auto.
Qed.
