(** Proofs about tracks followed backwards (C72): surfaces. *)
From Coq Require Import Reals Lra Lia ZArith Psatz List Bool FunctionalExtensionality.
From Verif Require Import SpecConst Num NumFacts Vec Helix Isect SpecHelix SpecIsect SpecSym SpecRev
  HelixFacts PathFacts IsectFacts SurfFacts SymFacts SymFacts2 RevFacts.
Import ListNotations.
Open Scope R_scope.

Definition two (surf : surface) (hp : vec5) (rp : vec3) (tol : R) (o : outp) (mode : Z) (cb : bool)
  (P0 P1 : R * R) : res (bool * outp) :=
  s0 <- calculateSfromXY (fst P0) (snd P0) hp rp ;;
  s1 <- calculateSfromXY (fst P1) (snd P1) hp rp ;;
  match select tol mode s0 (V3 (fst P0) (snd P0) (calculateZfromS s0 hp rp))
          s1 (V3 (fst P1) (snd P1) (calculateZfromS s1 hp rp)) with
  | None => Ok (false, o)
  | Some (s, xx) => Ok (bounds surf cb xx, OVal s xx)
  end.

Lemma hcurve_start hp rp : hp OMEGA <> 0 -> hcurve hp rp 0 = track_start hp rp.
Proof.
  intros N. unfold hcurve, track_start. rewrite Rmult_0_l, Rminus_0_r. f_equal; field; auto.
Qed.

Lemma v3_inj a b c a' b' c' : V3 a b c = V3 a' b' c' -> a = a' /\ b = b' /\ c = c'.
Proof. intros H. injection H. auto. Qed.

Lemma two_rev S p q rp tol o mode cb P0 P1 :
  reversed p q -> azimuth_ok p -> azimuth_ok q -> p OMEGA <> 0 -> 0 <= tol ->
  on_circle (hcircle p rp) P0 -> on_circle (hcircle p rp) P1 ->
  (mode <> 0%Z -> (vx (track_start p rp), vy (track_start p rp)) <> P0
                  /\ (vx (track_start p rp), vy (track_start p rp)) <> P1) ->
  (mode = 0%Z -> ~ equally_far tol (fun m => two S p rp tol o m false P0 P1)) ->
  two S q rp tol (rev_out o) (- mode) cb P0 P1 = res_map rev_answer (two S p rp tol o mode cb P0 P1)
  /\ two S q rp tol (rev_out o) (- mode) cb P1 P0 = res_map rev_answer (two S p rp tol o mode cb P0 P1).
Proof.
  intros RV A1 A2 N HT C0 C1 H1 H2. destruct P0 as [X0 Y0], P1 as [X1 Y1].
  assert (O0 := on_circle_off_axis p rp X0 Y0 C0). assert (O1 := on_circle_off_axis p rp X1 Y1 C1).
  assert (Q0 := rev_path p q rp X0 Y0 RV A1 A2 O0). assert (Q1 := rev_path p q rp X1 Y1 RV A1 A2 O1).
  unfold two in *; cbn [fst snd] in *.
  destruct (SfromXY_circle p rp X0 Y0 N A1 C0) as [(s0 & L0 & E0 & V0)|(s0 & L0 & E0 & V0 & W0)];
  destruct (SfromXY_circle p rp X1 Y1 N A1 C1) as [(s1 & L1 & E1 & V1)|(s1 & L1 & E1 & V1 & W1)];
    rewrite E0 in *; rewrite E1 in *; rewrite Q0, Q1; cbn [res_map bind]; auto.
  cbn [bind] in H2.
  rewrite (rev_zfroms p q rp s0 RV), (rev_zfroms p q rp s1 RV), V0, V1. rewrite V0, V1 in H2.
  assert (ST : forall s X Y, V3 X Y (calculateZfromS s p rp) = hcurve p rp s -> s = 0 ->
     (vx (track_start p rp), vy (track_start p rp)) = (X, Y)).
  { intros s X Y E ->. rewrite (hcurve_start p rp N) in E. unfold track_start in E |- *.
    apply v3_inj in E. destruct E as (-> & -> & _). reflexivity. }
  destruct (select_neg tol mode s0 (hcurve p rp s0) s1 (hcurve p rp s1)) as [G1 G2]; auto.
  - intros M. destruct (H1 M) as [F0 F1]. split; intros E; [apply F0 | apply F1]; eauto.
  - intros M. specialize (H2 M). split; intros a b; apply Rnot_le_lt; intros T; apply H2.
    + exists s1, (hcurve p rp s1), s0, (hcurve p rp s0). unfold select.
      destruct (Rlt_dec s0 0); [|lra]. destruct (Rlt_dec s1 0); [lra|]. cbn. auto.
    + exists s0, (hcurve p rp s0), s1, (hcurve p rp s1). unfold select.
      destruct (Rlt_dec s0 0); [lra|]. destruct (Rlt_dec s1 0); [|lra]. cbn. auto.
  - intros ->. reflexivity.
  - rewrite G1, G2.
    destruct (select tol mode s0 (hcurve p rp s0) s1 (hcurve p rp s1)) as [[s x]|]; split; reflexivity.
Qed.

Lemma rev_circle p q rp : reversed p q -> p OMEGA <> 0 -> hcircle q rp = hcircle p rp.
Proof.
  intros H N. destruct (rev_trig p q H) as [S C]. destruct H as (O & T & D & Z & _).
  unfold hcircle. rewrite S, C, O, D.
  replace (1 / - p OMEGA) with (- (1 / p OMEGA)) by (field; auto). rewrite Rabs_Ropp.
  f_equal; ring.
Qed.

(** ** Cylinder *)
Definition cyl_circ (rho : R) (c : vec3) : circle := Circ (vx c) (vy c) rho.

(** what the cylinder search does, by the geometry of the two circles *)
Lemma zcyl_summary S p rp rho c : p OMEGA <> 0 -> 0 < rho ->
  st_parallelToZ (sf_type S) = true -> sf_cyl S = Some (rho, c) ->
  (exists P0 P1, (vx c <> vx (centre p rp) \/ vy c <> vy (centre p rp))
     /\ (forall r, on_circle (hcircle p rp) r /\ on_circle (cyl_circ rho c) r <-> r = P0 \/ r = P1)
     /\ forall o mode cb, intersectWithZCylinder S p rp o mode cb = two S p rp eps4 o mode cb P0 P1)
  \/ ((forall r, on_circle (hcircle p rp) r -> ~ on_circle (cyl_circ rho c) r)
      /\ forall o mode cb, intersectWithZCylinder S p rp o mode cb = Ok (false, o))
  \/ ((vx c = vx (centre p rp) /\ vy c = vy (centre p rp))
      /\ (forall r, on_circle (hcircle p rp) r -> on_circle (cyl_circ rho c) r)
      /\ forall o mode cb, intersectWithZCylinder S p rp o mode cb = NonFin).
Proof.
  intros N Hr EP EC.
  assert (F := fun o mode cb => zcyl_form p rp rho c Hr S o mode cb EP EC).
  assert (CP := cyl_points p rp rho c N Hr). assert (CN := cyl_no_points p rp rho c N Hr).
  assert (AP := A_pos_iff p rp c N). assert (NE := num_eq p rp rho c). cbv zeta in *.
  match type of CP with 0 < ?a -> Rabs ?g <= 1 -> _ =>
    assert (Apos : 0 <= a) by apply sqrt_pos;
    destruct (Rle_lt_dec a 0) as [HA|HA]; [|destruct (Rle_lt_dec (Rabs g) 1) as [Hg|Hg]] end.
  - match type of AP with 0 < ?a <-> _ => assert (A0 : a = 0) by lra end.
    assert (Z : ~ (vx c <> vx (centre p rp) \/ vy c <> vy (centre p rp))) by (rewrite <- AP; lra).
    assert (Z1 : vx c = vx (centre p rp)) by (destruct (Req_dec (vx c) (vx (centre p rp))); tauto).
    assert (Z2 : vy c = vy (centre p rp)) by (destruct (Req_dec (vy c) (vy (centre p rp))); tauto).
    rewrite A0 in NE.
    assert (IN : p OMEGA * p OMEGA * (1 / p OMEGA * (1 / p OMEGA)) = 1) by (field; auto).
    assert (PP : 0 < p OMEGA * p OMEGA) by (generalize (Rsqr_pos_lt _ N); unfold Rsqr; auto).
    match type of NE with p OMEGA * ?n = _ => destruct (Req_dec n 0) as [En|En] end.
    + right. right. split; [auto|].
      split; [|intros o mode cb; exact (proj2 (proj2 (proj2 (F o mode cb))) A0 En)].
      intros r Hq. rewrite hcircle_centre in Hq. unfold on_circle, cyl_circ in *. cbn [c_x c_y c_r] in *.
      rewrite Rabs_sq in Hq. rewrite En in NE. rewrite Z1, Z2, Hq.
      apply Rmult_eq_reg_l with (p OMEGA * p OMEGA); lra.
    + right. left.
      split; [|intros o mode cb; exact (proj1 (proj2 (proj2 (F o mode cb))) A0 En)].
      intros r Hq Hc. apply En. rewrite hcircle_centre in Hq. unfold on_circle, cyl_circ in *. cbn [c_x c_y c_r] in *.
      rewrite Rabs_sq in Hq. rewrite Z1, Z2, Hq in Hc. rewrite Hc in IN.
      match type of NE with p OMEGA * ?n = _ => assert (Q : p OMEGA * n = 0) by lra end.
      apply Rmult_integral in Q. tauto.
  - left. eexists. eexists. split; [apply AP; auto|]. split; [exact (CP HA Hg)|].
    intros o mode cb. exact (proj1 (F o mode cb) HA Hg).
  - right. left. split; [exact (CN HA Hg)|]. intros o mode cb.
    exact (proj1 (proj2 (F o mode cb)) HA Hg).
Qed.

Lemma rev_centre p q rp : reversed p q -> p OMEGA <> 0 ->
  vx (centre q rp) = vx (centre p rp) /\ vy (centre q rp) = vy (centre p rp).
Proof.
  intros H N. destruct (rev_trig p q H) as [S C]. destruct H as (O & T & D & Z & _).
  unfold centre; cbn [vx vy]. rewrite S, C, O, D. split; field; auto.
Qed.

Lemma rev_zcyl S p q rp o mode cb :
  reversed p q -> azimuth_ok p -> azimuth_ok q -> p OMEGA <> 0 ->
  (forall r c, sf_cyl S = Some (r, c) -> 0 < r) ->
  no_preference_cyl S p rp o mode ->
  intersectWithZCylinder S q rp (rev_out o) (- mode) cb
  = res_map rev_answer (intersectWithZCylinder S p rp o mode cb).
Proof.
  intros RV A1 A2 N HR [NP1 NP2].
  destruct (st_parallelToZ (sf_type S)) eqn:EP.
  2:{ unfold intersectWithZCylinder. rewrite EP. reflexivity. }
  destruct (sf_cyl S) as [[rho c]|] eqn:EC.
  2:{ unfold intersectWithZCylinder. rewrite EP, EC. reflexivity. }
  assert (Hr := HR _ _ eq_refl). assert (Nq := rev_om p q RV N).
  destruct (rev_centre p q rp RV N) as [CX CY].
  assert (OC := hcurve_on_circle p rp 0 N).
  assert (GP := zcyl_summary S p rp rho c N Hr EP EC).
  assert (GQ := zcyl_summary S q rp rho c Nq Hr EP EC).
  rewrite (rev_circle p q rp RV N), CX, CY in GQ.
  destruct GP as [(P0 & P1 & D1 & E1 & F1)|[(E1 & F1)|((D1 & D2) & E1 & F1)]];
  destruct GQ as [(Q0 & Q1 & D1' & E2 & F2)|[(E2 & F2)|((D1' & D2') & E2 & F2)]];
    try (rewrite F1, F2; reflexivity); try (exfalso; tauto).
  - assert (PQ : (Q0 = P0 /\ Q1 = P1) \/ (Q0 = P1 /\ Q1 = P0)).
    { assert (B0 : Q0 = P0 \/ Q0 = P1) by (apply E1, E2; auto).
      assert (B1 : Q1 = P0 \/ Q1 = P1) by (apply E1, E2; auto).
      assert (B2 : P0 = Q0 \/ P0 = Q1) by (apply E2, E1; auto).
      assert (B3 : P1 = Q0 \/ P1 = Q1) by (apply E2, E1; auto).
      destruct B0 as [-> | ->], B1 as [-> | ->]; auto; destruct B2, B3; subst; auto. }
    assert (C0 : on_circle (hcircle p rp) P0 /\ on_circle (cyl_circ rho c) P0) by (apply E1; auto).
    assert (C1 : on_circle (hcircle p rp) P1 /\ on_circle (cyl_circ rho c) P1) by (apply E1; auto).
    rewrite F1, F2.
    destruct (two_rev S p q rp eps4 o mode cb P0 P1) as [T1 T2]; auto; try apply C0; try apply C1.
    + unfold eps4; lra.
    + intros M. specialize (NP1 M).
      split; intros Z; apply NP1; exists rho, c; (split; [auto|]); [destruct C0 as [_ C] | destruct C1 as [_ C]];
        rewrite <- Z in C; exact C.
    + intros M (a & xa & b & xb & Q1' & Q2' & Q3). apply (NP2 M).
      exists a, xa, b, xb. rewrite !F1. auto.
    + destruct PQ as [[-> ->]|[-> ->]]; auto.
  - exfalso. destruct (E1 P0) as [_ B]. destruct (B (or_introl eq_refl)). eapply E2; eauto.
  - exfalso. destruct (E2 Q0) as [_ B]. destruct (B (or_introl eq_refl)). eapply E1; eauto.
  - exfalso. eapply E1; [exact OC|]. apply E2. exact OC.
  - exfalso. eapply E2; [exact OC|]. apply E1. exact OC.
Qed.

(** ** Disk *)
Lemma mode_ok_neg mode s : mode_ok (- mode) (- s) = mode_ok mode s.
Proof.
  unfold mode_ok. rewrite opp_IZR. replace (- IZR mode * - s) with (IZR mode * s) by ring.
  destruct (Rlt_dec 0 (IZR mode * s)); [reflexivity|].
  destruct (Z.eqb_spec mode 0); destruct (Z.eqb_spec (- mode) 0); auto; lia.
Qed.

Lemma rev_zdisk S p q rp o mode cb : reversed p q ->
  intersectWithZDisk S q rp (rev_out o) (- mode) cb
  = res_map rev_answer (intersectWithZDisk S p rp o mode cb).
Proof.
  intros RV. unfold intersectWithZDisk. cbv zeta. assert (RV' := RV). destruct RV' as (O & T & D & Z & _).
  unfold calculateTanLambda, calculateZ0. rewrite T, Z. unfold rdiv.
  destruct (Req_EM_T (- p TANL) 0); destruct (Req_EM_T (p TANL) 0); try lra; [reflexivity|].
  cbn [bind res_map].
  set (s := (vz (sf_origin S) - (vz rp + p Z0)) / p TANL).
  replace ((vz (sf_origin S) - (vz rp + p Z0)) / - p TANL) with (- s) by (unfold s; field; auto).
  rewrite (rev_xfroms p q rp s RV), (rev_yfroms p q rp s RV), mode_ok_neg. reflexivity.
Qed.

(** ** Newton search *)
Definition rev_state (st : nstate) : nstate :=
  NS (- n_s st) (n_xx st) (n_prevXX st) (- n_prevS st) (n_prevDist st) (n_alpha st).

Lemma rev_step S p q rp st : reversed p q ->
  newton_step S q rp (rev_state st)
  = res_map (fun r => match r with
                      | inl (s, x) => inl (- s, x)
                      | inr st' => inr (rev_state st')
                      end) (newton_step S p rp st).
Proof.
  intros RV. unfold newton_step. cbv zeta. cbn [rev_state n_s n_xx n_prevXX n_prevS n_prevDist n_alpha].
  destruct (Rlt_dec (Rabs (sf_distance S (n_xx st))) newton_eps); [reflexivity|].
  assert (Q : forall d al nrm s, rdiv d ((1 + al) * vdot nrm (calculateTangent (- s) q))
     = res_map Ropp (rdiv d ((1 + al) * vdot nrm (calculateTangent s p)))).
  { intros d al nrm s. rewrite (rev_tangent p q s RV).
    assert (E : vdot nrm (opposite (calculateTangent s p)) = - vdot nrm (calculateTangent s p))
      by (unfold vdot, opposite; cbn [vx vy vz]; ring).
    rewrite E. unfold rdiv. set (v := vdot nrm _).
    destruct (Req_EM_T ((1 + al) * - v) 0); destruct (Req_EM_T ((1 + al) * v) 0); try reflexivity; try lra.
    cbn. f_equal. assert (1 + al <> 0 /\ v <> 0) by (split; intros F; rewrite F in *; lra).
    field. tauto. }
  destruct (Rlt_dec (Rabs (sf_distance S (n_xx st))) (Rabs (n_prevDist st)));
    cbn [fst snd n_s n_xx n_prevXX n_prevS n_prevDist n_alpha]; rewrite Q;
    match goal with |- context [rdiv ?a ?b] => destruct (rdiv a b) as [w| | | |]; try reflexivity end;
    cbn [res_map bind];
    match goal with |- context [pointAt (- ?s - - ?w) q rp] =>
      replace (- s - - w) with (- (s - w)) by ring; rewrite (rev_pointAt p q rp (s - w) RV);
      destruct (pointAt (s - w) p rp) as [x| | | |]; try reflexivity end.
Qed.

Lemma rev_loop S p q rp n : reversed p q -> forall st,
  newton_loop S q rp n (rev_state st)
  = res_map (fun r => match r with
                      | NDone s x => NDone (- s) x
                      | NGiveUp s x => NGiveUp (- s) x
                      end) (newton_loop S p rp n st).
Proof.
  intros RV. induction n as [|n IH]; intros st; [reflexivity|].
  change (newton_loop S q rp (Datatypes.S n) (rev_state st))
    with (r <- newton_step S q rp (rev_state st) ;;
          match r with inl (s, xx) => Ok (NDone s xx)
          | inr st' => newton_loop S q rp n st' end).
  change (newton_loop S p rp (Datatypes.S n) st)
    with (r <- newton_step S p rp st ;;
          match r with inl (s, xx) => Ok (NDone s xx)
          | inr st' => newton_loop S p rp n st' end).
  rewrite (rev_step S p q rp st RV).
  destruct (newton_step S p rp st) as [[[s x]|st']| | | |]; try reflexivity.
  cbn [res_map bind]. apply IH.
Qed.

Lemma rev_newton S p q rp s mode cb : reversed p q ->
  intersectWithSurfaceNewton S q rp (- s) (- mode) cb
  = res_map rev_answer (intersectWithSurfaceNewton S p rp s mode cb).
Proof.
  intros RV. unfold intersectWithSurfaceNewton. rewrite (rev_pointAt p q rp s RV).
  destruct (pointAt s p rp) as [x| | | |]; try reflexivity. cbn [bind].
  change (NS (- s) x x (- s) 10000000000 (/ 10000000000))
    with (rev_state (NS s x x s 10000000000 (/ 10000000000))).
  rewrite (rev_loop S p q rp newton_budget RV).
  destruct (newton_loop S p rp newton_budget _) as [[s' x'|s' x']| | | |]; try reflexivity.
  cbn [res_map bind]. rewrite mode_ok_neg. reflexivity.
Qed.

Lemma rev_zcone S p q rp o mode cb :
  reversed p q -> azimuth_ok p -> azimuth_ok q -> p OMEGA <> 0 ->
  (forall r c, sf_cyl S = Some (r, c) -> 0 < r) ->
  no_preference_cyl S p rp o mode ->
  intersectWithZCone S q rp (rev_out o) (- mode) cb
  = res_map rev_answer (intersectWithZCone S p rp o mode cb).
Proof.
  intros RV A1 A2 N HR NP. unfold intersectWithZCone.
  rewrite (rev_zcyl S p q rp o mode false RV A1 A2 N HR NP).
  destruct (intersectWithZCylinder S p rp o mode false) as [[[|] [s x|]]| | | |]; try reflexivity.
  cbn [res_map bind rev_answer fst snd rev_out]. apply rev_newton; auto.
Qed.

(** ** Plane *)
Lemma rev_zplane S p q rp o mode cb :
  reversed p q -> azimuth_ok p -> azimuth_ok q -> p OMEGA <> 0 ->
  no_preference_plane S p rp o mode ->
  intersectWithZPlane S q rp (rev_out o) (- mode) cb
  = res_map rev_answer (intersectWithZPlane S p rp o mode cb).
Proof.
  intros RV A1 A2 N [NP1 NP2]. assert (Nq := rev_om p q RV N).
  assert (HC : forall h, h OMEGA <> 0 ->
     mkCircle (calculateXCenter h rp) (calculateYCenter h rp) (calculateRadius h) = Ok (hcircle h rp)).
  { intros h Nh. unfold mkCircle, hcircle, calculateXCenter, calculateYCenter, calculateRadius, calculateCurvature,
      calculateOmega, calculateD0, calculatePhi0.
    destruct (Req_EM_T (h OMEGA) 0); [contradiction|].
    destruct (Rlt_dec (Rabs (1 / h OMEGA)) 0) as [F|F]; [|reflexivity].
    generalize (Rabs_pos (1 / h OMEGA)); lra. }
  assert (FORM : forall m b oo, intersectWithZPlane S p rp oo m b
     = (line <- mkStraightLine (vx (sf_normal S v3zero)) (vy (sf_normal S v3zero))
                 (Rabs (vdot (sf_origin S) (sf_normal S v3zero))) ;;
        cs <- intersectCircleStraightLine (hcircle p rp) line ;;
        match cs with
        | [] => Ok (false, oo)
        | [None] => if Z.eqb m 0 then (if b then NonFin else Ok (true, OBad)) else Ok (false, OBad)
        | [Some (X, Y)] => s <- calculateSfromXY X Y p rp ;;
            let xx := V3 X Y (calculateZfromS s p rp) in Ok (mode_ok m s && bounds S b xx, OVal s xx)
        | Some P0 :: Some P1 :: _ => two S p rp 0 oo m b P0 P1
        | _ => NonFin
        end)).
  { intros m b oo. unfold intersectWithZPlane. cbv zeta.
    destruct (mkStraightLine _ _ _) as [l| | | |]; try reflexivity. cbn [bind].
    rewrite HC by auto. cbn [bind].
    destruct (intersectCircleStraightLine _ l) as [cs| | | |]; try reflexivity. cbn [bind].
    destruct cs as [|[[X0 Y0]|] [|[[X1 Y1]|] cs]]; reflexivity. }
  assert (FORMq : forall m b oo, intersectWithZPlane S q rp oo m b
     = (line <- mkStraightLine (vx (sf_normal S v3zero)) (vy (sf_normal S v3zero))
                 (Rabs (vdot (sf_origin S) (sf_normal S v3zero))) ;;
        cs <- intersectCircleStraightLine (hcircle p rp) line ;;
        match cs with
        | [] => Ok (false, oo)
        | [None] => if Z.eqb m 0 then (if b then NonFin else Ok (true, OBad)) else Ok (false, OBad)
        | [Some (X, Y)] => s <- calculateSfromXY X Y q rp ;;
            let xx := V3 X Y (calculateZfromS s q rp) in Ok (mode_ok m s && bounds S b xx, OVal s xx)
        | Some P0 :: Some P1 :: _ => two S q rp 0 oo m b P0 P1
        | _ => NonFin
        end)).
  { intros m b oo. unfold intersectWithZPlane. cbv zeta.
    destruct (mkStraightLine _ _ _) as [l| | | |]; try reflexivity. cbn [bind].
    rewrite HC by auto. rewrite (rev_circle p q rp RV N). cbn [bind].
    destruct (intersectCircleStraightLine _ l) as [cs| | | |]; try reflexivity. cbn [bind].
    destruct cs as [|[[X0 Y0]|] [|[[X1 Y1]|] cs]]; reflexivity. }
  assert (NP3 : mode = 0%Z -> ~ equally_far 0 (fun m => intersectWithZPlane S p rp o m false)) by exact NP2.
  clear NP2. rewrite FORM, FORMq.
  destruct (mkStraightLine (vx (sf_normal S v3zero)) (vy (sf_normal S v3zero))
             (Rabs (vdot (sf_origin S) (sf_normal S v3zero)))) as [l| | | |] eqn:EL; try reflexivity.
  assert (Hl : l = pline S /\ proper_line l).
  { unfold mkStraightLine in EL. destruct (Rlt_dec _ 0); [discriminate|].
    unfold pline. cbv zeta. unfold proper_line.
    destruct (Rlt_dec (Rabs (vx (sf_normal S v3zero))) eps12) as [B1|B1];
      [destruct (Rlt_dec (Rabs (vy (sf_normal S v3zero))) eps12) as [B2|B2]; [discriminate|]|];
      injection EL as <-; (split; [reflexivity|]); cbn [l_n0 l_n1].
    - right. intros Z. apply B2. rewrite Z, Rabs_R0. unfold eps12. lra.
    - left. intros Z. apply B1. rewrite Z, Rabs_R0. unfold eps12. lra. }
  destruct Hl as [Hl PL]. cbn [bind] in *.
  assert (FF := FORM). clear FORM FORMq.
  destruct (circle_line_spec (hcircle p rp) l PL) as (H1 & H2 & H3 & H4 & _).
  set (D := overlap (hcircle p rp) l) in *.
  destruct (Rlt_dec D (- eps9)) as [B1|B1]; [|destruct (Rlt_dec D 0) as [B2|B2];
    [|destruct (Rle_dec D eps9) as [B3|B3]]].
  - rewrite H4 by lra. reflexivity.
  - rewrite H3 by lra. cbn [bind].
    destruct (Z.eqb_spec mode 0); destruct (Z.eqb_spec (- mode) 0); try lia; destruct cb; reflexivity.
  - destruct H2 as ([X Y] & -> & [ON _] & _); [lra|]. apply on_circle_off_axis in ON.
    cbn [bind]. rewrite (rev_path p q rp X Y RV A1 A2 ON).
    destruct (calculateSfromXY X Y p rp) as [s| | | |]; try reflexivity. cbn [bind res_map].
    rewrite (rev_zfroms p q rp s RV), mode_ok_neg. reflexivity.
  - destruct H1 as (P0 & P1 & _ & EQ & ON); [lra|]. rewrite EQ in *. cbn [bind] in *.
    assert (C0 : on_circle (hcircle p rp) P0 /\ on_line l P0) by (apply ON; auto).
    assert (C1 : on_circle (hcircle p rp) P1 /\ on_line l P1) by (apply ON; auto).
    destruct P0 as [X0 Y0], P1 as [X1 Y1].
    apply (two_rev S p q rp 0 o mode cb (X0, Y0) (X1, Y1)); auto; try apply C0; try apply C1; try lra.
    + intros M. specialize (NP1 M). unfold starts_on_plane in NP1. rewrite <- Hl in NP1.
      split; intros Z; apply NP1; rewrite Z; [apply C0|apply C1].
    + intros M (a & xa & b & xb & Q1' & Q2' & Q3). apply (NP3 M).
      exists a, xa, b, xb. rewrite !FF. auto.
Qed.
