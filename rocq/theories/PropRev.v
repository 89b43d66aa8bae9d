(** C72: the same track followed in the opposite sense. *)
From Coq Require Import Reals Lra Lia ZArith Psatz List Bool.
From Verif Require Import SpecConst Num NumFacts Vec Helix Isect SpecHelix SpecIsect SpecSym SpecRev
  HelixFacts PathFacts IsectFacts SurfFacts SurfFacts2 SurfFacts3 SymFacts RevFacts RevFacts2 RevFacts3 RevFacts4 PropSurf.
Import ListNotations.
Open Scope R_scope.

(** Being the reverse is mutual; reversing twice gives back the covariance. *)
Theorem C72_mutual : forall p q C, reversed p q ->
  reversed q p /\ forall i j, rev_cov (rev_cov C) i j = C i j.
Proof.
  intros p q C RV. split; [apply reversed_sym; auto|].
  intros i j. unfold rev_cov. destruct i, j; cbn [rev_sign]; ring.
Qed.
Print Assumptions C72_mutual.

(** Same points, opposite directions and momenta, at opposite path lengths; for
    straight tracks too where the functions are defined for them. *)
Theorem C72_points : forall p q rp s, reversed p q ->
  pointAt (- s) q rp = pointAt s p rp
  /\ calculateXfromS (- s) q rp = calculateXfromS s p rp
  /\ calculateYfromS (- s) q rp = calculateYfromS s p rp
  /\ calculateZfromS (- s) q rp = calculateZfromS s p rp
  /\ calculateTangent (- s) q = opposite (calculateTangent s p)
  /\ (forall b, momentumAt b (- s) q rp = res_map opposite (momentumAt b s p rp))
  /\ (forall b, momentumAtPCA b q rp = res_map opposite (momentumAtPCA b p rp)).
Proof.
  intros p q rp s RV.
  split; [apply rev_pointAt; auto|]. split; [apply rev_xfroms; auto|].
  split; [apply rev_yfroms; auto|]. split; [apply rev_zfroms; auto|].
  split; [apply rev_tangent; auto|].
  split; intros b; [apply rev_momentumAt | apply rev_momentumAtPCA]; auto.
Qed.
Print Assumptions C72_points.

(** Path length to a point. *)
Theorem C72_path : forall p q rp x y,
  reversed p q -> azimuth_ok p -> azimuth_ok q -> off_axis p rp x y ->
  calculateSfromXY x y q rp = res_map Ropp (calculateSfromXY x y p rp).
Proof. intros. apply rev_path; auto. Qed.
Print Assumptions C72_path.

(** Crossing with a surface: searching ahead on the one is searching behind on
    the other, with the same verdict and the same point. *)
Theorem C72_surfaces : forall S p q rp o mode cb,
  reversed p q -> azimuth_ok p -> azimuth_ok q -> p OMEGA <> 0 ->
  (forall r c, sf_cyl S = Some (r, c) -> 0 < r) ->
  no_preference S p rp o mode ->
  intersectWithSurface S q rp (rev_out o) (- mode) cb
  = res_map rev_answer (intersectWithSurface S p rp o mode cb).
Proof.
  intros S p q rp o mode cb RV A1 A2 N HR (N1 & N2 & N3). unfold intersectWithSurface. cbv zeta.
  rewrite <- ?isZCylinder_false, <- ?isZPlane_false, <- ?isZDisk_false, <- ?isZCylinder_iff, <- ?isZPlane_iff in *.
  destruct (isZCylinder (sf_type S)) eqn:E1; [apply rev_zcyl; auto|].
  destruct (isZPlane (sf_type S)) eqn:E2; [apply rev_zplane; auto|].
  destruct (isZDisk (sf_type S)) eqn:E3; [apply rev_zdisk; auto|].
  destruct (isCone (sf_type S)) eqn:E4; [apply rev_zcone; auto|]. reflexivity.
Qed.
Print Assumptions C72_surfaces.

(** The disk and the Newton search have no preference at all. *)
Theorem C72_disk_and_newton : forall S p q rp o mode cb, reversed p q ->
  intersectWithZDisk S q rp (rev_out o) (- mode) cb
    = res_map rev_answer (intersectWithZDisk S p rp o mode cb)
  /\ (forall s, intersectWithSurfaceNewton S q rp (- s) (- mode) cb
        = res_map rev_answer (intersectWithSurfaceNewton S p rp s mode cb)).
Proof. intros. split; [apply rev_zdisk; auto|]. intros. apply rev_newton; auto. Qed.
Print Assumptions C72_disk_and_newton.

(** Moving the reference point: the same turning angle, reversed parameters and
    covariance. *)
Theorem C72_move : forall C p q rp v cm,
  reversed p q -> p OMEGA <> 0 -> off_axis p rp (vx v) (vy v) ->
  exists c' p' fid q', moveHelixTo (TP C p rp) v cm = Ok (TP c' p' v, fid)
    /\ moveHelixTo (TP (rev_cov C) q rp) v cm = Ok (TP (rev_cov c') q' v, fid)
    /\ reversed p' q'.
Proof. exact rev_move. Qed.
Print Assumptions C72_move.

(** The backward flag of the start helix reverses the track. *)
Theorem C72_backward_flag : forall x1 x2 x3 tp,
  match calculateStartHelix x1 x2 x3 tp false with
  | Ok t => exists q, calculateStartHelix x1 x2 x3 tp true = Ok (TP (tp_cov t) q (tp_ref t))
            /\ reversed (tp_par t) q
  | bad => calculateStartHelix x1 x2 x3 tp true = bad
  end.
Proof. exact rev_start_helix. Qed.
Print Assumptions C72_backward_flag.

(** ** Examples *)
Definition ex_back : vec5 := mk5 (-1) (-1) PI 0 0.

Lemma ex_reversed : reversed ex_hp ex_back.
Proof.
  unfold reversed, ex_hp, ex_back, OMEGA, TANL, D0, Z0, PHI0; cbn [mk5].
  repeat split; try ring. exists 0%Z. ring.
Qed.
Lemma ex_back_phi : azimuth_ok ex_back.
Proof. unfold azimuth_ok, ex_back, PHI0; cbn [mk5]. rewrite Rabs_pos_eq; generalize PI_pos; lra. Qed.
Lemma ex_back_om : ex_back OMEGA <> 0.
Proof. unfold ex_back, OMEGA; cbn [mk5]. lra. Qed.

Lemma ex_start : track_start ex_hp v3zero = v3zero.
Proof.
  unfold track_start, ex_hp, D0, PHI0, Z0; cbn [mk5]. rewrite sin_0, cos_0. unfold v3zero; cbn [vx vy vz].
  f_equal; ring.
Qed.

(** the cylinder of radius 1 around (0,-2) is crossed a third of a turn ahead
    and behind *)
Lemma ex_far s : on_cylinder 1 (V3 0 (-2) 0) (V3 (sin s) (cos s - 1) s) <-> cos s = - (1 / 2).
Proof.
  unfold on_cylinder; cbn [vx vy]. generalize (sc1 s); intros. split; intros; nra.
Qed.

Lemma ex_cos23 : cos (2 * (PI / 3)) = - (1 / 2).
Proof. rewrite cos_2PI3. lra. Qed.

Example C72_instance :
  no_preference (ex_cyl 0 (-2) 1) ex_hp v3zero OBad 1
  /\ exists s x, 0 < s
     /\ intersectWithSurface (ex_cyl 0 (-2) 1) ex_hp v3zero OBad 1 false = Ok (true, OVal s x)
     /\ intersectWithSurface (ex_cyl 0 (-2) 1) ex_back v3zero OBad (-1) false = Ok (true, OVal (- s) x).
Proof.
  generalize PI_pos; intros HP.
  assert (NP : no_preference (ex_cyl 0 (-2) 1) ex_hp v3zero OBad 1).
  { assert (Q : no_preference_cyl (ex_cyl 0 (-2) 1) ex_hp v3zero OBad 1).
    { split; [|discriminate]. intros _ (rho & c & E & O). injection E as <- <-.
      rewrite ex_start in O. unfold on_cylinder, v3zero in O; cbn [vx vy] in O. lra. }
    split; [auto|]. split; intros; auto. exfalso. match goal with H : ~ z_cylinder _ |- _ => apply H; split; reflexivity end. }
  split; [exact NP|].
  destruct (zcyl_complete (ex_cyl 0 (-2) 1) ex_hp v3zero 1 (V3 0 (-2) 0) OBad 1 false _
              ex_om ex_phi ex_helix Rlt_0_1 eq_refl eq_refl)
    as [(_ & s & A & B)|[(_ & s & b & P & B & _ & A)|(_ & K & A)]].
  - exfalso. apply ex_far in B. apply ex_half in A. lra.
  - assert (b = true) by (apply B; discriminate). subst b.
    destruct P as [[P1 P2] P3 _ _]. destruct (P3 eq_refl) as [P4 _].
    exists s, (V3 (sin s) (cos s - 1) s).
    split. { destruct P4 as [P4|<-]; [auto|]. apply ex_far in P2. rewrite cos_0 in P2. lra. }
    split; [exact A|].
    assert (R := C72_surfaces (ex_cyl 0 (-2) 1) ex_hp ex_back v3zero OBad 1 false ex_reversed ex_phi
                   ex_back_phi ex_om).
    cbn [rev_out Z.opp] in R. rewrite R; auto.
    + change (intersectWithSurface (ex_cyl 0 (-2) 1) ex_hp v3zero OBad 1 false)
        with (intersectWithZCylinder (ex_cyl 0 (-2) 1) ex_hp v3zero OBad 1 false).
      rewrite A. reflexivity.
    + intros r c E. injection E as <- <-. lra.
  - exfalso. destruct (K (2 * (PI / 3))) as [[K1 K2]|[K1 K2]]; try lra; try lia.
    split.
    + unfold ex_hp, OMEGA; cbn [mk5]. rewrite Rmult_1_l, Rabs_pos_eq; lra.
    + apply ex_far. exact ex_cos23.
Qed.

(** ** Where the two directions differ *)

(** A search that starts on the surface: ahead it reports the start itself,
    behind (on the reversed track) it does not. *)
Theorem C72_on_surface_refuted : exists S p q rp,
  reversed p q /\ azimuth_ok p /\ azimuth_ok q /\ p OMEGA <> 0 /\ starts_on_cylinder S p rp
  /\ intersectWithSurface S p rp OBad 1 false = Ok (true, OVal 0 (track_start p rp))
  /\ exists s x, s < 0 /\ intersectWithSurface S q rp OBad (-1) false = Ok (true, OVal s x)
       /\ x <> track_start p rp.
Proof.
  generalize PI_pos; intros HP.
  exists (ex_cyl 1 0 1), ex_hp, ex_back, v3zero.
  split; [exact ex_reversed|]. split; [exact ex_phi|]. split; [exact ex_back_phi|]. split; [exact ex_om|].
  assert (On : forall s, on_cylinder 1 (V3 1 0 0) (V3 (sin s) (cos s - 1) s) <-> 1 = sin s + cos s).
  { intros s. unfold on_cylinder; cbn [vx vy]. generalize (sc1 s). intros. split; intros; nra. }
  split. { exists 1, (V3 1 0 0). split; [reflexivity|]. rewrite ex_start. unfold on_cylinder, v3zero; cbn [vx vy]. ring. }
  split.
  - destruct (zcyl_complete (ex_cyl 1 0 1) ex_hp v3zero 1 (V3 1 0 0) OBad 1 false _
              ex_om ex_phi ex_helix Rlt_0_1 eq_refl eq_refl)
      as [(_ & s & A & B)|[(_ & s & b & P & B & _ & A)|(_ & K & A)]].
    + exfalso. apply On in B. apply ex_half in A. lra.
    + assert (b = true) by (apply B; discriminate). subst b.
      destruct P as [_ P3 _ _]. destruct (P3 eq_refl) as [P4 P5].
      assert (s = 0).
      { apply Rle_antisym; [|auto]. apply P5; [|lra]. split; [rewrite Rmult_0_r, Rabs_R0; auto|].
        apply On. rewrite sin_0, cos_0. lra. }
      subst s. change (intersectWithSurface (ex_cyl 1 0 1) ex_hp v3zero OBad 1 false)
        with (intersectWithZCylinder (ex_cyl 1 0 1) ex_hp v3zero OBad 1 false).
      rewrite A, sin_0, cos_0, ex_start. unfold v3zero. do 4 f_equal. ring.
    + exfalso. destruct (K 0) as [[K1 K2]|[K1 K2]]; try lra; try lia.
      split; [rewrite Rmult_0_r, Rabs_R0; auto|]. apply On. rewrite sin_0, cos_0. lra.
  - assert (HB : forall s, hcurve ex_back v3zero (- s) = V3 (sin s) (cos s - 1) s).
    { intros s. rewrite (rev_hcurve ex_hp ex_back v3zero s ex_reversed ex_om), ex_curve. reflexivity. }
    destruct (zcyl_complete (ex_cyl 1 0 1) ex_back v3zero 1 (V3 1 0 0) OBad (-1) false (hcurve ex_back v3zero)
              ex_back_om ex_back_phi (hcurve_helix _ _ ex_back_om) Rlt_0_1 eq_refl eq_refl)
      as [(_ & s & A & B)|[(_ & s & b & P & B & _ & A)|(_ & K & A)]].
    + exfalso. replace s with (- - s) in B by ring. rewrite HB in B. apply On in B.
      assert (H := ex_half (- s)). unfold ex_hp, ex_back, OMEGA in *; cbn [mk5] in *.
      replace (1 * - s) with (-1 * s) in H by ring. specialize (H A). lra.
    + assert (b = true) by (apply B; discriminate). subst b.
      destruct P as [[P1 P2] _ P3 _]. destruct (P3 eq_refl) as [P4 _].
      exists s, (hcurve ex_back v3zero s). split; [auto|]. split; [exact A|].
      replace s with (- - s) by ring. rewrite HB, ex_start. intros E. apply (f_equal vz) in E.
      unfold v3zero in E; cbn [vz] in E. lra.
    + exfalso. destruct (K (- (PI / 2))) as [[K1 K2]|[K1 K2]]; try lra; try lia.
      split.
      * unfold ex_back, OMEGA; cbn [mk5]. replace (-1 * - (PI / 2)) with (PI / 2) by ring.
        rewrite Rabs_pos_eq; lra.
      * rewrite HB. apply On. rewrite sin_PI2, cos_PI2. lra.
Qed.
Print Assumptions C72_on_surface_refuted.

(** Crossings equally far ahead and behind: the nearest-crossing search prefers
    the one ahead, so the two directions report different points. *)
Theorem C72_tie : forall S p q rp rho c o a,
  reversed p q -> azimuth_ok p -> azimuth_ok q -> p OMEGA <> 0 -> 0 < rho ->
  st_parallelToZ (sf_type S) = true -> sf_cyl S = Some (rho, c) -> 0 < a ->
  forall f, is_helix p rp f ->
  crossing f (p OMEGA) (on_cylinder rho c) a -> crossing f (p OMEGA) (on_cylinder rho c) (- a) ->
  (forall s, Rabs (p OMEGA * s) = PI -> ~ on_cylinder rho c (f s)) ->
  intersectWithZCylinder S p rp o 0 false = Ok (true, OVal a (f a))
  /\ intersectWithZCylinder S q rp o 0 false = Ok (true, OVal a (f (- a))).
Proof.
  intros S p q rp rho c o a RV A1 A2 N Hr EP EC Ha f Hf [L1 C1] [L2 C2] NH.
  assert (F := helix_is_hcurve p rp f N Hf). assert (Nq := rev_om p q RV N).
  assert (RH := fun s => rev_hcurve p q rp s RV N).
  assert (Oq : q OMEGA = - p OMEGA) by apply RV.
  rewrite F in C1, C2. rewrite !F. split.
  - apply (tie_ahead S p rp rho c); auto; [split; auto|split; auto|].
    intros s Hs. rewrite <- F. auto.
  - rewrite <- RH. rewrite Ropp_involutive.
    apply (tie_ahead S q rp rho c); auto.
    + split; [rewrite Oq; replace (- p OMEGA * a) with (p OMEGA * - a) by ring; auto|].
      replace a with (- - a) by ring. rewrite RH. auto.
    + split; [rewrite Oq; replace (- p OMEGA * - a) with (p OMEGA * a) by ring; auto|].
      rewrite RH. auto.
    + intros s Hs. replace s with (- - s) by ring. rewrite RH, <- F. apply NH.
      rewrite Oq in Hs. rewrite <- Hs. f_equal. ring.
Qed.
Print Assumptions C72_tie.

Theorem C72_tie_refuted : exists S p q rp,
  reversed p q /\ azimuth_ok p /\ azimuth_ok q /\ p OMEGA <> 0
  /\ (forall r c, sf_cyl S = Some (r, c) -> 0 < r) /\ ~ starts_on_cylinder S p rp
  /\ intersectWithSurface S q rp OBad 0 false
     <> res_map rev_answer (intersectWithSurface S p rp OBad 0 false).
Proof.
  generalize PI_pos; intros HP.
  exists (ex_cyl 0 (-2) 1), ex_hp, ex_back, v3zero.
  split; [exact ex_reversed|]. split; [exact ex_phi|]. split; [exact ex_back_phi|]. split; [exact ex_om|].
  split; [intros r c E; injection E as <- <-; lra|].
  split. { intros (rho & c & E & O). injection E as <- <-.
      rewrite ex_start in O. unfold on_cylinder, v3zero in O; cbn [vx vy] in O. lra. }
  destruct (C72_tie (ex_cyl 0 (-2) 1) ex_hp ex_back v3zero 1 (V3 0 (-2) 0) OBad (2 * (PI / 3))
              ex_reversed ex_phi ex_back_phi ex_om Rlt_0_1 eq_refl eq_refl ltac:(lra) _ ex_helix) as [T1 T2].
  - split; [unfold ex_hp, OMEGA; cbn [mk5]; rewrite Rmult_1_l, Rabs_pos_eq; lra|].
    apply ex_far. exact ex_cos23.
  - split; [unfold ex_hp, OMEGA; cbn [mk5]; rewrite Rmult_1_l, Rabs_Ropp, Rabs_pos_eq; lra|].
    apply ex_far. rewrite cos_neg. exact ex_cos23.
  - intros s Hs B. apply ex_far in B. apply ex_half in Hs. lra.
  - change (intersectWithZCylinder (ex_cyl 0 (-2) 1) ex_hp v3zero OBad 0 false)
      with (intersectWithSurface (ex_cyl 0 (-2) 1) ex_hp v3zero OBad 0 false) in T1.
    change (intersectWithZCylinder (ex_cyl 0 (-2) 1) ex_back v3zero OBad 0 false)
      with (intersectWithSurface (ex_cyl 0 (-2) 1) ex_back v3zero OBad 0 false) in T2.
    rewrite T1, T2. cbn [res_map rev_answer fst snd rev_out]. intros E. injection E as E _. lra.
Qed.
Print Assumptions C72_tie_refuted.
