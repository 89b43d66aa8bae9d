(** C80: what the material scans of the example programs report. *)
From Coq Require Import Reals List Bool ZArith Lra Lia Permutation Sorted.
From Verif Require Import SpecConst Num Vec Helix Isect Trans Material Traj MatScan.
From Verif Require Import NumFacts SpecHelix HelixFacts PathFacts SpecIsect SurfFacts SurfFacts2 SurfFacts3 SpecTraj SpecSmooth TrajFacts TrajFacts4 TrajEx SpecListed ListedFacts SpecScan ScanFacts.
Import ListNotations.
Open Scope R_scope.

(** One row per listed surface, in the order of the list; what is added for a
    surface is its material on a straight path, if no division by zero comes in
    between; the total is the sum up to the row, if all terms exist. *)
Theorem C80_table : forall E omega theta phi surfaces rows,
  scan E omega theta phi surfaces = Ok rows ->
  exists t, sin theta <> 0
  /\ getIntersectionsWithSurfaces E
       (mkTraj (TP m5zero (mk5 omega (cos theta / sin theta) phi 0 0) v3zero) None) surfaces = Ok t
  /\ Forall2 (fun row ent => sr_s row = fst ent
       /\ (forall x, sr_x row = Ok x <->
             measurable (snd ent) (direction_of theta phi) (sr_xx row)
             /\ x = budget (snd ent) (direction_of theta phi) (sr_xx row))
       /\ ((exists x, sr_x row = Ok x) \/ sr_x row = NonFin)) rows (tr_isect t)
  /\ running sr_x sr_tot rows.
Proof.
  intros E omega theta phi surfaces rows. unfold scan. cbv zeta. rewrite v3sph_direction. intros H.
  destruct (scanTrack omega theta phi) as [tP| | | |] eqn:B; try discriminate. cbn [bind] in H.
  destruct (scanTrack_spec _ _ _ _ B) as [S ->].
  destruct (getIntersectionsWithSurfaces E _ surfaces) as [a0| | | |] eqn:B0; try discriminate. cbn [bind] in H. exists a0. split; auto. split; [reflexivity|].
  destruct (scanLoop_spec _ _ (direction_unit theta phi) _ _ _ H) as [F R]. split; [|apply runs_running; auto].
  clear - F. induction F as [|row ent l l' (A & _ & C) F IH]; constructor; auto.
Qed.
Print Assumptions C80_table.

(** The direction used is that of the track at the origin; at path length s the
    cosine to a unit normal is off by at most |omega s|. *)
Theorem C80_direction : forall omega theta phi, 0 < theta < PI ->
  let hp := mk5 omega (cos theta / sin theta) phi 0 0 in
  let u := direction_of theta phi in
  u = calculateTangent 0 hp
  /\ forall s n, vdot n n = 1 -> Rabs (vdot (calculateTangent s hp) n - vdot u n) <= Rabs (omega * s).
Proof.
  intros omega theta phi H hp u. assert (S : 0 < sin theta) by (apply sin_gt_0; lra).
  assert (D : u = calculateTangent 0 hp) by (symmetry; apply direction_tangent; auto). split; auto.
  intros s n N. rewrite D. exact (tangent_straight hp s n N).
Qed.
Print Assumptions C80_direction.

(** one surface, searched again in mode 0 *)
Lemma point_of hp f surf s b s' xx : hp OMEGA <> 0 -> Rabs (hp PHI0) <= 2 * PI -> hp D0 = 0 ->
  is_helix hp v3zero f ->
  (exists x, intersectWithSurface surf hp v3zero (OVal 0 v3zero) 1 true = Ok (true, OVal s x)) -> 0 <= s ->
  intersectWithSurface surf hp v3zero (OVal 0 v3zero) 0 true = Ok (b, OVal s' xx) ->
  (disk surf -> xx = f s)
  /\ (forall rho c, st_cylinder (sf_type surf) = true -> st_parallelToZ (sf_type surf) = true ->
        sf_cyl surf = Some (rho, c) -> 0 < rho -> vx c = 0 -> vy c = 0 -> xx = f s)
  /\ (wf_surface surf -> regular surf hp v3zero -> exists u, xx = f u /\ on_surface surf xx /\ Rabs u <= s + tol4).
Proof.
  intros Ho Hp D Hf [x E1] Ps E0. assert (F := helix_is_hcurve hp v3zero f Ho Hf).
  split; [|split].
  - intros (A & B & C). unfold intersectWithSurface in E1, E0. cbv zeta in E1, E0.
    unfold isZCylinder, isZPlane, isZDisk in E1, E0. rewrite A, B, C, andb_false_r in E1, E0. cbn [andb] in E1, E0.
    destruct (Req_dec (hp TANL) 0) as [Z|Z].
    { destruct (zdisk_spec surf hp v3zero (OVal 0 v3zero) 1 true f Hf) as [Q _]. rewrite (Q Z) in E1. discriminate. }
    destruct (zdisk_spec surf hp v3zero (OVal 0 v3zero) 1 true f Hf) as [_ Q1]. destruct (Q1 Z) as (s1 & U1 & x1 & b1 & R1 & _).
    destruct (zdisk_spec surf hp v3zero (OVal 0 v3zero) 0 true f Hf) as [_ Q2].
    destruct (Q2 Z) as (s2 & U2 & x2 & b2 & R2 & _ & _ & X2 & _). rewrite R1 in E1. injection E1 as _ <- _.
    rewrite R2 in E0. injection E0 as _ _ <-. rewrite (X2 Ho). f_equal. apply U1. apply U2. auto.
  - intros rho c A B C Pr Cx Cy. unfold intersectWithSurface in E1, E0. cbv zeta in E1, E0.
    unfold isZCylinder in E1, E0. rewrite A, B in E1, E0. cbn [andb] in E1, E0.
    destruct (zcyl_sound _ _ _ _ _ _ _ _ _ _ _ Ho Hp Hf Pr C E1) as (X & _).
    rewrite (zcyl_forward surf hp v3zero rho c _ (OVal 0 v3zero) f s x Ho Hp Hf Pr B C E1) in E0; [congruence|].
    intros t Nt Lt On. rewrite (Rabs_left t) by auto.
    destruct (zcyl_complete surf hp v3zero rho c (OVal 0 v3zero) 1 true f Ho Hp Hf Pr B C)
      as [(Q & _)|[(_ & s1 & b1 & Pk & _ & _ & Q)|(_ & _ & Q)]]; rewrite Q in E1; try discriminate.
    injection E1 as _ -> _. destruct (pk_pos _ _ _ _ Pk ltac:(lia)) as [_ Mn].
    assert (s <= - t).
    { apply Mn; [|lra]. split.
      - replace (hp OMEGA * - t) with (- (hp OMEGA * t)) by ring. rewrite Rabs_Ropp. auto.
      - rewrite F. apply concentric; auto. rewrite <- F. auto. }
    unfold tol4. lra.
  - intros [Wc Wp] [Ty Mg]. unfold intersectWithSurface in E1, E0. cbv zeta in E1, E0.
    destruct (isZCylinder (sf_type surf)) eqn:T1.
    { apply andb_prop in T1. destruct T1 as [T1 T2]. destruct (sf_cyl surf) as [[rho c]|] eqn:Cy.
      2: { exfalso. unfold intersectWithZCylinder in E1. rewrite Cy, T2 in E1. discriminate. }
      specialize (Wc _ _ eq_refl).
      destruct (zcyl_complete surf hp v3zero rho c (OVal 0 v3zero) 1 true f Ho Hp Hf Wc T2 Cy)
        as [(Q & _)|[(_ & s1 & b1 & Pk & _ & _ & Q)|(_ & _ & Q)]]; rewrite Q in E1; try discriminate.
      injection E1 as _ -> _.
      destruct (zcyl_complete surf hp v3zero rho c (OVal 0 v3zero) 0 true f Ho Hp Hf Wc T2 Cy)
        as [(Q0 & _)|[(_ & s2 & b2 & Pk0 & _ & _ & Q0)|(_ & N & Q0)]]; rewrite Q0 in E0; try discriminate.
      - injection E0 as _ <- <-. exists s2. split; auto. destruct (pk_in _ _ _ _ Pk0) as [_ On]. split; [left; eauto|].
        rewrite <- (Rabs_pos_eq s) by auto. apply (pk_zero _ _ _ _ Pk0); auto. apply (pk_in _ _ _ _ Pk).
      - destruct (N s (pk_in _ _ _ _ Pk)) as [[? _]|[? _]]; lia. }
    destruct (isZPlane (sf_type surf)) eqn:T2.
    { apply andb_prop in T2. destruct T2 as [T2 T3]. specialize (Wp T2 T3). specialize (Mg T2 T3).
      destruct (zplane_outcomes surf hp v3zero (OVal 0 v3zero) 1 true f Ho Hp Hf Wp) as (_ & _ & _ & X).
      destruct (zplane_outcomes surf hp v3zero (OVal 0 v3zero) 0 true f Ho Hp Hf Wp) as (_ & _ & _ & Y).
      specialize (X Mg). specialize (Y Mg).
      destruct X as [(Q1 & _)|[(_ & s1 & b1 & Pk & _ & Q1)|(_ & _ & Q1)]]; rewrite Q1 in E1; try discriminate.
      injection E1 as _ -> _.
      destruct Y as [(Q0 & _)|[(_ & s2 & b2 & Pk0 & _ & Q0)|(_ & N & Q0)]]; rewrite Q0 in E0; try discriminate.
      - injection E0 as _ <- <-. exists s2. split; auto. destruct (pk_in _ _ _ _ Pk0) as [_ On].
        split; [apply pline_on_surface; auto|].
        assert (L := pk_zero _ _ _ _ Pk0 eq_refl s (pk_in _ _ _ _ Pk)). rewrite (Rabs_pos_eq s) in L by auto.
        unfold tol4. lra.
      - destruct (N s (pk_in _ _ _ _ Pk)) as [[? _]|[? _]]; lia. }
    assert (T3 : isZDisk (sf_type surf) = true).
    { unfold isZCylinder, isZPlane, isZDisk in *. destruct Ty as [[A B]|[A [B|B]]]; rewrite A, B in *; try discriminate.
      reflexivity. }
    rewrite T3 in E1, E0.
    destruct (Req_dec (hp TANL) 0) as [Z|Z].
    { destruct (zdisk_spec surf hp v3zero (OVal 0 v3zero) 1 true f Hf) as [Q _]. rewrite (Q Z) in E1. discriminate. }
    destruct (zdisk_spec surf hp v3zero (OVal 0 v3zero) 1 true f Hf) as [_ Q1]. destruct (Q1 Z) as (s1 & U1 & x1 & b1 & R1 & _).
    destruct (zdisk_spec surf hp v3zero (OVal 0 v3zero) 0 true f Hf) as [_ Q2].
    destruct (Q2 Z) as (s2 & U2 & x2 & b2 & R2 & _ & _ & X2 & _). rewrite R1 in E1. injection E1 as _ <- _.
    rewrite R2 in E0. injection E0 as _ _ <-. exists s1. rewrite (X2 Ho).
    assert (Es : s2 = s1) by (apply U1, U2; auto). subst s2. split; auto.
    apply andb_prop in T3. split.
    + right. right. left. destruct T3. split; auto. split; auto. apply U1. auto.
    + rewrite Rabs_pos_eq by auto. unfold tol4. lra.
Qed.

(** The point used for the normal is found by a second search that may look
    back.  It is the listed crossing for disks and for cylinders about the z
    axis; otherwise it is some crossing, at most as far as the listed one (up to
    the tolerance of the search). *)
Theorem C80_points : forall E omega theta phi surfaces rows f, env_ok E ->
  omega <> 0 -> Rabs phi <= 2 * PI ->
  let hp := mk5 omega (cos theta / sin theta) phi 0 0 in
  is_helix hp v3zero f ->
  scan E omega theta phi surfaces = Ok rows ->
  exists t, getIntersectionsWithSurfaces E (mkTraj (TP m5zero hp v3zero) None) surfaces = Ok t
  /\ Forall2 (fun row ent =>
       let surf := snd ent in let s := fst ent in let xx := sr_xx row in
       (disk surf -> xx = f s)
       /\ (forall rho c, st_cylinder (sf_type surf) = true -> st_parallelToZ (sf_type surf) = true ->
             sf_cyl surf = Some (rho, c) -> 0 < rho -> vx c = 0 -> vy c = 0 -> xx = f s)
       /\ (wf_surface surf -> regular surf hp v3zero ->
             exists u, xx = f u /\ on_surface surf xx /\ Rabs u <= s + tol4)) rows (tr_isect t).
Proof.
  intros E omega theta phi surfaces rows f [_ Si] Ho Hp hp Hf. unfold scan. cbv zeta. rewrite v3sph_direction.
  intros H. destruct (scanTrack omega theta phi) as [tP| | | |] eqn:B; try discriminate. cbn [bind] in H.
  destruct (scanTrack_spec _ _ _ _ B) as [S ->].
  destruct (getIntersectionsWithSurfaces E _ surfaces) as [a0| | | |] eqn:B0; try discriminate. cbn [bind] in H. exists a0. split; [first [reflexivity|exact B0]|].
  destruct (scanLoop_spec _ _ (direction_unit theta phi) _ _ _ H) as [F _].
  destruct (intersections_spec _ _ _ _ Si B0) as (ents & A & Pm & _).
  assert (Fd : forall ent, In ent (tr_isect a0) -> found (mkTraj (TP m5zero hp v3zero) None) (snd ent) (fst ent)).
  { intros [s surf] I. apply (all_found_in _ _ _ A).
    eapply Permutation_in; [apply Permutation_sym; exact Pm|exact I]. }
  clear - F Fd Ho Hp Hf. induction F as [|row ent l l' (_ & (b & s' & Q) & _) F IH]; constructor.
  - cbv zeta. destruct (Fd ent (or_introl eq_refl)) as [Fx [Fs _]].
    exact (point_of hp f (snd ent) (fst ent) b s' (sr_xx row) Ho Hp eq_refl Hf Fx Fs Q).
  - apply IH. intros. apply Fd. right. auto.
Qed.
Print Assumptions C80_points.

(** The scan goes through whenever the listing does, for surfaces searched in
    closed form. *)
Theorem C80_defined : forall E omega theta phi surfaces t, env_ok E ->
  omega <> 0 -> Rabs phi <= 2 * PI -> sin theta <> 0 ->
  let hp := mk5 omega (cos theta / sin theta) phi 0 0 in
  getIntersectionsWithSurfaces E (mkTraj (TP m5zero hp v3zero) None) surfaces = Ok t ->
  (forall surf, In surf surfaces -> wf_surface surf /\ regular surf hp v3zero) ->
  exists rows, scan E omega theta phi surfaces = Ok rows.
Proof.
  intros E omega theta phi surfaces t [_ Si] Ho Hp S hp Li Sf. unfold scan. cbv zeta.
  assert (T : scanTrack omega theta phi = Ok (TP m5zero hp v3zero)).
  { unfold scanTrack. replace (1 / 2 * PI - theta) with (PI / 2 - theta) by lra. rewrite sin_shift, cos_shift.
    rewrite rdiv_ok by auto. reflexivity. }
  rewrite T. cbn [bind]. rewrite Li. cbn [bind]. apply scanLoop_ok. intros [s surf] I. cbn [snd].
  destruct (intersections_spec _ _ _ _ Si Li) as (ents & A & Pm & _).
  assert (Fd : In surf surfaces /\ found (mkTraj (TP m5zero hp v3zero) None) surf s).
  { apply (all_found_in _ _ _ A). eapply Permutation_in; [apply Permutation_sym; exact Pm|exact I]. }
  destruct Fd as [Is [[x E1] _]]. destruct (Sf surf Is) as [[Wc Wp] [Ty Mg]]. cbn [tr_ref mkTraj tp_par tp_ref] in *.
  assert (Hf := hcurve_helix hp v3zero Ho).
  unfold intersectWithSurface in *. cbv zeta in *.
  destruct (isZCylinder (sf_type surf)) eqn:T1.
  { apply andb_prop in T1. destruct T1 as [T1 T2]. destruct (sf_cyl surf) as [[rho c]|] eqn:Cy.
    2: { exfalso. unfold intersectWithZCylinder in E1. rewrite Cy, T2 in E1. discriminate. }
    specialize (Wc _ _ eq_refl).
    destruct (zcyl_complete surf hp v3zero rho c (OVal 0 v3zero) 1 true _ Ho Hp Hf Wc T2 Cy)
      as [(Q & _)|[(Nh & s1 & b1 & Pk & _ & _ & Q)|(_ & _ & Q)]]; rewrite Q in E1; try discriminate.
    destruct (zcyl_complete surf hp v3zero rho c (OVal 0 v3zero) 0 true _ Ho Hp Hf Wc T2 Cy)
      as [(_ & u & U & V)|[(_ & s2 & b2 & _ & _ & _ & Q0)|(_ & N & _)]].
    - exfalso. exact (Nh u U V).
    - eauto.
    - destruct (N s1 (pk_in _ _ _ _ Pk)) as [[? _]|[? _]]; lia. }
  destruct (isZPlane (sf_type surf)) eqn:T2.
  { apply andb_prop in T2. destruct T2 as [T2 T3]. specialize (Wp T2 T3). specialize (Mg T2 T3).
    destruct (zplane_outcomes surf hp v3zero (OVal 0 v3zero) 1 true _ Ho Hp Hf Wp) as (_ & _ & _ & X).
    destruct (zplane_outcomes surf hp v3zero (OVal 0 v3zero) 0 true _ Ho Hp Hf Wp) as (_ & _ & _ & Y).
    specialize (X Mg). specialize (Y Mg).
    destruct X as [(Q1 & _)|[(Nh & s1 & b1 & Pk & _ & Q1)|(_ & _ & Q1)]]; rewrite Q1 in E1; try discriminate.
    destruct Y as [(_ & u & U & V)|[(_ & s2 & b2 & _ & _ & Q0)|(_ & N & _)]].
    - exfalso. exact (Nh u U V).
    - eauto.
    - destruct (N s1 (pk_in _ _ _ _ Pk)) as [[? _]|[? _]]; lia. }
  assert (T3 : isZDisk (sf_type surf) = true).
  { unfold isZCylinder, isZPlane, isZDisk in *. destruct Ty as [[A' B]|[A' [B|B]]]; rewrite A', B in *; try discriminate.
    reflexivity. }
  rewrite T3 in *.
  destruct (Req_dec (hp TANL) 0) as [Z|Z].
  { destruct (zdisk_spec surf hp v3zero (OVal 0 v3zero) 1 true _ Hf) as [Q _]. rewrite (Q Z) in E1. discriminate. }
  destruct (zdisk_spec surf hp v3zero (OVal 0 v3zero) 0 true _ Hf) as [_ Q2].
  destruct (Q2 Z) as (s2 & U2 & x2 & b2 & R2 & _). eauto.
Qed.
Print Assumptions C80_defined.

(** The table of the detailed model: sums over the steps between the origin and
    the last crossing, and points on the line between them. *)
Theorem C80_ntuples : forall E between theta phi surfaces rows mats,
  ntuples E between theta phi surfaces = Ok (rows, mats) ->
  exists p1 l, scan E (/ 1000000000) theta phi surfaces = Ok rows
  /\ ((rows = [] /\ p1 = v3zero) \/ (exists rs r, rows = rs ++ [r] /\ p1 = sr_xx r))
  /\ l = between v3zero p1 /\ length mats = length l
  /\ running (fun r => rdiv (fst (fst (snd r))) (snd (fst (snd r)))) (fun r => mr_x0 (fst r)) (combine mats l)
  /\ running (fun r => rdiv (fst (fst (snd r))) (snd (snd r))) (fun r => mr_lambda (fst r)) (combine mats l)
  /\ (forall before row after, combine mats l = before ++ row :: after ->
        (p1 = v3zero -> mr_end (fst row) = NonFin)
        /\ (p1 <> v3zero -> mr_end (fst row) = Ok (vscale (covered (map snd before ++ [snd row]) / vr p1) p1))).
Proof.
  intros E between theta phi surfaces rows mats. unfold ntuples. cbv zeta. intros H.
  destruct (scan E (/ 1000000000) theta phi surfaces) as [a| | | |] eqn:B; try discriminate. cbn [bind] in H. injection H as <- <-.
  exists (lastPoint a), (between v3zero (lastPoint a)). split; auto. split; [|split; auto].
  { unfold lastPoint. destruct (rev a) as [|r rs] eqn:R.
    - left. assert (a = []) by (rewrite <- (rev_involutive a), R; reflexivity). subst a. auto.
    - right. exists (rev rs), r. assert (Q : a = rev rs ++ [r]) by (rewrite <- (rev_involutive a), R; reflexivity).
      split; auto. rewrite Q, map_app. cbn [map]. apply last_last. }
  destruct (matLoop_spec (vunit (vsub (lastPoint a) v3zero)) (between v3zero (lastPoint a)) (Ok 0) (Ok 0) 0)
    as (M1 & M2 & M3 & M4).
  split; auto. split; [apply runs_running; auto|]. split; [apply runs_running; auto|].
  intros before row after Q. rewrite (M4 _ _ _ Q). set (p := lastPoint a).
  assert (Sp : vsub p v3zero = p) by (unfold vsub; destruct p; cbn; f_equal; ring). rewrite Sp. split.
  - intros ->. unfold vunit, vr. cbn [vx vy vz v3zero]. replace (0 * 0 + 0 * 0 + 0 * 0) with 0 by ring.
    rewrite sqrt_0. cbv zeta. rewrite rdiv_zero. reflexivity.
  - intros N. assert (V : vr p <> 0).
    { intros V. apply N. unfold vr in V. apply sqrt_eq_0 in V.
      - destruct p as [x y z]. cbn [vx vy vz] in V. unfold v3zero. f_equal; nra.
      - destruct p; cbn; nra. }
    unfold vunit. cbv zeta. rewrite !rdiv_ok by auto. cbn [bind]. f_equal. unfold vscale. cbn [vx vy vz].
    rewrite Rplus_0_l. f_equal; field; auto.
Qed.
Print Assumptions C80_ntuples.

(** Too few arguments are noticed only if both angles are missing. *)
Theorem C80_arguments : forall E file args surfaces,
  (file = true -> length args = 1%nat -> checkMaterials E file args surfaces = UB)
  /\ (file = false \/ args = [] -> checkMaterials E file args surfaces = Ok None)
  /\ (forall theta phi more rows, file = true -> args = theta :: phi :: more ->
        (checkMaterials E file args surfaces = Ok (Some rows) <->
         scan E (/ 1000000) (theta / 180 * PI) (phi / 180 * PI) surfaces = Ok rows)).
Proof.
  intros E file args surfaces. split; [|split].
  - intros -> L. destruct args as [|a [|b args]]; try discriminate. reflexivity.
  - intros [->| ->]; [reflexivity|destruct file; reflexivity].
  - intros theta phi more rows -> ->. unfold checkMaterials.
    destruct (scan E (/ 1000000) (theta / 180 * PI) (phi / 180 * PI) surfaces); cbn [bind]; split; congruence.
Qed.
Print Assumptions C80_arguments.

(** ** two disks seen at 45 degrees *)
Lemma ex_degrees : scanTrack (/ 1000000) (45 / 180 * PI) (0 / 180 * PI)
  = Ok (TP m5zero (mk5 (/ 1000000) 1 0 0 0) v3zero).
Proof.
  unfold scanTrack. replace (1 / 2 * PI - 45 / 180 * PI) with (PI / 4) by lra.
  replace (0 / 180 * PI) with 0 by lra. rewrite sin_cos_PI4.
  assert (C := cos_gt_0 (PI / 4)). assert (P := PI_RGT_0). rewrite rdiv_ok by (intros Q; lra). cbn [bind].
  replace (cos (PI / 4) / cos (PI / 4)) with 1; [reflexivity|]. field. intros Q. lra.
Qed.

Definition ex_ray : trackParameters := TP m5zero (mk5 (/ 1000000) 1 0 0 0) v3zero.
Definition ex_sheet (h th : R) : surface := ex_station h th (fun _ => true).

Lemma ex_sheet_search h th mode : (mode = 0%Z \/ mode = 1%Z) -> 0 < h ->
  intersectWithSurface (ex_sheet h th) (tp_par ex_ray) (tp_ref ex_ray) (OVal 0 v3zero) mode true
  = Ok (true, OVal h (hcurve (tp_par ex_ray) (tp_ref ex_ray) h)).
Proof.
  intros M Hh. unfold ex_sheet. rewrite station_isect.
  - change (vz (tp_ref ex_ray) + tp_par ex_ray Z0) with (0 + 0). change (tp_par ex_ray TANL) with 1.
    replace ((h - (0 + 0)) / 1) with h by field. do 2 f_equal. cbn [bounds ex_station sf_insideBounds]. 
    rewrite andb_true_r. apply mode_ok_iff. split; intros; [auto|destruct M; lia].
  - change (tp_par ex_ray OMEGA) with (/ 1000000). lra.
  - change (tp_par ex_ray TANL) with 1. lra.
Qed.

Lemma ex_sheet_one acc h th : 0 < h <= 3 ->
  isectOne (mkTraj ex_ray None) (PI * Rabs (calculateRadius (tp_par ex_ray))) acc (ex_sheet h th)
  = Ok (acc ++ [(h, ex_sheet h th)]).
Proof.
  intros Hh. unfold isectOne. change (tr_ref (mkTraj ex_ray None)) with ex_ray.
  rewrite ex_sheet_search by (auto; lra). cbn [bind]. destruct (Rle_dec 0 h); [|lra].
  destruct (Rlt_dec h _) as [|N]; [reflexivity|]. exfalso. apply N.
  unfold calculateRadius. cbv zeta.
  change (calculateCurvature (tp_par ex_ray)) with (/ 1000000).
  destruct (Req_EM_T _ _); [lra|]. assert (P := PI_RGT_0). assert (P3 := PI2_3_2). unfold PI2 in P3.
  replace (Rabs (1 / / 1000000)) with 1000000 by (rewrite Rabs_pos_eq; [field|]; replace (1 / / 1000000) with 1000000 by field; lra).
  rewrite Rabs_pos_eq by lra. lra.
Qed.

Lemma ex_sheets h1 th1 h2 th2 : 0 < h1 <= h2 -> h2 <= 3 ->
  exists t, getIntersectionsWithSurfaces ex_env (mkTraj ex_ray None) [ex_sheet h1 th1; ex_sheet h2 th2] = Ok t
  /\ tr_isect t = [(h1, ex_sheet h1 th1); (h2, ex_sheet h2 th2)].
Proof.
  intros A B. unfold getIntersectionsWithSurfaces. cbv zeta. cbn [isectAll].
  change (tr_ref (mkTraj ex_ray None)) with ex_ray. rewrite ex_sheet_one by lra. cbn [bind]. rewrite ex_sheet_one by lra. cbn [bind].
  eexists. split; [reflexivity|].
  cbn [set_isect tr_isect mkTraj app ex_env en_sortI]. apply isort_id.
  constructor; [constructor; [constructor|constructor]|]. constructor; [cbn; lra|constructor].
Qed.

Lemma ex_dir_z : vz (direction_of (45 / 180 * PI) (0 / 180 * PI)) = cos (PI / 4).
Proof. cbn [direction_of vz]. f_equal. lra. Qed.

Lemma ex_scan h1 th1 h2 th2 : 0 < h1 <= h2 -> h2 <= 3 -> exists r1 r2,
  checkMaterials ex_env true [45; 0] [ex_sheet h1 th1; ex_sheet h2 th2] = Ok (Some [r1; r2])
  /\ sr_s r1 = h1 /\ sr_s r2 = h2
  /\ sr_xx r1 = hcurve (tp_par ex_ray) v3zero h1 /\ sr_xx r2 = hcurve (tp_par ex_ray) v3zero h2
  /\ sr_x r1 = xOverX0 (ex_sheet h1 th1) (direction_of (45 / 180 * PI) (0 / 180 * PI)) (sr_xx r1)
  /\ sr_x r2 = xOverX0 (ex_sheet h2 th2) (direction_of (45 / 180 * PI) (0 / 180 * PI)) (sr_xx r2)
  /\ sr_tot r1 = accumulate (Ok 0) (sr_x r1) /\ sr_tot r2 = accumulate (sr_tot r1) (sr_x r2).
Proof.
  intros A B. destruct (ex_sheets h1 th1 h2 th2 A B) as (t & L1 & L2).
  eexists. eexists. split.
  - unfold checkMaterials, scan. cbv zeta. rewrite v3sph_direction, ex_degrees. cbn [bind].
    fold ex_ray. rewrite L1. cbn [bind]. rewrite L2. cbn [scanLoop].
    rewrite !ex_sheet_search by (auto; lra). cbn [bind snd]. reflexivity.
  - cbn [sr_s sr_xx sr_x sr_tot]. repeat split; reflexivity.
Qed.

Lemma ex_cos : 0 < cos (PI / 4).
Proof. apply cos_gt_0; assert (P := PI_RGT_0); lra. Qed.

Lemma ex_value h th xx : 0 < th ->
  xOverX0 (ex_sheet h th) (direction_of (45 / 180 * PI) (0 / 180 * PI)) xx = Ok (th / (936 / 100) / cos (PI / 4)).
Proof.
  intros T. assert (C := ex_cos).
  assert (D : vdot (direction_of (45 / 180 * PI) (0 / 180 * PI)) (sf_normal (ex_sheet h th) xx) = cos (PI / 4)).
  { rewrite <- ex_dir_z. unfold vdot. cbn [ex_sheet ex_station sf_normal vx vy vz]. ring. }
  destruct (xOverX0_spec (ex_sheet h th) (direction_of (45 / 180 * PI) (0 / 180 * PI)) xx (direction_unit _ _)) as [[_ ->]|[N _]].
  - f_equal. unfold budget. rewrite D, Rabs_pos_eq by lra.
    cbn [ex_sheet ex_station sf_innerThickness sf_outerThickness sf_innerMaterial sf_outerMaterial ex_silicon mat_radiationLength].
    field. lra.
  - exfalso. apply N. unfold measurable. rewrite D.
    cbn [ex_sheet ex_station sf_innerThickness sf_outerThickness sf_innerMaterial sf_outerMaterial ex_silicon mat_radiationLength].
    repeat split; lra.
Qed.

Lemma ex_no_value h xx :
  xOverX0 (ex_sheet h 0) (direction_of (45 / 180 * PI) (0 / 180 * PI)) xx = NonFin.
Proof.
  destruct (xOverX0_spec (ex_sheet h 0) (direction_of (45 / 180 * PI) (0 / 180 * PI)) xx (direction_unit _ _)) as [[[_ [_ [Z _]]] _]|[_ ->]]; auto.
  exfalso. apply Z. cbn [ex_sheet ex_station sf_innerThickness sf_outerThickness]. ring.
Qed.

(** two sheets of 1 and 2 cm of silicon *)
Example C80_instance : exists r1 r2,
  checkMaterials ex_env true [45; 0] [ex_sheet 1 1; ex_sheet 2 2] = Ok (Some [r1; r2])
  /\ sr_tot r1 = Ok (1 / (936 / 100) / cos (PI / 4))
  /\ sr_tot r2 = Ok (3 / (936 / 100) / cos (PI / 4)).
Proof.
  destruct (ex_scan 1 1 2 2) as (r1 & r2 & A & _ & _ & _ & _ & X1 & X2 & T1 & T2); [lra|lra|].
  rewrite ex_value in X1, X2 by lra. rewrite X1 in T1. cbn [accumulate] in T1. rewrite T1, X2 in T2. cbn [accumulate] in T2.
  exists r1, r2. split; auto. rewrite T1, T2. assert (C := ex_cos). split; f_equal; field; lra.
Qed.

(** A surface without material should add nothing; it makes its total and all
    later ones undefined. *)
Theorem C80_thin_refuted : exists E theta phi empty full r1 r2,
  sf_innerThickness empty = 0 /\ sf_outerThickness empty = 0
  /\ checkMaterials E true [theta; phi] [empty; full] = Ok (Some [r1; r2])
  /\ (exists x, sr_x r2 = Ok x /\ 0 < x)
  /\ sr_tot r1 = NonFin /\ sr_tot r2 = NonFin.
Proof.
  destruct (ex_scan 1 0 2 2) as (r1 & r2 & A & _ & _ & _ & _ & X1 & X2 & T1 & T2); [lra|lra|].
  rewrite ex_no_value in X1. rewrite ex_value in X2 by lra. rewrite X1 in T1. cbn [accumulate] in T1. rewrite T1, X2 in T2.
  exists ex_env, 45, 0, (ex_sheet 1 0), (ex_sheet 2 2), r1, r2. split; [reflexivity|]. split; [reflexivity|].
  split; auto. split; [|split; auto]. eexists. split; [exact X2|]. assert (C := ex_cos).
  apply Rdiv_lt_0_compat; auto. lra.
Qed.
Print Assumptions C80_thin_refuted.

(** no surface crossed: the second table has no end points *)
Example C80_nothing_crossed : exists mats, ntuples ex_env (fun _ _ => [(1, 2, 3)]) (PI / 4) 0 [] = Ok ([], mats)
  /\ map mr_end mats = [NonFin].
Proof.
  unfold ntuples, scan. cbv zeta. unfold scanTrack. replace (1 / 2 * PI - PI / 4) with (PI / 4) by lra.
  rewrite rdiv_ok by (assert (C := ex_cos); lra). cbn [bind].
  eexists. split; [reflexivity|]. cbn [map matLoop mr_end]. unfold lastPoint. cbn [map last].
  unfold vunit, vsub, vr. cbn [vx vy vz v3zero]. replace ((0 - 0) * (0 - 0) + (0 - 0) * (0 - 0) + (0 - 0) * (0 - 0)) with 0 by ring.
  rewrite sqrt_0. cbv zeta. rewrite rdiv_zero. reflexivity.
Qed.

(** ** a wall the track leaves and comes back to *)
Definition ex_wall : surface :=
  Surf 1 (ST false true false true false) None (fun _ => true) (fun _ => V3 1 0 0) (fun _ => V3 0 0 1)
    (fun _ => V3 0 (-1) 0) (fun x => (vx x, vz x)) (fun uv => V3 (fst uv) (-500000) (snd uv)) (V3 0 (-500000) 0)
    ex_silicon ex_silicon 1 0 (fun x => - vy x - 500000).
Definition ex_hp : vec5 := mk5 (/ 1000000) 1 (PI / 3) 0 0.

Lemma ex_wall_margin : plane_margin ex_wall ex_hp v3zero = 1000000 * 1000000.
Proof.
  unfold plane_margin, overlap, hcircle, pline. cbn [sf_normal sf_origin ex_wall c_x c_y c_r l_n0 l_n1 l_d].
  change (ex_hp OMEGA) with (/ 1000000). change (ex_hp D0) with 0. change (ex_hp PHI0) with (PI / 3).
  unfold vdot. cbn [vx vy vz v3zero]. rewrite cos_PI3.
  replace (0 * 0 + -500000 * -1 + 0 * 0) with 500000 by ring. rewrite (Rabs_pos_eq 500000) by lra.
  replace (1 / / 1000000 - 0) with 1000000 by field. replace (1 / / 1000000) with 1000000 by field.
  rewrite Rabs_pos_eq by lra. field.
Qed.

Lemma ex_wall_line s : on_line (pline ex_wall) (vx (hcurve ex_hp v3zero s), vy (hcurve ex_hp v3zero s))
  <-> cos (PI / 3 - s * / 1000000) = 0.
Proof.
  unfold on_line, pline, hcurve. cbn [sf_normal sf_origin ex_wall l_n0 l_n1 l_d fst snd].
  change (ex_hp OMEGA) with (/ 1000000). change (ex_hp D0) with 0. change (ex_hp PHI0) with (PI / 3).
  unfold vdot. cbn [vx vy vz v3zero]. rewrite cos_PI3.
  replace (0 * 0 + -500000 * -1 + 0 * 0) with 500000 by ring. rewrite (Rabs_pos_eq 500000) by lra.
  replace (1 / / 1000000) with 1000000 by field. set (c := cos _). split; lra.
Qed.

Lemma ex_wall_crossing s : crossing (hcurve ex_hp v3zero) (/ 1000000)
    (fun x => on_line (pline ex_wall) (vx x, vy x)) s
  <-> s = - (PI / 6 * 1000000) \/ s = 5 * PI / 6 * 1000000.
Proof.
  unfold crossing. rewrite ex_wall_line. assert (P := PI_RGT_0). split.
  - intros [A C]. apply Rabs_def2 in A. destruct (cos_eq_0_0 _ C) as [k K].
    assert (Q : - 2 < IZR k < 1) by (split; nra).
    assert (k = -1 \/ k = 0)%Z as [-> | ->].
    { destruct Q as [Q1 Q2]. apply lt_IZR in Q1. apply lt_IZR in Q2. lia. }
    + right. cbn in K. lra.
    + left. cbn in K. lra.
  - intros [-> | ->].
    + split.
      * replace (/ 1000000 * - (PI / 6 * 1000000)) with (- (PI / 6)) by field. rewrite Rabs_Ropp, Rabs_pos_eq; lra.
      * replace (PI / 3 - - (PI / 6 * 1000000) * / 1000000) with (PI / 2) by field. apply cos_PI2.
    + split.
      * replace (/ 1000000 * (5 * PI / 6 * 1000000)) with (5 * PI / 6) by field. rewrite Rabs_pos_eq; lra.
      * replace (PI / 3 - 5 * PI / 6 * 1000000 * / 1000000) with (- (PI / 2)) by field. rewrite cos_neg. apply cos_PI2.
Qed.

Lemma ex_wall_search mode : (mode = 0%Z \/ mode = 1%Z) ->
  let s := if Z.eqb mode 1 then 5 * PI / 6 * 1000000 else - (PI / 6 * 1000000) in
  intersectWithSurface ex_wall ex_hp v3zero (OVal 0 v3zero) mode true = Ok (true, OVal s (hcurve ex_hp v3zero s)).
Proof.
  intros M. change (intersectWithSurface ex_wall ex_hp v3zero (OVal 0 v3zero) mode true)
    with (intersectWithZPlane ex_wall ex_hp v3zero (OVal 0 v3zero) mode true).
  assert (P := PI_RGT_0). assert (Ho : ex_hp OMEGA <> 0) by (change (ex_hp OMEGA) with (/ 1000000); lra).
  destruct (zplane_outcomes ex_wall ex_hp v3zero (OVal 0 v3zero) mode true _ Ho
    ltac:(change (ex_hp PHI0) with (PI / 3); rewrite Rabs_pos_eq; lra) (hcurve_helix ex_hp v3zero Ho)) as (_ & _ & _ & X).
  { split; [reflexivity|]. right. cbn. rewrite Rabs_left by lra. unfold tol12. lra. }
  rewrite ex_wall_margin in X. change (ex_hp OMEGA) with (/ 1000000) in X.
  destruct X as [(_ & u & U & V)|[(_ & s & b & Pk & B & Q)|(_ & N & _)]].
  - unfold eps9. lra.
  - exfalso. apply ex_wall_line in V.
    assert (W : / 1000000 * u = PI \/ / 1000000 * u = - PI).
    { unfold Rabs in U. destruct (Rcase_abs (/ 1000000 * u)); lra. }
    assert (C : cos (PI / 3 - u * / 1000000) = - (1 / 2)).
    { replace (u * / 1000000) with (/ 1000000 * u) by ring. destruct W as [-> | ->].
      - replace (PI / 3 - PI) with (- (- (PI / 3) + PI)) by ring. rewrite cos_neg, neg_cos, cos_neg, cos_PI3. lra.
      - replace (PI / 3 - - PI) with (PI / 3 + PI) by ring. rewrite neg_cos, cos_PI3. lra. }
    rewrite C in V. lra.
  - rewrite Q. assert (b = true) as -> by (apply B; reflexivity).
    assert (I := pk_in _ _ _ _ Pk). apply ex_wall_crossing in I.
    destruct M as [-> | ->]; cbn [Z.eqb Pos.eqb]; destruct I as [-> | ->]; try reflexivity; exfalso.
    + assert (L := pk_zero _ _ _ _ Pk eq_refl (- (PI / 6 * 1000000)) (proj2 (ex_wall_crossing _) (or_introl eq_refl))).
      rewrite Rabs_Ropp in L. rewrite !Rabs_pos_eq in L by lra. lra.
    + destruct (pk_pos _ _ _ _ Pk ltac:(lia)) as [L _]. lra.
  - exfalso. destruct (N (5 * PI / 6 * 1000000) (proj2 (ex_wall_crossing _) (or_intror eq_refl))) as [[_ L]|[L _]]; [lra|].
    destruct M; lia.
Qed.

Lemma ex_degrees2 : scanTrack (/ 1000000) (45 / 180 * PI) (60 / 180 * PI) = Ok (TP m5zero ex_hp v3zero).
Proof.
  unfold scanTrack. replace (1 / 2 * PI - 45 / 180 * PI) with (PI / 4) by lra.
  replace (60 / 180 * PI) with (PI / 3) by lra. rewrite sin_cos_PI4.
  assert (C := ex_cos). rewrite rdiv_ok by (intros Q; lra). cbn [bind].
  replace (cos (PI / 4) / cos (PI / 4)) with 1; [reflexivity|]. field. intros Q. lra.
Qed.

(** For a plane the point need not be the listed one: here the track meets the
    plane in front of the origin, and the point printed lies behind it. *)
Theorem C80_listed_point_refuted : exists E theta phi surf row f,
  env_ok E /\ wf_surface surf /\ regular surf ex_hp v3zero
  /\ is_helix ex_hp v3zero f
  /\ checkMaterials E true [theta; phi] [surf] = Ok (Some [row])
  /\ 0 < sr_s row /\ on_surface surf (f (sr_s row))
  /\ exists u, u < 0 /\ sr_xx row = f u /\ sr_xx row <> f (sr_s row).
Proof.
  assert (P := PI_RGT_0). assert (Ho : ex_hp OMEGA <> 0) by (change (ex_hp OMEGA) with (/ 1000000); lra).
  set (s1 := 5 * PI / 6 * 1000000). set (s0 := - (PI / 6 * 1000000)).
  set (u := direction_of (45 / 180 * PI) (60 / 180 * PI)).
  set (x := xOverX0 ex_wall u (hcurve ex_hp v3zero s0)).
  exists ex_env, 45, 60, ex_wall, (SRow s1 (hcurve ex_hp v3zero s0) x (accumulate (Ok 0) x)), (hcurve ex_hp v3zero).
  assert (Z : zplane_ok ex_wall).
  { split; [reflexivity|]. right. cbn. rewrite Rabs_left by lra. unfold tol12. lra. }
  split; [apply ex_env_ok|]. split; [split; [cbn; intros; discriminate|auto]|].
  split.
  { split; [right; cbn; auto|]. intros _ _. rewrite ex_wall_margin. unfold tol9. lra. }
  split; [apply hcurve_helix; auto|]. split.
  - unfold checkMaterials, scan. cbv zeta. rewrite v3sph_direction, ex_degrees2. fold u. cbn [bind].
    unfold getIntersectionsWithSurfaces. cbv zeta. cbn [isectAll]. unfold isectOne.
    change (tr_ref (mkTraj (TP m5zero ex_hp v3zero) None)) with (TP m5zero ex_hp v3zero). cbn [tp_par tp_ref].
    rewrite ex_wall_search by auto. cbv zeta. cbn [Z.eqb Pos.eqb bind]. fold s1.
    destruct (Rle_dec 0 s1) as [|N]; [|exfalso; apply N; unfold s1; lra].
    assert (R : Rabs (calculateRadius ex_hp) = 1000000).
    { unfold calculateRadius. cbv zeta. change (calculateCurvature ex_hp) with (/ 1000000).
      destruct (Req_EM_T _ _); [lra|]. replace (1 / / 1000000) with 1000000 by field. rewrite !(Rabs_pos_eq 1000000) by lra. auto. }
    rewrite R. destruct (Rlt_dec s1 (PI * 1000000)) as [|N]; [|exfalso; apply N; unfold s1; lra].
    cbn [mkTraj tr_isect app bind set_isect ex_env en_sortI isort insert scanLoop tp_par tp_ref].
    rewrite ex_wall_search by auto. cbv zeta. cbn [Z.eqb bind snd]. reflexivity.
  - cbn [sr_s sr_xx]. split; [unfold s1; lra|]. split.
    { apply (pline_on_surface ex_wall); auto. exact (proj2 (proj2 (ex_wall_crossing s1) (or_intror eq_refl))). }
    exists s0. split; [unfold s0; lra|]. split; auto. intros Q. apply (f_equal vz) in Q.
    unfold hcurve in Q. cbn [vz] in Q. change (ex_hp TANL) with 1 in Q. unfold s0, s1 in Q. lra.
Qed.
Print Assumptions C80_listed_point_refuted.
