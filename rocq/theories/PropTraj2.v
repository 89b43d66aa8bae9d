(** Properties C36-C39, C41: uninitialised energy loss, rejected hits,
    intersection list, energy loss, precisions. *)
From Coq Require Import Reals List Bool ZArith Lra Lia Permutation Sorted.
From Coquelicot Require Import Coquelicot.
From Verif Require Import SpecConst Num Vec Helix Isect Trans Material Traj.
From Verif Require Import NumFacts SpecHelix HelixFacts PathFacts MoveFacts SpecIsect SurfFacts SurfFacts2
  SpecTraj TrajFacts TrajFacts2 TrajFacts3 TrajFacts4 TrajFacts5 TrajEx PropSurf PropTraj.
Import ListNotations.
Open Scope R_scope.

(** ** C36 *)

(** A scattering element, not the first, whose stored state has no in-bounds
    crossing with its own surface: the energy-loss term is computed from
    uninitialised variables, so prepareForFitting has no defined outcome. *)
Theorem C36_undefined : forall E t e surf o t', env_ok E ->
  In e (tr_elems t) -> (exists i, In i (tr_elems t) /\ te_s i < te_s e) ->
  te_scat e = true -> te_surf e = Some surf ->
  intersectWithSurface surf (tp_par (te_tp e)) (tp_ref (te_tp e)) (OVal 0 v3zero) 0 true = Ok (false, o) ->
  lossTerm E (tr_mass t) e = UB /\ prepareForFitting E t <> Ok t'.
Proof.
  intros E t e surf o t' [So _] I L A B C. assert (U := loss_undefined E (tr_mass t) e surf o A B C).
  split; auto. intros H. destruct (prepare_needs_loss E t t' e So H I L) as [nrj N]. congruence.
Qed.
Print Assumptions C36_undefined.

(** In a history of additions within half a turn this is exactly the case of
    scattering disk elements whose recorded point is out of bounds. *)
Theorem C36_disk : forall E ref prop cs t e surf, env_ok E ->
  tp_par ref OMEGA <> 0 -> Rabs (tp_par ref PHI0) <= 2 * PI ->
  history E (fun t c => surfaces_ok t c /\ within_half_turn t c) (mkTraj ref prop) cs t ->
  In e (tr_elems t) -> te_surf e = Some surf -> sf_type surf = ST false true false false true ->
  tp_par (te_tp e) TANL <> 0 ->
  intersectWithSurface surf (tp_par (te_tp e)) (tp_ref (te_tp e)) (OVal 0 v3zero) 0 true
    = Ok (sf_insideBounds surf (tp_ref (te_tp e)), OVal 0 (tp_ref (te_tp e)))
  /\ (te_scat e = true -> sf_insideBounds surf (tp_ref (te_tp e)) = false ->
      (exists i, In i (tr_elems t) /\ te_s i < te_s e) ->
      forall t', prepareForFitting E t <> Ok t').
Proof.
  intros E ref prop cs t e surf Ek Ho Hp H I S T N.
  destruct (history_placed E _ ref prop cs t (proj1 Ek) Ho Hp (fun t c H => proj1 H) H) as [P C].
  specialize (C (fun t c H => proj2 H)).
  destruct (pl_surf _ P e surf I S) as [D On]. assert (Z := co_z0 _ C e surf I S).
  assert (V : vz (tp_ref (te_tp e)) = vz (sf_origin surf)).
  { unfold on_surface in On. cbv zeta in On. rewrite T in On. cbn in On.
    destruct On as [(? & ? & Q & _)|[(_ & Q & _)|[(_ & _ & Q)|(Q & _)]]]; auto; discriminate. }
  assert (Q : intersectWithSurface surf (tp_par (te_tp e)) (tp_ref (te_tp e)) (OVal 0 v3zero) 0 true
    = Ok (sf_insideBounds surf (tp_ref (te_tp e)), OVal 0 (tp_ref (te_tp e)))).
  { apply disk_self; auto; try (rewrite T; reflexivity). apply (pl_om _ P); auto. }
  split; auto. intros Sc Ob Li t'. rewrite Ob in Q.
  apply (C36_undefined E t e surf _ t' Ek I Li Sc S Q).
Qed.
Print Assumptions C36_disk.

(** Reachable: one scattering measurement on a disk, outside its bounds. *)
Theorem C36_reachable : forall prop position precision id, exists surf t,
  addMeasurement ex_env (mkTraj ex_ref prop) position precision surf id true = (t, Ok true)
  /\ prepareForFitting ex_env t = UB.
Proof.
  intros prop pos prec id.
  destruct (ex_first_hit prop 1 (fun _ => false) pos prec id true ltac:(lra)) as (th & e & _ & A & N).
  exists (ex_station 1 th (fun _ => false)), (set_elems (ex_traj prop) [ex_initial; e]). split; auto.
  destruct (newMeasurement_spec _ _ _ _ _ _ _ _ _ N) as (s0 & xx & moved & fid & mom & el & B & _).
  assert (Ho : tp_par (te_tp ex_initial) OMEGA <> 0) by (cbn; lra).
  assert (Ht : tp_par (te_tp ex_initial) TANL <> 0) by (cbn; lra).
  assert (Hp : Rabs (tp_par (te_tp ex_initial) PHI0) <= 2 * PI)
    by (cbn; rewrite Rabs_R0; generalize PI_pos; lra).
  destruct (built_facts _ _ _ _ _ _ _ _ _ _ _ _ _ _ _ B Ho Hp (station_wf _ _ _))
    as (S0 & Xx & On & _ & _ & _ & _ & Oe & T & _ & _ & D & _ & _ & Z & R & C & _).
  assert (Is := bu_isect _ _ _ _ _ _ _ _ _ _ _ _ _ _ _ B).
  rewrite station_isect in Is by auto. injection Is as _ Is Ix.
  assert (S1 : s0 = 1) by (rewrite <- Is; cbn; field).
  assert (Es : te_s e = 1) by (rewrite (bu_s _ _ _ _ _ _ _ _ _ _ _ _ _ _ _ B), S1; cbn; ring).
  assert (Z0' : tp_par (te_tp e) Z0 = 0).
  { apply Z. rewrite S1. change (tp_par (te_tp ex_initial) OMEGA) with 1. rewrite Rmult_1_r, Rabs_R1.
    generalize PI2_3_2. lra. }
  assert (U : lossTerm ex_env (tr_mass (ex_traj prop)) e = UB).
  { eapply (loss_undefined ex_env _ e (ex_station 1 th (fun _ => false))).
    - apply (bu_scat _ _ _ _ _ _ _ _ _ _ _ _ _ _ _ B).
    - apply (bu_surf _ _ _ _ _ _ _ _ _ _ _ _ _ _ _ B).
    - apply (disk_self (ex_station 1 th (fun _ => false)) e); auto; try reflexivity.
      + rewrite T. auto.
      + rewrite R, Xx, S1. unfold hcurve. cbn. ring. }
  unfold prepareForFitting. cbn [set_elems tr_elems ex_env en_sortE].
  rewrite isort_id.
  2: { constructor; [constructor; [constructor|constructor]|]. constructor; [cbn; lra|constructor]. }
  cbn [prepareLoop]. unfold prepareOne. cbv zeta.
  assert (Cn : cos (calculateLambda (tp_par (te_tp e))) <> 0).
  { unfold calculateLambda. apply Rgt_not_eq. apply cos_gt_0; destruct (atan_bound (tp_par (te_tp e) TANL)); lra. }
  rewrite rdiv_ok by auto. cbn [bind].
  match goal with |- context [lossTerm ?a ?b ?c] =>
    replace (lossTerm a b c) with (@UB Rdefinitions.R) by (symmetry; exact U) end.
  reflexivity.
Qed.
Print Assumptions C36_reachable.

(** ** C37 *)

(** A rejected addition leaves everything as it was, up to the initial element
    of an empty trajectory. *)
Theorem C37_rejected : forall E t position precision surf id sc t',
  addMeasurement E t position precision surf id sc = (t', Ok false)
  \/ addScatterer E t surf = (t', Ok false) -> with_initial t t'.
Proof.
  intros E t position precision surf id sc t' [A|A];
    destruct (push_ok _ _ _ _ A) as (t1 & las & W & _ & _ & [(_ & -> & _)|(Q & _)]); auto; discriminate.
Qed.
Print Assumptions C37_rejected.

(** Whatever the outcome, only the element list changes, and old elements are
    kept in place. *)
Theorem C37_frame : forall E t position precision surf id sc t' r,
  addMeasurement E t position precision surf id sc = (t', r) \/ addScatterer E t surf = (t', r) ->
  tr_ref t' = tr_ref t /\ tr_prop t' = tr_prop t /\ tr_mass t' = tr_mass t /\ tr_isect t' = tr_isect t
  /\ exists l, tr_elems t' = tr_elems t ++ l /\ (length l <= 2)%nat.
Proof.
  assert (X : forall t new t' r, pushElement t new = (t', r) ->
    exists l, tr_elems t' = tr_elems t ++ l /\ (length l <= 2)%nat).
  { intros t new t' r H. unfold pushElement in H.
    destruct (ensureInitial t) as [t1| | | |] eqn:E0;
      try (injection H as <- <-; exists []; rewrite app_nil_r; cbn; auto; fail).
    assert (Y : exists l, tr_elems t1 = tr_elems t ++ l /\ (length l <= 1)%nat).
    { destruct (ensure_spec _ _ E0) as [[_ ->]|(Q & s & _ & ->)].
      - exists []. rewrite app_nil_r. cbn. auto.
      - rewrite Q. cbn. eexists. split; [reflexivity|]. cbn. auto. }
    destruct Y as (l & Y1 & Y2). destruct (tr_elems t1) as [|e0 l0] eqn:Q.
    - injection H as <- <-. exists l. rewrite Q. split; auto.
    - destruct (new (last l0 e0)) as [[e|]| | | |]; injection H as <- <-;
        try (exists l; rewrite Q; split; [auto|lia]; fail).
      exists (l ++ [e]). cbn [set_elems tr_elems]. rewrite ?Q, app_assoc, <- Y1, app_length. cbn. split; auto. lia. }
  intros E t position precision surf id sc t' r [A|A]; destruct (push_frame _ _ _ _ A) as (B1 & B2 & B3 & B4);
    destruct (X _ _ _ _ A) as [l L]; repeat split; eauto.
Qed.
Print Assumptions C37_frame.

(** The answer is false exactly if the search from the last element fails. *)
Theorem C37_false_iff : forall E t position precision surf id sc,
  (tr_elems t <> [] \/ exists s, calculateSfromXY 0 0 (tp_par (tr_ref t)) (tp_ref (tr_ref t)) = Ok s) ->
  let tp := from_state t in
  ((exists t', addMeasurement E t position precision surf id sc = (t', Ok false))
   <-> exists o, intersectWithSurface surf (tp_par tp) (tp_ref tp) (OVal 0 v3zero) 1 false = Ok (false, o))
  /\ ((exists t', addScatterer E t surf = (t', Ok false))
   <-> exists o, intersectWithSurface surf (tp_par tp) (tp_ref tp) (OVal 0 v3zero) 1 true = Ok (false, o)).
Proof.
  intros E t position precision surf id sc Hi tp.
  assert (Ei : exists t1 e0 l, ensureInitial t = Ok t1 /\ tr_elems t1 = e0 :: l /\ te_tp (last l e0) = tp).
  { assert (exists t1, ensureInitial t = Ok t1) as [t1 E1].
    { unfold ensureInitial, addElement. destruct (tr_elems t) eqn:Q; [|eauto].
      destruct Hi as [Hi|[s Hs]]; [contradiction|]. cbn [vx vy v3zero]. rewrite Hs. cbn [bind]. eauto. }
    destruct (ensure_last _ _ E1) as (e0 & l & Q & F & _). exists t1, e0, l. auto. }
  destruct Ei as (t1 & e0 & l & E1 & Q & F).
  assert (G : forall new, (exists t', pushElement t new = (t', Ok false)) <-> new (last l e0) = Ok None).
  { intros new. unfold pushElement. rewrite E1, Q. split.
    - intros [t' A]. destruct (new (last l e0)) as [[e|]| | | |]; try discriminate; auto.
    - intros ->. eauto. }
  unfold addMeasurement, addScatterer. rewrite !G. clear G.
  unfold newMeasurement, newScatterer. cbv zeta. rewrite F.
  split.
  - destruct (intersectWithSurface surf (tp_par tp) (tp_ref tp) (OVal 0 v3zero) 1 false)
      as [[[] [s xx|]]| | | |]; cbn [bind];
      try (split; [intros A; try discriminate; eauto | intros [o A]; try discriminate; auto]; fail).
    split; [|intros [o A]; discriminate]. intros A. exfalso.
    repeat match type of A with bind ?x _ = _ => destruct x; cbn [bind] in A; try discriminate end.
  - destruct (intersectWithSurface surf (tp_par tp) (tp_ref tp) (OVal 0 v3zero) 1 true)
      as [[[] [s xx|]]| | | |]; cbn [bind];
      try (split; [intros A; try discriminate; eauto | intros [o A]; try discriminate; auto]; fail).
    split; [|intros [o A]; discriminate]. intros A. exfalso.
    repeat match type of A with bind ?x _ = _ => destruct x; cbn [bind] in A; try discriminate end.
Qed.
Print Assumptions C37_false_iff.

(** ** C38 *)

(** The list after a call: ordered, the old entries plus one for every surface
    passed in for which the search (mode +1, with bounds) finds a crossing
    0 <= s < pi*radius, and nothing else. *)
Theorem C38_intersections : forall E t surfaces t', env_ok E ->
  getIntersectionsWithSurfaces E t surfaces = Ok t' ->
  ordered_by fst (tr_isect t')
  /\ (exists ents, Permutation (tr_isect t ++ ents) (tr_isect t') /\ all_found t surfaces ents
      /\ (forall s surf, In (s, surf) ents <-> In surf surfaces /\ found t surf s))
  /\ tr_ref t' = tr_ref t /\ tr_elems t' = tr_elems t /\ tr_mass t' = tr_mass t /\ tr_prop t' = tr_prop t.
Proof.
  intros E t surfaces t' [_ Si] H.
  destruct (intersections_spec _ _ _ _ Si H) as (ents & A & P & O & F1 & F2 & F3 & F4).
  split; auto. split; auto. exists ents. split; auto. split; auto. apply all_found_in. auto.
Qed.
Print Assumptions C38_intersections.

(** Two calls with the same surfaces: every entry twice. *)
Theorem C38_accumulates : forall E ref prop surfaces t1 t2, env_ok E ->
  getIntersectionsWithSurfaces E (mkTraj ref prop) surfaces = Ok t1 ->
  getIntersectionsWithSurfaces E t1 surfaces = Ok t2 ->
  Permutation (tr_isect t1 ++ tr_isect t1) (tr_isect t2).
Proof.
  intros E ref prop surfaces t1 t2 [_ Si] H1 H2.
  destruct (intersections_spec _ _ _ _ Si H1) as (e1 & A1 & P1 & _ & F1 & _).
  destruct (intersections_spec _ _ _ _ Si H2) as (e2 & A2 & P2 & _).
  assert (Q : e2 = e1).
  { assert (X : forall surf s, found t1 surf s <-> found (mkTraj ref prop) surf s)
      by (intros surf s; unfold found; rewrite F1; reflexivity).
    clear - A1 A2 X. revert e2 A2. induction A1 as [|surf l s ents Fd A IH|surf l ents Fd A IH]; intros e2 A2.
    - inversion A2; auto.
    - inversion A2 as [|surf' l' s' ents' Fd' A' |surf' l' ents' Fd' A']; subst.
      + f_equal; auto. f_equal. apply X in Fd'. eapply found_unique; eauto.
      + exfalso. apply (Fd' s). apply X. auto.
    - inversion A2 as [|surf' l' s' ents' Fd' A' |surf' l' ents' Fd' A']; subst; auto.
      exfalso. apply (Fd s'). apply X. auto. }
  subst e2. cbn in P1. eapply Permutation_trans; [|exact P2]. apply Permutation_app_head.
  apply Permutation_sym. auto.
Qed.
Print Assumptions C38_accumulates.

(** Zero curvature: nothing is ever found. *)
Theorem C38_straight : forall E t surfaces t', env_ok E -> tp_par (tr_ref t) OMEGA = 0 ->
  getIntersectionsWithSurfaces E t surfaces = Ok t' -> Permutation (tr_isect t) (tr_isect t').
Proof.
  intros E t surfaces t' [_ Si] Z H. destruct (intersections_spec _ _ _ _ Si H) as (ents & A & P & _).
  assert (ents = []) as ->; [|rewrite app_nil_r in P; auto].
  destruct ents as [|[s surf] ents]; auto. exfalso.
  assert (I : In (s, surf) ((s, surf) :: ents)) by (left; auto).
  apply (all_found_in _ _ _ A) in I. destruct I as [_ [_ B]].
  unfold calculateRadius, calculateCurvature in B. cbv zeta in B. rewrite Z in B.
  destruct (Req_EM_T 0 0); [|contradiction]. lra.
Qed.
Print Assumptions C38_straight.

(** A vertical plane, away from tangency: it is listed exactly if its first
    crossing ahead, within half a turn, is in bounds. *)
Theorem C38_plane : forall t surf f,
  let hp := tp_par (tr_ref t) in let rp := tp_ref (tr_ref t) in
  let P := on_plane (sf_origin surf) (sf_normal surf v3zero) in
  hp OMEGA <> 0 -> Rabs (hp PHI0) <= 2 * PI -> is_helix hp rp f ->
  ~ z_cylinder (sf_type surf) -> z_plane (sf_type surf) -> zplane_ok surf ->
  0 <= vdot (sf_origin surf) (sf_normal surf v3zero) -> tol9 < plane_margin surf hp rp ->
  (forall s, Rabs (hp OMEGA * s) = PI -> ~ P (f s)) ->
  forall s, found t surf s <->
    (Rabs (hp OMEGA * s) < PI /\ P (f s) /\ 0 <= s /\ sf_insideBounds surf (f s) = true
     /\ forall s', Rabs (hp OMEGA * s') < PI -> P (f s') -> 0 <= s' -> s <= s').
Proof.
  intros t surf f hp rp P Ho Hp Hf Tc Tp Ok1 D M N s.
  apply isZCylinder_false in Tc. apply isZPlane_iff in Tp.
  assert (I : intersectWithSurface surf hp rp (OVal 0 v3zero) 1 true
            = intersectWithZPlane surf hp rp (OVal 0 v3zero) 1 true)
    by (unfold intersectWithSurface; cbv zeta; rewrite Tc, Tp; auto).
  unfold found. fold hp rp. rewrite I.
  assert (Rd : forall s, 0 <= s -> Rabs (hp OMEGA * s) < PI -> s < PI * calculateRadius hp).
  { intros u U V. rewrite (radius_eq hp Ho). unfold Rdiv. rewrite Rmult_1_l, Rabs_inv.
    assert (0 < Rabs (hp OMEGA)) by (apply Rabs_pos_lt; auto).
    rewrite Rabs_mult, (Rabs_pos_eq u) in V by auto.
    apply Rmult_lt_reg_l with (Rabs (hp OMEGA)); auto. 
    replace (Rabs (hp OMEGA) * (PI * / Rabs (hp OMEGA))) with PI by (field; lra). auto. }
  destruct (C15_zplane_complete surf hp rp (OVal 0 v3zero) 1 true f Ho Hp Hf Ok1 D M N)
    as [(s1 & b & Pk & B & Q)|(Nf & Q)]; rewrite Q.
  - destruct (pk_pos _ _ _ _ Pk ltac:(lia)) as [P1 P2]. destruct (pk_in _ _ _ _ Pk) as [P3 P4]. split.
    + intros [[xx A] R]. injection A as -> <- <-. split; auto. split; auto. split; auto.
      split; [apply B; auto|]. intros s' A1 A2 A3. apply P2; auto. split; auto.
    + intros (A1 & A2 & A3 & A4 & A5).
      assert (s1 = s) by (apply Rle_antisym; [apply P2; [split; auto|auto]|apply A5; auto]). subst s1.
      split; [|split; auto]. exists (f s). rewrite (proj2 B); auto.
  - split.
    + intros [[xx A] R]. discriminate.
    + intros (A1 & A2 & A3 & _). exfalso. destruct (Nf s (conj A1 A2)) as [[_ L]|[L _]]; [lra|lia].
Qed.
Print Assumptions C38_plane.

(** So a surface can be missed although it has an in-bounds crossing in the
    range: the plane x = 1/2, bounded to y < -1, is crossed first at pi/6
    (out of bounds), then at 5pi/6. *)
Theorem C38_second_crossing_refuted : exists E t surf f s t',
  env_ok E /\ tp_par (tr_ref t) OMEGA <> 0 /\ is_helix (tp_par (tr_ref t)) (tp_ref (tr_ref t)) f
  /\ 0 <= s < PI * calculateRadius (tp_par (tr_ref t))
  /\ on_plane (sf_origin surf) (sf_normal surf v3zero) (f s)
  /\ sf_insideBounds surf (f s) = true
  /\ getIntersectionsWithSurfaces E t [surf] = Ok t' /\ tr_isect t' = [].
Proof.
  set (surf := Surf 0 plane_type None (fun x => if Rlt_dec (vy x) (-1) then true else false)
    (fun _ => v3zero) (fun _ => v3zero) (fun _ => V3 1 0 0)
    (fun _ => (0, 0)) (fun _ => v3zero) (V3 (1 / 2) 0 0) (Mat 1 1 1 1) (Mat 1 1 1 1) 0 0 (fun x => vx x - 1 / 2)).
  set (f := fun s => V3 (sin s) (cos s - 1) s).
  assert (Hf : is_helix (tp_par ex_ref) (tp_ref ex_ref) f) by apply ex_helix.
  assert (Hok : zplane_ok surf).
  { unfold zplane_ok. cbn. split; auto. left. rewrite Rabs_R1. unfold eps12, tol12. lra. }
  assert (Hm : eps9 < plane_margin surf (tp_par ex_ref) (tp_ref ex_ref)).
  { unfold plane_margin, overlap, hcircle, pline, surf, vdot. cbn. rewrite sin_0, cos_0.
    replace (1 / 1) with 1 by field. rewrite Rabs_R1. rewrite (Rabs_pos_eq (1 / 2 * 1 + 0 * 0 + 0 * 0)) by lra.
    unfold eps9, tol9. lra. }
  assert (Hd : 0 <= vdot (sf_origin surf) (sf_normal surf v3zero)) by (unfold vdot; cbn; lra).
  assert (Pf : forall s, on_plane (sf_origin surf) (sf_normal surf v3zero) (f s) <-> sin s = 1 / 2).
  { intros s. unfold on_plane, vdot, vsub. cbn. split; lra. }
  assert (Ho : tp_par ex_ref OMEGA <> 0) by (cbn; lra).
  assert (Hp : Rabs (tp_par ex_ref PHI0) <= 2 * PI) by (cbn; rewrite Rabs_R0; generalize PI_pos; lra).
  assert (Hn : forall s, Rabs (tp_par ex_ref OMEGA * s) = PI ->
    ~ on_plane (sf_origin surf) (sf_normal surf v3zero) (f s)).
  { intros s A. rewrite Pf. change (tp_par ex_ref OMEGA) with 1 in A. rewrite Rmult_1_l in A.
    assert (sin s = 0); [|lra]. unfold Rabs in A. destruct (Rcase_abs s).
    - replace s with (- PI) by lra. rewrite sin_neg, sin_PI. lra.
    - rewrite A. apply sin_PI. }
  assert (Pp := PI_pos).
  assert (S1 : sin (PI / 6) = 1 / 2) by apply sin_PI6.
  assert (S5 : sin (5 * PI / 6) = 1 / 2).
  { replace (5 * PI / 6) with (PI - PI / 6) by field. rewrite sin_PI_x. auto. }
  assert (C5 : cos (5 * PI / 6) < 0).
  { replace (5 * PI / 6) with (PI - PI / 6) by field. rewrite cos_minus, cos_PI, sin_PI.
    assert (0 < cos (PI / 6)) by (apply cos_gt_0; lra). lra. }
  assert (NF : forall s, ~ found (ex_traj None) surf s).
  { intros s Fd. apply (C38_plane (ex_traj None) surf f Ho Hp Hf (proj1 (isZCylinder_false plane_type) eq_refl) (conj eq_refl eq_refl) Hok Hd Hm Hn s) in Fd.
    cbn [ex_traj mkTraj tr_ref] in Fd. change (tp_par ex_ref OMEGA) with 1 in Fd.
    destruct Fd as (A1 & A2 & A3 & A4 & A5). rewrite Rmult_1_l in A1.
    assert (s <= PI / 6).
    { apply A5; [|apply Pf; auto|lra]. rewrite Rmult_1_l, Rabs_pos_eq; lra. }
    cbn [surf sf_insideBounds f vy] in A4. destruct (Rlt_dec (cos s - 1) (-1)) as [L|L]; [|discriminate].
    assert (0 < cos s) by (apply cos_gt_0; lra). lra. }
  destruct (isectOne (ex_traj None) (PI * Rabs (calculateRadius (tp_par (tr_ref (ex_traj None))))) [] surf)
    as [acc| | | |] eqn:I.
  2,3,4,5: exfalso; unfold isectOne in I; cbn [ex_traj mkTraj tr_ref] in I;
    assert (Q : intersectWithSurface surf (tp_par ex_ref) (tp_ref ex_ref) (OVal 0 v3zero) 1 true
      = intersectWithZPlane surf (tp_par ex_ref) (tp_ref ex_ref) (OVal 0 v3zero) 1 true) by reflexivity;
    rewrite Q in I;
    destruct (C15_zplane_complete surf (tp_par ex_ref) (tp_ref ex_ref) (OVal 0 v3zero) 1 true f Ho Hp Hf Hok Hd Hm Hn)
      as [(s1 & b & _ & _ & Q1)|(_ & Q1)]; rewrite Q1 in I; discriminate.
  exists ex_env, (ex_traj None), surf, f, (5 * PI / 6), (set_isect (ex_traj None) (isort fst acc)).
  split; [apply ex_env_ok|]. split; auto. split; auto. split.
  { cbn [ex_traj mkTraj tr_ref]. rewrite radius_eq by auto. change (tp_par ex_ref OMEGA) with 1.
    replace (1 / 1) with 1 by field. rewrite Rabs_R1. lra. }
  split; [apply Pf; auto|]. split.
  { cbn [surf sf_insideBounds f vy]. destruct (Rlt_dec (cos (5 * PI / 6) - 1) (-1)); auto. lra. }
  assert (A : acc = []).
  { destruct (isectOne_spec _ _ _ _ I) as [(s & Fd & _)|(_ & Q)]; auto. exfalso. eapply NF; eauto. }
  unfold getIntersectionsWithSurfaces. cbv zeta. cbn [isectAll]. 
  change (tr_isect (ex_traj None)) with (@nil (R * surface)). rewrite I, A. split; reflexivity.
Qed.
Print Assumptions C38_second_crossing_refuted.

(** ** C39 *)

(** The state stored by an addition is the last state moved to the crossing
    point, with the curvature divided by 1 - dE/E; the energy loss is evaluated
    for the hit position (measurements) or the crossing point (scatterers),
    with the momentum of the moved state. *)
Theorem C39_energy_loss : forall E t position precision surf id sc t',
  addMeasurement E t position precision surf id sc = (t', Ok true)
  \/ addScatterer E t surf = (t', Ok true) ->
  exists t1 e s0 xx uv mv fid mom dE En beta,
    with_initial t t1 /\ extended t1 t' e
    /\ ((addMeasurement E t position precision surf id sc = (t', Ok true) /\ uv = sf_globalToLocal surf position
         /\ intersectWithSurface surf (tp_par (from_state t)) (tp_ref (from_state t))
              (OVal 0 v3zero) 1 false = Ok (true, OVal s0 xx))
        \/ (addScatterer E t surf = (t', Ok true) /\ uv = sf_globalToLocal surf xx
            /\ intersectWithSurface surf (tp_par (from_state t)) (tp_ref (from_state t))
                 (OVal 0 v3zero) 1 true = Ok (true, OVal s0 xx)))
    /\ moveHelixTo (from_state t) xx false = Ok (mv, fid)
    /\ momentumAtPCA (en_gfield E) (tp_par mv) (tp_ref mv) = Ok mom
    /\ computeEnergyLoss_uv surf uv mom (tr_mass t) = Ok (EL dE En beta)
    /\ En <> 0 /\ 1 - dE / En <> 0
    /\ tp_ref (te_tp e) = tp_ref mv /\ tp_cov (te_tp e) = tp_cov mv
    /\ (forall i, i <> OMEGA -> tp_par (te_tp e) i = tp_par mv i)
    /\ tp_par (te_tp e) OMEGA = tp_par mv OMEGA / (1 - dE / En).
Proof.
  assert (X : forall E mass las surf cb sc meas elUV e s0 xx moved fid mom el,
    built E mass las surf cb sc meas elUV e s0 xx moved fid mom el ->
    el_energy el <> 0 /\ 1 - el_deltaE el / el_energy el <> 0
    /\ tp_ref (te_tp e) = tp_ref moved /\ tp_cov (te_tp e) = tp_cov moved
    /\ (forall i, i <> OMEGA -> tp_par (te_tp e) i = tp_par moved i)
    /\ tp_par (te_tp e) OMEGA = tp_par moved OMEGA / (1 - el_deltaE el / el_energy el)).
  { intros E mass las surf cb sc meas elUV e s0 xx moved fid mom el B.
    assert (A := bu_tp _ _ _ _ _ _ _ _ _ _ _ _ _ _ _ B). apply applyLoss_spec in A.
    destruct A as (A1 & A2 & ->). cbn [tp_ref tp_cov tp_par]. split; auto. split; auto. split; auto.
    split; auto. split.
    - intros i Hi. unfold v5set. destruct (idx_eq_dec i OMEGA); [contradiction|auto].
    - unfold v5set. destruct (idx_eq_dec OMEGA OMEGA); [auto|contradiction]. }
  intros E t position precision surf id sc t' [A|A];
    destruct (push_ok _ _ _ _ A) as (t1 & las & W & F1 & F2 & [(Q & _)|(_ & e & Xt & N)]); try discriminate.
  - destruct (newMeasurement_spec _ _ _ _ _ _ _ _ _ N) as (s0 & xx & mv & fid & mom & [dE En be] & B & _).
    destruct (X _ _ _ _ _ _ _ _ _ _ _ _ _ _ _ B) as (X1 & X2 & X3 & X4 & X5 & X6).
    exists t1, e, s0, xx, (sf_globalToLocal surf position), mv, fid, mom, dE, En, be.
    split; auto. split; auto. rewrite <- F1.
    split; [left; split; [exact A|split; [auto|apply (bu_isect _ _ _ _ _ _ _ _ _ _ _ _ _ _ _ B)]]|].
    split; [apply (bu_move _ _ _ _ _ _ _ _ _ _ _ _ _ _ _ B)|].
    split; [apply (bu_mom _ _ _ _ _ _ _ _ _ _ _ _ _ _ _ B)|].
    split; [apply (bu_loss _ _ _ _ _ _ _ _ _ _ _ _ _ _ _ B)|]. auto 10.
  - destruct (newScatterer_spec _ _ _ _ _ N) as (s0 & xx & mv & fid & mom & [dE En be] & B & _).
    destruct (X _ _ _ _ _ _ _ _ _ _ _ _ _ _ _ B) as (X1 & X2 & X3 & X4 & X5 & X6).
    exists t1, e, s0, xx, (sf_globalToLocal surf xx), mv, fid, mom, dE, En, be.
    split; auto. split; auto. rewrite <- F1.
    split; [right; split; [exact A|split; [auto|apply (bu_isect _ _ _ _ _ _ _ _ _ _ _ _ _ _ _ B)]]|].
    split; [apply (bu_move _ _ _ _ _ _ _ _ _ _ _ _ _ _ _ B)|].
    split; [apply (bu_mom _ _ _ _ _ _ _ _ _ _ _ _ _ _ _ B)|].
    split; [apply (bu_loss _ _ _ _ _ _ _ _ _ _ _ _ _ _ _ B)|]. auto 10.
Qed.
Print Assumptions C39_energy_loss.

(** Consequences for the curvature [om] of the state an addition starts from,
    in terms of the energy loss and the energy. *)
Theorem C39_curvature : forall E t surf t' position precision id sc,
  let om := tp_par (from_state t) OMEGA in om <> 0 ->
  addMeasurement E t position precision surf id sc = (t', Ok true)
  \/ addScatterer E t surf = (t', Ok true) ->
  exists t1 e dE En, with_initial t t1 /\ extended t1 t' e /\ 0 < En
    /\ (exists uv mom be, computeEnergyLoss_uv surf uv mom (tr_mass t) = Ok (EL dE En be))
    /\ let om' := tp_par (te_tp e) OMEGA in
       om' * (1 - dE / En) = om
       /\ (dE < En -> 0 < om' * om)
       /\ (En < dE -> om' * om < 0)
       /\ (0 <= dE < En -> Rabs om <= Rabs om')
       /\ (dE = 0 -> om' = om).
Proof.
  intros E t surf t' position precision id sc om Ho A.
  destruct (C39_energy_loss E t position precision surf id sc t') as
    (t1 & e & s0 & xx & uv & mv & fid & mom & dE & En & be & W & Xt & _ & Mv & _ & L & N1 & N2 & _ & _ & _ & Om).
  { exact A. }
  destruct (move_ok (from_state t) xx Ho) as (p' & fid' & M & Sp & _). rewrite Mv in M. injection M as -> ->.
  cbn [tp_par] in Om. rewrite (ms_om _ _ _ _ Sp) in Om. fold om in Om.
  assert (Ep : 0 < En).
  { assert (G : 0 <= En).
    { unfold computeEnergyLoss_uv in L. cbv zeta in L. dres L. dres L. dres L. dres L. dres L. dres L.
      injection L as _ <- _. apply sqrt_pos. }
    lra. }
  exists t1, e, dE, En. split; auto. split; auto. split; auto. split; [eauto|].
  cbv zeta. rewrite Om. set (q := 1 - dE / En) in *.
  assert (Eq : om / q * q = om) by (field; auto). split; auto.
  assert (P : dE < En -> 0 < q).
  { intros G. unfold q. apply Rmult_lt_reg_r with En; auto. rewrite Rmult_0_l.
    replace ((1 - dE / En) * En) with (En - dE) by (field; auto). lra. }
  assert (Q : En < dE -> q < 0).
  { intros G. unfold q. apply Rmult_lt_reg_r with En; auto. rewrite Rmult_0_l.
    replace ((1 - dE / En) * En) with (En - dE) by (field; auto). lra. }
  assert (S : om / q * om = om * om * / q) by (field; auto).
  assert (Sq : 0 < om * om) by (apply Rsqr_pos_lt; auto).
  split.
  { intros G. rewrite S. apply Rmult_lt_0_compat; auto. apply Rinv_0_lt_compat. auto. }
  split.
  { intros G. rewrite S. assert (/ q < 0) by (apply Rinv_lt_0_compat; auto). nra. }
  split.
  - intros [G1 G2]. specialize (P G2).
    assert (q <= 1).
    { unfold q. assert (0 <= dE / En) by (apply Rmult_le_pos; [auto|left; apply Rinv_0_lt_compat; auto]). lra. }
    rewrite <- Eq at 1. rewrite Rabs_mult, (Rabs_pos_eq q) by lra. assert (0 <= Rabs (om / q)) by apply Rabs_pos. nra.
  - intros ->. unfold q. unfold Rdiv. rewrite Rmult_0_l, Rminus_0_r, Rinv_1. ring.
Qed.
Print Assumptions C39_curvature.

(** ** C41 *)

(** Precisions stored with a measurement.  The fit uses the first two. *)
Theorem C41_precisions : forall E t position precision surf id sc t',
  addMeasurement E t position precision surf id sc = (t', Ok true) ->
  exists t1 e, with_initial t t1 /\ extended t1 t' e /\ te_meas e = true /\ te_scat e = sc
    /\ (sc = false -> forall p, precision = [p] -> te_prec e = [Some p; Some 0])
    /\ (sc = false -> length precision <> 1%nat -> te_prec e = map Some precision)
    /\ (sc = true -> exists s0 xx mv fid mom q,
         intersectWithSurface surf (tp_par (from_state t)) (tp_ref (from_state t))
             (OVal 0 v3zero) 1 false = Ok (true, OVal s0 xx)
         /\ moveHelixTo (from_state t) xx false = Ok (mv, fid)
         /\ momentumAtPCA (en_gfield E) (tp_par mv) (tp_ref mv) = Ok mom
         /\ (forall x, computeQMS_uv surf (sf_globalToLocal surf xx) mom (tr_mass t) = Ok x -> q = Some (x * x))
         /\ (computeQMS_uv surf (sf_globalToLocal surf xx) mom (tr_mass t) = NonFin -> q = None)
         /\ te_prec e = map Some precision ++ [q; Some 0; Some 0]).
Proof.
  intros E t position precision surf id sc t' A.
  destruct (push_ok _ _ _ _ A) as (t1 & las & W & F1 & F2 & [(Q & _)|(_ & e & Xt & N)]); try discriminate.
  destruct (newMeasurement_spec _ _ _ _ _ _ _ _ _ N)
    as (s0 & xx & mv & fid & mom & el & B & _ & _ & _ & pl & Pl & Pr).
  exists t1, e. split; auto. split; auto.
  split; [apply (bu_meas _ _ _ _ _ _ _ _ _ _ _ _ _ _ _ B)|].
  split; [apply (bu_scat _ _ _ _ _ _ _ _ _ _ _ _ _ _ _ B)|].
  destruct Pl as [[-> ->]|[-> (q & Hq & ->)]].
  - split; [intros _ p ->; auto|]. split; [|discriminate].
    intros _ L. rewrite Pr. destruct precision as [|p [|p' l]]; auto. exfalso. apply L. auto.
  - split; [discriminate|]. split; [discriminate|]. intros _. exists s0, xx, mv, fid, mom, q. rewrite <- F1.
    split; [apply (bu_isect _ _ _ _ _ _ _ _ _ _ _ _ _ _ _ B)|].
    split; [apply (bu_move _ _ _ _ _ _ _ _ _ _ _ _ _ _ _ B)|].
    split; [apply (bu_mom _ _ _ _ _ _ _ _ _ _ _ _ _ _ _ B)|].
    split; [intros x Hx; rewrite Hx in Hq; injection Hq as <-; auto|].
    split; [intros Hx; rewrite Hx in Hq; injection Hq as <-; auto|].
    rewrite Pr. destruct precision as [|p [|p' l]]; auto.
Qed.
Print Assumptions C41_precisions.

(** Hence for a one-dimensional scattering measurement the second precision is
    the squared angle: positive, unless the angle is 0 or not finite. *)
Theorem C41_one_dimensional_scatterer : forall E t position p surf id t',
  addMeasurement E t position [p] surf id true = (t', Ok true) ->
  exists t1 e q, with_initial t t1 /\ extended t1 t' e
    /\ te_prec e = [Some p; q; Some 0; Some 0]
    /\ (forall w, q = Some w -> exists uv mom x,
          computeQMS_uv surf uv mom (tr_mass t) = Ok x /\ w = x * x /\ (x <> 0 -> 0 < w)).
Proof.
  intros E t position p surf id t' A.
  destruct (push_ok _ _ _ _ A) as (t1 & las & W & F1 & F2 & [(Q & _)|(_ & e & Xt & N)]); try discriminate.
  destruct (newMeasurement_spec _ _ _ _ _ _ _ _ _ N)
    as (s0 & xx & mv & fid & mom & el & B & _ & _ & _ & pl & [[Q _]|[_ (q & Hq & ->)]] & Pr); [discriminate|].
  exists t1, e, q. split; auto. split; auto. split; auto.
  intros w ->. exists (sf_globalToLocal surf xx), mom.
  destruct (computeQMS_uv surf (sf_globalToLocal surf xx) mom (tr_mass t)) as [x| | | |]; try discriminate.
  exists x. split; auto. injection Hq as <-. split; auto. intros Nx. apply Rsqr_pos_lt. auto.
Qed.
Print Assumptions C41_one_dimensional_scatterer.
