(** C79: the surfaces listed by getIntersectionsWithSurfaces, added in that
    order, are accepted where they were listed. *)
From Coq Require Import Reals List Bool ZArith Lra Lia Permutation Sorted.
From Verif Require Import SpecConst Num Vec Helix Isect Trans Material Traj.
From Verif Require Import NumFacts SpecHelix HelixFacts PathFacts MoveFacts SpecIsect SurfFacts SurfFacts2 SpecTraj SpecSmooth TrajFacts TrajFacts2 TrajFacts3 TrajFacts4 SmoothFacts SpecListed ListedFacts TrajEx.
Import ListNotations.
Open Scope R_scope.

(** The search from a later point of the same track finds the crossing the
    search from the start found, unless the point half a turn further is on the
    surface too.  Disks must be ahead of the point. *)
Theorem C79_search : forall surf hp rp hp' rp' f g a s x o o' cb,
  hp OMEGA <> 0 -> Rabs (hp PHI0) <= 2 * PI -> Rabs (hp' PHI0) <= 2 * PI ->
  is_helix hp rp f -> is_helix hp' rp' g -> hp' OMEGA = hp OMEGA -> (forall u, g u = f (a + u)) ->
  wf_surface surf -> regular surf hp rp -> not_opposite f (hp OMEGA) a surf ->
  0 <= a <= s -> (disk surf -> a < s) ->
  intersectWithSurface surf hp rp o 1 true = Ok (true, OVal s x) ->
  intersectWithSurface surf hp' rp' o' 1 cb = Ok (true, OVal (s - a) (f s)) /\ x = f s.
Proof.
  intros surf hp rp hp' rp' f g a s x o o' cb A B C D F G H I J K L M N.
  exact (later_search hp rp hp' rp' f g a A B C D F G H surf s x o o' cb I J K L M N).
Qed.
Print Assumptions C79_search.

(** A listed surface that is not behind the last element: adding it (as a
    measurement or as a scatterer) is never refused, and if the call returns,
    the element lies where the surface was listed.  The surfaces used before
    are without material; this one may have some. *)
Theorem C79_next : forall E ref prop cs t f s0 surf s c t' r, env_ok E ->
  tp_par ref OMEGA <> 0 -> Rabs (tp_par ref PHI0) <= 2 * PI -> is_helix (tp_par ref) (tp_ref ref) f ->
  history E bare (mkTraj ref prop) cs t -> calculateSfromXY 0 0 (tp_par ref) (tp_ref ref) = Ok s0 ->
  found (mkTraj ref prop) surf s -> wf_surface surf -> regular surf (tp_par ref) (tp_ref ref) ->
  reached t s0 <= s -> (disk surf -> reached t s0 < s) ->
  not_opposite f (tp_par ref OMEGA) (reached t s0) surf ->
  adds E t surf c t' r ->
  r <> Ok false
  /\ (r = Ok true -> exists t1 e, with_initial t t1 /\ extended t1 t' e /\ te_surf e = Some surf
        /\ te_s e = s + s0 /\ tp_ref (te_tp e) = f s).
Proof.
  intros E ref prop cs t f s0 surf s c t' r A B C D F G H I J K L M N.
  exact (proj2 (listed_next E ref prop cs t f s0 surf s c t' r A B C D F G H I J K L M N)).
Qed.
Print Assumptions C79_next.

(** The usual program: list the surfaces, then one addition per entry in the
    order of the list.  After any number of entries, every element is the
    initial one or lies where its entry says, and the next entry is not
    refused. *)
Theorem C79_in_order : forall E ref prop surfaces t1 f s0 done s surf rest t, env_ok E ->
  tp_par ref OMEGA <> 0 -> Rabs (tp_par ref PHI0) <= 2 * PI -> is_helix (tp_par ref) (tp_ref ref) f ->
  getIntersectionsWithSurfaces E (mkTraj ref prop) surfaces = Ok t1 ->
  calculateSfromXY 0 0 (tp_par ref) (tp_ref ref) = Ok s0 ->
  (forall surf, In surf surfaces -> wf_surface surf /\ thin surf /\ regular surf (tp_par ref) (tp_ref ref)) ->
  disks_apart (tr_isect t1) ->
  (forall a s surf, a = 0 \/ In a (map fst (tr_isect t1)) -> In (s, surf) (tr_isect t1) -> a <= s ->
     not_opposite f (tp_par ref OMEGA) a surf) ->
  tr_isect t1 = done ++ (s, surf) :: rest -> fed E t1 done t ->
  List.Forall (located f s0 done) (tr_elems t)
  /\ forall c t' r, adds E t surf c t' r ->
       r <> Ok false
       /\ (r = Ok true -> exists t2 e, with_initial t t2 /\ extended t2 t' e /\ te_surf e = Some surf
             /\ te_s e = s + s0 /\ tp_ref (te_tp e) = f s).
Proof.
  intros E ref prop surfaces t1 f s0 done s surf rest t Ek Ho Hp Hf Li S0 Sf Da Op Eq Fe.
  destruct (fed_history E ref prop surfaces t1 f s0 Ek Ho Hp Hf Li S0 Sf Da Op done t Fe _ Eq) as [[cs H] L].
  split; auto. intros c t' r A.
  exact (proj2 (fed_step E ref prop surfaces t1 f s0 Ek Ho Hp Hf Li S0 Sf Da Op done s surf rest t cs c t' r Eq H L A)).
Qed.
Print Assumptions C79_in_order.

(** ** Instances *)
Lemma ex_found h th : 0 < h <= 3 -> found (ex_traj None) (ex_station h th (fun _ => true)) h.
Proof.
  intros Hh. split.
  - exists (hcurve (tp_par ex_ref) (tp_ref ex_ref) h). cbn [ex_traj mkTraj tr_ref].
    rewrite station_isect; [|cbn; lra|cbn; lra].
    replace ((h - (vz (tp_ref ex_ref) + tp_par ex_ref Z0)) / tp_par ex_ref TANL) with h by (cbn; field).
    assert (M : mode_ok 1 h = true) by (apply mode_ok_iff; split; intros; [lra|lia]).
    rewrite M. reflexivity.
  - split; [lra|]. cbn [ex_traj mkTraj tr_ref]. rewrite radius_eq by (cbn; lra). cbn.
    replace (1 / 1) with 1 by field. rewrite Rabs_R1, Rmult_1_r. generalize PI2_3_2. unfold PI2. lra.
Qed.

Lemma ex_not_opposite h th a : 0 <= a <= h -> h <= 3 ->
  not_opposite (hcurve (tp_par ex_ref) (tp_ref ex_ref)) (tp_par ex_ref OMEGA) a (ex_station h th (fun _ => true)).
Proof.
  intros A B u U [(rho & c & X & _)|[(_ & X & _)|[(_ & _ & X)|(X & _)]]]; try discriminate.
  unfold hcurve in X. cbn in X, U. rewrite Rmult_1_l in U.
  assert (u = h) by lra. subst u. rewrite Rabs_pos_eq in U by lra. generalize PI2_3_2. unfold PI2. lra.
Qed.

Definition yes (x : vec3) : bool := true.
Notation flat h := (ex_station h 0 yes).

(** after a first hit on a disk at height [h] *)
Lemma ex_after h t0 : 0 < h <= 3 -> tr_elems t0 = [] -> tr_ref t0 = ex_ref -> tr_mass t0 = pionMass ->
  exists e, addMeasurement ex_env t0 v3zero [1; 1] (flat h) 7 false = (set_elems t0 [ex_initial; e], Ok true)
    /\ tp_par (te_tp e) OMEGA <> 0 /\ tp_par (te_tp e) TANL = 1
    /\ vz (tp_ref (te_tp e)) + tp_par (te_tp e) Z0 = h.
Proof.
  intros Hh E0 R0 M0. destruct (station_new ex_initial pionMass h yes pion_pos) as [K HK]; [cbn; lra|cbn; lra|cbn; lra|].
  destruct (HK 0) as [HM _]; [lra|lra|]. destruct (HM v3zero [1; 1] 7%Z false) as [e He].
  exists e. split.
  - unfold addMeasurement, pushElement, ensureInitial. rewrite E0. unfold addElement. rewrite R0, E0. cbn [v3zero vx vy].
    change (V3 0 0 0) with v3zero. fold ex_ref. rewrite ex_first. cbn [bind app set_elems tr_elems last].
    fold ex_initial. rewrite M0, He. reflexivity.
  - destruct (newMeasurement_spec _ _ _ _ _ _ _ _ _ He) as (s0 & xx & moved & fid & mom & el & B & _).
    assert (Bi := bu_isect _ _ _ _ _ _ _ _ _ _ _ _ _ _ _ B).
    rewrite station_isect in Bi; [|cbn; lra|cbn; lra]. injection Bi as _ Es Ex.
    replace ((h - (vz (tp_ref (te_tp ex_initial)) + tp_par (te_tp ex_initial) Z0)) / tp_par (te_tp ex_initial) TANL)
      with h in Es, Ex by (cbn; field).
    destruct (built_facts _ _ _ _ _ _ _ _ _ _ _ _ _ _ _ B) as (_ & _ & _ & _ & _ & _ & _ & O & T & _ & _ & _ & _ & _ & Z & Rf & _).
    + cbn; lra.
    + cbn. rewrite Rabs_R0. generalize PI_RGT_0; lra.
    + apply station_wf.
    + split; auto. split; [rewrite T; reflexivity|].
      assert (Hs : s0 = h) by (rewrite <- Es; cbn; field). rewrite Hs in *.
      rewrite Z, Rf, <- Ex.
      * cbn. field.
      * cbn. rewrite Rmult_1_l, Rabs_pos_eq by lra. generalize PI2_3_2. unfold PI2. lra.
Qed.

Lemma ex_one acc h : 0 < h <= 3 ->
  isectOne (mkTraj ex_ref None) (PI * Rabs (calculateRadius (tp_par ex_ref))) acc (flat h) = Ok (acc ++ [(h, flat h)]).
Proof.
  intros Hh. destruct (ex_found h 0 Hh) as [[x Q] [L1 L2]]. unfold isectOne. cbn [tr_ref mkTraj ex_traj] in *.
  change (fun _ : vec3 => true) with yes in Q. rewrite Q. cbn [bind].
  destruct (Rle_dec 0 h); [|lra]. rewrite Rabs_pos_eq.
  - destruct (Rlt_dec h (PI * calculateRadius (tp_par ex_ref))); [reflexivity|contradiction].
  - unfold calculateRadius. cbv zeta. destruct (Req_EM_T _ _); [lra|apply Rabs_pos].
Qed.

Lemma ex_listing h1 h2 : 0 < h1 <= h2 -> h2 <= 3 ->
  exists t1, getIntersectionsWithSurfaces ex_env (mkTraj ex_ref None) [flat h1; flat h2] = Ok t1
  /\ tr_isect t1 = [(h1, flat h1); (h2, flat h2)] /\ tr_elems t1 = [] /\ tr_ref t1 = ex_ref /\ tr_mass t1 = pionMass.
Proof.
  intros A B. unfold getIntersectionsWithSurfaces. cbv zeta. cbn [isectAll].
  change (tr_ref (mkTraj ex_ref None)) with ex_ref. rewrite ex_one by lra. cbn [bind]. rewrite ex_one by lra. cbn [bind].
  eexists. split; [reflexivity|]. split; [|split; [reflexivity|split; reflexivity]].
  cbn [set_isect tr_isect mkTraj app ex_env en_sortI]. apply isort_id.
  constructor; [constructor; [constructor|constructor]|]. constructor; [cbn; lra|constructor].
Qed.

(** the program of C79_in_order on two disks: everything is accepted *)
Example C79_instance : exists t1 t s2 c t',
  let surfaces := [flat 1; flat 2] in
  getIntersectionsWithSurfaces ex_env (mkTraj ex_ref None) surfaces = Ok t1
  /\ tr_isect t1 = [(1, flat 1)] ++ (2, flat 2) :: []
  /\ (forall surf, In surf surfaces -> wf_surface surf /\ thin surf /\ regular surf (tp_par ex_ref) (tp_ref ex_ref))
  /\ disks_apart (tr_isect t1)
  /\ (forall a s surf, a = 0 \/ In a (map fst (tr_isect t1)) -> In (s, surf) (tr_isect t1) -> a <= s ->
       not_opposite (hcurve (tp_par ex_ref) (tp_ref ex_ref)) (tp_par ex_ref OMEGA) a surf)
  /\ fed ex_env t1 [(1, flat 1)] t /\ s2 = flat 2
  /\ adds ex_env t s2 c t' (Ok true) /\ length (tr_elems t') = 3%nat.
Proof.
  destruct (ex_listing 1 2) as (t1 & L1 & L2 & L3 & L4 & L5); [lra|lra|].
  destruct (ex_after 1 t1) as (e & A & O & T & Z); auto; [lra|].
  destruct (station_new e pionMass 2 yes pion_pos) as [K HK]; auto; [lra|rewrite Z, T; lra|].
  destruct (HK 0) as [HM _]; [lra|lra|]. destruct (HM v3zero [1; 1] 8%Z false) as [e2 He].
  exists t1, (set_elems t1 [ex_initial; e]), (flat 2), (CMeas v3zero [1; 1] (flat 2) 8 false),
    (set_elems t1 [ex_initial; e; e2]). cbv zeta.
  split; [exact L1|]. split; [exact L2|]. split; [|split; [|split; [|split; [|split; [reflexivity|split; [|reflexivity]]]]]].
  - intros surf [<-|[<-|[]]]; (split; [apply station_wf|split; [split; reflexivity|split; [right; cbn; auto|]]]);
      intros _ X; discriminate.
  - rewrite L2. intros l1 l2 s surf Q _. destruct l1 as [|x [|y [|z l1]]]; cbn in Q.
    + intros [].
    + injection Q as <- <- _ _. cbn. lra.
    + discriminate.
    + discriminate.
  - rewrite L2. intros a s surf Ha [Q|[Q|[]]] Le; injection Q as <- <-; apply ex_not_opposite;
      cbn in Ha; try lra; (destruct Ha as [Ha|[Ha|[Ha|[]]]]; lra).
  - change [(1, flat 1)] with ([] ++ [(1, flat 1)]). eapply fed_snoc; [constructor| |left; eauto].
    apply adds_meas. exact A.
  - apply adds_meas. unfold addMeasurement, pushElement, ensureInitial. cbn [set_elems tr_elems last tr_mass].
    rewrite L5, He. reflexivity.
Qed.

(** The order matters: of two listed surfaces, added farthest first, the nearer
    one is refused. *)
Theorem C79_any_order_refuted : exists E ref prop surfaces t1 s2 surf2 s1 surf1 t t',
  getIntersectionsWithSurfaces E (mkTraj ref prop) surfaces = Ok t1
  /\ In (s1, surf1) (tr_isect t1) /\ In (s2, surf2) (tr_isect t1) /\ s1 < s2
  /\ adds E t1 surf2 (CMeas v3zero [1; 1] surf2 7 false) t (Ok true)
  /\ adds E t surf1 (CMeas v3zero [1; 1] surf1 8 false) t' (Ok false).
Proof.
  destruct (ex_listing 1 2) as (t1 & L1 & L2 & L3 & L4 & L5); [lra|lra|].
  destruct (ex_after 2 t1) as (e & A & O & T & Z); auto; [lra|].
  exists ex_env, ex_ref, None, [flat 1; flat 2], t1, 2, (flat 2), 1, (flat 1), (set_elems t1 [ex_initial; e]),
    (set_elems t1 [ex_initial; e]).
  split; [exact L1|]. rewrite L2. split; [left; auto|]. split; [right; left; auto|]. split; [lra|].
  split; [apply adds_meas; exact A|]. apply adds_meas. unfold addMeasurement, pushElement, ensureInitial.
  cbn [set_elems tr_elems last tr_mass]. unfold newMeasurement. cbv zeta.
  rewrite station_isect by (auto; lra). rewrite Z, T. replace ((1 - 2) / 1) with (-1) by field.
  assert (M : mode_ok 1 (-1) = false).
  { apply not_true_is_false. intros M. apply mode_ok_iff in M. destruct M as [M _]. specialize (M ltac:(lia)). lra. }
  rewrite M. reflexivity.
Qed.
Print Assumptions C79_any_order_refuted.

(** Two listed disks at the same height: the second one is refused, although
    the entries are taken in order. *)
Theorem C79_same_height_refuted : exists E ref prop surfaces t1 s surf t t',
  getIntersectionsWithSurfaces E (mkTraj ref prop) surfaces = Ok t1
  /\ tr_isect t1 = [(s, surf); (s, surf)]
  /\ adds E t1 surf (CMeas v3zero [1; 1] surf 7 false) t (Ok true)
  /\ adds E t surf (CMeas v3zero [1; 1] surf 8 false) t' (Ok false).
Proof.
  destruct (ex_listing 1 1) as (t1 & L1 & L2 & L3 & L4 & L5); [lra|lra|].
  destruct (ex_after 1 t1) as (e & A & O & T & Z); auto; [lra|].
  exists ex_env, ex_ref, None, [flat 1; flat 1], t1, 1, (flat 1), (set_elems t1 [ex_initial; e]),
    (set_elems t1 [ex_initial; e]).
  split; [exact L1|]. split; [exact L2|].
  split; [apply adds_meas; exact A|]. apply adds_meas. unfold addMeasurement, pushElement, ensureInitial.
  cbn [set_elems tr_elems last tr_mass]. unfold newMeasurement. cbv zeta.
  rewrite station_isect by (auto; lra). rewrite Z, T. replace ((1 - 1) / 1) with 0 by field.
  assert (M : mode_ok 1 0 = false).
  { apply not_true_is_false. intros M. apply mode_ok_iff in M. destruct M as [M _]. specialize (M ltac:(lia)). lra. }
  rewrite M. reflexivity.
Qed.
Print Assumptions C79_same_height_refuted.
