(** Properties C31-C35: order of the elements, lookup, recorded points, the
    initial element, preparation for the fit. *)
From Coq Require Import Reals List Bool ZArith Lra Lia Permutation Sorted.
From Coquelicot Require Import Coquelicot.
From Verif Require Import SpecConst Num Vec Helix Isect Trans Material Traj.
From Verif Require Import NumFacts SpecHelix HelixFacts PathFacts MoveFacts SpecIsect SurfFacts SurfFacts2
  SpecTraj TrajFacts TrajFacts2 TrajFacts3 TrajFacts4 TrajFacts5 OffTrack TrajEx.
Import ListNotations.
Open Scope R_scope.

(** ** C31 *)

Lemma split_initial l i : ordered l -> In i l -> te_surf i = None ->
  (forall e, In e l -> te_s i <= te_s e) -> no_surface_count l = 1%nat ->
  exists l1 l2, l = l1 ++ i :: l2 /\ (forall e, In e (l1 ++ l2) -> te_surf e <> None)
    /\ (forall e, In e l1 -> te_s e = te_s i).
Proof.
  intros O I N M C. destruct (in_split _ _ I) as (l1 & l2 & Q). exists l1, l2. split; auto. split.
  - intros e Ie Ne. subst l. unfold no_surface_count in C.
    rewrite filter_app, app_length in C. cbn [filter] in C.
    assert (Hi : has_surface i = false) by (unfold has_surface; rewrite N; auto).
    rewrite Hi in C. cbn [negb length] in C.
    assert (He : negb (has_surface e) = true) by (unfold has_surface; rewrite Ne; auto).
    apply in_app_or in Ie. destruct Ie as [Ie|Ie];
      assert (F : In e (filter (fun e => negb (has_surface e)) l1) \/ In e (filter (fun e => negb (has_surface e)) l2))
        by (rewrite !filter_In; auto);
      destruct F as [F|F];
      destruct (filter (fun e => negb (has_surface e)) l1), (filter (fun e => negb (has_surface e)) l2);
      cbn in *; try contradiction; try lia.
  - intros e Ie. subst l. apply Rle_antisym; [|apply M; apply in_or_app; auto].
    clear C M N I. induction l1 as [|a l1 IH]; [destruct Ie|].
    inversion O as [|? ? O1 O2]; subst. rewrite List.Forall_forall in O2. destruct Ie as [->|Ie]; auto.
    apply O2. apply in_or_app. right. left. auto.
Qed.

(** Every history of calls on a new trajectory: the list is ordered; it is empty
    or contains exactly one element without surface, carrying the reference
    parameters; elements in front of it have the same path length. *)
Theorem C31_ordered : forall E ref prop cs t, env_ok E ->
  history E any_call (mkTraj ref prop) cs t ->
  ordered (tr_elems t)
  /\ (tr_elems t = []
      \/ exists l1 i l2, tr_elems t = l1 ++ i :: l2 /\ plain i /\ te_tp i = ref
         /\ calculateSfromXY 0 0 (tp_par ref) (tp_ref ref) = Ok (te_s i)
         /\ (forall e, In e (l1 ++ l2) -> te_surf e <> None)
         /\ (forall e, In e l1 -> te_s e = te_s i)
         /\ (forall e, In e l2 -> te_s i <= te_s e)).
Proof.
  intros E ref prop cs t [So _] H. destruct (history_good _ _ _ _ _ _ So H) as (G & R & _).
  split; [apply (g_ord _ G)|]. destruct (g_first _ G) as [N|((i & I & (P & Q & S) & M) & C)]; auto.
  right. rewrite R in Q, S. destruct (split_initial _ _ (g_ord _ G) I (proj1 P) M C) as (l1 & l2 & L & A & B).
  exists l1, i, l2. repeat split; auto; try apply P.
  intros e Ie. apply M. rewrite L. apply in_or_app. right. right. auto.
Qed.
Print Assumptions C31_ordered.

(** Before the first prepareForFitting the element without surface is in
    front. *)
Theorem C31_front : forall E ref prop cs t,
  history E any_call (mkTraj ref prop) cs t -> ~ In CPrep cs ->
  tr_elems t = []
  \/ exists i l, tr_elems t = i :: l /\ plain i /\ te_tp i = ref
     /\ calculateSfromXY 0 0 (tp_par ref) (tp_ref ref) = Ok (te_s i)
     /\ (forall e, In e l -> te_surf e <> None).
Proof.
  intros E ref prop cs t H N. destruct (history_front _ _ _ _ _ _ H N) as (_ & [A|(i & l & A & (P & Q & S) & _ & F)]); auto.
  right. exists i, l. repeat split; auto; try apply P. intros e Ie Ne. destruct (F e Ie) as [F1 _].
  unfold has_surface in F1. rewrite Ne in F1. discriminate.
Qed.
Print Assumptions C31_front.

(** One call: an addition appends at most the initial element (only to an empty
    list) and one element for the surface given; the other calls keep the
    elements up to their order and Jacobians. *)
Theorem C31_one_call : forall E t c t', env_ok E -> step E t c t' ->
  match c with
  | CMeas _ _ surf _ _ | CScat surf =>
      exists ini new, tr_elems t' = tr_elems t ++ ini ++ new
        /\ (tr_elems t <> [] -> ini = []) /\ (length ini <= 1)%nat /\ (forall e, In e ini -> plain e)
        /\ (length new <= 1)%nat /\ (forall e, In e new -> te_surf e = Some surf)
  | CPrep => exists l, Permutation (tr_elems t) l /\ Forall2 same_but_jacobian l (tr_elems t')
  | _ => tr_elems t' = tr_elems t
  end.
Proof.
  intros E t c t' [So Si] H.
  assert (PU : forall surf new r, pushElement t new = (t', r) -> (exists b, r = Ok b) \/ r = Throw ->
    (forall las e, new las = Ok (Some e) -> te_surf e = Some surf) ->
    exists ini nw, tr_elems t' = tr_elems t ++ ini ++ nw
        /\ (tr_elems t <> [] -> ini = []) /\ (length ini <= 1)%nat /\ (forall e, In e ini -> plain e)
        /\ (length nw <= 1)%nat /\ (forall e, In e nw -> te_surf e = Some surf)).
  { intros surf new r P R F. destruct (push_spec _ _ _ _ P R) as [(_ & -> & _)|(t1 & e0 & l & A & B & C)].
    - exists [], []. rewrite app_nil_r. cbn. repeat split; auto; try contradiction.
    - assert (D : exists ini, tr_elems t1 = tr_elems t ++ ini /\ (tr_elems t <> [] -> ini = [])
                 /\ (length ini <= 1)%nat /\ (forall e, In e ini -> plain e)).
      { destruct (ensure_spec _ _ A) as [[A1 ->]|(A1 & s & _ & ->)].
        - exists []. rewrite app_nil_r. cbn. repeat split; auto; try contradiction.
        - rewrite A1. eexists. split; [reflexivity|]. cbn. repeat split; auto; try contradiction.
          + destruct H0 as [<-|[]]. reflexivity.
          + destruct H0 as [<-|[]]. reflexivity.
          + destruct H0 as [<-|[]]. reflexivity. }
      destruct D as (ini & D1 & D2 & D3 & D4). exists ini.
      destruct C as [(_ & -> & _)|[(_ & -> & _)|(e & _ & C2 & ->)]].
      + exists []. rewrite app_nil_r. cbn. repeat split; auto; try contradiction; try (apply D4; auto).
      + exists []. rewrite app_nil_r. cbn. repeat split; auto; try contradiction; try (apply D4; auto).
      + exists [e]. cbn [set_elems tr_elems]. rewrite D1, app_assoc. cbn [length].
        repeat split; auto; try (apply D4; auto). intros x [<-|[]]. eapply F; eauto. }
  destruct H as [pos prec surf id sc t' r A R|surf t' r A R|t' A|l t' A|m].
  - eapply PU; eauto. intros las e Q. destruct (newMeasurement_spec _ _ _ _ _ _ _ _ _ Q)
      as (? & ? & ? & ? & ? & ? & B & _). apply (bu_surf _ _ _ _ _ _ _ _ _ _ _ _ _ _ _ B).
  - eapply PU; eauto. intros las e Q. destruct (newScatterer_spec _ _ _ _ _ Q)
      as (? & ? & ? & ? & ? & ? & B & _). apply (bu_surf _ _ _ _ _ _ _ _ _ _ _ _ _ _ _ B).
  - destruct (prepare_elems _ _ _ So A) as (l & P & _ & F & _). eauto.
  - destruct (intersections_spec _ _ _ _ Si A) as (ents & _ & _ & _ & _ & Q & _). exact Q.
  - reflexivity.
Qed.
Print Assumptions C31_one_call.

(** ** C32 *)

(** The last element at or before [s], the first one if there is none. *)
Theorem C32_lookup : forall t s, tr_elems t <> [] -> ordered (tr_elems t) -> lowest <= s ->
  exists l1 e l2, tr_elems t = l1 ++ e :: l2 /\ trajectoryElementAt t s = Ok e
    /\ (forall x, In x l2 -> s < te_s x)
    /\ (te_s e <= s \/ l1 = []).
Proof.
  intros t s N O B. change lowest with bigNegative in B. unfold trajectoryElementAt. destruct (tr_elems t) as [|e l]; [contradiction|].
  destruct (elementAt_spec s l bigNegative e O B) as (l1 & l2 & A1 & A2 & A3).
  exists l1, (elementAt_loop s bigNegative e l), l2. auto.
Qed.
Print Assumptions C32_lookup.

(** Below -1e99 the last element is returned although all elements follow. *)
Theorem C32_low : forall t s e l, tr_elems t = l ++ [e] -> s < lowest ->
  (forall x, In x (tr_elems t) -> s < te_s x) -> trajectoryElementAt t s = Ok e.
Proof.
  intros t s e l Q B A. change lowest with bigNegative in B. unfold trajectoryElementAt. rewrite Q in *. destruct l as [|a l]; cbn [app].
  - reflexivity.
  - rewrite elementAt_low; auto.
    + rewrite last_last. reflexivity.
    + intros x I. apply A. right. auto.
Qed.
Print Assumptions C32_low.

Theorem C32_empty : forall t s, tr_elems t = [] ->
  trajectoryElementAt t s = UB /\ tr_pointAt t s = UB /\ tr_tangentAt t s = UB.
Proof. intros t s Q. unfold tr_pointAt, tr_tangentAt, trajectoryElementAt. rewrite Q. auto. Qed.
Print Assumptions C32_empty.

(** ** C33 *)

(** What an addition records: with [f] the helix of the state it starts from,
    the crossing point f(s0) on the surface becomes the reference point, path
    length and direction are those at the crossing, d0 = 0, and z0 is [k] pitches
    where the crossing is [k] turns (to the nearest) away. *)
Theorem C33_addition : forall E t position precision surf id sc t' f,
  let tp := from_state t in
  tp_par tp OMEGA <> 0 -> Rabs (tp_par tp PHI0) <= 2 * PI -> wf_surface surf ->
  is_helix (tp_par tp) (tp_ref tp) f ->
  addMeasurement E t position precision surf id sc = (t', Ok true)
  \/ addScatterer E t surf = (t', Ok true) ->
  exists t1 e s0 s1, with_initial t t1 /\ extended t1 t' e /\ 0 <= s0
    /\ from_s t s1 /\ te_s e = s1 + s0 /\ te_surf e = Some surf
    /\ tp_ref (te_tp e) = f s0 /\ on_surface surf (f s0)
    /\ tp_par (te_tp e) D0 = 0
    /\ (exists k : Z, tp_par (te_tp e) Z0 = - (2 * IZR k * PI / tp_par tp OMEGA * tp_par tp TANL)
          /\ Rabs (2 * IZR k * PI - tp_par tp OMEGA * s0) <= PI)
    /\ (Rabs (tp_par tp OMEGA * s0) < PI -> tp_par (te_tp e) Z0 = 0)
    /\ (exists k : Z, tp_par (te_tp e) PHI0 = tp_par tp PHI0 - tp_par tp OMEGA * s0 + 2 * IZR k * PI)
    /\ tp_par (te_tp e) TANL = tp_par tp TANL
    /\ tp_cov (te_tp e) = tp_cov tp.
Proof.
  intros E t position precision surf id sc t' f tp Ho Hp W Hf A.
  assert (X : exists t1 las e mass cb sc meas elUV s0 xx moved fid mom el,
     with_initial t t1 /\ te_tp las = from_state t /\ from_s t (te_s las) /\ extended t1 t' e
     /\ built E mass las surf cb sc meas elUV e s0 xx moved fid mom el).
  { destruct A as [A|A]; destruct (push_ok _ _ _ _ A) as (t1 & las & W1 & F1 & F2 & [(Q & _)|(_ & e & X & N)]);
      try discriminate.
    - destruct (newMeasurement_spec _ _ _ _ _ _ _ _ _ N) as (? & ? & ? & ? & ? & ? & B & _).
      exists t1, las, e. do 11 eexists. split; [exact W1|]. split; [exact F1|]. split; [exact F2|].
      split; [exact X|exact B].
    - destruct (newScatterer_spec _ _ _ _ _ N) as (? & ? & ? & ? & ? & ? & B & _).
      exists t1, las, e. do 11 eexists. split; [exact W1|]. split; [exact F1|]. split; [exact F2|].
      split; [exact X|exact B]. }
  destruct X as (t1 & las & e & mass & cb & sc' & meas & elUV & s0 & xx & moved & fid & mom & el & W1 & F1 & F2 & X & B).
  fold tp in F1. rewrite <- F1 in *.
  destruct (built_facts _ _ _ _ _ _ _ _ _ _ _ _ _ _ _ B Ho Hp W)
    as (S0 & Xx & On & _ & _ & _ & _ & _ & T & _ & _ & D & _ & (k & K1 & K2) & Z & R & C & _).
  rewrite <- (helix_is_hcurve _ _ f Ho Hf) in Xx.
  exists t1, e, s0, (te_s las). split; auto. split; auto. split; auto. split; auto.
  split; [rewrite (bu_s _ _ _ _ _ _ _ _ _ _ _ _ _ _ _ B); ring|].
  split; [apply (bu_surf _ _ _ _ _ _ _ _ _ _ _ _ _ _ _ B)|].
  rewrite <- Xx. split; auto. split; auto. split; auto. split.
  { exists k. split; auto. replace (2 * IZR k * PI - tp_par (te_tp las) OMEGA * s0)
      with (- (s0 * tp_par (te_tp las) OMEGA) + 2 * IZR k * PI) by ring. auto. }
  split; auto. split; [eapply built_direction; eauto|]. split; auto.
Qed.
Print Assumptions C33_addition.

(** If every crossing was found within half a turn, the trajectory passes, at
    the path length of each element with a surface, through the recorded point,
    which is on the surface; the stored state has d0 = z0 = 0. *)
Theorem C33_recorded_points : forall E ref prop cs t e surf, env_ok E ->
  tp_par ref OMEGA <> 0 -> Rabs (tp_par ref PHI0) <= 2 * PI ->
  history E (fun t c => surfaces_ok t c /\ within_half_turn t c) (mkTraj ref prop) cs t ->
  In e (tr_elems t) -> te_surf e = Some surf -> lowest <= te_s e ->
  tr_pointAt t (te_s e) = Ok (tp_ref (te_tp e)) /\ on_surface surf (tp_ref (te_tp e))
  /\ tp_par (te_tp e) D0 = 0 /\ tp_par (te_tp e) Z0 = 0.
Proof.
  intros E ref prop cs t e surf [So _] Ho Hp H I S N. change lowest with bigNegative in N.
  destruct (history_good _ _ _ _ _ _ So H) as (G & _).
  destruct (history_placed E _ ref prop cs t So Ho Hp (fun t c H => proj1 H) H) as [P C].
  specialize (C (fun t c H => proj2 H)).
  destruct (pl_surf _ P e surf I S) as [D On]. assert (Z := co_z0 _ C e surf I S).
  rewrite <- (here_own e D Z). split; [apply point_at_element; auto; apply (g_ord _ G)|].
  rewrite here_own; auto.
Qed.
Print Assumptions C33_recorded_points.

(** Planes parallel to z and cylinders are always found within half a turn. *)
Theorem C33_barrel : forall E ref prop cs t e surf, env_ok E ->
  tp_par ref OMEGA <> 0 -> Rabs (tp_par ref PHI0) <= 2 * PI ->
  history E (fun t c => surfaces_ok t c /\
     match c with CMeas _ _ surf _ _ | CScat surf => barrel surf | _ => True end) (mkTraj ref prop) cs t ->
  In e (tr_elems t) -> te_surf e = Some surf -> lowest <= te_s e ->
  tr_pointAt t (te_s e) = Ok (tp_ref (te_tp e)) /\ on_surface surf (tp_ref (te_tp e))
  /\ tp_par (te_tp e) D0 = 0 /\ tp_par (te_tp e) Z0 = 0.
Proof.
  intros E ref prop cs t e surf Ek Ho Hp H. apply (C33_recorded_points E ref prop cs t e surf); auto.
  destruct Ek as [So _].
  assert (X : history E (fun t c => surfaces_ok t c /\ within_half_turn t c) (mkTraj ref prop) cs t).
  { induction H as [|cs t c t' H IH [Ok1 Ok2] St]; [constructor|].
    apply (hist_snoc _ _ _ cs t c t' IH); auto. split; auto.
    destruct (history_good _ _ _ _ _ _ So IH) as (G & Rf & _).
    destruct (history_placed E _ ref prop cs t So Ho Hp (fun t c H => proj1 H) IH) as [P _].
    assert (F : tp_par (from_state t) OMEGA <> 0 /\ Rabs (tp_par (from_state t) PHI0) <= 2 * PI).
    { unfold from_state. destruct (rev (tr_elems t)) as [|x l] eqn:Rv.
      - rewrite Rf. auto.
      - assert (In x (tr_elems t)) by (apply in_rev; rewrite Rv; left; auto).
        split; [apply (pl_om _ P)|apply (pl_phi _ P)]; auto. }
    destruct F as [F1 F2]. unfold within_half_turn. destruct c; auto; intros s xx Q;
      eapply barrel_half_turn; eauto. }
  exact X.
Qed.
Print Assumptions C33_barrel.

(** Beyond half a turn this fails: a disk at z = 5, reached by a track of unit
    curvature and pitch after s = 5, is recorded with z0 = -2 pi, and the
    trajectory passes 2 pi below the recorded point. *)
Theorem C33_half_turn_refuted : exists E ref prop c t e p, env_ok E
  /\ tp_par ref OMEGA <> 0 /\ Rabs (tp_par ref PHI0) <= 2 * PI
  /\ history E surfaces_ok (mkTraj ref prop) [c] t
  /\ In e (tr_elems t) /\ te_surf e <> None
  /\ tr_pointAt t (te_s e) = Ok p /\ vz (tp_ref (te_tp e)) = 5 /\ vz p = 5 - 2 * PI
  /\ tp_par (te_tp e) Z0 = - (2 * PI).
Proof.
  destruct (ex_first_hit None 5 (fun _ => true) v3zero [1; 1] 7 false ltac:(lra)) as (th & e & _ & A & N).
  set (surf := ex_station 5 th (fun _ => true)) in *.
  exists ex_env, ex_ref, None, (CMeas v3zero [1; 1] surf 7 false), (set_elems (ex_traj None) [ex_initial; e]), e.
  destruct (newMeasurement_spec _ _ _ _ _ _ _ _ _ N) as (s0 & xx & moved & fid & mom & el & B & _).
  assert (Ho : tp_par (te_tp ex_initial) OMEGA <> 0) by (cbn; lra).
  assert (Hp : Rabs (tp_par (te_tp ex_initial) PHI0) <= 2 * PI)
    by (cbn; rewrite Rabs_R0; generalize PI_pos; lra).
  destruct (built_facts _ _ _ _ _ _ _ _ _ _ _ _ _ _ _ B Ho Hp (station_wf _ _ _))
    as (S0 & Xx & On & _ & _ & _ & _ & Oe & T & _ & _ & D & _ & (k & K1 & K2) & Z & R & C & _).
  assert (Ht : tp_par (te_tp ex_initial) TANL <> 0) by (cbn; lra).
  assert (Is := bu_isect _ _ _ _ _ _ _ _ _ _ _ _ _ _ _ B).
  unfold surf in Is. rewrite station_isect in Is by auto. injection Is as _ Is Ix.
  assert (S5 : s0 = 5) by (rewrite <- Is; cbn; field).
  change (tp_par (te_tp ex_initial) OMEGA) with 1 in K1, K2.
  change (tp_par (te_tp ex_initial) TANL) with 1 in K1.
  assert (k = 1%Z).
  { rewrite S5 in K2. apply Rabs_le_between in K2. assert (P1 := PI2_3_2). assert (P2 := PI_4).
    assert (Pp := PI_pos).
    assert (U : (k <= 0 \/ k = 1 \/ 2 <= k)%Z) by lia. destruct U as [U|[U|U]]; auto; exfalso;
      apply IZR_le in U.
    - assert (IZR k * PI <= 0) by nra. lra.
    - assert (2 * PI <= IZR k * PI) by nra. lra. }
  subst k. exists (hcurve (tp_par (te_tp e)) (tp_ref (te_tp e)) 0).
  assert (Es : te_s e = 5) by (rewrite (bu_s _ _ _ _ _ _ _ _ _ _ _ _ _ _ _ B), S5; cbn; ring).
  split; [apply ex_env_ok|]. split; [auto|]. split; [auto|]. split.
  { change [CMeas v3zero [1; 1] surf 7 false] with ([] ++ [CMeas v3zero [1; 1] surf 7 false]).
    eapply hist_snoc; [constructor|apply station_wf|]. econstructor; [exact A|left; eauto]. }
  split; [right; left; auto|]. split; [rewrite (bu_surf _ _ _ _ _ _ _ _ _ _ _ _ _ _ _ B); discriminate|].
  split.
  { unfold tr_pointAt, trajectoryElementAt. cbn [set_elems tr_elems elementAt_loop]. rewrite Es.
    destruct (Rle_dec bigNegative 5) as [L|L].
    - destruct (Rlt_dec 5 5); [lra|]. cbn [bind]. rewrite Es. replace (5 - 5) with 0 by ring.
      apply pointAt_hcurve. auto.
    - exfalso. apply L. unfold bigNegative. assert (0 <= 10 ^ 99) by (apply pow_le; lra). lra. }
  assert (Vz : vz (tp_ref (te_tp e)) = 5).
  { rewrite R, Xx, S5. unfold hcurve. cbn. ring. }
  split; auto. split.
  - unfold hcurve. cbn [vz]. rewrite Vz, K1. cbn. field.
  - rewrite K1. field.
Qed.
Print Assumptions C33_half_turn_refuted.

(** ** C34 *)

(** The first segment of a trajectory is the reference helix shifted by the path
    length of its first element; for a track with a dip it agrees with the
    helix itself only if that path length is 0. *)
Theorem C34_first_segment : forall E ref prop cs t i l f,
  history E any_call (mkTraj ref prop) cs t -> ~ In CPrep cs -> tr_elems t = i :: l ->
  tp_par ref OMEGA <> 0 -> is_helix (tp_par ref) (tp_ref ref) f ->
  calculateSfromXY 0 0 (tp_par ref) (tp_ref ref) = Ok (te_s i)
  /\ forall s, lowest <= s -> (forall e, In e l -> s < te_s e) ->
     tr_pointAt t s = Ok (f (s - te_s i))
     /\ (tp_par ref TANL <> 0 -> (f (s - te_s i) = f s <-> te_s i = 0)).
Proof.
  intros E ref prop cs t i l f H N Q Ho Hf.
  destruct (history_front _ _ _ _ _ _ H N) as (_ & [A|(i' & l' & A & (P & Tp & S) & _ & F)]);
    [rewrite Q in A; discriminate|].
  rewrite Q in A. injection A as <- <-. split; auto. intros s Hs Hl. change lowest with bigNegative in Hs.
  assert (X : tr_pointAt t s = Ok (f (s - te_s i))).
  { unfold tr_pointAt, trajectoryElementAt. rewrite Q.
    assert (Y : elementAt_loop s bigNegative i l = i).
    { destruct l as [|e l]; auto. cbn [elementAt_loop]. destruct (Rle_dec bigNegative s); [|contradiction].
      destruct (Rlt_dec s (te_s e)) as [G|G]; auto. exfalso. apply G. apply Hl. left. auto. }
    rewrite Y. cbn [bind]. rewrite Tp, (helix_is_hcurve _ _ f Ho Hf). apply pointAt_hcurve. auto. }
  split; auto. intros Ht. split.
  - intros G. apply (f_equal vz) in G. rewrite !(helix_is_hcurve _ _ f Ho Hf) in G.
    unfold hcurve in G. cbn [vz] in G. nra.
  - intros ->. f_equal. ring.
Qed.
Print Assumptions C34_first_segment.

(** The path length of the first element in terms of the geometry: with [c] the
    centre of the track circle, if the origin is c + lam*(f(sigma) - c), so
    that f(sigma) is the track point nearest to it, it is lam*sigma. *)
Theorem C34_first_length : forall ref f sigma lam,
  let hp := tp_par ref in let c := hcircle hp (tp_ref ref) in
  hp OMEGA <> 0 -> Rabs (hp PHI0) <= 2 * PI -> is_helix hp (tp_ref ref) f ->
  Rabs (hp OMEGA * sigma) < PI -> 0 < lam ->
  c_x c + lam * (vx (f sigma) - c_x c) = 0 -> c_y c + lam * (vy (f sigma) - c_y c) = 0 ->
  calculateSfromXY 0 0 hp (tp_ref ref) = Ok (lam * sigma)
  /\ forall u, dist_xy (f sigma) v3zero <= dist_xy (f u) v3zero.
Proof.
  intros ref f sigma lam hp c Ho Hp Hf Hs Hl E1 E2.
  rewrite (helix_is_hcurve _ _ f Ho Hf) in E1, E2.
  assert (R1 := SfromXY_ray hp (tp_ref ref) sigma lam Ho Hp Hs Hl).
  assert (R2 := ray_nearest hp (tp_ref ref) sigma lam Ho Hl).
  unfold ray, centre in R1, R2. cbn [vx vy fst snd] in R1, R2. cbn [c hcircle c_x c_y] in E1, E2.
  rewrite E1, E2 in R1, R2. split; auto. intros u. rewrite !(helix_is_hcurve _ _ f Ho Hf). apply R2.
Qed.
Print Assumptions C34_first_length.

(** In particular it is 0 if the reference point is on the z axis and the point
    of closest approach is the nearest one of the track. *)
Theorem C34_origin : forall ref, let hp := tp_par ref in
  hp OMEGA <> 0 -> Rabs (hp PHI0) <= 2 * PI -> vx (tp_ref ref) = 0 -> vy (tp_ref ref) = 0 ->
  hp OMEGA * hp D0 < 1 -> calculateSfromXY 0 0 hp (tp_ref ref) = Ok 0.
Proof.
  intros ref hp Ho Hp X Y D. assert (Hf := hcurve_helix hp (tp_ref ref) Ho).
  destruct (C34_first_length ref _ 0 (1 - hp OMEGA * hp D0) Ho Hp Hf) as [A _]; fold hp.
  - rewrite Rmult_0_r, Rabs_R0. apply PI_pos.
  - lra.
  - cbn [hcircle c_x]. unfold hcurve. cbn [vx]. rewrite X. replace (hp PHI0 - 0 * hp OMEGA) with (hp PHI0) by ring.
    field. auto.
  - cbn [hcircle c_y]. unfold hcurve. cbn [vy]. rewrite Y. replace (hp PHI0 - 0 * hp OMEGA) with (hp PHI0) by ring.
    field. auto.
  - fold hp in A. rewrite A. f_equal. ring.
Qed.
Print Assumptions C34_origin.

(** ** C56 *)

(** calculateSfromXY off the track.  Every point but the centre of the circle
    has a nearest track point f(sigma) within half a turn; the function returns
    lam*sigma, lam being the distance from the centre over the radius. *)
Theorem C56_off_track : forall hp rp f x y,
  let c := V3 (c_x (hcircle hp rp)) (c_y (hcircle hp rp)) 0 in
  hp OMEGA <> 0 -> Rabs (hp PHI0) <= 2 * PI -> is_helix hp rp f -> (x <> vx c \/ y <> vy c) ->
  exists sigma lam, 0 < lam /\ lam = dist_xy (V3 x y 0) c / c_r (hcircle hp rp)
    /\ Rabs (hp OMEGA * sigma) <= PI
    /\ (forall u, dist_xy (f sigma) (V3 x y 0) <= dist_xy (f u) (V3 x y 0))
    /\ (Rabs (hp OMEGA * sigma) < PI -> calculateSfromXY x y hp rp = Ok (lam * sigma)).
Proof.
  intros hp rp f x y c Ho Hp Hf N.
  destruct (ray_exists hp rp x y Ho N) as (s & lam & L & S & Q & D).
  exists s, lam. split; auto. split.
  { rewrite D. cbn [hcircle c_r]. unfold Rdiv at 2. rewrite Rmult_1_l, Rabs_inv. unfold Rdiv.
    rewrite Rinv_inv. rewrite Rmult_comm. reflexivity. }
  split; auto. 
  assert (R1 := ray_nearest hp rp s lam Ho L). assert (R2 := SfromXY_ray hp rp s lam Ho Hp).
  rewrite <- Q in R1, R2. cbn [fst snd] in R1, R2.
  split; [intros u; rewrite !(helix_is_hcurve _ _ f Ho Hf); apply R1|auto].
Qed.
Print Assumptions C56_off_track.

(** So it is the path length of the nearest point only if the point is on the
    circle or that path length is 0. *)
Theorem C56_agreement : forall hp rp x y sigma lam, 
  calculateSfromXY x y hp rp = Ok (lam * sigma) ->
  (calculateSfromXY x y hp rp = Ok sigma <-> lam = 1 \/ sigma = 0).
Proof.
  intros hp rp x y sigma lam ->. split.
  - intros E. injection E as E. destruct (Req_dec sigma 0) as [|N]; auto. left. nra.
  - intros [-> | ->]; f_equal; ring.
Qed.
Print Assumptions C56_agreement.

(** ** C35 *)

(** A successful call: the elements sorted by path length; everything but the
    Jacobians as before; the zero matrix for the first; for each other element
    the propagator's answer for the step from its predecessor (from 0 for the
    second element). *)
Theorem C35_prepare : forall E t t', env_ok E -> prepareForFitting E t = Ok t' ->
  exists e0 l e0' l', Permutation (tr_elems t) (e0 :: l) /\ ordered (e0 :: l)
    /\ t' = set_elems t (e0' :: l')
    /\ same_but_jacobian e0 e0' /\ te_jac e0' = Some m5zero
    /\ prepared E (set_elems t (e0 :: l)) 0 l l'.
Proof.
  intros E t t' [So _] H. destruct (prepare_spec _ _ _ H) as (e0 & l & e0' & l' & A & B & C & D & F).
  destruct (So (tr_elems t)) as [P O]. rewrite A in P, O. exists e0, l, e0', l'. auto 10.
Qed.
Print Assumptions C35_prepare.

(** ... and conversely. *)
Theorem C35_complete : forall E t e0 l l', en_sortE E (tr_elems t) = e0 :: l ->
  prepared E (set_elems t (e0 :: l)) 0 l l' ->
  exists e0', prepareForFitting E t = Ok (set_elems t (e0' :: l'))
    /\ same_but_jacobian e0 e0' /\ te_jac e0' = Some m5zero.
Proof.
  intros E t e0 l l' Q P. exists (setJacobian e0 m5zero). split.
  - unfold prepareForFitting. cbv zeta. cbn [set_elems tr_elems]. rewrite Q.
    change (TR (tr_ref t) (tr_prop t) (tr_mass t) (e0 :: l) (tr_isect t)) with (set_elems t (e0 :: l)).
    remember (set_elems t (e0 :: l)) as t1.
    assert (X : forall prevS l l', prepared E t1 prevS l l' -> prepareLoop E t1 prevS l = Ok l').
    { clear. induction 1 as [|prevS e e' l l' J S Ja Jf P IH]; auto. cbn [prepareLoop].
      assert (Y : prepareOne E t1 prevS e = Ok e').
      { apply prepareOne_spec. exists J. split; auto. symmetry. apply setJacobian_same; auto. }
      rewrite Y. cbn [bind]. rewrite IH. reflexivity. }
    rewrite (X _ _ _ P). cbn [bind]. subst t1. reflexivity.
  - split; [apply same_setJacobian|reflexivity].
Qed.
Print Assumptions C35_complete.

(** Repeating the call changes nothing, if no two elements have the same path
    length or the sort leaves an ordered list alone. *)
Theorem C35_repeat : forall E t t', env_ok E -> prepareForFitting E t = Ok t' ->
  (forall a b, In a (tr_elems t') -> In b (tr_elems t') -> te_s a = te_s b -> a = b)
  \/ (forall l, ordered l -> en_sortE E l = l) ->
  prepareForFitting E t' = Ok t'.
Proof.
  intros E t t' [So _] H D. apply (prepare_again E t t' So H).
  assert (O := prepare_sorted _ _ _ So H). destruct D as [D|D]; [apply sort_distinct; auto|auto].
Qed.
Print Assumptions C35_repeat.

Theorem C35_empty : forall E t, env_ok E -> tr_elems t = [] -> prepareForFitting E t = UB.
Proof.
  intros E t [So _] Q. destruct (So (tr_elems t)) as [P _]. rewrite Q in P.
  apply Permutation_nil in P. unfold prepareForFitting. cbv zeta. cbn [set_elems tr_elems]. rewrite Q, P. reflexivity.
Qed.
Print Assumptions C35_empty.

(** Without propagator the call cannot succeed as soon as there are two
    elements. *)
Theorem C35_no_propagator : forall E t t', env_ok E -> tr_prop t = None ->
  (2 <= length (tr_elems t))%nat -> prepareForFitting E t <> Ok t'.
Proof.
  intros E t t' Ek N L H. destruct (C35_prepare _ _ _ Ek H) as (e0 & l & e0' & l' & P & _ & _ & _ & _ & Pr).
  apply Permutation_length in P. rewrite P in L. cbn in L.
  inversion Pr as [|prevS e e' lr lr' J S Ja (gj & nrj & ts & te & Q & _) Pr']; subst; [cbn in L; lia|].
  cbn in Q. congruence.
Qed.
Print Assumptions C35_no_propagator.
