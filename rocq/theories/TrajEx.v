(** Concrete trajectories: a unit helix through stations of silicon orthogonal to
    the z axis.  Used for the non-vacuity examples and the counterexamples. *)
From Coq Require Import Reals List Bool ZArith Lra Lia Permutation Sorted.
From Coquelicot Require Import Coquelicot.
From Verif Require Import Num Vec Helix Isect Trans Material Traj.
From Verif Require Import NumFacts SpecHelix HelixFacts PathFacts MoveFacts SpecIsect SurfFacts SurfFacts2.
From Verif Require Import SpecMaterial MaterialFacts SpecTraj TrajFacts TrajFacts2 TrajFacts3.
Import ListNotations.
Open Scope R_scope.

(** ** a sorting function meeting the contract *)
Section Insertion.
Context {A : Type} (key : A -> R).

Fixpoint insert (x : A) (l : list A) : list A :=
  match l with
  | [] => [x]
  | y :: l' => if Rle_dec (key x) (key y) then x :: l else y :: insert x l'
  end.
Fixpoint isort (l : list A) : list A :=
  match l with [] => [] | x :: l' => insert x (isort l') end.

Lemma insert_perm x l : Permutation (x :: l) (insert x l).
Proof.
  induction l as [|y l IH]; cbn [insert]; auto.
  destruct (Rle_dec (key x) (key y)); auto.
  eapply perm_trans; [apply perm_swap|]. constructor; auto.
Qed.
Lemma insert_sorted x l : ordered_by key l -> ordered_by key (insert x l).
Proof.
  unfold ordered_by. induction l as [|y l IH]; intros O; cbn [insert].
  - constructor; constructor.
  - inversion O as [|? ? O1 O2]; subst. destruct (Rle_dec (key x) (key y)) as [L|L].
    + constructor; auto. constructor; auto. rewrite Forall_forall in *. intros z Hz.
      specialize (O2 z Hz). lra.
    + constructor; auto. rewrite Forall_forall in *. intros z Hz.
      apply Permutation_in with (l' := x :: l) in Hz; [|apply Permutation_sym, insert_perm].
      destruct Hz as [<-|Hz]; [lra|auto].
Qed.
Lemma isort_sorts : sorts key isort.
Proof.
  intros l. induction l as [|x l [I1 I2]]; cbn [isort].
  - split; [constructor|constructor].
  - split; [|apply insert_sorted; auto].
    eapply perm_trans; [|apply insert_perm]. constructor; auto.
Qed.
Lemma insert_head x l : List.Forall (fun y => key x <= key y) l -> insert x l = x :: l.
Proof.
  destruct l as [|y l]; auto. intros F. cbn [insert]. inversion F; subst.
  destruct (Rle_dec (key x) (key y)); [auto|contradiction].
Qed.
Lemma isort_id l : ordered_by key l -> isort l = l.
Proof.
  unfold ordered_by. induction l as [|x l IH]; intros O; auto.
  inversion O as [|? ? O1 O2]; subst. cbn [isort]. rewrite IH by auto. apply insert_head; auto.
Qed.
End Insertion.

Definition ex_field : vec3 -> vec3 := fun _ => V3 0 0 1.
Definition ex_env : env := Env ex_field ex_field (isort te_s) (isort fst).
Lemma ex_env_ok : env_ok ex_env.
Proof. split; apply isort_sorts. Qed.

Definition ex_silicon : material := Mat 14 28 (233 / 100) (936 / 100).

(** a disk at height [h] with [th] cm of silicon *)
Definition ex_station (h th : R) (inb : vec3 -> bool) : surface :=
  Surf 1 (ST false true false false true) None inb (fun _ => V3 1 0 0) (fun _ => V3 0 1 0)
    (fun _ => V3 0 0 1) (fun x => (vx x, vy x)) (fun uv => V3 (fst uv) (snd uv) h) (V3 0 0 h)
    ex_silicon ex_silicon th 0 (fun x => vz x - h).

Lemma station_wf h th inb : wf_surface (ex_station h th inb).
Proof. split; cbn; intros; discriminate. Qed.

Lemma station_isect h th inb hp rp mode cb : hp OMEGA <> 0 -> hp TANL <> 0 ->
  let s := (h - (vz rp + hp Z0)) / hp TANL in
  intersectWithSurface (ex_station h th inb) hp rp (OVal 0 v3zero) mode cb
  = Ok (mode_ok mode s && bounds (ex_station h th inb) cb (hcurve hp rp s),
        OVal s (hcurve hp rp s)).
Proof.
  intros H Ht s.
  change (intersectWithSurface (ex_station h th inb) hp rp (OVal 0 v3zero) mode cb)
    with (intersectWithZDisk (ex_station h th inb) hp rp (OVal 0 v3zero) mode cb).
  assert (Hf := hcurve_helix hp rp H).
  destruct (zdisk_spec (ex_station h th inb) hp rp (OVal 0 v3zero) mode cb _ Hf) as [_ Z].
  destruct (Z Ht) as (s' & U & x & b & E & _ & _ & X & _ & B).
  assert (Es : s' = s).
  { symmetry. apply U. unfold hcurve, s. cbn [vz ex_station sf_origin]. field. auto. }
  rewrite X in E by auto. rewrite E, Es in *. f_equal. f_equal.
  apply eq_true_iff_eq. rewrite B, andb_true_iff, mode_ok_iff, bounds_iff. rewrite X by auto.
  tauto.
Qed.

(** energy loss in a station, for a track through the unit field *)
Lemma station_loss hp rp mass : hp OMEGA <> 0 -> hp TANL <> 0 -> 0 < mass ->
  exists mom K Ee, momentumAtPCA ex_field hp rp = Ok mom /\ 0 < Ee
  /\ mom <> v3zero /\ vz mom <> 0
  /\ forall h th inb uv, exists el,
       computeEnergyLoss_uv (ex_station h th inb) uv mom mass = Ok el
       /\ el_energy el = Ee /\ el_deltaE el / Ee = th * K.
Proof.
  intros H Ht Hm. unfold momentumAtPCA, calculateOmega, calculateTanLambda, calculatePhi0, ex_field.
  cbn [vz]. rewrite rdiv_ok by auto. cbn [bind].
  assert (Ppt : 0 < Rabs (1 / hp OMEGA) * 1 * convertBr2P_cm).
  { assert (1 / hp OMEGA <> 0).
    { unfold Rdiv. rewrite Rmult_1_l. apply Rinv_neq_0_compat; auto. }
    assert (0 < Rabs (1 / hp OMEGA)) by (apply Rabs_pos_lt; auto).
    apply Rmult_lt_0_compat; [lra|]. unfold convertBr2P_cm. lra. }
  set (pt := Rabs (1 / hp OMEGA) * 1 * convertBr2P_cm) in *.
  set (mom := V3 (pt * cos (hp PHI0)) (pt * sin (hp PHI0)) (pt * hp TANL)).
  assert (Nz : vz mom <> 0).
  { unfold mom. cbn [vz]. apply Rmult_integral_contrapositive. split; [lra|auto]. }
  assert (Nm : mom <> v3zero) by (intros Q; rewrite Q in Nz; apply Nz; reflexivity).
  assert (Vp : 0 < vr mom) by (apply vr_pos; auto).
  assert (Es : exists Ee, 0 < Ee /\ Ee * Ee = vr mom * vr mom + mass * mass).
  { exists (sqrt (vr mom * vr mom + mass * mass)). assert (0 < vr mom * vr mom) by nra.
    split; [apply sqrt_lt_R0; nra|]. apply sqrt_sqrt. nra. }
  destruct Es as (Ee & Ep & Eq).
  set (bb := bb_fun ex_silicon mass (vr mom)).
  exists mom, (bb * (233 / 100) / Rabs (cos_angle mom (V3 0 0 1)) / Ee), Ee.
  split; auto. split; auto. split; auto. split; auto.
  intros h th inb uv.
  assert (Bv : computeBetheBloch ex_silicon (vr mom) mass = Ok bb)
    by (apply bb_value; auto; unfold ex_silicon; cbn; lra).
  assert (Nd : vdot mom (sf_normal (ex_station h th inb) (sf_localToGlobal (ex_station h th inb) uv)) <> 0).
  { cbn [ex_station sf_normal]. unfold vdot. cbn [vx vy vz]. lra. }
  destruct (eloss_value (ex_station h th inb) uv mom mass bb bb Nm Hm Nd Bv Bv)
    as (el & A & B & C & _ & _ & D).
  exists el. split; auto.
  assert (Ee' : el_energy el = Ee).
  { assert (0 < el_energy el) by lra. rewrite <- B in Eq. nra. }
  split; auto. rewrite D. cbn [ex_station sf_normal sf_innerMaterial sf_innerThickness sf_outerThickness ex_silicon mat_density].
  unfold Rdiv. ring.
Qed.

Lemma station_projection hp : hp TANL <> 0 ->
  exists p, calculateLocalToMeasurementProjectionMatrix
    (fst (calculateLocalCurvilinearSystem 0 hp)) (snd (calculateLocalCurvilinearSystem 0 hp))
    [V3 1 0 0; V3 0 1 0] = Ok p.
Proof.
  intros Ht. unfold calculateLocalToMeasurementProjectionMatrix, calculateLocalCurvilinearSystem.
  cbn [fst snd]. unfold vdot. cbn [vx vy vz].
  unfold calculatePhi0, calculateCurvature, calculateLambda.
  replace (hp PHI0 - hp OMEGA * 0) with (hp PHI0) by ring.
  set (c := cos (hp PHI0)). set (s := sin (hp PHI0)). set (l := sin (atan (hp TANL))).
  assert (Nl : l <> 0).
  { unfold l. rewrite sin_atan_cos. apply Rmult_integral_contrapositive. split; auto.
    generalize (cos_atan_pos (hp TANL)); lra. }
  assert (Sc : s * s + c * c = 1) by apply sc1.
  destruct Req_EM_T as [Q|Q]; [|eauto].
  exfalso. apply Nl.
  transitivity (l * (s * s + c * c)); [rewrite Sc; ring|]. rewrite <- Q. ring.
Qed.

Lemma station_qms h th inb uv p m : 0 <= th -> exists q, qms2 (computeQMS_uv (ex_station h th inb) uv p m) = Ok q.
Proof.
  intros Hth.
  assert (Q : (exists x, computeQMS_uv (ex_station h th inb) uv p m = Ok x) \/ computeQMS_uv (ex_station h th inb) uv p m = NonFin).
  { unfold computeQMS_uv, vunit, rdiv, rsqrt, rln. cbv zeta.
    repeat match goal with |- context [if ?c then _ else _] => destruct c; cbn [bind]; auto end; eauto. }
  destruct Q as [[x ->]| ->]; cbn; eauto.
Qed.

(** a track entering a station from below can always be extended, except for
    one thickness for which it would stop exactly *)
Lemma station_new las mass h inb : 0 < mass ->
  tp_par (te_tp las) OMEGA <> 0 -> tp_par (te_tp las) TANL <> 0 ->
  0 < (h - (vz (tp_ref (te_tp las)) + tp_par (te_tp las) Z0)) / tp_par (te_tp las) TANL ->
  exists K, forall th, 0 <= th -> th * K <> 1 ->
   (forall pos prec id sc, exists e,
     newMeasurement ex_env mass las pos prec (ex_station h th inb) id sc = Ok (Some e))
   /\ ((inb (hcurve (tp_par (te_tp las)) (tp_ref (te_tp las))
              ((h - (vz (tp_ref (te_tp las)) + tp_par (te_tp las) Z0)) / tp_par (te_tp las) TANL)) = true ->
       exists e, newScatterer ex_env mass las (ex_station h th inb) = Ok (Some e))).
Proof.
  intros Hm H Ht Hs.
  set (hp := tp_par (te_tp las)) in *. set (rp := tp_ref (te_tp las)) in *.
  set (s := (h - (vz rp + hp Z0)) / hp TANL) in *.
  set (xx := hcurve hp rp s).
  destruct (move_ok (te_tp las) xx H) as (p' & fid & Mv & Sp & _).
  assert (H' : p' OMEGA <> 0) by (rewrite (ms_om _ _ _ _ Sp); auto).
  assert (Ht' : p' TANL <> 0) by (rewrite (ms_tl _ _ _ _ Sp); auto).
  destruct (station_loss p' xx mass H' Ht' Hm) as (mom & K & Ee & Mm & Ep & Nm & Nz & L).
  assert (Mo : mode_ok 1 s = true).
  { apply mode_ok_iff. split; [auto|]. intros; lia. }
  exists K. intros th Hth Nk.
  assert (Ap : forall el, el_energy el = Ee -> el_deltaE el / Ee = th * K ->
    exists tp', applyLoss (TP (tp_cov (te_tp las)) p' xx) el = Ok tp' /\ tp_par tp' TANL <> 0).
  { intros el A B. eexists. split.
    - apply applyLoss_spec. rewrite A, B. split; [lra|]. split; [intros Q; apply Nk; lra|reflexivity].
    - cbn [tp_par]. unfold v5set. destruct (idx_eq_dec TANL OMEGA); [discriminate|auto]. }
  split.
  - intros pos prec id sc.
    unfold newMeasurement. cbv zeta. fold hp rp.
    rewrite station_isect by auto. fold s xx. rewrite Mo. cbn [andb bounds bind].
    rewrite Mv. cbn [bind fst tp_par tp_ref ex_env en_gfield].
    rewrite Mm. cbn [bind].
    destruct (L h th inb (sf_globalToLocal (ex_station h th inb) pos)) as (el & Lel & Le & Ld).
    rewrite Lel. cbn [bind]. destruct (Ap el Le Ld) as (tp' & -> & T'). cbn [bind].
    destruct (station_qms h th inb (sf_globalToLocal (ex_station h th inb) xx) mom mass Hth) as [q Hq].
    rewrite Hq. cbn [bind].
    destruct (station_projection (tp_par tp') T') as [pr Hpr].
    unfold mkElement.
    destruct sc; cbn [bind];
      change [sf_u (ex_station h th inb) pos; sf_v (ex_station h th inb) pos] with [V3 1 0 0; V3 0 1 0];
      rewrite Hpr; cbn [bind]; eauto.
  - intros Hin.
    unfold newScatterer. cbv zeta. fold hp rp.
    rewrite station_isect by auto. fold s xx. rewrite Mo. cbn [andb].
    replace (bounds (ex_station h th inb) true xx) with true by (symmetry; exact Hin). cbn [bind].
    rewrite Mv. cbn [bind fst tp_par tp_ref ex_env en_gfield].
    rewrite Mm. cbn [bind].
    destruct (L h th inb (sf_globalToLocal (ex_station h th inb) xx)) as (el & Lel & Le & Ld).
    rewrite Lel. cbn [bind]. destruct (Ap el Le Ld) as (tp' & -> & T'). cbn [bind].
    destruct (station_qms h th inb (sf_globalToLocal (ex_station h th inb) xx) mom mass Hth) as [q Hq].
    rewrite Hq. cbn [bind].
    destruct (station_projection (tp_par tp') T') as [pr Hpr].
    unfold mkElement. change [sf_u (ex_station h th inb) xx; sf_v (ex_station h th inb) xx] with [V3 1 0 0; V3 0 1 0].
    rewrite Hpr. cbn [bind]. eauto.
Qed.

(** a positive thickness that does not stop the track *)
Lemma thin_enough K : exists th, 1 / 100 <= th <= 2 / 100 /\ th * K <> 1.
Proof.
  destruct (Req_dec (1 / 100 * K) 1) as [Q|Q].
  - exists (2 / 100). split; lra.
  - exists (1 / 100). split; lra.
Qed.

(** the reference track: unit circle through the origin *)
Definition ex_ref : trackParameters := TP m5zero (mk5 1 1 0 0 0) v3zero.
Definition ex_traj (pm : option propagator) : traj := mkTraj ex_ref pm.

Lemma ex_first : calculateSfromXY 0 0 (tp_par ex_ref) (tp_ref ex_ref) = Ok 0.
Proof.
  assert (A := SfromXY_inverse (tp_par ex_ref) (tp_ref ex_ref) 0).
  assert (X : vx (hcurve (tp_par ex_ref) (tp_ref ex_ref) 0) = 0).
  { unfold hcurve, ex_ref. cbn. replace (0 - 0 * 1) with 0 by ring. field. }
  assert (Y : vy (hcurve (tp_par ex_ref) (tp_ref ex_ref) 0) = 0).
  { unfold hcurve, ex_ref. cbn. replace (0 - 0 * 1) with 0 by ring. field. }
  rewrite X, Y in A. apply A; cbn.
  - lra.
  - rewrite Rabs_R0. generalize PI_pos; lra.
  - rewrite Rmult_0_r, Rabs_R0. apply PI_pos.
Qed.

Definition ex_initial : telem := TE 0 ex_ref None false false None [] [] None None None 0.
Lemma ex_ensure pm : ensureInitial (ex_traj pm) = Ok (set_elems (ex_traj pm) [ex_initial]).
Proof.
  unfold ensureInitial, addElement. cbn [ex_traj mkTraj tr_elems tr_ref v3zero vx vy].
  change (V3 0 0 0) with v3zero. fold ex_ref. rewrite ex_first. reflexivity.
Qed.
Lemma pion_pos : 0 < pionMass. Proof. unfold pionMass. lra. Qed.

(** a first hit on a station at height [h] *)
Lemma ex_first_hit pm h inb pos prec id sc : 0 < h ->
  exists th e, 1 / 100 <= th <= 2 / 100 /\
    addMeasurement ex_env (ex_traj pm) pos prec (ex_station h th inb) id sc
    = (set_elems (ex_traj pm) [ex_initial; e], Ok true)
    /\ newMeasurement ex_env pionMass ex_initial pos prec (ex_station h th inb) id sc = Ok (Some e).
Proof.
  intros Hh. destruct (station_new ex_initial pionMass h inb pion_pos) as [K HK].
  - cbn. lra.
  - cbn. lra.
  - cbn. lra.
  - destruct (thin_enough K) as (th & T1 & T2). destruct (HK th) as [HM _]; [lra|auto|].
    destruct (HM pos prec id sc) as [e He].
    exists th, e. split; auto. split; auto.
    unfold addMeasurement, pushElement. rewrite ex_ensure.
    cbn [set_elems tr_elems ex_traj mkTraj tr_mass last]. rewrite He. reflexivity.
Qed.
