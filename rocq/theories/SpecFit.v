(** Notions used in the statements about the fit interface. *)
From Coq Require Import Reals List Bool ZArith.
From Verif Require Import Num Vec Helix Isect Trans Material Traj SpecTraj SpecElem Fit.
Import ListNotations.
Open Scope R_scope.

(** calls on one interface object; each is recorded with the trajectories as
    they were at that time, which may have changed in any way in between *)
Inductive fev :=
| EvFit (w : world) (tid : nat) (r : res bool)
| EvGet (w : world) (label : Z) (r : res nat).

(** histories of calls that return or leave by an exception, oldest first *)
Inductive fhist (E : env) (G : gbl) : list fev -> fstate -> Prop :=
| fh_nil : fhist E G [] fs_start
| fh_fit log st w tid st' r : fhist E G log st -> fit G w st tid = (st', r) ->
    (exists b, r = Ok b) \/ r = Throw -> fhist E G (log ++ [EvFit w tid r]) st'
| fh_get log st w label st' r : fhist E G log st -> getResults E G w st label = (st', r) ->
    (exists a, r = Ok a) \/ r = Throw -> fhist E G (log ++ [EvGet w label r]) st'.

Definition no_fit (l : list fev) : Prop := forall w tid r, ~ In (EvFit w tid r) l.

(** the result object at an address *)
Definition holds (st : fstate) (a : nat) (fr : fitResults) : Prop :=
  nth_error (fs_heap st) a = Some (Some fr).
Definition deleted (st : fstate) (a : nat) : Prop := nth_error (fs_heap st) a = Some None.

(** What a result for [label] should be, given the points of the fit and the
    trajectory at the time of the query: the element with that index, its
    parameters plus the correction in the curvilinear frame transformed by J,
    and J C J^T. *)
Definition is_result (E : env) (G : gbl) (points : list gpoint) (t : traj) (label : Z)
  (fr : fitResults) : Prop :=
  exists e J rv chi2 ndf lost err corr cov,
    (0 <= label)%Z /\ nth_error (tr_elems t) (Z.to_nat label) = Some e
    /\ curvilinearToL3Jacobian (tp_par (te_tp e)) (en_bfield E (tp_ref (te_tp e))) = Ok J
    /\ gbl_fit G points = (rv, (chi2, ndf, lost))
    /\ gbl_results G points label = (err, corr, cov)
    /\ fr_valid fr = true /\ fr_chi2 fr = chi2 /\ fr_lost fr = lost
    /\ fr_ndf fr = (ndf mod 2 ^ 32)%Z
    /\ tp_ref (fr_tp fr) = tp_ref (te_tp e)
    /\ (err = 0%Z -> forall i, tp_par (fr_tp fr) i = tp_par (te_tp e) i + sum5 (fun j => J i j * corr j))
    /\ (err <> 0%Z -> forall i, tp_par (fr_tp fr) i = tp_par (te_tp e) i)
    /\ (forall i j, tp_cov (fr_tp fr) i j = sum5 (fun k => sum5 (fun l => J i k * cov k l * J j l))).

(** ** what the fitter should receive *)

(** [th] is the outcome of the multiple-scattering computation for element [e] of a
    trajectory with the history [cs]: made when the element was added, where the track
    arrived at the surface, with the momentum before the energy loss and the mass at
    that time *)
Definition scattering_angle (E : env) (ref : trackParameters) (prop : option propagator) (cs : list call)
  (e : telem) (th : res R) : Prop :=
  exists cs1 c cs2 t1 surf cb lossAt s xx mom,
    cs = cs1 ++ c :: cs2 /\ history E any_call (mkTraj ref prop) cs1 t1
    /\ te_surf e = Some surf
    /\ ((c = CScat surf /\ cb = true /\ lossAt = sf_globalToLocal surf)
        \/ exists position precision id, c = CMeas position precision surf id true /\ cb = false
             /\ lossAt = (fun _ => sf_globalToLocal surf position))
    /\ arrival E t1 surf cb lossAt s xx mom (te_tp e)
    /\ th = computeQMS_uv surf (sf_globalToLocal surf xx) mom (tr_mass t1).

Definition scatterer_for (E : env) (ref : trackParameters) (prop : option propagator) (cs : list call)
  (e : telem) (s : (R * R) * option (R * R * R * R)) : Prop :=
  exists th, scattering_angle E ref prop cs e th
    /\ ((exists a, th = Ok a /\ a <> 0 /\ s = ((0, 0), Some (1 / (a * a), 0, 0, 1 / (a * a))))
        \/ ((th = Ok 0 \/ th = NonFin) /\ s = ((0, 0), None))).

Definition measurement_for (e : telem) (m : (R * R * R * R) * (R * R) * (option R * option R)) : Prop :=
  exists proj r0 r1 p0 p1 rest, te_proj e = Some proj /\ te_res e = [r0; r1]
    /\ te_prec e = p0 :: p1 :: rest /\ m = (proj, (r0, r1), (p0, p1)).

Definition point_for (E : env) (ref : trackParameters) (prop : option propagator) (cs : list call)
  (e : telem) (p : gpoint) : Prop :=
  te_jac e = Some (gp_jac p)
  /\ (te_meas e = false -> gp_meas p = None)
  /\ (te_meas e = true -> exists m, gp_meas p = Some m /\ measurement_for e m)
  /\ (te_scat e = false -> gp_scat p = None)
  /\ (te_scat e = true -> exists s, gp_scat p = Some s /\ scatterer_for E ref prop cs e s).

(** an element that can be handed to the fitter *)
Definition fittable (e : telem) : Prop :=
  te_jac e <> None /\ (te_meas e = true -> (2 <= length (te_prec e))%nat).

(** a measurement call with at least one precision, or on a scatterer *)
Definition has_precision (t : traj) (c : call) : Prop :=
  match c with CMeas _ precision _ _ sc => precision <> [] \/ sc = true | _ => True end.

(** calls that leave the elements alone *)
Definition keeps_elements (c : call) : Prop :=
  match c with CIsect _ => True | CMass _ => True | _ => False end.
