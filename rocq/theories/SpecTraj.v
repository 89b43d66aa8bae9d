(** Notions used in the statements about trajectories. *)
From Coq Require Import Reals List Bool ZArith Permutation Sorted.
From Verif Require Import SpecConst Num Vec Helix Isect Trans Material Traj SpecIsect SpecHelix.
Import ListNotations.
Open Scope R_scope.

(** non-decreasing in the key *)
Definition ordered_by {A : Type} (key : A -> R) (l : list A) : Prop :=
  StronglySorted (fun a b => key a <= key b) l.

Definition ordered (l : list telem) : Prop := ordered_by te_s l.

(** contract of std::sort with the comparison [key a < key b]: a permutation in
    non-decreasing order; nothing is promised about equal keys *)
Definition sorts {A : Type} (key : A -> R) (srt : list A -> list A) : Prop :=
  forall l, Permutation l (srt l) /\ ordered_by key (srt l).

Definition env_ok (E : env) : Prop := sorts te_s (en_sortE E) /\ sorts fst (en_sortI E).

(** calls of the public interface that change a trajectory *)
Inductive call :=
| CMeas (position : vec3) (precision : list R) (surf : surface) (id : Z) (isScatterer : bool)
| CScat (surf : surface)
| CPrep
| CIsect (surfaces : list surface)
| CMass (m : R).

(** a call that returns, or (for the additions) leaves by an exception *)
Inductive step (E : env) (t : traj) : call -> traj -> Prop :=
| step_meas position precision surf id sc t' r :
    addMeasurement E t position precision surf id sc = (t', r) ->
    (exists b, r = Ok b) \/ r = Throw -> step E t (CMeas position precision surf id sc) t'
| step_scat surf t' r : addScatterer E t surf = (t', r) ->
    (exists b, r = Ok b) \/ r = Throw -> step E t (CScat surf) t'
| step_prep t' : prepareForFitting E t = Ok t' -> step E t CPrep t'
| step_isect l t' : getIntersectionsWithSurfaces E t l = Ok t' -> step E t (CIsect l) t'
| step_mass m : step E t (CMass m) (setMass t m).

(** histories of calls satisfying [ok], from [t0] *)
Inductive history (E : env) (ok : traj -> call -> Prop) (t0 : traj) : list call -> traj -> Prop :=
| hist_nil : history E ok t0 [] t0
| hist_snoc cs t c t' : history E ok t0 cs t -> ok t c -> step E t c t' ->
    history E ok t0 (cs ++ [c]) t'.

Definition any_call (t : traj) (c : call) : Prop := True.

(** an element that is neither measurement nor scatterer *)
Definition plain (e : telem) : Prop :=
  te_surf e = None /\ te_meas e = false /\ te_scat e = false.

(** the last element, of which an addition starts: the initial one (reference
    parameters) if there is none *)
Definition from_state (t : traj) : trackParameters :=
  match rev (tr_elems t) with [] => tr_ref t | e :: _ => te_tp e end.

(** the crossing found by an addition lies within half a turn of the last
    element *)
Definition within_half_turn (t : traj) (c : call) : Prop :=
  let go surf cb := forall s xx,
    intersectWithSurface surf (tp_par (from_state t)) (tp_ref (from_state t))
      (OVal 0 v3zero) 1 cb = Ok (true, OVal s xx) ->
    Rabs (tp_par (from_state t) OMEGA * s) < PI in
  match c with
  | CMeas _ _ surf _ _ => go surf false
  | CScat surf => go surf true
  | _ => True
  end.

Definition surfaces_ok (t : traj) (c : call) : Prop :=
  match c with
  | CMeas _ _ surf _ _ => wf_surface surf
  | CScat surf => wf_surface surf
  | _ => True
  end.

(** a point of a surface (vertical planes whose normal points towards the
    origin are replaced by their mirror image, see C15; cones to the accuracy
    of the search, see C20) *)
Definition on_surface (surf : surface) (x : vec3) : Prop :=
  let t := sf_type surf in
  (exists rho c, st_cylinder t = true /\ sf_cyl surf = Some (rho, c) /\ on_cylinder rho c x)
  \/ (st_plane t = true /\ st_parallelToZ t = true
      /\ vdot x (sf_normal surf v3zero) = Rabs (vdot (sf_origin surf) (sf_normal surf v3zero)))
  \/ (st_plane t = true /\ st_orthogonalToZ t = true /\ vz x = vz (sf_origin surf))
  \/ (st_cone t = true /\ Rabs (sf_distance surf x) < newton_tol).

(** everything but the Jacobian *)
Definition same_but_jacobian (a b : telem) : Prop :=
  te_s a = te_s b /\ te_tp a = te_tp b /\ te_surf a = te_surf b /\ te_meas a = te_meas b
  /\ te_scat a = te_scat b /\ te_dirs a = te_dirs b /\ te_prec a = te_prec b
  /\ te_res a = te_res b /\ te_cls a = te_cls b /\ te_proj a = te_proj b /\ te_id a = te_id b.

(** what a fresh intersection query finds for one surface: an in-bounds
    crossing of the reference helix ahead of it, in the first half turn *)
Definition found (t : traj) (surf : surface) (s : R) : Prop :=
  (exists xx, intersectWithSurface surf (tp_par (tr_ref t)) (tp_ref (tr_ref t))
                (OVal 0 v3zero) 1 true = Ok (true, OVal s xx))
  /\ 0 <= s < PI * calculateRadius (tp_par (tr_ref t)).

(** the entries for a list of surfaces, in the order of the list *)
Inductive all_found (t : traj) : list surface -> list (R * surface) -> Prop :=
| af_nil : all_found t [] []
| af_hit surf l s ents : found t surf s -> all_found t l ents ->
    all_found t (surf :: l) ((s, surf) :: ents)
| af_miss surf l ents : (forall s, ~ found t surf s) -> all_found t l ents ->
    all_found t (surf :: l) ents.

(** path length at which an addition starts *)
Definition from_s (t : traj) (s : R) : Prop :=
  match rev (tr_elems t) with
  | [] => calculateSfromXY 0 0 (tp_par (tr_ref t)) (tp_ref (tr_ref t)) = Ok s
  | e :: _ => s = te_s e
  end.

(** the trajectory before an addition looks at the surface: as it was, with the
    initial element if it had none *)
Definition with_initial (t t1 : traj) : Prop :=
  (tr_elems t <> [] /\ t1 = t)
  \/ (tr_elems t = [] /\ exists i, t1 = set_elems t [i] /\ plain i /\ te_tp i = tr_ref t
        /\ calculateSfromXY 0 0 (tp_par (tr_ref t)) (tp_ref (tr_ref t)) = Ok (te_s i)
        /\ te_dirs i = None /\ te_prec i = [] /\ te_res i = [] /\ te_jac i = None /\ te_id i = 0%Z
        /\ te_cls i = None /\ te_proj i = None).

(** one element more at the end, nothing else changed *)
Definition extended (t1 t' : traj) (e : telem) : Prop :=
  t' = set_elems t1 (tr_elems t1 ++ [e]).

(** energy-loss argument of the propagator: 2 dE / (beta^2 E) for a scatterer
    (the energy loss where the stored state crosses the element's surface), 0
    otherwise *)
Definition energy_term (E : env) (mass : R) (e : telem) (nrj : R) : Prop :=
  (te_scat e = false /\ nrj = 0)
  \/ (te_scat e = true /\ exists surf el, te_surf e = Some surf
        /\ computeEnergyLoss_tp (en_gfield E) surf (te_tp e) mass = Ok (inr el)
        /\ el_beta el * el_beta el * el_energy el <> 0
        /\ nrj = 2 * el_deltaE el / (el_beta el * el_beta el * el_energy el)).

(** the Jacobian of an element whose predecessor in the sorted list lies at
    path length [prevS] *)
Definition jacobian_for (E : env) (t : traj) (prevS : R) (e : telem) (J : mat5) : Prop :=
  exists getJacobian nrj ts te,
    tr_prop t = Some getJacobian
    /\ energy_term E (tr_mass t) e nrj
    /\ tr_tangentAt t prevS = Ok ts /\ tr_tangentAt t (te_s e) = Ok te
    /\ getJacobian m5zero
         ((te_s e - prevS) / cos (atan (tp_par (te_tp e) TANL)))
         (calculateQoverP (tp_par (te_tp e)) (vz (en_bfield E (tp_ref (te_tp e)))))
         ts te (en_bfield E (tp_ref (te_tp e))) nrj = Ok J.

(** the elements after the first, in order, with their Jacobians *)
Inductive prepared (E : env) (t : traj) : R -> list telem -> list telem -> Prop :=
| prep_nil prevS : prepared E t prevS [] []
| prep_cons prevS e e' l l' J : same_but_jacobian e e' -> te_jac e' = Some J ->
    jacobian_for E t prevS e J -> prepared E t (te_s e) l l' ->
    prepared E t prevS (e :: l) (e' :: l').
