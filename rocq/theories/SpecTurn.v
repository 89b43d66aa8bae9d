(** The same program run in a setup that is turned about the z axis and shifted
    along it. *)
From Coq Require Import Reals List Bool ZArith.
From Verif Require Import SpecConst Num Vec Helix Isect Trans Material Traj Fit.
From Verif Require Import SpecSym SpecTraj.
Import ListNotations.
Open Scope R_scope.

(** no mirror, and the z axis stays where it is *)
Definition keeps_axis (g : motion) : Prop :=
  m_flip g = false /\ vx (m_shift g) = 0 /\ vy (m_shift g) = 0.

(** [S'] is the detector surface [S] carried along, with its local coordinates,
    directions and material *)
Record moved_detector (g : motion) (S S' : surface) : Prop := {
  md_surface : moved_surface g S S';
  md_u : forall p, sf_u S' (map_point g p) = map_dir g (sf_u S p);
  md_v : forall p, sf_v S' (map_point g p) = map_dir g (sf_v S p);
  md_local : forall p, sf_globalToLocal S' (map_point g p) = sf_globalToLocal S p;
  md_global : forall uv, sf_localToGlobal S' uv = map_point g (sf_localToGlobal S uv);
  md_innerMat : sf_innerMaterial S' = sf_innerMaterial S;
  md_outerMat : sf_outerMaterial S' = sf_outerMaterial S;
  md_innerThick : sf_innerThickness S' = sf_innerThickness S;
  md_outerThick : sf_outerThickness S' = sf_outerThickness S
}.

(** a track state seen in the turned setup: azimuth equal up to whole turns *)
Definition turned_tp (g : motion) (tp tp' : trackParameters) : Prop :=
  tp_cov tp' = tp_cov tp /\ tp_ref tp' = map_point g (tp_ref tp)
  /\ same_par (tp_par tp') (map_par g (tp_par tp)).

(** both missing, or both there and related *)
Definition both {A B : Type} (R : A -> B -> Prop) (x : option A) (y : option B) : Prop :=
  match x, y with
  | None, None => True
  | Some a, Some b => R a b
  | _, _ => False
  end.

(** the same outcome, with related values *)
Definition alike {A B : Type} (R : A -> B -> Prop) (x : res A) (y : res B) : Prop :=
  match x, y with
  | Ok a, Ok b => R a b
  | Throw, Throw | UB, UB | NonFin, NonFin | Diverge, Diverge => True
  | _, _ => False
  end.

(** an element in the moved setup; [d] is the difference of the path lengths,
    which are counted from the coordinate origin *)
Record turned_elem (g : motion) (d : R) (e e' : telem) : Prop := {
  tu_s : te_s e' = te_s e + d;
  tu_tp : turned_tp g (te_tp e) (te_tp e');
  tu_surf : both (moved_detector g) (te_surf e) (te_surf e');
  tu_meas : te_meas e' = te_meas e;
  tu_scat : te_scat e' = te_scat e;
  tu_dirs : te_dirs e' = option_map (map (map_dir g)) (te_dirs e);
  tu_prec : te_prec e' = te_prec e;
  tu_res : te_res e' = te_res e;
  tu_cls : te_cls e' = option_map (fun p => (map_dir g (fst p), map_dir g (snd p))) (te_cls e);
  tu_proj : te_proj e' = te_proj e;
  tu_jac : te_jac e' = te_jac e;
  tu_id : te_id e' = te_id e
}.

(** a propagator that does not single out a direction orthogonal to z *)
Definition turned_prop (g : motion) (P P' : propagator) : Prop :=
  forall jac dw qop ts te B n,
    P' jac dw qop (map_dir g ts) (map_dir g te) (map_dir g B) n = P jac dw qop ts te B n.

(** a trajectory in the moved setup *)
Record turned_traj (g : motion) (d : R) (t t' : traj) : Prop := {
  tt_ref : turned_tp g (tr_ref t) (tr_ref t');
  tt_prop : both (turned_prop g) (tr_prop t) (tr_prop t');
  tt_mass : tr_mass t' = tr_mass t;
  tt_elems : Forall2 (turned_elem g d) (tr_elems t) (tr_elems t');
  tt_isect : Forall2 (fun a b => fst b = fst a /\ moved_detector g (snd a) (snd b))
               (tr_isect t) (tr_isect t')
}.

(** two instances of std::sort that see their entries through the comparison of
    keys only: with equal keys at equal places they do the same exchanges *)
Definition same_order {A : Type} (key : A -> R) (s s' : list A -> list A) : Prop :=
  forall (R : A -> A -> Prop) l l', (forall a b, R a b -> key b = key a) ->
    Forall2 R l l' -> Forall2 R (s l) (s' l').

(** the surroundings: the field is carried along *)
Record turned_env (g : motion) (E E' : env) : Prop := {
  ev_gfield : forall p, en_gfield E' (map_point g p) = map_dir g (en_gfield E p);
  ev_bfield : forall p, en_bfield E' (map_point g p) = map_dir g (en_bfield E p);
  ev_sortE : same_order te_s (en_sortE E) (en_sortE E');
  ev_sortI : same_order fst (en_sortI E) (en_sortI E')
}.

(** a start state with curvature, an azimuth within one turn of zero and the
    coordinate origin not on the axis of the helix *)
Definition start_ok (tp : trackParameters) : Prop :=
  tp_par tp OMEGA <> 0 /\ Rabs (tp_par tp PHI0) <= 2 * PI /\ off_axis (tp_par tp) (tp_ref tp) 0 0.

(** cylinders have a radius, vertical planes a horizontal unit normal *)
Definition detector_ok (S : surface) : Prop :=
  (forall r c, sf_cyl S = Some (r, c) -> 0 < r)
  /\ (st_plane (sf_type S) = true -> st_parallelToZ (sf_type S) = true ->
      vz (sf_normal S v3zero) = 0 /\ vdot (sf_normal S v3zero) (sf_normal S v3zero) = 1).

(** ... and the motion keeps the coordinate origin on its side of the plane *)
Definition usable (g : motion) (S : surface) : Prop :=
  detector_ok S
  /\ (st_plane (sf_type S) = true -> st_parallelToZ (sf_type S) = true -> plane_side g S).

(** the same call in the moved setup *)
Inductive turned_call (g : motion) : call -> call -> Prop :=
| tc_meas position precision S S' id sc : moved_detector g S S' -> usable g S ->
    turned_call g (CMeas position precision S id sc)
                  (CMeas (map_point g position) precision S' id sc)
| tc_scat S S' : moved_detector g S S' -> usable g S -> turned_call g (CScat S) (CScat S')
| tc_prep : turned_call g CPrep CPrep
| tc_isect l l' : Forall2 (fun S S' => moved_detector g S S' /\ usable g S) l l' ->
    turned_call g (CIsect l) (CIsect l')
| tc_mass m : turned_call g (CMass m) (CMass m).

(** one call: its outcome and the trajectory afterwards ([None] if the call left
    no modelled state) *)
Definition keep (r : res traj) : res bool * option traj :=
  match r with
  | Ok t => (Ok true, Some t)
  | Throw => (Throw, None)
  | UB => (UB, None)
  | NonFin => (NonFin, None)
  | Diverge => (Diverge, None)
  end.
Definition added (r : traj * res bool) : res bool * option traj :=
  match snd r with
  | Ok b => (Ok b, Some (fst r))
  | Throw => (Throw, Some (fst r))
  | bad => (bad, None)
  end.
Definition exec (E : env) (t : traj) (c : call) : res bool * option traj :=
  match c with
  | CMeas position precision surf id sc => added (addMeasurement E t position precision surf id sc)
  | CScat surf => added (addScatterer E t surf)
  | CPrep => keep (prepareForFitting E t)
  | CIsect l => keep (getIntersectionsWithSurfaces E t l)
  | CMass m => (Ok true, Some (setMass t m))
  end.

(** a sequence of calls: all outcomes and the trajectory at the end *)
Fixpoint run (E : env) (t : traj) (cs : list call) : list (res bool) * option traj :=
  match cs with
  | [] => ([], Some t)
  | c :: cs' =>
      match exec E t c with
      | (r, Some t1) => let rest := run E t1 cs' in (r :: fst rest, snd rest)
      | (r, None) => ([r], None)
      end
  end.

(** results of a fit in the turned setup *)
Definition turned_fr (g : motion) (a b : fitResults) : Prop :=
  fr_valid b = fr_valid a /\ fr_chi2 b = fr_chi2 a /\ fr_ndf b = fr_ndf a /\ fr_lost b = fr_lost a
  /\ turned_tp g (fr_tp a) (fr_tp b).

(** the interface object is the same, its results are turned *)
Definition turned_state (g : motion) (st st' : fstate) : Prop :=
  fs_if st' = fs_if st /\ Forall2 (both (turned_fr g)) (fs_heap st) (fs_heap st').

(** all trajectories of the program *)
Definition turned_world (g : motion) (w w' : world) : Prop :=
  forall n, both (fun t t' => exists d, turned_traj g d t t') (w n) (w' n).

(** calls that do not compute Jacobians *)
Definition no_preparation (c : call) : Prop := match c with CPrep => False | _ => True end.
