(** core/src/trajectory.cc, core/src/trajectoryElement.cc: the trajectory and
    its elements.

    Simplifications common to the file.  Pointers to elements are replaced by
    the elements themselves (no two entries of the list are the same object;
    ownership is treated in Heap.v).  Printing is left out.  A call whose
    outcome is [UB], [NonFin] or [Diverge] has no modelled state afterwards; a
    call that ends with an exception keeps the state it had reached. *)
From Coq Require Import Reals List Bool ZArith.
From Verif Require Import Num Vec Helix Isect Trans Material.
Import ListNotations.
Open Scope R_scope.

(** trajectoryElement.hh 168-192.  [te_prec] holds [None] for a precision that
    is not finite; [te_jac] is the pointer _jacobianFromPrevious. *)
Record telem := TE {
  te_s : R;                            (* _arclength *)
  te_tp : trackParameters;             (* _trkParam *)
  te_surf : option surface;            (* _surface *)
  te_meas : bool;                      (* _measurement *)
  te_scat : bool;                      (* _scatterer *)
  te_dirs : option (list vec3);        (* _measDirections *)
  te_prec : list (option R);           (* _precisions *)
  te_res : list R;                     (* _residuals *)
  te_cls : option (vec3 * vec3);       (* _localCurvilinearSystem *)
  te_proj : option (R * R * R * R);    (* _localToMeasurementProjection *)
  te_jac : option mat5;                (* _jacobianFromPrevious *)
  te_id : Z                            (* _id *)
}.

(** IPropagation::getJacobian, core/include/IPropagation.hh 37: the incoming
    matrix, dw, q/p, both tangents, field and energy loss; the returned flag is
    ignored by the caller. *)
Definition propagator := mat5 -> R -> R -> vec3 -> vec3 -> vec3 -> R -> res mat5.

(** Everything outside the trajectory: the field of the global geometry
    (IGeometry::instance(), used by the momentum functions), the field of the
    geometry given to the constructor, and the two instances of std::sort. *)
Record env := Env {
  en_gfield : vec3 -> vec3;
  en_bfield : vec3 -> vec3;
  en_sortE : list telem -> list telem;
  en_sortI : list (R * surface) -> list (R * surface)
}.

(** trajectory.hh 108-127 *)
Record traj := TR {
  tr_ref : trackParameters;            (* _referenceParameters *)
  tr_prop : option propagator;         (* _propagation; None is the null pointer *)
  tr_mass : R;                         (* _mass *)
  tr_elems : list telem;               (* _initialTrajectoryElements *)
  tr_isect : list (R * surface)        (* _intersectionsList *)
}.

(** constructors, trajectory.cc 18-27 *)
Definition mkTraj (tp : trackParameters) (pm : option propagator) : traj :=
  TR tp pm pionMass [] [].
(** trajectory.hh, setMass *)
Definition setMass (t : traj) (m : R) : traj :=
  TR (tr_ref t) (tr_prop t) m (tr_elems t) (tr_isect t).

Definition set_elems (t : traj) (l : list telem) : traj :=
  TR (tr_ref t) (tr_prop t) (tr_mass t) l (tr_isect t).
Definition set_isect (t : traj) (l : list (R * surface)) : traj :=
  TR (tr_ref t) (tr_prop t) (tr_mass t) (tr_elems t) l.

(** trajectory.cc 49 *)
Definition bigNegative : R := - (10 ^ 99).

(** the loop of trajectory.cc 53-65 *)
Fixpoint elementAt_loop (s prevS : R) (prevElement : telem) (l : list telem) : telem :=
  match l with
  | [] => prevElement
  | e :: l' =>
      let newS := te_s e in
      if Rle_dec prevS s then
        (if Rlt_dec s newS then prevElement else elementAt_loop s newS e l')
      else elementAt_loop s newS e l'
  end.

(** trajectory.cc 47-68.  [begin()+1] of an empty vector is undefined. *)
Definition trajectoryElementAt (t : traj) (s : R) : res telem :=
  match tr_elems t with
  | [] => UB
  | e :: l => Ok (elementAt_loop s bigNegative e l)
  end.

(** trajectory.cc 71-79 (the null case 78 is not reached, see above) *)
Definition tr_pointAt (t : traj) (s : R) : res vec3 :=
  e <- trajectoryElementAt t s ;;
  pointAt (s - te_s e) (tp_par (te_tp e)) (tp_ref (te_tp e)).

(** trajectory.cc 84-92 *)
Definition tr_tangentAt (t : traj) (s : R) : res vec3 :=
  e <- trajectoryElementAt t s ;;
  Ok (calculateTangent (s - te_s e) (tp_par (te_tp e))).

(** one pass of trajectory.cc 113-126.  A result that is not finite fails the
    comparison with [maxS]. *)
Definition isectOne (t : traj) (maxS : R) (acc : list (R * surface)) (surf : surface)
  : res (list (R * surface)) :=
  r <- intersectWithSurface surf (tp_par (tr_ref t)) (tp_ref (tr_ref t))
         (OVal 0 v3zero) 1 true ;;
  Ok (match r with
      | (true, OVal s _) =>
          if Rle_dec 0 s then (if Rlt_dec s maxS then acc ++ [(s, surf)] else acc) else acc
      | _ => acc
      end).

Fixpoint isectAll (t : traj) (maxS : R) (acc : list (R * surface)) (l : list surface)
  : res (list (R * surface)) :=
  match l with
  | [] => Ok acc
  | surf :: l' => acc' <- isectOne t maxS acc surf ;; isectAll t maxS acc' l'
  end.

(** trajectory.cc 108-131; the returned reference is to the member list.
    Simplification: after an exception the entries found before it would stay
    in the (unsorted) list, this state is not modelled. *)
Definition getIntersectionsWithSurfaces (E : env) (t : traj) (surfaces : list surface)
  : res traj :=
  let maxS := PI * Rabs (calculateRadius (tp_par (tr_ref t))) in
  l <- isectAll t maxS (tr_isect t) surfaces ;;
  Ok (set_isect t (en_sortI E l)).

(** constructor B of trajectoryElement.cc 41-44 with trajectory.cc 313-321 *)
Definition addElement (t : traj) (point : vec3) (id : Z) : res traj :=
  s <- calculateSfromXY (vx point) (vy point) (tp_par (tr_ref t)) (tp_ref (tr_ref t)) ;;
  Ok (set_elems t (tr_elems t ++
        [TE s (tr_ref t) None false false None [] [] None None None id])).

(** constructor A of trajectoryElement.cc 25-37: the projection (which may
    throw) comes first, then a single precision is completed by a zero. *)
Definition mkElement (s : R) (tp : trackParameters) (surf : surface) (dirs : list vec3)
  (prec : list (option R)) (resid : list R) (cls : vec3 * vec3) (id : Z)
  (isScatterer hasMeasurement : bool) : res telem :=
  proj <- calculateLocalToMeasurementProjectionMatrix (fst cls) (snd cls) dirs ;;
  let prec' := match prec with [p] => [p; Some 0] | _ => prec end in
  Ok (TE s tp (Some surf) hasMeasurement isScatterer (Some dirs) prec' resid
        (Some cls) (Some proj) None id).

(** a product [qms*qms] pushed into a precision vector: finite or not *)
Definition qms2 (q : res R) : res (option R) :=
  match q with
  | Ok x => Ok (Some (x * x))
  | NonFin => Ok None
  | Throw => Throw
  | UB => UB
  | Diverge => Diverge
  end.

(** [trkParam->parameters()(OMEGA) /= (1. - deltaE/energy)], trajectory.cc 186,
    279.  A non-finite quotient makes the stored curvature non-finite. *)
Definition applyLoss (tp : trackParameters) (el : eloss) : res trackParameters :=
  q <- rdiv (el_deltaE el) (el_energy el) ;;
  om <- rdiv (tp_par tp OMEGA) (1 - q) ;;
  Ok (TP (tp_cov tp) (v5set (tp_par tp) OMEGA om) (tp_ref tp)).

(** trajectory.cc 153-239 for a given last element; [None] is [return false]. *)
Definition newMeasurement (E : env) (mass : R) (last : telem) (position : vec3)
  (precision : list R) (surf : surface) (id : Z) (isScatterer : bool)
  : res (option telem) :=
  let tP := te_tp last in
  r <- intersectWithSurface surf (tp_par tP) (tp_ref tP) (OVal 0 v3zero) 1 false ;;
  match r with
  | (false, _) => Ok None
  | (true, OBad) => NonFin
  | (true, OVal s0 xx) =>
      let s := s0 + te_s last in
      let referenceUV := sf_globalToLocal surf xx in
      mv <- moveHelixTo tP xx false ;;
      let moved := fst mv in
      mom <- momentumAtPCA (en_gfield E) (tp_par moved) (tp_ref moved) ;;
      let measuredUV := sf_globalToLocal surf position in
      el <- computeEnergyLoss_uv surf measuredUV mom mass ;;
      trkParam <- applyLoss moved el ;;
      let residuals := [fst measuredUV - fst referenceUV; snd measuredUV - snd referenceUV] in
      let measDir := [sf_u surf position; sf_v surf position] in
      new_prec <-
        (if isScatterer then
           q <- qms2 (computeQMS_uv surf referenceUV mom mass) ;;
           Ok (map Some precision ++ [q; Some 0; Some 0])
         else Ok (map Some precision)) ;;
      e <- mkElement s trkParam surf measDir new_prec residuals
             (calculateLocalCurvilinearSystem 0 (tp_par trkParam)) id isScatterer true ;;
      Ok (Some e)
  end.

(** trajectory.cc 249-309 for a given last element; [None] is the early return. *)
Definition newScatterer (E : env) (mass : R) (last : telem) (surf : surface)
  : res (option telem) :=
  let tP := te_tp last in
  r <- intersectWithSurface surf (tp_par tP) (tp_ref tP) (OVal 0 v3zero) 1 true ;;
  match r with
  | (false, _) => Ok None
  | (true, OBad) => NonFin
  | (true, OVal s0 xx) =>
      let s := s0 + te_s last in
      mv <- moveHelixTo tP xx false ;;
      let moved := fst mv in
      let referenceUV := sf_globalToLocal surf xx in
      mom <- momentumAtPCA (en_gfield E) (tp_par moved) (tp_ref moved) ;;
      el <- computeEnergyLoss_uv surf referenceUV mom mass ;;
      trkParam <- applyLoss moved el ;;
      let measDir := [sf_u surf xx; sf_v surf xx] in
      q <- qms2 (computeQMS_uv surf referenceUV mom mass) ;;
      e <- mkElement s trkParam surf measDir [q; Some 0; Some 0] [0; 0]
             (calculateLocalCurvilinearSystem 0 (tp_par trkParam)) 0 true false ;;
      Ok (Some e)
  end.

(** [if(trajectoryElements().empty()) addElement(Vector3D(), 0)],
    trajectory.cc 148-151, 244-247 *)
Definition ensureInitial (t : traj) : res traj :=
  match tr_elems t with
  | [] => addElement t v3zero 0
  | _ => Ok t
  end.

(** outcome of an addition: the new state and the returned value *)
Definition pushElement (t : traj) (new : telem -> res (option telem)) : traj * res bool :=
  match ensureInitial t with
  | Ok t1 =>
      match tr_elems t1 with
      | [] => (t1, UB)               (* back() of an empty vector: not reached *)
      | e0 :: l =>
          match new (last l e0) with
          | Ok None => (t1, Ok false)
          | Ok (Some e) => (set_elems t1 (tr_elems t1 ++ [e]), Ok true)
          | Throw => (t1, Throw)
          | UB => (t1, UB)
          | NonFin => (t1, NonFin)
          | Diverge => (t1, Diverge)
          end
      end
  | Throw => (t, Throw)
  | UB => (t, UB)
  | NonFin => (t, NonFin)
  | Diverge => (t, Diverge)
  end.

(** trajectory.cc 144-240 *)
Definition addMeasurement (E : env) (t : traj) (position : vec3) (precision : list R)
  (surf : surface) (id : Z) (isScatterer : bool) : traj * res bool :=
  pushElement t (fun last =>
    newMeasurement E (tr_mass t) last position precision surf id isScatterer).

(** trajectory.cc 242-310; the C++ function returns nothing, the flag tells
    whether an element was added *)
Definition addScatterer (E : env) (t : traj) (surf : surface) : traj * res bool :=
  pushElement t (fun last => newScatterer E (tr_mass t) last surf).

(** trajectoryElement.hh 149-155 *)
Definition setJacobian (e : telem) (j : mat5) : telem :=
  TE (te_s e) (te_tp e) (te_surf e) (te_meas e) (te_scat e) (te_dirs e) (te_prec e)
     (te_res e) (te_cls e) (te_proj e) (Some j) (te_id e).

(** energy-loss term, trajectory.cc 366-379.  [e] and [b] are uninitialised;
    computeEnergyLoss leaves them so if it finds no intersection. *)
Definition lossTerm (E : env) (mass : R) (e : telem) : res R :=
  if te_scat e then
    match te_surf e with
    | None => UB
    | Some surf =>
        r <- computeEnergyLoss_tp (en_gfield E) surf (te_tp e) mass ;;
        match r with
        | inl _ => UB
        | inr el => rdiv (2 * el_deltaE el) (el_beta el * el_beta el * el_energy el)
        end
    end
  else Ok 0.

(** one pass of the loop trajectory.cc 349-392 *)
Definition prepareOne (E : env) (t : traj) (prevS : R) (e : telem) : res telem :=
  let trkParam := te_tp e in
  let cosLambda := cos (calculateLambda (tp_par trkParam)) in
  let B := en_bfield E (tp_ref trkParam) in
  let qbyp := calculateQoverP (tp_par trkParam) (vz B) in
  let currS := te_s e in
  dw <- rdiv (currS - prevS) cosLambda ;;
  nrj <- lossTerm E (tr_mass t) e ;;
  tstart <- tr_tangentAt t prevS ;;
  tend <- tr_tangentAt t currS ;;
  match tr_prop t with
  | None => UB
  | Some getJacobian =>
      jacob <- getJacobian m5zero dw qbyp tstart tend B nrj ;;
      Ok (setJacobian e jacob)
  end.

Fixpoint prepareLoop (E : env) (t : traj) (prevS : R) (l : list telem) : res (list telem) :=
  match l with
  | [] => Ok []
  | e :: l' =>
      e' <- prepareOne E t prevS e ;;
      l'' <- prepareLoop E t (te_s e) l' ;;
      Ok (e' :: l'')
  end.

(** trajectory.cc 333-394.  The tangents are taken from the sorted list; the
    Jacobians set on the way do not enter them.  [begin()+1] of an empty vector
    is undefined. *)
Definition prepareForFitting (E : env) (t : traj) : res traj :=
  let t1 := set_elems t (en_sortE E (tr_elems t)) in
  match tr_elems t1 with
  | [] => UB
  | e0 :: l =>
      let e0' := setJacobian e0 (m5Unit m5zero) in
      l' <- prepareLoop E t1 0 l ;;
      Ok (set_elems t1 (e0' :: l'))
  end.
