(** Memory of a trajectory: the objects allocated with [new] and freed with
    [delete] in core/src/trajectory.cc, core/src/trajectoryElement.cc,
    core/include/trajectoryElement.hh and util/src/utilities.cc.

    The functions follow those of Traj.v and add the allocations at the places
    where the C++ code has them.  Memory of std::vector members held by value is
    not modelled, nor is failure of [new].  Addresses are not reused. *)
From Coq Require Import Reals List Bool ZArith.
From Verif Require Import Num Vec Helix Isect Trans Material Traj.
Import ListNotations.
Open Scope R_scope.

(** trajectoryElement, trackParameters, vector of measurement directions, pair of
    vectors (curvilinear frame), vector of doubles (projection), Jacobian *)
Inductive kind := KElem | KParams | KDirs | KFrame | KProj | KJac.

(** objects by address; [None] is a freed one *)
Definition heap := list (option kind).

Definition kind_eqb (a b : kind) : bool :=
  match a, b with
  | KElem, KElem | KParams, KParams | KDirs, KDirs | KFrame, KFrame | KProj, KProj | KJac, KJac => true
  | _, _ => false
  end.

Fixpoint clear (h : heap) (a : nat) : heap :=
  match h, a with
  | [], _ => []
  | _ :: h', O => None :: h'
  | x :: h', S n => x :: clear h' n
  end.

(** computations that allocate and free, and may throw or be undefined *)
Definition M (A : Type) : Type := heap -> heap * res A.
Definition mret {A : Type} (x : A) : M A := fun h => (h, Ok x).
Definition lift {A : Type} (r : res A) : M A := fun h => (h, r).
Definition mbind {A B : Type} (m : M A) (f : A -> M B) : M B := fun h =>
  match m h with
  | (h', Ok x) => f x h'
  | (h', Throw) => (h', Throw)
  | (h', UB) => (h', UB)
  | (h', NonFin) => (h', NonFin)
  | (h', Diverge) => (h', Diverge)
  end.
Notation "x <~ m ;; f" := (mbind m (fun x => f)) (at level 61, m at next level, right associativity).

(** [new] *)
Definition malloc (k : kind) : M nat := fun h => (h ++ [Some k], Ok (length h)).
(** [delete]: undefined unless there is a live object of that type *)
Definition mfree (k : kind) (a : nat) : M unit := fun h =>
  match nth_error h a with
  | Some (Some k') => if kind_eqb k k' then (clear h a, Ok tt) else (h, UB)
  | _ => (h, UB)
  end.
(** [if(p) delete p] *)
Definition mfreeOpt (k : kind) (a : option nat) : M unit :=
  match a with Some a => mfree k a | None => mret tt end.

(** an element with the address of itself and of what it points to *)
Record helem := HE {
  he_val : telem;
  he_self : nat;
  he_params : nat;
  he_dirs : option nat;
  he_frame : option nat;
  he_proj : option nat;
  he_jac : option nat
}.

(** a trajectory; the element list of [ht_base] is not used *)
Record htraj := HT { ht_base : traj; ht_elems : list helem }.
Definition erase (t : htraj) : traj := set_elems (ht_base t) (map he_val (ht_elems t)).
Definition hset_elems (t : htraj) (l : list helem) : htraj := HT (ht_base t) l.

(** constructor of trajectory, trajectory.cc 17-28 *)
Definition hTraj (tp : trackParameters) (pm : option propagator) : htraj := HT (mkTraj tp pm) [].

(** trajectory.cc 313-321 *)
Definition hAddElement (t : htraj) (point : vec3) (id : Z) : M htraj :=
  let b := ht_base t in
  s <~ lift (calculateSfromXY (vx point) (vy point) (tp_par (tr_ref b)) (tp_ref (tr_ref b))) ;;
  trkParam <~ malloc KParams ;;
  self <~ malloc KElem ;;
  mret (hset_elems t (ht_elems t ++
    [HE (TE s (tr_ref b) None false false None [] [] None None None id) self trkParam None None None None])).

(** [new trajectoryElement(..)], trajectoryElement.cc 25-37, 78-85: the projection
    vector is allocated (utilities.cc 289) before the matrix is found singular.
    When a constructor throws, the memory of the object itself is released. *)
Definition hMkElement (s : R) (tp : trackParameters) (surf : surface) (dirs : list vec3)
  (prec : list (option R)) (resid : list R) (cls : vec3 * vec3) (id : Z) (isScatterer hasMeasurement : bool)
  (trkParam measDir lCLS : nat) : M helem :=
  self <~ malloc KElem ;;
  retVec <~ malloc KProj ;;
  match mkElement s tp surf dirs prec resid cls id isScatterer hasMeasurement with
  | Ok e => mret (HE e self trkParam (Some measDir) (Some lCLS) (Some retVec) None)
  | Throw => _ <~ mfree KElem self ;; lift Throw
  | UB => lift UB
  | NonFin => lift NonFin
  | Diverge => lift Diverge
  end.

(** trajectory.cc 153-239 *)
Definition hNewMeasurement (E : env) (mass : R) (last : telem) (position : vec3)
  (precision : list R) (surf : surface) (id : Z) (isScatterer : bool) : M (option helem) :=
  let tP := te_tp last in
  r <~ lift (intersectWithSurface surf (tp_par tP) (tp_ref tP) (OVal 0 v3zero) 1 false) ;;
  match r with
  | (false, _) => mret None
  | (true, OBad) => lift NonFin
  | (true, OVal s0 xx) =>
      let s := s0 + te_s last in
      let referenceUV := sf_globalToLocal surf xx in
      trkParamA <~ malloc KParams ;;
      mv <~ lift (moveHelixTo tP xx false) ;;
      let moved := fst mv in
      mom <~ lift (momentumAtPCA (en_gfield E) (tp_par moved) (tp_ref moved)) ;;
      let measuredUV := sf_globalToLocal surf position in
      el <~ lift (computeEnergyLoss_uv surf measuredUV mom mass) ;;
      trkParam <~ lift (applyLoss moved el) ;;
      measDirA <~ malloc KDirs ;;
      let residuals := [fst measuredUV - fst referenceUV; snd measuredUV - snd referenceUV] in
      let measDir := [sf_u surf position; sf_v surf position] in
      new_prec <~
        (if isScatterer then
           q <~ lift (qms2 (computeQMS_uv surf referenceUV mom mass)) ;;
           mret (map Some precision ++ [q; Some 0; Some 0])
         else mret (map Some precision)) ;;
      lCLS <~ malloc KFrame ;;
      e <~ hMkElement s trkParam surf measDir new_prec residuals
             (calculateLocalCurvilinearSystem 0 (tp_par trkParam)) id isScatterer true trkParamA measDirA lCLS ;;
      mret (Some e)
  end.

(** trajectory.cc 249-309 *)
Definition hNewScatterer (E : env) (mass : R) (last : telem) (surf : surface) : M (option helem) :=
  let tP := te_tp last in
  r <~ lift (intersectWithSurface surf (tp_par tP) (tp_ref tP) (OVal 0 v3zero) 1 true) ;;
  match r with
  | (false, _) => mret None
  | (true, OBad) => lift NonFin
  | (true, OVal s0 xx) =>
      let s := s0 + te_s last in
      trkParamA <~ malloc KParams ;;
      mv <~ lift (moveHelixTo tP xx false) ;;
      let moved := fst mv in
      let referenceUV := sf_globalToLocal surf xx in
      mom <~ lift (momentumAtPCA (en_gfield E) (tp_par moved) (tp_ref moved)) ;;
      el <~ lift (computeEnergyLoss_uv surf referenceUV mom mass) ;;
      trkParam <~ lift (applyLoss moved el) ;;
      measDirA <~ malloc KDirs ;;
      let measDir := [sf_u surf xx; sf_v surf xx] in
      q <~ lift (qms2 (computeQMS_uv surf referenceUV mom mass)) ;;
      lCLS <~ malloc KFrame ;;
      e <~ hMkElement s trkParam surf measDir [q; Some 0; Some 0] [0; 0]
             (calculateLocalCurvilinearSystem 0 (tp_par trkParam)) 0 true false trkParamA measDirA lCLS ;;
      mret (Some e)
  end.

(** trajectory.cc 148-151, 244-247 *)
Definition hEnsureInitial (t : htraj) : M htraj :=
  match ht_elems t with [] => hAddElement t v3zero 0 | _ => mret t end.

(** as [pushElement]: the trajectory is kept when an exception is thrown *)
Definition hPush (t : htraj) (new : telem -> M (option helem)) (h : heap) : heap * htraj * res bool :=
  match hEnsureInitial t h with
  | (h1, Ok t1) =>
      match ht_elems t1 with
      | [] => (h1, t1, UB)
      | e0 :: l =>
          match new (he_val (last l e0)) h1 with
          | (h2, Ok None) => (h2, t1, Ok false)
          | (h2, Ok (Some e)) => (h2, hset_elems t1 (ht_elems t1 ++ [e]), Ok true)
          | (h2, Throw) => (h2, t1, Throw)
          | (h2, UB) => (h2, t1, UB)
          | (h2, NonFin) => (h2, t1, NonFin)
          | (h2, Diverge) => (h2, t1, Diverge)
          end
      end
  | (h1, Throw) => (h1, t, Throw)
  | (h1, UB) => (h1, t, UB)
  | (h1, NonFin) => (h1, t, NonFin)
  | (h1, Diverge) => (h1, t, Diverge)
  end.

Definition hAddMeasurement (E : env) (t : htraj) (position : vec3) (precision : list R)
  (surf : surface) (id : Z) (isScatterer : bool) (h : heap) : heap * htraj * res bool :=
  hPush t (fun last =>
    hNewMeasurement E (tr_mass (ht_base t)) last position precision surf id isScatterer) h.

Definition hAddScatterer (E : env) (t : htraj) (surf : surface) (h : heap) : heap * htraj * res bool :=
  hPush t (fun last => hNewScatterer E (tr_mass (ht_base t)) last surf) h.

(** setJacobian, trajectoryElement.hh 149-155: ownership is transferred *)
Definition hSetJacobian (e : helem) (j : mat5) (a : nat) : M helem :=
  _ <~ mfreeOpt KJac (he_jac e) ;;
  mret (HE (setJacobian (he_val e) j) (he_self e) (he_params e) (he_dirs e) (he_frame e) (he_proj e) (Some a)).

(** one pass of the loop trajectory.cc 349-392; [t] is the sorted trajectory *)
Definition hPrepareOne (E : env) (t : traj) (prevS : R) (e : helem) : M helem :=
  let v := he_val e in
  let trkParam := te_tp v in
  let cosLambda := cos (calculateLambda (tp_par trkParam)) in
  let B := en_bfield E (tp_ref trkParam) in
  let qbyp := calculateQoverP (tp_par trkParam) (vz B) in
  let currS := te_s v in
  dw <~ lift (rdiv (currS - prevS) cosLambda) ;;
  nrj <~ lift (lossTerm E (tr_mass t) v) ;;
  tstart <~ lift (tr_tangentAt t prevS) ;;
  tend <~ lift (tr_tangentAt t currS) ;;
  jacob <~ malloc KJac ;;
  match tr_prop t with
  | None => lift UB
  | Some getJacobian =>
      j <~ lift (getJacobian m5zero dw qbyp tstart tend B nrj) ;;
      hSetJacobian e j jacob
  end.

(** the loop; the list returned holds all elements, also if it ends early *)
Fixpoint hPrepareLoop (E : env) (t : traj) (prevS : R) (l : list helem) (h : heap)
  : heap * list helem * res unit :=
  match l with
  | [] => (h, [], Ok tt)
  | e :: l' =>
      match hPrepareOne E t prevS e h with
      | (h1, Ok e') =>
          let '(h2, l'', r) := hPrepareLoop E t (te_s (he_val e)) l' h1 in (h2, e' :: l'', r)
      | (h1, Throw) => (h1, l, Throw)
      | (h1, UB) => (h1, l, UB)
      | (h1, NonFin) => (h1, l, NonFin)
      | (h1, Diverge) => (h1, l, Diverge)
      end
  end.

(** trajectory.cc 333-394; [hsort] is std::sort on the element pointers *)
Definition hPrepareForFitting (E : env) (hsort : list helem -> list helem) (t : htraj) (h : heap)
  : heap * htraj * res unit :=
  let t1 := hset_elems t (hsort (ht_elems t)) in
  match ht_elems t1 with
  | [] => (h, t1, UB)
  | e0 :: l =>
      match mbind (malloc KJac) (fun j => hSetJacobian e0 (m5Unit m5zero) j) h with
      | (h1, Ok e0') =>
          let '(h2, l', r) := hPrepareLoop E (erase t1) 0 l h1 in
          (h2, hset_elems t1 (e0' :: l'), r)
      | (h1, Throw) => (h1, t1, Throw)
      | (h1, UB) => (h1, t1, UB)
      | (h1, NonFin) => (h1, t1, NonFin)
      | (h1, Diverge) => (h1, t1, Diverge)
      end
  end.

(** trajectoryElement.cc 53-75, and [delete *element] *)
Definition hDeleteElement (e : helem) : M unit :=
  _ <~ mfreeOpt KFrame (he_frame e) ;;
  _ <~ mfreeOpt KDirs (he_dirs e) ;;
  _ <~ mfreeOpt KJac (he_jac e) ;;
  _ <~ mfreeOpt KProj (he_proj e) ;;
  _ <~ mfree KParams (he_params e) ;;
  mfree KElem (he_self e).

(** trajectory.cc 38-44 *)
Fixpoint hDeleteAll (l : list helem) : M unit :=
  match l with
  | [] => mret tt
  | e :: l' => _ <~ hDeleteElement e ;; hDeleteAll l'
  end.
Definition hDestroy (t : htraj) : M unit := hDeleteAll (ht_elems t).
