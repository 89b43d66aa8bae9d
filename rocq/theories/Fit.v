(** fittingAlgorithms/src/GBLInterface.cc and .hh: the points handed to the
    General Broken Lines (GBL) fitter, and the results read back.

    GBL itself is a pair of functions (below).  Result objects are cells of a
    heap, so that pointers to them can be told apart; addresses are not reused.
    The MilleBinary record and printing are left out. *)
From Coq Require Import Reals List Bool ZArith.
From Verif Require Import Num Vec Helix Isect Trans Material Traj.
Import ListNotations.
Open Scope R_scope.

(** gbl::GblPoint: point-to-point Jacobian; measurement (projection, residuals,
    precisions); scatterer (residuals, precision matrix).  [None] inside stands
    for numbers that are not finite. *)
Record gpoint := GP {
  gp_jac : mat5;
  gp_meas : option ((R * R * R * R) * (R * R) * (option R * option R));
  gp_scat : option ((R * R) * option (R * R * R * R))
}.

(** the 2x2 matrix of GBLInterface.cc 174-181, row by row.  Simplification: an
    infinite [qms] would give a zero matrix; it is [None] here as well. *)
Definition scatMatrix (qms c1 c2 : option R) : option (R * R * R * R) :=
  match qms, c1, c2 with
  | Some q, Some c1, Some c2 =>
      if Req_EM_T q 0 then None
      else let Scalar_value := (1 - c1 * c1 - c2 * c2) / q in
           Some (Scalar_value * (1 - c1 * c1), -1 * Scalar_value * c1 * c2,
                 -1 * Scalar_value * c1 * c2, Scalar_value * (1 - c2 * c2))
  | _, _, _ => None
  end.

(** GBLInterface.cc 62-123: null pointers are dereferenced, the two-element
    arrays are read whatever the size of the vectors *)
Definition measPart (e : telem) : res (option ((R * R * R * R) * (R * R) * (option R * option R))) :=
  if te_meas e then
    match te_dirs e with
    | None => UB
    | Some dirs =>
        if Nat.ltb 2 (length dirs) then Throw
        else match te_proj e with
             | None => UB
             | Some p =>
                 match te_res e, te_prec e with
                 | r0 :: r1 :: _, p0 :: p1 :: _ => Ok (Some (p, (r0, r1), (p0, p1)))
                 | _, _ => UB
                 end
             end
    end
  else Ok None.

(** GBLInterface.cc 126-196: the last three precisions *)
Definition scatPart (e : telem) : res (option ((R * R) * option (R * R * R * R))) :=
  if te_scat e then
    match rev (te_prec e) with
    | c2 :: c1 :: qms :: _ => Ok (Some ((0, 0), scatMatrix qms c1 c2))
    | _ => UB
    end
  else Ok None.

(** one pass of the loop GBLInterface.cc 49-200 *)
Definition makePoint (e : telem) : res gpoint :=
  match te_jac e with
  | None => UB
  | Some jac => m <- measPart e ;; s <- scatPart e ;; Ok (GP jac m s)
  end.

Fixpoint makePoints (l : list telem) : res (list gpoint) :=
  match l with
  | [] => Ok []
  | e :: l' => p <- makePoint e ;; ps <- makePoints l' ;; Ok (p :: ps)
  end.

(** GBL.  [gbl_fit]: GblTrajectory::fit, return value, chi2, ndf and lost
    weight.  [gbl_results]: GblTrajectory::getResults(label, ..) after the fit,
    error code and the contents of the two arguments. *)
Record gbl := Gbl {
  gbl_fit : list gpoint -> Z * (R * Z * R);
  gbl_results : list gpoint -> Z -> Z * vec5 * mat5
}.

(** util/include/fitResults.hh *)
Record fitResults := FR {
  fr_valid : bool;
  fr_chi2 : R;
  fr_ndf : Z;
  fr_lost : R;
  fr_tp : trackParameters
}.

(** the interface object: _trajectory (the GBL trajectory, here its points),
    _fittedTraj, _chisquare, _ndf, _lostweight, _theResults *)
Record iface := IF {
  if_traj : option (list gpoint);
  if_fitted : option nat;
  if_chi2 : R;
  if_ndf : Z;
  if_lost : R;
  if_results : list (Z * nat)
}.

(** result objects, by address; [None] is a deleted one *)
Definition rheap := list (option fitResults).

(** the trajectories of the program, by identity; [None] is a destroyed one *)
Definition world := nat -> option traj.

Record fstate := FS { fs_if : iface; fs_heap : rheap }.

(** constructor, GBLInterface.cc 9-16 with the initialisers of the header *)
Definition newInterface : iface := IF None None 0 0 0 [].
Definition fs_start : fstate := FS newInterface [].

Fixpoint hdelete (h : rheap) (a : nat) : rheap :=
  match h, a with
  | [], _ => []
  | _ :: h', O => None :: h'
  | x :: h', S n => x :: hdelete h' n
  end.

(** _clear, GBLInterface.cc 320-334 *)
Definition clearAll (st : fstate) : fstate :=
  FS (IF None None (if_chi2 (fs_if st)) (if_ndf (fs_if st)) (if_lost (fs_if st)) [])
     (fold_left (fun h r => hdelete h (snd r)) (if_results (fs_if st)) (fs_heap st)).

(** GBLInterface.cc 30-233 *)
Definition fit (G : gbl) (w : world) (st : fstate) (tid : nat) : fstate * res bool :=
  let st1 := clearAll st in
  let i := fs_if st1 in
  let st2 := FS (IF (if_traj i) (Some tid) (if_chi2 i) (if_ndf i) (if_lost i) (if_results i)) (fs_heap st1) in
  match w tid with
  | None => (st2, UB)
  | Some t =>
      match makePoints (tr_elems t) with
      | Ok points =>
          let '(returnValue, (chi2, ndf, lost)) := gbl_fit G points in
          (FS (IF (Some points) (Some tid) chi2 ndf lost []) (fs_heap st1),
           Ok (Z.eqb returnValue 0))
      | Throw => (st2, Throw)
      | UB => (st2, UB)
      | NonFin => (st2, NonFin)
      | Diverge => (st2, Diverge)
      end
  end.

(** conversion of an int to unsigned int *)
Definition to_unsigned (z : Z) : Z := (z mod 4294967296)%Z.

(** vector::operator[] with an int index *)
Definition elementIndex {A : Type} (l : list A) (label : Z) : res A :=
  if Z.ltb label 0 then UB
  else match nth_error l (Z.to_nat label) with Some e => Ok e | None => UB end.

(** TMatrixDSym::Similarity: B * A * B^T *)
Definition similarity (B A : mat5) : mat5 := m5mul (m5mul B A) (m5transpose B).

(** GBLInterface.cc 246-312: the new result object *)
Definition computeResults (E : env) (G : gbl) (i : iface) (points : list gpoint) (t : traj) (label : Z)
  : res fitResults :=
  let '(error, tpCorr, trackcovariance) := gbl_results G points label in
  let clCorrections := if Z.eqb error 0 then tpCorr else mk5 0 0 0 0 0 in
  e <- elementIndex (tr_elems t) label ;;
  let initialTP := te_tp e in
  let bField := en_bfield E (tp_ref initialTP) in
  cl2L3Jacobian <- curvilinearToL3Jacobian (tp_par initialTP) bField ;;
  let L3corrections := m5mulv cl2L3Jacobian clCorrections in
  let fittedParameters := v5add (tp_par initialTP) L3corrections in
  let tp := tp_setRef (tp_setPar tp_default fittedParameters) (tp_ref initialTP) in
  let tp := tp_setCov tp (similarity cl2L3Jacobian trackcovariance) in
  Ok (FR true (if_chi2 i) (to_unsigned (if_ndf i)) (if_lost i) tp).

Definition lookup (l : list (Z * nat)) (label : Z) : option nat :=
  match find (fun r => Z.eqb (fst r) label) l with Some (_, a) => Some a | None => None end.

(** getResults, GBLInterface.hh 49-66, with _fillResults, GBLInterface.cc
    237-318; returns the address of the result *)
Definition getResults (E : env) (G : gbl) (w : world) (st : fstate) (label : Z) : fstate * res nat :=
  let i := fs_if st in
  match lookup (if_results i) label with
  | Some a => (st, Ok a)
  | None =>
      match if_fitted i with
      | None => (st, UB)
      | Some tid =>
          match w tid, if_traj i with
          | Some t, Some points =>
              match computeResults E G i points t label with
              | Ok fr =>
                  let a := length (fs_heap st) in
                  (FS (IF (if_traj i) (if_fitted i) (if_chi2 i) (if_ndf i) (if_lost i)
                          ((label, a) :: if_results i)) (fs_heap st ++ [Some fr]), Ok a)
              | Throw => (st, Throw)
              | UB => (st, UB)
              | NonFin => (st, NonFin)
              | Diverge => (st, Diverge)
              end
          | _, _ => (st, UB)
          end
      end
  end.

(** trajectory.cc 396-399 and 134-137: the fitting algorithm may be a null
    pointer *)
Definition traj_fit (G : option gbl) (w : world) (st : fstate) (tid : nat) : fstate * res bool :=
  match G with Some G => fit G w st tid | None => (st, UB) end.
Definition traj_getFitResults (E : env) (G : option gbl) (w : world) (st : fstate) (label : Z) : fstate * res nat :=
  match G with Some G => getResults E G w st label | None => (st, UB) end.
