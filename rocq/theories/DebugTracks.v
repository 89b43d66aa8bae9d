(** examples/lcio_tracks/lcio_debug_tracks.cpp: hits where the last state of a
    track crosses the surfaces of its hits.

    Simplifications common to the file.  Hits and tracks are values.  Printing is
    left out.  Floats are real numbers.  A number that is not finite ends the
    modelled run ([NonFin]).  An exception is not caught by the program and ends
    it.  Propagation and fitter are created, but never used. *)
From Coq Require Import Reals List Bool ZArith.
From Verif Require Import Num Vec Helix Isect Trans Material Traj LCIO.
Import ListNotations.
Open Scope R_scope.

(** EVENT::TrackerHit as used by the program; position in mm *)
Record dhit := DH { dh_cell : Z; dh_pos : vec3 }.

(** EVENT::Track: the state AtLastHit ([None]: null pointer) and the hits *)
Record dtrack := DT { dt_state : option trackState; dt_hits : list dhit }.

(** the output track: its state and the positions of its hits, which are also
    those of the collection AidaTTDebugHits *)
Record dout := DOut { do_state : trackState; do_hits : list vec3 }.

(** what the program works with: dd4hep::mm, the surfaces of the geometry and id()
    of each of them *)
Record denv := DE {
  de_mm : R;
  de_surfaces : list surface;
  de_id : surface -> Z
}.

(** LCIO's UTIL::BitField64 (not in /repo): a field of [w] bits from bit [lo] on is
    read; the value may be negative, in two's complement *)
Definition bfGet (lo w v : Z) : Z := Z.land (Z.shiftr v lo) (Z.ones w).

(** writing a field: values out of range throw *)
Definition bfSet (lo w : Z) (minVal maxVal v x : Z) : res Z :=
  if (Z.leb minVal x && Z.leb x maxVal)%bool then
    let mask := Z.shiftl (Z.ones w) lo in
    Ok (Z.lor (Z.land v (Z.lnot mask)) (Z.land (Z.shiftl x lo) mask))
  else Throw.

(** LCTrackerCellID::encoding_string(): subdet:5,side:-2,layer:9,module:8,sensor:8,
    and ILDDetID::VXD = 1 (LCIO, not in /repo).  Lines 141-157: the id looked for.
    getCellID0 is an int, converted to long64; lowWord is unsigned. *)
Definition debugKey (h : dhit) : res Z :=
  let hitid := dh_cell h in
  if Z.eqb (bfGet 0 5 hitid) 1 then
    v <- bfSet 5 2 (-2) 1 hitid (if Rlt_dec 0 (vz (dh_pos h)) then 1%Z else (-1)%Z) ;;
    let layerID := bfGet 7 9 v in
    v <- bfSet 7 9 0 511 v (layerID + 1)%Z ;;
    Ok (Z.land v (Z.ones 32))
  else Ok hitid.

(** surfMap, lines 53-57; the entry made last comes first *)
Definition debugMap (D : denv) : list (Z * surface) :=
  fold_left (fun m s => (de_id D s, s) :: m) (de_surfaces D) [].

(** lines 159-164; a null pointer entered by [surfMap[hitid]] is found as null
    pointer later, as if there were no entry *)
Definition debugFind (D : denv) (k : Z) : option surface :=
  match find (fun e => Z.eqb (fst e) k) (debugMap D) with Some (_, x) => Some x | None => None end.

(** one pass of the loop lines 139-203: the new hit, if there is one *)
Definition debugHit (D : denv) (itp : trackParameters) (h : dhit) : res (option vec3) :=
  k <- debugKey h ;;
  match debugFind D k with
  | None => Ok None
  | Some surf =>
      r <- intersectWithSurface surf (tp_par itp) (tp_ref itp) (OVal 0 v3zero) 0 true ;;
      match r with
      | (false, _) => Ok None
      | (true, OBad) => NonFin
      | (true, OVal s xx) =>
          x <- rdiv (vx xx) (de_mm D) ;; y <- rdiv (vy xx) (de_mm D) ;; z <- rdiv (vz xx) (de_mm D) ;;
          Ok (Some (V3 x y z))
      end
  end.

Fixpoint debugHits (D : denv) (itp : trackParameters) (l : list dhit) : res (list vec3) :=
  match l with
  | [] => Ok []
  | h :: l' =>
      o <- debugHit D itp h ;;
      rest <- debugHits D itp l' ;;
      Ok (match o with Some x => x :: rest | None => rest end)
  end.

(** lines 118-124; the covariance stays zero *)
Definition debugSeed (mm : R) (ts : trackState) : res trackParameters :=
  om <- rdiv (ts_Omega ts) mm ;;
  let '(x, y, z) := ts_ref ts in
  Ok (TP m5zero (mk5 om (ts_TanLambda ts) (ts_Phi ts) (ts_D0 ts * mm) (ts_Z0 ts * mm))
         (V3 (x * mm) (y * mm) (z * mm))).

(** an event with one track, lines 102-205 *)
Definition debugTrack (D : denv) (trk : dtrack) : res dout :=
  match dt_state trk with
  | None => UB
  | Some ts =>
      itp <- debugSeed (de_mm D) ts ;;
      hits <- debugHits D itp (dt_hits trk) ;;
      Ok (DOut ts hits)
  end.

(** the event loop, lines 83-206: the tracks of the events written.  [None]: the
    event has no collection SiTracks, getCollection throws.  An event without
    exactly one track is left by [continue] (line 106). *)
Fixpoint debugLoop (D : denv) (l : list (option (list dtrack))) : list dout * res unit :=
  match l with
  | [] => ([], Ok tt)
  | None :: _ => ([], Throw)
  | Some [trk] :: l' =>
      match debugTrack D trk with
      | Ok o => let '(out, e) := debugLoop D l' in (o :: out, e)
      | Throw => ([], Throw)
      | UB => ([], UB)
      | NonFin => ([], NonFin)
      | Diverge => ([], Diverge)
      end
  | Some _ :: l' => debugLoop D l'
  end.

(** main; [args]: number of command line arguments after the program's name *)
Definition debugMain (D : denv) (args : nat) (l : list (option (list dtrack))) : list dout * res unit :=
  match args with
  | O | S O => ([], Ok tt)
  | _ => debugLoop D l
  end.
