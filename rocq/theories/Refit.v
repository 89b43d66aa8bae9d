(** examples/lcio_tracks/lcio_tracks.cpp: the program that reads tracks, refits
    them and writes them out again.

    Simplifications common to the file.  Hits and tracks are values; the address
    of a hit is a number.  Logging is left out.  Floats are real numbers.  A
    number that is not finite ends the modelled run ([NonFin]).  An exception is
    not caught by the program and ends it.  The tracks, trajectories and results
    made with [new] are never freed by the program; results are those of Fit.v. *)
From Coq Require Import Reals List Bool ZArith.
From Verif Require Import Num Vec Helix Isect Trans Material Traj Fit LCIO.
Import ListNotations.
Open Scope R_scope.

(** EVENT::TrackerHit as used by the program; lengths in mm *)
Record hit := Hit {
  h_id : Z;                      (* the address *)
  h_cell : Z;                    (* getCellID0, an int *)
  h_pos : vec3;                  (* getPosition *)
  h_plane : option (R * R);      (* dynamic_cast to TrackerHitPlane: getdU, getdV *)
  h_cov : list R                 (* getCovMatrix *)
}.

(** a hit of a track; [th_raw]: getRawHits with the result of the dynamic_cast
    to TrackerHit of line 351, [None] if it fails *)
Record trkhit := TH {
  th_hit : hit;
  th_composite : bool;           (* the bit COMPOSITE_SPACEPOINT of getType *)
  th_raw : list (option hit)
}.

(** EVENT::Track: the state AtIP ([None]: null pointer) and the hits *)
Record track := Trk { tk_state : option trackState; tk_hits : list trkhit }.

(** IMPL::TrackImpl as filled by the program: hits (addresses), states, chi2,
    ndf, and the first entry of subdetectorHitNumbers *)
Record otrack := OT {
  ot_hits : list Z;
  ot_states : list trackState;
  ot_chi2 : R;
  ot_ndf : Z;
  ot_number : Z
}.
(** a new TrackImpl *)
Definition newTrack : otrack := OT [] [] 0 0 0.

(** What the program works with: dd4hep::mm, geometry and field ([re_env]),
    propagation, fitter library, the surfaces of the geometry, and of each of
    them id() and isMeasurement1D() *)
Record renv := RE {
  re_mm : R;
  re_env : env;
  re_prop : propagator;
  re_gbl : gbl;
  re_surfaces : list surface;
  re_cell : surface -> Z;
  re_1D : surface -> bool
}.

(** the global steering parameters, lines 54-58 *)
Record steering := Steer {
  sg_start : bool;               (* compute_start_helix *)
  sg_prefit : bool;              (* run_prefit *)
  sg_qms : bool                  (* useQMS *)
}.
Definition shipped : steering := Steer true false true.
(** line 60 *)
Definition maxEvent : Z := 1000.

(** the two fit interfaces: the global one (line 66), used by createPreFit, and
    the one of main (line 247), which hides it *)
Record fitters := FI { fi_pre : fstate; fi_main : fstate }.
Definition newFitters : fitters := FI fs_start fs_start.

(** sequence of two steps that change a state; only [Ok] continues *)
Definition sbind {S A B : Type} (r : S * res A) (k : S -> A -> S * res B) : S * res B :=
  match r with
  | (st, Ok x) => k st x
  | (st, Throw) => (st, Throw)
  | (st, UB) => (st, UB)
  | (st, NonFin) => (st, NonFin)
  | (st, Diverge) => (st, Diverge)
  end.

(** std::vector::operator[] *)
Definition vec_at {A : Type} (l : list A) (n : nat) : res A :=
  match nth_error l n with Some x => Ok x | None => UB end.

(** positions in dd4hep units, lines 85, 304-306 *)
Definition inUnits (mm : R) (p : vec3) : vec3 := V3 (vx p * mm) (vy p * mm) (vz p * mm).

(** getHitInfo, lines 81-110 *)
Definition getHitInfo (C : renv) (h : hit) (surf : surface) : res (vec3 * list R) :=
  let mm := re_mm C in
  let hitpos := inUnits mm (h_pos h) in
  d <- match h_plane h with
       | Some (dU, dV) => Ok (Ok (dU * mm), Ok (dV * mm))
       | None =>
           c0 <- vec_at (h_cov h) 0 ;;
           c2 <- vec_at (h_cov h) 2 ;;
           c5 <- vec_at (h_cov h) 5 ;;
           Ok (q <- rsqrt (c0 + c2) ;; Ok (q * mm), q <- rsqrt c5 ;; Ok (q * mm))
       end ;;
  du <- fst d ;;
  p0 <- rdiv 1 (du * du) ;;
  if re_1D C surf then Ok (hitpos, [p0; 0])
  else
    dv <- snd d ;;
    p1 <- rdiv 1 (dv * dv) ;;
    Ok (hitpos, [p0; p1]).

(** std::map::operator[] and find: the entry made last for the key *)
Definition mapFind {A : Type} (m : list (Z * A)) (k : Z) : option A :=
  match find (fun e => Z.eqb (fst e) k) m with Some (_, x) => Some x | None => None end.

(** surfMap, lines 216-218; the entry made last comes first *)
Definition surfMap (C : renv) : list (Z * surface) :=
  fold_left (fun m s => (re_cell C s, s) :: m) (re_surfaces C) [].

(** conversion of a long to an int, as in [hitMap[ surf->id() ]], line 384 *)
Definition to_int (z : Z) : Z := ((z + 2147483648) mod 4294967296 - 2147483648)%Z.

(** result of a call on a trajectory whose return value is ignored *)
Definition ignoring {A : Type} (r : traj * res A) : res traj :=
  let '(t, x) := r in _ <- x ;; Ok t.

(** the hits looked at by createPreFit, lines 129-131: every [step]-th *)
Fixpoint everyNth {A : Type} (step skip : nat) (l : list A) : list A :=
  match l with
  | [] => []
  | x :: l' =>
      match skip with
      | O => x :: everyNth step (step - 1) l'
      | S k => everyNth step k l'
      end
  end.
(** line 124; the quotient of the doubles has the integer part of the exact one *)
Definition prefitStep (nHits : nat) : nat :=
  if Nat.leb nHits 25 then 1 else Nat.div nHits 25.

(** lines 129-157 *)
Fixpoint prefitHits (C : renv) (t : traj) (l : list trkhit) : res traj :=
  match l with
  | [] => Ok t
  | th :: l' =>
      let h := th_hit th in
      match mapFind (surfMap C) (h_cell h) with
      | None => prefitHits C t l'
      | Some surf =>
          hi <- getHitInfo C h surf ;;
          t' <- ignoring (addMeasurement (re_env C) t (fst hi) (snd hi) surf (h_id h) false) ;;
          prefitHits C t' l'
      end
  end.

(** the trajectories the fitter can refer to: just the one at hand *)
Definition only (t : traj) : world := fun n => match n with O => Some t | _ => None end.

(** trajectory::fit, lines 161, 426 *)
Definition runFit (C : renv) (st : fstate) (t : traj) : fstate * res bool :=
  traj_fit (Some (re_gbl C)) (only t) st 0.

(** [*getFitResults()], lines 166, 428, with the default label 0 *)
Definition firstResult (C : renv) (st : fstate) (t : traj) : fstate * res fitResults :=
  sbind (traj_getFitResults (re_env C) (Some (re_gbl C)) (only t) st 0) (fun st a =>
  (st, match nth_error (fs_heap st) a with Some (Some fr) => Ok fr | _ => UB end)).

(** createPreFit, lines 113-184 *)
Definition createPreFit (C : renv) (st : fstate) (tp : trackParameters) (hits : list trkhit)
  : fstate * res trackParameters :=
  sbind (st, moveHelixTo tp v3zero false) (fun st mv =>
  let tp := fst mv in
  sbind (st, prefitHits C (mkTraj tp (Some (re_prop C)))
               (everyNth (prefitStep (length hits)) 0 hits)) (fun st t =>
  sbind (st, prepareForFitting (re_env C) t) (fun st t =>
  sbind (runFit C st t) (fun st success =>
  if success : bool then sbind (firstResult C st t) (fun st fr => (st, Ok (fr_tp fr)))
  else (st, Ok tp))))).

(** the start helix, lines 290-318 ([backwards] is false) *)
Definition startHelix (C : renv) (hits : list trkhit) : res trackParameters :=
  let nHits := length hits in
  h1 <- vec_at hits 0 ;;
  h2 <- vec_at hits (Nat.div (nHits + 1) 2) ;;
  h3 <- vec_at hits (nHits - 1) ;;
  let x1 := inUnits (re_mm C) (h_pos (th_hit h1)) in
  let x2 := inUnits (re_mm C) (h_pos (th_hit h2)) in
  let x3 := inUnits (re_mm C) (h_pos (th_hit h3)) in
  tp <- calculateStartHelix x1 x2 x3 tp_default false ;;
  mv <- moveHelixTo tp v3zero false ;;
  let tp := fst mv in
  let c := m5Unit (tp_cov tp) in
  let c := m5set c OMEGA OMEGA (/ 100) in
  let c := m5set c TANL TANL 100 in
  let c := m5set c PHI0 PHI0 100 in
  let c := m5set c D0 D0 100000 in
  let c := m5set c Z0 Z0 100000 in
  Ok (tp_setCov tp c).

(** the parameters the fit starts from, lines 274-325 *)
Definition seed (C : renv) (S : steering) (st : fstate) (itp : trackParameters) (hits : list trkhit)
  : fstate * res trackParameters :=
  if sg_start S then
    sbind (st, startHelix C hits) (fun st tp =>
    if sg_prefit S then createPreFit C st tp hits else (st, Ok tp))
  else (st, Ok itp).

(** the hits to be looked up, lines 340-360: spacepoints are replaced by their
    raw hits *)
Fixpoint lcioHits (hits : list trkhit) : list (option hit) :=
  match hits with
  | [] => []
  | th :: l => (if th_composite th then th_raw th else [Some (th_hit th)]) ++ lcioHits l
  end.

(** hitMap, lines 364-367; the entry made last comes first *)
Fixpoint hitMap_loop (m : list (Z * hit)) (l : list (option hit)) : res (list (Z * hit)) :=
  match l with
  | [] => Ok m
  | None :: _ => UB
  | Some h :: l' => hitMap_loop ((h_cell h, h) :: m) l'
  end.
Definition hitMap (hits : list trkhit) : res (list (Z * hit)) := hitMap_loop [] (lcioHits hits).

(** one pass of the loop lines 379-421.  [hitMap[..]] adds a null pointer for a
    key that is missing, which no later look-up can tell from a missing key. *)
Definition addCrossing (C : renv) (S : steering) (m : list (Z * hit)) (t : traj) (surf : surface)
  : res traj :=
  match mapFind m (to_int (re_cell C surf)) with
  | Some h =>
      hi <- getHitInfo C h surf ;;
      ignoring (addMeasurement (re_env C) t (fst hi) (snd hi) surf (h_id h) (sg_qms S))
  | None =>
      if sg_qms S then
        if Rlt_dec (mat_density (sf_innerMaterial surf)) (/ 1000000) then
          if Rlt_dec (mat_density (sf_outerMaterial surf)) (/ 1000000) then Ok t
          else ignoring (addScatterer (re_env C) t surf)
        else ignoring (addScatterer (re_env C) t surf)
      else Ok t
  end.

Fixpoint addCrossings (C : renv) (S : steering) (m : list (Z * hit)) (t : traj) (l : list (R * surface))
  : res traj :=
  match l with
  | [] => Ok t
  | (_, surf) :: l' => t' <- addCrossing C S m t surf ;; addCrossings C S m t' l'
  end.

(** the trajectory to be fitted, lines 330-424 *)
Definition makeTrajectory (C : renv) (S : steering) (itp : trackParameters) (hits : list trkhit) : res traj :=
  m <- hitMap hits ;;
  t <- getIntersectionsWithSurfaces (re_env C) (mkTraj itp (Some (re_prop C))) (re_surfaces C) ;;
  t <- addCrossings C S m t (tr_isect t) ;;
  prepareForFitting (re_env C) t.

(** the track written, lines 447-469; TrackState::AtIP is 1 *)
Definition fillTrack (C : renv) (hits : list trkhit) (fr : fitResults) : res otrack :=
  ts <- createLCIO (re_mm C) (fr_tp fr) ;;
  let ts := TS 1 (ts_D0 ts) (ts_Phi ts) (ts_Omega ts) (ts_Z0 ts) (ts_TanLambda ts) (ts_cov ts) (0, 0, 0) in
  let ids := map (fun th => h_id (th_hit th)) hits in
  Ok (OT ids [ts] (fr_chi2 fr) (fr_ndf fr) (Z.of_nat (length ids))).

(** one pass of the loop over the tracks, lines 267-471.  The tracks of the
    output collection are those returned; a track with fewer than three hits has
    been added to it already when [continue] (line 283) is reached. *)
Definition refitTrack (C : renv) (S : steering) (st : fitters) (trk : track) : fitters * res otrack :=
  sbind (st, match tk_state trk with None => UB | Some ts => readLCIO (re_mm C) ts end) (fun st itp =>
  if Nat.ltb (length (tk_hits trk)) 3 then (st, Ok newTrack)
  else
    let '(pre, r) := seed C S (fi_pre st) itp (tk_hits trk) in
    sbind (FI pre (fi_main st), r) (fun st itp =>
    sbind (st, makeTrajectory C S itp (tk_hits trk)) (fun st t =>
    let '(main, r) := sbind (runFit C (fi_main st) t) (fun st success => firstResult C st t) in
    sbind (FI (fi_pre st) main, r) (fun st fr => (st, fillTrack C (tk_hits trk) fr))))).

(** the loop over the tracks of an event *)
Fixpoint refitTracks (C : renv) (S : steering) (st : fitters) (l : list track) : fitters * res (list otrack) :=
  match l with
  | [] => (st, Ok [])
  | trk :: l' =>
      sbind (refitTrack C S st trk) (fun st o =>
      sbind (refitTracks C S st l') (fun st os => (st, Ok (o :: os))))
  end.

(** an event: its track collection, [None] if there is none of that name
    (getCollection throws) *)
Definition event := option (list track).

(** the event loop, lines 250-474: the output collections of the events written,
    in order, and how the loop ended *)
Fixpoint eventLoop (C : renv) (S : steering) (st : fitters) (counter : Z) (l : list event)
  : list (list otrack) * res unit :=
  match l with
  | [] => ([], Ok tt)
  | ev :: l' =>
      let counter := (counter + 1)%Z in
      if Z.ltb counter maxEvent then
        let '(st, r) := match ev with None => (st, Throw) | Some tracks => refitTracks C S st tracks end in
        match r with
        | Ok os => let '(out, e) := eventLoop C S st counter l' in (os :: out, e)
        | Throw => ([], Throw)
        | UB => ([], UB)
        | NonFin => ([], NonFin)
        | Diverge => ([], Diverge)
        end
      else ([], Ok tt)
  end.

(** main, from the event loop on (line 224: the counter starts at -1) *)
Definition refitProgram (C : renv) (S : steering) (l : list event) : list (list otrack) * res unit :=
  eventLoop C S newFitters (-1) l.
