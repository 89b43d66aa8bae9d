(** examples/material_effects/material_effects.cpp: refit of single tracks with
    material effects.

    Simplifications as in Refit.v.  The ROOT tree stays empty and is left out. *)
From Coq Require Import Reals List Bool ZArith.
From Verif Require Import Num Vec Helix Isect Trans Material Traj Fit LCIO Refit.
Import ListNotations.
Open Scope R_scope.

(** what outlives an event: the fit interface (line 138) and hitMap (line 77,
    the entry made last comes first) *)
Record effState := ES { es_fit : fstate; es_map : list (Z * hit) }.
Definition newEff : effState := ES fs_start [].

(** the raw hits of a spacepoint, lines 246-257; [None] and hits that are not
    TrackerHitPlane fail the dynamic_cast and are left out *)
Fixpoint effRaw (m : list (Z * hit)) (raw : list (option hit)) : list (Z * hit) :=
  match raw with
  | [] => m
  | Some h :: l =>
      effRaw (match h_plane h with Some _ => (h_cell h, h) :: m | None => m end) l
  | None :: l => effRaw m l
  end.

(** lines 233-258 *)
Fixpoint effFill (m : list (Z * hit)) (hits : list trkhit) : list (Z * hit) :=
  match hits with
  | [] => m
  | th :: l =>
      effFill (if th_composite th then effRaw m (th_raw th) else (h_cell (th_hit th), th_hit th) :: m) l
  end.

(** position and precisions of a hit, lines 274-304 *)
Definition effInfo (C : renv) (h : hit) : res (vec3 * list R) :=
  let mm := re_mm C in
  let hitpos := inUnits mm (h_pos h) in
  d <- match h_plane h with
       | Some (dU, dV) => Ok (Ok (dU * mm), Ok (dV * mm))
       | None =>
           c0 <- vec_at (h_cov h) 0 ;;
           c2 <- vec_at (h_cov h) 2 ;;
           c5 <- vec_at (h_cov h) 5 ;;
           Ok (q <- rsqrt (c0 + c2) ;; Ok (q * mm), q <- rsqrt c5 ;; Ok (q * mm))
       end ;;
  du <- fst d ;;
  dv <- snd d ;;
  if Req_EM_T dv 0 then
    p0 <- rdiv 1 (du * du) ;; Ok (hitpos, [p0])
  else
    p0 <- rdiv 1 (du * du) ;; p1 <- rdiv 1 (dv * dv) ;; Ok (hitpos, [p0; p1]).

(** one pass of the loop lines 263-319: the trajectory and the hits of the output
    track.  [address] is that of the variable ID, which ends with the pass; the
    same in every pass.  hitMap has keys of type long, ids are not cut off. *)
Definition effCrossing (C : renv) (address : Z) (m : list (Z * hit)) (st : traj * list Z) (surf : surface)
  : res (traj * list Z) :=
  match mapFind m (re_cell C surf) with
  | Some h =>
      hi <- effInfo C h ;;
      t <- ignoring (addMeasurement (re_env C) (fst st) (fst hi) (snd hi) surf address true) ;;
      Ok (t, snd st ++ [h_id h])
  | None =>
      let scat := t <- ignoring (addScatterer (re_env C) (fst st) surf) ;; Ok (t, snd st) in
      if Rlt_dec (mat_density (sf_innerMaterial surf)) (/ 1000000) then
        if Rlt_dec (mat_density (sf_outerMaterial surf)) (/ 1000000) then Ok st else scat
      else scat
  end.

Fixpoint effCrossings (C : renv) (address : Z) (m : list (Z * hit)) (st : traj * list Z) (l : list (R * surface))
  : res (traj * list Z) :=
  match l with
  | [] => Ok st
  | (_, surf) :: l' => st' <- effCrossing C address m st surf ;; effCrossings C address m st' l'
  end.

(** lines 227, 261-322 *)
Definition effTrajectory (C : renv) (address : Z) (m : list (Z * hit)) (itp : trackParameters) : res (traj * list Z) :=
  t <- getIntersectionsWithSurfaces (re_env C) (mkTraj itp (Some (re_prop C))) (re_surfaces C) ;;
  st <- effCrossings C address m (t, []) (tr_isect t) ;;
  t <- prepareForFitting (re_env C) (fst st) ;;
  Ok (t, snd st).

(** the track written, lines 361-376 *)
Definition effFillTrack (C : renv) (used : list Z) (fr : fitResults) : res otrack :=
  ts <- createLCIO (re_mm C) (fr_tp fr) ;;
  let ts := TS 1 (ts_D0 ts) (ts_Phi ts) (ts_Omega ts) (ts_Z0 ts) (ts_TanLambda ts) (ts_cov ts) (0, 0, 0) in
  Ok (OT used [ts] (fr_chi2 fr) (fr_ndf fr) (Z.of_nat (length used))).

(** the rest of an event with one track, lines 177-380; the map is emptied after
    the event is written (line 380) *)
Definition effTrack (C : renv) (address : Z) (st : effState) (trk : track) : effState * res otrack :=
  sbind (st, match tk_state trk with None => UB | Some ts => readLCIO (re_mm C) ts end) (fun st itp =>
  let m := effFill (es_map st) (tk_hits trk) in
  sbind (ES (es_fit st) m, effTrajectory C address m itp) (fun st tu =>
  let '(f, r) := sbind (runFit C (es_fit st) (fst tu)) (fun f success => firstResult C f (fst tu)) in
  sbind (ES f m, r) (fun st fr =>
  sbind (st, effFillTrack C (snd tu) fr) (fun st o => (ES f [], Ok o))))).

(** the event loop, lines 142-382: the output tracks of the events written; an
    event without exactly one track is left by [continue] (line 175) *)
Fixpoint effLoop (C : renv) (address : Z) (st : effState) (l : list event) : list otrack * res unit :=
  match l with
  | [] => ([], Ok tt)
  | None :: _ => ([], Throw)
  | Some [trk] :: l' =>
      let '(st, r) := effTrack C address st trk in
      match r with
      | Ok o => let '(out, e) := effLoop C address st l' in (o :: out, e)
      | Throw => ([], Throw)
      | UB => ([], UB)
      | NonFin => ([], NonFin)
      | Diverge => ([], Diverge)
      end
  | Some _ :: l' => effLoop C address st l'
  end.

(** main; [args]: number of command line arguments after the program's name.
    argv[4] (line 84) is beyond the end of argv if there are two. *)
Definition effMain (C : renv) (address : Z) (args : nat) (l : list event) : list otrack * res unit :=
  match args with
  | O | S O => ([], Ok tt)
  | S (S O) => ([], UB)
  | _ => effLoop C address newEff l
  end.
