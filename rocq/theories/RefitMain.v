(** examples/lcio_tracks/lcio_tracks.cpp: arguments, geometry and files around the
    event loop of Refit.v.

    Simplifications.  File names are numbers.  A file is the list of its events;
    of an event only the two collections used by the program are kept (their names
    are those of lines 47-49).  A surface is its [ds_surf].  LCIO is trusted to do
    the following, as its interface says: opening a file that cannot be read throws,
    opening a file for writing without a mode throws if it is there, WRITE_NEW
    replaces it, getCollection throws if there is no such collection, addCollection
    throws if there is one already.  Writing goes to the file at once (the writer is
    never closed). *)
From Coq Require Import Reals List Bool ZArith Arith.
From Verif Require Import Num Vec Helix Isect Trans Material Traj Fit Geom LCIO Refit.
Import ListNotations.
Open Scope R_scope.

(** an event in a file: the collection MarlinTrkTracks and the collection
    AidaTTTracks *)
Record fevent := FE { fe_tracks : option (list track); fe_refitted : option (list otrack) }.

(** all files *)
Definition lcfiles := nat -> option (list fevent).
Definition lcput (fs : lcfiles) (n : nat) (l : list fevent) : lcfiles :=
  fun m => if Nat.eqb m n then Some l else fs m.

(** lines 252-257: the collection whose tracks are refitted; [None]: getCollection
    or addCollection throws *)
Definition eventTracks (e : fevent) : event :=
  match fe_tracks e with
  | None => None
  | Some l => match fe_refitted e with None => Some l | Some _ => None end
  end.

(** lines 257 and 473: the event is written with the new collection *)
Definition writtenEvent (x : fevent * list otrack) : fevent :=
  FE (fe_tracks (fst x)) (Some (snd x)).

(** the surfaces of the program are those of the geometry, line 212 *)
Definition withSurfaces (C : renv) (l : list dsurface) : renv :=
  RE (re_mm C) (re_env C) (re_prop C) (re_gbl C) (map ds_surf l) (re_cell C) (re_1D C).

(** "aidaTT_tracks.slcio", line 236 *)
Definition defaultOut : nat := 0.

(** lines 231-237: the writer; [argc == 4] if there are exactly three arguments *)
Definition openWriter (fs : lcfiles) (rest : list nat) : lcfiles * res nat :=
  match rest with
  | [outFile] => match fs outFile with
                 | Some _ => (fs, Throw)
                 | None => (lcput fs outFile [], Ok outFile)
                 end
  | _ => (lcput fs defaultOut [], Ok defaultOut)
  end.

(** lines 250-480.  If the file that is read is the one that has been replaced,
    what is read is not determined. *)
Definition tracksLoop (C : renv) (S : steering) (fs : lcfiles) (input output : nat) (evs : list fevent)
  : lcfiles * res Z :=
  if Nat.eqb input output then (fs, UB)
  else
    let '(out, r) := refitProgram C S (map eventTracks evs) in
    (lcput fs output (map writtenEvent (combine evs out)),
     match r with Ok _ => Ok 0%Z | Throw => Throw | UB => UB | NonFin => NonFin | Diverge => Diverge end).

(** main, lines 193-480: the geometry afterwards, the files afterwards, whether the
    usage is printed, and the exit code *)
Definition tracksMain (srt : dsort) (ld : loader) (C : renv) (S : steering) (w : gworld) (fs : lcfiles)
  (args : list nat) : gworld * (lcfiles * (bool * res Z)) :=
  match args with
  | inFile :: lcioFile :: rest =>
      match instanceFile srt ld w inFile with
      | (w1, Ok ref) =>
          match getSurfaces w1 ref with
          | None => (w1, (fs, (false, UB)))
          | Some geom =>
              match fs lcioFile with
              | None => (w1, (fs, (false, Throw)))
              | Some evs =>
                  match openWriter fs rest with
                  | (fs1, Ok output) =>
                      let '(fs2, r) := tracksLoop (withSurfaces C geom) S fs1 lcioFile output evs in
                      (w1, (fs2, (false, r)))
                  | (fs1, Throw) => (w1, (fs1, (false, Throw)))
                  | (fs1, UB) => (w1, (fs1, (false, UB)))
                  | (fs1, NonFin) => (w1, (fs1, (false, NonFin)))
                  | (fs1, Diverge) => (w1, (fs1, (false, Diverge)))
                  end
              end
          end
      | (w1, Throw) => (w1, (fs, (false, Throw)))
      | (w1, UB) => (w1, (fs, (false, UB)))
      | (w1, NonFin) => (w1, (fs, (false, NonFin)))
      | (w1, Diverge) => (w1, (fs, (false, Diverge)))
      end
  | _ => (w, (fs, (true, Ok 1%Z)))
  end.
