(** The small example programs: examples/intersection_calculator,
    examples/lcio_read_example and examples/geometry_test.

    Simplifications common to the file.  What is printed is a list of values, in
    the order printed; text around them is left out, and so is how a surface or a
    vector is written.  An exception is not caught and ends the program.  Command
    line arguments are numbers naming files. *)
From Coq Require Import Reals List Bool ZArith.
From Verif Require Import Num Vec Helix Isect Trans Material Traj Geom.
Import ListNotations.
Open Scope R_scope.

(** outcome of a program: its exit code, if it gets that far *)
Definition exitc := res Z.

(** ** examples/intersection_calculator/intersection_calculator.cpp *)

(** what it prints *)
Inductive cline :=
| CUsage                                  (* line 12 *)
| CInit (v : vec5)                        (* line 29 *)
| CPar (tp : trackParameters)             (* line 35 *)
| CLen (n : nat)                          (* line 41 *)
| CHit (s : R) (surf : surface).          (* line 45 *)

(** lines 23-26; the vector is filled in the order omega, tan lambda, phi0, d0, z0 *)
Definition calcVector : vec5 := mk5 (23 / 100) (1 / 100) (157 / 100) 0 0.

(** lines 32-33: the default constructor (trackParameters.cc 7-9), then the
    parameters are set *)
Definition calcParameters : trackParameters := TP m5zero calcVector v3zero.

(** lines 8-99.  [argv[1]] is copied and not used.  Geometry, propagation and
    fitter of the trajectory are null pointers.  The world afterwards, the lines and
    the exit code.  [ref] always denotes an object (C46). *)
Definition calcMain (srt : dsort) (E : env) (w : gworld) (args : list nat)
  : gworld * (list cline * exitc) :=
  match args with
  | [] => (w, ([CUsage], Ok 1%Z))
  | _inFile :: _ =>
      match instance srt w with
      | (w1, Ok ref) =>
          match getSurfaces w1 ref with
          | None => (w1, ([], UB))
          | Some geom =>
              let pre := [CInit calcVector; CPar calcParameters] in
              match getIntersectionsWithSurfaces E (mkTraj calcParameters None) (map ds_surf geom) with
              | Ok t => (w1, (pre ++ CLen (length (tr_isect t))
                                  :: map (fun e => CHit (fst e) (snd e)) (tr_isect t), Ok 0%Z))
              | Throw => (w1, (pre, Throw))
              | UB => (w1, (pre, UB))
              | NonFin => (w1, (pre, NonFin))
              | Diverge => (w1, (pre, Diverge))
              end
          end
      | (w1, Throw) => (w1, ([], Throw))
      | (w1, UB) => (w1, ([], UB))
      | (w1, NonFin) => (w1, ([], NonFin))
      | (w1, Diverge) => (w1, ([], Diverge))
      end
  end.

(** ** examples/lcio_read_example/lcio_read_example.cpp *)

(** what it prints: the usage, or a surface and a hit's id *)
Inductive rline :=
| RUsage                                  (* line 22 *)
| RFound (surf : dsurface) (id : Z).      (* line 79 *)

(** an event: the cell ids of the hits of VXDCollection; [None]: there is no such
    collection and getCollection throws *)
Definition revent := option (list Z).

(** surfMap, lines 34-40; the entry made last comes first *)
Definition readMap (id : dsurface -> Z) (l : list dsurface) : list (Z * dsurface) :=
  fold_left (fun m s => (id s, s) :: m) l [].

Definition readFind (m : list (Z * dsurface)) (k : Z) : option dsurface :=
  match find (fun e => Z.eqb (fst e) k) m with Some (_, s) => Some s | None => None end.

(** getCellID0() is an int: the low word of the cell id as signed number, then
    converted to long64 (line 72) *)
Definition cellID0 (c : Z) : Z := ((c + 2 ^ 31) mod 2 ^ 32 - 2 ^ 31)%Z.

(** lines 67-80.  [surfMap[id]] of an id that is not in the map enters a null
    pointer, which is dereferenced at once. *)
Fixpoint readHits (m : list (Z * dsurface)) (l : list Z) : list rline * res unit :=
  match l with
  | [] => ([], Ok tt)
  | c :: l' =>
      let id := cellID0 c in
      match readFind m id with
      | None => ([], UB)
      | Some surf => let '(out, r) := readHits m l' in (RFound surf id :: out, r)
      end
  end.

(** lines 58-86 *)
Fixpoint readEvents (m : list (Z * dsurface)) (l : list revent) : list rline * exitc :=
  match l with
  | [] => ([], Ok 0%Z)
  | None :: _ => ([], Throw)
  | Some hits :: l' =>
      match readHits m hits with
      | (out, Ok _) => let '(out', r) := readEvents m l' in (out ++ out', r)
      | (out, Throw) => (out, Throw)
      | (out, UB) => (out, UB)
      | (out, NonFin) => (out, NonFin)
      | (out, Diverge) => (out, Diverge)
      end
  end.

(** main, lines 18-90.  [files]: the events of an LCIO file; [None]: open throws.
    With one argument argv[2] is the null pointer, given to the constructor of
    std::string (line 45). *)
Definition readMain (srt : dsort) (ld : loader) (id : dsurface -> Z) (files : nat -> option (list revent))
  (w : gworld) (args : list nat) : gworld * (list rline * exitc) :=
  match args with
  | [] => (w, ([RUsage], Ok 1%Z))
  | inFile :: rest =>
      match instanceFile srt ld w inFile with
      | (w1, Ok ref) =>
          match getSurfaces w1 ref with
          | None => (w1, ([], UB))
          | Some geom =>
              let surfMap := readMap id geom in
              match rest with
              | [] => (w1, ([], UB))
              | f :: _ =>
                  match files f with
                  | None => (w1, ([], Throw))
                  | Some events => (w1, readEvents surfMap events)
                  end
              end
          end
      | (w1, Throw) => (w1, ([], Throw))
      | (w1, UB) => (w1, ([], UB))
      | (w1, NonFin) => (w1, ([], NonFin))
      | (w1, Diverge) => (w1, ([], Diverge))
      end
  end.

(** ** examples/geometry_test/geometry_test.cpp *)

Inductive tline :=
| TUsage                                  (* line 17 *)
| TId (id : Z).                           (* line 37 *)

(** lines 12-42: the detector is loaded without the geometry of aidaTT; its
    surfaces come in DD4hep's order *)
Definition testMain (ld : loader) (id : dsurface -> Z) (d : detector) (args : list nat)
  : list tline * exitc :=
  match args with
  | [] => ([TUsage], Ok 1%Z)
  | inFile :: _ =>
      match ld inFile d with
      | Ok d1 => (map (fun s => TId (id s)) (det_surfaces d1), Ok 0%Z)
      | Throw => ([], Throw)
      | UB => ([], UB)
      | NonFin => ([], NonFin)
      | Diverge => ([], Diverge)
      end
  end.
