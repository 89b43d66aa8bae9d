(** examples/material_effects/check_materials.cpp and material_ntuples.cpp:
    material along an almost straight track from the origin.

    Simplifications common to the file.  Printing, the ROOT files and the
    parsing of the numbers on the command line are left out; the rows handed to
    the output are kept.  ROOT's single precision columns are not rounded. *)
From Coq Require Import Reals List Bool ZArith.
From Verif Require Import Num Vec Helix Isect Trans Material Traj.
Import ListNotations.
Open Scope R_scope.

(** [a += b] where both may have left the real line; once there, they stay
    (0/0 and differences of infinities are NaN, sums with them too) *)
Definition accumulate (a b : res R) : res R :=
  match a, b with Ok x, Ok y => Ok (x + y) | _, _ => NonFin end.

(** check_materials.cpp 88-117, material_ntuples.cpp 125-154 *)
Definition xOverX0 (surf : surface) (dirVec xx : vec3) : res R :=
  let r_i := sf_innerThickness surf in
  let r_o := sf_outerThickness surf in
  let X0_o := mat_radiationLength (sf_outerMaterial surf) in
  let X0_i := mat_radiationLength (sf_innerMaterial surf) in
  let r_tot := r_i + r_o in
  a <- rdiv r_i X0_i ;;
  b <- rdiv r_o X0_o ;;
  X0_eff <- rdiv (a + b) r_tot ;;
  up <- vunit dirVec ;;
  let n := sf_normal surf xx in
  let cosTrk := Rabs (vdot up n) in
  path <- rdiv (r_i + r_o) cosTrk ;;
  Ok (path * X0_eff).

(** what one pass prints (check_materials.cpp 124-127) or fills
    (material_ntuples.cpp 161): listed path length, crossing point, X/X0 of the
    surface and the total so far *)
Record scanRow := SRow { sr_s : R; sr_xx : vec3; sr_x : res R; sr_tot : res R }.

(** the loops check_materials.cpp 77-130 and material_ntuples.cpp 114-164.  The
    flag [intersects] is not used.  Simplification: if the crossing point is not
    finite the rest of the program is left out. *)
Fixpoint scanLoop (tP : trackParameters) (dirVec : vec3) (X0_tot : res R)
  (intersections : list (R * surface)) : res (list scanRow) :=
  match intersections with
  | [] => Ok []
  | (s0, surf) :: l =>
      r <- intersectWithSurface surf (tp_par tP) (tp_ref tP) (OVal 0 v3zero) 0 true ;;
      match snd r with
      | OBad => NonFin
      | OVal s xx =>
          let X_X0 := xOverX0 surf dirVec xx in
          let tot := accumulate X0_tot X_X0 in
          rest <- scanLoop tP dirVec tot l ;;
          Ok (SRow s0 xx X_X0 tot :: rest)
      end
  end.

(** check_materials.cpp 50-58, material_ntuples.cpp 85-96.  [tan] of a right
    angle is not finite (in double precision, very large). *)
Definition scanTrack (omega theta phi : R) : res trackParameters :=
  tanl <- rdiv (sin (1 / 2 * PI - theta)) (cos (1 / 2 * PI - theta)) ;;
  Ok (TP m5zero (mk5 omega tanl phi 0 0) v3zero).

(** one direction: check_materials.cpp 48-130, material_ntuples.cpp 79-164.  The
    geometry is given by its list of surfaces. *)
Definition scan (E : env) (omega theta phi : R) (surfaces : list surface) : res (list scanRow) :=
  let dirVec := v3sph 1 phi theta in
  tP <- scanTrack omega theta phi ;;
  t <- getIntersectionsWithSurfaces E (mkTraj tP None) surfaces ;;
  scanLoop tP dirVec (Ok 0) (tr_isect t).

(** check_materials.cpp 27-45 and the rest; [args] are the command line
    arguments after the file name, in degrees.  std::string of a null pointer. *)
Definition checkMaterials (E : env) (file : bool) (args : list R) (surfaces : list surface)
  : res (option (list scanRow)) :=
  match file, args with
  | true, theta :: phi :: _ =>
      rows <- scan E (/ 1000000) (theta / 180 * PI) (phi / 180 * PI) surfaces ;; Ok (Some rows)
  | true, [_] => UB
  | _, _ => Ok None
  end.

(** a row of the second table of material_ntuples.cpp 197: end point, sums of
    length over radiation length and over interaction length *)
Record matRow := MRow { mr_end : res vec3; mr_x0 : res R; mr_lambda : res R }.

(** material_ntuples.cpp 181-198.  A step of the detailed model: length,
    radiation length and interaction length of the material. *)
Fixpoint matLoop (direction : res vec3) (sum_x0 sum_lambda : res R) (path_length : R)
  (materials : list (R * R * R)) : list matRow :=
  match materials with
  | [] => []
  | (length, radLen, intLen) :: l =>
      let x := accumulate sum_x0 (rdiv length radLen) in
      let lam := accumulate sum_lambda (rdiv length intLen) in
      let path := path_length + length in
      MRow (d <- direction ;; Ok (vscale path d)) x lam :: matLoop direction x lam path l
  end.

(** material_ntuples.cpp 98, 163: the last crossing point, the origin if there is
    none *)
Definition lastPoint (rows : list scanRow) : vec3 := last (map sr_xx rows) v3zero.

(** material_ntuples.cpp 79-198 for one direction; [between] is what DD4hep's
    MaterialManager finds between two points *)
Definition ntuples (E : env) (between : vec3 -> vec3 -> list (R * R * R)) (theta phi : R)
  (surfaces : list surface) : res (list scanRow * list matRow) :=
  rows <- scan E (/ 1000000000) theta phi surfaces ;;
  let p1 := lastPoint rows in
  let direction := vunit (vsub p1 v3zero) in
  Ok (rows, matLoop direction (Ok 0) (Ok 0) 0 (between v3zero p1)).
