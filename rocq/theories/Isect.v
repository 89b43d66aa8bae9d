(** Plane geometry (util/src/intersections.cc, util/include/intersections.hh)
    and helix/surface intersections (util/src/helixUtils.cc 415-810). *)
From Coq Require Import Reals List Bool ZArith.
From Verif Require Import Num Vec Helix.
Import ListNotations.
Open Scope R_scope.

(** ** circle : intersections.hh 23-43 *)
Record circle := Circ { c_x : R; c_y : R; c_r : R }.

(** constructor, intersections.cc 8-12 *)
Definition mkCircle (c0 c1 r : R) : res circle :=
  if Rlt_dec r 0 then Throw else Ok (Circ c0 c1 r).

(** ** straightLine : intersections.hh 55-83; the line n0 x + n1 y = d *)
Record straightLine := Line { l_n0 : R; l_n1 : R; l_d : R }.

Definition eps12 : R := / 1000000000000.   (* 1e-12 *)
Definition eps9 : R := / 1000000000.       (* 1e-9 *)

(** constructor, intersections.cc 16-25 *)
Definition mkStraightLine (n0 n1 d : R) : res straightLine :=
  if Rlt_dec d 0 then Throw
  else if Rlt_dec (Rabs n0) eps12 then
         (if Rlt_dec (Rabs n1) eps12 then Throw else Ok (Line n0 n1 d))
       else Ok (Line n0 n1 d).

(** move, intersections.hh 75-78 *)
Definition line_move (l : straightLine) (d1 d2 : R) : straightLine :=
  Line (l_n0 l) (l_n1 l) (l_d l - (l_n0 l * d1 + l_n1 l * d2)).
(** normalSquare, intersections.hh 71-74 *)
Definition normalSquare (l : straightLine) : R := l_n0 l * l_n0 l + l_n1 l * l_n1 l.

(** A stored point; [None] is a point with a non-finite coordinate. *)
Definition ipoint := option (R * R).

(** intersections.cc 50-80.  The list of stored points. *)
Definition intersectCircleStraightLine (c : circle) (line : straightLine)
  : res (list ipoint) :=
  let x0 := c_x c in
  let y0 := c_y c in
  let sL := line_move line x0 y0 in
  let discriminant := c_r c * c_r c * normalSquare sL - l_d sL * l_d sL in
  if Rlt_dec discriminant (- eps9) then Ok []
    (* code: discriminant < 0 && fabs(discriminant) > 1e-9 *)
  else
    let nx := l_n0 sL in
    let ny := l_n1 sL in
    let d := l_d sL in
    normSquareInv <- rdiv 1 (normalSquare sL) ;;
    let first :=
      if Rlt_dec discriminant 0 then None   (* sqrt of a negative number *)
      else let DISC := sqrt discriminant in
           Some (x0 + (nx * d + ny * DISC) * normSquareInv,
                 y0 + (ny * d - nx * DISC) * normSquareInv) in
    if Rle_dec (Rabs discriminant) eps9 then Ok [first]
    else let DISC := sqrt discriminant in
         Ok [first;
             Some (x0 + (nx * d - ny * DISC) * normSquareInv,
                   y0 + (ny * d + nx * DISC) * normSquareInv)].

(** intersections.cc 29-46 *)
Definition intersectCircleCircle (circ1 circ2 : circle) : res (list ipoint) :=
  let x1 := c_x circ1 in
  let y1 := c_y circ1 in
  let r1 := c_r circ1 in
  let x2 := c_x circ2 in
  let y2 := c_y circ2 in
  let r2 := c_r circ2 in
  let nx := 2 * (x2 - x1) in
  let ny := 2 * (y2 - y1) in
  let dist := r1 * r1 - r2 * r2 - x1 * x1 + x2 * x2 - y1 * y1 + y2 * y2 in
  reducedCircle <- mkStraightLine nx ny dist ;;
  intersectCircleStraightLine circ1 reducedCircle.

(** intersections.cc 84-106 *)
Definition intersectStraightLineStraightLine (line1 line2 : straightLine)
  : list (R * R) :=
  let nx1 := l_n0 line1 in
  let ny1 := l_n1 line1 in
  let d1 := l_d line1 in
  let nx2 := l_n0 line2 in
  let ny2 := l_n1 line2 in
  let d2 := l_d line2 in
  let discriminant := nx1 * ny2 - nx2 * ny1 in
  if Rlt_dec discriminant eps9 then []
  else [((d1 * ny2 - ny1 * d2) / discriminant, (d2 * nx1 - d1 * nx2) / discriminant)].

(** ** Surfaces

    The interface ISurface / ICylinder of DD4hep
    (core/include/AidaTTGeometry.hh 54-119 is the in-tree copy).  Surfaces are
    external; the record collects the answers of their member functions. *)
Record material := Mat {
  mat_Z : R; mat_A : R; mat_density : R; mat_radiationLength : R
}.

Record surfType := ST {
  st_cylinder : bool; st_plane : bool; st_cone : bool;
  st_parallelToZ : bool; st_orthogonalToZ : bool
}.

(** AidaTTGeometry.hh 228-243 *)
Definition isZCylinder (t : surfType) := st_cylinder t && st_parallelToZ t.
Definition isZPlane (t : surfType) := st_plane t && st_parallelToZ t.
Definition isZDisk (t : surfType) := st_plane t && st_orthogonalToZ t.
(** DD4hep's SurfaceType::isCone *)
Definition isCone (t : surfType) := st_cone t.

Record surface := Surf {
  sf_id : nat;                              (* identity of the object *)
  sf_type : surfType;
  sf_cyl : option (R * vec3);               (* dynamic_cast to ICylinder: radius, center *)
  sf_insideBounds : vec3 -> bool;
  sf_u : vec3 -> vec3;
  sf_v : vec3 -> vec3;
  sf_normal : vec3 -> vec3;
  sf_globalToLocal : vec3 -> R * R;
  sf_localToGlobal : R * R -> vec3;
  sf_origin : vec3;
  sf_innerMaterial : material;
  sf_outerMaterial : material;
  sf_innerThickness : R;
  sf_outerThickness : R;
  sf_distance : vec3 -> R
}.

(** Output parameters [s] and [xx] of the intersection functions; [OBad] means
    that a component is not finite. *)
Inductive outp := OVal (s : R) (xx : vec3) | OBad.

(** [checkBounds ? surf->insideBounds(xx) : true] *)
Definition bounds (surf : surface) (checkBounds : bool) (xx : vec3) : bool :=
  if checkBounds then sf_insideBounds surf xx else true.

(** [mode * s > 0 || mode == 0] (helixUtils.cc 558, 647, 806); [mode] is an int *)
Definition mode_ok (mode : Z) (s : R) : bool :=
  if Rlt_dec 0 (IZR mode * s) then true else Z.eqb mode 0.

(** Choice between two candidate solutions, helixUtils.cc 486-523 (cylinder,
    [tol = 1e-4] prefers the positive one if almost equal) and 582-619 (plane,
    [tol = 0]).  [None] is the [return false] of a missing solution. *)
Definition select (tol : R) (mode : Z) (s0 : R) (sol0 : vec3) (s1 : R) (sol1 : vec3)
  : option (R * vec3) :=
  if Rlt_dec s0 0 then
    if Rlt_dec s1 0 then
      (* s0 < 0 && s1 < 0 *)
      if Z.ltb mode 1 then
        (if Rlt_dec s1 s0 then Some (s0, sol0) else Some (s1, sol1))
      else None
    else
      (* s0 < 0 && s1 >= 0 *)
      if Z.ltb mode 0 then Some (s0, sol0)
      else if Z.ltb 0 mode then Some (s1, sol1)
      else if Rlt_dec (Rabs s0 + tol) (Rabs s1) then Some (s0, sol0) else Some (s1, sol1)
  else
    if Rlt_dec s1 0 then
      (* s0 >= 0 && s1 < 0 *)
      if Z.ltb 0 mode then Some (s0, sol0)
      else if Z.ltb mode 0 then Some (s1, sol1)
      else if Rlt_dec (Rabs s0) (Rabs s1 + tol) then Some (s0, sol0) else Some (s1, sol1)
    else
      (* both >= 0 *)
      if Z.ltb (-1) mode then
        (if Rlt_dec s0 s1 then Some (s0, sol0) else Some (s1, sol1))
      else None.

Definition eps4 : R := / 10000.  (* 1e-4 *)

(** helixUtils.cc 415-526.  [o] are the incoming values of the output
    parameters [s], [xx]. *)
Definition intersectWithZCylinder (surf : surface) (hp : vec5) (rp : vec3)
  (o : outp) (mode : Z) (checkBounds : bool) : res (bool * outp) :=
  match st_parallelToZ (sf_type surf), sf_cyl surf with
  | true, Some (rho, cylc) =>
    let omega := calculateOmega hp in
    let phi0 := calculatePhi0 hp in
    let d0 := calculateD0 hp in
    let sinph := sin phi0 in
    let cosph := cos phi0 in
    let x0 := vx rp - d0 * sinph in
    let y0 := vy rp + d0 * cosph in
    let xrho := vx cylc in
    let yrho := vy cylc in
    let dx := xrho - x0 in
    let dy := yrho - y0 in
    let sox := sinph - omega * dx in
    let coy := cosph + omega * dy in
    let num := 2 * dx * sinph - 2 * dy * cosph - omega * rho * rho
               - omega * (dx * dx + dy * dy) in
    match xdiv num (2 * rho * sqrt (sox * sox + coy * coy)) with
    | XInf => Ok (false, o)           (* fabs(inf) > 1 *)
    | XNaN => NonFin
    | XFin gamma =>
      if Rlt_dec 1 (Rabs gamma) then Ok (false, o)
      else
        let phirho := atan2 sox coy in
        let asing := asin gamma in
        let phic0 := asing + phirho in
        let phic1 := (if Rlt_dec 0 asing then PI - asing else - PI - asing) + phirho in
        let X0 := xrho + rho * cos phic0 in
        let Y0 := yrho + rho * sin phic0 in
        let X1 := xrho + rho * cos phic1 in
        let Y1 := yrho + rho * sin phic1 in
        s0 <- calculateSfromXY X0 Y0 hp rp ;;
        s1 <- calculateSfromXY X1 Y1 hp rp ;;
        let sol0 := V3 X0 Y0 (calculateZfromS s0 hp rp) in
        let sol1 := V3 X1 Y1 (calculateZfromS s1 hp rp) in
        match select eps4 mode s0 sol0 s1 sol1 with
        | None => Ok (false, o)
        | Some (s, xx) => Ok (bounds surf checkBounds xx, OVal s xx)
        end
    end
  | _, _ => Throw
  end.

(** helixUtils.cc 529-630 *)
Definition intersectWithZPlane (surf : surface) (hp : vec5) (rp : vec3)
  (o : outp) (mode : Z) (checkBounds : bool) : res (bool * outp) :=
  let n := sf_normal surf v3zero in
  let nx := vx n in
  let ny := vy n in
  let dist := Rabs (vdot (sf_origin surf) n) in
  line <- mkStraightLine nx ny dist ;;
  let radius := calculateRadius hp in
  let xcenter := calculateXCenter hp rp in
  let ycenter := calculateYCenter hp rp in
  circ <- mkCircle xcenter ycenter radius ;;
  candidates <- intersectCircleStraightLine circ line ;;
  match candidates with
  | [] => Ok (false, o)
  | [None] =>
      (* s and xx become NaN; [mode*s > 0] is false for a NaN *)
      if Z.eqb mode 0 then (if checkBounds then NonFin else Ok (true, OBad))
      else Ok (false, OBad)
  | [Some (X, Y)] =>
      s <- calculateSfromXY X Y hp rp ;;
      let xx := V3 X Y (calculateZfromS s hp rp) in
      Ok (mode_ok mode s && bounds surf checkBounds xx, OVal s xx)
  | Some (X0, Y0) :: Some (X1, Y1) :: _ =>
      s0 <- calculateSfromXY X0 Y0 hp rp ;;
      s1 <- calculateSfromXY X1 Y1 hp rp ;;
      let sol0 := V3 X0 Y0 (calculateZfromS s0 hp rp) in
      let sol1 := V3 X1 Y1 (calculateZfromS s1 hp rp) in
      match select 0 mode s0 sol0 s1 sol1 with
      | None => Ok (false, o)
      | Some (s, xx) => Ok (bounds surf checkBounds xx, OVal s xx)
      end
  | _ => NonFin   (* two candidates of which one is not finite: does not occur *)
  end.

(** helixUtils.cc 633-652 *)
Definition intersectWithZDisk (surf : surface) (hp : vec5) (rp : vec3)
  (o : outp) (mode : Z) (checkBounds : bool) : res (bool * outp) :=
  let planePositionZ := vz (sf_origin surf) in
  let helixPositionZ := vz rp + calculateZ0 hp in
  s <- rdiv (planePositionZ - helixPositionZ) (calculateTanLambda hp) ;;
  let x := calculateXfromS s hp rp in
  let y := calculateYfromS s hp rp in
  let xx := V3 x y planePositionZ in
  Ok (mode_ok mode s && bounds surf checkBounds xx, OVal s xx).

(** Constants of helixUtils.cc 708-712; aidaTT::mm = 0.1 (DD4hep: cm = 1) *)
Definition newton_eps : R := / 1000 * (1 / 10).
Definition alphaIncr : R := 10.
Definition alphaDecr : R := 1 / alphaIncr.

(** State at the head of the [while(1)] loop, helixUtils.cc 714-723, 729 *)
Record nstate := NS {
  n_s : R; n_xx : vec3; n_prevXX : vec3; n_prevS : R; n_prevDist : R; n_alpha : R
}.

(** Result of the loop: left by [break] (distance small) or by [return 0]
    because [count > maxCount]. *)
Inductive nresult := NDone (s : R) (xx : vec3) | NGiveUp (s : R) (xx : vec3).

(** One pass of the loop body, helixUtils.cc 748-803, after the test of the
    counter: either the loop is left by [break] (left) or continues (right). *)
Definition newton_step (surf : surface) (hp : vec5) (rp : vec3) (st : nstate)
  : res ((R * vec3) + nstate) :=
  let dist := sf_distance surf (n_xx st) in
  if Rlt_dec (Rabs dist) newton_eps then Ok (inl (n_s st, n_xx st))
  else
    let st1 :=
      if Rlt_dec (Rabs dist) (Rabs (n_prevDist st)) then
        (dist, NS (n_s st) (n_xx st) (n_xx st) (n_s st) dist (n_alpha st * alphaDecr))
      else
        (n_prevDist st,
         NS (n_prevS st) (n_prevXX st) (n_prevXX st) (n_prevS st) (n_prevDist st)
            (n_alpha st * alphaIncr)) in
    let dist1 := fst st1 in
    let st1 := snd st1 in
    let dDdxx := sf_normal surf (n_xx st1) in
    let dxxds := calculateTangent (n_s st1) hp in
    let dDds := vdot dDdxx dxxds in
    let denom := (1 + n_alpha st1) * dDds in
    q <- rdiv dist1 denom ;;
    let s := n_s st1 - q in
    xx <- pointAt s hp rp ;;
    Ok (inr (NS s xx (n_prevXX st1) (n_prevS st1) (n_prevDist st1) (n_alpha st1))).

(** helixUtils.cc 729-804.  [budget] is [maxCount + 1 - count]: the loop gives
    up when [count > maxCount], i.e. when the budget is used up, so the C++
    counter itself bounds the recursion. *)
Fixpoint newton_loop (surf : surface) (hp : vec5) (rp : vec3) (budget : nat)
  (st : nstate) : res nresult :=
  match budget with
  | O => Ok (NGiveUp (n_prevS st) (n_prevXX st))
  | S budget' =>
    r <- newton_step surf hp rp st ;;
    match r with
    | inl (s, xx) => Ok (NDone s xx)
    | inr st' => newton_loop surf hp rp budget' st'
    end
  end.

Definition newton_budget : nat := 101.  (* maxCount + 1, helixUtils.cc 709, 731 *)

(** helixUtils.cc 701-810 *)
Definition intersectWithSurfaceNewton (surf : surface) (hp : vec5) (rp : vec3)
  (s : R) (mode : Z) (checkBounds : bool) : res (bool * outp) :=
  xx <- pointAt s hp rp ;;
  r <- newton_loop surf hp rp newton_budget
         (NS s xx xx s 10000000000 (/ 10000000000)) ;;
  match r with
  | NGiveUp s xx => Ok (false, OVal s xx)
  | NDone s xx => Ok (mode_ok mode s && bounds surf checkBounds xx, OVal s xx)
  end.

(** helixUtils.cc 686-699 *)
Definition intersectWithZCone (surf : surface) (hp : vec5) (rp : vec3)
  (o : outp) (mode : Z) (checkBounds : bool) : res (bool * outp) :=
  r <- intersectWithZCylinder surf hp rp o mode false ;;
  match r with
  | (false, o') => Ok (false, o')
  | (true, OVal s xx) => intersectWithSurfaceNewton surf hp rp s mode checkBounds
  | (true, OBad) => NonFin
  end.

(** helixUtils.cc 654-684 *)
Definition intersectWithSurface (surf : surface) (hp : vec5) (rp : vec3)
  (o : outp) (mode : Z) (checkBounds : bool) : res (bool * outp) :=
  let t := sf_type surf in
  if isZCylinder t then intersectWithZCylinder surf hp rp o mode checkBounds
  else if isZPlane t then intersectWithZPlane surf hp rp o mode checkBounds
  else if isZDisk t then intersectWithZDisk surf hp rp o mode checkBounds
  else if isCone t then intersectWithZCone surf hp rp o mode checkBounds
  else Ok (false, o).
