(** Surface types (core/include/AidaTTGeometry.hh 130-291) and the geometry
    (geometry/src/DD4hepGeometry.cc). *)
From Coq Require Import Reals List Bool ZArith NArith.
From Verif Require Import Num Vec Helix Isect LCIOFloat.
Import ListNotations.
Open Scope R_scope.

(** ** SurfaceType: std::bitset<32>, a number below 2^32 *)
Definition sbits := N.

(** the enumeration, AidaTTGeometry.hh 137-143 *)
Definition pCylinder : N := 0.
Definition pPlane : N := 1.
Definition pSensitive : N := 2.
Definition pHelper : N := 3.
Definition pParallelToZ : N := 4.
Definition pOrthogonalToZ : N := 5.
Definition pInvisible : N := 6.

(** bitset::set(pos, val) *)
Definition bset (b : sbits) (pos : N) (val : bool) : res sbits :=
  if N.ltb pos 32 then Ok (if val then N.setbit b pos else N.clearbit b pos) else Throw.

(** the constructors, AidaTTGeometry.hh 146-177: none to four properties *)
Fixpoint bsetAll (b : sbits) (props : list N) : res sbits :=
  match props with
  | [] => Ok b
  | p :: ps => b' <- bset b p true ;; bsetAll b' ps
  end.
Definition mkSurfaceType (props : list N) : res sbits := bsetAll 0%N props.

(** AidaTTGeometry.hh 180-183 *)
Definition setProperty (b : sbits) (prop : N) (val : bool) : res sbits := bset b prop val.

(** AidaTTGeometry.hh 186-243 *)
Definition bIsSensitive (b : sbits) : bool := N.testbit b pSensitive.
Definition bIsHelper (b : sbits) : bool := N.testbit b pHelper.
Definition bIsPlane (b : sbits) : bool := N.testbit b pPlane.
Definition bIsCylinder (b : sbits) : bool := N.testbit b pCylinder.
Definition bIsParallelToZ (b : sbits) : bool := N.testbit b pParallelToZ.
Definition bIsOrthogonalToZ (b : sbits) : bool := N.testbit b pOrthogonalToZ.
Definition bIsVisible (b : sbits) : bool := negb (N.testbit b pInvisible).
Definition bIsZCylinder (b : sbits) : bool := N.testbit b pCylinder && N.testbit b pParallelToZ.
Definition bIsZPlane (b : sbits) : bool := N.testbit b pPlane && N.testbit b pParallelToZ.
Definition bIsZDisk (b : sbits) : bool := N.testbit b pPlane && N.testbit b pOrthogonalToZ.

(** AidaTTGeometry.hh 247-253 *)
Definition isSimilar (these other : sbits) : bool := N.eqb (N.land other these) other.

Definition rltb (a b : R) : bool := if Rlt_dec a b then true else false.

(** AidaTTGeometry.hh 257-269: the returned value and the cached bit ([_bits] is
    mutable).  [normal] is [surf.normal()]. *)
Definition checkParallelToZ (b : sbits) (normal : vec3) (epsilon : R) : res (bool * sbits) :=
  let proj := Rabs (vdot normal (V3 0 0 1)) in
  b' <- bset b pParallelToZ (rltb proj epsilon) ;;
  Ok (N.testbit b' pParallelToZ, b').

(** AidaTTGeometry.hh 272-285 *)
Definition checkOrthogonalToZ (b : sbits) (normal : vec3) (epsilon : R) : res (bool * sbits) :=
  let proj := Rabs (vdot normal (V3 0 0 1)) in
  b' <- bset b pOrthogonalToZ (rltb (Rabs (proj - 1)) epsilon) ;;
  Ok (N.testbit b' pOrthogonalToZ, b').

(** ** the sorted list of surfaces *)

(** a surface with the quantities only the geometry asks for: DD4hep's
    length_along_u/v and the radii of dynamic_cast<const ICone*> *)
Record dsurface := DS {
  ds_surf : surface;
  ds_length_u : R;
  ds_length_v : R;
  ds_cone : option (R * R)
}.

(** DD4hep's SurfaceType::isZCone *)
Definition isZCone (t : surfType) : bool := st_cone t && st_parallelToZ t.

(** DD4hepGeometry.cc 14-41; the return type is float.  A failed dynamic_cast
    is dereferenced. *)
Definition getSortingPolicy (s : dsurface) : res R :=
  let t := sf_type (ds_surf s) in
  if isZCylinder t then
    match sf_cyl (ds_surf s) with Some (radius, _) => Ok (rndf radius) | None => UB end
  else if isZPlane t then Ok (rndf (vtrans (sf_origin (ds_surf s))))
  else if isZDisk t then Ok (rndf (Rmax (ds_length_u s) (ds_length_v s) / 2))
  else if isZCone t then
    match ds_cone s with Some (r0, r1) => Ok (rndf (Rmax r0 r1)) | None => UB end
  else Ok (rndf (vtrans (sf_origin (ds_surf s)))).

(** DD4hepGeometry.cc 44-47 *)
Definition sortSurfaces (a b : dsurface) : res bool :=
  x <- getSortingPolicy a ;; y <- getSortingPolicy b ;; Ok (rltb x y).

(** The instance of std::sort used: a function of the list, asked for only if
    every comparison is defined.  With less than two elements nothing is
    compared. *)
Definition dsort := list dsurface -> list dsurface.

Definition policy_defined (s : dsurface) : bool :=
  match getSortingPolicy s with Ok _ => true | _ => false end.

(** DD4hepGeometry.cc 50-66 *)
Definition sortedSurfaces (srt : dsort) (sL : list dsurface) : res (list dsurface) :=
  match sL with
  | [] => Ok sL
  | [_] => Ok sL
  | _ => if forallb policy_defined sL then Ok (srt sL) else UB
  end.

(** ** the global instance *)

(** dd4hep's detector singleton: its surfaces and field *)
Record detector := Det {
  det_surfaces : list dsurface;
  det_field : vec3 -> vec3
}.

(** a DD4hepGeometry object: the surface list made in the constructor; the
    detector is only referred to *)
Definition geometry := list dsurface.

(** static data: _geom (an index into the objects created so far), the flag
    [first], the detector and the objects created *)
Record gworld := GW {
  gw_geom : option nat;
  gw_first : bool;
  gw_det : detector;
  gw_objs : list geometry;
  gw_loads : list nat                 (* files loaded, newest first *)
}.

(** Detector::fromCompact(file).  Simplification: a load that throws leaves the
    detector as it was. *)
Definition loader := nat -> detector -> res detector.

(** constructor of DD4hepGeometry *)
Definition newGeometry (srt : dsort) (w : gworld) : res (nat * list geometry) :=
  l <- sortedSurfaces srt (det_surfaces (gw_det w)) ;;
  Ok (length (gw_objs w), gw_objs w ++ [l]).

(** IGeometry::instance(initString), DD4hepGeometry.cc 90-105: state after the
    call and returned reference *)
Definition instanceFile (srt : dsort) (ld : loader) (w : gworld) (file : nat) : gworld * res nat :=
  if gw_first w then
    match ld file (gw_det w) with
    | Ok d =>
        let w1 := GW (gw_geom w) true d (gw_objs w) (file :: gw_loads w) in
        match newGeometry srt w1 with
        | Ok (a, objs) => (GW (Some a) false d objs (gw_loads w1), Ok a)
        | Throw => (w1, Throw)
        | UB => (w1, UB)
        | NonFin => (w1, NonFin)
        | Diverge => (w1, Diverge)
        end
    | Throw => (w, Throw)
    | UB => (w, UB)
    | NonFin => (w, NonFin)
    | Diverge => (w, Diverge)
    end
  else (w, match gw_geom w with Some a => Ok a | None => UB end).

(** IGeometry::instance(), DD4hepGeometry.cc 109-113 *)
Definition instance (srt : dsort) (w : gworld) : gworld * res nat :=
  match gw_geom w with
  | Some a => (w, Ok a)
  | None =>
      match newGeometry srt w with
      | Ok (a, objs) => (GW (Some a) (gw_first w) (gw_det w) objs (gw_loads w), Ok a)
      | Throw => (w, Throw)
      | UB => (w, UB)
      | NonFin => (w, NonFin)
      | Diverge => (w, Diverge)
      end
  end.

(** program start *)
Definition gw_start (d : detector) : gworld := GW None true d [] [].

(** getSurfaces() of a reference, DD4hepGeometry.cc 68-70 *)
Definition getSurfaces (w : gworld) (ref : nat) : option geometry := nth_error (gw_objs w) ref.

(** getBField, DD4hepGeometry.cc 73-80: the field of the detector, whatever the
    reference, in units of [tesla] *)
Definition getBField (tesla : R) (w : gworld) (xx : vec3) : res vec3 :=
  k <- rdiv 1 tesla ;; Ok (vscale k (det_field (gw_det w) xx)).

(** field of fields/include/ConstantSolenoidBField.hh 14-48 *)
Definition solenoid (bz : R) (xx : vec3) : vec3 := V3 0 0 bz.
