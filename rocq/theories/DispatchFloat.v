(** The crossing of a track with a surface of any kind in double precision
    (util/src/helixUtils.cc 654-684).  Same conventions as in PointFloat.v. *)
From Coq Require Import Reals ZArith Bool.
From Verif Require Import Num Vec Isect FloatWrap PointFloat PlaneFloat DiskFloat CylFloat NewtonFloat.
Open Scope R_scope.

(** The output parameters [s] and [xx] after a call that leaves them as they are
    ([None]) or writes them; [xx] may be not finite. *)
Definition written (o : outp) (w : option (R * option vec3)) : outp :=
  match w with
  | None => o
  | Some (s, Some x) => OVal s x
  | Some (s, None) => OBad
  end.

(** helixUtils.cc 654-684.  [o]: the output parameters at the call.  [S]: the distance and
    the normal of the surface as computed (used for cones only).  The warning for other
    kinds of surfaces, and the counter that ends it, are not modelled. *)
Definition intersectWithSurface_d (L : libm) (at2 : R -> R -> R) (as_ : R -> R) (S : surface_d) (surf : surface)
  (hp : vec5) (rp : vec3) (o : outp) (mode : Z) (checkBounds : bool) : res (bool * outp) :=
  let t := sf_type surf in
  if isZCylinder t then
    r <- intersectWithZCylinder_d L at2 as_ surf hp rp mode checkBounds ;;
    Ok (fst r, written o (option_map (fun p => (fst p, Some (snd p))) (snd r)))
  else if isZPlane t then intersectWithZPlane_d L at2 surf hp rp o mode checkBounds
  else if isZDisk t then
    r <- intersectWithZDisk_d L surf hp rp mode checkBounds ;;
    Ok (fst r, written o (Some (fst (snd r), Some (snd (snd r)))))
  else if isCone t then
    r <- intersectWithZCone_d L at2 as_ S surf hp rp mode checkBounds ;;
    Ok (fst r, written o (snd r))
  else Ok (false, o).
