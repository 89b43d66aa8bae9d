(** The crossing of a track with a disk at fixed z in double precision
    (util/src/helixUtils.cc 633-652).  Same conventions as in PointFloat.v. *)
From Coq Require Import Reals ZArith Bool.
From Flocq Require Import Core.
From Verif Require Import Num Vec Isect FloatWrap PointFloat.
Open Scope R_scope.

(** helixUtils.cc 633-652.  Returns the boolean, [s] and [xx].  The test
    [mode * s > 0] is made on the exact product: [mode] is an integer, so that the
    product does not underflow, and an infinite product has the right sign. *)
Definition intersectWithZDisk_d (L : libm) (surf : surface) (hp : vec5) (rp : vec3)
  (mode : Z) (checkBounds : bool) : res (bool * (R * vec3)) :=
  let planePositionZ := vz (sf_origin surf) in
  helixPositionZ <- rd (vz rp + hp Z0) ;;
  d <- rd (planePositionZ - helixPositionZ) ;;
  s <- rd_div d (hp TANL) ;;
  x <- calculateXfromS_d L s hp rp ;;
  y <- calculateYfromS_d L s hp rp ;;
  let xx := V3 x y planePositionZ in
  Ok (mode_ok mode s && bounds surf checkBounds xx, (s, xx)).
