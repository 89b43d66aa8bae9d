(** The projection from the local to the measurement system in double precision
    (util/src/utilities.cc 278-337).  Same conventions as in PointFloat.v. *)
From Coq Require Import Reals List.
From Flocq Require Import Core.
From Verif Require Import Num Vec FloatWrap PointFloat PlaneFloat StartFloat.
Import ListNotations.
Open Scope R_scope.

(** utilities.cc 296-304: the substitute second direction of a 1D measurement *)
Definition fakeDirection_d (m : vec3) : res vec3 :=
  mdir <- vunit_d m ;;
  t <- rd (- vx mdir - vy mdir) ;;
  let ortho := V3 (vz mdir) (vz mdir) t in
  r <- vr_d ortho ;;
  if Rlt_dec r (rnd (/ 1000000)) then
    u <- rd (- vy mdir - vz mdir) ;; Ok (V3 u (vx mdir) (vx mdir))
  else Ok ortho.

(** utilities.cc 321-334 *)
Definition invert_d (a b c d : R) : res (R * R * R * R) :=
  p <- rd (a * d) ;; q <- rd (b * c) ;; determinant <- rd (p - q) ;;
  if Req_EM_T determinant 0 then Throw
  else
    r0 <- rd_div d determinant ;; r1 <- rd_div (- b) determinant ;;
    r2 <- rd_div (- c) determinant ;; r3 <- rd_div a determinant ;; Ok (r0, r1, r2, r3).

(** utilities.cc 278-337: the four entries of the result, row by row *)
Definition calculateLocalToMeasurementProjectionMatrix_d (clU clV : vec3) (measDirs : list vec3) : res (R * R * R * R) :=
  match measDirs with
  | [m0] =>
      ortho <- fakeDirection_d m0 ;;
      a <- vdot_d m0 clU ;; b <- vdot_d m0 clV ;; c <- vdot_d ortho clU ;; d <- vdot_d ortho clV ;;
      invert_d a b c d
  | [m0; m1] =>
      a <- vdot_d m0 clU ;; b <- vdot_d m0 clV ;; c <- vdot_d m1 clU ;; d <- vdot_d m1 clV ;;
      invert_d a b c d
  | _ => Throw
  end.
