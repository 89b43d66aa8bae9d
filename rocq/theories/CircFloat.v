(** The crossing of two circles in double precision (util/src/intersections.cc 29-46).
    Same conventions as in PlaneFloat.v. *)
From Coq Require Import Reals List Bool.
From Verif Require Import Num Vec Isect FloatWrap PointFloat PlaneFloat.
Import ListNotations.
Open Scope R_scope.

(** intersections.cc 42 *)
Definition radicalDistance_d (c1 c2 : circle) : res R :=
  a <- rd (c_r c1 * c_r c1) ;; b <- rd (c_r c2 * c_r c2) ;; s <- rd (a - b) ;;
  a <- rd (c_x c1 * c_x c1) ;; s <- rd (s - a) ;;
  a <- rd (c_x c2 * c_x c2) ;; s <- rd (s + a) ;;
  a <- rd (c_y c1 * c_y c1) ;; s <- rd (s - a) ;;
  a <- rd (c_y c2 * c_y c2) ;; rd (s + a).

(** intersections.cc 29-46, with the constructor of straightLine (16-25) *)
Definition intersectCircleCircle_d (c1 c2 : circle) : res (list ipoint) :=
  dx <- rd (c_x c2 - c_x c1) ;; nx <- rd (2 * dx) ;;
  dy <- rd (c_y c2 - c_y c1) ;; ny <- rd (2 * dy) ;;
  dist <- radicalDistance_d c1 c2 ;;
  if Rlt_dec dist 0 then Throw
  else if andb (if Rlt_dec (Rabs nx) (rnd (/ 1000000000000)) then true else false)
               (if Rlt_dec (Rabs ny) (rnd (/ 1000000000000)) then true else false) then Throw
  else intersectCircleStraightLine_d (c_x c1) (c_y c1) (c_r c1) nx ny dist.
