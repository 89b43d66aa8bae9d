(** The crossing of two straight lines in double precision (util/src/intersections.cc 84-106).
    Same conventions as in PointFloat.v. *)
From Coq Require Import Reals List.
From Verif Require Import Num Vec Isect FloatWrap PointFloat.
Import ListNotations.
Open Scope R_scope.

(** intersections.cc 96; [rnd (1 / 1000000000)] is the literal 1e-9 *)
Definition lineDiscriminant_d (line1 line2 : straightLine) : res R :=
  a <- rd (l_n0 line1 * l_n1 line2) ;; b <- rd (l_n0 line2 * l_n1 line1) ;; rd (a - b).

(** intersections.cc 84-106.  The list of stored points. *)
Definition intersectStraightLineStraightLine_d (line1 line2 : straightLine) : res (list (R * R)) :=
  discriminant <- lineDiscriminant_d line1 line2 ;;
  if Rlt_dec discriminant (rnd (1 / 1000000000)) then Ok []
  else
    a <- rd (l_d line1 * l_n1 line2) ;; b <- rd (l_n1 line1 * l_d line2) ;; n <- rd (a - b) ;; x <- rd_div n discriminant ;;
    a <- rd (l_d line2 * l_n0 line1) ;; b <- rd (l_d line1 * l_n0 line2) ;; n <- rd (a - b) ;; y <- rd_div n discriminant ;;
    Ok [(x, y)].
