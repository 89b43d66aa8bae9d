(** test/unitTests/UnitTest.cc 31-45: how the unit tests compare numbers.  The
    arguments are doubles and converted to float (binary32) by the calls; numbers
    are the reals of Flocq's formats.  The warning printed for unequal numbers is
    left out. *)
From Coq Require Import Reals ZArith.
From Flocq Require Import Core.
From Verif Require Import Num FloatWrap LCIOFloat.
Open Scope R_scope.

(** conversion of an argument; out of the range of float it is undefined behaviour *)
Definition toFloat (x : R) : res R :=
  if Rlt_dec (Rabs (rndf x)) (bpow radix2 128) then Ok (rndf x) else UB.

(** lines 33 and 42: [fabs(x1 - x2) < tol]: the difference is a float; if it
    overflows it is infinite, and not smaller, as here.  The literal is a double. *)
Definition compareTo (tol x1 x2 : R) : res bool :=
  x1 <- toFloat x1 ;;
  x2 <- toFloat x2 ;;
  Ok (if Rlt_dec (Rabs (rndf (x1 - x2))) (rnd tol) then true else false).

(** UnitTest::floatCompare, lines 31-36 *)
Definition floatCompare (x1 x2 : R) : res bool := compareTo (1 / 1000000000) x1 x2.

(** UnitTest::roughFloatCompare, lines 40-45 *)
Definition roughFloatCompare (x1 x2 : R) : res bool := compareTo (1 / 100000) x1 x2.
