(** Double precision version of the first pair of angle-wrapping loops of
    moveHelixTo (util/src/helixUtils.cc 267-276).  Doubles are the reals in
    Flocq's binary64 format; every arithmetic operation rounds to nearest even.
    Infinities do not occur: each operation moves towards zero or by at most
    pi/2 and the format has no upper bound here (a simplification that only
    matters beyond 1.79e308). *)
From Coq Require Import Reals ZArith.
From Flocq Require Import Core.
From Verif Require Import Num.
Open Scope R_scope.

(** finite double *)
Definition is_double (x : R) : Prop := generic_format radix2 (FLT_exp (-1074) 53) x.

(** rounding of an operation result *)
Definition rnd (x : R) : R := round radix2 (FLT_exp (-1074) 53) ZnearestE x.

(** M_PI as a double, helixUtils.cc 267 *)
Definition dPi : R := 884279719003555 / 281474976710656.
(** helixUtils.cc 268: [kTwoPi = 2.0 * kPi] *)
Definition dTwoPi : R := rnd (2 * dPi).
(** helixUtils.cc 273: [M_PI / 2.] *)
Definition dHalfPi : R := rnd (dPi / 2).

(** helixUtils.cc 275: [while(fi0 < lo) fi0 += kTwoPi;] *)
Fixpoint dloop_up (fuel : nat) (lo x : R) : res R :=
  match fuel with
  | O => Diverge
  | S n => if Rlt_dec x lo then dloop_up n lo (rnd (x + dTwoPi)) else Ok x
  end.

(** helixUtils.cc 276: [while(fi0 > hi) fi0 -= kTwoPi;] *)
Fixpoint dloop_down (fuel : nat) (hi x : R) : res R :=
  match fuel with
  | O => Diverge
  | S n => if Rlt_dec hi x then dloop_down n hi (rnd (x - dTwoPi)) else Ok x
  end.

(** helixUtils.cc 273-276 with a bound on the number of iterations of each loop *)
Definition wrap_fi0_d (fuel : nat) (phi0 : R) : res R :=
  y <- dloop_up fuel 0 (rnd (phi0 - dHalfPi)) ;;
  dloop_down fuel dTwoPi y.
