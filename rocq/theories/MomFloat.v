(** Momentum and charge over momentum in double precision (util/src/helixUtils.cc 169-204,
    util/src/utilities.cc 9-16).  Same conventions as in PointFloat.v. *)
From Coq Require Import Reals.
From Verif Require Import Num Vec FloatWrap PointFloat.
Open Scope R_scope.

(** core/include/aidaTT-Units.hh 51 with DD4hep's cm = 1, m = 100 *)
Definition convertBr2P_d : R := rnd (rnd (299792458 / 1000000000) * rnd (1 / 100)).

(** helixUtils.cc 177 and 193 *)
Definition pt_d (omega bfieldZ : R) : res R :=
  r <- rd_div 1 omega ;; a <- rd (Rabs r * bfieldZ) ;; rd (a * convertBr2P_d).

(** helixUtils.cc 169-182.  [bfieldZ]: the z component of the field at the reference point. *)
Definition momentumAt_d (L : libm) (bfieldZ s : R) (hp : vec5) : res vec3 :=
  pt <- pt_d (hp OMEGA) bfieldZ ;;
  c <- rd (s * hp OMEGA) ;; th <- rd (hp PHI0 - c) ;;
  x <- rd (pt * m_cos L th) ;; y <- rd (pt * m_sin L th) ;; z <- rd (pt * hp TANL) ;; Ok (V3 x y z).

(** helixUtils.cc 185-204 (the warning for small pt only logs) *)
Definition momentumAtPCA_d (L : libm) (bfieldZ : R) (hp : vec5) : res vec3 :=
  pt <- pt_d (hp OMEGA) bfieldZ ;;
  x <- rd (pt * m_cos L (hp PHI0)) ;; y <- rd (pt * m_sin L (hp PHI0)) ;; z <- rd (pt * hp TANL) ;; Ok (V3 x y z).

(** utilities.cc 9-16 *)
Definition calculateQoverP_d (L : libm) (hp : vec5) (bfield : R) : res R :=
  if Req_EM_T bfield 0 then Ok 0
  else
    a <- rd (m_cos L (m_atan L (hp TANL)) * hp OMEGA) ;; b <- rd (bfield * convertBr2P_d) ;; rd_div a b.
