(** The local frame of a track in double precision (util/src/utilities.cc 259-274).
    Same conventions as in PointFloat.v. *)
From Coq Require Import Reals.
From Verif Require Import Num Vec PointFloat.
Open Scope R_scope.

(** utilities.cc 259-274.  The argument of the sine and the cosine is computed three times,
    with the same result. *)
Definition calculateLocalCurvilinearSystem_d (L : libm) (s : R) (hp : vec5) : res (vec3 * vec3) :=
  let lambda := m_atan L (hp TANL) in
  c <- rd (hp OMEGA * s) ;; th <- rd (hp PHI0 - c) ;;
  v0 <- rd (- m_cos L th * m_sin L lambda) ;;
  v1 <- rd (- m_sin L th * m_sin L lambda) ;;
  Ok (V3 (- m_sin L th) (m_cos L th) 0, V3 v0 v1 (m_cos L lambda)).
