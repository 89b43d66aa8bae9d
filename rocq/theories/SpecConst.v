(** Numbers that occur in the statements. *)
From Coq Require Import Reals.
Open Scope R_scope.

(** tolerances of the intersection functions (1e-12, 1e-9, 1e-4) and of the
    measurement projection (1e-6) *)
Definition tol12 : R := / 1000000000000.
Definition tol9 : R := / 1000000000.
Definition tol6 : R := / 1000000.
Definition tol4 : R := / 10000.
(** distance (cm) below which the Newton search is satisfied: one micrometre *)
Definition newton_tol : R := / 1000 * (1 / 10).
(** momentum (GeV) of a particle of charge 1 per Tesla and cm of curvature radius *)
Definition field_unit : R := 299792458 / 1000000000 * (1 / 100).
(** the path length below which trajectory lookups go wrong *)
Definition lowest : R := - (10 ^ 99).
