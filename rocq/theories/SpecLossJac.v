(** What the loss of energy at a surface does to the curvature 1/p with the sign of
    the charge, [q]. *)
From Coq Require Import Reals.
From Verif Require Import SpecMaterial SpecEnergy.
Open Scope R_scope.

(** energy and velocity of a particle with signed inverse momentum [q] *)
Definition energy_at (m q : R) : R := energy_of (Rabs (1 / q)) m.
Definition velocity_at (m q : R) : R := velocity (Rabs (1 / q)) m.

(** [L q] is the energy lost by a particle that arrives with [q].  The update that
    the trajectory applies: [q] is divided by 1 - dE/E. *)
Definition applied_loss (m : R) (L : R -> R) (q : R) : R := q / (1 - L q / energy_at m q).

(** the change in nature: the charge is the same, the energy is lower by [L q] *)
Definition natural_loss (m : R) (L : R -> R) (q : R) : R :=
  q * Rabs (1 / q) / sqrt ((energy_at m q - L q) * (energy_at m q - L q) - m * m).

(** the term that the preparation adds to the first entry of the Jacobian of a
    scattering element that stores the state [q]: 2 dE / (beta^2 E) *)
Definition entry_term (m : R) (L : R -> R) (q : R) : R :=
  2 * L q / (velocity_at m q * velocity_at m q * energy_at m q).
