(** Multiple scattering and energy loss in matter, independent of the code. *)
From Coq Require Import Reals.
From Verif Require Import Vec.
Open Scope R_scope.

(** velocity (in units of the speed of light) of a particle with momentum [p] and
    mass [m] *)
Definition velocity (p m : R) : R := p / sqrt (p * p + m * m).

(** its Lorentz factor *)
Definition lorentz (p m : R) : R := sqrt (1 + p * p / (m * m)).

(** Highland's width of the scattering angle after [t] radiation lengths *)
Definition highland (p m t : R) : R :=
  136 / 10000 / (p * velocity p m) * sqrt t * (1 + 38 / 1000 * ln t).

(** cosine of the angle between a direction and a plane's unit normal *)
Definition cos_angle (p n : vec3) : R := vdot p n / vr p.

(** Bethe-Bloch: mean energy loss per mass thickness, for charge number [Z], mass
    number [A], excitation energy [I], electron mass [me], the constant [K], and a
    given density correction; [bt] is the velocity, [g] the Lorentz factor. *)
Definition max_transfer (me m bt g : R) : R :=
  2 * me * (bt * bt * (g * g)) / (1 + 2 * g * me / m + (me / m) * (me / m)).
Definition bethe_bloch (K me Z A I m bt g correction : R) : R :=
  K * Z / A * (/ (bt * bt))
  * (1 / 2 * ln (2 * me * (bt * bt * (g * g)) * max_transfer me m bt g / (I * I)) - bt * bt - correction).

(** Sternheimer's density effect with x0 = 0, x1 = 3, exponent 3: [x] is the
    decimal logarithm of momentum over mass, [C] the (positive) material constant *)
Definition density_effect (x C : R) : R :=
  if Rlt_dec x 0 then 0
  else if Rlt_dec x 3 then 4606 / 1000 * x - C + C / 27 * ((3 - x) * (3 - x) * (3 - x))
  else 4606 / 1000 * x - C.

(** constants and material parameters, in GeV and cm *)
Definition loss_constant : R := 307075 / 1000000 * / 1000.
Definition electron_mass : R := 510998902 / 1000000000 * / 1000.
Definition excitation (Z : R) : R := (976 / 100 * Z + 588 / 10 * Rpower Z (- (19 / 100))) * / 1000000000.
Definition plasma (rho Z A : R) : R := 28816 / 1000 * sqrt (rho * Z / A) * / 1000000000.
Definition sternheimer (rho Z A : R) : R := 2 * ln (excitation Z / plasma rho Z A) + 1.
