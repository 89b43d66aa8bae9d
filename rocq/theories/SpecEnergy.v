(** Momentum and energy of the states of a trajectory. *)
From Coq Require Import Reals List Bool ZArith.
From Verif Require Import SpecConst Num Vec Helix Isect Material Traj SpecTraj.
Import ListNotations.
Open Scope R_scope.

(** size of the momentum (GeV) of a state with parameters [hp] in a field [bz] (tesla) *)
Definition momentum_size (bz : R) (hp : vec5) : R :=
  field_unit * Rabs bz / Rabs (hp OMEGA) * sqrt (1 + hp TANL * hp TANL).

Definition energy_of (p m : R) : R := sqrt (p * p + m * m).

(** the energy loss [dE] and the energy [En] that an addition computes: the track
    continued from the last element crosses the surface at [xx]; the loss is that at
    the hit (measurements) or at the crossing (scatterers) *)
Definition loss_of (E : env) (t : traj) (c : call) (dE En : R) : Prop :=
  let crossing surf cb lossAt := exists s xx mv fid mom beta,
    intersectWithSurface surf (tp_par (from_state t)) (tp_ref (from_state t)) (OVal 0 v3zero) 1 cb
      = Ok (true, OVal s xx)
    /\ moveHelixTo (from_state t) xx false = Ok (mv, fid)
    /\ momentumAtPCA (en_gfield E) (tp_par mv) (tp_ref mv) = Ok mom
    /\ computeEnergyLoss_uv surf (lossAt xx) mom (tr_mass t) = Ok (EL dE En beta) in
  match c with
  | CMeas position _ surf _ _ => crossing surf false (fun _ => sf_globalToLocal surf position)
  | CScat surf => crossing surf true (sf_globalToLocal surf)
  | _ => False
  end.

(** the particle loses some of its energy, or nothing *)
Definition braking (E : env) (t : traj) (c : call) : Prop :=
  forall dE En, loss_of E t c dE En -> 0 <= dE < En.

(** [b] comes after [a]: same charge and dip, no less curvature *)
Definition slower (a b : telem) : Prop :=
  0 < tp_par (te_tp a) OMEGA * tp_par (te_tp b) OMEGA
  /\ Rabs (tp_par (te_tp a) OMEGA) <= Rabs (tp_par (te_tp b) OMEGA)
  /\ tp_par (te_tp b) TANL = tp_par (te_tp a) TANL.

(** what is left of the energy after the losses, by the factors 1 - dE/E *)
Fixpoint fraction (ls : list (R * R)) : R :=
  match ls with [] => 1 | (dE, En) :: ls' => (1 - dE / En) * fraction ls' end.
