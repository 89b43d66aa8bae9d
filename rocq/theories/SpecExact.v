(** Hits that lie where the track crosses the surfaces. *)
From Coq Require Import Reals List Bool ZArith.
From Verif Require Import Num Vec Helix Isect Trans Material Traj SpecTraj SpecSmooth Fit.
Import ListNotations.
Open Scope R_scope.

(** the measured position has the local coordinates of the crossing found from
    the last element *)
Definition exact_hit (t : traj) (c : call) : Prop :=
  match c with
  | CMeas position _ surf _ _ => forall s xx,
      intersectWithSurface surf (tp_par (from_state t)) (tp_ref (from_state t))
        (OVal 0 v3zero) 1 false = Ok (true, OVal s xx) ->
      sf_globalToLocal surf position = sf_globalToLocal surf xx
  | _ => True
  end.

Definition bare_exact (t : traj) (c : call) : Prop := bare t c /\ exact_hit t c.

Definition no_residual (p : gpoint) : Prop :=
  (forall m, gp_meas p = Some m -> snd (fst m) = (0, 0))
  /\ (forall s, gp_scat p = Some s -> fst s = (0, 0)).

(** the contract of a least-squares fitter: nothing to correct, no correction *)
Definition unbiased (G : gbl) : Prop := forall points label err corr cov,
  List.Forall no_residual points -> gbl_results G points label = (err, corr, cov) ->
  err = 0%Z -> forall i, corr i = 0.

(** every trajectory given to the fitter was made by calls satisfying [ok] *)
Definition fitted_from (E : env) (ok : traj -> call -> Prop) (w : world) (tid : nat) : Prop :=
  forall t, w tid = Some t -> exists ref prop cs, history E ok (mkTraj ref prop) cs t.
