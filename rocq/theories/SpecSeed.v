(** Notions used in the statements about the covariance of the start parameters. *)
From Coq Require Import Reals List Bool ZArith.
From Verif Require Import Num Vec Helix Isect Trans Material Traj Fit LCIO Refit SpecTurn SpecTraj SpecFit.
Import ListNotations.
Open Scope R_scope.

(** the same parameters at the same point, with any covariance *)
Definition same_track (a b : trackParameters) : Prop := tp_par b = tp_par a /\ tp_ref b = tp_ref a.

(** elements and trajectories that differ in covariances only *)
Record same_elem (a b : telem) : Prop := {
  se_tp : same_track (te_tp a) (te_tp b);
  se_s : te_s b = te_s a;
  se_surf : te_surf b = te_surf a;
  se_meas : te_meas b = te_meas a;
  se_scat : te_scat b = te_scat a;
  se_dirs : te_dirs b = te_dirs a;
  se_prec : te_prec b = te_prec a;
  se_res : te_res b = te_res a;
  se_cls : te_cls b = te_cls a;
  se_proj : te_proj b = te_proj a;
  se_jac : te_jac b = te_jac a;
  se_id : te_id b = te_id a
}.

Record same_traj (a b : traj) : Prop := {
  st_ref : same_track (tr_ref a) (tr_ref b);
  st_prop : tr_prop b = tr_prop a;
  st_mass : tr_mass b = tr_mass a;
  st_elems : Forall2 same_elem (tr_elems a) (tr_elems b);
  st_isect : tr_isect b = tr_isect a
}.

(** all trajectories of a program *)
Definition same_world (w w' : world) : Prop := forall n,
  match w n, w' n with
  | None, None => True
  | Some t, Some t' => same_traj t t'
  | _, _ => False
  end.

(** track states that differ in the covariance matrix and the location only *)
Definition same_state (a b : trackState) : Prop :=
  ts_D0 b = ts_D0 a /\ ts_Phi b = ts_Phi a /\ ts_Omega b = ts_Omega a /\ ts_Z0 b = ts_Z0 a
  /\ ts_TanLambda b = ts_TanLambda a /\ ts_ref b = ts_ref a.

(** tracks with the same hits and such states *)
Definition same_input (a b : track) : Prop :=
  tk_hits b = tk_hits a
  /\ match tk_state a, tk_state b with
     | None, None => True
     | Some x, Some y => same_state x y /\ (15 <= length (ts_cov x))%nat /\ (15 <= length (ts_cov y))%nat
     | _, _ => False
     end.

(** One pass: a new trajectory started from [tp], the calls [cs] on it, a fit with
    a new interface, and the result at the default label. *)
Definition one_pass (E : env) (G : gbl) (pm : option propagator) (cs : list call)
  (tp : trackParameters) (fr : fitResults) : Prop :=
  exists t st b st' a, snd (run E (mkTraj tp pm) cs) = Some t
    /\ fit G (only t) fs_start 0 = (st, Ok b)
    /\ getResults E G (only t) st 0 = (st', Ok a) /\ holds st' a fr.

(** [n] passes, each started from the parameters the one before has estimated *)
Inductive passes (E : env) (G : gbl) (pm : option propagator) (cs : list call) (tp : trackParameters)
  : nat -> trackParameters -> Prop :=
| pass_none : passes E G pm cs tp O tp
| pass_next n a fr : passes E G pm cs tp n a -> one_pass E G pm cs a fr ->
    passes E G pm cs tp (S n) (fr_tp fr).
