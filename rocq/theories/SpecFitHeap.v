(** Histories of any number of fit interfaces. *)
From Coq Require Import Reals List Bool ZArith.
From Verif Require Import Num Vec Helix Isect Trans Material Traj Fit SpecFit FitHeap.
Import ListNotations.

(** construction, calls, destruction; interfaces by number *)
Inductive sev :=
| SNew (k : nat)
| SFit (k : nat) (w : world) (tid : nat) (r : res bool)
| SGet (k : nat) (w : world) (label : Z) (r : res nat)
| SDel (k : nat).

(** histories of calls that return or leave by an exception, oldest first *)
Inductive shist (E : env) (G : gbl) : list sev -> fsys -> Prop :=
| sh_nil : shist E G [] sys_start
| sh_new log s s' k : shist E G log s -> newIf s = (s', k) -> shist E G (log ++ [SNew k]) s'
| sh_fit log s k w tid s' r : shist E G log s -> fitIf G w s k tid = (s', r) ->
    (exists b, r = Ok b) \/ r = Throw -> shist E G (log ++ [SFit k w tid r]) s'
| sh_get log s k w label s' r : shist E G log s -> getRes E G w s k label = (s', r) ->
    (exists a, r = Ok a) \/ r = Throw -> shist E G (log ++ [SGet k w label r]) s'
| sh_del log s k s' : shist E G log s -> delIf s k = (s', Ok tt) -> shist E G (log ++ [SDel k]) s'.

Definition alive (log : list sev) (k : nat) : Prop := In (SNew k) log /\ ~ In (SDel k) log.

(** [l2] is what happened since the latest fit of interface [k] *)
Definition since_fit (log : list sev) (k : nat) (w : world) (tid : nat) (r : res bool) (l2 : list sev) : Prop :=
  (exists l1, log = l1 ++ SFit k w tid r :: l2) /\ forall w' tid' r', ~ In (SFit k w' tid' r') l2.

(** the latest fit of an interface returned *)
Definition fitted (log : list sev) (k : nat) : Prop := exists w tid b l2, since_fit log k w tid (Ok b) l2.

(** live object *)
Definition there (s : fsys) (a : nat) (c : cell) : Prop := nth_error (sy_heap s) a = Some (Some c).
Definition freed (s : fsys) (a : nat) : Prop := nth_error (sy_heap s) a = Some None.

(** the calls on one interface *)
Definition of_if (k : nat) (e : sev) : bool :=
  match e with SFit j _ _ _ => Nat.eqb j k | SGet j _ _ _ => Nat.eqb j k | _ => false end.

(** the same call with the same outcome, up to the address of the result:
    [m] gives the address here for each address there *)
Inductive same_call (m : list nat) : sev -> fev -> Prop :=
| same_fit k w tid r : same_call m (SFit k w tid r) (EvFit w tid r)
| same_get k w label a b : nth_error m a = Some b -> same_call m (SGet k w label (Ok b)) (EvGet w label (Ok a))
| same_get_throw k w label : same_call m (SGet k w label Throw) (EvGet w label Throw).

(** the same way of ending *)
Definition same_kind {A B : Type} (r : res A) (r' : res B) : Prop :=
  match r, r' with
  | Ok _, Ok _ | Throw, Throw | UB, UB | NonFin, NonFin | Diverge, Diverge => True
  | _, _ => False
  end.
