(** Notions for C86: the program lcio_tracks as a whole. *)
From Coq Require Import Reals List Bool ZArith Permutation.
From Verif Require Import Num Vec Isect Geom Traj Fit LCIO Refit RefitMain SpecFit SpecRefit.
Import ListNotations.

(** the program's settings with the surfaces of a detector, in some order *)
Definition with_surfaces_of (C : renv) (d : detector) (C' : renv) : Prop :=
  re_mm C' = re_mm C /\ re_env C' = re_env C /\ re_prop C' = re_prop C /\ re_gbl C' = re_gbl C
  /\ re_cell C' = re_cell C /\ re_1D C' = re_1D C
  /\ Permutation (map ds_surf (det_surfaces d)) (re_surfaces C').

(** what is read and what is written for an event *)
Definition event_written (C : renv) (S : steering) (e e' : fevent) : Prop :=
  fe_refitted e = None /\ fe_tracks e' = fe_tracks e
  /\ exists tracks os, fe_tracks e = Some tracks /\ fe_refitted e' = Some os
       /\ Forall2 (fun trk o => alone C S trk = Ok o) tracks os.

(** an event that ends the program and how *)
Definition event_stops (C : renv) (S : steering) (e : fevent) (x : res Z) : Prop :=
  (x = Throw /\ (fe_tracks e = None \/ fe_refitted e <> None))
  \/ exists l1 trk l2, fe_tracks e = Some (l1 ++ trk :: l2) /\ fe_refitted e = None
       /\ (forall t, In t l1 -> exists o, alone C S t = Ok o)
       /\ same_end (alone C S trk) x.

(** where the output goes: the third argument if there are exactly three, else the
    file aidaTT_tracks.slcio, called 0 here *)
Definition output_name (args : list nat) : nat :=
  match args with [_; _; o] => o | _ => 0 end.
