(** C65: what an element contains, and where the elements of a trajectory come from. *)
From Coq Require Import Reals List Bool ZArith Lra Permutation.
From Verif Require Import Num Vec Helix Isect Trans Material Traj.
From Verif Require Import SpecTraj SpecElem ElemFacts TrajEx.
Import ListNotations.
Open Scope R_scope.

(** A hit is accepted exactly if an element with the contents of [made_by] exists, and
    it is this element that is appended. *)
Theorem C65_measurement : forall E t position precision surf id sc t',
  addMeasurement E t position precision surf id sc = (t', Ok true) <->
  exists t1 e, with_initial t t1 /\ extended t1 t' e /\ made_by E t (CMeas position precision surf id sc) e.
Proof. exact addMeasurement_iff. Qed.
Print Assumptions C65_measurement.

Theorem C65_scatterer : forall E t surf t',
  addScatterer E t surf = (t', Ok true) <->
  exists t1 e, with_initial t t1 /\ extended t1 t' e /\ made_by E t (CScat surf) e.
Proof. exact addScatterer_iff. Qed.
Print Assumptions C65_scatterer.

(** The contents are determined by the call and the trajectory. *)
Theorem C65_unique : forall E t c e e', made_by E t c e -> made_by E t c e' -> e = e'.
Proof. exact made_unique. Qed.
Print Assumptions C65_unique.

(** After any history the trajectory holds the initial element and the elements made
    by the accepted calls, each once and unchanged, up to their order and the
    Jacobians; reference parameters and propagator are those of the constructor, the
    mass is the one last set, or that of the pion. *)
Theorem C65_contents : forall E ok ref prop cs t, env_ok E -> history E ok (mkTraj ref prop) cs t ->
  (exists es, build E ok (mkTraj ref prop) cs t es
     /\ ((tr_elems t = [] /\ es = [])
         \/ exists i l, initial_element ref i /\ Permutation (i :: es) l
              /\ Forall2 same_but_jacobian l (tr_elems t)))
  /\ tr_ref t = ref /\ tr_prop t = prop /\ tr_mass t = mass_after cs.
Proof.
  intros E ok ref prop cs t [So _] H. destruct (history_frame _ _ _ _ _ _ So H) as (F1 & F2 & F3). split; auto.
  destruct (history_build _ _ _ _ _ _ So H) as (es & B & _ & C). exists es. auto.
Qed.
Print Assumptions C65_contents.

(** a hit in a station, then another mass *)
Example C65_case : exists e t surf, env_ok ex_env
  /\ history ex_env any_call (mkTraj ex_ref None) [CMeas v3zero [1] surf 7 false; CMass 1] t
  /\ build ex_env any_call (mkTraj ex_ref None) [CMeas v3zero [1] surf 7 false; CMass 1] t [e]
  /\ te_id e = 7%Z /\ te_prec e = [Some 1; Some 0] /\ tr_mass t = 1 /\ length (tr_elems t) = 2%nat.
Proof.
  destruct (ex_first_hit None 1 (fun _ => true) v3zero [1] 7%Z false) as (th & e & _ & A & _); [lra|].
  assert (M := A). apply C65_measurement in M. destruct M as (t1 & e' & W & X & M). unfold extended in X.
  assert (E1 : e' = e).
  { destruct (with_last _ _ W) as (e0 & l & El & _). apply (f_equal tr_elems) in X. rewrite El in X. cbn in X.
    injection X as _ X2. destruct l as [|x [|y l]]; cbn in X2; [injection X2 as ->; auto|discriminate|discriminate]. }
  subst e'. set (surf := ex_station 1 th (fun _ => true)) in *.
  set (t2 := set_elems (ex_traj None) [ex_initial; e]) in *.
  assert (St : step ex_env (ex_traj None) (CMeas v3zero [1] surf 7 false) t2).
  { apply step_meas with (Ok true); [exact A|left; eauto]. }
  assert (B : build ex_env any_call (mkTraj ex_ref None) [CMeas v3zero [1] surf 7 false; CMass 1] (setMass t2 1) [e]).
  { apply (bd_other _ _ _ [CMeas v3zero [1] surf 7 false] t2); [|exact I|constructor|
      intros x (?&?&?&?&?&?&?&?&?&?&?&?&?&?&[])].
    apply (bd_made _ _ _ [] (ex_traj None) []); auto; [constructor|exact I].  }
  exists e, (setMass t2 1), surf. split; [apply ex_env_ok|]. split; [eapply build_history; eauto|]. split; auto.
  destruct M as (s0 & s & xx & mom & m & n & p & F & Es & Ec & Ed & Ep & Ip & Ej & C & Esf & Em & Esc & Ei & _ & _ & Er & Pt & Pf).
  split; [exact Ei|]. split; [exact (Pf eq_refl)|]. split; reflexivity.
Qed.
