(** Notions used in the statements about memory. *)
From Coq Require Import Reals List Bool ZArith Permutation.
From Verif Require Import Num Vec Helix Isect Trans Material Traj SpecTraj SpecThrow Heap.
Import ListNotations.
Open Scope R_scope.

(** what is alive in a piece of memory, in the order of allocation *)
Fixpoint live (h : heap) : list kind :=
  match h with
  | [] => []
  | Some k :: h' => k :: live h'
  | None :: h' => live h'
  end.

(** the contract of std::sort on pointers: the pointers are permuted, and the
    elements they point to come in an order that the sort of the value model
    produces *)
Definition hsort_ok (E : env) (hsort : list helem -> list helem) : Prop :=
  forall l, Permutation l (hsort l) /\ map he_val (hsort l) = en_sortE E (map he_val l).

(** calls, with the way they ended *)
Inductive hcall := HCall (c : call) (threw : bool).

(** one call of the interface on a trajectory in memory *)
Inductive hstep (E : env) (hsort : list helem -> list helem) (h : heap) (t : htraj)
  : hcall -> heap -> htraj -> Prop :=
| hs_meas position precision surf id sc h' t' b :
    hAddMeasurement E t position precision surf id sc h = (h', t', Ok b) ->
    hstep E hsort h t (HCall (CMeas position precision surf id sc) false) h' t'
| hs_meas_throw position precision surf id sc h' t' :
    hAddMeasurement E t position precision surf id sc h = (h', t', Throw) ->
    hstep E hsort h t (HCall (CMeas position precision surf id sc) true) h' t'
| hs_scat surf h' t' b : hAddScatterer E t surf h = (h', t', Ok b) ->
    hstep E hsort h t (HCall (CScat surf) false) h' t'
| hs_scat_throw surf h' t' : hAddScatterer E t surf h = (h', t', Throw) ->
    hstep E hsort h t (HCall (CScat surf) true) h' t'
| hs_prep h' t' : hPrepareForFitting E hsort t h = (h', t', Ok tt) ->
    hstep E hsort h t (HCall CPrep false) h' t'
| hs_prep_throw h' t' : hPrepareForFitting E hsort t h = (h', t', Throw) ->
    hstep E hsort h t (HCall CPrep true) h' t'
| hs_isect l b : getIntersectionsWithSurfaces E (ht_base t) l = Ok b ->
    hstep E hsort h t (HCall (CIsect l) false) h (HT b (ht_elems t))
| hs_mass m : hstep E hsort h t (HCall (CMass m) false) h (HT (setMass (ht_base t) m) (ht_elems t)).

(** What a call leaves behind for ever: nothing if it returns or if the surface
    is unusable; the parts of the new element if an addition throws for another
    reason; one Jacobian if a preparation throws. *)
Inductive leaves : hcall -> list kind -> Prop :=
| lv_return c : leaves (HCall c false) []
| lv_meas_unusable position precision surf id sc : unusable surf ->
    leaves (HCall (CMeas position precision surf id sc) true) []
| lv_meas position precision surf id sc : ~ unusable surf ->
    leaves (HCall (CMeas position precision surf id sc) true) [KParams; KDirs; KFrame; KProj]
| lv_scat_unusable surf : unusable surf -> leaves (HCall (CScat surf) true) []
| lv_scat surf : ~ unusable surf ->
    leaves (HCall (CScat surf) true) [KParams; KDirs; KFrame; KProj]
| lv_prep : leaves (HCall CPrep true) [KJac].

(** histories from a new trajectory in a memory with contents [h0] *)
Inductive hhist (E : env) (hsort : list helem -> list helem) (h0 : heap) (tp : trackParameters)
  (pm : option propagator) : list hcall -> heap -> htraj -> Prop :=
| hh_nil : hhist E hsort h0 tp pm [] h0 (hTraj tp pm)
| hh_snoc cs h t c h' t' : hhist E hsort h0 tp pm cs h t -> hstep E hsort h t c h' t' ->
    hhist E hsort h0 tp pm (cs ++ [c]) h' t'.

(** what a list of calls leaves behind *)
Inductive all_leave : list hcall -> list kind -> Prop :=
| al_nil : all_leave [] []
| al_snoc cs c l l' : all_leave cs l -> leaves c l' -> all_leave (cs ++ [c]) (l ++ l').

(** addresses an element is responsible for, with the type of object *)
Definition owned1 (e : helem) : list (nat * kind) :=
  let opt o k := match o with Some a => [(a, k)] | None => [] end in
  opt (he_frame e) KFrame ++ opt (he_dirs e) KDirs ++ opt (he_jac e) KJac ++ opt (he_proj e) KProj
  ++ [(he_params e, KParams); (he_self e, KElem)].
Definition owned (t : htraj) : list (nat * kind) := flat_map owned1 (ht_elems t).

(** a pointer is null exactly if the value model has no value there *)
Definition agrees {A : Type} (a : option nat) (v : option A) : Prop := a = None <-> v = None.
Definition pointers_agree (e : helem) : Prop :=
  agrees (he_dirs e) (te_dirs (he_val e)) /\ agrees (he_frame e) (te_cls (he_val e))
  /\ agrees (he_proj e) (te_proj (he_val e)) /\ agrees (he_jac e) (te_jac (he_val e)).
