(** The Jacobian of a step along the trajectory. *)
From Coq Require Import Reals List.
From Coquelicot Require Import Coquelicot.
From Verif Require Import Num Vec Helix Trans Traj SpecPropag.
Import ListNotations.
Open Scope R_scope.

(** A particle of the track [hp] in the field [bz] along z moves on the curve [f],
    given in the transverse path length.  [J] is the derivative of its transport
    from [a] to [b]: for every correction [w] of the curvilinear coordinates at [a]
    there is a family of motions around the track, and their coordinates in the
    plane across the track at [b] have the derivative [J w]. *)
Definition transports (bz : R) (hp : vec5) (f : R -> vec3) (a b : R) (J : mat5) : Prop :=
  let c := cos (atan (hp TANL)) in
  let q := calculateQoverP hp bz in
  let dw := (b - a) / c in
  forall w, exists l ph0 X T sg la ph,
    0 < cos l
    /\ transport_family (V3 0 0 bz) q dw (f a) l ph0 w X T sg la ph
    /\ (forall s, X 0 ((s - a) / c) = f s)
    /\ forall i, is_derive (fun e => end_coords q dw w X sg la ph e i) 0 (m5mulv J w i).

(** each element of a list transports from its predecessor, the first from [a] *)
Fixpoint steps (bz : R) (hp : vec5) (f : R -> vec3) (a : R) (l : list telem) : Prop :=
  match l with
  | [] => True
  | e :: l' => (exists J, te_jac e = Some J /\ transports bz hp f a (te_s e) J)
               /\ steps bz hp f (te_s e) l'
  end.

(** product of the Jacobians of a list of elements, the last one leftmost *)
Fixpoint product (l : list telem) (A : mat5) : mat5 :=
  match l with
  | [] => A
  | e :: l' => product l' (match te_jac e with Some J => m5mul J A | None => A end)
  end.
