(** Vector3D objects that are read and changed through operator[].

    Vectors live in a store, by address.  The function-local static of the
    non-const operator[] is one variable of the program. *)
From Coq Require Import Reals ZArith.
From Verif Require Import Num Vec.
Open Scope R_scope.

Record vstore := VS { vs_vec : nat -> vec3; vs_dummy : R }.

(** at the start of the program the static is zero, Vector3D.hh 157 *)
Definition vs_start (f : nat -> vec3) : vstore := VS f 0.

Definition vput (st : vstore) (a : nat) (v : vec3) : vstore :=
  VS (fun b => if Nat.eqb b a then v else vs_vec st b) (vs_dummy st).

(** operator[] const, Vector3D.hh 123-138 *)
Definition vget (v : vec3) (i : Z) : R :=
  match i with 0%Z => vx v | 1%Z => vy v | 2%Z => vz v | _ => 0 end.

(** reading through the non-const operator[], Vector3D.hh 141-158 *)
Definition vref_get (st : vstore) (a : nat) (i : Z) : R :=
  let v := vs_vec st a in
  match i with 0%Z => vx v | 1%Z => vy v | 2%Z => vz v | _ => vs_dummy st end.

Inductive vop :=
| VSet (a : nat) (i : Z) (x : R)
| VAssign (a b : nat)
| VFill (a : nat) (x y z : R)
| VFillFrom (a b : nat).

Definition vstep (st : vstore) (o : vop) : vstore :=
  match o with
  (* v[i] = x, Vector3D.hh 141-158 *)
  | VSet a i x =>
      let v := vs_vec st a in
      match i with
      | 0%Z => vput st a (V3 x (vy v) (vz v))
      | 1%Z => vput st a (V3 (vx v) x (vz v))
      | 2%Z => vput st a (V3 (vx v) (vy v) x)
      | _ => VS (vs_vec st) x
      end
  (* operator=, Vector3D.hh 50-56: through operator[] const *)
  | VAssign a b =>
      let v := vs_vec st b in vput st a (V3 (vget v 0) (vget v 1) (vget v 2))
  (* fill(x, y, z), Vector3D.hh 78-84 *)
  | VFill a x y z => vput st a (V3 x y z)
  (* fill(const T&) with T = Vector3D, Vector3D.hh 59-66 *)
  | VFillFrom a b =>
      let v := vs_vec st b in vput st a (V3 (vget v 0) (vget v 1) (vget v 2))
  end.

Fixpoint vrun (st : vstore) (l : list vop) : vstore :=
  match l with nil => st | cons o l' => vrun (vstep st o) l' end.
