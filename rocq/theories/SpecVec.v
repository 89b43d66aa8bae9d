(** Notions used in the statements about Vector3D. *)
From Coq Require Import Reals ZArith List.
From Verif Require Import Num Vec VecObj.
Import ListNotations.
Open Scope R_scope.

Definition component (i : Z) : Prop := (0 <= i <= 2)%Z.

(** the value last written to coordinate [i] of the vector at [a], following
    assignments between vectors, newest operation first *)
Inductive written (init : nat -> vec3) : list vop -> nat -> Z -> R -> Prop :=
| wr_init a i v x y z : init a = v -> v = V3 x y z ->
    written init [] a i (nth (Z.to_nat i) [x; y; z] 0)
| wr_set l a i x : written init (VSet a i x :: l) a i x
| wr_set_other l a i x b j y : (b, j) <> (a, i) -> written init l b j y -> written init (VSet a i x :: l) b j y
| wr_assign l a b i y : written init l b i y -> written init (VAssign a b :: l) a i y
| wr_assign_other l a b c i y : c <> a -> written init l c i y -> written init (VAssign a b :: l) c i y
| wr_fill l a x y z i : written init (VFill a x y z :: l) a i (nth (Z.to_nat i) [x; y; z] 0)
| wr_fill_other l a x y z c i w : c <> a -> written init l c i w -> written init (VFill a x y z :: l) c i w
| wr_from l a b i y : written init l b i y -> written init (VFillFrom a b :: l) a i y
| wr_from_other l a b c i y : c <> a -> written init l c i y -> written init (VFillFrom a b :: l) c i y.

(** the value last written outside of the three coordinates of any vector *)
Inductive last_outside : list vop -> R -> Prop :=
| lo_nil : last_outside [] 0
| lo_set l a i x : ~ component i -> last_outside (VSet a i x :: l) x
| lo_other l o x : (forall a i y, o = VSet a i y -> component i) -> last_outside l x -> last_outside (o :: l) x.
