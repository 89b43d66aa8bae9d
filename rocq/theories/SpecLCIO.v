(** The LCIO convention for track states, stated on its own. *)
From Coq Require Import Reals List Bool ZArith.
From Verif Require Import Num Vec LCIO.
Import ListNotations.
Open Scope R_scope.

(** position of a parameter in the LCIO order d0, phi, omega, z0, tan lambda *)
Definition lcio_pos (i : idx) : nat :=
  match i with I0 => 2 | I1 => 4 | I2 => 1 | I3 => 0 | I4 => 3 end%nat.

(** index of an entry in the packed lower triangle *)
Definition lcio_tri (i j : idx) : nat :=
  let a := Nat.max (lcio_pos i) (lcio_pos j) in
  let b := Nat.min (lcio_pos i) (lcio_pos j) in
  (a * (a + 1) / 2 + b)%nat.

(** the parameter with a given index, as LCIO stores it *)
Definition lcio_par (ts : trackState) (i : idx) : R :=
  match i with
  | I0 => ts_Omega ts | I1 => ts_TanLambda ts | I2 => ts_Phi ts | I3 => ts_D0 ts | I4 => ts_Z0 ts
  end.

(** factor between LCIO's value (lengths in mm) and the internal one *)
Definition unit_factor (mm : R) (i : idx) : R :=
  match i with I0 => / mm | I1 => 1 | I2 => 1 | I3 => mm | I4 => mm end.

(** two parameter sets with equal contents *)
Definition same_tp (a b : trackParameters) : Prop :=
  (forall i, tp_par a i = tp_par b i) /\ (forall i j, tp_cov a i j = tp_cov b i j)
  /\ tp_ref a = tp_ref b.


(** the covariance matrix a track state stands for *)
Definition lcio_mat (ts : trackState) : mat5 := fun i j => nth (lcio_tri i j) (ts_cov ts) 0.

(** of two mirrored entries the one written to a track state *)
Definition lcio_written (m : mat5) (i j : idx) : R :=
  match i, j with
  | I0, I1 | I1, I0 => m I0 I1
  | I0, I2 | I2, I0 => m I0 I2
  | I0, I3 | I3, I0 => m I3 I0
  | I0, I4 | I4, I0 => m I4 I0
  | I1, I2 | I2, I1 => m I1 I2
  | I1, I3 | I3, I1 => m I1 I3
  | I1, I4 | I4, I1 => m I1 I4
  | I2, I3 | I3, I2 => m I3 I2
  | I2, I4 | I4, I2 => m I2 I4
  | I3, I4 | I4, I3 => m I3 I4
  | i, j => m i j
  end.
