(** Numbers, outcomes and loops used by the model.

    C++ [double] is idealised as [R]; see DESIGN.md, section 1. *)
From Coq Require Import Reals List Bool ZArith.
Open Scope R_scope.

(** Outcome of running a piece of C++ code.
    - [Ok a]    normal completion with value [a]
    - [Throw]   a C++ exception leaves the function
    - [UB]      undefined behaviour (null dereference, out-of-range access,
                use of an uninitialised variable)
    - [NonFin]  a value of the computation is not a real number (IEEE infinity
                or NaN) and is not tested by the code before it is used
    - [Diverge] a loop did not stop within the fuel given to it *)
Inductive res (A : Type) : Type :=
| Ok (a : A)
| Throw
| UB
| NonFin
| Diverge.
Arguments Ok {A} a.
Arguments Throw {A}.
Arguments UB {A}.
Arguments NonFin {A}.
Arguments Diverge {A}.

Definition bind {A B : Type} (x : res A) (k : A -> res B) : res B :=
  match x with
  | Ok a => k a
  | Throw => Throw
  | UB => UB
  | NonFin => NonFin
  | Diverge => Diverge
  end.

Declare Scope res_scope.
Delimit Scope res_scope with res.
Notation "x <- e ;; k" := (bind e (fun x => k))
  (at level 61, e at next level, right associativity) : res_scope.
Notation "' p <- e ;; k" := (bind e (fun x => match x with p => k end))
  (at level 61, p pattern, e at next level, right associativity) : res_scope.
Open Scope res_scope.

(** IEEE division [a / b] seen from the reals: a zero divisor gives an
    infinity or NaN. *)
Definition rdiv (a b : R) : res R :=
  if Req_EM_T b 0 then NonFin else Ok (a / b).

(** [std::sqrt] *)
Definition rsqrt (x : R) : res R :=
  if Rlt_dec x 0 then NonFin else Ok (sqrt x).

(** [std::log] (natural logarithm) *)
Definition rln (x : R) : res R :=
  if Rlt_dec 0 x then Ok (ln x) else NonFin.

(** [std::pow(x,y)] for a positive base; the code calls it with a base that is
    positive for every physical material, other bases are reported as
    [NonFin] (simplification: [pow(0,y)] for [y>0] would be [0]). *)
Definition rpow (x y : R) : res R :=
  if Rlt_dec 0 x then Ok (Rpower x y) else NonFin.

(** Result of an IEEE division that the code tests afterwards. *)
Inductive xreal := XFin (r : R) | XInf | XNaN.

Definition xdiv (a b : R) : xreal :=
  if Req_EM_T b 0 then (if Req_EM_T a 0 then XNaN else XInf) else XFin (a / b).

(** C's [atan2(y,x)] (signed zeros are not distinguished). *)
Definition atan2 (y x : R) : R :=
  if Rlt_dec 0 x then atan (y / x)
  else if Rlt_dec x 0 then
         (if Rle_dec 0 y then atan (y / x) + PI else atan (y / x) - PI)
       else if Rlt_dec 0 y then PI / 2
            else if Rlt_dec y 0 then - (PI / 2) else 0.

(** [while(x < lo) x += 2pi;] and [while(x > hi) x -= 2pi;] with fuel. *)
Fixpoint loop_up (fuel : nat) (lo x : R) : res R :=
  match fuel with
  | O => Diverge
  | S n => if Rlt_dec x lo then loop_up n lo (x + 2 * PI) else Ok x
  end.

Fixpoint loop_down (fuel : nat) (hi x : R) : res R :=
  match fuel with
  | O => Diverge
  | S n => if Rlt_dec hi x then loop_down n hi (x - 2 * PI) else Ok x
  end.

(** Fuel that is shown to suffice for every real start value. *)
Definition wrap_fuel (d : R) : nat := S (Z.to_nat (up (Rabs d / (2 * PI)))).

Definition while_less (lo x : R) : res R := loop_up (wrap_fuel (lo - x)) lo x.
Definition while_greater (hi x : R) : res R := loop_down (wrap_fuel (x - hi)) hi x.
