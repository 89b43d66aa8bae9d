(** Notions used in the statements about the test framework. *)
From Coq Require Import List Bool ZArith String.
From Verif Require Import UTest.
Import ListNotations.
Open Scope Z_scope.

(** steps that count as success, and steps that count as failure *)
Definition good (x : step) : bool :=
  match x with Check true _ _ | Succeed => true | _ => false end.
Definition bad (x : step) : bool :=
  match x with Check false _ _ | Failed _ _ => true | _ => false end.
Definition count (f : step -> bool) (l : list step) : Z := Z.of_nat (List.length (filter f l)).

(** the lines about failures *)
Definition complaint (x : step) : list line :=
  match x with
  | Check false lbl n | Failed lbl n => [LFailure lbl n]
  | _ => []
  end.

(** how often a test is in a list *)
Definition times (a : nat) (l : list nat) : nat := count_occ Nat.eq_dec l a.

(** all steps of [k] runs, the first of which is run number [r] *)
Definition sessions (script : nat -> nat -> list step) (a r k : nat) : list step :=
  flat_map (fun j => script a (r + j)%nat) (seq 0 k).

(** the tests of a suite are these objects, in this order, and all exist *)
Definition consists (w : world) (s : nat) (l : list nat) : Prop :=
  su_tests (w_suite w s) = map Some l /\ forall a, In a l -> w_heap w a <> None.

(** no test of the list throws when they are run one after the other *)
Definition quiet (script : nat -> nat -> list step) (w : world) (l : list nat) : Prop :=
  forall a t j, In a l -> w_heap w a = Some t -> (j < times a l)%nat ->
    ~ In Raise (script a (t_runs t + j)%nat).

(** the name printed: the type's name for a test without name *)
Definition shown (t : tobj) : string :=
  match t_name t with EmptyString => t_type t | n => n end.
Definition name_after (t : tobj) : string :=
  match t_stream t with Some _ => shown t | None => t_name t end.

(** a test that was run [k] times by one run of a suite *)
Definition ran (script : nat -> nat -> list step) (a k : nat) (t : tobj) : tobj :=
  TO (name_after t) (t_type t) (t_file t) (t_stream t)
     (count good (sessions script a (t_runs t) k))
     (count bad (sessions script a (t_runs t) k)) (t_runs t + k)%nat.

(** what running the tests of a list prints, after the tests [before] were run *)
Fixpoint printed (script : nat -> nat -> list step) (w : world) (before l : list nat) : list (nat * line) :=
  match l with
  | [] => []
  | a :: l =>
      match w_heap w a with
      | Some t =>
          match t_stream t with
          | Some n => map (fun x => (n, x))
              (LIntro (shown t) (t_file t)
               :: flat_map complaint (script a (t_runs t + times a before)%nat))
          | None => []
          end
      | None => []
      end ++ printed script w (before ++ [a]) l
  end.

(** sum of a counter over a list of tests *)
Fixpoint total (f : tobj -> Z) (w : world) (l : list nat) : Z :=
  match l with
  | [] => 0
  | a :: l => match w_heap w a with Some t => f t | None => 0 end + total f w l
  end.

(** the lines of a report *)
Definition report_lines (w : world) (l : list nat) : list line :=
  flat_map (fun a => match w_heap w a with
                     | Some t => [LTest (shown t) (t_pass t) (t_fail t)]
                     | None => [] end) l
  ++ [LSummary (total t_fail w l) (total t_pass w l)].

(** a test whose name was printed *)
Definition with_name (t : tobj) : tobj :=
  TO (shown t) (t_type t) (t_file t) (t_stream t) (t_pass t) (t_fail t) (t_runs t).

(** a test that was added to a suite with this stream *)
Definition joined (o : option nat) (t : tobj) : tobj :=
  TO (t_name t) (t_type t) (t_file t)
     (match t_stream t with Some n => Some n | None => o end) 0 0 (t_runs t).

(** the objects in a list of pointers *)
Definition objects (ps : list (option nat)) : list nat :=
  flat_map (fun p => match p with Some a => [a] | None => [] end) ps.

(** the name printed for the [i]-th test class of the program, and its file *)
Definition class_name (l : list (string * string * string)) (i : nat) : string :=
  let '(name, type, _) := nth i l (EmptyString, EmptyString, EmptyString) in
  match name with EmptyString => type | n => n end.
Definition class_file (l : list (string * string * string)) (i : nat) : string :=
  let '(_, _, file) := nth i l (EmptyString, EmptyString, EmptyString) in file.

(** what the test program prints *)
Definition program_output (script : nat -> nat -> list step) (l : list (string * string * string)) : list line :=
  let tests := seq 0 (List.length l) in
  LTitle
  :: flat_map (fun i => LIntro (class_name l i) (class_file l i) :: flat_map complaint (script i 0%nat)) tests
  ++ map (fun i => LTest (class_name l i) (count good (script i 0%nat)) (count bad (script i 0%nat))) tests
  ++ [LSummary (count bad (flat_map (fun i => script i 0%nat) tests))
               (count good (flat_map (fun i => script i 0%nat) tests))].

(** the end of a call that uses a null pointer: a failed assert in a debug build *)
Definition null_end {A} (dbg : bool) (r : ures A) : Prop := r = if dbg then Abort else Undef.
