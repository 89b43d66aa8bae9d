(** test/unitTests/UnitTest.hh, UnitTest.cc, UnitTestSuite.hh, UnitTestSuite.cc and
    test/aidaTT-unitTests.cpp: the test framework and the test program.

    Simplifications common to the file.  Test objects and suites live in a store
    under numbers; a stream is a number, [None] is the null pointer.  The counters
    (long) are integers without overflow.  A stream never fails.  Of a printed line
    the texts and numbers are kept, but not the decoration with asterisks.  What a
    test does when it is run is a parameter: a list of steps that may differ from
    run to run; it does not touch suites or other tests. *)
From Coq Require Import List Bool ZArith String.
Import ListNotations.
Open Scope Z_scope.

(** one step of a run of a test: test_(cond), fail_(str), succeed_() or an exception
    that leaves run() (UnitTest.hh 14-17, 27, 83-86) *)
Inductive step :=
| Check (cond : bool) (lbl : string) (lineno : Z)
| Failed (lbl : string) (lineno : Z)
| Succeed
| Raise.

(** UnitTest.hh 43-47, and the name typeid gives; [t_runs] counts the calls of run() *)
Record tobj := TO {
  t_name : string;
  t_type : string;
  t_file : string;
  t_stream : option nat;
  t_pass : Z;
  t_fail : Z;
  t_runs : nat
}.

(** UnitTestSuite.hh 35-37, without the name *)
Record suite := SU { su_stream : option nat; su_tests : list (option nat) }.

(** what is printed *)
Inductive line :=
| LTitle
| LIntro (name file : string)
| LFailure (lbl : string) (lineno : Z)
| LTest (name : string) (passed failed : Z)
| LSummary (failed passed : Z).

Record world := WD {
  w_heap : nat -> option tobj;
  w_suite : nat -> suite;
  w_out : list (nat * line)
}.

(** how a call ends: normally, by an exception, by a failed assert, with undefined
    behaviour, or not within the number of iterations given *)
Inductive ures (A : Type) : Type :=
| Done (a : A) (w : world)
| Thrown (w : world)
| Abort
| Undef
| NoEnd.
Arguments Done {A} a w.
Arguments Thrown {A} w.
Arguments Abort {A}.
Arguments Undef {A}.
Arguments NoEnd {A}.

Definition ubind {A B} (r : ures A) (k : A -> world -> ures B) : ures B :=
  match r with
  | Done a w => k a w
  | Thrown w => Thrown w
  | Abort => Abort
  | Undef => Undef
  | NoEnd => NoEnd
  end.

Definition setTest (w : world) (a : nat) (t : option tobj) : world :=
  WD (fun b => if Nat.eqb b a then t else w_heap w b) (w_suite w) (w_out w).
Definition setSuite (w : world) (s : nat) (S : suite) : world :=
  WD (w_heap w) (fun b => if Nat.eqb b s then S else w_suite w b) (w_out w).

(** writing to a stream; [if(osptr)] *)
Definition print (w : world) (o : option nat) (l : line) : world :=
  match o with
  | Some n => WD (w_heap w) (w_suite w) (w_out w ++ [(n, l)])
  | None => w
  end.

(** UnitTest::reset, UnitTest.hh 88-91 *)
Definition treset (t : tobj) : tobj :=
  TO (t_name t) (t_type t) (t_file t) (t_stream t) 0 0 (t_runs t).

(** UnitTest::setStream, UnitTest.hh 78-81 *)
Definition tstream (t : tobj) (o : option nat) : tobj :=
  TO (t_name t) (t_type t) (t_file t) o (t_pass t) (t_fail t) (t_runs t).

(** UnitTest::succeed_, UnitTest.hh 83-86 *)
Definition tsucceed (t : tobj) : tobj :=
  TO (t_name t) (t_type t) (t_file t) (t_stream t) (t_pass t + 1) (t_fail t) (t_runs t).

(** UnitTest.cc 22 *)
Definition tfail (t : tobj) : tobj :=
  TO (t_name t) (t_type t) (t_file t) (t_stream t) (t_pass t) (t_fail t + 1) (t_runs t).

(** UnitTest::name, UnitTest.cc 49-54: the name is remembered *)
Definition tname (t : tobj) : tobj :=
  if String.eqb (t_name t) "" then
    TO (t_type t) (t_type t) (t_file t) (t_stream t) (t_pass t) (t_fail t) (t_runs t)
  else t.

(** UnitTest::do_fail, UnitTest.cc 20-27 *)
Definition doFail (w : world) (a : nat) (t : tobj) (lbl : string) (lineno : Z) : world :=
  let t := tfail t in
  print (setTest w a (Some t)) (t_stream t) (LFailure lbl lineno).

(** one step of run(); UnitTest::do_test, UnitTest.cc 10-16 *)
Definition doStep (w : world) (a : nat) (x : step) : ures unit :=
  match w_heap w a with
  | None => Undef
  | Some t =>
      match x with
      | Check cond lbl n =>
          if negb cond then Done tt (doFail w a t lbl n)
          else Done tt (setTest w a (Some (tsucceed t)))
      | Failed lbl n => Done tt (doFail w a t lbl n)
      | Succeed => Done tt (setTest w a (Some (tsucceed t)))
      | Raise => Thrown w
      end
  end.

Fixpoint doSteps (w : world) (a : nat) (l : list step) : ures unit :=
  match l with
  | [] => Done tt w
  | x :: l => ubind (doStep w a x) (fun _ w => doSteps w a l)
  end.

(** run() of a test; [script a n] is what test [a] does when it is run for the
    [n]-th time, counted from 0 *)
Definition runTest (script : nat -> nat -> list step) (w : world) (a : nat) : ures unit :=
  match w_heap w a with
  | None => Undef
  | Some t =>
      let t' := TO (t_name t) (t_type t) (t_file t) (t_stream t) (t_pass t) (t_fail t) (S (t_runs t)) in
      doSteps (setTest w a (Some t')) a (script a (t_runs t))
  end.

(** UnitTest::intro, UnitTest.cc 65-73 *)
Definition introTest (w : world) (a : nat) : ures unit :=
  match w_heap w a with
  | None => Undef
  | Some t =>
      match t_stream t with
      | Some n =>
          let t := tname t in
          Done tt (print (setTest w a (Some t)) (Some n) (LIntro (t_name t) (t_file t)))
      | None => Done tt w
      end
  end.

(** assert(tests[i]) of a debug build ([dbg]), then the use of the pointer *)
Definition usePtr {A} (dbg : bool) (p : option nat) (k : nat -> ures A) : ures A :=
  match p with
  | None => if dbg then Abort else Undef
  | Some a => k a
  end.

(** UnitTestSuite::addTest, UnitTestSuite.cc 8-17 *)
Definition addTest (w : world) (s : nat) (p : option nat) : ures unit :=
  match p with
  | None => Thrown w
  | Some a =>
      match w_heap w a with
      | None => Undef
      | Some t =>
          let S := w_suite w s in
          let t := match su_stream S, t_stream t with
                   | Some n, None => tstream t (Some n)
                   | _, _ => t
                   end in
          let w := setSuite w s (SU (su_stream S) (su_tests S ++ [p])) in
          Done tt (setTest w a (Some (treset t)))
      end
  end.

(** UnitTestSuite::addSuite, UnitTestSuite.cc 21-28: suite [o] is added to suite
    [s].  The assert looks at the tests of [s], not of [o]; in a build without
    asserts it is not evaluated. *)
Fixpoint addSuite (dbg : bool) (fuel i : nat) (w : world) (s o : nat) : ures unit :=
  match fuel with
  | O => NoEnd
  | S fuel =>
      match nth_error (su_tests (w_suite w o)) i with
      | None => Done tt w
      | Some p =>
          let go := ubind (addTest w s p) (fun _ w => addSuite dbg fuel (S i) w s o) in
          if dbg then
            match nth_error (su_tests (w_suite w s)) i with
            | None => Undef
            | Some None => Abort
            | Some (Some _) => go
            end
          else go
      end
  end.

Fixpoint setNth {A} (i : nat) (x : A) (l : list A) : list A :=
  match i, l with
  | _, [] => []
  | O, _ :: l => x :: l
  | S i, y :: l => y :: setNth i x l
  end.

(** UnitTestSuite::free, UnitTestSuite.cc 32-39; [n] is the number of tests left,
    deleting a null pointer does nothing *)
Fixpoint freeFrom (n i : nat) (w : world) (s : nat) : ures unit :=
  match n with
  | O => Done tt w
  | S n =>
      let S := w_suite w s in
      match nth_error (su_tests S) i with
      | None => Undef
      | Some None => freeFrom n (Datatypes.S i) w s
      | Some (Some a) =>
          match w_heap w a with
          | None => Undef
          | Some _ =>
              let w := setTest w a None in
              freeFrom n (Datatypes.S i) (setSuite w s (SU (su_stream S) (setNth i None (su_tests S)))) s
          end
      end
  end.
Definition free (w : world) (s : nat) : ures unit :=
  freeFrom (List.length (su_tests (w_suite w s))) 0 w s.

(** UnitTestSuite::reset, UnitTestSuite.cc 125-132 *)
Fixpoint resetAll (dbg : bool) (w : world) (l : list (option nat)) : ures unit :=
  match l with
  | [] => Done tt w
  | p :: l => usePtr dbg p (fun a =>
      match w_heap w a with
      | None => Undef
      | Some t => resetAll dbg (setTest w a (Some (treset t))) l
      end)
  end.

(** UnitTestSuite::run, UnitTestSuite.cc 43-53; the call of report() of each test
    has no effect.  The tests of the suite do not change meanwhile. *)
Fixpoint runAll (dbg : bool) (script : nat -> nat -> list step) (w : world) (l : list (option nat)) : ures unit :=
  match l with
  | [] => Done tt w
  | p :: l => usePtr dbg p (fun a =>
      ubind (introTest w a) (fun _ w =>
      ubind (runTest script w a) (fun _ w => runAll dbg script w l)))
  end.
Definition run (dbg : bool) (script : nat -> nat -> list step) (w : world) (s : nat) : ures unit :=
  let l := su_tests (w_suite w s) in
  ubind (resetAll dbg w l) (fun _ w => runAll dbg script w l).

(** UnitTestSuite::intro, UnitTestSuite.cc 57-65 *)
Definition introSuite (w : world) (s : nat) : world := print w (su_stream (w_suite w s)) LTitle.

(** UnitTestSuite::getNumPassed and getNumFailed, UnitTestSuite.cc 99-121 *)
Fixpoint sumAll (dbg : bool) (f : tobj -> Z) (w : world) (l : list (option nat)) (tot : Z) : ures Z :=
  match l with
  | [] => Done tot w
  | p :: l => usePtr dbg p (fun a =>
      match w_heap w a with
      | None => Undef
      | Some t => sumAll dbg f w l (tot + f t)
      end)
  end.
Definition getNumPassed (dbg : bool) (w : world) (s : nat) : ures Z :=
  sumAll dbg t_pass w (su_tests (w_suite w s)) 0.
Definition getNumFailed (dbg : bool) (w : world) (s : nat) : ures Z :=
  sumAll dbg t_fail w (su_tests (w_suite w s)) 0.

(** UnitTestSuite::report, UnitTestSuite.cc 69-95 *)
Fixpoint reportAll (dbg : bool) (n : nat) (w : world) (l : list (option nat)) (totFail totSuccess : Z) : ures Z :=
  match l with
  | [] => Done totFail (print w (Some n) (LSummary totFail totSuccess))
  | p :: l => usePtr dbg p (fun a =>
      match w_heap w a with
      | None => Undef
      | Some t =>
          let t := tname t in
          let w := print (setTest w a (Some t)) (Some n) (LTest (t_name t) (t_pass t) (t_fail t)) in
          reportAll dbg n w l (totFail + t_fail t) (totSuccess + t_pass t)
      end)
  end.
Definition report (dbg : bool) (w : world) (s : nat) : ures Z :=
  match su_stream (w_suite w s) with
  | Some n => reportAll dbg n w (su_tests (w_suite w s)) 0 0
  | None => getNumFailed dbg w s
  end.

(** new of a test class, UnitTest.hh 53-61: the stream is std::cout (0) *)
Definition newTest (w : world) (a : nat) (name type file : string) : world :=
  setTest w a (Some (TO name type file (Some 0%nat) 0 0 0)).

(** addSimpleTests, aidaTT-unitTests.cpp 18-29, for any list of test classes
    (name given, type name, file name); the [i]-th object has number [i] *)
Fixpoint addTests (w : world) (a : nat) (l : list (string * string * string)) : ures unit :=
  match l with
  | [] => Done tt w
  | (name, type, file) :: l =>
      ubind (addTest (newTest w a name type file) 0 (Some a)) (fun _ w => addTests w (S a) l)
  end.

(** the start of the program: no objects, one suite, with std::cout *)
Definition start : world := WD (fun _ => None) (fun _ => SU (Some 0%nat) []) [].

(** main, aidaTT-unitTests.cpp 33-45: the value of report() is dropped and the end
    of main is reached, which returns 0 *)
Definition unitMain (dbg : bool) (script : nat -> nat -> list step) (l : list (string * string * string)) : ures Z :=
  let w := introSuite start 0 in
  ubind (addTests w 0 l) (fun _ w =>
  ubind (run dbg script w 0) (fun _ w =>
  ubind (report dbg w 0) (fun _ w => Done 0 w))).
