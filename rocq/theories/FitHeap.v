(** Memory of the fit interface: any number of GBLInterface objects with what they
    allocate with [new] and free with [delete] in
    fittingAlgorithms/src/GBLInterface.cc.

    The functions follow those of Fit.v; values that Fit.v keeps in the interface
    are behind pointers here.  The points inside the GBL trajectory object are
    its contents; memory used inside GBL and inside std containers is not modelled,
    nor is failure of [new].  Addresses are not reused.  Copying is private
    (GBLInterface.hh 67-68) and not modelled.  The members
    _correctionVector and _covarianceMatrix stay null and are left out. *)
From Coq Require Import Reals List Bool ZArith.
From Verif Require Import Num Vec Helix Isect Trans Material Traj Fit.
Import ListNotations.
Open Scope R_scope.

(** MilleRecordC or MilleBinary; gbl::GblTrajectory; fitResults *)
Inductive cell := KMille | KGbl (points : list gpoint) | KRes (fr : fitResults).

(** objects by address; [None] is a freed one *)
Definition fheap := list (option cell).

(** GBLInterface.hh 72-110 *)
Record ifobj := IO {
  io_mille : nat;
  io_traj : option nat;
  io_fitted : option nat;
  io_chi2 : R;
  io_ndf : Z;
  io_lost : R;
  io_results : list (Z * nat)
}.

(** the interface objects of a program, [None] a destroyed one, and the heap *)
Record fsys := Sys { sy_ifs : list (option ifobj); sy_heap : fheap }.
Definition sys_start : fsys := Sys [] [].

Definition fcell (h : fheap) (a : nat) : option cell :=
  match nth_error h a with Some (Some c) => Some c | _ => None end.

Fixpoint fclear (h : fheap) (a : nat) : fheap :=
  match h, a with
  | [], _ => []
  | _ :: h', O => None :: h'
  | x :: h', S n => x :: fclear h' n
  end.

(** [delete p]: undefined unless there is a live object of that type *)
Definition freeMille (h : fheap) (a : nat) : res fheap :=
  match fcell h a with Some KMille => Ok (fclear h a) | _ => UB end.
Definition freeGbl (h : fheap) (a : nat) : res fheap :=
  match fcell h a with Some (KGbl _) => Ok (fclear h a) | _ => UB end.
Definition freeRes (h : fheap) (a : nat) : res fheap :=
  match fcell h a with Some (KRes _) => Ok (fclear h a) | _ => UB end.

(** GBLInterface.cc 322-324: the loop over the results.  The map is sorted by
    label, the list here is not; the order does not matter. *)
Fixpoint freeResults (h : fheap) (l : list (Z * nat)) : res fheap :=
  match l with
  | [] => Ok h
  | (_, a) :: l' => h' <- freeRes h a ;; freeResults h' l'
  end.

(** _clear, GBLInterface.cc 320-334 *)
Definition clearObj (h : fheap) (o : ifobj) : res (fheap * ifobj) :=
  h1 <- freeResults h (io_results o) ;;
  h2 <- (match io_traj o with Some a => freeGbl h1 a | None => Ok h1 end) ;;
  Ok (h2, IO (io_mille o) None None (io_chi2 o) (io_ndf o) (io_lost o) []).

(** constructor, GBLInterface.cc 9-16 *)
Definition newIf (s : fsys) : fsys * nat :=
  (Sys (sy_ifs s ++ [Some (IO (length (sy_heap s)) None None 0 0 0 [])]) (sy_heap s ++ [Some KMille]),
   length (sy_ifs s)).

Fixpoint put {A : Type} (l : list A) (k : nat) (x : A) : list A :=
  match l, k with
  | [], _ => []
  | _ :: l', O => x :: l'
  | y :: l', S n => y :: put l' n x
  end.

Definition getIf (s : fsys) (k : nat) : option ifobj :=
  match nth_error (sy_ifs s) k with Some (Some o) => Some o | _ => None end.
Definition setIf (s : fsys) (k : nat) (o : option ifobj) (h : fheap) : fsys := Sys (put (sy_ifs s) k o) h.

(** destructor, GBLInterface.cc 20-26 *)
Definition delIf (s : fsys) (k : nat) : fsys * res unit :=
  match getIf s k with
  | None => (s, UB)
  | Some o =>
      match (h1 <- freeMille (sy_heap s) (io_mille o) ;; clearObj h1 o) with
      | Ok (h2, _) => (setIf s k None h2, Ok tt)
      | Throw => (s, Throw)
      | UB => (s, UB)
      | NonFin => (s, NonFin)
      | Diverge => (s, Diverge)
      end
  end.

(** fit, GBLInterface.cc 30-233 *)
Definition fitIf (G : gbl) (w : world) (s : fsys) (k tid : nat) : fsys * res bool :=
  match getIf s k with
  | None => (s, UB)
  | Some o =>
      match clearObj (sy_heap s) o with
      | Ok (h1, o1) =>
          let s1 := setIf s k (Some (IO (io_mille o1) None (Some tid) (io_chi2 o1) (io_ndf o1) (io_lost o1) [])) h1 in
          match w tid with
          | None => (s1, UB)
          | Some t =>
              match makePoints (tr_elems t) with
              | Ok points =>
                  let '(returnValue, (chi2, ndf, lost)) := gbl_fit G points in
                  let s2 := setIf s k (Some (IO (io_mille o1) (Some (length h1)) (Some tid) chi2 ndf lost []))
                              (h1 ++ [Some (KGbl points)]) in
                  (* milleOut, 216-220 *)
                  match fcell (sy_heap s2) (io_mille o1) with
                  | Some KMille => (s2, Ok (Z.eqb returnValue 0))
                  | _ => (s2, UB)
                  end
              | Throw => (s1, Throw)
              | UB => (s1, UB)
              | NonFin => (s1, NonFin)
              | Diverge => (s1, Diverge)
              end
          end
      | Throw => (s, Throw)
      | UB => (s, UB)
      | NonFin => (s, NonFin)
      | Diverge => (s, Diverge)
      end
  end.

(** getResults and _fillResults, GBLInterface.hh 47-64 and GBLInterface.cc 237-318 *)
Definition getRes (E : env) (G : gbl) (w : world) (s : fsys) (k : nat) (label : Z) : fsys * res nat :=
  match getIf s k with
  | None => (s, UB)
  | Some o =>
      match lookup (io_results o) label with
      | Some a => (s, Ok a)
      | None =>
          match io_fitted o, io_traj o with
          | Some tid, Some g =>
              match w tid, fcell (sy_heap s) g with
              | Some t, Some (KGbl points) =>
                  match computeResults E G (IF (Some points) (Some tid) (io_chi2 o) (io_ndf o) (io_lost o) [])
                          points t label with
                  | Ok fr =>
                      let a := length (sy_heap s) in
                      (setIf s k (Some (IO (io_mille o) (Some g) (Some tid) (io_chi2 o) (io_ndf o) (io_lost o)
                                           ((label, a) :: io_results o))) (sy_heap s ++ [Some (KRes fr)]), Ok a)
                  | Throw => (s, Throw)
                  | UB => (s, UB)
                  | NonFin => (s, NonFin)
                  | Diverge => (s, Diverge)
                  end
              | _, _ => (s, UB)
              end
          | _, _ => (s, UB)
          end
      end
  end.
