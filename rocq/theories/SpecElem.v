(** What an element of a trajectory contains, and where it comes from. *)
From Coq Require Import Reals List Bool ZArith.
From Verif Require Import SpecConst Num Vec Helix Isect Trans Material Traj SpecTraj SpecTrans SpecPropag SpecMaterial.
Import ListNotations.
Open Scope R_scope.

(** The track continued from the last element crosses the surface after the path
    length [s] at [xx], with momentum [mom]; [tp] is its state there, after the loss of
    the energy found at the local point [lossAt xx]. *)
Definition arrival (E : env) (t : traj) (surf : surface) (cb : bool) (lossAt : vec3 -> R * R)
  (s : R) (xx mom : vec3) (tp : trackParameters) : Prop :=
  exists mv fid dE En beta,
    intersectWithSurface surf (tp_par (from_state t)) (tp_ref (from_state t)) (OVal 0 v3zero) 1 cb
      = Ok (true, OVal s xx)
    /\ moveHelixTo (from_state t) xx false = Ok (mv, fid)
    /\ momentumAtPCA (en_gfield E) (tp_par mv) (tp_ref mv) = Ok mom
    /\ computeEnergyLoss_uv surf (lossAt xx) mom (tr_mass t) = Ok (EL dE En beta)
    /\ En <> 0 /\ dE <> En
    /\ tp_ref tp = xx /\ tp_cov tp = tp_cov (from_state t)
    /\ (forall i, i <> OMEGA -> tp_par tp i = tp_par mv i)
    /\ tp_par tp OMEGA = tp_par (from_state t) OMEGA * En / (En - dE).

(** the squared scattering angle, [None] if it is not finite *)
Definition squared_angle (t : traj) (surf : surface) (xx mom : vec3) (q : option R) : Prop :=
  (exists a, computeQMS_uv surf (sf_globalToLocal surf xx) mom (tr_mass t) = Ok a /\ q = Some (a * a))
  \/ (computeQMS_uv surf (sf_globalToLocal surf xx) mom (tr_mass t) = NonFin /\ q = None).

(** [e] is the element that the call [c] makes on the trajectory [t] *)
Definition made_by (E : env) (t : traj) (c : call) (e : telem) : Prop :=
  exists s0 s xx mom m n p,
    let l := atan (tp_par (te_tp e) TANL) in
    let f := tp_par (te_tp e) PHI0 in
    from_s t s0 /\ te_s e = s0 + s
    /\ te_cls e = Some (axis_u l f, axis_v l f)
    /\ te_dirs e = Some [m; n]
    /\ te_proj e = Some p /\ inverts p (axis_u l f) (axis_v l f) m n
    /\ te_jac e = None
    /\ match c with
       | CMeas position precision surf id sc =>
           let hit := sf_globalToLocal surf position in
           let here := sf_globalToLocal surf xx in
           arrival E t surf false (fun _ => hit) s xx mom (te_tp e)
           /\ te_surf e = Some surf /\ te_meas e = true /\ te_scat e = sc /\ te_id e = id
           /\ m = sf_u surf position /\ n = sf_v surf position
           /\ te_res e = [fst hit - fst here; snd hit - snd here]
           /\ (sc = true -> exists q, squared_angle t surf xx mom q
                 /\ te_prec e = map Some precision ++ [q; Some 0; Some 0])
           /\ (sc = false -> te_prec e =
                 match precision with [p1] => [Some p1; Some 0] | _ => map Some precision end)
       | CScat surf =>
           arrival E t surf true (sf_globalToLocal surf) s xx mom (te_tp e)
           /\ te_surf e = Some surf /\ te_meas e = false /\ te_scat e = true /\ te_id e = 0%Z
           /\ m = sf_u surf xx /\ n = sf_v surf xx
           /\ te_res e = [0; 0]
           /\ exists q, squared_angle t surf xx mom q /\ te_prec e = [q; Some 0; Some 0]
       | _ => False
       end.

(** mass of the charged pion (GeV), used until another one is set *)
Definition pion_mass : R := 13957018 / 100000000.
Definition mass_after (cs : list call) : R :=
  fold_left (fun m c => match c with CMass m' => m' | _ => m end) cs pion_mass.

(** [e] was made by some call of the history [cs] of a new trajectory *)
Definition made_in (E : env) (ok : traj -> call -> Prop) (ref : trackParameters) (prop : option propagator)
  (cs : list call) (e : telem) : Prop :=
  exists cs1 c cs2 t1, cs = cs1 ++ c :: cs2 /\ history E ok (mkTraj ref prop) cs1 t1 /\ made_by E t1 c e.

(** A history together with the elements made on the way, in the order of the
    calls: calls that make no element are rejected additions and all other calls. *)
Inductive build (E : env) (ok : traj -> call -> Prop) (t0 : traj) : list call -> traj -> list telem -> Prop :=
| bd_nil : build E ok t0 [] t0 []
| bd_made cs t es c t' e : build E ok t0 cs t es -> ok t c -> step E t c t' -> made_by E t c e ->
    build E ok t0 (cs ++ [c]) t' (es ++ [e])
| bd_other cs t es c t' : build E ok t0 cs t es -> ok t c -> step E t c t' -> (forall e, ~ made_by E t c e) ->
    build E ok t0 (cs ++ [c]) t' es.

(** the initial element: the reference parameters, nothing else *)
Definition initial_element (ref : trackParameters) (i : telem) : Prop :=
  calculateSfromXY 0 0 (tp_par ref) (tp_ref ref) = Ok (te_s i) /\ te_tp i = ref
  /\ te_surf i = None /\ te_meas i = false /\ te_scat i = false /\ te_dirs i = None /\ te_prec i = []
  /\ te_res i = [] /\ te_cls i = None /\ te_proj i = None /\ te_jac i = None /\ te_id i = 0%Z.
