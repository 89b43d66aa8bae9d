(** Notions used in the statements about the refitting program. *)
From Coq Require Import Reals List Bool ZArith Permutation.
From Verif Require Import Num Vec Helix Isect Trans Material Traj Fit LCIO Refit.
From Verif Require Import SpecMat SpecHelix SpecTraj SpecElem SpecFit SpecLCIO.
Import ListNotations.
Open Scope R_scope.

(** what a freshly started program makes of a track *)
Definition alone (C : renv) (S : steering) (trk : track) : res otrack :=
  snd (refitTrack C S newFitters trk).

(** the events looked at *)
Definition event_limit : nat := Z.to_nat 1000.

(** an event with its output collection: one track for every input track, in
    order, each as if it were the only one *)
Definition event_done (C : renv) (S : steering) (ev : event) (os : list otrack) : Prop :=
  exists tracks, ev = Some tracks /\ Forall2 (fun trk o => alone C S trk = Ok o) tracks os.

(** two computations that end in the same way, other than by success *)
Definition same_end {A B : Type} (r : res A) (x : res B) : Prop :=
  match r, x with
  | Throw, Throw | UB, UB | NonFin, NonFin | Diverge, Diverge => True
  | _, _ => False
  end.

(** an event that ends the program: there is no track collection, or a track
    that cannot be refitted *)
Definition event_fails (C : renv) (S : steering) (ev : event) (x : res unit) : Prop :=
  (ev = None /\ x = Throw)
  \/ exists l1 trk l2, ev = Some (l1 ++ trk :: l2)
       /\ (forall t, In t l1 -> exists o, alone C S t = Ok o)
       /\ same_end (alone C S trk) x.

(** a 32-bit integer *)
Definition is_int (z : Z) : Prop := (- 2 ^ 31 <= z < 2 ^ 31)%Z.

(** the single hits of a track: spacepoints give their raw hits *)
Definition single_hits (hits : list trkhit) : list (option hit) :=
  flat_map (fun th => if th_composite th then th_raw th else [Some (th_hit th)]) hits.

(** the last hit with a property *)
Definition latest (hits : list (option hit)) (P : hit -> Prop) (h : hit) : Prop :=
  exists l1 l2, hits = l1 ++ Some h :: l2 /\ P h /\ forall h', In (Some h') l2 -> ~ P h'.

(** the surface carries the cell number of the hit, up to multiples of 2^32 *)
Definition belongs (C : renv) (surf : surface) (h : hit) : Prop :=
  exists n : Z, re_cell C surf = (h_cell h + n * 2 ^ 32)%Z.

(** position (in cm) and the two precisions of a hit on a surface: the inverse
    squares of the errors, 0 for the direction that is not measured *)
Definition measured (C : renv) (h : hit) (surf : surface) (pos : vec3) (prec : list R) : Prop :=
  pos = vscale (re_mm C) (h_pos h)
  /\ exists du dv p1,
       (forall dU dV, h_plane h = Some (dU, dV) -> du = dU /\ dv = dV)
       /\ (h_plane h = None -> exists c0 c1 c2 c3 c4 c5 rest,
             h_cov h = c0 :: c1 :: c2 :: c3 :: c4 :: c5 :: rest
             /\ 0 <= du /\ du * du = c0 + c2
             /\ (re_1D C surf = false -> 0 <= dv /\ dv * dv = c5))
       /\ du * re_mm C <> 0
       /\ prec = [/ Rsqr (du * re_mm C); p1]
       /\ (re_1D C surf = true -> p1 = 0)
       /\ (re_1D C surf = false -> dv * re_mm C <> 0 /\ p1 = / Rsqr (dv * re_mm C)).

(** a surface without material worth mentioning *)
Definition empty_surface (surf : surface) : Prop :=
  mat_density (sf_innerMaterial surf) < / 1000000 /\ mat_density (sf_outerMaterial surf) < / 1000000.

(** the call made for a surface that is crossed *)
Definition call_for (C : renv) (S : steering) (hits : list trkhit) (surf : surface) (c : option call) : Prop :=
  (exists h pos prec, latest (single_hits hits) (belongs C surf) h /\ measured C h surf pos prec
     /\ c = Some (CMeas pos prec surf (h_id h) (sg_qms S)))
  \/ ((forall h, In (Some h) (single_hits hits) -> ~ belongs C surf h)
      /\ ((sg_qms S = true /\ ~ empty_surface surf /\ c = Some (CScat surf))
          \/ ((sg_qms S = false \/ empty_surface surf) /\ c = None))).

(** a call that does not throw *)
Definition returning (E : env) (t : traj) (c : call) : Prop :=
  match c with
  | CMeas position precision surf id sc => exists b, snd (addMeasurement E t position precision surf id sc) = Ok b
  | CScat surf => exists b, snd (addScatterer E t surf) = Ok b
  | _ => True
  end.

Definition somes {A : Type} (l : list (option A)) : list A :=
  flat_map (fun o => match o with Some x => [x] | None => [] end) l.

(** [t] is the trajectory of a track, made from the seed [itp]: the surfaces in
    the order in which the seed's helix crosses them, each with its measurement
    or scatterer *)
Definition refit_trajectory (C : renv) (S : steering) (itp : trackParameters) (hits : list trkhit) (t : traj) : Prop :=
  exists crossings calls,
    ordered_by fst crossings
    /\ (exists ents, Permutation ents crossings
          /\ all_found (mkTraj itp (Some (re_prop C))) (re_surfaces C) ents)
    /\ Forall2 (fun c oc => call_for C S hits (snd c) oc) crossings calls
    /\ history (re_env C) (returning (re_env C)) (mkTraj itp (Some (re_prop C)))
         (CIsect (re_surfaces C) :: somes calls ++ [CPrep]) t.

(** the track written for the result [fr] *)
Definition written (C : renv) (trk : track) (fr : fitResults) (o : otrack) : Prop :=
  ot_hits o = map (fun th => h_id (th_hit th)) (tk_hits trk)
  /\ ot_chi2 o = fr_chi2 fr /\ ot_ndf o = fr_ndf fr
  /\ ot_number o = Z.of_nat (length (tk_hits trk))
  /\ exists ts, ot_states o = [ts] /\ ts_location ts = 1%Z /\ ts_ref ts = (0, 0, 0)
       /\ (forall i, unit_factor (re_mm C) i * lcio_par ts i = tp_par (fr_tp fr) i)
       /\ (forall i j, unit_factor (re_mm C) i * unit_factor (re_mm C) j * lcio_mat ts i j
             = lcio_written (tp_cov (fr_tp fr)) i j)
       /\ length (ts_cov ts) = 15%nat.

(** the three hits a start helix is made from *)
Definition seed_hits (hits : list trkhit) (h1 h2 h3 : trkhit) : Prop :=
  nth_error hits 0 = Some h1 /\ nth_error hits (Nat.div (length hits + 1) 2) = Some h2
  /\ nth_error hits (length hits - 1) = Some h3.

(** diagonal covariance of a start helix *)
Definition start_cov : mat5 := fun i j =>
  match i, j with
  | I0, I0 => / 100
  | I1, I1 => 100
  | I2, I2 => 100
  | I3, I3 => 100000
  | I4, I4 => 100000
  | _, _ => 0
  end.

(** position of a hit in cm *)
Definition hit_point (C : renv) (th : trkhit) : vec3 := vscale (re_mm C) (h_pos (th_hit th)).

(** parameters of a helix through the first, a middle and the last hit of a track
    (over the projections of the latter two), at the origin *)
Definition start_seed (C : renv) (hits : list trkhit) (tp : trackParameters) : Prop :=
  exists h1 h2 h3, seed_hits hits h1 h2 h3
    /\ let x1 := hit_point C h1 in let x2 := hit_point C h2 in let x3 := hit_point C h3 in
       turn x1 x2 x3 <> 0
       /\ tp_ref tp = v3zero /\ (forall i j, tp_cov tp i j = start_cov i j)
       /\ tp_par tp OMEGA * turn x1 x2 x3 < 0 /\ - PI <= tp_par tp PHI0 <= PI
       /\ forall f, is_helix (tp_par tp) v3zero f ->
          (forall s, Rabs (tp_par tp D0) <= dist_xy (f s) v3zero)
          /\ exists s1 s2 s3, s1 < s2 < s3 /\ s3 < s1 + 2 * PI / Rabs (tp_par tp OMEGA)
             /\ Rabs (tp_par tp OMEGA * s1) <= PI /\ f s1 = x1
             /\ vx (f s2) = vx x2 /\ vy (f s2) = vy x2
             /\ vx (f s3) = vx x3 /\ vy (f s3) = vy x3
             /\ vz (f s3) - vz (f s2) = vz x3 - vz x2.

(** the hits a preliminary fit looks at: all up to 25, otherwise every n-th with
    n the number of hits divided by 25 *)
Definition chosen (hits l : list trkhit) : Prop :=
  let n := if Nat.leb (length hits) 25 then 1%nat else Nat.div (length hits) 25 in
  forall i, nth_error l i = nth_error hits (i * n).

(** the call a preliminary fit makes for a hit: it belongs to the last surface
    with its cell number *)
Definition prefit_call (C : renv) (th : trkhit) (c : option call) : Prop :=
  let h := th_hit th in
  (exists l1 surf l2 pos prec, re_surfaces C = l1 ++ surf :: l2 /\ re_cell C surf = h_cell h
     /\ (forall s, In s l2 -> re_cell C s <> h_cell h)
     /\ measured C h surf pos prec /\ c = Some (CMeas pos prec surf (h_id h) false))
  \/ ((forall s, In s (re_surfaces C) -> re_cell C s <> h_cell h) /\ c = None).

(** the parameters after a preliminary fit: those of the fit, or the ones it was
    started with if it failed *)
Definition prefitted (C : renv) (tp : trackParameters) (hits : list trkhit) (itp : trackParameters) : Prop :=
  exists mv fid l calls t points,
    moveHelixTo tp v3zero false = Ok (mv, fid)
    /\ chosen hits l /\ Forall2 (prefit_call C) l calls
    /\ history (re_env C) (returning (re_env C)) (mkTraj mv (Some (re_prop C))) (somes calls ++ [CPrep]) t
    /\ makePoints (tr_elems t) = Ok points
    /\ (fst (gbl_fit (re_gbl C) points) = 0%Z ->
          exists fr, is_result (re_env C) (re_gbl C) points t 0 fr /\ itp = fr_tp fr)
    /\ (fst (gbl_fit (re_gbl C) points) <> 0%Z -> itp = mv).

(** the parameters the refit of a track starts from *)
Definition seeded (C : renv) (S : steering) (trk : track) (itp : trackParameters) : Prop :=
  exists ts rd, tk_state trk = Some ts /\ readLCIO (re_mm C) ts = Ok rd
    /\ (sg_start S = false -> itp = rd)
    /\ (sg_start S = true -> exists tp, start_seed C (tk_hits trk) tp
          /\ (sg_prefit S = false -> itp = tp)
          /\ (sg_prefit S = true -> prefitted C tp (tk_hits trk) itp)).
