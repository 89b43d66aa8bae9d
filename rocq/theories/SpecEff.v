(** Notions used in the statements about material_effects. *)
From Coq Require Import Reals List Bool ZArith Permutation.
From Verif Require Import Num Vec Helix Isect Trans Material Traj Fit LCIO Refit MatEff.
From Verif Require Import SpecMat SpecHelix SpecTraj SpecElem SpecFit SpecLCIO SpecRefit.
Import ListNotations.
Open Scope R_scope.

(** what a freshly started program makes of a track *)
Definition eff_alone (C : renv) (address : Z) (trk : track) : res otrack :=
  snd (effTrack C address newEff trk).

(** the tracks that are alone in their event, in order *)
Fixpoint lone_tracks (l : list event) : list track :=
  match l with
  | [] => []
  | Some [trk] :: l' => trk :: lone_tracks l'
  | _ :: l' => lone_tracks l'
  end.

(** the hits that can be used: planar raw hits in place of spacepoints *)
Definition eff_hits (hits : list trkhit) : list hit :=
  flat_map (fun th =>
    if th_composite th then
      filter (fun h => match h_plane h with Some _ => true | None => false end) (somes (th_raw th))
    else [th_hit th]) hits.

(** the last hit of the list with the cell number of the surface *)
Definition eff_latest (C : renv) (hits : list trkhit) (surf : surface) (h : hit) : Prop :=
  exists l1 l2, eff_hits hits = l1 ++ h :: l2 /\ h_cell h = re_cell C surf
    /\ forall h', In h' l2 -> h_cell h' <> re_cell C surf.

(** position in cm and inverse squares of the errors; only one of them if the
    second error is zero *)
Definition eff_measured (C : renv) (h : hit) (pos : vec3) (prec : list R) : Prop :=
  pos = vscale (re_mm C) (h_pos h)
  /\ exists du dv,
       (forall dU dV, h_plane h = Some (dU, dV) -> du = dU /\ dv = dV)
       /\ (h_plane h = None -> exists c0 c1 c2 c3 c4 c5 rest,
             h_cov h = c0 :: c1 :: c2 :: c3 :: c4 :: c5 :: rest
             /\ 0 <= du /\ du * du = c0 + c2 /\ 0 <= dv /\ dv * dv = c5)
       /\ du * re_mm C <> 0
       /\ (dv * re_mm C <> 0 -> prec = [/ Rsqr (du * re_mm C); / Rsqr (dv * re_mm C)])
       /\ (dv * re_mm C = 0 -> prec = [/ Rsqr (du * re_mm C)]).

(** the call made for a surface that is crossed, and the hit listed for it *)
Definition eff_call (C : renv) (address : Z) (hits : list trkhit) (surf : surface)
  (c : option call * option Z) : Prop :=
  (exists h pos prec, eff_latest C hits surf h /\ eff_measured C h pos prec
     /\ c = (Some (CMeas pos prec surf address true), Some (h_id h)))
  \/ ((forall h, In h (eff_hits hits) -> h_cell h <> re_cell C surf)
      /\ ((~ empty_surface surf /\ c = (Some (CScat surf), None))
          \/ (empty_surface surf /\ c = (None, None)))).

(** [t] is the trajectory of a track, made from the parameters [itp]; [used] are
    the hits listed on the way *)
Definition eff_trajectory (C : renv) (address : Z) (itp : trackParameters) (hits : list trkhit)
  (t : traj) (used : list Z) : Prop :=
  exists crossings calls,
    ordered_by fst crossings
    /\ (exists ents, Permutation ents crossings
          /\ all_found (mkTraj itp (Some (re_prop C))) (re_surfaces C) ents)
    /\ Forall2 (fun c oc => eff_call C address hits (snd c) oc) crossings calls
    /\ history (re_env C) (returning (re_env C)) (mkTraj itp (Some (re_prop C)))
         (CIsect (re_surfaces C) :: somes (map fst calls) ++ [CPrep]) t
    /\ used = somes (map snd calls).

(** the track written for the result [fr] *)
Definition eff_written (C : renv) (used : list Z) (fr : fitResults) (o : otrack) : Prop :=
  ot_hits o = used /\ ot_chi2 o = fr_chi2 fr /\ ot_ndf o = fr_ndf fr
  /\ ot_number o = Z.of_nat (length used)
  /\ exists ts, ot_states o = [ts] /\ ts_location ts = 1%Z /\ ts_ref ts = (0, 0, 0)
       /\ (forall i, unit_factor (re_mm C) i * lcio_par ts i = tp_par (fr_tp fr) i)
       /\ (forall i j, unit_factor (re_mm C) i * unit_factor (re_mm C) j * lcio_mat ts i j
             = lcio_written (tp_cov (fr_tp fr)) i j)
       /\ length (ts_cov ts) = 15%nat.
