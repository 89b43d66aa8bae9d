(** C85: what the small example programs print; and which surfaces
    getIntersectionsWithSurfaces lists (C38). *)
From Coq Require Import Reals List Bool ZArith Lra Lia Permutation Sorted.
From Coquelicot Require Import Coquelicot.
From Verif Require Import SpecConst Num Vec Helix Isect Trans Material Traj Geom Small.
From Verif Require Import NumFacts SpecHelix HelixFacts PathFacts SpecIsect SurfFacts SurfFacts2 SurfFacts3
  SpecTraj TrajFacts TrajEx PropGeom PropSurf PropTraj2 SpecGeom SpecListed SpecDebug SpecSmall SmallFacts.
Import ListNotations.
Open Scope R_scope.

(** A surface searched in closed form is listed exactly where the track first
    crosses it ahead of the start, within half a turn, provided this crossing is in
    bounds. *)
Theorem C38_first_crossing : forall E ref prop surfaces t' f surf s, env_ok E ->
  tp_par ref OMEGA <> 0 -> Rabs (tp_par ref PHI0) <= 2 * PI -> is_helix (tp_par ref) (tp_ref ref) f ->
  getIntersectionsWithSurfaces E (mkTraj ref prop) surfaces = Ok t' ->
  In surf surfaces -> simple surf (tp_par ref) (tp_ref ref) ->
  (In (s, surf) (tr_isect t')
   <-> first_ahead f (tp_par ref OMEGA) surf s /\ sf_insideBounds surf (f s) = true).
Proof.
  intros E ref prop surfaces t' f surf s En Ho Hp Hf H I Si.
  destruct (C38_intersections _ _ _ _ En H) as (_ & (ents & P & _ & Q) & _). cbn [tr_isect mkTraj app] in P.
  unfold getIntersectionsWithSurfaces in H. cbv zeta in H.
  destruct (isectAll _ _ _ _) as [l| | | |] eqn:A; try discriminate.
  destruct (isectAll_each _ _ _ _ _ A surf I) as (b & out & B).
  rewrite <- (ahead_spec (mkTraj ref prop) surf f b out Ho Hp Hf Si B s). split.
  - intros C. apply (Permutation_in _ (Permutation_sym P)) in C. apply Q in C. tauto.
  - intros C. apply (Permutation_in _ P). apply Q. auto.
Qed.
Print Assumptions C38_first_crossing.

(** ** intersection_calculator *)

Lemma calc_track_helix : is_helix calc_helix v3zero calc_track.
Proof.
  split.
  - unfold calc_track, calc_helix. cbn. replace (157 / 100 - 23 / 100 * 0) with (157 / 100) by lra. f_equal; lra.
  - intros s. unfold calc_track, calc_helix. cbn. auto_derive; auto. fold (157 / 100 - 23 / 100 * s). generalize (cos (157 / 100 - 23 / 100 * s)). intros; lra.
  - intros s. unfold calc_track, calc_helix. cbn. auto_derive; auto. fold (157 / 100 - 23 / 100 * s). generalize (sin (157 / 100 - 23 / 100 * s)). intros; lra.
  - intros s. unfold calc_track, calc_helix. cbn. auto_derive; auto; lra.
Qed.

Lemma calc_phi : Rabs (calc_helix PHI0) <= 2 * PI.
Proof. cbn. rewrite Rabs_pos_eq by lra. generalize PI2_3_2. lra. Qed.

Lemma calc_om : calc_helix OMEGA <> 0. Proof. cbn. lra. Qed.

Lemma calc_start srt E d a args : calcMain srt E (gw_start d) (a :: args) =
  match sortedSurfaces srt (det_surfaces d) with
  | Ok geom =>
      (GW (Some 0%nat) true d [geom] [],
       match getIntersectionsWithSurfaces E (mkTraj (TP m5zero calc_helix v3zero) None) (map ds_surf geom) with
       | Ok t => ([CInit calc_helix; CPar (TP m5zero calc_helix v3zero)]
                  ++ CLen (length (tr_isect t)) :: map (fun e => CHit (fst e) (snd e)) (tr_isect t), Ok 0%Z)
       | Throw => ([CInit calc_helix; CPar (TP m5zero calc_helix v3zero)], Throw)
       | UB => ([CInit calc_helix; CPar (TP m5zero calc_helix v3zero)], UB)
       | NonFin => ([CInit calc_helix; CPar (TP m5zero calc_helix v3zero)], NonFin)
       | Diverge => ([CInit calc_helix; CPar (TP m5zero calc_helix v3zero)], Diverge)
       end)
  | Throw => (gw_start d, ([], Throw))
  | UB => (gw_start d, ([], UB))
  | NonFin => (gw_start d, ([], NonFin))
  | Diverge => (gw_start d, ([], Diverge))
  end.
Proof.
  unfold calcMain, instance, newGeometry, gw_start. cbn [gw_geom gw_det gw_objs gw_first gw_loads].
  destruct (sortedSurfaces srt (det_surfaces d)) as [geom| | | |]; cbn [bind app length]; try reflexivity.
  unfold getSurfaces. cbn [nth_error gw_objs]. fold calcParameters. change calcParameters with (TP m5zero calc_helix v3zero).
  change calcVector with calc_helix. destruct (getIntersectionsWithSurfaces _ _ _) as [t| | | |]; reflexivity.
Qed.

Lemma sorted_perm srt l l' : dsort_ok srt -> sortedSurfaces srt l = Ok l' -> Permutation l l'.
Proof.
  intros S H. unfold sortedSurfaces in H. destruct l as [|a [|b l]]; [injection H as <-; auto|injection H as <-; auto|].
  destruct (forallb policy_defined (a :: b :: l)) eqn:F; [|discriminate]. injection H as <-.
  apply S. apply Forall_forall. intros x I. rewrite forallb_forall in F. auto.
Qed.

(** A run that ends: exit code 0, no file has been loaded, and the list is that of
    the surfaces of the detector as it was at the start, ordered by path length.
    Every entry is a point of the track on the surface and in its bounds; surfaces
    searched in closed form are listed exactly where they are first crossed. *)
Theorem C85_calculator : forall srt E d a args w out r, env_ok E -> dsort_ok srt ->
  calcMain srt E (gw_start d) (a :: args) = (w, (out, Ok r)) ->
  r = 0%Z /\ gw_loads w = [] /\ gw_det w = d
  /\ exists l, out = CInit calc_helix :: CPar (TP m5zero calc_helix v3zero) :: CLen (length l)
                     :: map (fun e => CHit (fst e) (snd e)) l
     /\ ordered_by fst l
     /\ (forall s surf, In (s, surf) l -> In surf (map ds_surf (det_surfaces d))
           /\ 0 <= s < PI / (23 / 100)
           /\ (wf_surface surf -> on_surface surf (calc_track s) /\ sf_insideBounds surf (calc_track s) = true))
     /\ (forall s surf, In surf (map ds_surf (det_surfaces d)) -> simple surf calc_helix v3zero ->
           (In (s, surf) l
            <-> first_ahead calc_track (23 / 100) surf s /\ sf_insideBounds surf (calc_track s) = true)).
Proof.
  intros srt E d a args w out r En So H. rewrite calc_start in H.
  destruct (sortedSurfaces srt (det_surfaces d)) as [geom| | | |] eqn:S; try discriminate.
  assert (P := sorted_perm _ _ _ So S).
  destruct (getIntersectionsWithSurfaces _ _ _) as [t| | | |] eqn:G; try discriminate.
  injection H as <- <- <-. split; auto. split; auto. split; auto. exists (tr_isect t). split; [reflexivity|].
  assert (In_eq : forall surf, In surf (map ds_surf (det_surfaces d)) <-> In surf (map ds_surf geom)).
  { intros surf. split; intros I; refine (Permutation_in _ _ I); apply Permutation_map; [|apply Permutation_sym]; auto. }
  destruct (C38_intersections _ _ _ _ En G) as (O & (ents & Pe & _ & Q) & _). cbn [tr_isect mkTraj app] in Pe.
  split; auto. split.
  - intros s surf I. apply (Permutation_in _ (Permutation_sym Pe)) in I. apply Q in I. destruct I as [I [(xx & F) R]].
    split; [apply In_eq; auto|].
    assert (Er : PI * calculateRadius (tp_par (tr_ref (mkTraj (TP m5zero calc_helix v3zero) None))) = PI / (23 / 100)).
    { cbn [mkTraj tr_ref tp_par]. rewrite (radius_eq _ calc_om). cbn. rewrite Rabs_pos_eq; [field|]. lra. }
    rewrite Er in R. split; auto.
    intros W. cbn [mkTraj tr_ref tp_par tp_ref] in F.
    destruct (C21_true_result _ _ _ _ _ _ _ _ _ calc_om calc_phi calc_track_helix W F) as (X & _ & _ & _ & B & On).
    cbv zeta in *. rewrite X in B, On. split; auto.
  - intros s surf I Si. apply In_eq in I.
    exact (C38_first_crossing E (TP m5zero calc_helix v3zero) None _ t calc_track surf s En calc_om calc_phi calc_track_helix G I Si).
Qed.
Print Assumptions C85_calculator.

(** ** lcio_read_example *)

Lemma read_start srt ld id files d f rest : readMain srt ld id files (gw_start d) (f :: rest) =
  match ld f d with
  | Ok d1 =>
      match sortedSurfaces srt (det_surfaces d1) with
      | Ok geom =>
          (GW (Some 0%nat) false d1 [geom] [f],
           match rest with
           | [] => ([], UB)
           | g :: _ => match files g with
                       | None => ([], Throw)
                       | Some events => readEvents (readMap id geom) events
                       end
           end)
      | Throw => (GW None true d1 [] [f], ([], Throw))
      | UB => (GW None true d1 [] [f], ([], UB))
      | NonFin => (GW None true d1 [] [f], ([], NonFin))
      | Diverge => (GW None true d1 [] [f], ([], Diverge))
      end
  | Throw => (gw_start d, ([], Throw))
  | UB => (gw_start d, ([], UB))
  | NonFin => (gw_start d, ([], NonFin))
  | Diverge => (gw_start d, ([], Diverge))
  end.
Proof.
  unfold readMain, instanceFile, newGeometry, gw_start. cbn [gw_geom gw_det gw_objs gw_first gw_loads].
  destruct (ld f d) as [d1| | | |]; try reflexivity. cbn [gw_det gw_objs gw_loads].
  destruct (sortedSurfaces srt (det_surfaces d1)) as [geom| | | |]; cbn [bind app length]; try reflexivity.
  unfold getSurfaces. cbn [nth_error gw_objs]. destruct rest as [|g rest]; try reflexivity. destruct (files g); reflexivity.
Qed.

(** With both files readable: one line per hit, in order, with the last surface of
    the geometry that has the hit's id, the low word of the cell id as a signed
    number.  The program ends well if all hits of all events have one.  It ends with
    an exception at the first event without the collection, and with undefined
    behaviour at the first hit without surface. *)
Theorem C85_read : forall srt ld id files d f g rest d1 geom events, dsort_ok srt ->
  ld f d = Ok d1 -> sortedSurfaces srt (det_surfaces d1) = Ok geom -> files g = Some events ->
  exists w out r, readMain srt ld id files (gw_start d) (f :: g :: rest) = (w, (out, r))
  /\ gw_loads w = [f] /\ Permutation (det_surfaces d1) geom
  /\ ((r = Ok 0%Z /\ exists evs, events = map Some evs /\ Forall2 (hit_line id geom) (concat evs) out)
      \/ (r = Throw /\ exists evs post, events = map Some evs ++ None :: post
            /\ Forall2 (hit_line id geom) (concat evs) out)
      \/ (r = UB /\ exists evs hs c hs' post, events = map Some evs ++ Some (hs ++ c :: hs') :: post
            /\ no_surface id geom c /\ Forall2 (hit_line id geom) (concat evs ++ hs) out)).
Proof.
  intros srt ld id files d f g rest d1 geom events So L S Fi. rewrite read_start, L, S, Fi.
  destruct (readEvents (readMap id geom) events) as [out r] eqn:R.
  eexists _, _, _. split; [reflexivity|]. split; auto. split; [eapply sorted_perm; eauto|]. clear Fi S L.
  revert out r R. induction events as [|[hits|] events IH]; intros out r R; cbn [readEvents] in R.
  - injection R as <- <-. left. split; auto. exists []. split; auto. constructor.
  - destruct (readHits _ hits) as [o1 r1] eqn:Q.
    destruct (readHits_spec id geom _ _ _ Q) as [[-> A]|(l1 & c & l2 & -> & -> & N & A)].
    + destruct (readEvents _ events) as [o2 r2] eqn:Q2. injection R as <- <-.
      destruct (IH _ _ eq_refl) as [(B & evs & C & D)|[(B & evs & post & C & D)|(B & evs & hs & c & hs' & post & C & D & K)]].
      * left. split; auto. exists (hits :: evs). rewrite C. split; auto. cbn [concat]. apply Forall2_app; auto.
      * right. left. split; auto. exists (hits :: evs), post. rewrite C. split; auto. cbn [concat]. apply Forall2_app; auto.
      * right. right. split; auto. exists (hits :: evs), hs, c, hs', post. rewrite C. split; auto. split; auto.
        cbn [concat]. rewrite <- app_assoc. apply Forall2_app; auto.
    + injection R as <- <-. right. right. split; auto. exists [], l1, c, l2, events. split; auto.
  - injection R as <- <-. right. left. split; auto. exists [], events. split; auto. constructor.
Qed.
Print Assumptions C85_read.

(** Without a second argument the program has undefined behaviour once the geometry
    is there; a file that cannot be opened or loaded ends it with an exception. *)
Theorem C85_read_files : forall srt ld id files d f g rest,
  (ld f d = Throw -> exists w, readMain srt ld id files (gw_start d) (f :: g :: rest) = (w, ([], Throw)))
  /\ (forall d1 geom, ld f d = Ok d1 -> sortedSurfaces srt (det_surfaces d1) = Ok geom ->
        (exists w, readMain srt ld id files (gw_start d) [f] = (w, ([], UB)))
        /\ (files g = None -> exists w, readMain srt ld id files (gw_start d) (f :: g :: rest) = (w, ([], Throw)))).
Proof.
  intros srt ld id files d f g rest. split.
  - intros L. rewrite read_start, L. eauto.
  - intros d1 geom L S. split; [rewrite read_start, L, S; eauto|]. intros N. rewrite read_start, L, S, N. eauto.
Qed.
Print Assumptions C85_read_files.

(** Usage: without arguments every program says how it is called, ends with 1 and
    touches nothing. *)
Theorem C85_usage : forall srt ld E id files w d,
  calcMain srt E w [] = (w, ([CUsage], Ok 1%Z))
  /\ readMain srt ld id files w [] = (w, ([RUsage], Ok 1%Z))
  /\ testMain ld id d [] = ([TUsage], Ok 1%Z).
Proof. intros. split; [|split]; reflexivity. Qed.
Print Assumptions C85_usage.

(** ** geometry_test: the ids of the loaded detector's surfaces, in DD4hep's order;
    the geometry of the same file has the same ones. *)
Theorem C85_ids : forall srt ld id d f rest d1, ld f d = Ok d1 ->
  testMain ld id d (f :: rest) = (map (fun s => TId (id s)) (det_surfaces d1), Ok 0%Z)
  /\ (dsort_ok srt -> forall w ref geom, instanceFile srt ld (gw_start d) f = (w, Ok ref) ->
        getSurfaces w ref = Some geom ->
        Permutation (map (fun s => TId (id s)) geom) (fst (testMain ld id d (f :: rest)))).
Proof.
  intros srt ld id d f rest d1 L. unfold testMain. rewrite L. split; auto. intros So w ref geom H G. cbn [fst].
  apply Permutation_map, Permutation_sym. unfold instanceFile, newGeometry, gw_start in H.
  cbn [gw_first gw_det gw_geom gw_objs gw_loads] in H. rewrite L in H. cbn [gw_first gw_det gw_geom gw_objs gw_loads] in H.
  destruct (sortedSurfaces srt (det_surfaces d1)) as [l| | | |] eqn:S; try discriminate. cbn [bind length app] in H.
  injection H as <- <-. unfold getSurfaces in G. cbn in G. injection G as <-. eapply sorted_perm; eauto.
Qed.
Print Assumptions C85_ids.

(** ** findings and instances *)

(** a disk at height 1/200, crossed at s = 1/2 *)
Definition ex_low : surface := ex_station (1 / 200) 0 (fun _ => true).
Definition ex_dlow : dsurface := DS ex_low 1 1 None.
Definition ex_full : detector := Det [ex_dlow] (fun _ => v3zero).
Definition ex_empty : detector := Det [] (fun _ => v3zero).
Definition ex_loader : loader := fun _ _ => Ok ex_full.

Lemma ex_low_simple : simple ex_low calc_helix v3zero.
Proof. split; auto. right. right. cbn. auto. Qed.

Lemma ex_low_ahead : first_ahead calc_track (23 / 100) ex_low (1 / 2).
Proof.
  unfold first_ahead. split.
  - right. right. left. cbn. split; auto. split; auto. lra.
  - split; [lra|]. split; [|split; [lra|]].
    + rewrite Rabs_pos_eq by lra. generalize PI2_3_2. lra.
    + intros u _ _ [(rho & c & A & _)|[(_ & A & _)|[(_ & _ & A)|(A & _)]]]; cbn in *; try discriminate. lra.
Qed.

(** The calculator is given a file whose detector has a surface that the track
    crosses, and lists nothing. *)
Theorem C85_file_refuted : exists srt E ld d f d1 surf s w,
  env_ok E /\ dsort_ok srt /\ ld f d = Ok d1 /\ In surf (map ds_surf (det_surfaces d1))
  /\ simple surf calc_helix v3zero /\ first_ahead calc_track (23 / 100) surf s
  /\ sf_insideBounds surf (calc_track s) = true
  /\ calcMain srt E (gw_start d) [f] = (w, ([CInit calc_helix; CPar (TP m5zero calc_helix v3zero); CLen 0], Ok 0%Z)).
Proof.
  exists disort, ex_env, ex_loader, ex_empty, 0%nat, ex_full, ex_low, (1 / 2).
  eexists. split; [apply ex_env_ok|]. split; [apply disort_ok|]. split; [reflexivity|]. split; [left; reflexivity|].
  split; [apply ex_low_simple|]. split; [apply ex_low_ahead|]. split; [reflexivity|].
  rewrite calc_start. cbn [ex_empty det_surfaces sortedSurfaces map]. unfold getIntersectionsWithSurfaces. cbv zeta.
  cbn [isectAll bind mkTraj tr_isect]. cbn [set_isect tr_isect]. reflexivity.
Qed.

(** A hit whose cell id, as an unsigned number, is the id of a surface: the program
    does not find it. *)
Theorem C85_word_refuted : exists srt ld id files d f g d1 c surf w,
  dsort_ok srt /\ ld f d = Ok d1 /\ In surf (det_surfaces d1) /\ files g = Some [Some [c]]
  /\ (0 <= c < 2 ^ 32)%Z /\ id surf = c
  /\ readMain srt ld id files (gw_start d) [f; g] = (w, ([], UB)).
Proof.
  exists disort, ex_loader, (fun _ => 2 ^ 31)%Z, (fun _ => Some [Some [2 ^ 31]%Z]), ex_empty, 0%nat, 0%nat, ex_full, (2 ^ 31)%Z, ex_dlow.
  eexists. split; [apply disort_ok|]. split; [reflexivity|]. split; [left; reflexivity|]. split; [reflexivity|].
  split; [lia|]. split; [reflexivity|]. rewrite read_start. reflexivity.
Qed.
Print Assumptions C85_file_refuted.
Print Assumptions C85_word_refuted.

(** With the detector loaded beforehand the calculator lists the disk; the reader
    finds the surface of two hits of one event and stops at the third. *)
Example C85_instance : exists w out,
  calcMain disort ex_env (gw_start ex_full) [0%nat] = (w, (out, Ok 0%Z)) /\ In (CHit (1 / 2) ex_low) out
  /\ exists w', readMain disort ex_loader (fun _ => 5%Z) (fun _ => Some [Some [5; 5 + 2 ^ 32; 6]%Z]) (gw_start ex_empty) [0%nat; 1%nat]
     = (w', ([RFound ex_dlow 5; RFound ex_dlow 5], UB)).
Proof.
  destruct (calcMain disort ex_env (gw_start ex_full) [0%nat]) as [w [out r]] eqn:H.
  assert (R : r = Ok 0%Z).
  { rewrite calc_start in H. cbn [ex_full det_surfaces sortedSurfaces map] in H.
    unfold getIntersectionsWithSurfaces in H. cbv zeta in H. cbn [isectAll] in H. unfold isectOne in H.
    cbn [mkTraj tr_ref tp_par tp_ref] in H. change (ds_surf ex_dlow) with ex_low in H.
    assert (Q : intersectWithSurface ex_low calc_helix v3zero (OVal 0 v3zero) 1 true
              = intersectWithZDisk ex_low calc_helix v3zero (OVal 0 v3zero) 1 true) by reflexivity.
    rewrite Q in H. destruct (zdisk_spec ex_low calc_helix v3zero (OVal 0 v3zero) 1 true _ calc_track_helix) as [_ A].
    destruct (A ltac:(cbn; lra)) as (s & _ & x & b & E & _). rewrite E in H. cbn [bind] in H. injection H as _ _ <-. reflexivity. }
  subst r. exists w, out. split; auto. split.
  - destruct (C85_calculator _ _ _ _ _ _ _ _ ex_env_ok disort_ok H) as (_ & _ & _ & l & -> & _ & _ & Q).
    right. right. right. apply in_map_iff. exists (1 / 2, ex_low). split; auto.
    apply Q; [left; reflexivity|apply ex_low_simple|]. split; [apply ex_low_ahead|reflexivity].
  - eexists. rewrite read_start. reflexivity.
Qed.
