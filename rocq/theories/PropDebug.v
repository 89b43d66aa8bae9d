(** C82: what lcio_debug_tracks writes. *)
From Coq Require Import Reals List Bool ZArith Lra Lia.
From Verif Require Import SpecConst Num Vec Helix Isect Traj LCIO DebugTracks.
From Verif Require Import NumFacts SpecHelix SpecIsect SpecTraj SpecLCIO SpecRefit SpecDebug
  HelixFacts PathFacts SurfFacts SurfFacts2 PropSurf TrajEx DebugFacts.
Import ListNotations.
Open Scope R_scope.

(** Events in order; the ones with exactly one track are written; the program ends
    at an event without the collection or with a lone track that cannot be done. *)
Theorem C82_program : forall D args l out r,
  debugMain D args l = (out, r) ->
  ((args < 2)%nat -> out = [] /\ r = Ok tt)
  /\ ((2 <= args)%nat -> exists l1 l2, l = l1 ++ l2 /\ ~ In None l1
      /\ Forall2 (fun trk o => debugTrack D trk = Ok o) (lone l1) out
      /\ ((l2 = [] /\ r = Ok tt)
          \/ (exists l3, l2 = None :: l3 /\ r = Throw)
          \/ (exists trk l3, l2 = Some [trk] :: l3 /\ same_end (debugTrack D trk) r))).
Proof.
  intros D args l out r H. destruct args as [|[|args]]; cbn [debugMain] in H.
  - injection H as <- <-. split; [auto|lia].
  - injection H as <- <-. split; [auto|lia].
  - split; [lia|intros _]. assert (L := loop_done D l). rewrite H in L. exact L.
Qed.
Print Assumptions C82_program.

(** What is written for a track, and that it is written. *)
Theorem C82_track : forall D trk o, de_mm D <> 0 ->
  (debugTrack D trk = Ok o <->
   exists ts itp os, dt_state trk = Some ts /\ debug_seed (de_mm D) ts itp
     /\ Forall2 (debug_point D itp) (dt_hits trk) os
     /\ o = DOut ts (somes os)).
Proof.
  intros D trk o M. unfold debugTrack. split.
  - intros H. destruct (dt_state trk) as [ts|]; [|discriminate].
    destruct (seed_value (de_mm D) ts M) as (itp & E & S & _). rewrite E in H. cbn [bind] in H.
    destruct (debugHits D itp (dt_hits trk)) as [ps| | | |] eqn:P; try discriminate. cbn [bind] in H. injection H as <-.
    apply hits_spec in P; auto. destruct P as (os & F & ->). exists ts, itp, os. auto.
  - intros (ts & itp & os & -> & S & F & ->). destruct (seed_value (de_mm D) ts M) as (itp' & E & _ & U).
    rewrite E. cbn [bind]. rewrite <- (U _ S). rewrite (proj2 (hits_spec D itp M (dt_hits trk) (somes os))) by eauto. reflexivity.
Qed.
Print Assumptions C82_track.

(** The surface looked for exists as a number except for the highest layer number,
    which throws. *)
Theorem C82_key : forall h,
  (forall k, debugKey h = Ok k <-> debug_key h k)
  /\ (forall k k', debug_key h k -> debug_key h k' -> k = k')
  /\ ((exists k, debug_key h k) <-> ~ (zfield 0 5 (dh_cell h) = 1 /\ zfield 7 9 (dh_cell h) = 511)%Z)
  /\ (forall D ts trk hs1 hs2, (zfield 0 5 (dh_cell h) = 1 /\ zfield 7 9 (dh_cell h) = 511)%Z ->
        de_mm D <> 0 -> dt_state trk = Some ts -> dt_hits trk = hs1 ++ h :: hs2 ->
        (forall itp, debug_seed (de_mm D) ts itp -> List.Forall (fun h' => exists o, debug_point D itp h' o) hs1) ->
        debugTrack D trk = Throw).
Proof.
  intros h. split; [intros k; apply key_spec|]. split; [apply key_unique|].
  assert (No : forall k, debug_key h k -> ~ (zfield 0 5 (dh_cell h) = 1 /\ zfield 7 9 (dh_cell h) = 511)%Z).
  { intros k [(_ & _ & _ & _ & _ & F & _)|[A _]] [B C]; [|contradiction].
    assert (R := zfield_range 7 9 k ltac:(lia)). change (2 ^ 9)%Z with 512%Z in R. lia. }
  split.
  - split; [intros [k K]; eauto|]. intros N. destruct (key_cases h) as [(k & _ & K)|(_ & A & B)]; eauto. exfalso. auto.
  - intros D ts trk hs1 hs2 Top M St Hs Pre.
    assert (Kt : debugKey h = Throw).
    { destruct (key_cases h) as [(k & _ & K)|(E & _)]; auto. exfalso. exact (No k K Top). }
    destruct (seed_value (de_mm D) ts M) as (itp & E & S & _). specialize (Pre itp S).
    unfold debugTrack. rewrite St, E. cbn [bind]. rewrite Hs. clear Hs.
    assert (G : debugHits D itp (hs1 ++ h :: hs2) = Throw).
    { induction Pre as [|h' hs1 (o & P) Pre IH]; cbn [app debugHits].
      - unfold debugHit. rewrite Kt. reflexivity.
      - apply hit_spec in P; auto. rewrite P. cbn [bind]. rewrite IH. reflexivity. }
    rewrite G. reflexivity.
Qed.
Print Assumptions C82_key.

(** A new hit is on the track and on the surface, inside its bounds.  For surfaces
    searched in closed form it is the crossing nearest to the last hit's state, and
    without a new hit there is none within half a turn or the nearest is out of
    bounds. *)
Theorem C82_points : forall D itp h o k surf f,
  tp_par itp OMEGA <> 0 -> Rabs (tp_par itp PHI0) <= 2 * PI -> is_helix (tp_par itp) (tp_ref itp) f ->
  debug_point D itp h o -> debug_key h k -> surface_for D k surf ->
  (wf_surface surf -> forall p, o = Some p -> exists s, vscale (de_mm D) p = f s
     /\ on_surface surf (f s) /\ sf_insideBounds surf (f s) = true)
  /\ (simple surf (tp_par itp) (tp_ref itp) ->
      (forall p, o = Some p -> exists s, vscale (de_mm D) p = f s
         /\ nearest f (tp_par itp OMEGA) surf s /\ sf_insideBounds surf (f s) = true)
      /\ (o = None -> (forall u, Rabs (tp_par itp OMEGA * u) < PI -> ~ on_surface surf (f u))
          \/ exists s, nearest f (tp_par itp OMEGA) surf s /\ sf_insideBounds surf (f s) = false)).
Proof.
  intros D itp h o k surf f Ho Hp Hf (k' & K' & P) K S. rewrite (key_unique _ _ _ K' K) in P. clear K'.
  destruct P as [(_ & N)|(surf' & S' & P)].
  { destruct (surface_for_in _ _ _ S) as [I E]. exfalso. exact (N _ I E). }
  apply surface_for_find in S. apply surface_for_find in S'. rewrite S in S'. injection S' as <-.
  split.
  - intros W p Q. destruct P as [(N & _)|(s & p' & Q' & E)]; [congruence|]. rewrite Q in Q'. injection Q' as <-.
    destruct (C21_true_result _ _ _ _ _ _ f _ _ Ho Hp Hf W E) as (X & _ & _ & _ & B & G). cbv zeta in *. rewrite X in B, G. exists s.
    split; auto.
  - intros Si. destruct P as [(N & out & E)|(s & p' & Q' & E)];
      destruct (nearest_spec _ _ _ _ _ _ f Ho Hp Hf Si E) as [T F].
    + split; [intros p Q; congruence|auto].
    + split; [|intros Q; congruence]. intros p Q. rewrite Q in Q'. injection Q' as <-. destruct (T eq_refl) as (s' & X & N & B).
      injection X as _ X. exists s'. auto.
Qed.
Print Assumptions C82_points.

Theorem C82_no_state : forall D trk, dt_state trk = None -> debugTrack D trk = UB.
Proof. intros D trk H. unfold debugTrack. rewrite H. reflexivity. Qed.
Print Assumptions C82_no_state.

(** ** a run *)
Definition dstate : trackState := TS 1 0 0 1 0 1 (repeat 0 15) (0, 0, 0).
Definition ditp : trackParameters := TP m5zero (mk5 1 1 0 0 0) (V3 0 0 0).
Definition dup : surface := ex_station 1 0 (fun _ => true).
Definition dside : surface := ex_station (-1) 0 (fun _ => false).
(** ids: subdetector 1, side +1, layer 1; and 4290772994, that is sensor 255 and
    module 192 of subdetector 2 *)
Definition dids (surf : surface) : Z := if sf_insideBounds surf v3zero then 161%Z else 4290772994%Z.
Definition dD : denv := DE 1 [dside; dup] dids.

Lemma dstate_seed : debugSeed 1 dstate = Ok ditp /\ debug_seed 1 dstate ditp.
Proof.
  destruct (seed_value 1 dstate ltac:(lra)) as (itp & E & S & U).
  assert (Q : debug_seed 1 dstate ditp).
  { split; [intros [| | | |]; cbn; field|]. split; [unfold vscale; cbn; f_equal; ring|reflexivity]. }
  rewrite E, <- (U _ Q). auto.
Qed.

Lemma dup_hit z : 0 < z -> exists p, debugHit dD ditp (DH 1 (V3 0 0 z)) = Ok (Some p) /\ vz p = 1.
Proof.
  intros Z. unfold debugHit. assert (K : debugKey (DH 1 (V3 0 0 z)) = Ok 161%Z).
  { apply key_spec. left. cbn [dh_cell dh_pos vz]. repeat split; try reflexivity; try lia. intros; lra. }
  rewrite K. cbn [bind]. change (debugFind dD 161) with (Some dup). cbv iota. unfold dup.
  rewrite station_isect by (cbn; lra). cbv zeta. cbn [bind].
  set (s := (1 - (vz (tp_ref ditp) + tp_par ditp Z0)) / tp_par ditp TANL).
  assert (Es : s = 1) by (unfold s; cbn; field).
  assert (Mo : mode_ok 0 s = true) by (apply mode_ok_iff; split; intros; lia). rewrite Mo. cbn [andb bounds]. change (sf_insideBounds _ _) with true. cbv iota.
  rewrite !rdiv_ok by (cbn; lra). cbn [bind]. eexists. split; [reflexivity|]. unfold hcurve. rewrite Es. cbn. field.
Qed.

(** A track of three hits: the surface of the first is crossed, and found under its
    new id; on the other side there is no such surface; the surface of the third has
    the same 32 bits as its cell number. *)
Example C82_instance : exists p, vz p = 1
  /\ debugTrack dD (DT (Some dstate) [DH 1 (V3 0 0 5); DH 1 (V3 0 0 (-5)); DH (-4194302) v3zero])
     = Ok (DOut dstate [p])
  /\ debugMain dD 2 [Some [DT (Some dstate) [DH 1 (V3 0 0 5)]]; Some []; None] = ([DOut dstate [p]], Throw)
  /\ simple dup (tp_par ditp) (tp_ref ditp).
Proof.
  destruct (dup_hit 5 ltac:(lra)) as (p & A & Z). exists p. split; auto.
  assert (B : debugHit dD ditp (DH 1 (V3 0 0 (-5))) = Ok None).
  { unfold debugHit. assert (K : debugKey (DH 1 (V3 0 0 (-5))) = Ok 225%Z).
    { apply key_spec. left. cbn [dh_cell dh_pos vz]. repeat split; try reflexivity; try lia. intros; lra. }
    rewrite K. reflexivity. }
  assert (C : debugHit dD ditp (DH (-4194302) v3zero) = Ok None) by reflexivity.
  split; [|split].
  - unfold debugTrack. cbn [dt_state]. change (de_mm dD) with 1. rewrite (proj1 dstate_seed). cbn [bind dt_hits debugHits].
    rewrite A, B, C. reflexivity.
  - cbn [debugMain debugLoop]. unfold debugTrack. cbn [dt_state]. change (de_mm dD) with 1. rewrite (proj1 dstate_seed).
    cbn [bind dt_hits debugHits]. rewrite A. reflexivity.
  - split; [reflexivity|]. right. right. repeat split.
Qed.

(** A surface with the same 32 bits as the cell number of a hit is not found if the
    highest of them is set, outside the vertex detector. *)
Theorem C82_same_bits_refuted : exists D itp h surf f s,
  is_helix (tp_par itp) (tp_ref itp) f /\ In surf (de_surfaces D)
  /\ de_id D surf = (dh_cell h mod 2 ^ 32)%Z /\ (- 2 ^ 31 <= dh_cell h < 2 ^ 31)%Z /\ zfield 0 5 (dh_cell h) = 2%Z
  /\ intersectWithSurface surf (tp_par itp) (tp_ref itp) (OVal 0 v3zero) 0 true = Ok (true, OVal s (f s))
  /\ debugHit D itp h = Ok None.
Proof.
  exists (DE 1 [dup] (fun _ => 4290772994%Z)), ditp, (DH (-4194302) v3zero), dup, (hcurve (tp_par ditp) (tp_ref ditp)), 1.
  split; [apply hcurve_helix; cbn; lra|]. split; [left; auto|]. split; [reflexivity|]. split; [cbn [dh_cell]; lia|].
  split; [reflexivity|]. split; [|reflexivity].
  unfold dup. rewrite station_isect by (cbn; lra). cbv zeta.
  replace ((1 - (vz (tp_ref ditp) + tp_par ditp Z0)) / tp_par ditp TANL) with 1 by (cbn; field).
  replace (mode_ok 0 1) with true by (symmetry; apply mode_ok_iff; split; intros; lia). reflexivity.
Qed.
Print Assumptions C82_same_bits_refuted.
