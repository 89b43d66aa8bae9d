(** Property C86: the program examples/lcio_tracks as a whole. *)
From Coq Require Import Reals List Bool ZArith Lra Lia Permutation Arith.
From Coquelicot Require Import Coquelicot.
From Verif Require Import Num Vec Helix Isect Trans Material Traj Fit Geom LCIO Refit RefitMain.
From Verif Require Import NumFacts SpecGeom SpecFit SpecRefit SpecRefitMain PropRefit PropRefitEx PropSmall PropGeom.
Import ListNotations.
Open Scope R_scope.

Lemma main_start srt ld C S d fs f g rest : tracksMain srt ld C S (gw_start d) fs (f :: g :: rest) =
  match ld f d with
  | Ok d1 =>
      match sortedSurfaces srt (det_surfaces d1) with
      | Ok geom =>
          (GW (Some 0%nat) false d1 [geom] [f],
           match fs g with
           | None => (fs, (false, Throw))
           | Some evs =>
               match openWriter fs rest with
               | (fs1, Ok output) =>
                   let '(fs2, r) := tracksLoop (withSurfaces C geom) S fs1 g output evs in (fs2, (false, r))
               | (fs1, x) => (fs1, (false, match x with Ok _ => Ok 0%Z | Throw => Throw | UB => UB
                                                   | NonFin => NonFin | Diverge => Diverge end))
               end
           end)
      | Throw => (GW None true d1 [] [f], (fs, (false, Throw)))
      | UB => (GW None true d1 [] [f], (fs, (false, UB)))
      | NonFin => (GW None true d1 [] [f], (fs, (false, NonFin)))
      | Diverge => (GW None true d1 [] [f], (fs, (false, Diverge)))
      end
  | Throw => (gw_start d, (fs, (false, Throw)))
  | UB => (gw_start d, (fs, (false, UB)))
  | NonFin => (gw_start d, (fs, (false, NonFin)))
  | Diverge => (gw_start d, (fs, (false, Diverge)))
  end.
Proof.
  unfold tracksMain, instanceFile, newGeometry, gw_start. cbn [gw_geom gw_det gw_objs gw_first gw_loads].
  destruct (ld f d) as [d1| | | |]; try reflexivity. cbn [gw_det gw_objs gw_loads].
  destruct (sortedSurfaces srt (det_surfaces d1)) as [geom| | | |]; cbn [bind app length]; try reflexivity.
  unfold getSurfaces. cbn [nth_error gw_objs]. destruct (fs g) as [evs|]; try reflexivity.
  destruct (openWriter fs rest) as [fs1 [o| | | |]]; try reflexivity. destruct (tracksLoop _ _ _ _ _ _); reflexivity.
Qed.

Lemma lcput_same fs n l : lcput fs n l n = Some l.
Proof. unfold lcput. rewrite Nat.eqb_refl. reflexivity. Qed.
Lemma lcput_other fs n l m : m <> n -> lcput fs n l m = fs m.
Proof. intros H. unfold lcput. destruct (Nat.eqb_spec m n); congruence. Qed.

Lemma openWriter_spec fs f g rest :
  (forall o, rest = [o] -> fs o = None) ->
  openWriter fs rest = (lcput fs (output_name (f :: g :: rest)) [], Ok (output_name (f :: g :: rest))).
Proof.
  intros H. destruct rest as [|o [|? ?]]; try reflexivity. cbn. rewrite (H o); reflexivity.
Qed.

Lemma combine_written C S : forall (evs : list fevent) (out : list (list otrack)),
  Forall2 (event_done C S) (firstn (length out) (map eventTracks evs)) out ->
  Forall2 (event_written C S) (firstn (length out) evs) (map writtenEvent (combine evs out))
  /\ length (map writtenEvent (combine evs out)) = length out.
Proof.
  intros evs out. revert evs. induction out as [|os out IH]; intros evs H.
  - destruct evs; cbn; split; constructor.
  - destruct evs as [|e evs]; [inversion H|]. cbn in *. inversion H as [|? ? ? ? A B]; subst.
    destruct (IH _ B) as [P Q]. split; [|rewrite Q; auto]. constructor; auto.
    destruct A as (tracks & E & F). unfold eventTracks in E. unfold event_written, writtenEvent. cbn.
    destruct (fe_tracks e) as [l|] eqn:T; [|discriminate]. destruct (fe_refitted e); [discriminate|].
    injection E as ->. eauto 8.
Qed.

(** A run on a detector, an input file that is not the output, and an output that is
    not there if it is named: the surfaces used are those of the detector after the
    geometry file has been loaded, once.  The output has the events of the input, in
    order and with all that was in them, each with one more collection, up to the
    first that ends the program, at most 1000.  Nothing else is written. *)
Theorem C86_program : forall srt ld C S d fs f g rest d1 geom evs, dsort_ok srt ->
  ld f d = Ok d1 -> sortedSurfaces srt (det_surfaces d1) = Ok geom -> fs g = Some evs ->
  let o := output_name (f :: g :: rest) in
  (length rest = 1%nat -> fs o = None) -> g <> o ->
  exists w fs' r C' out,
    tracksMain srt ld C S (gw_start d) fs (f :: g :: rest) = (w, (fs', (false, r)))
    /\ gw_loads w = [f] /\ with_surfaces_of C d1 C'
    /\ fs' o = Some out /\ (forall m, m <> o -> fs' m = fs m)
    /\ Forall2 (event_written C' S) (firstn (length out) evs) out
    /\ ((r = Ok 0%Z /\ length out = Nat.min event_limit (length evs))
        \/ exists e, nth_error evs (length out) = Some e /\ (length out < event_limit)%nat
             /\ event_stops C' S e r).
Proof.
  intros srt ld C S d fs f g rest d1 geom evs So L Sg G o N D. rewrite main_start, L, Sg, G.
  rewrite (openWriter_spec fs f g).
  2:{ intros o' ->. apply N. reflexivity. }
  fold o. unfold tracksLoop. destruct (Nat.eqb_spec g o); [contradiction|].
  destruct (refitProgram _ _ _) as [out r] eqn:R.
  destruct (C73_program _ _ _ _ _ R) as [A B]. destruct (combine_written _ _ _ _ A) as [P Q].
  eexists _, _, _, (withSurfaces C geom), _. split; [reflexivity|]. split; [reflexivity|]. split.
  { repeat (split; [reflexivity|]). cbn. apply Permutation_map. eapply sorted_perm; eauto. }
  split; [apply lcput_same|]. split; [intros m M; rewrite !lcput_other by auto; auto|].
  rewrite Q. split; auto. destruct B as [[-> B]|(ev & E & Lt & F)].
  - left. rewrite map_length in B. auto.
  - right. rewrite nth_error_map in E. destruct (nth_error evs (length out)) as [e|]; [|discriminate].
    cbn in E. injection E as <-. exists e. split; auto. split; auto.
    destruct F as [[F ->]|(l1 & trk & l2 & F & K & X)].
    + left. split; auto. unfold eventTracks in F. destruct (fe_tracks e); auto. right. destruct (fe_refitted e); [|discriminate].
      discriminate.
    + right. unfold eventTracks in F. destruct (fe_tracks e) as [l|]; [|discriminate].
      destruct (fe_refitted e); [discriminate|]. injection F as ->. exists l1, trk, l2. split; auto. split; auto. split; auto.
      destruct r, (alone (withSurfaces C geom) S trk); cbn in *; auto.
Qed.
Print Assumptions C86_program.

(** With fewer than two arguments the program says how it is called, ends with 1
    and touches nothing. *)
Theorem C86_usage : forall srt ld C S w fs args, (length args < 2)%nat <->
  tracksMain srt ld C S w fs args = (w, (fs, (true, Ok 1%Z))).
Proof.
  intros. destruct args as [|f [|g rest]]; cbn [length]; split; intros H; try lia; try reflexivity.
  exfalso. unfold tracksMain in H. destruct (instanceFile srt ld w f) as [w1 [ref| | | |]]; try discriminate.
  destruct (getSurfaces w1 ref); [|discriminate]. destruct (fs g); [|discriminate].
  destruct (openWriter fs rest) as [fs1 [o| | | |]]; try discriminate.
  destruct (tracksLoop _ _ _ _ _ _); discriminate.
Qed.
Print Assumptions C86_usage.

(** A run in which the geometry or the input cannot be read, or the named output is
    there already, ends with an exception and changes no file. *)
Theorem C86_refused : forall srt ld C S d fs f g rest,
  ld f d = Throw
  \/ (exists d1 geom, ld f d = Ok d1 /\ sortedSurfaces srt (det_surfaces d1) = Ok geom
        /\ (fs g = None \/ exists o, rest = [o] /\ fs o <> None)) ->
  exists w, tracksMain srt ld C S (gw_start d) fs (f :: g :: rest) = (w, (fs, (false, Throw))).
Proof.
  intros srt ld C S d fs f g rest [L|(d1 & geom & L & Sg & H)]; rewrite main_start, L; [eauto|]. rewrite Sg.
  destruct H as [->|(o & -> & H)]; [eauto|]. destruct (fs g); [|eauto].
  unfold openWriter. destruct (fs o); [eauto|congruence].
Qed.
Print Assumptions C86_refused.

(** Hence a file named as the third of three arguments keeps what it has. *)
Theorem C86_named_output : forall srt ld C S w fs f g o,
  forall w' fs' x, tracksMain srt ld C S w fs [f; g; o] = (w', (fs', x)) ->
  forall m, fs m <> None -> fs' m = fs m.
Proof.
  intros srt ld C S w fs f g o w' fs' x H m M. unfold tracksMain in H.
  destruct (instanceFile srt ld w f) as [w1 [ref| | | |]]; try (injection H as _ <- _; reflexivity).
  destruct (getSurfaces w1 ref); [|injection H as _ <- _; reflexivity].
  destruct (fs g) as [evs|]; [|injection H as _ <- _; reflexivity].
  unfold openWriter in H. destruct (fs o) eqn:O; [injection H as _ <- _; reflexivity|].
  assert (m <> o) by congruence. unfold tracksLoop in H.
  destruct (Nat.eqb g o); [injection H as _ <- _; apply lcput_other; auto|].
  destruct (refitProgram _ _ _). injection H as _ <- _. rewrite !lcput_other; auto.
Qed.
Print Assumptions C86_named_output.

(** Not so with two arguments or with more than three: whatever was in the default
    file is gone once the geometry and the input are open, also if it is the input;
    it is another file afterwards if it had an event that was not refitted. *)
Theorem C86_default_output : forall srt ld C S d fs f g rest d1 geom evs,
  length rest <> 1%nat ->
  ld f d = Ok d1 -> sortedSurfaces srt (det_surfaces d1) = Ok geom -> fs g = Some evs ->
  exists w fs' x out, tracksMain srt ld C S (gw_start d) fs (f :: g :: rest) = (w, (fs', x))
    /\ fs' 0%nat = Some out
    /\ (forall old e, In e old -> fe_refitted e = None -> out <> old)
    /\ (g = 0%nat -> out = [] /\ x = (false, UB)).
Proof.
  intros srt ld C S d fs f g rest d1 geom evs Nr L Sg G. rewrite main_start, L, Sg, G.
  assert (O : openWriter fs rest = (lcput fs 0 [], Ok 0%nat)).
  { destruct rest as [|o [|? ?]]; try reflexivity. cbn in Nr. lia. }
  rewrite O. unfold tracksLoop. destruct (Nat.eqb_spec g 0).
  - subst g. eexists _, _, _, []. split; [reflexivity|]. split; [apply lcput_same|]. split; [intros old e I _ <-; destruct I|auto].
  - destruct (refitProgram _ _ _) as [out r]. eexists _, _, _, _. split; [reflexivity|].
    split; [apply lcput_same|]. split; [|intros; contradiction].
    intros old e I R <-. apply in_map_iff in I. destruct I as (y & <- & _). discriminate.
Qed.
Print Assumptions C86_default_output.

(** The program cannot be run on its own output: if there is an event in the
    output, a run with it as input ends with an exception before anything is
    written. *)
Theorem C86_again : forall srt ld C S d fs f g rest w fs' r out e,
  tracksMain srt ld C S (gw_start d) fs (f :: g :: rest) = (w, (fs', (false, r))) -> g <> output_name (f :: g :: rest) ->
  (forall o, rest = [o] -> fs o = None) -> (exists geom, getSurfaces w 0 = Some geom) -> fs g <> None ->
  fs' (output_name (f :: g :: rest)) = Some (e :: out) ->
  forall o2, fs' o2 = None ->
  exists w2 fs2, tracksMain srt ld C S (gw_start d) fs' [f; output_name (f :: g :: rest); o2] = (w2, (fs2, (false, Throw)))
    /\ fs2 o2 = Some [] /\ forall m, m <> o2 -> fs2 m = fs' m.
Proof.
  intros srt ld C S d fs f g rest w fs' r out e H D N [geom0 Gs] Gi Out o2 O2.
  set (o := output_name (f :: g :: rest)) in *.
  rewrite main_start in H. rewrite main_start.
  destruct (ld f d) as [d1| | | |]; try (injection H as <- _ _; discriminate Gs).
  destruct (sortedSurfaces srt (det_surfaces d1)) as [geom| | | |]; try (injection H as <- _ _; discriminate Gs).
  destruct (fs g) as [evs|] eqn:G; [|congruence].
  rewrite (openWriter_spec fs f g) in H by auto. fold o in H. unfold tracksLoop in H.
  destruct (Nat.eqb_spec g o); [contradiction|].
  destruct (refitProgram _ _ _) as [out1 r1]. injection H as <- <- <-.
  rewrite Out. unfold openWriter. rewrite O2.
  assert (o <> o2) by congruence. unfold tracksLoop. destruct (Nat.eqb_spec o o2); [contradiction|].
  rewrite lcput_same in Out. injection Out as Out.
  destruct (combine evs out1) as [|y l]; [discriminate|]. cbn in Out. injection Out as <- Out.
  unfold refitProgram. cbn [map eventLoop]. unfold eventTracks at 1, writtenEvent at 1. cbn [fe_tracks fe_refitted].
  replace (Z.ltb (-1 + 1) maxEvent) with true by reflexivity.
  destruct (fe_tracks (fst y)); cbn [combine map]; (eexists _, _; split; [reflexivity|]; split; [rewrite lcput_same; destruct out; reflexivity|]);
  intros m M; do 2 (rewrite (lcput_other _ o2) by auto); reflexivity.
Qed.
Print Assumptions C86_again.

(** One event with a track of two hits: it is written without parameters, the
    named output is made, and the run on that output fails. *)
Example C86_instance : forall C, re_mm C = 1 ->
  let fs : lcfiles := fun n => if Nat.eqb n 7 then Some [FE (Some [rshort]) None] else None in
  exists w fs' w2 fs2,
    tracksMain disort ex_loader C shipped (gw_start ex_empty) fs [0; 7; 3]%nat = (w, (fs', (false, Ok 0%Z)))
    /\ fs' 3%nat = Some [FE (Some [rshort]) (Some [OT [] [] 0 0 0])]
    /\ tracksMain disort ex_loader C shipped (gw_start ex_empty) fs' [0; 3; 4]%nat = (w2, (fs2, (false, Throw)))
    /\ fs2 4%nat = Some [].
Proof.
  intros C Mm fs.
  destruct (C86_program disort ex_loader C shipped ex_empty fs 0 7 [3%nat] ex_full [ex_dlow] [FE (Some [rshort]) None]
    disort_ok eq_refl eq_refl eq_refl (fun _ => eq_refl) ltac:(cbn; lia)) as (w & fs' & r & C' & out & H & W & (Mm' & _) & O & Fr & F & R).
  assert (A : alone C' shipped rshort = Ok (OT [] [] 0 0 0)).
  { destruct (short_instance C') as (A1 & A2 & A3); [congruence|]. eapply C73_short_track; eauto. }
  assert (Out : out = [FE (Some [rshort]) (Some [OT [] [] 0 0 0])] /\ r = Ok 0%Z).
  { destruct R as [[-> L]|(e & N & L & St)].
    - replace (Nat.min event_limit (length [FE (Some [rshort]) None])) with 1%nat in L by reflexivity.
      destruct out as [|x [|? ?]]; try discriminate. split; auto. cbn in F. inversion F as [|? ? ? ? P _]; subst.
      destruct P as (_ & T & tracks & os & T1 & T2 & T3). cbn in T, T1. injection T1 as <-.
      inversion T3 as [|? ? ? ? P1 P2]; subst. inversion P2; subst. rewrite A in P1. injection P1 as <-.
      destruct x as [a b]. cbn in *. subst. reflexivity.
    - exfalso. destruct out as [|x out]; [|destruct out; discriminate N]. cbn in N. injection N as <-.
      destruct St as [[_ [B|B]]|(l1 & trk & l2 & B & _ & _ & Se)]; try (cbn in B; congruence).
      cbn in B. injection B as B. destruct l1 as [|? [|? ?]]; try discriminate. injection B as <- _. rewrite A in Se.
      destruct r; exact Se. }
  destruct Out as [-> ->]. exists w, fs'.
  edestruct (C86_again _ _ _ _ _ _ _ _ _ _ _ _ [] (FE (Some [rshort]) (Some [OT [] [] 0 0 0])) H ltac:(cbn; lia) ltac:(intros o E; injection E as <-; reflexivity)) with (o2 := 4%nat) as (w2 & fs2 & H2 & E2 & _).
  - rewrite main_start in H. unfold ex_loader at 1 in H. cbn [sortedSurfaces det_surfaces ex_full] in H.
    assert (Q : w = GW (Some 0%nat) false ex_full [[ex_dlow]] [0%nat]).
    { apply (f_equal fst) in H. symmetry. exact H. }
    rewrite Q. eexists. reflexivity.
  - discriminate.
  - exact O.
  - rewrite Fr by (cbn; lia). reflexivity.
  - exists w2, fs2. auto.
Qed.
