(** Proofs for C63. *)
From Coq Require Import Reals List Bool ZArith Lra Lia.
From Verif Require Import Num Vec Helix Isect Trans Material Traj Fit.
From Verif Require Import SpecTraj SpecSmooth SpecFit SpecExact TrajFacts TrajFacts2 TrajFacts5 FitFacts2.
Import ListNotations.
Open Scope R_scope.

Definition zero_res (e : telem) : Prop := te_meas e = true -> te_res e = [0; 0].

Lemma push_exact t new t' r : (forall las e, te_tp las = from_state t -> new las = Ok (Some e) -> zero_res e) ->
  List.Forall zero_res (tr_elems t) -> pushElement t new = (t', r) -> (exists b, r = Ok b) \/ r = Throw ->
  List.Forall zero_res (tr_elems t').
Proof.
  intros HN F H R. destruct (push_spec _ _ _ _ H R) as [(_ & -> & _)|(t1 & e0 & l & En & El & C)]; auto.
  assert (F1 : List.Forall zero_res (tr_elems t1)).
  { apply (ensure_P zero_res t t1); auto. intros e (_ & M & _). unfold zero_res. congruence. }
  destruct (ensure_from _ _ _ _ En El) as [Fr _].
  destruct C as [(_ & -> & _)|[(_ & -> & _)|(e & _ & N & ->)]]; auto.
  cbn. apply Forall_app. split; auto. constructor; eauto.
Qed.

Lemma history_exact E (ok : traj -> call -> Prop) ref prop cs t : sorts te_s (en_sortE E) ->
  (forall t c, ok t c -> exact_hit t c) ->
  history E ok (mkTraj ref prop) cs t -> List.Forall zero_res (tr_elems t).
Proof.
  intros S K H. induction H as [|cs t c t' H IH O St]; [constructor|]. apply K in O.
  destruct St as [position precision surf id sc t' r A R|surf t' r A R|t' A|l t' A|m].
  - apply (push_exact _ _ _ _) with (3 := A); auto. intros las e Q N _.
    destruct (newMeasurement_spec _ _ _ _ _ _ _ _ _ N) as (s0 & xx & moved & fid & mom & el & B & _ & Rs & _).
    assert (Is := bu_isect _ _ _ _ _ _ _ _ _ _ _ _ _ _ _ B). rewrite Q in Is.
    rewrite Rs, (O _ _ Is). f_equal; [ring|f_equal; ring].
  - apply (push_exact _ _ _ _) with (3 := A); auto. intros las e Q N M. exfalso.
    destruct (newScatterer_spec _ _ _ _ _ N) as (s0 & xx & moved & fid & mom & el & B & _).
    rewrite (bu_meas _ _ _ _ _ _ _ _ _ _ _ _ _ _ _ B) in M. discriminate.
  - refine (prepare_P zero_res _ _ _ _ S IH A). intros a b Q. unfold same_but_jacobian, zero_res in *.
    decompose [and] Q. intros Z M. rewrite <- Z by congruence. symmetry. auto.
  - unfold getIntersectionsWithSurfaces in A. cbv zeta in A. dres A. injection A as <-. exact IH.
  - exact IH.
Qed.

Lemma points_no_residual l : forall points, List.Forall zero_res l -> makePoints l = Ok points ->
  List.Forall no_residual points.
Proof.
  induction l as [|e l IH]; intros points F H; cbn in H; [injection H as <-; constructor|].
  inversion F as [|? ? Fe Fl]; subst. dres H. dres H. injection H as <-. constructor; [|apply IH; auto].
  unfold makePoint in B. destruct (te_jac e); [|discriminate]. dres B. dres B. injection B as <-.
  split; cbn.
  - intros m0 ->. unfold measPart in B1. destruct (te_meas e) eqn:M; [|discriminate]. rewrite (Fe M) in B1.
    destruct (te_dirs e); [|discriminate]. destruct (Nat.ltb 2 (length l0)); [discriminate|]. destruct (te_proj e); [|discriminate].
    destruct (te_prec e) as [|x [|y z]]; try discriminate. injection B1 as <-. reflexivity.
  - intros s0 ->. unfold scatPart in B2. destruct (te_scat e); [|discriminate].
    destruct (rev (te_prec e)) as [|x [|y [|z u]]]; try discriminate. injection B2 as <-. reflexivity.
Qed.
