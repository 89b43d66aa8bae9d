(** Memory: effects of the calls. *)
From Coq Require Import Reals List Bool ZArith Lia Permutation.
From Verif Require Import Num Vec Helix Isect Trans Material Traj SpecTraj SpecThrow ThrowFacts TrajFacts Heap SpecHeap HeapFacts.
Import ListNotations.
Open Scope R_scope.

Definition full_cells : heap := [Some KParams; Some KDirs; Some KFrame; Some KElem; Some KProj].
Definition leak_cells : heap := [Some KParams; Some KDirs; Some KFrame; None; Some KProj].

(** an addition in memory and the same addition on values *)
Definition new_effect (h : heap) (surf : surface) (out : heap * res (option helem)) (v : res (option telem)) : Prop :=
  let h' := fst out in
  match snd out with
  | Ok None => v = Ok None /\ h' = h
  | Ok (Some e) => v = Ok (Some (he_val e)) /\ te_surf (he_val e) = Some surf /\ ~ unusable surf /\ pointers_agree e
      /\ h' = h ++ full_cells
      /\ e = HE (he_val e) (length h + 3) (length h + 0) (Some (length h + 1)%nat) (Some (length h + 2)%nat)
               (Some (length h + 4)%nat) None
  | Throw => v = Throw /\ ((unusable surf /\ h' = h) \/ (~ unusable surf /\ h' = h ++ leak_cells))
  | UB => v = UB
  | NonFin => v = NonFin
  | Diverge => v = Diverge
  end.

Lemma mkElement_surf s tp surf dirs prec resid cls id sc meas e :
  mkElement s tp surf dirs prec resid cls id sc meas = Ok e -> te_surf e = Some surf.
Proof. unfold mkElement. destruct calculateLocalToMeasurementProjectionMatrix; cbn; try discriminate. intros Q. injection Q as <-. auto. Qed.

Lemma mkElement_agree s tp surf dirs prec resid cls id sc meas e a b c d f :
  mkElement s tp surf dirs prec resid cls id sc meas = Ok e ->
  pointers_agree (HE e a b (Some c) (Some d) (Some f) None).
Proof.
  unfold mkElement. destruct calculateLocalToMeasurementProjectionMatrix; cbn; try discriminate. intros Q. injection Q as <-.
  repeat split; discriminate.
Qed.

(** the end of both additions *)
Lemma construct_effect h surf s tp dirs prec resid cls id sc meas : ~ unusable surf ->
  new_effect h surf
    (mbind (hMkElement s tp surf dirs prec resid cls id sc meas (length h) (length (h ++ [Some KParams]))
              (length ((h ++ [Some KParams]) ++ [Some KDirs]))) (fun e => mret (Some e))
       (((h ++ [Some KParams]) ++ [Some KDirs]) ++ [Some KFrame]))
    (e <- mkElement s tp surf dirs prec resid cls id sc meas ;; Ok (Some e)).
Proof.
  intros U. unfold hMkElement, mbind, malloc, mret, lift, new_effect.
  destruct (mkElement s tp surf dirs prec resid cls id sc meas) eqn:Em; cbn [bind fst snd]; auto.
  - split; auto. split; [eapply mkElement_surf; eauto|]. split; auto. split; [eapply mkElement_agree; eauto|]. split.
    + rewrite <- !app_assoc. reflexivity.
    + cbn [he_val]. rewrite !app_length. cbn [length]. rewrite <- !Nat.add_assoc. cbn [Nat.add]. rewrite Nat.add_0_r. reflexivity.
  - unfold mfree.
    assert (Q : nth_error (((((h ++ [Some KParams]) ++ [Some KDirs]) ++ [Some KFrame]) ++ [Some KElem]) ++ [Some KProj])
                  (length (((h ++ [Some KParams]) ++ [Some KDirs]) ++ [Some KFrame])) = Some (Some KElem)).
    { rewrite <- (app_assoc _ [Some KElem]). rewrite nth_error_app2 by lia. rewrite Nat.sub_diag. reflexivity. }
    rewrite Q. cbn [kind_eqb fst snd]. split; auto. right. split; auto.
    rewrite <- (app_assoc _ [Some KElem]).
    assert (X : forall (a b : heap) x, clear (a ++ x :: b) (length a) = a ++ None :: b).
    { clear. induction a; intros b x; cbn; auto. f_equal. auto. }
    cbn [app]. rewrite X. unfold leak_cells. rewrite <- !app_assoc. reflexivity.
Qed.

(** pass over a computation that does not throw *)
Lemma pass {A B} h surf (x : res A) (f : A -> M (option helem)) (g : A -> res (option telem)) :
  x <> Throw -> (forall a, new_effect h surf (f a B) (g a)) -> new_effect h surf (mbind (lift x) f B) (bind x g).
Proof.
  intros N H. unfold mbind, lift. destruct x; cbn [bind]; auto; try contradiction; reflexivity.
Qed.

Lemma newMeasurement_effect E mass las position precision surf id sc h :
  new_effect h surf (hNewMeasurement E mass las position precision surf id sc h)
    (newMeasurement E mass las position precision surf id sc).
Proof.
  unfold hNewMeasurement, newMeasurement. cbv zeta.
  assert (T := isect_throw surf (tp_par (te_tp las)) (tp_ref (te_tp las)) (OVal 0 v3zero) 1 false).
  destruct (intersectWithSurface surf (tp_par (te_tp las)) (tp_ref (te_tp las)) (OVal 0 v3zero) 1 false) as [[b o]| | | |] eqn:Ei;
    unfold mbind at 1, lift at 1; cbn [bind].
  2:{ split; auto. left. split; auto. apply T. auto. }
  2-4: reflexivity.
  assert (U : ~ unusable surf) by (intros Q; apply T in Q; discriminate).
  destruct b; [|split; reflexivity].
  destruct o as [s0 xx|]; [|reflexivity].
  unfold mbind at 1, malloc at 1.
  apply pass; [auto with nt|]. intros mv.
  apply pass; [auto with nt|]. intros mom.
  apply pass; [auto with nt|]. intros el.
  apply pass; [auto with nt|]. intros tp.
  unfold mbind at 1, malloc at 1.
  destruct sc.
  - unfold mbind at 1. unfold mbind at 1. unfold lift at 1.
    destruct (qms2 (computeQMS_uv surf (sf_globalToLocal surf xx) mom mass)) eqn:Eq; cbn [bind]; try reflexivity.
    2:{ exfalso. revert Eq. apply nt_qms2. }
    unfold mret at 1. unfold mbind at 1, malloc at 1. apply construct_effect; auto.
  - unfold mbind at 1. unfold mret at 1. unfold mbind at 1, malloc at 1. cbn [bind]. apply construct_effect; auto.
Qed.

Lemma newScatterer_effect E mass las surf h :
  new_effect h surf (hNewScatterer E mass las surf h) (newScatterer E mass las surf).
Proof.
  unfold hNewScatterer, newScatterer. cbv zeta.
  assert (T := isect_throw surf (tp_par (te_tp las)) (tp_ref (te_tp las)) (OVal 0 v3zero) 1 true).
  destruct (intersectWithSurface surf (tp_par (te_tp las)) (tp_ref (te_tp las)) (OVal 0 v3zero) 1 true) as [[b o]| | | |] eqn:Ei;
    unfold mbind at 1, lift at 1; cbn [bind].
  2:{ split; auto. left. split; auto. apply T. auto. }
  2-4: reflexivity.
  assert (U : ~ unusable surf) by (intros Q; apply T in Q; discriminate).
  destruct b; [|split; reflexivity].
  destruct o as [s0 xx|]; [|reflexivity].
  unfold mbind at 1, malloc at 1.
  apply pass; [auto with nt|]. intros mv.
  apply pass; [auto with nt|]. intros mom.
  apply pass; [auto with nt|]. intros el.
  apply pass; [auto with nt|]. intros tp.
  unfold mbind at 1, malloc at 1.
  apply pass; [auto with nt|]. intros q.
  unfold mbind at 1, malloc at 1. apply construct_effect; auto.
Qed.

(** the cells of a new element are owned by it *)
Lemma inv_new h0 h es lost surf e : inv h0 h es lost -> ~ unusable surf -> te_surf (he_val e) = Some surf -> pointers_agree e ->
  e = HE (he_val e) (length h + 3) (length h + 0) (Some (length h + 1)%nat) (Some (length h + 2)%nat)
               (Some (length h + 4)%nat) None ->
  inv h0 (h ++ full_cells) (es ++ [e]) lost.
Proof.
  intros I U S Ag Ee. rewrite <- (app_nil_r lost). apply inv_append; auto.
  - rewrite Ee. cbn. repeat constructor; cbn; lia.
  - rewrite Ee. cbn. intros a k J.
    destruct J as [J|[J|[J|[J|[J|[]]]]]]; injection J as <- <-; eexists; split; try reflexivity; reflexivity.
  - rewrite Ee. unfold full_cells. cbn.
    assert (X : forall (h : heap) l n, clear (h ++ l) (length h + n) = h ++ clear l n).
    { clear. induction h; intros; cbn; auto. f_equal. auto. }
    rewrite !X, skipn_ge_app. reflexivity.
  - intros e' surf' [<-|[]] Q. congruence.
  - intros e' [<-|[]]. exact Ag.
Qed.

Lemma inv_leak h0 h es lost : inv h0 h es lost ->
  inv h0 (h ++ leak_cells) es (lost ++ [KParams; KDirs; KFrame; KProj]).
Proof.
  intros I. rewrite <- (app_nil_r es). apply inv_append; auto.
  - constructor.
  - intros a k [].
  - cbn. rewrite skipn_ge_app. reflexivity.
  - intros e [].
Qed.

Lemma map_last {A B} (f : A -> B) l d : f (last l d) = last (map f l) (f d).
Proof. revert d. induction l as [|a [|b l] IH]; intros d; auto. exact (IH d). Qed.

(** an addition as a whole *)
Lemma push_effect h0 h t lost surf new_h new_v h' t' r :
  inv h0 h (ht_elems t) lost ->
  (forall las h, new_effect h surf (new_h las h) (new_v las)) ->
  hPush t new_h h = (h', t', r) ->
  pushElement (erase t) new_v = (erase t', r)
  /\ ((exists b, r = Ok b) -> inv h0 h' (ht_elems t') lost)
  /\ (r = Throw -> (unusable surf /\ inv h0 h' (ht_elems t') lost)
        \/ (~ unusable surf /\ inv h0 h' (ht_elems t') (lost ++ [KParams; KDirs; KFrame; KProj]))).
Proof.
  intros I N Q. unfold hPush in Q. unfold pushElement.
  assert (En : (exists h1 t1, hEnsureInitial t h = (h1, Ok t1) /\ ensureInitial (erase t) = Ok (erase t1)
                 /\ inv h0 h1 (ht_elems t1) lost /\ ht_elems t1 <> [])
            \/ (hEnsureInitial t h = (h, NonFin) /\ ensureInitial (erase t) = NonFin)
            \/ (hEnsureInitial t h = (h, UB) /\ ensureInitial (erase t) = UB)
            \/ (hEnsureInitial t h = (h, Diverge) /\ ensureInitial (erase t) = Diverge)).
  { unfold hEnsureInitial, ensureInitial. cbn [erase tr_elems set_elems].
    destruct (ht_elems t) as [|e0 l] eqn:El.
    2:{ left. exists h, t. cbn [map]. unfold mret. split; [reflexivity|]. split; [reflexivity|]. rewrite El. split; [auto|congruence]. }
    cbn [map]. unfold hAddElement, addElement. cbv zeta. unfold mbind at 1, lift. cbn [erase tr_ref set_elems].
    generalize (nt_S (vx v3zero) (vy v3zero) (tp_par (tr_ref (ht_base t))) (tp_ref (tr_ref (ht_base t)))).
    destruct (calculateSfromXY (vx v3zero) (vy v3zero) (tp_par (tr_ref (ht_base t))) (tp_ref (tr_ref (ht_base t)))) as [s| | | |];
      intros NT; cbn [bind]; auto; try contradiction.
    left. unfold mbind, malloc, mret. eexists _, _. split; [reflexivity|]. split.
    { unfold erase. cbn. rewrite El. reflexivity. }
    cbn [ht_elems hset_elems]. rewrite El. cbn [app]. split; [|discriminate].
    rewrite <- (app_nil_r lost). rewrite <- app_assoc. apply (inv_append h0 h []); auto.
    - cbn. repeat constructor; cbn; rewrite ?app_length; cbn; lia.
    - cbn. intros a k [J|[J|[]]]; injection J as <- <-.
      + exists 0%nat. split; [lia|reflexivity].
      + exists 1%nat. rewrite app_length. split; [cbn; lia|reflexivity].
    - cbn. rewrite app_length. cbn.
      assert (X : forall (h : heap) l n, clear (h ++ l) (length h + n) = h ++ clear l n).
      { clear. induction h; intros; cbn; auto. f_equal. auto. }
      assert (X0 : forall l, clear (h ++ l) (length h) = h ++ clear l 0) by (intros l0; rewrite <- (X h l0 0%nat), Nat.add_0_r; auto).
      rewrite X0, X, skipn_ge_app. reflexivity.
    - cbn. intros e surf' [<-|[]]; cbn; discriminate.
    - cbn. intros e [<-|[]]. repeat split. }
  destruct En as [(h1 & t1 & A & B & C & D)|[(A & B)|[(A & B)|(A & B)]]]; rewrite A in Q; rewrite B.
  2-4: injection Q as <- <- <-; split; [reflexivity|split; [intros [b W]|intros W]; discriminate].
  destruct (ht_elems t1) as [|e0 l] eqn:El; [contradiction|].
  cbn [erase tr_elems set_elems]. rewrite El. cbn [map].
  specialize (N (he_val (last l e0)) h1). rewrite map_last in N, Q.
  destruct (new_h (last (map he_val l) (he_val e0)) h1) as [h2 r2]. unfold new_effect in N. cbn [fst snd] in N.
  destruct r2 as [[e|]| | | |].
  - destruct N as (N1 & N2 & N3 & N6 & N4 & N5). rewrite N1. injection Q as <- <- <-. split.
    { unfold erase. cbn. rewrite El, ?map_app. reflexivity. }
    split; [|discriminate]. intros _. cbn [ht_elems hset_elems]. subst h2. apply (inv_new h0 h1 (e0 :: l) lost surf); auto.
  - destruct N as (N1 & ->). rewrite N1. injection Q as <- <- <-. split; [reflexivity|]. split; [|discriminate].
    rewrite El. auto.
  - destruct N as (N1 & N2). rewrite N1. injection Q as <- <- <-. split; [reflexivity|].
    split; [intros [b W]; discriminate|]. intros _. rewrite El. destruct N2 as [[U ->]|[U ->]]; [left|right]; split; auto.
    apply inv_leak; auto.
  - rewrite N. injection Q as <- <- <-. split; [reflexivity|split; [intros [b W]|intros W]; discriminate].
  - rewrite N. injection Q as <- <- <-. split; [reflexivity|split; [intros [b W]|intros W]; discriminate].
  - rewrite N. injection Q as <- <- <-. split; [reflexivity|split; [intros [b W]|intros W]; discriminate].
Qed.
