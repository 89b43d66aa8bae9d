(** Memory: preparation for fitting, histories. *)
From Coq Require Import Reals List Bool ZArith Lia Permutation.
From Verif Require Import Num Vec Helix Isect Trans Material Traj SpecTraj SpecThrow ThrowFacts TrajFacts Heap SpecHeap HeapFacts HeapFacts2.
Import ListNotations.
Open Scope R_scope.

Lemma inv_jac_leak h0 h es lost : inv h0 h es lost -> inv h0 (h ++ [Some KJac]) es (lost ++ [KJac]).
Proof.
  intros I. rewrite <- (app_nil_r es). apply inv_append; auto.
  - constructor.
  - intros a k [].
  - cbn. rewrite skipn_ge_app. reflexivity.
  - intros e [].
Qed.

Definition with_jac (e : helem) (j : mat5) (a : nat) : helem :=
  HE (setJacobian (he_val e) j) (he_self e) (he_params e) (he_dirs e) (he_frame e) (he_proj e) (Some a).

Definition but_jac (e : helem) : list (nat * kind) :=
  opt_own KFrame (he_frame e) ++ opt_own KDirs (he_dirs e)
  ++ opt_own KProj (he_proj e) ++ opt_own KParams (Some (he_params e)) ++ opt_own KElem (Some (he_self e)).

Lemma own_jac e : Permutation (owned1 e) (opt_own KJac (he_jac e) ++ but_jac e).
Proof.
  rewrite owned1_opt. unfold but_jac. rewrite !app_assoc. do 3 apply Permutation_app_tail.
  rewrite <- (app_assoc (opt_own KJac (he_jac e))). apply Permutation_app_comm.
Qed.

(** swapping the Jacobian *)
Lemma setjac_inv h0 h pre e post lost j : inv h0 h (pre ++ e :: post) lost ->
  exists h', mbind (malloc KJac) (fun a => hSetJacobian e j a) h = (h', Ok (with_jac e j (length h)))
    /\ inv h0 h' (pre ++ with_jac e j (length h) :: post) lost.
Proof.
  intros I. assert (I1 : inv h0 h (e :: pre ++ post) lost).
  { eapply inv_perm; [|exact I]. symmetry. apply Permutation_middle. }
  clear I. set (rest := but_jac e ++ flat_map owned1 (pre ++ post)).
  assert (P : Permutation (flat_map owned1 (e :: pre ++ post)) (opt_own KJac (he_jac e) ++ rest)).
  { cbn [flat_map]. unfold rest. rewrite app_assoc. apply Permutation_app_tail. apply own_jac. }
  assert (P' : Permutation (flat_map owned1 (with_jac e j (length h) :: pre ++ post)) ((length h, KJac) :: rest)).
  { cbn [flat_map]. unfold rest. change ((length h, KJac) :: but_jac e ++ flat_map owned1 (pre ++ post))
      with (((length h, KJac) :: but_jac e) ++ flat_map owned1 (pre ++ post)).
    apply Permutation_app_tail. apply (own_jac (with_jac e j (length h))). }
  assert (Ilt := fun a k => inv_lt h0 h _ lost a k I1).
  destruct I1 as [[tail Eh] B C D F G0].
  assert (B1 := Permutation_NoDup (Permutation_map fst P) B).
  assert (C1 : forall a k, In (a, k) (opt_own KJac (he_jac e) ++ rest) ->
             (length h0 <= a < length h)%nat /\ nth_error h a = Some (Some k)).
  { intros a k J. apply (Permutation_in _ (Permutation_sym P)) in J. destruct (C _ _ J). specialize (Ilt _ _ J). repeat split; auto; lia. }
  rewrite (clearAll_perm _ _ _ (Permutation_map fst P)) in D. rewrite map_app in B1, D.
  set (h' := match he_jac e with Some a => clear (h ++ [Some KJac]) a | None => h ++ [Some KJac] end).
  assert (Lh' : length h' = (length h + 1)%nat).
  { unfold h'. destruct (he_jac e); rewrite ?clear_length, app_length; reflexivity. }
  assert (Rlow : forall a, In a (map fst rest) -> (length h0 <= a < length h)%nat).
  { intros a J. apply in_map_iff in J. destruct J as ([b k] & <- & J). apply (C1 b k). apply in_app_iff. auto. }
  assert (Ncell : forall a, In a (map fst rest) -> nth_error h' a = nth_error h a).
  { intros a J. specialize (Rlow _ J). unfold h'. destruct (he_jac e) as [o|] eqn:Ej.
    - rewrite clear_other; [rewrite nth_error_app1; auto; lia|].
      cbn [opt_own map fst app] in B1. inversion B1. intros ->. contradiction.
    - rewrite nth_error_app1; auto; lia. }
  exists h'. split.
  { unfold mbind at 1, malloc, hSetJacobian, mbind, h'. destruct (he_jac e) as [o|] eqn:Ej; cbn [mfreeOpt].
    - rewrite (mfree_ok KJac o).
      + reflexivity.
      + destruct (C1 o KJac) as [L E]; [cbn; auto|]. rewrite nth_error_app1; auto; lia.
    - reflexivity. }
  eapply inv_perm; [apply Permutation_middle|]. split.
  - subst h. unfold h'. destruct (he_jac e) as [o|] eqn:Ej.
    + destruct (C1 o KJac) as [L E]; [cbn; auto|].
      exists (clear (tail ++ [Some KJac]) (o - length h0)). rewrite <- app_assoc.
      assert (X : forall (h l : heap) n, (length h <= n)%nat -> clear (h ++ l) n = h ++ clear l (n - length h)).
      { clear. induction h; intros l n L; cbn in *; [f_equal; lia|]. destruct n; [lia|]. f_equal. apply IHh. lia. }
      apply X. lia.
    + exists (tail ++ [Some KJac]). rewrite app_assoc. auto.
  - eapply Permutation_NoDup; [symmetry; apply (Permutation_map fst P')|]. cbn [map fst]. constructor.
    + intros J. specialize (Rlow _ J). lia.
    + revert B1. clear. induction (map fst (opt_own KJac (he_jac e))); cbn; auto. intros Q. inversion Q. auto.
  - intros a k J. apply (Permutation_in _ P') in J. destruct J as [J|J].
    + injection J as <- <-. split; [subst h; rewrite app_length; lia|].
      unfold h'. destruct (he_jac e) as [o|] eqn:Ej.
      * destruct (C1 o KJac) as [L _]; [cbn; auto|]. rewrite clear_other by lia.
        rewrite nth_error_app2, Nat.sub_diag by lia. reflexivity.
      * rewrite nth_error_app2, Nat.sub_diag by lia. reflexivity.
    + destruct (C1 a k) as [L E]; [apply in_app_iff; auto|]. split; [lia|].
      rewrite Ncell; auto. apply in_map_iff. exists (a, k). auto.
  - rewrite (clearAll_perm _ _ _ (Permutation_map fst P')). cbn [map fst].
    assert (Eq : clearAll h' (length h :: map fst rest)
               = clearAll h (map fst (opt_own KJac (he_jac e)) ++ map fst rest) ++ [None]).
    { apply nth_error_ext. intros n. destruct (lt_eq_lt_dec n (length h)) as [[G|G]|G].
      - rewrite nth_error_app1 by (rewrite clearAll_length; auto).
        destruct (in_dec Nat.eq_dec n (map fst rest)) as [J|J].
        + rewrite !clearAll_in; auto; try lia; cbn; auto. apply in_app_iff; auto.
        + rewrite (clearAll_out (length h :: map fst rest)) by (cbn; intros [K|K]; [lia|auto]).
          unfold h'. destruct (he_jac e) as [o|] eqn:Ej; cbn [opt_own map fst app].
          * destruct (Nat.eq_dec n o) as [->|K].
            -- rewrite clear_same by (rewrite app_length; lia). rewrite clearAll_in; cbn; auto.
            -- rewrite clear_other by auto. rewrite clearAll_out by (cbn; intros [?|?]; auto).
               rewrite nth_error_app1; auto.
          * rewrite clearAll_out by auto. rewrite nth_error_app1; auto.
      - subst n. rewrite nth_error_app2 by (rewrite clearAll_length; auto).
        rewrite clearAll_length, Nat.sub_diag. cbn [nth_error]. apply clearAll_in; [cbn; auto|lia].
      - transitivity (@None (option kind)); [|symmetry]; apply nth_error_None;
          rewrite ?app_length, ?clearAll_length; cbn; lia. }
    rewrite Eq, skipn_app, clearAll_length. subst h.
    replace (length h0 - length (h0 ++ tail))%nat with 0%nat by (rewrite app_length; lia).
    rewrite live_app, D. cbn. apply app_nil_r.
  - intros e' surf [<-|J] S.
    + apply (F e); cbn; auto.
    + apply (F e'); cbn; auto.
  - intros e' [<-|J].
    + destruct (G0 e) as (A1 & A2 & A3 & _); [cbn; auto|]. unfold pointers_agree, with_jac. cbn.
      repeat split; auto; try apply A1; try apply A2; try apply A3; discriminate.
    + apply G0. cbn; auto.
Qed.

Lemma lossTerm_nt E mass e : (forall surf, te_surf e = Some surf -> ~ unusable surf) -> lossTerm E mass e <> Throw.
Proof.
  intros U. unfold lossTerm. destruct (te_scat e); [|discriminate].
  destruct (te_surf e) as [surf|]; [|discriminate]. specialize (U _ eq_refl).
  apply nt_bind.
  - unfold computeEnergyLoss_tp. apply nt_bind; [intros H; apply isect_throw in H; auto|].
    intros [[|] [s xx|]] _; try discriminate. nt.
  - intros [?|el] _; [discriminate|nt].
Qed.

Lemma tangent_nt t s : tr_tangentAt t s <> Throw.
Proof. unfold tr_tangentAt, trajectoryElementAt. destruct (tr_elems t); cbn; discriminate. Qed.

(** one pass of the loop *)
Lemma prepareOne_effect E t prevS e h h' r :
  (forall surf, te_surf (he_val e) = Some surf -> ~ unusable surf) ->
  hPrepareOne E t prevS e h = (h', r) ->
  (exists j, prepareOne E t prevS (he_val e) = Ok (setJacobian (he_val e) j)
     /\ (h', r) = mbind (malloc KJac) (fun a => hSetJacobian e j a) h)
  \/ (r = Throw /\ prepareOne E t prevS (he_val e) = Throw /\ h' = h ++ [Some KJac])
  \/ (r = UB /\ prepareOne E t prevS (he_val e) = UB)
  \/ (r = NonFin /\ prepareOne E t prevS (he_val e) = NonFin)
  \/ (r = Diverge /\ prepareOne E t prevS (he_val e) = Diverge).
Proof.
  intros U. unfold hPrepareOne, prepareOne. cbv zeta.
  assert (PS : forall A (x : res A) f g, x <> Throw ->
     (forall a, x = Ok a -> f a h = (h', r) ->
       (exists j, g a = Ok (setJacobian (he_val e) j) /\ (h', r) = mbind (malloc KJac) (fun a => hSetJacobian e j a) h)
       \/ (r = Throw /\ g a = Throw /\ h' = h ++ [Some KJac]) \/ (r = UB /\ g a = UB) \/ (r = NonFin /\ g a = NonFin)
       \/ (r = Diverge /\ g a = Diverge)) ->
     mbind (lift x) f h = (h', r) ->
       (exists j, bind x g = Ok (setJacobian (he_val e) j) /\ (h', r) = mbind (malloc KJac) (fun a => hSetJacobian e j a) h)
       \/ (r = Throw /\ bind x g = Throw /\ h' = h ++ [Some KJac]) \/ (r = UB /\ bind x g = UB) \/ (r = NonFin /\ bind x g = NonFin)
       \/ (r = Diverge /\ bind x g = Diverge)).
  { intros A x f g N H. unfold mbind at 1, lift. destruct x as [a| | | |]; cbn [bind]; try contradiction.
    - apply H; auto.
    - intros Q. injection Q as <- <-. right. right. left. auto.
    - intros Q. injection Q as <- <-. right. right. right. left. auto.
    - intros Q. injection Q as <- <-. right. right. right. right. auto. }
  apply PS; [apply nt_rdiv|]. intros dw _.
  apply PS; [apply lossTerm_nt; auto|]. intros nrj _.
  apply PS; [apply tangent_nt|]. intros ts _.
  apply PS; [apply tangent_nt|]. intros te _.
  clear PS. unfold mbind at 1, malloc at 1. destruct (tr_prop t) as [gj|].
  2:{ unfold lift. intros Q. injection Q as <- <-. right. right. left. auto. }
  match goal with |- context [lift ?x] => destruct x as [j| | | |] end; cbn [bind].
  - unfold mbind at 1, lift. intros Q. left. exists j. split; auto.
  - unfold mbind, lift. intros Q. injection Q as <- <-. right. left. auto.
  - unfold mbind, lift. intros Q. injection Q as <- <-. right. right. left. auto.
  - unfold mbind, lift. intros Q. injection Q as <- <-. right. right. right. left. auto.
  - unfold mbind, lift. intros Q. injection Q as <- <-. right. right. right. right. auto.
Qed.

Definition with_value {A B} (r : res A) (x : B) : res B :=
  match r with Ok _ => Ok x | Throw => Throw | UB => UB | NonFin => NonFin | Diverge => Diverge end.

Lemma prepareLoop_effect h0 E t l : forall prevS pre lost h h' l' r,
  inv h0 h (pre ++ l) lost -> hPrepareLoop E t prevS l h = (h', l', r) ->
  prepareLoop E t prevS (map he_val l) = with_value r (map he_val l')
  /\ (r = Ok tt -> inv h0 h' (pre ++ l') lost)
  /\ (r = Throw -> inv h0 h' (pre ++ l') (lost ++ [KJac])).
Proof.
  induction l as [|e l IH]; intros prevS pre lost h h' l' r I Q.
  - cbn in Q. injection Q as <- <- <-. split; [auto|split; [auto|discriminate]].
  - cbn [hPrepareLoop] in Q. destruct (hPrepareOne E t prevS e h) as [h1 r1] eqn:E1.
    assert (U : forall surf, te_surf (he_val e) = Some surf -> ~ unusable surf).
    { intros surf. apply (inv_usable _ _ _ _ I). apply in_app_iff. cbn; auto. }
    destruct (prepareOne_effect _ _ _ _ _ _ _ U E1) as [(j & A & B)|[(-> & A & ->)|[(-> & A)|[(-> & A)|(-> & A)]]]].
    2:{ injection Q as <- <- <-. cbn [map prepareLoop]. rewrite A. split; [auto|]. split; [discriminate|]. intros _.
        apply inv_jac_leak; auto. }
    2-4: injection Q as <- <- <-; cbn [map prepareLoop]; rewrite A; split; [reflexivity|]; split; discriminate.
    destruct (setjac_inv h0 h pre e l lost j I) as (h2 & C & D). rewrite C in B. injection B as -> ->.
    destruct (hPrepareLoop E t (te_s (he_val e)) l h2) as [[h3 l2] r2] eqn:E2. injection Q as <- <- <-.
    specialize (IH (te_s (he_val e)) (pre ++ [with_jac e j (length h)]) lost h2 h3 l2 r2).
    rewrite <- !app_assoc in IH. destruct (IH D E2) as (Z & X & Y).
    cbn [map prepareLoop]. rewrite A. cbn [bind with_jac he_val]. rewrite Z. split; [|auto].
    destruct r2; reflexivity.
Qed.

Lemma erase_elems t l : tr_elems (erase (hset_elems t l)) = map he_val l. Proof. auto. Qed.

Lemma prepare_effect h0 h E hsort t lost h' t' r : hsort_ok E hsort ->
  inv h0 h (ht_elems t) lost -> hPrepareForFitting E hsort t h = (h', t', r) ->
  prepareForFitting E (erase t) = with_value r (erase t')
  /\ (r = Ok tt -> inv h0 h' (ht_elems t') lost)
  /\ (r = Throw -> inv h0 h' (ht_elems t') (lost ++ [KJac])).
Proof.
  intros HS I Q. unfold hPrepareForFitting in Q. unfold prepareForFitting. cbv zeta in *.
  destruct (HS (ht_elems t)) as [P S]. cbn [erase tr_elems set_elems]. rewrite <- S.
  assert (I1 := inv_perm _ _ _ _ _ P I). cbn [ht_elems hset_elems] in Q.
  destruct (hsort (ht_elems t)) as [|e0 l] eqn:El.
  { injection Q as <- <- <-. split; [reflexivity|]. split; discriminate. }
  destruct (setjac_inv h0 h [] e0 l lost (m5Unit m5zero) I1) as (h1 & A & B). rewrite A in Q.
  destruct (hPrepareLoop E _ 0 l h1) as [[h2 l2] r2] eqn:E2. injection Q as <- <- <-.
  destruct (prepareLoop_effect h0 _ _ l 0 [with_jac e0 (m5Unit m5zero) (length h)] lost h1 h2 l2 r2 B E2) as (Z & X & Y).
  cbn [ht_elems hset_elems map]. split; [|auto].
  unfold erase in Z |- *. unfold set_elems in *. cbn in Z |- *. rewrite Z. destruct r2; reflexivity.
Qed.

Lemma isectAll_ref t t' maxS : tr_ref t = tr_ref t' -> forall l acc, isectAll t maxS acc l = isectAll t' maxS acc l.
Proof.
  intros R. induction l as [|s l IH]; intros acc; auto. cbn [isectAll]. unfold isectOne. rewrite R.
  match goal with |- bind ?a _ = bind ?b _ => destruct a end; cbn [bind]; auto.
Qed.

Lemma isect_erase E t l b : getIntersectionsWithSurfaces E (ht_base t) l = Ok b ->
  getIntersectionsWithSurfaces E (erase t) l = Ok (erase (HT b (ht_elems t))).
Proof.
  unfold getIntersectionsWithSurfaces. cbv zeta. cbn [erase tr_ref tr_isect set_elems].
  rewrite (isectAll_ref (erase t) (ht_base t) _ eq_refl).
  destruct isectAll; cbn [bind]; try discriminate. intros Q. injection Q as <-. reflexivity.
Qed.

(** * Histories *)
Lemma step_effect h0 E hsort h t c h' t' lost : hsort_ok E hsort -> inv h0 h (ht_elems t) lost ->
  hstep E hsort h t c h' t' -> exists l, leaves c l /\ inv h0 h' (ht_elems t') (lost ++ l).
Proof.
  intros HS I S. destruct S.
  - destruct (push_effect h0 h t lost surf _ _ _ _ _ I (fun las h => newMeasurement_effect E (tr_mass (ht_base t)) las position precision surf id sc h) H) as (_ & A & _).
    exists []. rewrite app_nil_r. split; [constructor|eauto].
  - destruct (push_effect h0 h t lost surf _ _ _ _ _ I (fun las h => newMeasurement_effect E (tr_mass (ht_base t)) las position precision surf id sc h) H) as (_ & _ & A).
    destruct (A eq_refl) as [[U B]|[U B]]; eexists; split; try (rewrite app_nil_r; exact B); try exact B; constructor; auto.
  - destruct (push_effect h0 h t lost surf _ _ _ _ _ I (fun las h => newScatterer_effect E (tr_mass (ht_base t)) las surf h) H) as (_ & A & _).
    exists []. rewrite app_nil_r. split; [constructor|eauto].
  - destruct (push_effect h0 h t lost surf _ _ _ _ _ I (fun las h => newScatterer_effect E (tr_mass (ht_base t)) las surf h) H) as (_ & _ & A).
    destruct (A eq_refl) as [[U B]|[U B]]; eexists; split; try (rewrite app_nil_r; exact B); try exact B; constructor; auto.
  - destruct (prepare_effect _ _ _ _ _ _ _ _ _ HS I H) as (_ & A & _). exists []. rewrite app_nil_r. split; [constructor|]. apply A; auto.
  - destruct (prepare_effect _ _ _ _ _ _ _ _ _ HS I H) as (_ & _ & A). exists [KJac]. split; [constructor|]. apply A; auto.
  - exists []. rewrite app_nil_r. split; [constructor|auto].
  - exists []. rewrite app_nil_r. split; [constructor|auto].
Qed.

Lemma leaves_fun c l l' : leaves c l -> leaves c l' -> l = l'.
Proof. intros A B. destruct A; inversion B; subst; auto; contradiction. Qed.

Lemma hist_inv E hsort h0 tp pm cs h t : hsort_ok E hsort -> hhist E hsort h0 tp pm cs h t ->
  exists lost, all_leave cs lost /\ inv h0 h (ht_elems t) lost.
Proof.
  intros HS H. induction H.
  - exists []. split; [constructor|]. split; cbn.
    + exists []. symmetry. apply app_nil_r.
    + constructor.
    + intros a k [].
    + rewrite skipn_all. reflexivity.
    + intros e surf [].
    + intros e [].
  - destruct IHhhist as (lost & A & I). destruct (step_effect h0 _ _ _ _ _ _ _ lost HS I H0) as (l & L & J).
    exists (lost ++ l). split; [econstructor; eauto|auto].
Qed.

Lemma app1_inj {A} (l l' : list A) x y : l ++ [x] = l' ++ [y] -> l = l' /\ x = y.
Proof. intros H. apply app_inj_tail in H. auto. Qed.

Lemma all_leave_fun cs l : all_leave cs l -> forall l', all_leave cs l' -> l = l'.
Proof.
  induction 1; intros l2 B.
  - inversion B; subst; auto. destruct cs; discriminate.
  - inversion B; subst.
    + destruct cs; discriminate.
    + apply app1_inj in H1. destruct H1 as [-> ->]. rewrite (IHall_leave _ H2), (leaves_fun _ _ _ H0 H3). auto.
Qed.
