(** Properties C46 (geometry singleton), C47 (list of surfaces), C50 (surface
    types). *)
From Coq Require Import Reals List Bool ZArith NArith Lra Lia Permutation Sorted.
From Flocq Require Import Core.
From Verif Require Import Num Vec Isect LCIOFloat PropLCIOFloat Geom SpecGeom.
Import ListNotations.
Open Scope R_scope.

Local Instance vfe32' : Valid_exp (FLT_exp (-149) 24) := vfe32.

(** ** C50 *)

Theorem C50_similar : forall a b : sbits,
  isSimilar a b = true <-> (forall p, has b p -> has a p).
Proof.
  intros a b. unfold isSimilar, has. rewrite N.eqb_eq. split.
  - intros H p Hp. rewrite <- H, N.land_spec in Hp. apply andb_true_iff in Hp. tauto.
  - intros H. apply N.bits_inj. intros p. rewrite N.land_spec.
    destruct (N.testbit b p) eqn:B; [rewrite (H p B)|]; reflexivity.
Qed.
Print Assumptions C50_similar.

Theorem C50_similar_order : forall a b c : sbits,
  isSimilar a a = true
  /\ (isSimilar a b = true -> isSimilar b c = true -> isSimilar a c = true)
  /\ (isSimilar a b = true -> isSimilar b a = true -> a = b).
Proof.
  intros a b c. rewrite !C50_similar. repeat split; auto.
  intros H1 H2. apply N.bits_inj. intros p. unfold has in *.
  specialize (H1 p). specialize (H2 p). destruct (N.testbit a p), (N.testbit b p); auto.
  - symmetry. auto.
Qed.
Print Assumptions C50_similar_order.

(** setting one property: that bit becomes [val], the others stay; numbers of
    32 and more throw *)
Theorem C50_set : forall (b : sbits) p val,
  ((p < 32)%N <-> exists b', setProperty b p val = Ok b')
  /\ ((32 <= p)%N <-> setProperty b p val = Throw)
  /\ (forall b', setProperty b p val = Ok b' ->
        forall q, N.testbit b' q = if N.eqb q p then val else N.testbit b q).
Proof.
  intros b p val. unfold setProperty, bset. destruct (N.ltb_spec p 32) as [H|H].
  - split; [|split].
    + split; eauto.
    + split; [lia|discriminate].
    + intros b' E q. injection E as <-. destruct (N.eqb_spec q p) as [->|Q]; destruct val.
      * apply N.setbit_eq. * apply N.clearbit_eq.
      * apply N.setbit_neq; auto. * apply N.clearbit_neq; auto.
  - split; [|split].
    + split; [lia|intros [? E]; discriminate].
    + split; auto.
    + discriminate.
Qed.
Print Assumptions C50_set.

Lemma bsetAll_spec props : forall b,
  (List.Forall (fun p => (p < 32)%N) props -> exists b', bsetAll b props = Ok b'
     /\ forall q, has b' q <-> has b q \/ In q props)
  /\ (~ List.Forall (fun p => (p < 32)%N) props -> bsetAll b props = Throw).
Proof.
  induction props as [|p ps IH]; intros b; cbn [bsetAll].
  - split; [|intros H; exfalso; apply H; constructor]. intros _. exists b. split; auto. cbn. tauto.
  - destruct (C50_set b p true) as (A & T & V). unfold setProperty in *.
    destruct (N.lt_ge_cases p 32) as [L|L].
    + destruct (proj1 A L) as [b1 E]. rewrite E. cbn [bind]. specialize (V b1 E). destruct (IH b1) as [I1 I2]. split.
      * intros F. inversion F; subst. destruct (I1 H2) as (b' & E' & Q). exists b'. split; auto.
        intros q. rewrite Q. unfold has. rewrite V. cbn [In]. destruct (N.eqb_spec q p) as [->|]; intuition congruence.
      * intros F. apply I2. intros G. apply F. constructor; auto.
    + rewrite (proj1 T L). cbn [bind]. split; auto.
      intros F. inversion F; subst. lia.
Qed.

Lemma dec32 props : {List.Forall (fun p => (p < 32)%N) props} + {~ List.Forall (fun p => (p < 32)%N) props}.
Proof.
  apply Forall_dec. intros p. destruct (N.ltb p 32) eqn:L; [left; apply N.ltb_lt|right; apply N.ltb_ge in L; lia]; auto.
Defined.

(** constructing from properties: exactly these are set, in whatever order they
    are given; with a property number of 32 or more the constructor throws *)
Theorem C50_construct : forall props,
  (List.Forall (fun p => (p < 32)%N) props ->
     exists b, mkSurfaceType props = Ok b /\ (forall q, has b q <-> In q props))
  /\ (~ List.Forall (fun p => (p < 32)%N) props -> mkSurfaceType props = Throw)
  /\ (forall props', Permutation props props' -> mkSurfaceType props = mkSurfaceType props').
Proof.
  intros props. unfold mkSurfaceType. destruct (bsetAll_spec props 0%N) as [A B]. split; [|split]; auto.
  - intros F. destruct (A F) as (b & E & Q). exists b. split; auto. intros q. rewrite Q.
    unfold has. rewrite N.bits_0. intuition discriminate.
  - intros props' P.
    destruct (bsetAll_spec props' 0%N) as [A' B'].
    assert (D : {List.Forall (fun p => (p < 32)%N) props} + {~ List.Forall (fun p => (p < 32)%N) props})
      by apply dec32.
    destruct D as [F|F].
    + assert (F' : List.Forall (fun p => (p < 32)%N) props') by (eapply Permutation_Forall; eauto).
      destruct (A F) as (b & E & Q). destruct (A' F') as (b' & E' & Q'). rewrite E, E'. f_equal.
      apply N.bits_inj. intros q. apply eq_true_iff_eq. fold (has b q) (has b' q). rewrite Q, Q'.
      assert (In q props <-> In q props') by (split; apply Permutation_in; auto using Permutation_sym). tauto.
    + rewrite (B F), B'; auto. intros F'. apply F. eapply Permutation_Forall; [apply Permutation_sym|]; eauto.
Qed.
Print Assumptions C50_construct.

(** the queries on a type constructed from properties *)
Theorem C50_queries : forall props b, mkSurfaceType props = Ok b ->
  (bIsSensitive b = true <-> In pSensitive props)
  /\ (bIsHelper b = true <-> In pHelper props)
  /\ (bIsPlane b = true <-> In pPlane props)
  /\ (bIsCylinder b = true <-> In pCylinder props)
  /\ (bIsParallelToZ b = true <-> In pParallelToZ props)
  /\ (bIsOrthogonalToZ b = true <-> In pOrthogonalToZ props)
  /\ (bIsVisible b = true <-> ~ In pInvisible props)
  /\ (bIsZCylinder b = true <-> In pCylinder props /\ In pParallelToZ props)
  /\ (bIsZPlane b = true <-> In pPlane props /\ In pParallelToZ props)
  /\ (bIsZDisk b = true <-> In pPlane props /\ In pOrthogonalToZ props).
Proof.
  intros props b E. destruct (C50_construct props) as (A & B & _).
  assert (D : {List.Forall (fun p => (p < 32)%N) props} + {~ List.Forall (fun p => (p < 32)%N) props})
    by apply dec32.
  destruct D as [F|F]; [|rewrite (B F) in E; discriminate].
  destruct (A F) as (b' & E' & Q). rewrite E in E'. injection E' as <-. unfold has in Q.
  unfold bIsSensitive, bIsHelper, bIsPlane, bIsCylinder, bIsParallelToZ, bIsOrthogonalToZ, bIsVisible,
    bIsZCylinder, bIsZPlane, bIsZDisk.
  rewrite !andb_true_iff, negb_true_iff, <- not_true_iff_false, !Q. tauto.
Qed.
Print Assumptions C50_queries.

Definition is_unit (n : vec3) : Prop := vdot n n = 1.

Lemma proj_z n : vdot n (V3 0 0 1) = vz n.
Proof. unfold vdot. cbn. ring. Qed.

(** the two checks: what they return, which bit they cache (no other changes),
    and that up to an accuracy of 1/2 they exclude each other *)
Theorem C50_checks : forall b n eps,
  (exists p b1, checkParallelToZ b n eps = Ok (p, b1) /\ (p = true <-> Rabs (vz n) < eps)
     /\ bIsParallelToZ b1 = p /\ (forall q, q <> pParallelToZ -> N.testbit b1 q = N.testbit b q))
  /\ (exists o b2, checkOrthogonalToZ b n eps = Ok (o, b2) /\ (o = true <-> Rabs (Rabs (vz n) - 1) < eps)
     /\ bIsOrthogonalToZ b2 = o /\ (forall q, q <> pOrthogonalToZ -> N.testbit b2 q = N.testbit b q))
  /\ (forall p b1 o b2, eps <= 1 / 2 -> checkParallelToZ b n eps = Ok (p, b1) ->
        checkOrthogonalToZ b n eps = Ok (o, b2) -> p && o = false).
Proof.
  intros b n eps.
  assert (X : exists p b1, checkParallelToZ b n eps = Ok (p, b1) /\ (p = true <-> Rabs (vz n) < eps)
     /\ bIsParallelToZ b1 = p /\ (forall q, q <> pParallelToZ -> N.testbit b1 q = N.testbit b q)).
  { unfold checkParallelToZ. rewrite proj_z.
    destruct (C50_set b pParallelToZ (rltb (Rabs (vz n)) eps)) as (A & _ & V). unfold setProperty in *.
    destruct (proj1 A) as [b1 E]; [reflexivity|]. rewrite E. cbn [bind]. specialize (V b1 E).
    do 2 eexists. split; [reflexivity|]. split; [|split; [reflexivity|]].
    - rewrite V, N.eqb_refl. unfold rltb. destruct (Rlt_dec (Rabs (vz n)) eps); intuition discriminate.
    - intros q Q. rewrite V. destruct (N.eqb_spec q pParallelToZ); congruence. }
  assert (Y : exists o b2, checkOrthogonalToZ b n eps = Ok (o, b2) /\ (o = true <-> Rabs (Rabs (vz n) - 1) < eps)
     /\ bIsOrthogonalToZ b2 = o /\ (forall q, q <> pOrthogonalToZ -> N.testbit b2 q = N.testbit b q)).
  { unfold checkOrthogonalToZ. rewrite proj_z.
    destruct (C50_set b pOrthogonalToZ (rltb (Rabs (Rabs (vz n) - 1)) eps)) as (A & _ & V). unfold setProperty in *.
    destruct (proj1 A) as [b1 E]; [reflexivity|]. rewrite E. cbn [bind]. specialize (V b1 E).
    do 2 eexists. split; [reflexivity|]. split; [|split; [reflexivity|]].
    - rewrite V, N.eqb_refl. unfold rltb. destruct (Rlt_dec (Rabs (Rabs (vz n) - 1)) eps); intuition discriminate.
    - intros q Q. rewrite V. destruct (N.eqb_spec q pOrthogonalToZ); congruence. }
  split; [exact X|]. split; [exact Y|]. intros p b1 o b2 L E1 E2.
  destruct X as (p' & b1' & E1' & P & _). destruct Y as (o' & b2' & E2' & O & _).
  rewrite E1 in E1'. injection E1' as <- <-. rewrite E2 in E2'. injection E2' as <- <-.
  destruct p, o; auto. exfalso. assert (P1 := proj1 P eq_refl). assert (O1 := proj1 O eq_refl).
  unfold Rabs in O1 at 1. destruct (Rcase_abs (Rabs (vz n) - 1)); lra.
Qed.
Print Assumptions C50_checks.

(** the bound 1/2 is sharp, also for unit normals *)
Theorem C50_half_sharp : forall eps, 1 / 2 < eps -> exists n b p b1 o b2, is_unit n
  /\ checkParallelToZ b n eps = Ok (p, b1) /\ checkOrthogonalToZ b n eps = Ok (o, b2) /\ p && o = true.
Proof.
  intros eps H. exists (V3 (sqrt (3 / 4)) 0 (1 / 2)), 0%N.
  assert (A : Rabs (1 / 2) < eps) by (rewrite Rabs_pos_eq; lra).
  assert (B : Rabs (Rabs (1 / 2) - 1) < eps) by (rewrite (Rabs_pos_eq (1 / 2)) by lra; rewrite Rabs_left; lra).
  destruct (C50_checks 0%N (V3 (sqrt (3 / 4)) 0 (1 / 2)) eps) as ((p & b1 & E1 & P & _) & (o & b2 & E2 & O & _) & _).
  cbn [vz] in *. exists p, b1, o, b2. split; [|split; [|split]]; auto.
  - unfold is_unit, vdot. cbn. rewrite sqrt_sqrt; lra.
  - rewrite (proj2 P A), (proj2 O B). reflexivity.
Qed.
Print Assumptions C50_half_sharp.

Example ex_sensitive_plane : exists b, mkSurfaceType [pSensitive; pPlane; pParallelToZ] = Ok b
  /\ bIsZPlane b = true /\ bIsZDisk b = false /\ bIsSensitive b = true /\ bIsVisible b = true
  /\ mkSurfaceType [pParallelToZ; pSensitive; pPlane] = Ok b /\ isSimilar b 6%N = true /\ isSimilar 6%N b = false.
Proof. exists 22%N. repeat split. Qed.
Example ex_prop32 : mkSurfaceType [pPlane; 32%N] = Throw.
Proof. reflexivity. Qed.

(** ** C47 *)

Lemma policy_value s x : sort_value s x -> getSortingPolicy s = Ok (rndf x).
Proof.
  unfold sort_value, getSortingPolicy. cbv zeta. unfold isZCylinder, isZPlane, isZDisk, isZCone.
  destruct (st_cylinder _ && _)%bool; [intros (c & ->); auto|].
  destruct (st_plane _ && _)%bool; [intros ->; auto|].
  destruct (st_plane _ && _)%bool; [intros ->; auto|].
  destruct (st_cone _ && _)%bool; [intros (r0 & r1 & -> & ->); auto|]. intros ->; auto.
Qed.

Lemma policy_inv s y : getSortingPolicy s = Ok y -> exists x, sort_value s x /\ y = rndf x.
Proof.
  unfold sort_value, getSortingPolicy. cbv zeta. unfold isZCylinder, isZPlane, isZDisk, isZCone.
  destruct (st_cylinder _ && _)%bool.
  { destruct (sf_cyl (ds_surf s)) as [[r c]|]; [|discriminate]. intros E. injection E as <-. eauto. }
  destruct (st_plane _ && _)%bool; [intros E; injection E as <-; eauto|].
  destruct (st_plane _ && _)%bool; [intros E; injection E as <-; eauto|].
  destruct (st_cone _ && _)%bool.
  { destruct (ds_cone s) as [[r0 r1]|]; [|discriminate]. intros E. injection E as <-. eexists. split; eauto. }
  intros E; injection E as <-; eauto.
Qed.

Lemma rndf_le x y : x <= y -> rndf x <= rndf y.
Proof. intros H. apply round_le; auto with typeclass_instances. Qed.

(** Lists of two or more surfaces: if the sorting value of every surface is
    defined the constructor makes a permutation of the detector's list, in which
    a surface precedes one with a smaller sorting value only if the two values
    are the same float.  Otherwise (a surface of type cylinder or cone without
    that interface) a null pointer is dereferenced.  Shorter lists are copied. *)
Theorem C47_sorted : forall srt sL, dsort_ok srt ->
  ((exists s, In s sL /\ ~ (exists x, sort_value s x)) -> (2 <= length sL)%nat -> sortedSurfaces srt sL = UB)
  /\ ((forall s, In s sL -> exists x, sort_value s x) \/ (length sL < 2)%nat ->
      exists l, sortedSurfaces srt sL = Ok l /\ Permutation sL l
        /\ (forall l1 a l2 b l3 x y, l = l1 ++ a :: l2 ++ b :: l3 -> sort_value a x -> sort_value b y ->
              x <= y \/ (y < x /\ rndf x = rndf y))).
Proof.
  intros srt sL K.
  assert (PD : forall s, policy_defined s = true <-> exists x, sort_value s x).
  { intros s. unfold policy_defined. split.
    - intros H. destruct (getSortingPolicy s) eqn:E; try discriminate. destruct (policy_inv _ _ E) as (x & ? & _). eauto.
    - intros [x V]. rewrite (policy_value _ _ V). auto. }
  split.
  - intros (s & I & N) L. unfold sortedSurfaces. destruct sL as [|a [|b sL]]; try (cbn in L; lia).
    assert (F : forallb policy_defined (a :: b :: sL) = false).
    { apply not_true_iff_false. intros F. rewrite forallb_forall in F. apply N. apply PD. auto. }
    rewrite F. auto.
  - intros H. destruct (Nat.lt_ge_cases (length sL) 2) as [L|L].
    + assert (E : sortedSurfaces srt sL = Ok sL) by (destruct sL as [|a [|b sL]]; auto; cbn in L; lia).
      exists sL. split; auto. split; auto. intros l1 a l2 b l3 x y Q. exfalso.
      apply (f_equal (@length _)) in Q. rewrite app_length in Q. cbn in Q. rewrite app_length in Q. cbn in Q. lia.
    + destruct H as [H|H]; [|lia].
      assert (F : List.Forall (fun s => policy_defined s = true) sL).
      { apply List.Forall_forall. intros s I. apply PD. auto. }
      destruct (K sL F) as [P S].
      exists (srt sL). split.
      { unfold sortedSurfaces. destruct sL as [|a [|b sL]]; try (cbn in L; lia).
        replace (forallb policy_defined (a :: b :: sL)) with true; auto. symmetry. apply forallb_forall.
        rewrite List.Forall_forall in F. auto. }
      split; auto. intros l1 a l2 b l3 x y Q Va Vb.
      rewrite Q in S. clear - S Va Vb.
      assert (R : sortSurfaces b a = Ok false).
      { induction l1 as [|c l1 IH]; cbn in S; inversion S as [|? ? S1 S2]; subst.
        - rewrite List.Forall_forall in S2. apply S2. apply in_or_app. right. left. auto.
        - auto. }
      unfold sortSurfaces in R. rewrite (policy_value _ _ Va), (policy_value _ _ Vb) in R. cbn [bind] in R.
      unfold rltb in R. destruct (Rlt_dec (rndf y) (rndf x)) as [G|G]; [discriminate|].
      destruct (Rle_lt_dec x y) as [?|G2]; auto. right. split; auto.
      apply Rle_antisym; [lra|]. apply rndf_le. lra.
Qed.
Print Assumptions C47_sorted.

(** an insertion sort satisfies the contract *)
Definition dkey (s : dsurface) : R := match getSortingPolicy s with Ok y => y | _ => 0 end.
Fixpoint dinsert (a : dsurface) (l : list dsurface) : list dsurface :=
  match l with
  | [] => [a]
  | b :: l' => if Rle_dec (dkey a) (dkey b) then a :: l else b :: dinsert a l'
  end.
Fixpoint disort (l : list dsurface) : list dsurface :=
  match l with [] => [] | a :: l' => dinsert a (disort l') end.

Lemma dinsert_perm a l : Permutation (a :: l) (dinsert a l).
Proof.
  induction l as [|b l IH]; cbn; auto. destruct (Rle_dec _ _); auto.
  eapply perm_trans; [apply perm_swap|]. constructor. auto.
Qed.
Lemma disort_perm l : Permutation l (disort l).
Proof. induction l; cbn; auto. eapply perm_trans; [|apply dinsert_perm]. constructor. auto. Qed.
Lemma dinsert_sorted a l : StronglySorted (fun a b => dkey a <= dkey b) l ->
  StronglySorted (fun a b => dkey a <= dkey b) (dinsert a l).
Proof.
  induction l as [|b l IH]; intros S; cbn; [repeat constructor|].
  inversion S as [|? ? S1 S2]; subst. destruct (Rle_dec _ _).
  - constructor; auto. constructor; auto. rewrite List.Forall_forall in *. intros x I. specialize (S2 x I). lra.
  - constructor; auto. apply List.Forall_forall. intros x I.
    assert (In x (a :: l)) by (eapply Permutation_in; [apply Permutation_sym, dinsert_perm|auto]).
    destruct H as [<-|H]; [lra|]. rewrite List.Forall_forall in S2. auto.
Qed.
Lemma disort_ok : dsort_ok disort.
Proof.
  intros l F. split; [apply disort_perm|].
  assert (S : StronglySorted (fun a b => dkey a <= dkey b) (disort l)).
  { clear F. induction l; cbn; [constructor|]. apply dinsert_sorted. auto. }
  assert (F' : List.Forall (fun s => policy_defined s = true) (disort l))
    by (eapply Permutation_Forall; [apply disort_perm|auto]).
  induction S as [|a l' S IH Q]; constructor; inversion F'; subst; auto.
  rewrite List.Forall_forall in *. intros b I. specialize (Q b I). unfold sortSurfaces, dkey in *.
  assert (B : policy_defined b = true) by auto. unfold policy_defined in *.
  destruct (getSortingPolicy a), (getSortingPolicy b); try discriminate. cbn.
  unfold rltb. destruct (Rlt_dec a1 a0); auto. lra.
Qed.

(** surfaces of all kinds *)
Definition gsurf (t : surfType) (cyl : option (R * vec3)) (o : vec3) (lu lv : R) (cone : option (R * R)) : dsurface :=
  DS (Surf 0 t cyl (fun _ => true) (fun _ => V3 1 0 0) (fun _ => V3 0 1 0) (fun _ => V3 0 0 1)
        (fun _ => (0, 0)) (fun _ => v3zero) o (Mat 0 0 0 1) (Mat 0 0 0 1) 0 0 (fun _ => 0)) lu lv cone.
Definition gcyl (r : R) : dsurface := gsurf (ST true false false true false) (Some (r, v3zero)) v3zero 1 1 None.
Definition gdisk (lu lv : R) : dsurface := gsurf (ST false true false false true) None v3zero lu lv None.
Definition gcone (r0 r1 : R) : dsurface := gsurf (ST false false true true false) None v3zero 1 1 (Some (r0, r1)).
Definition gplane (x y : R) : dsurface := gsurf (ST false true false true false) None (V3 x y 0) 1 1 None.

Example ex_values : sort_value (gcyl 5) 5 /\ sort_value (gdisk 3 8) 4 /\ sort_value (gcone 2 7) 7
  /\ sort_value (gplane 3 4) 5.
Proof.
  unfold sort_value. cbn. split; [eauto|]. split; [rewrite Rmax_right; lra|].
  split; [exists 2, 7; split; auto; rewrite Rmax_right; lra|].
  unfold vtrans. cbn. replace (3 * 3 + 4 * 4) with (5 * 5) by ring. rewrite sqrt_square; lra.
Qed.

Lemma rndf_small_int n : (0 <= n < 16777216)%Z -> rndf (IZR n) = IZR n.
Proof.
  intros H. apply rndf_id. apply generic_format_FLT. exists (Float radix2 n 0).
  - unfold F2R. cbn. ring.
  - cbn [Fnum]. change (Zpower radix2 24) with 16777216%Z. lia.
  - cbn. lia.
Qed.

Example ex_sorted_list : exists l, sortedSurfaces disort [gcone 2 7; gplane 3 4; gdisk 3 8; gcyl 6] = Ok l
  /\ l = [gdisk 3 8; gplane 3 4; gcyl 6; gcone 2 7].
Proof.
  eexists. split; [reflexivity|].
  destruct ex_values as (V1 & V2 & V3 & V4).
  assert (V1' : sort_value (gcyl 6) 6) by (unfold sort_value; cbn; eauto).
  assert (K : forall s x, sort_value s x -> dkey s = rndf x) by (intros s x V; unfold dkey; now rewrite (policy_value _ _ V)).
  assert (K1 := K _ _ V1'). assert (K2 := K _ _ V2). assert (K3 := K _ _ V3). assert (K4 := K _ _ V4).
  rewrite rndf_small_int in K1, K2, K3, K4 by lia.
  cbn [disort dinsert].
  rewrite K1, K2. destruct (Rle_dec 4 6); [|lra]. cbn [dinsert]. rewrite K4, K2, K1.
  destruct (Rle_dec 5 4); [lra|]. destruct (Rle_dec 5 6); [|lra]. cbn [dinsert]. rewrite K3, K2, K4, K1.
  destruct (Rle_dec 7 4); [lra|]. destruct (Rle_dec 7 5); [lra|]. destruct (Rle_dec 7 6); [lra|]. reflexivity.
Qed.

Example ex_bad_cylinder srt : sortedSurfaces srt
  [gcyl 5; gsurf (ST true false false true false) None v3zero 1 1 None] = UB.
Proof. reflexivity. Qed.

(** The order is that of the floats: there is a sort within its contract that
    leaves a larger cylinder in front of a smaller one. *)
Theorem C47_exact_order_refuted : exists srt a b x y, dsort_ok srt
  /\ sortedSurfaces srt [a; b] = Ok [a; b] /\ sort_value a x /\ sort_value b y /\ y < x.
Proof.
  exists disort, (gcyl (1 + / 2199023255552)), (gcyl 1), (1 + / 2199023255552), 1.
  assert (Va : sort_value (gcyl (1 + / 2199023255552)) (1 + / 2199023255552)) by (unfold sort_value; cbn; eauto).
  assert (Vb : sort_value (gcyl 1) 1) by (unfold sort_value; cbn; eauto).
  split; [apply disort_ok|]. split; [|split; [|split; [|lra]]]; auto.
  unfold sortedSurfaces. assert (F : forallb policy_defined [gcyl (1 + / 2199023255552); gcyl 1] = true) by reflexivity.
  rewrite F. cbn [disort dinsert].
  unfold dkey. rewrite (policy_value _ _ Va), (policy_value _ _ Vb).
  assert (One : rndf 1 = 1) by (apply (rndf_small_int 1); lia).
  assert (Q : rndf (1 + / 2199023255552) = 1).
  { apply rndf_near; [|rewrite !Rabs_pos_eq; lra].
    rewrite <- One. apply generic_format_round; auto with typeclass_instances. }
  rewrite Q, One. destruct (Rle_dec 1 1); [reflexivity|lra].
Qed.
Print Assumptions C47_exact_order_refuted.

(** ** C46 *)

Lemma sorted_res srt l : (exists l', sortedSurfaces srt l = Ok l') \/ sortedSurfaces srt l = UB.
Proof. unfold sortedSurfaces. destruct l as [|a [|b l]]; eauto. destruct (forallb _ _); eauto. Qed.

(** Entries of a history before the first successful instance(file): calls of
    instance() that return the object number 0, and files whose loading threw. *)
Definition early (e : gcall * res nat) : Prop :=
  e = (CInst, Ok 0%nat) \/ (exists f, e = (CFile f, Throw)).

(** All histories: before the first successful instance(file) every instance()
    returns one object, made from the initial detector; nothing has been
    loaded.  From that call on both accessors return one object, made from the
    detector as loaded by it, and nothing is loaded again.  It is a second
    object exactly if instance() had been called before; the first one then
    still exists. *)
Theorem C46_history : forall srt ld d log w, ghist srt ld d log w ->
  (gw_first w = true /\ gw_det w = d /\ gw_loads w = [] /\ (forall e, In e log -> early e)
   /\ ((gw_geom w = None /\ gw_objs w = [] /\ ~ In (CInst, Ok 0%nat) log)
       \/ (exists l0, gw_geom w = Some 0%nat /\ gw_objs w = [l0] /\ In (CInst, Ok 0%nat) log
             /\ sortedSurfaces srt (det_surfaces d) = Ok l0)))
  \/ (exists before f a rest l1, log = before ++ (CFile f, Ok a) :: rest
   /\ (forall e, In e before -> early e) /\ (forall c r, In (c, r) rest -> r = Ok a)
   /\ gw_first w = false /\ gw_geom w = Some a /\ gw_loads w = [f] /\ ld f d = Ok (gw_det w)
   /\ sortedSurfaces srt (det_surfaces (gw_det w)) = Ok l1
   /\ ((~ In (CInst, Ok 0%nat) before /\ a = 0%nat /\ gw_objs w = [l1])
       \/ (In (CInst, Ok 0%nat) before /\ a = 1%nat
           /\ exists l0, gw_objs w = [l0; l1] /\ sortedSurfaces srt (det_surfaces d) = Ok l0))).
Proof.
  intros srt ld d log w H. induction H as [|log w c w' r H IH S Q].
  - left. cbn. repeat split; auto; tauto.
  - destruct IH as [(F & D & L & E & G)|(before & f & a & rest & l1 & EQ & EB & ER & F & G & L & LD & SS & O)].
    + destruct c as [f|]; cbn [gstep] in S.
      * unfold instanceFile in S. rewrite F, D, L in S.
        destruct (ld f d) as [d1| | | |] eqn:LD; try (injection S as <- <-; destruct Q as [[? Q]|Q]; discriminate).
        -- unfold newGeometry in S. cbn [gw_det gw_objs gw_loads gw_geom] in S.
           destruct (sorted_res srt (det_surfaces d1)) as [[l1 SS]|SS]; rewrite SS in S; cbn [bind] in S;
             injection S as <- <-; [|destruct Q as [[? Q]|Q]; discriminate].
           right. exists log, f, (length (gw_objs w)), [], l1. split; auto. split; auto. split; [intros ? ? []|].
           cbn [gw_first gw_geom gw_loads gw_det gw_objs]. do 4 (split; [auto|]). split; auto.
           destruct G as [(_ & O & N)|(l0 & _ & O & N & S0)]; rewrite O; cbn; [left|right]; eauto 6.
        -- left. injection S as <- <-. do 3 (split; auto).
           split; [intros e I; apply in_app_or in I; destruct I as [I|[<-|[]]]; auto; right; eauto|].
           destruct G as [(A1 & A2 & A3)|(l0 & A1 & A2 & A3 & A4)]; [left|right].
           ++ repeat split; auto. intros I. apply in_app_or in I. destruct I as [I|[I|[]]]; [auto|discriminate].
           ++ exists l0. repeat split; auto. apply in_or_app. auto.
      * left. unfold instance in S.
        destruct G as [(A1 & A2 & A3)|(l0 & A1 & A2 & A3 & A4)]; rewrite A1 in S.
        -- unfold newGeometry in S. rewrite D, A2 in S.
           destruct (sorted_res srt (det_surfaces d)) as [[l0 SS]|SS]; rewrite SS in S; cbn [bind length app] in S;
             injection S as <- <-; [|destruct Q as [[? Q]|Q]; discriminate].
           cbn [gw_first gw_geom gw_loads gw_det gw_objs]. do 3 (split; auto).
           split; [intros e I; apply in_app_or in I; destruct I as [I|[<-|[]]]; auto; left; auto|].
           right. exists l0. repeat split; auto. apply in_or_app. right. left. auto.
        -- injection S as <- <-. do 3 (split; auto).
           split; [intros e I; apply in_app_or in I; destruct I as [I|[<-|[]]]; auto; left; auto|].
           right. exists l0. repeat split; auto. apply in_or_app. auto.
    + right. assert (w' = w /\ r = Ok a).
      { destruct c; cbn [gstep] in S; unfold instanceFile, instance in S; rewrite ?F, ?G in S; injection S as <- <-; auto. }
      destruct H0 as [-> ->].
      exists before, f, a, (rest ++ [(c, Ok a)]), l1. split; [rewrite EQ, <- app_assoc; auto|].
      split; auto. split; [|repeat (split; auto)].
      intros c' r' I. apply in_app_or in I. destruct I as [I|[I|[]]]; [eauto|]. injection I as <- <-. auto.
Qed.
Print Assumptions C46_history.

(** Consequences in terms of the returned references: instance() after
    instance() without an instance(file) in between gives the same object;
    after a successful instance(file) all calls give the same object; at most
    one file is ever loaded. *)
Theorem C46_same_object : forall srt ld d log w, ghist srt ld d log w ->
  (length (gw_loads w) <= 1)%nat
  /\ (forall l1 f a l2 c b, log = l1 ++ (CFile f, Ok a) :: l2 -> In (c, Ok b) l2 -> a = b)
  /\ (forall l1 a l2 b l3, log = l1 ++ (CInst, Ok a) :: l2 ++ (CInst, Ok b) :: l3 ->
        (forall f x, ~ In (CFile f, Ok x) l2) -> a = b).
Proof.
  intros srt ld d log w H. destruct (C46_history _ _ _ _ _ H)
    as [(_ & _ & L & E & _)|(before & f0 & a0 & rest & l1 & EQ & EB & ER & _ & _ & L & _)].
  - rewrite L. split; [cbn; lia|]. split.
    + intros l1 f a l2 c b Q _. exfalso.
      destruct (E (CFile f, Ok a)) as [X|[? X]]; try discriminate. rewrite Q. apply in_or_app. right. left. auto.
    + intros l1 a l2 b l3 Q _.
      assert (A : In (CInst, Ok a) log) by (rewrite Q; apply in_or_app; right; left; auto).
      assert (B : In (CInst, Ok b) log)
        by (rewrite Q; apply in_or_app; right; right; apply in_or_app; right; left; auto).
      destruct (E _ A) as [X|[? X]]; destruct (E _ B) as [Y|[? Y]]; congruence.
  - rewrite L. split; [cbn; lia|].
    (* every entry after the first successful instance(file) returned a0 *)
    assert (T : forall l1 c a l2, before ++ (CFile f0, Ok a0) :: rest = l1 ++ (c, Ok a) :: l2 ->
      ((exists m, before = l1 ++ (c, Ok a) :: m /\ l2 = m ++ (CFile f0, Ok a0) :: rest)
       \/ (a = a0 /\ forall c' b, In (c', Ok b) l2 -> b = a0))).
    { clear - ER. induction before as [|e before IH]; intros l1 c a l2 Q.
      - right. destruct l1 as [|e1 l1]; cbn in Q.
        + injection Q as <- <- <-. split; auto. intros c' b I. specialize (ER _ _ I). congruence.
        + injection Q as _ Q. assert (I : In (c, Ok a) rest) by (rewrite Q; apply in_or_app; right; left; auto).
          specialize (ER _ _ I) as X. split; [congruence|]. intros c' b I'.
          assert (I2 : In (c', Ok b) rest) by (rewrite Q; apply in_or_app; right; right; auto).
          specialize (ER _ _ I2). congruence.
      - destruct l1 as [|e1 l1]; cbn in Q; injection Q as -> Q.
        + left. exists before. cbn. auto.
        + destruct (IH _ _ _ _ Q) as [(m & A & B)|X]; [left|right; auto]. exists m. rewrite A. auto. }
    split.
    + intros l2 f a l3 c b Q I. rewrite EQ in Q. destruct (T _ _ _ _ Q) as [(m & A & _)|[-> X]].
      * exfalso. destruct (EB (CFile f, Ok a)) as [Z|[? Z]]; try discriminate.
        rewrite A. apply in_or_app. right. left. auto.
      * symmetry. eauto.
    + intros l2 a l3 b l4 Q N. rewrite EQ in Q. destruct (T _ _ _ _ Q) as [(m & A & B)|[-> X]].
      * (* first in before: then the second is too, as no instance(file) lies between *)
        assert (A0 : In (CInst, Ok a) before) by (rewrite A; apply in_or_app; right; left; auto).
        assert (B0 : In (CInst, Ok b) before).
        { rewrite A. apply in_or_app. right. right. clear - B N.
          revert m B. induction l3 as [|e l3 IH]; intros m B.
          - destruct m as [|e m]; cbn in B; [discriminate|]. injection B as -> _. left. auto.
          - destruct m as [|e' m]; cbn in B; injection B as -> B.
            + exfalso. apply (N f0 a0). left. auto.
            + right. apply IH; auto. intros f x I. apply (N f x). right. auto. }
        destruct (EB _ A0) as [X|[? X]]; destruct (EB _ B0) as [Y|[? Y]]; congruence.
      * symmetry. apply (X CInst). apply in_or_app. right. left. auto.
Qed.
Print Assumptions C46_same_object.

(** instance() before the first instance(file): the references differ, the old
    object is still there with the surfaces of the detector before loading,
    and the field is that of the loaded detector for both. *)
Theorem C46_replaced : forall srt ld d f d1 l0 l1,
  sortedSurfaces srt (det_surfaces d) = Ok l0 -> ld f d = Ok d1 ->
  sortedSurfaces srt (det_surfaces d1) = Ok l1 ->
  exists w1 w2 a b, instance srt (gw_start d) = (w1, Ok a) /\ instanceFile srt ld w1 f = (w2, Ok b)
    /\ a <> b /\ getSurfaces w1 a = Some l0 /\ getSurfaces w2 a = Some l0 /\ getSurfaces w2 b = Some l1
    /\ instance srt w2 = (w2, Ok b) /\ (forall f', instanceFile srt ld w2 f' = (w2, Ok b)).
Proof.
  intros srt ld d f d1 l0 l1 S0 LD S1.
  unfold instance, instanceFile, newGeometry, gw_start. cbn [gw_geom gw_det gw_objs gw_first gw_loads].
  rewrite S0. cbn [bind length app]. do 4 eexists. split; [reflexivity|].
  cbn [gw_geom gw_det gw_objs gw_first gw_loads]. rewrite LD, S1. cbn [bind length app].
  split; [reflexivity|]. split; [discriminate|]. cbn. repeat split.
Qed.
Print Assumptions C46_replaced.

(** a detector that is empty until a file is loaded *)
Definition ex_det : detector := Det [] (fun _ => v3zero).
Definition ex_load : loader := fun f _ =>
  if Nat.eqb f 7 then Ok (Det [gcyl 6; gplane 3 4] (solenoid 3)) else Throw.

Example ex_replaced : exists w1 w2, instance disort (gw_start ex_det) = (w1, Ok 0%nat)
  /\ instanceFile disort ex_load w1 7 = (w2, Ok 1%nat)
  /\ getSurfaces w2 0 = Some [] /\ (exists l, getSurfaces w2 1 = Some l /\ length l = 2%nat).
Proof.
  destruct (sorted_res disort [gcyl 6; gplane 3 4]) as [[l S]|S]; [|discriminate].
  destruct (C46_replaced disort ex_load ex_det 7 (Det [gcyl 6; gplane 3 4] (solenoid 3)) [] l)
    as (w1 & w2 & a & b & A & B & _ & C & D & E & _); auto.
  assert (a = 0%nat) by (cbn in A; congruence). subst a.
  assert (b = 1%nat) by (cbn in A; injection A as <-; cbn in B; congruence). subst b.
  exists w1, w2. split; [exact A|]. split; [exact B|]. split; [exact D|]. exists l. split; auto.
  assert (P : Permutation [gcyl 6; gplane 3 4] l).
  { cbn [sortedSurfaces] in S. change (forallb policy_defined [gcyl 6; gplane 3 4]) with true in S.
    injection S as <-. apply disort_perm. }
  apply Permutation_length in P. auto.
Qed.

(** a file that fails to load leaves the choice open *)
Example ex_failed_load : exists w1 w2, instanceFile disort ex_load (gw_start ex_det) 3 = (w1, Throw)
  /\ instanceFile disort ex_load w1 7 = (w2, Ok 0%nat) /\ gw_loads w2 = [7%nat].
Proof. do 2 eexists. split; [reflexivity|]. split; reflexivity. Qed.

(** The field of a geometry is that of the detector description in force (the
    one of the loaded file once a file is loaded), in tesla, also for references
    obtained earlier. *)
Theorem C46_field : forall srt ld d log w tesla xx, ghist srt ld d log w ->
  (tesla = 0 <-> getBField tesla w xx = NonFin)
  /\ (forall b, getBField tesla w xx = Ok b <-> tesla <> 0 /\ vscale tesla b = det_field (gw_det w) xx)
  /\ ((forall f a, ~ In (CFile f, Ok a) log) -> gw_det w = d)
  /\ (forall f a, In (CFile f, Ok a) log -> exists f0, gw_loads w = [f0] /\ ld f0 d = Ok (gw_det w)).
Proof.
  intros srt ld d log w tesla xx H.
  split; [|split; [|split]].
  - unfold getBField, rdiv. destruct (Req_EM_T tesla 0); cbn [bind]; split; auto; try discriminate; contradiction.
  - intros b. unfold getBField, rdiv. destruct (Req_EM_T tesla 0) as [->|N]; cbn [bind].
    + split; [discriminate|]. intros [? _]; contradiction.
    + destruct (det_field (gw_det w) xx) as [x y z]. unfold vscale. cbn [vx vy vz]. split.
      * intros E. injection E as <-. split; auto. cbn [vx vy vz]. f_equal; field; auto.
      * intros [_ E]. destruct b as [bx by_ bz]. cbn [vx vy vz] in E. injection E as <- <- <-. f_equal. f_equal; field; auto.
  - intros N. destruct (C46_history _ _ _ _ _ H) as [(_ & D & _)|(before & f & a & rest & l1 & E & _)]; auto.
    exfalso. apply (N f a). rewrite E. apply in_or_app. right. left. auto.
  - intros f a I. destruct (C46_history _ _ _ _ _ H) as [(_ & _ & _ & E & _)|(before & f0 & a0 & rest & l1 & E & _ & _ & _ & _ & L & D & _)].
    + destruct (E _ I) as [X|[? X]]; discriminate.
    + eauto.
Qed.
Print Assumptions C46_field.

Example ex_field : exists w1 w2, instance disort (gw_start ex_det) = (w1, Ok 0%nat)
  /\ instanceFile disort ex_load w1 7 = (w2, Ok 1%nat) /\ getBField (/ 2) w2 v3zero = Ok (V3 0 0 6).
Proof.
  destruct ex_replaced as (w1 & w2 & A & B & _). exists w1, w2. split; [exact A|]. split; [exact B|].
  cbn in A. injection A as <-. cbn in B. injection B as <-.
  unfold getBField, rdiv. destruct (Req_EM_T (/ 2) 0); [lra|]. cbn [bind gw_det det_field]. unfold solenoid, vscale. cbn [vx vy vz]. f_equal. f_equal; lra.
Qed.

(** The properties are different bits: each is set and cleared without effect on
    the others. *)
Theorem C50_independent : forall b b' p val, setProperty b p val = Ok b' ->
  let queries := [(bIsCylinder, pCylinder); (bIsPlane, pPlane); (bIsSensitive, pSensitive); (bIsHelper, pHelper);
                  (bIsParallelToZ, pParallelToZ); (bIsOrthogonalToZ, pOrthogonalToZ); ((fun x => negb (bIsVisible x)), pInvisible)] in
  NoDup (map snd queries)
  /\ forall ask q, In (ask, q) queries -> (q < 32)%N /\ ask b' = if N.eqb q p then val else ask b.
Proof.
  intros b b' p val E queries. split.
  - unfold queries. cbn [map snd].
    repeat (constructor; [cbn [In]; intros X; repeat (destruct X as [X|X]; [discriminate|]); exact X|]). constructor.
  - destruct (C50_set b p val) as (_ & _ & V). specialize (V b' E).
    intros ask q I. cbn [queries In] in I.
    repeat (destruct I as [I|I]; [injection I as <- <-; split; [reflexivity|]; unfold bIsVisible; rewrite ?negb_involutive; apply V|]).
    destruct I.
Qed.
Print Assumptions C50_independent.
