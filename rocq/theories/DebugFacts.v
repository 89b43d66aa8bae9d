(** Lemmas about lcio_debug_tracks. *)
From Coq Require Import Reals List Bool ZArith Lra Lia FunctionalExtensionality.
From Verif Require Import SpecConst Num Vec Helix Isect Traj LCIO DebugTracks.
From Verif Require Import NumFacts SpecHelix SpecIsect SpecTraj SpecLCIO SpecRefit SpecDebug
  HelixFacts PathFacts SurfFacts SurfFacts2 SurfFacts3 SpecListed ListedFacts.
Import ListNotations.
Open Scope R_scope.

(** ** ids *)
Lemma bfGet_field lo w v : (0 <= lo)%Z -> (0 <= w)%Z -> bfGet lo w v = zfield lo w v.
Proof. intros A B. unfold bfGet, zfield. rewrite Z.land_ones, Z.shiftr_div_pow2 by auto. reflexivity. Qed.

Lemma zfield_bit lo w v i : (0 <= lo)%Z -> (0 <= w)%Z -> (0 <= i)%Z ->
  Z.testbit (zfield lo w v) i = (Z.ltb i w && Z.testbit v (i + lo))%bool.
Proof.
  intros A B I. rewrite <- bfGet_field by auto. unfold bfGet. rewrite Z.land_spec, Z.shiftr_spec, Z.testbit_ones by auto.
  replace (0 <=? i)%Z with true by (symmetry; apply Z.leb_le; auto). cbn [andb]. apply andb_comm.
Qed.

Lemma bfSet_bit lo w mn mx v x r i : (0 <= lo)%Z -> (0 <= w)%Z -> (0 <= i)%Z ->
  bfSet lo w mn mx v x = Ok r ->
  Z.testbit r i = if (Z.leb lo i && Z.ltb i (lo + w))%bool then Z.testbit x (i - lo) else Z.testbit v i.
Proof.
  intros A B I H. unfold bfSet in H. destruct (_ && _)%bool; [|discriminate]. injection H as <-.
  rewrite Z.lor_spec, !Z.land_spec, Z.lnot_spec, !Z.shiftl_spec by auto.
  destruct (Z.leb_spec lo i) as [L|L].
  - rewrite Z.testbit_ones by auto. replace (0 <=? i - lo)%Z with true by (symmetry; apply Z.leb_le; lia). cbn [andb].
    destruct (Z.ltb_spec (i - lo) w); destruct (Z.ltb_spec i (lo + w)); try lia; cbn [negb andb].
    + rewrite andb_false_r, andb_true_r. reflexivity.
    + rewrite andb_true_r, andb_false_r, orb_false_r. reflexivity.
  - rewrite (Z.testbit_neg_r (Z.ones w)) by lia. cbn [negb andb]. rewrite andb_true_r, andb_false_r, orb_false_r. reflexivity.
Qed.

Lemma field_of_set lo w mn mx v x r lo' w' : (0 <= lo)%Z -> (0 <= w)%Z -> (0 <= lo')%Z -> (0 <= w')%Z ->
  bfSet lo w mn mx v x = Ok r ->
  ((lo' + w' <= lo)%Z \/ (lo + w <= lo')%Z) -> zfield lo' w' r = zfield lo' w' v.
Proof.
  intros A B A' B' H D. apply Z.bits_inj'. intros i I. rewrite !zfield_bit by auto.
  rewrite (bfSet_bit _ _ _ _ _ _ _ (i + lo') A B ltac:(lia) H).
  destruct (Z.ltb_spec i w'); auto. cbn [andb].
  destruct (Z.leb_spec lo (i + lo')); destruct (Z.ltb_spec (i + lo') (lo + w)); cbn [andb]; auto; lia.
Qed.

Lemma field_set lo w mn mx v x r : (0 <= lo)%Z -> (0 <= w)%Z ->
  bfSet lo w mn mx v x = Ok r -> zfield lo w r = zfield 0 w x.
Proof.
  intros A B H. apply Z.bits_inj'. intros i I. rewrite !zfield_bit by lia.
  rewrite (bfSet_bit _ _ _ _ _ _ _ (i + lo) A B ltac:(lia) H). rewrite Z.add_0_r.
  destruct (Z.ltb_spec i w); auto. cbn [andb].
  destruct (Z.leb_spec lo (i + lo)); destruct (Z.ltb_spec (i + lo) (lo + w)); try lia. cbn [andb]. f_equal. lia.
Qed.

Lemma field_low lo w v : (0 <= lo)%Z -> (0 <= w)%Z -> (lo + w <= 32)%Z ->
  zfield lo w (Z.land v (Z.ones 32)) = zfield lo w v.
Proof.
  intros A B L. apply Z.bits_inj'. intros i I. rewrite !zfield_bit by auto. rewrite Z.land_spec, Z.testbit_ones by lia.
  destruct (Z.ltb_spec i w); auto. cbn [andb].
  replace (0 <=? i + lo)%Z with true by (symmetry; apply Z.leb_le; lia).
  replace (i + lo <? 32)%Z with true by (symmetry; apply Z.ltb_lt; lia). apply andb_true_r.
Qed.

Lemma fields_unique k k' : (0 <= k < 2 ^ 32)%Z -> (0 <= k' < 2 ^ 32)%Z ->
  zfield 0 5 k = zfield 0 5 k' -> zfield 5 2 k = zfield 5 2 k' -> zfield 7 9 k = zfield 7 9 k' ->
  zfield 16 8 k = zfield 16 8 k' -> zfield 24 8 k = zfield 24 8 k' -> k = k'.
Proof.
  intros B B' F0 F1 F2 F3 F4. apply Z.bits_inj'. intros i I.
  assert (Hi : forall v, (0 <= v < 2 ^ 32)%Z -> (32 <= i)%Z -> Z.testbit v i = false).
  { intros v Bv Li. rewrite <- (Z.mod_small v (2 ^ 32)) by auto. apply Z.mod_pow2_bits_high. lia. }
  assert (G : forall lo w, (0 <= lo)%Z -> (0 <= w)%Z -> zfield lo w k = zfield lo w k' -> (lo <= i < lo + w)%Z ->
            Z.testbit k i = Z.testbit k' i).
  { intros lo w A Bw F Ri. assert (E : Z.testbit (zfield lo w k) (i - lo) = Z.testbit (zfield lo w k') (i - lo)) by (rewrite F; reflexivity).
    rewrite !zfield_bit in E by lia. replace (i - lo <? w)%Z with true in E by (symmetry; apply Z.ltb_lt; lia). cbn [andb] in E.
    replace (i - lo + lo)%Z with i in E by lia. exact E. }
  destruct (Z.lt_ge_cases i 5); [apply (G 0 5)%Z; auto; lia|].
  destruct (Z.lt_ge_cases i 7); [apply (G 5 2)%Z; auto; lia|].
  destruct (Z.lt_ge_cases i 16); [apply (G 7 9)%Z; auto; lia|].
  destruct (Z.lt_ge_cases i 24); [apply (G 16 8)%Z; auto; lia|].
  destruct (Z.lt_ge_cases i 32); [apply (G 24 8)%Z; auto; lia|].
  rewrite !Hi by auto. reflexivity.
Qed.

Lemma zfield_range lo w v : (0 <= w)%Z -> (0 <= zfield lo w v < 2 ^ w)%Z.
Proof. intros B. unfold zfield. apply Z.mod_pos_bound. apply Z.pow_pos_nonneg; lia. Qed.

Lemma key_cases h :
  (exists k, debugKey h = Ok k /\ debug_key h k)
  \/ (debugKey h = Throw /\ zfield 0 5 (dh_cell h) = 1%Z /\ zfield 7 9 (dh_cell h) = 511%Z).
Proof.
  unfold debugKey. rewrite bfGet_field by lia. destruct (Z.eqb_spec (zfield 0 5 (dh_cell h)) 1) as [V|V].
  2: { left. eexists. split; [reflexivity|]. right. auto. }
  set (sd := if Rlt_dec 0 (vz (dh_pos h)) then 1%Z else (-1)%Z).
  assert (Sd : exists v1, bfSet 5 2 (-2) 1 (dh_cell h) sd = Ok v1).
  { unfold sd, bfSet. destruct (Rlt_dec 0 (vz (dh_pos h))); eexists; reflexivity. }
  destruct Sd as [v1 E1]. rewrite E1. cbn [bind].
  assert (L1 : zfield 7 9 v1 = zfield 7 9 (dh_cell h)) by (eapply field_of_set; [..|exact E1|right]; lia).
  rewrite bfGet_field by lia. rewrite L1.
  assert (Rg := zfield_range 7 9 (dh_cell h) ltac:(lia)). change (2 ^ 9)%Z with 512%Z in Rg.
  destruct (bfSet 7 9 0 511 v1 (zfield 7 9 (dh_cell h) + 1)) as [v2| | | |] eqn:E2.
  - left. cbn [bind]. eexists. split; [reflexivity|]. left. split; auto.
    assert (U : (zfield 7 9 (dh_cell h) + 1 <= 511)%Z).
    { unfold bfSet in E2. destruct (Z.leb_spec 0 (zfield 7 9 (dh_cell h) + 1)); [|lia].
      destruct (Z.leb_spec (zfield 7 9 (dh_cell h) + 1) 511); [auto|discriminate]. }
    split; [rewrite Z.land_ones by lia; apply Z.mod_pos_bound; reflexivity|].
    rewrite !field_low by lia.
    rewrite (field_set 7 9 _ _ _ _ _ ltac:(lia) ltac:(lia) E2).
    rewrite (field_of_set 7 9 _ _ _ _ _ 0 5 ltac:(lia) ltac:(lia) ltac:(lia) ltac:(lia) E2) by lia.
    rewrite (field_of_set 7 9 _ _ _ _ _ 5 2 ltac:(lia) ltac:(lia) ltac:(lia) ltac:(lia) E2) by lia.
    rewrite (field_of_set 7 9 _ _ _ _ _ 16 8 ltac:(lia) ltac:(lia) ltac:(lia) ltac:(lia) E2) by lia.
    rewrite (field_of_set 7 9 _ _ _ _ _ 24 8 ltac:(lia) ltac:(lia) ltac:(lia) ltac:(lia) E2) by lia.
    rewrite (field_set 5 2 _ _ _ _ _ ltac:(lia) ltac:(lia) E1).
    rewrite (field_of_set 5 2 _ _ _ _ _ 0 5 ltac:(lia) ltac:(lia) ltac:(lia) ltac:(lia) E1) by lia.
    rewrite (field_of_set 5 2 _ _ _ _ _ 16 8 ltac:(lia) ltac:(lia) ltac:(lia) ltac:(lia) E1) by lia.
    rewrite (field_of_set 5 2 _ _ _ _ _ 24 8 ltac:(lia) ltac:(lia) ltac:(lia) ltac:(lia) E1) by lia.
    split; auto.
    split; [intros P; unfold sd; destruct (Rlt_dec 0 (vz (dh_pos h))); [reflexivity|contradiction]|].
    split; [intros P; unfold sd; destruct (Rlt_dec 0 (vz (dh_pos h))); [lra|reflexivity]|].
    split; auto. unfold zfield at 1. rewrite Z.pow_0_r, Z.div_1_r. apply Z.mod_small. change (2 ^ 9)%Z with 512%Z. lia.
  - right. cbn [bind]. split; auto. split; auto. unfold bfSet in E2.
    destruct (Z.leb_spec 0 (zfield 7 9 (dh_cell h) + 1)); [|lia].
    destruct (Z.leb_spec (zfield 7 9 (dh_cell h) + 1) 511); [discriminate|]. lia.
  - unfold bfSet in E2. destruct (_ && _)%bool; discriminate.
  - unfold bfSet in E2. destruct (_ && _)%bool; discriminate.
  - unfold bfSet in E2. destruct (_ && _)%bool; discriminate.
Qed.

Lemma key_unique h k k' : debug_key h k -> debug_key h k' -> k = k'.
Proof.
  intros [(A & B & F0 & P & N & F2 & F3 & F4)|[A B]] [(A' & B' & F0' & P' & N' & F2' & F3' & F4')|[A' B']]; try contradiction; [|congruence].
  apply fields_unique; auto; try congruence.
  destruct (Rlt_dec 0 (vz (dh_pos h))) as [Q|Q]; [rewrite P, P' by auto|rewrite N, N' by lra]; reflexivity.
Qed.

Lemma key_spec h k : debugKey h = Ok k <-> debug_key h k.
Proof.
  destruct (key_cases h) as [(k' & E & K)|(E & V & L)].
  - rewrite E. split; [intros Q; injection Q as <-; auto|]. intros K'. f_equal. eapply key_unique; eauto.
  - rewrite E. split; [discriminate|]. intros [(_ & _ & _ & _ & _ & F & _)|[A _]]; [|contradiction].
    exfalso. assert (R := zfield_range 7 9 k ltac:(lia)). change (2 ^ 9)%Z with 512%Z in R. lia.
Qed.

(** ** the map of surfaces *)
Lemma debugMap_rev D : debugMap D = map (fun s => (de_id D s, s)) (rev (de_surfaces D)).
Proof.
  unfold debugMap. assert (G : forall l m, fold_left (fun m s => (de_id D s, s) :: m) l m
    = map (fun s => (de_id D s, s)) (rev l) ++ m).
  { induction l as [|s l IH]; intros m; auto. cbn [fold_left rev]. rewrite IH, map_app, <- app_assoc. reflexivity. }
  rewrite G, app_nil_r. reflexivity.
Qed.

Lemma find_spec D k : match debugFind D k with
  | Some surf => surface_for D k surf
  | None => forall surf, In surf (de_surfaces D) -> de_id D surf <> k
  end.
Proof.
  unfold debugFind. rewrite debugMap_rev. unfold surface_for.
  remember (rev (de_surfaces D)) as r eqn:Er.
  assert (Q : de_surfaces D = rev r) by (subst r; symmetry; apply rev_involutive). rewrite Q. clear Q Er.
  induction r as [|s l IH]; cbn [map find fst].
  { intros surf []. }
  destruct (Z.eqb_spec (de_id D s) k) as [E|E].
  - exists (rev l), []. cbn [rev]. split; [reflexivity|]. split; [exact E|]. intros s' H. destruct H.
  - destruct (find _ _) as [[k' x]|].
    + destruct IH as (l1 & l2 & Q & I & N). exists l1, (l2 ++ [s]). cbn [rev]. rewrite Q, <- app_assoc. split; auto.
      split; auto. intros s' Is. apply in_app_or in Is. destruct Is as [Is|[<-|[]]]; auto.
    + intros surf Is. cbn [rev] in Is. apply in_app_or in Is. destruct Is as [Is|[<-|[]]]; auto.
Qed.

Lemma surface_for_in D k surf : surface_for D k surf -> In surf (de_surfaces D) /\ de_id D surf = k.
Proof. intros (l1 & l2 & -> & E & _). split; auto. apply in_or_app. right. left. auto. Qed.

Lemma surface_for_find D k surf : surface_for D k surf -> debugFind D k = Some surf.
Proof.
  intros H. assert (F := find_spec D k). destruct (debugFind D k) as [x|].
  2: { destruct (surface_for_in _ _ _ H) as [I E]. exfalso. exact (F _ I E). }
  f_equal. destruct H as (l1 & l2 & Q & E & N). destruct F as (m1 & m2 & Q' & E' & N').
  rewrite Q in Q'. clear Q. revert m1 Q'. induction l1 as [|a l1 IH]; intros [|b m1] Q'; cbn [app] in Q'.
  - injection Q' as <- _. auto.
  - injection Q' as <- Q'. exfalso. apply (N x); auto. rewrite Q'. apply in_or_app. right. left. auto.
  - injection Q' as <- Q'. exfalso. apply (N' surf); auto. rewrite <- Q'. apply in_or_app. right. left. auto.
  - injection Q' as _ Q'. eauto.
Qed.

(** ** hits and tracks *)
Lemma hit_spec D itp h o : de_mm D <> 0 -> (debugHit D itp h = Ok o <-> debug_point D itp h o).
Proof.
  intros M. unfold debugHit, debug_point. split.
  - intros H. destruct (debugKey h) as [k| | | |] eqn:K; try discriminate. cbn [bind] in H. apply key_spec in K.
    exists k. split; auto. assert (F := find_spec D k). destruct (debugFind D k) as [surf|].
    + right. exists surf. split; auto.
      destruct (intersectWithSurface surf _ _ _ _ _) as [[b out]| | | |]; try discriminate. cbn [bind] in H.
      destruct b; [|injection H as <-; left; split; [auto|eauto]].
      destruct out as [s xx|]; [|discriminate]. rewrite !rdiv_ok in H by auto. cbn [bind] in H. injection H as <-.
      right. exists s. eexists. split; [reflexivity|]. f_equal. f_equal. f_equal. destruct xx as [x y z]. unfold vscale. cbn. f_equal; field; auto.
    + injection H as <-. left. auto.
  - intros (k & K & H). apply key_spec in K. rewrite K. cbn [bind]. destruct H as [(-> & N)|(surf & S & H)].
    + assert (F := find_spec D k). destruct (debugFind D k) as [surf|]; auto.
      destruct (surface_for_in _ _ _ F) as [I E]. exfalso. exact (N _ I E).
    + rewrite (surface_for_find _ _ _ S). destruct H as [(-> & out & ->)|(s & p & -> & ->)]; cbn [bind]; auto.
      rewrite !rdiv_ok by auto. cbn [bind]. f_equal. f_equal. destruct p as [x y z]. unfold vscale. cbn. f_equal; field; auto.
Qed.

Lemma hits_spec D itp : de_mm D <> 0 -> forall l ps,
  debugHits D itp l = Ok ps <-> exists os, Forall2 (debug_point D itp) l os /\ ps = somes os.
Proof.
  intros M. induction l as [|h l IH]; intros ps; cbn [debugHits].
  - split; [intros H; injection H as <-; exists []; split; [constructor|reflexivity]|].
    intros (os & F & ->). inversion F. reflexivity.
  - split.
    + intros H. destruct (debugHit D itp h) as [o| | | |] eqn:Ho; try discriminate. cbn [bind] in H. apply hit_spec in Ho; auto.
      destruct (debugHits D itp l) as [rest| | | |]; try discriminate. cbn [bind] in H.
      destruct (proj1 (IH rest) eq_refl) as (os & F & ->). exists (o :: os). split; [constructor; auto|]. injection H as <-.
      destruct o; reflexivity.
    + intros (os & F & ->). inversion F as [|a o b os' P F' Q1 Q2]. subst. apply hit_spec in P; auto. rewrite P. cbn [bind].
      rewrite (proj2 (IH (somes os'))) by eauto. cbn [bind]. destruct o; reflexivity.
Qed.

Lemma seed_value mm ts : mm <> 0 -> exists itp, debugSeed mm ts = Ok itp /\ debug_seed mm ts itp
  /\ forall itp', debug_seed mm ts itp' -> itp' = itp.
Proof.
  intros M. unfold debugSeed, debug_seed. rewrite rdiv_ok by auto. cbn [bind]. destruct (ts_ref ts) as [[x y] z]. cbn [fst snd].
  eexists. split; [reflexivity|]. cbn [tp_par tp_ref tp_cov]. split.
  - split; [intros [| | | |]; cbn; field; auto|]. split; [unfold vscale; cbn; f_equal; ring|reflexivity].
  - intros [cov par ref]. cbn [tp_par tp_ref tp_cov]. intros (P & R & K). f_equal.
    + extensionality i. extensionality j. rewrite K. reflexivity.
    + extensionality i. rewrite P. destruct i; cbn; field; auto.
    + rewrite R. unfold vscale. cbn. f_equal; ring.
Qed.

(** ** the crossing chosen *)
Lemma disjoint_circle c l p : overlap c l < 0 -> on_circle c p -> on_line l p -> False.
Proof.
  unfold overlap, on_circle, on_line. destruct p as [x y]. cbn [fst snd]. intros O C L.
  set (n0 := l_n0 l) in *. set (n1 := l_n1 l) in *. set (a := x - c_x c) in *. set (b := y - c_y c) in *.
  assert (E : l_d l - (n0 * c_x c + n1 * c_y c) = n0 * a + n1 * b) by (unfold a, b; lra). rewrite E, <- C in O.
  assert (S := Rle_0_sqr (a * n1 - b * n0)). unfold Rsqr in S. nra.
Qed.

Lemma helix_on_circle hp rp s : hp OMEGA <> 0 ->
  on_circle (hcircle hp rp) (vx (hcurve hp rp s), vy (hcurve hp rp s)).
Proof.
  intros H. unfold on_circle, hcircle, hcurve. cbn [c_x c_y c_r fst snd vx vy].
  set (a := hp PHI0 - s * hp OMEGA). set (r := 1 / hp OMEGA).
  assert (Q := sin2_cos2 a). unfold Rsqr in Q. rewrite <- Rabs_mult, (Rabs_pos_eq (r * r)) by apply Rle_0_sqr.
  nra.
Qed.

Lemma simple_on surf hp rp x : simple surf hp rp ->
  on_surface surf x <->
  ((exists rho c, st_cylinder (sf_type surf) = true /\ sf_cyl surf = Some (rho, c) /\ on_cylinder rho c x)
   \/ (isZPlane (sf_type surf) = true /\ on_line (pline surf) (vx x, vy x))
   \/ (isZDisk (sf_type surf) = true /\ vz x = vz (sf_origin surf))).
Proof.
  intros [Co S]. unfold on_surface, isZPlane, isZDisk. cbv zeta. split.
  - intros [A|[(A & B & C)|[(A & B & C)|(A & _)]]]; auto.
    + right. left. rewrite A, B. split; auto.
      destruct S as [(S1 & S2 & _)|[(_ & _ & _ & _ & [Z _] & _)|(_ & _ & S3 & _)]]; try congruence.
      unfold on_line, pline. cbn [l_n0 l_n1 l_d fst snd]. unfold vdot in C at 1. rewrite Z in C. lra.
    + right. right. rewrite A, B. auto.
    + congruence.
  - intros [A|[(A & C)|(A & C)]]; auto.
    + apply andb_prop in A. destruct A as [A B]. apply (pline_on_surface surf); auto.
      destruct S as [(S1 & S2 & _)|[(_ & _ & _ & _ & Z & _)|(_ & _ & S3 & _)]]; try congruence.
    + apply andb_prop in A. destruct A as [A B]. right. right. left. auto.
Qed.

Lemma nearest_spec surf hp rp o b out f : hp OMEGA <> 0 -> Rabs (hp PHI0) <= 2 * PI -> is_helix hp rp f ->
  simple surf hp rp -> intersectWithSurface surf hp rp o 0 true = Ok (b, out) ->
  (b = true -> exists s, out = OVal s (f s) /\ nearest f (hp OMEGA) surf s /\ sf_insideBounds surf (f s) = true)
  /\ (b = false -> (forall u, Rabs (hp OMEGA * u) < PI -> ~ on_surface surf (f u))
        \/ exists s, nearest f (hp OMEGA) surf s /\ sf_insideBounds surf (f s) = false).
Proof.
  intros Ho Hp Hf Si E0. assert (F := helix_is_hcurve hp rp f Ho Hf). assert (On := simple_on surf hp rp).
  assert (Gen : forall s, nearest f (hp OMEGA) surf s ->
            (b = true <-> (true = true -> sf_insideBounds surf (f s) = true)) -> out = OVal s (f s) ->
            (b = true -> exists s, out = OVal s (f s) /\ nearest f (hp OMEGA) surf s /\ sf_insideBounds surf (f s) = true)
            /\ (b = false -> (forall u, Rabs (hp OMEGA * u) < PI -> ~ on_surface surf (f u))
                \/ exists s, nearest f (hp OMEGA) surf s /\ sf_insideBounds surf (f s) = false)).
  { intros s N B Q. split.
    - intros T. exists s. split; auto. split; auto. apply B; auto.
    - intros T. right. exists s. split; auto. destruct (sf_insideBounds surf (f s)); auto.
      rewrite (proj2 B) in T by auto. discriminate. }
  assert (Si' := Si). destruct Si' as [Co [(T1 & T2 & T3 & rho & c & Cy & Pr)|[(T1 & T2 & T3 & T4 & Zo & Mg)|(T1 & T2 & T3 & T4)]]];
    unfold intersectWithSurface in E0; cbv zeta in E0; unfold isZCylinder, isZPlane, isZDisk in *.
  - rewrite T1, T3 in E0. cbn [andb] in E0.
    assert (O' : forall x, on_surface surf x <-> on_cylinder rho c x).
    { intros x. rewrite (On x Si), T2. cbn [andb]. split.
      - intros [(r' & c' & _ & Q & H)|[[? _]|[? _]]]; try discriminate. rewrite Cy in Q. injection Q as <- <-. auto.
      - intros H. left. eauto. }
    destruct (zcyl_complete surf hp rp rho c o 0 true f Ho Hp Hf Pr T3 Cy)
      as [(Q0 & _)|[(_ & s & b2 & Pk & B & _ & Q0)|(_ & N & Q0)]]; rewrite Q0 in E0; try discriminate.
    + injection E0 as <- <-. apply (Gen s); auto. split; [apply O'; apply (pk_in _ _ _ _ Pk)|].
      intros u U V. apply (pk_zero _ _ _ _ Pk eq_refl). split; auto. apply O'. auto.
    + injection E0 as <- <-. split; [discriminate|]. intros _. left. intros u U V. apply O' in V.
      destruct (N u (conj U V)) as [[? _]|[? _]]; lia.
  - rewrite T1, T2, T3 in E0. cbn [andb] in E0.
    assert (O' : forall x, on_surface surf x <-> on_line (pline surf) (vx x, vy x)).
    { intros x. rewrite (On x Si), T1, T2, T3, T4. cbn [andb]. split.
      - intros [(r' & c' & Q & _)|[[_ H]|[? _]]]; try discriminate. auto.
      - intros H. right. left. auto. }
    destruct (zplane_outcomes surf hp rp o 0 true f Ho Hp Hf Zo) as (Ys & _ & _ & Y). cbv zeta in *.
    destruct Mg as [Mg|Mg].
    + rewrite (Ys Mg) in E0. injection E0 as <- <-. split; [discriminate|]. intros _. left. intros u _ V. apply O' in V. rewrite F in V.
      refine (disjoint_circle _ _ _ _ (helix_on_circle hp rp u Ho) V). fold (plane_margin surf hp rp). unfold tol9 in Mg. lra.
    + destruct (Y Mg) as [(Q0 & _)|[(_ & s & b2 & Pk & B & Q0)|(_ & N & Q0)]]; rewrite Q0 in E0; try discriminate.
      * injection E0 as <- <-. apply (Gen s); auto. split; [apply O'; apply (pk_in _ _ _ _ Pk)|].
        intros u U V. assert (Rabs s <= Rabs u + 0) by (apply (pk_zero _ _ _ _ Pk eq_refl); split; auto; apply O'; auto).
        unfold tol4. lra.
      * injection E0 as <- <-. split; [discriminate|]. intros _. left. intros u U V. apply O' in V.
        destruct (N u (conj U V)) as [[? _]|[? _]]; lia.
  - rewrite T1, T2, T3, T4 in E0. cbn [andb] in E0.
    assert (O' : forall x, on_surface surf x <-> vz x = vz (sf_origin surf)).
    { intros x. rewrite (On x Si), T1, T2, T3, T4. cbn [andb]. split.
      - intros [(r' & c' & Q & _)|[[? _]|[_ H]]]; try discriminate. auto.
      - intros H. right. right. auto. }
    destruct (zdisk_spec surf hp rp o 0 true f Hf) as [Q1 Q2].
    destruct (Req_dec (hp TANL) 0) as [Z|Z]; [rewrite (Q1 Z) in E0; discriminate|].
    destruct (Q2 Z) as (s & U & x & b2 & R & _ & _ & X & _ & B). rewrite (X Ho) in *. rewrite R in E0. injection E0 as <- <-.
    apply (Gen s); auto.
    + split; [apply O', U; auto|]. intros u _ V. apply O' in V. apply U in V. subst u. unfold tol4. lra.
    + rewrite B. split; [intros [_ W]; auto|]. intros W. split; auto. split; intros; lia.
Qed.

(** ** the event loop *)
Lemma loop_done D : forall l,
  let '(out, r) := debugLoop D l in
  exists l1 l2, l = l1 ++ l2 /\ ~ In None l1
  /\ Forall2 (fun trk o => debugTrack D trk = Ok o) (lone l1) out
  /\ ((l2 = [] /\ r = Ok tt)
      \/ (exists l3, l2 = None :: l3 /\ r = Throw)
      \/ (exists trk l3, l2 = Some [trk] :: l3 /\ same_end (debugTrack D trk) r)).
Proof.
  induction l as [|ev l IH]; cbn [debugLoop].
  { exists [], []. split; auto. split; [intros []|]. split; [constructor|]. left. auto. }
  destruct ev as [ev|].
  2: { exists [], (None :: l). split; auto. split; [intros []|]. split; [constructor|]. right. left. eauto. }
  assert (Skip : (forall trk, ev <> [trk]) -> let '(out, r) := debugLoop D l in
    exists l1 l2, Some ev :: l = l1 ++ l2 /\ ~ In None l1
    /\ Forall2 (fun trk o => debugTrack D trk = Ok o) (lone l1) out
    /\ ((l2 = [] /\ r = Ok tt)
        \/ (exists l3, l2 = None :: l3 /\ r = Throw)
        \/ (exists trk l3, l2 = Some [trk] :: l3 /\ same_end (debugTrack D trk) r))).
  { intros Ne. destruct (debugLoop D l) as [out r]. destruct IH as (l1 & l2 & -> & B & F & E).
    exists (Some ev :: l1), l2. split; auto. split; [intros [X|X]; [discriminate|auto]|]. split; auto.
    destruct ev as [|trk [|trk' ev]]; cbn [lone]; auto. exfalso. exact (Ne trk eq_refl). }
  destruct ev as [|trk [|trk' ev]]; [apply Skip; discriminate| |apply Skip; discriminate].
  destruct (debugTrack D trk) as [o| | | |] eqn:T.
  - destruct (debugLoop D l) as [out r]. destruct IH as (l1 & l2 & -> & B & F & E).
    exists (Some [trk] :: l1), l2. split; auto. split; [intros [X|X]; [discriminate|auto]|]. split; auto. cbn [lone]. constructor; auto.
  - exists [], (Some [trk] :: l). split; auto. split; [intros []|]. split; [constructor|]. right. right. exists trk, l. rewrite T. split; auto. exact I.
  - exists [], (Some [trk] :: l). split; auto. split; [intros []|]. split; [constructor|]. right. right. exists trk, l. rewrite T. split; auto. exact I.
  - exists [], (Some [trk] :: l). split; auto. split; [intros []|]. split; [constructor|]. right. right. exists trk, l. rewrite T. split; auto. exact I.
  - exists [], (Some [trk] :: l). split; auto. split; [intros []|]. split; [constructor|]. right. right. exists trk, l. rewrite T. split; auto. exact I.
Qed.
