(** Lemmas about the small example programs. *)
From Coq Require Import Reals List Bool ZArith Lra Lia Permutation Sorted.
From Coquelicot Require Import Coquelicot.
From Verif Require Import SpecConst Num Vec Helix Isect Trans Material Traj Geom Small.
From Verif Require Import NumFacts SpecHelix HelixFacts PathFacts SpecIsect SurfFacts SurfFacts2 SurfFacts3
  SpecTraj TrajFacts SpecListed ListedFacts SpecDebug DebugFacts SpecSmall.
Import ListNotations.
Open Scope R_scope.

(** what a search ahead says, for surfaces searched in closed form *)
Lemma ahead_spec t surf f b out : let hp := tp_par (tr_ref t) in let rp := tp_ref (tr_ref t) in
  hp OMEGA <> 0 -> Rabs (hp PHI0) <= 2 * PI -> is_helix hp rp f -> simple surf hp rp ->
  intersectWithSurface surf hp rp (OVal 0 v3zero) 1 true = Ok (b, out) ->
  forall s, found t surf s <-> first_ahead f (hp OMEGA) surf s /\ sf_insideBounds surf (f s) = true.
Proof.
  intros hp rp Ho Hp Hf Si E0 s. assert (F := helix_is_hcurve hp rp f Ho Hf). assert (On := simple_on surf hp rp).
  assert (Rd : forall u, 0 <= u -> (Rabs (hp OMEGA * u) < PI <-> u < PI * calculateRadius hp)).
  { intros u U. rewrite (radius_eq hp Ho). unfold Rdiv. rewrite Rmult_1_l, Rabs_inv.
    assert (0 < Rabs (hp OMEGA)) by (apply Rabs_pos_lt; auto).
    rewrite Rabs_mult, (Rabs_pos_eq u) by auto.
    assert (Q : Rabs (hp OMEGA) * (PI * / Rabs (hp OMEGA)) = PI) by (field; lra).
    split; intros V.
    - apply Rmult_lt_reg_l with (Rabs (hp OMEGA)); auto. rewrite Q. auto.
    - rewrite <- Q. apply Rmult_lt_compat_l; auto. }
  unfold found. fold hp rp. rewrite E0.
  assert (Gen : forall s1 b2, out = OVal s1 (f s1) -> b = b2 -> 
            (b2 = true <-> (true = true -> sf_insideBounds surf (f s1) = true)) ->
            (forall u, first_ahead f (hp OMEGA) surf u <-> u = s1) -> Rabs (hp OMEGA * s1) < PI -> 0 <= s1 ->
            ((exists xx, Ok (b, out) = Ok (true, OVal s xx)) /\ 0 <= s < PI * calculateRadius hp
             <-> first_ahead f (hp OMEGA) surf s /\ sf_insideBounds surf (f s) = true)).
  { intros s1 b2 -> -> B Q L P. split.
    - intros [(xx & A) R]. injection A as -> -> _. split; [apply Q; auto|]. apply B; auto.
    - intros [A I]. apply Q in A. subst s1. rewrite (proj2 B) by auto. split; [eauto|]. split; auto. apply Rd; auto. }
  assert (Emp : b = false -> (forall u, ~ first_ahead f (hp OMEGA) surf u) ->
            ((exists xx, Ok (b, out) = Ok (true, OVal s xx)) /\ 0 <= s < PI * calculateRadius hp
             <-> first_ahead f (hp OMEGA) surf s /\ sf_insideBounds surf (f s) = true)).
  { intros -> N. split; [intros [(xx & A) _]; discriminate|]. intros [A _]. exfalso. exact (N s A). }
  assert (Si' := Si). destruct Si' as [Co [(T1 & T2 & T3 & rho & c & Cy & Pr)|[(T1 & T2 & T3 & T4 & Zo & Mg)|(T1 & T2 & T3 & T4)]]];
    unfold intersectWithSurface in E0; cbv zeta in E0; unfold isZCylinder, isZPlane, isZDisk in *.
  - rewrite T1, T3 in E0. cbn [andb] in E0.
    assert (Nd : ~ disk surf) by (intros (A & _); congruence).
    assert (O' : forall x, on_surface surf x <-> on_cylinder rho c x).
    { intros x. rewrite (On x Si), T2. cbn [andb]. split.
      - intros [(r' & c' & _ & Q & H)|[[? _]|[? _]]]; try discriminate. rewrite Cy in Q. injection Q as <- <-. auto.
      - intros H. left. eauto. }
    destruct (zcyl_complete surf hp rp rho c (OVal 0 v3zero) 1 true f Ho Hp Hf Pr T3 Cy)
      as [(Q0 & _)|[(_ & s1 & b2 & Pk & B & _ & Q0)|(_ & N & Q0)]]; rewrite Q0 in E0; try discriminate; injection E0 as <- <-.
    + destruct (pk_in _ _ _ _ Pk) as [K1 K2]. destruct (pk_pos _ _ _ _ Pk ltac:(lia)) as [K3 K4].
      apply (Gen s1 b2); auto. intros u. split.
      * intros (A1 & A2 & A3 & _ & A5). apply Rle_antisym; [apply A5; auto; apply O'; auto|apply K4; auto]. split; auto. apply O'; auto.
      * intros ->. split; [apply O'; auto|]. split; auto. split; auto. split; [intros D; contradiction|].
        intros v V1 V2 V3. apply K4; auto. split; auto. apply O'; auto.
    + apply Emp; auto. intros u (A1 & A2 & A3 & _). apply O' in A1. destruct (N u (conj A3 A1)) as [[_ L]|[L _]]; [lra|lia].
  - rewrite T1, T2, T3 in E0. cbn [andb] in E0.
    assert (Nd : ~ disk surf) by (intros (_ & A & _); congruence).
    assert (O' : forall x, on_surface surf x <-> on_line (pline surf) (vx x, vy x)).
    { intros x. rewrite (On x Si), T1, T2, T3, T4. cbn [andb]. split.
      - intros [(r' & c' & Q & _)|[[_ H]|[? _]]]; try discriminate. auto.
      - intros H. right. left. auto. }
    destruct (zplane_outcomes surf hp rp (OVal 0 v3zero) 1 true f Ho Hp Hf Zo) as (Ys & _ & _ & Y). cbv zeta in *.
    destruct Mg as [Mg|Mg].
    + rewrite (Ys Mg) in E0. injection E0 as <- <-. apply Emp; auto. intros u (V & _). apply O' in V. rewrite F in V.
      refine (disjoint_circle _ _ _ _ (helix_on_circle hp rp u Ho) V). fold (plane_margin surf hp rp). unfold tol9 in Mg. lra.
    + destruct (Y Mg) as [(Q0 & _)|[(_ & s1 & b2 & Pk & B & Q0)|(_ & N & Q0)]]; rewrite Q0 in E0; try discriminate; injection E0 as <- <-.
      * destruct (pk_in _ _ _ _ Pk) as [K1 K2]. destruct (pk_pos _ _ _ _ Pk ltac:(lia)) as [K3 K4].
        apply (Gen s1 b2); auto. intros u. split.
        -- intros (A1 & A2 & A3 & _ & A5). apply Rle_antisym; [apply A5; auto; apply O'; auto|apply K4; auto]. split; auto. apply O'; auto.
        -- intros ->. split; [apply O'; auto|]. split; auto. split; auto. split; [intros D; contradiction|].
           intros v V1 V2 V3. apply K4; auto. split; auto. apply O'; auto.
      * apply Emp; auto. intros u (A1 & A2 & A3 & _). apply O' in A1. destruct (N u (conj A3 A1)) as [[_ L]|[L _]]; [lra|lia].
  - rewrite T1, T2, T3, T4 in E0. cbn [andb] in E0.
    assert (Di : disk surf) by (split; auto).
    assert (O' : forall x, on_surface surf x <-> vz x = vz (sf_origin surf)).
    { intros x. rewrite (On x Si), T1, T2, T3, T4. cbn [andb]. split.
      - intros [(r' & c' & Q & _)|[[? _]|[_ H]]]; try discriminate. auto.
      - intros H. right. right. auto. }
    destruct (zdisk_spec surf hp rp (OVal 0 v3zero) 1 true f Hf) as [Q1 Q2].
    destruct (Req_dec (hp TANL) 0) as [Z|Z]; [rewrite (Q1 Z) in E0; discriminate|].
    destruct (Q2 Z) as (s1 & U & x & b2 & R & _ & _ & X & _ & B). rewrite (X Ho) in *. rewrite R in E0. injection E0 as <- <-.
    split.
    + intros [(xx & A) [R1 R2]]. injection A as -> -> _. destruct B as [B _]. destruct (B eq_refl) as [[B1 _] B2].
      split; [|auto]. split; [apply O', U; auto|]. split; auto. split; [apply Rd; auto|]. split; [intros _; apply B1; lia|].
      intros u _ _ V. apply O' in V. apply U in V. lra.
    + intros [(A1 & A2 & A3 & A4 & A5) I]. apply O', U in A1. subst s1. split; [|split; auto; apply Rd; auto].
      rewrite (proj2 B); [eauto|]. split; auto. split; [auto|lia].
Qed.

(** a call that returns has searched every surface *)
Lemma isectAll_each t maxS : forall l acc r, isectAll t maxS acc l = Ok r ->
  forall surf, In surf l -> exists b out,
    intersectWithSurface surf (tp_par (tr_ref t)) (tp_ref (tr_ref t)) (OVal 0 v3zero) 1 true = Ok (b, out).
Proof.
  induction l as [|x l IH]; intros acc r H surf I; [destruct I|].
  cbn [isectAll] in H. unfold isectOne in H.
  destruct (intersectWithSurface x _ _ _ _ _) as [[b out]| | | |] eqn:Q; try discriminate. cbn [bind] in H.
  destruct I as [<-|I]; [eauto|]. eapply IH; eauto.
Qed.

(** ** the map of lcio_read_example *)
Lemma readMap_rev id l : readMap id l = map (fun s => (id s, s)) (rev l).
Proof.
  unfold readMap. assert (G : forall l m, fold_left (fun m s => (id s, s) :: m) l m
    = map (fun s => (id s, s)) (rev l) ++ m).
  { clear l. induction l as [|s l IH]; intros m; auto. cbn [fold_left rev]. rewrite IH, map_app, <- app_assoc. reflexivity. }
  rewrite G, app_nil_r. reflexivity.
Qed.

Lemma readFind_spec id l k : match readFind (readMap id l) k with
  | Some surf => last_with id l k surf
  | None => forall surf, In surf l -> id surf <> k
  end.
Proof.
  unfold readFind. rewrite readMap_rev. unfold last_with.
  remember (rev l) as r eqn:Er.
  assert (El : l = rev r) by (rewrite Er, rev_involutive; auto). clear Er. subst l.
  induction r as [|s r IH]; cbn [map find].
  - intros surf [].
  - cbn [fst]. destruct (Z.eqb_spec (id s) k) as [Q|Q].
    + exists (rev r), []. cbn [rev]. split; auto.
    + destruct (find _ (map _ r)) as [[k' x]|].
      * destruct IH as (l1 & l2 & A & B & C). exists l1, (l2 ++ [s]). cbn [rev]. rewrite A, <- app_assoc. split; auto. split; auto.
        intros y I. apply in_app_or in I. destruct I as [I|[<-|[]]]; auto.
      * intros surf I. cbn [rev] in I. apply in_app_or in I. destruct I as [I|[<-|[]]]; auto.
Qed.

Lemma last_with_in {A : Type} (id : A -> Z) l k x : last_with id l k x -> In x l /\ id x = k.
Proof. intros (l1 & l2 & -> & E & _). split; auto. apply in_or_app. right. left. auto. Qed.

Lemma last_with_unique {A : Type} (id : A -> Z) l k x y : last_with id l k x -> last_with id l k y -> x = y.
Proof.
  intros (l1 & l2 & Q & E & N) (m1 & m2 & Q' & E' & N'). rewrite Q in Q'. clear Q. revert m1 Q'.
  induction l1 as [|a l1 IH]; intros [|b m1] Q'; cbn [app] in Q'; injection Q' as -> Q'.
  - auto.
  - exfalso. apply (N y); auto. rewrite Q'. apply in_or_app. right. left. auto.
  - exfalso. apply (N' x); auto. rewrite <- Q'. apply in_or_app. right. left. auto.
  - eauto.
Qed.

Lemma cellID0_spec c k : cellID0 c = k <-> signed_word c k.
Proof.
  unfold cellID0, signed_word. change (2 ^ 32)%Z with 4294967296%Z. change (2 ^ 31)%Z with 2147483648%Z.
  assert (E1 := Z.div_mod (c + 2147483648) 4294967296 ltac:(lia)). assert (B1 := Z.mod_pos_bound (c + 2147483648) 4294967296 ltac:(lia)).
  split.
  - intros <-. split; [lia|].
    replace ((c + 2147483648) mod 4294967296 - 2147483648)%Z
      with (c + (- ((c + 2147483648) / 4294967296)) * 4294967296)%Z by lia.
    apply Z_mod_plus_full.
  - intros [B Q].
    assert (E2 := Z.div_mod c 4294967296 ltac:(lia)). assert (E3 := Z.div_mod k 4294967296 ltac:(lia)). rewrite Q in E3.
    set (q := (c / 4294967296)%Z) in *. set (q' := (k / 4294967296)%Z) in *. set (r := (c mod 4294967296)%Z) in *.
    replace (c + 2147483648)%Z with (k + 2147483648 + (q - q') * 4294967296)%Z by lia.
    rewrite Z_mod_plus_full, Z.mod_small by lia. lia.
Qed.

Lemma readHits_spec id geom : forall l out r, readHits (readMap id geom) l = (out, r) ->
  (r = Ok tt /\ Forall2 (hit_line id geom) l out)
  \/ exists l1 c l2, l = l1 ++ c :: l2 /\ r = UB /\ no_surface id geom c /\ Forall2 (hit_line id geom) l1 out.
Proof.
  induction l as [|c l IH]; intros out r H; cbn [readHits] in H.
  - injection H as <- <-. left. split; auto.
  - assert (F := readFind_spec id geom (cellID0 c)). destruct (readFind _ _) as [surf|].
    + destruct (readHits _ l) as [out' r'] eqn:Q. injection H as <- <-.
      assert (Hl : hit_line id geom c (RFound surf (cellID0 c))).
      { exists surf, (cellID0 c). split; auto. split; auto. apply cellID0_spec. auto. }
      destruct (IH _ _ eq_refl) as [[A B]|(l1 & c' & l2 & A & B & C & D)].
      * left. split; auto.
      * right. exists (c :: l1), c', l2. rewrite A. split; auto.
    + injection H as <- <-. right. exists [], c, l. split; auto. split; auto. split; auto.
      intros surf I K. apply cellID0_spec in K. exact (F surf I (eq_sym K)).
Qed.

Lemma hit_line_unique id geom c x y : hit_line id geom c x -> hit_line id geom c y -> x = y.
Proof.
  intros (s & k & -> & K & L) (s' & k' & -> & K' & L'). apply cellID0_spec in K, K'. rewrite K in K'. subst k'.
  rewrite (last_with_unique _ _ _ _ _ L L'). auto.
Qed.
Lemma hit_not_no id geom c x : hit_line id geom c x -> no_surface id geom c -> False.
Proof. intros (s & k & -> & K & L) N. destruct (last_with_in _ _ _ _ L) as [I E]. apply (N s I). rewrite E. auto. Qed.

Lemma readHits_ok id geom l out : Forall2 (hit_line id geom) l out -> readHits (readMap id geom) l = (out, Ok tt).
Proof.
  induction 1 as [|c x l out H1 H2 IH]; cbn [readHits]; auto.
  destruct H1 as (s & k & -> & K & L). apply cellID0_spec in K. rewrite K.
  assert (F := readFind_spec id geom k). destruct (readFind _ k) as [s'|].
  - rewrite IH, (last_with_unique _ _ _ _ _ L F). auto.
  - destruct (last_with_in _ _ _ _ L) as [I E]. exfalso. exact (F s I E).
Qed.

Lemma readHits_bad id geom l1 c l2 out : Forall2 (hit_line id geom) l1 out -> no_surface id geom c ->
  readHits (readMap id geom) (l1 ++ c :: l2) = (out, UB).
Proof.
  intros H N. induction H as [|c' x l out H1 H2 IH]; cbn [app readHits].
  - assert (F := readFind_spec id geom (cellID0 c)). destruct (readFind _ _) as [s|]; auto.
    destruct (last_with_in _ _ _ _ F) as [I E]. exfalso. apply (N s I). rewrite E. apply cellID0_spec. auto.
  - destruct H1 as (s & k & -> & K & L). apply cellID0_spec in K. rewrite K.
    assert (F := readFind_spec id geom k). destruct (readFind _ k) as [s'|].
    + rewrite IH, (last_with_unique _ _ _ _ _ L F). auto.
    + destruct (last_with_in _ _ _ _ L) as [I E]. exfalso. exact (F s I E).
Qed.

(** all events with collection, the hits of which have surfaces *)
Lemma readEvents_app id geom evs out l : Forall2 (hit_line id geom) (concat evs) out ->
  readEvents (readMap id geom) (map Some evs ++ l)
  = (out ++ fst (readEvents (readMap id geom) l), snd (readEvents (readMap id geom) l)).
Proof.
  revert out. induction evs as [|e evs IH]; intros out H; cbn [concat] in H; cbn [map app readEvents].
  - inversion H. cbn [app]. apply surjective_pairing.
  - apply Forall2_app_inv_l in H. destruct H as (o1 & o2 & H1 & H2 & ->).
    rewrite (readHits_ok _ _ _ _ H1), (IH _ H2), app_assoc. auto.
Qed.
