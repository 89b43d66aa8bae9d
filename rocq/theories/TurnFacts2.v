(** Additions, preparation and queries of a trajectory in a turned setup. *)
From Coq Require Import Reals List Bool ZArith Lra Lia FunctionalExtensionality.
From Verif Require Import SpecConst Num Vec Helix Isect Trans Material Traj Fit.
From Verif Require Import NumFacts SpecHelix HelixFacts PathFacts MoveFacts SpecIsect SurfFacts SurfFacts2 MaterialFacts TrajFacts.
From Verif Require Import SpecSym SymFacts SymFacts2 SymFacts3 PropSym SpecTraj SpecTurn TurnFacts.
Import ListNotations.
Open Scope R_scope.

Lemma detector_wf S : detector_ok S -> wf_surface S.
Proof.
  intros [A B]. split; auto. intros P Q. destruct (B P Q) as [Z U]. split; auto.
  unfold vdot in U. rewrite Z in U.
  set (x := vx (sf_normal S v3zero)) in *. set (y := vy (sf_normal S v3zero)) in *. clearbody x y.
  destruct (Rle_dec tol12 (Rabs x)) as [|L]; auto. right.
  apply Rnot_le_lt in L. apply Rnot_lt_le. intros L'. unfold tol12 in *.
  apply Rabs_def2 in L. apply Rabs_def2 in L'. 
  assert (/ 1000000000000 < / 4) by (apply Rinv_lt_contravar; lra). nra.
Qed.

Lemma hcurve_off_axis hp rp s : hp OMEGA <> 0 ->
  off_axis hp rp (vx (hcurve hp rp s)) (vy (hcurve hp rp s)).
Proof. intros N. apply on_circle_off_axis. apply hcurve_on_circle; auto. Qed.

Section Turn.
Variables (g : motion) (F : m_flip g = false).

(** a pair of states to which everything applies *)
Definition pair_ok (tp tp' : trackParameters) : Prop :=
  turned_tp g tp tp' /\ tp_par tp OMEGA <> 0
  /\ Rabs (tp_par tp PHI0) <= 2 * PI /\ Rabs (tp_par tp' PHI0) <= 2 * PI.

Definition elem_ok (d : R) (e e' : telem) : Prop :=
  turned_elem g d e e' /\ pair_ok (te_tp e) (te_tp e')
  /\ (forall S, te_surf e = Some S -> usable g S).

Lemma move_turn tp tp' v : pair_ok tp tp' -> off_axis (tp_par tp) (tp_ref tp) (vx v) (vy v) ->
  alike (fun a b => pair_ok (fst a) (fst b) /\ snd b = snd a)
    (moveHelixTo tp v false) (moveHelixTo tp' (map_point g v) false).
Proof.
  intros (T & N & _) O. destruct (turned_image g tp tp' F T) as (h & L & Fh & ->).
  destruct (move_map h tp v false N O) as (c' & p' & fid & E & H).
  destruct (H (or_introl Fh)) as (p'' & E' & SP). rewrite (like_point _ _ L) in E'. rewrite E, E'. cbn [alike fst snd].
  assert (R1 : tp_par tp OMEGA <> 0) by auto.
  assert (R2 : tp_par (map_tp h tp) OMEGA <> 0) by (cbn [map_tp tp_par]; apply om_map; auto).
  destruct (moveHelixTo_closed tp v false R1) as (q & f1 & cs & sn & M & _ & _ & _ & _ & Q).
  destruct (moveHelixTo_closed (map_tp h tp) (map_point g v) false R2) as (q' & f2 & cs' & sn' & M' & _ & _ & _ & _ & Q').
  rewrite Q in E. rewrite Q' in E'. injection E as Ec -> ->. injection E' as Ec' -> ->. 
  assert (G := PI_pos).
  split; [|unfold hand; rewrite Fh; ring].
  split; [|split; [|split]]; cbn [tp_par tp_cov tp_ref].
  - split; [cbn; rewrite <- Ec, map_cov_id; auto|]. split; [auto|]. cbn [tp_par].
    eapply same_par_trans; [exact SP|].
    destruct T as (_ & _ & (_ & _ & _ & _ & k & P)). cbn [map_tp tp_par] in P.
    repeat split; try (unfold map_par, hand, OMEGA, TANL, D0, Z0; cbn [mk5]; rewrite ?Fh, ?F; reflexivity).
    exists k. unfold map_par, hand, PHI0 in *; cbn [mk5] in *. rewrite F, Fh in *. lra.
  - rewrite (ms_om _ _ _ _ M). auto.
  - destruct (ms_phi_range _ _ _ _ M). apply Rabs_le. lra.
  - destruct (ms_phi_range _ _ _ _ M'). apply Rabs_le. lra.
Qed.

Lemma loss_turn tp tp' el : pair_ok tp tp' -> alike pair_ok (applyLoss tp el) (applyLoss tp' el).
Proof.
  intros ((C & R & (O & T & D & Z & k & P)) & N & P1 & P2). unfold applyLoss.
  eapply alike_bind; [apply alike_eq; reflexivity|]. intros q ? _ _ <-.
  assert (H : hand g = 1) by (unfold hand; rewrite F; auto).
  assert (O' : tp_par tp' OMEGA = tp_par tp OMEGA).
  { rewrite O. unfold map_par, OMEGA; cbn [mk5]. rewrite H. ring. }
  rewrite O'. eapply alike_bind; [apply alike_eq; reflexivity|]. intros om ? E _ <-. cbn [alike].
  assert (Nom : om <> 0).
  { unfold rdiv in E. destruct (Req_EM_T (1 - q) 0); [discriminate|]. injection E as <-.
    unfold Rdiv. apply Rmult_integral_contrapositive. split; auto. apply Rinv_neq_0_compat; auto. }
  split; [|split; [|split]]; cbn [tp_par tp_cov tp_ref]; auto.
  split; [auto|]. split; [auto|]. cbn [tp_par].
  unfold v5set, map_par, OMEGA, TANL, PHI0, D0, Z0 in *; cbn [mk5] in *.
  repeat split; cbn; auto; rewrite ?H; try ring.
  exists k. unfold PHI0. rewrite P, H. ring.
Qed.

Lemma mkElement_turn d s tp tp' S S' dirs prec resid cls id sc hm :
  moved_detector g S S' -> usable g S -> pair_ok tp tp' -> length dirs = 2%nat ->
  alike (elem_ok d) (mkElement s tp S dirs prec resid cls id sc hm)
    (mkElement (s + d) tp' S' (map (map_dir g) dirs) prec resid (map_dir g (fst cls), map_dir g (snd cls)) id sc hm).
Proof.
  intros M W P L. unfold mkElement. cbn [fst snd]. rewrite (proj_turn g _ _ _ L).
  eapply alike_bind; [apply alike_eq; reflexivity|]. intros p ? _ _ <-. cbn [alike].
  split; [|split; [exact P|]].
  - constructor; cbn; auto. apply P.
  - cbn. intros ? [= <-]. auto.
Qed.

Lemma isect_xx S tp o cb mode s xx : detector_ok S -> tp_par tp OMEGA <> 0 ->
  Rabs (tp_par tp PHI0) <= 2 * PI ->
  intersectWithSurface S (tp_par tp) (tp_ref tp) o mode cb = Ok (true, OVal s xx) ->
  xx = hcurve (tp_par tp) (tp_ref tp) s.
Proof.
  intros W N P E.
  apply (dispatch_sound S (tp_par tp) (tp_ref tp) o mode cb _ s xx N P (hcurve_helix _ _ N) (detector_wf _ W) E).
Qed.

Definition both_ok d := both (elem_ok d).

Lemma newMeasurement_turn d E E' mass e e' position precision S S' id sc :
  turned_env g E E' -> moved_detector g S S' -> usable g S -> elem_ok d e e' ->
  alike (both_ok d) (newMeasurement E mass e position precision S id sc)
    (newMeasurement E' mass e' (map_point g position) precision S' id sc).
Proof.
  intros EV M W (TE & P & _). destruct P as (T & N & P1 & P2). unfold newMeasurement. cbv zeta.
  eapply alike_bind; [apply (isect_turn g F S S' (te_tp e) (te_tp e')); auto; apply M|].
  intros [b o] [b' o'] I1 I2 [H1 H2]. cbn [fst snd] in *. subst b'.
  destruct b; [|exact I]. rewrite (H2 eq_refl). destruct o as [s0 xx|]; [|exact I]. cbn [map_out].
  assert (Ex := isect_xx S (te_tp e) _ _ _ _ _ (proj1 W) N P1 I1).
  eapply alike_bind; [apply move_turn; [split; auto|]; rewrite Ex; apply hcurve_off_axis; auto|].
  intros [tp1 f1] [tp1' f1'] _ _ [Pm _]. cbn [fst snd] in *.
  eapply alike_bind.
  { apply alike_rmap. apply (mom_turn g F (en_gfield E)); [apply (ev_gfield _ _ _ EV)|apply Pm]. }
  intros mom ? _ _ ->. rewrite !(md_local _ _ _ M).
  rewrite (eloss_map g S S' _ _ _ M).
  eapply alike_bind; [apply alike_eq; reflexivity|]. intros el ? _ _ <-.
  eapply alike_bind; [apply loss_turn; exact Pm|]. intros tp2 tp2' _ _ P2'.
  rewrite (qms_map g S S' _ _ _ M).
  eapply alike_bind; [apply alike_eq; reflexivity|]. intros np ? _ _ <-.
  rewrite (cls_turn g F 0 (tp_par tp2) (tp_par tp2')) by apply P2'.
  rewrite (md_u _ _ _ M), (md_v _ _ _ M), (tu_s _ _ _ _ TE), <- Rplus_assoc.
  change [map_dir g (sf_u S position); map_dir g (sf_v S position)]
    with (map (map_dir g) [sf_u S position; sf_v S position]).
  eapply alike_bind; [apply mkElement_turn; auto|]. intros n n' _ _ Q. exact Q.
Qed.

Lemma newScatterer_turn d E E' mass e e' S S' :
  turned_env g E E' -> moved_detector g S S' -> usable g S -> elem_ok d e e' ->
  alike (both_ok d) (newScatterer E mass e S) (newScatterer E' mass e' S').
Proof.
  intros EV M W (TE & P & _). destruct P as (T & N & P1 & P2). unfold newScatterer. cbv zeta.
  eapply alike_bind; [apply (isect_turn g F S S' (te_tp e) (te_tp e')); auto; apply M|].
  intros [b o] [b' o'] I1 I2 [H1 H2]. cbn [fst snd] in *. subst b'.
  destruct b; [|exact I]. rewrite (H2 eq_refl). destruct o as [s0 xx|]; [|exact I]. cbn [map_out].
  assert (Ex := isect_xx S (te_tp e) _ _ _ _ _ (proj1 W) N P1 I1).
  eapply alike_bind; [apply move_turn; [split; auto|]; rewrite Ex; apply hcurve_off_axis; auto|].
  intros [tp1 f1] [tp1' f1'] _ _ [Pm _]. cbn [fst snd] in *.
  eapply alike_bind.
  { apply alike_rmap. apply (mom_turn g F (en_gfield E)); [apply (ev_gfield _ _ _ EV)|apply Pm]. }
  intros mom ? _ _ ->. rewrite !(md_local _ _ _ M).
  rewrite (eloss_map g S S' _ _ _ M).
  eapply alike_bind; [apply alike_eq; reflexivity|]. intros el ? _ _ <-.
  eapply alike_bind; [apply loss_turn; exact Pm|]. intros tp2 tp2' _ _ P2'.
  rewrite (qms_map g S S' _ _ _ M).
  eapply alike_bind; [apply alike_eq; reflexivity|]. intros np ? _ _ <-.
  rewrite (cls_turn g F 0 (tp_par tp2) (tp_par tp2')) by apply P2'.
  rewrite (md_u _ _ _ M), (md_v _ _ _ M), (tu_s _ _ _ _ TE), <- Rplus_assoc.
  change [map_dir g (sf_u S xx); map_dir g (sf_v S xx)]
    with (map (map_dir g) [sf_u S xx; sf_v S xx]).
  eapply alike_bind; [apply mkElement_turn; auto|]. intros n n' _ _ Q. exact Q.
Qed.

(** ** trajectories *)
Record inv (d : R) (t t' : traj) : Prop := {
  iv_ref : pair_ok (tr_ref t) (tr_ref t');
  iv_zero : alike (fun a b => b = a + d) (calculateSfromXY 0 0 (tp_par (tr_ref t)) (tp_ref (tr_ref t)))
              (calculateSfromXY 0 0 (tp_par (tr_ref t')) (tp_ref (tr_ref t')));
  iv_prop : both (turned_prop g) (tr_prop t) (tr_prop t');
  iv_mass : tr_mass t' = tr_mass t;
  iv_elems : Forall2 (elem_ok d) (tr_elems t) (tr_elems t');
  iv_isect : Forall2 (fun a b => fst b = fst a /\ moved_detector g (snd a) (snd b))
               (tr_isect t) (tr_isect t')
}.

Lemma Forall2_mono {A B} (P Q : A -> B -> Prop) l l' : (forall a b, P a b -> Q a b) ->
  Forall2 P l l' -> Forall2 Q l l'.
Proof. induction 2; constructor; auto. Qed.

Lemma inv_turned d t t' : inv d t t' -> turned_traj g d t t'.
Proof.
  intros [R A P M El I]. constructor; auto; [apply R|].
  eapply Forall2_mono; [|exact El]. intros a b H. apply H.
Qed.

Lemma SfromXY_origin tp tp' : keeps_axis g -> pair_ok tp tp' -> off_axis (tp_par tp) (tp_ref tp) 0 0 ->
  calculateSfromXY 0 0 (tp_par tp') (tp_ref tp') = calculateSfromXY 0 0 (tp_par tp) (tp_ref tp).
Proof.
  intros (_ & KX & KY) (T & N & P1 & P2) O.
  destruct (turned_image g tp tp' F T) as (h & L & Fh & ->). cbn [map_tp tp_par tp_ref] in *.
  assert (Q := C69_path h (tp_par tp) (tp_ref tp) 0 0). cbv zeta in Q.
  assert (E : map_point h (V3 0 0 0) = V3 0 0 (vz (m_shift g))).
  { rewrite (like_point _ _ L). unfold map_point, map_dir, vadd; cbn [vx vy vz]. rewrite KX, KY.
    f_equal; ring. }
  rewrite E in Q. cbn [vx vy] in Q. apply Q; auto. split; auto.
Qed.

Lemma ensure_turn d t t' : inv d t t' -> alike (inv d) (ensureInitial t) (ensureInitial t').
Proof.
  intros V. destruct V as [R A P M El I]. unfold ensureInitial.
  inversion El as [E1 E2|a b l l' H1 H2 E1 E2].
  - unfold addElement. cbn [v3zero vx vy]. eapply alike_bind; [exact A|]. intros s0 ? _ _ ->. cbn [alike].
    constructor; cbn [set_elems tr_ref tr_prop tr_mass tr_elems tr_isect]; eauto.
    rewrite <- E1, <- E2. cbn [app]. constructor; [|constructor].
    split; [|split; [exact R|]].
    + constructor; cbn; auto. apply R.
    + cbn. discriminate.
  - constructor; auto.
Qed.

Lemma last_turn {A} (Q : A -> A -> Prop) l l' : Forall2 Q l l' -> forall a a', Q a a' ->
  Q (last l a) (last l' a').
Proof.
  induction 1 as [|x y l l' H FF IH]; intros a a' Ha; auto.
  destruct FF as [|u v m m' H1 H2]; [exact H|].
  exact (IH a a' Ha).
Qed.

Definition step_rel (d : R) (x y : res bool * option traj) : Prop := fst y = fst x /\ both (inv d) (snd x) (snd y).

Lemma push_turn d t t' new new' : inv d t t' ->
  (forall e e', elem_ok d e e' -> alike (both_ok d) (new e) (new' e')) ->
  step_rel d (added (pushElement t new)) (added (pushElement t' new')).
Proof.
  intros V H. unfold pushElement. generalize (ensure_turn d t t' V).
  destruct (ensureInitial t) as [t1| | | |], (ensureInitial t') as [t1'| | | |]; cbn [alike]; try contradiction; intros V1.
  2: { unfold added, step_rel; cbn. auto. }
  2-4: unfold added, step_rel; cbn; auto.
  assert (Fe := iv_elems _ _ _ V1). inversion Fe as [E1 E2|a b l l' H1 H2 E1 E2].
  { unfold added, step_rel; cbn; auto. }
  assert (Q := H _ _ (last_turn _ l l' H2 a b H1)).
  destruct (new (last l a)) as [[n|]| | | |], (new' (last l' b)) as [[n'|]| | | |]; cbn [alike both_ok both] in Q;
    try contradiction; unfold added, step_rel; cbn [fst snd]; split; auto; cbn [both]; auto.
  constructor; cbn [set_elems tr_ref tr_prop tr_mass tr_elems tr_isect]; try apply V1.
  change (a :: l ++ [n]) with ((a :: l) ++ [n]). change (b :: l' ++ [n']) with ((b :: l') ++ [n']).
  apply Forall2_app; [constructor; auto|]. constructor; auto.
Qed.

(** ** tangents, points *)
Lemma elementAt_turn (Q : telem -> telem -> Prop) s l l' : (forall a b, Q a b -> te_s b = te_s a) ->
  Forall2 Q l l' -> forall p e e', Q e e' ->
  Q (elementAt_loop s p e l) (elementAt_loop s p e' l').
Proof.
  intros HQ. induction 1 as [|x y l l' H FF IH]; intros p e e' He; auto. cbn [elementAt_loop].
  rewrite (HQ _ _ H). destruct (Rle_dec p s); [destruct (Rlt_dec s (te_s x))|]; auto.
Qed.

Lemma at_turn t t' s : turned_traj g 0 t t' ->
  alike (turned_elem g 0) (trajectoryElementAt t s) (trajectoryElementAt t' s).
Proof.
  intros V. unfold trajectoryElementAt.
  destruct (tt_elems _ _ _ _ V) as [|a b l l' H FF]; [exact I|]. cbn [alike].
  apply elementAt_turn; auto. intros a0 b0 Q. rewrite (tu_s _ _ _ _ Q). ring.
Qed.

Lemma tangentAt_turn t t' s : turned_traj g 0 t t' ->
  tr_tangentAt t' s = rmap (map_dir g) (tr_tangentAt t s).
Proof.
  intros V. unfold tr_tangentAt. generalize (at_turn t t' s V).
  destruct (trajectoryElementAt t s), (trajectoryElementAt t' s); cbn [alike bind rmap]; intros H; try contradiction; auto.
  rewrite (tu_s _ _ _ _ H), Rplus_0_r. destruct (tu_tp _ _ _ _ H) as (_ & _ & SP).
  rewrite (tangent_turn g _ _ _ SP). reflexivity.
Qed.

Lemma pointAt_turn t t' s : turned_traj g 0 t t' ->
  tr_pointAt t' s = rmap (map_point g) (tr_pointAt t s).
Proof.
  intros V. unfold tr_pointAt. generalize (at_turn t t' s V).
  destruct (trajectoryElementAt t s), (trajectoryElementAt t' s); cbn [alike bind rmap]; intros H; try contradiction; auto.
  rewrite (tu_s _ _ _ _ H), Rplus_0_r.
  destruct (turned_image g _ _ F (tu_tp _ _ _ _ H)) as (h & L & Fh & ->). cbn [map_tp tp_par tp_ref].
  rewrite pointAt_map, (like_point _ _ L). reflexivity.
Qed.

(** ** preparation *)
Lemma phi_turn tp tp' s : turned_tp g tp tp' -> tp_par tp OMEGA <> 0 ->
  let x := hcurve (tp_par tp) (tp_ref tp) s in
  let x' := map_point g x in
  V3 (cos (calculatePhifromXY (vx x') (vy x') (tp_par tp') (tp_ref tp')))
     (sin (calculatePhifromXY (vx x') (vy x') (tp_par tp') (tp_ref tp'))) (tp_par tp' TANL)
  = map_dir g (V3 (cos (calculatePhifromXY (vx x) (vy x) (tp_par tp) (tp_ref tp)))
     (sin (calculatePhifromXY (vx x) (vy x) (tp_par tp) (tp_ref tp))) (tp_par tp TANL)).
Proof.
  intros T N. destruct (turned_image g tp tp' F T) as (h & L & Fh & ->).
  cbn [map_tp tp_par tp_ref]. cbv zeta. rewrite <- (like_point _ _ L). 
  assert (N' : map_par h (tp_par tp) OMEGA <> 0) by (apply om_map; auto).
  rewrite <- (hcurve_map h (tp_par tp) (tp_ref tp) s N).
  destruct (MaterialFacts.phi_direction (tp_par tp) (tp_ref tp) _ (hcurve_helix _ _ N) s) as [C S].
  destruct (MaterialFacts.phi_direction (map_par h (tp_par tp)) (map_point h (tp_ref tp)) _ (hcurve_helix _ _ N') s) as [C' S'].
  rewrite C, S, C', S'.
  unfold map_par, OMEGA, PHI0, TANL; cbn [mk5]. fold OMEGA PHI0 TANL.
  replace (hand h * tp_par tp PHI0 + m_turn h - hand h * tp_par tp OMEGA * s)
    with (hand h * (tp_par tp PHI0 - tp_par tp OMEGA * s) + m_turn h) by ring.
  rewrite cos_map, sin_map. destruct L as (_ & _ & <-). reflexivity.
Qed.

Lemma eloss_tp_turn E E' S S' tp tp' mass : turned_env g E E' -> moved_detector g S S' -> usable g S ->
  pair_ok tp tp' ->
  computeEnergyLoss_tp (en_gfield E') S' tp' mass = computeEnergyLoss_tp (en_gfield E) S tp mass.
Proof.
  intros EV M W (T & N & P1 & P2). apply alike_eq_inv. unfold computeEnergyLoss_tp. cbv zeta.
  eapply alike_bind; [apply (isect_turn g F S S' tp tp'); auto; apply M|].
  intros [b o] [b' o'] I1 I2 [H1 H2]. cbn [fst snd] in *. subst b'.
  destruct b; [|reflexivity]. rewrite (H2 eq_refl). destruct o as [s0 xx|]; [|exact I]. cbn [map_out].
  assert (Ex := isect_xx S tp _ _ _ _ _ (proj1 W) N P1 I1).
  assert (Q := phi_turn tp tp' s0 T N). cbv zeta in Q. rewrite <- Ex in Q.
  rewrite (ev_gfield _ _ _ EV), (md_local _ _ _ M).
  assert (O' : calculateOmega (tp_par tp') = calculateOmega (tp_par tp)).
  { unfold calculateOmega. destruct T as (_ & _ & (O & _)). rewrite O.
    unfold map_par, hand, OMEGA; cbn [mk5]. rewrite F. ring. }
  rewrite O'. eapply alike_bind; [apply alike_eq; reflexivity|]. intros rr ? _ _ <-.
  change (vz (map_dir g (en_gfield E xx))) with (vz (en_gfield E xx)).
  set (pt := Rabs rr * vz (en_gfield E xx) * convertBr2P_cm).
  assert (Em : V3 (pt * cos (calculatePhifromXY (vx (map_point g xx)) (vy (map_point g xx)) (tp_par tp') (tp_ref tp')))
        (pt * sin (calculatePhifromXY (vx (map_point g xx)) (vy (map_point g xx)) (tp_par tp') (tp_ref tp')))
        (pt * calculateTanLambda (tp_par tp'))
      = map_dir g (V3 (pt * cos (calculatePhifromXY (vx xx) (vy xx) (tp_par tp) (tp_ref tp)))
        (pt * sin (calculatePhifromXY (vx xx) (vy xx) (tp_par tp) (tp_ref tp)))
        (pt * calculateTanLambda (tp_par tp)))).
  { etransitivity; [|symmetry; apply (map_dir_scale g pt (V3
        (cos (calculatePhifromXY (vx xx) (vy xx) (tp_par tp) (tp_ref tp)))
        (sin (calculatePhifromXY (vx xx) (vy xx) (tp_par tp) (tp_ref tp))) (tp_par tp TANL)))].
    rewrite <- Q. reflexivity. }
  rewrite Em, (eloss_map g S S' _ _ _ M).
  eapply alike_bind; [apply alike_eq; reflexivity|]. intros el ? _ _ <-. reflexivity.
Qed.

Lemma lossTerm_turn d E E' mass e e' : turned_env g E E' -> elem_ok d e e' ->
  lossTerm E' mass e' = lossTerm E mass e.
Proof.
  intros EV (TE & P & W). unfold lossTerm. rewrite (tu_scat _ _ _ _ TE).
  destruct (te_scat e); auto. assert (B := tu_surf _ _ _ _ TE). 
  destruct (te_surf e) as [S|], (te_surf e') as [S'|]; cbn [both] in B; try contradiction; auto.
  rewrite (eloss_tp_turn E E' S S' (te_tp e) (te_tp e') mass); auto.
Qed.

Lemma lambda_turn tp tp' : turned_tp g tp tp' -> calculateLambda (tp_par tp') = calculateLambda (tp_par tp).
Proof. intros (_ & _ & (_ & T & _)). unfold calculateLambda. rewrite T. reflexivity. Qed.
Lemma omega_turn tp tp' : turned_tp g tp tp' -> tp_par tp' OMEGA = tp_par tp OMEGA.
Proof.
  intros (_ & _ & (O & _)). rewrite O. unfold map_par, hand, OMEGA; cbn [mk5].
  rewrite F. ring.
Qed.

Lemma prepareOne_turn E E' t t' s e e' : turned_env g E E' -> turned_traj g 0 t t' -> (elem_ok 0) e e' ->
  alike (elem_ok 0) (prepareOne E t s e) (prepareOne E' t' s e').
Proof.
  intros EV V He. assert (He' := He). destruct He' as (TE & P & W). unfold prepareOne. cbv zeta.
  assert (T := tu_tp _ _ _ _ TE). rewrite (lambda_turn _ _ T), (tu_s _ _ _ _ TE), Rplus_0_r.
  eapply alike_bind; [apply alike_eq; reflexivity|]. intros dw ? _ _ <-.
  rewrite (tt_mass _ _ _ _ V), (lossTerm_turn 0 E E' _ e e' EV He).
  eapply alike_bind; [apply alike_eq; reflexivity|]. intros nrj ? _ _ <-.
  eapply alike_bind; [apply alike_rmap, tangentAt_turn; exact V|]. intros ts ? _ _ ->.
  eapply alike_bind; [apply alike_rmap, tangentAt_turn; exact V|]. intros tn ? _ _ ->.
  assert (B := tt_prop _ _ _ _ V). destruct (tr_prop t) as [J|], (tr_prop t') as [J'|]; cbn [both] in B; try contradiction; [|exact I].
  destruct T as (TC & TR & TP). rewrite TR, (ev_bfield _ _ _ EV).
  assert (Q : calculateQoverP (tp_par (te_tp e')) (vz (map_dir g (en_bfield E (tp_ref (te_tp e)))))
            = calculateQoverP (tp_par (te_tp e)) (vz (en_bfield E (tp_ref (te_tp e))))).
  { unfold calculateQoverP, calculateCurvature. change (vz (map_dir g ?v)) with (vz v).
    rewrite (lambda_turn _ _ (tu_tp _ _ _ _ TE)), (omega_turn _ _ (tu_tp _ _ _ _ TE)). reflexivity. }
  rewrite Q, B.
  eapply alike_bind; [apply alike_eq; reflexivity|]. intros j ? _ _ <-. cbn [alike].
  split; [|split; [exact P|exact W]].
  destruct TE. constructor; cbn; auto.
Qed.

Lemma prepareLoop_turn E E' t t' l l' : turned_env g E E' -> turned_traj g 0 t t' -> Forall2 (elem_ok 0) l l' ->
  forall s, alike (Forall2 (elem_ok 0)) (prepareLoop E t s l) (prepareLoop E' t' s l').
Proof.
  intros EV V. induction 1 as [|e e' l l' H FF IH]; intros s; cbn [prepareLoop]; [constructor|].
  eapply alike_bind; [apply prepareOne_turn; eauto|]. intros n n' _ _ Hn.
  rewrite (tu_s _ _ _ _ (proj1 H)), Rplus_0_r.
  eapply alike_bind; [apply IH|]. intros m m' _ _ Hm. constructor; auto.
Qed.

Lemma prepare_turn E E' t t' : turned_env g E E' -> inv 0 t t' ->
  alike (inv 0) (prepareForFitting E t) (prepareForFitting E' t').
Proof.
  intros EV V. unfold prepareForFitting. cbv zeta.
  assert (S : Forall2 (elem_ok 0) (en_sortE E (tr_elems t)) (en_sortE E' (tr_elems t'))).
  { apply (ev_sortE _ _ _ EV (elem_ok 0)); [intros a b H; rewrite (tu_s _ _ _ _ (proj1 H)); ring|apply V]. }
  assert (V1 : inv 0 (set_elems t (en_sortE E (tr_elems t))) (set_elems t' (en_sortE E' (tr_elems t')))).
  { constructor; cbn [set_elems tr_ref tr_prop tr_mass tr_elems tr_isect]; try apply V. exact S. }
  cbn [set_elems tr_elems].
  inversion S as [E1 E2|a b l l' H FF E1 E2]; [exact I|].
  rewrite <- E1, <- E2 in V1.
  eapply alike_bind; [apply prepareLoop_turn; [exact EV|apply inv_turned; exact V1|exact FF]|].
  intros m m' _ _ Hm. cbn [alike].
  constructor; cbn [set_elems tr_ref tr_prop tr_mass tr_elems tr_isect]; try apply V.
  constructor; auto. destruct H as (TE & P & W). split; [|split; [exact P|exact W]].
  destruct TE. constructor; cbn; auto.
Qed.

(** ** intersection queries *)
Definition ent := fun a b : R * surface => fst b = fst a /\ moved_detector g (snd a) (snd b).

Lemma isectAll_turn t t' maxS l l' : pair_ok (tr_ref t) (tr_ref t') ->
  Forall2 (fun S S' => moved_detector g S S' /\ usable g S) l l' ->
  forall acc acc', Forall2 ent acc acc' ->
  alike (Forall2 ent) (isectAll t maxS acc l) (isectAll t' maxS acc' l').
Proof.
  intros (T & N & P1 & P2). induction 1 as [|S S' l l' [M W] FF IH]; intros acc acc' A; cbn [isectAll]; [exact A|].
  eapply alike_bind; [|intros a b _ _ H; apply IH; exact H].
  unfold isectOne.
  eapply alike_bind; [apply (isect_turn g F S S' (tr_ref t) (tr_ref t')); auto; apply M|].
  intros [b o] [b' o'] _ _ [H1 H2]. cbn [fst snd] in *. subst b'. cbn [alike].
  destruct b; [|exact A]. rewrite (H2 eq_refl). destruct o as [s xx|]; [|exact A]. cbn [map_out].
  destruct (Rle_dec 0 s); auto. destruct (Rlt_dec s maxS); auto.
  apply Forall2_app; auto. constructor; [split; auto|constructor].
Qed.

Lemma isects_turn d E E' t t' l l' : turned_env g E E' -> inv d t t' ->
  Forall2 (fun S S' => moved_detector g S S' /\ usable g S) l l' ->
  alike (inv d) (getIntersectionsWithSurfaces E t l) (getIntersectionsWithSurfaces E' t' l').
Proof.
  intros EV V FF. unfold getIntersectionsWithSurfaces. cbv zeta.
  assert (R : calculateRadius (tp_par (tr_ref t')) = calculateRadius (tp_par (tr_ref t))).
  { unfold calculateRadius, calculateCurvature. rewrite (omega_turn _ _ (proj1 (iv_ref _ _ _ V))). reflexivity. }
  rewrite R.
  eapply alike_bind; [apply isectAll_turn; [apply V|exact FF|apply V]|].
  intros a b _ _ H. cbn [alike].
  constructor; cbn [set_isect tr_ref tr_prop tr_mass tr_elems tr_isect]; try apply V.
  apply (ev_sortI _ _ _ EV); auto. intros ? ? Q. apply Q.
Qed.

(** ** calls and sequences of calls *)
Lemma keep_turn d x y : alike (inv d) x y -> step_rel d (keep x) (keep y).
Proof. destruct x, y; cbn [alike keep]; intros H; try contradiction; split; cbn; auto. Qed.

Lemma exec_turn d E E' t t' c c' : turned_env g E E' -> inv d t t' -> d = 0 \/ no_preparation c -> turned_call g c c' ->
  step_rel d (exec E t c) (exec E' t' c').
Proof.
  intros EV V D C. destruct C; cbn [exec].
  - unfold addMeasurement. rewrite (iv_mass _ _ _ V). apply push_turn; auto.
    intros e e' He. apply newMeasurement_turn; auto.
  - unfold addScatterer. rewrite (iv_mass _ _ _ V). apply push_turn; auto.
    intros e e' He. apply newScatterer_turn; auto.
  - destruct D as [-> |[]]. apply keep_turn, prepare_turn; auto.
  - apply keep_turn, isects_turn; auto.
  - split; auto. cbn [snd both]. destruct V. constructor; cbn [setMass tr_ref tr_prop tr_mass tr_elems tr_isect]; auto.
Qed.

Lemma run_turn d E E' cs cs' : turned_env g E E' -> Forall2 (turned_call g) cs cs' ->
  d = 0 \/ Forall no_preparation cs -> forall t t', inv d t t' ->
  fst (run E' t' cs') = fst (run E t cs) /\ both (inv d) (snd (run E t cs)) (snd (run E' t' cs')).
Proof.
  intros EV. induction 1 as [|c c' cs cs' H Fa IH]; intros D t t' V; cbn [run]; [split; auto|].
  assert (D1 : d = 0 \/ no_preparation c) by (destruct D as [D|D]; [auto|inversion D; auto]).
  assert (D2 : d = 0 \/ Forall no_preparation cs) by (destruct D as [D|D]; [auto|inversion D; auto]).
  destruct (exec_turn d E E' t t' c c' EV V D1 H) as [S1 S2].
  destruct (exec E t c) as [r [t1|]], (exec E' t' c') as [r' [t1'|]]; cbn [fst snd both] in *; subst; try contradiction.
  - destruct (IH D2 _ _ S2) as [-> Q]. split; auto.
  - split; auto.
Qed.

Lemma inv_start d tp tp' pm pm' : turned_tp g tp tp' -> start_ok tp -> Rabs (tp_par tp' PHI0) <= 2 * PI ->
  both (turned_prop g) pm pm' ->
  alike (fun a b => b = a + d) (calculateSfromXY 0 0 (tp_par tp) (tp_ref tp))
    (calculateSfromXY 0 0 (tp_par tp') (tp_ref tp')) ->
  inv d (mkTraj tp pm) (mkTraj tp' pm').
Proof.
  intros T (N & P & O) P' B S. constructor; cbn [mkTraj tr_ref tr_prop tr_mass tr_elems tr_isect]; auto.
  split; auto.
Qed.

End Turn.
