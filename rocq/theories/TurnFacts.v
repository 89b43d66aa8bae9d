(** One step of a trajectory in a turned setup. *)
From Coq Require Import Reals List Bool ZArith Lra Lia FunctionalExtensionality.
From Verif Require Import SpecConst Num Vec Helix Isect Trans Material Traj Fit.
From Verif Require Import NumFacts SpecHelix HelixFacts MoveFacts SpecIsect SurfFacts SurfFacts2 TrajFacts.
From Verif Require Import SpecSym SymFacts SymFacts2 SymFacts3 PropSym SpecTraj SpecTurn.
Import ListNotations.
Open Scope R_scope.

(** ** outcomes *)
Lemma alike_bind {A B C D} (P : A -> B -> Prop) (Q : C -> D -> Prop) x y f h :
  alike P x y -> (forall a b, x = Ok a -> y = Ok b -> P a b -> alike Q (f a) (h b)) ->
  alike Q (bind x f) (bind y h).
Proof. destruct x, y; cbn [alike bind]; intros H K; auto; try contradiction. Qed.
Lemma alike_eq {A} (x y : res A) : y = x -> alike eq x y.
Proof. intros ->. destruct x; cbn; auto. Qed.
Lemma alike_eq_inv {A} (x y : res A) : alike eq x y -> y = x.
Proof. destruct x, y; cbn; intros; subst; auto; contradiction. Qed.
Lemma alike_refl {A} (P : A -> A -> Prop) (x : res A) : (forall a, P a a) -> alike P x x.
Proof. destruct x; cbn; auto. Qed.
Lemma alike_impl {A B} (P Q : A -> B -> Prop) x y : (forall a b, P a b -> Q a b) ->
  alike P x y -> alike Q x y.
Proof. destruct x, y; cbn; auto. Qed.
Lemma alike_rmap {A B} (f : A -> B) x y : y = rmap f x -> alike (fun a b => b = f a) x y.
Proof. intros ->. destruct x; cbn; auto. Qed.

(** ** the same motion with another count of turns *)
Definition like (g h : motion) : Prop :=
  m_flip h = m_flip g /\ m_shift h = m_shift g /\ map_dir h = map_dir g.

Lemma like_point g h : like g h -> map_point h = map_point g.
Proof. intros (_ & S & D). extensionality p. unfold map_point. rewrite S, D. reflexivity. Qed.

Lemma like_moved g h S S' : like g h -> moved_surface g S S' -> moved_surface h S S'.
Proof.
  intros L [A B C D E F G]. assert (P := like_point g h L). destruct L as (_ & _ & L).
  constructor; rewrite ?P, ?L; auto.
Qed.

Lemma turn_like g (k : Z) : like g (Mot (m_flip g) (m_turn g + 2 * IZR k * PI) (m_shift g)).
Proof.
  split; auto. split; auto. extensionality v. unfold map_dir, hand; cbn [m_flip m_turn].
  rewrite cos_2kpi, sin_2kpi. reflexivity.
Qed.

Lemma vec5_eq (a b : vec5) : a OMEGA = b OMEGA -> a TANL = b TANL -> a PHI0 = b PHI0 ->
  a D0 = b D0 -> a Z0 = b Z0 -> a = b.
Proof. intros. extensionality i. destruct i; auto. Qed.

Lemma map_cov_id g c : m_flip g = false -> map_cov g c = c.
Proof.
  intros F. extensionality i. extensionality j. unfold map_cov.
  assert (H : hand g = 1) by (unfold hand; rewrite F; auto).
  destruct i; destruct j; cbn [par_hand]; rewrite ?H; ring.
Qed.

(** a turned state is an exact image under such a motion *)
Lemma turned_image g tp tp' : m_flip g = false -> turned_tp g tp tp' ->
  exists h, like g h /\ m_flip h = false /\ tp' = map_tp h tp.
Proof.
  intros F (C & R & (O & T & D & Z & k & P)).
  exists (Mot (m_flip g) (m_turn g + 2 * IZR k * PI) (m_shift g)).
  assert (L := turn_like g k). split; auto. split; auto.
  destruct tp' as [c p r]; cbn [tp_cov tp_ref tp_par] in *. unfold map_tp.
  rewrite map_cov_id by auto. rewrite (like_point _ _ L). rewrite C, R. f_equal.
  apply vec5_eq; rewrite ?O, ?T, ?D, ?Z, ?P; unfold map_par, hand, OMEGA, TANL, PHI0, D0, Z0;
    cbn [mk5 m_flip m_turn]; rewrite ?F; ring.
Qed.

Lemma image_turned g h tp : like g h -> m_flip g = false ->
  (exists k : Z, m_turn h = m_turn g + 2 * IZR k * PI) -> turned_tp g tp (map_tp h tp).
Proof.
  intros L F (k & K). split; [cbn; apply map_cov_id; destruct L as [-> _]; auto|].
  split; [cbn; rewrite (like_point _ _ L); auto|]. destruct L as (L1 & _ & _).
  repeat split; unfold map_par, hand, map_tp; cbn [tp_par mk5]; unfold map_par, hand, OMEGA, TANL, PHI0, D0, Z0;
    cbn [mk5]; rewrite ?L1, ?F; auto.
  exists k. rewrite K. ring.
Qed.

Lemma same_par_trans p q r : same_par p q -> same_par q r -> same_par p r.
Proof.
  intros (A & B & C & D & k & E) (A' & B' & C' & D' & k' & E').
  repeat split; try congruence. exists (k + k')%Z. rewrite plus_IZR, E, E'. ring.
Qed.

(** ** intersections *)
Definition hit (g : motion) (a b : bool * outp) : Prop :=
  fst b = fst a /\ (fst a = true -> snd b = map_out g (snd a)).

(** the incoming values of the output parameters do not enter a hit *)
Definition nohit (a b : bool * outp) : Prop := fst b = fst a /\ (fst a = true -> b = a).
Lemma nohit_refl a : nohit a a. Proof. split; auto. Qed.
Lemma nohit_false o o' : nohit (false, o) (false, o'). Proof. split; cbn; auto; discriminate. Qed.

Lemma zcyl_in surf hp rp o o' mode cb :
  alike nohit (intersectWithZCylinder surf hp rp o mode cb) (intersectWithZCylinder surf hp rp o' mode cb).
Proof.
  unfold intersectWithZCylinder. cbv zeta.
  destruct (st_parallelToZ (sf_type surf)); [|exact I].
  destruct (sf_cyl surf) as [[rho c]|]; [|exact I].
  match goal with |- context [xdiv ?a ?b] => destruct (xdiv a b) as [gm| |] end; try apply nohit_false; [|exact I].
  destruct (Rlt_dec 1 (Rabs gm)); [apply nohit_false|].
  eapply alike_bind; [apply alike_eq; reflexivity|]. intros s0 ? _ _ <-.
  eapply alike_bind; [apply alike_eq; reflexivity|]. intros s1 ? _ _ <-.
  destruct select as [[s x]|]; [apply nohit_refl|apply nohit_false].
Qed.

Lemma isect_in surf hp rp o o' mode cb :
  alike nohit (intersectWithSurface surf hp rp o mode cb) (intersectWithSurface surf hp rp o' mode cb).
Proof.
  unfold intersectWithSurface. cbv zeta.
  destruct (isZCylinder (sf_type surf)); [apply zcyl_in|].
  destruct (isZPlane (sf_type surf)).
  { unfold intersectWithZPlane. cbv zeta.
    eapply alike_bind; [apply alike_eq; reflexivity|]. intros a ? _ _ <-.
    eapply alike_bind; [apply alike_eq; reflexivity|]. intros b ? _ _ <-.
    eapply alike_bind; [apply alike_eq; reflexivity|]. intros c ? _ _ <-.
    destruct c as [|[[X Y]|] [|[[X' Y']|] l]]; try apply nohit_false; try exact I.
    - eapply alike_bind; [apply alike_eq; reflexivity|]. intros s ? _ _ <-. apply nohit_refl.
    - eapply alike_bind; [apply alike_eq; reflexivity|]. intros s0 ? _ _ <-.
      eapply alike_bind; [apply alike_eq; reflexivity|]. intros s1 ? _ _ <-.
      destruct select as [[s x]|]; [apply nohit_refl|apply nohit_false].
    - destruct (Z.eqb mode 0); [|apply nohit_false]. destruct cb; [exact I|apply nohit_refl]. }
  destruct (isZDisk (sf_type surf)).
  { apply alike_refl, nohit_refl. }
  destruct (isCone (sf_type surf)); [|apply nohit_false].
  unfold intersectWithZCone. eapply alike_bind; [apply zcyl_in|].
  intros [a oa] [b ob] _ _ [E F]. cbn [fst snd] in *. subst b. destruct a; [|apply nohit_false].
  specialize (F eq_refl). injection F as ->. destruct oa; [|exact I]. apply alike_refl, nohit_refl.
Qed.

Section Turn.
Variables (g : motion) (F : m_flip g = false).

Lemma flat_side S : keeps_axis g -> detector_ok S -> usable g S.
Proof.
  intros (_ & X & Y) W. split; auto. intros P Q. destruct W as [_ W]. destruct (W P Q) as [Z _].
  left. unfold vdot, map_dir; cbn [vx vy vz]. rewrite X, Y, Z. ring.
Qed.

Lemma isect_turn S S' tp tp' o mode cb : moved_surface g S S' -> usable g S -> turned_tp g tp tp' ->
  tp_par tp OMEGA <> 0 -> Rabs (tp_par tp PHI0) <= 2 * PI -> Rabs (tp_par tp' PHI0) <= 2 * PI ->
  alike (hit g) (intersectWithSurface S (tp_par tp) (tp_ref tp) o mode cb)
    (intersectWithSurface S' (tp_par tp') (tp_ref tp') o mode cb).
Proof.
  intros M [W WS] T N P P'.
  destruct (turned_image g tp tp' F T) as (h & L & Fh & ->).
  assert (Ep := like_point g h L). cbn [map_tp tp_par tp_ref] in *.
  assert (Ec : intersectWithSurface S' (map_par h (tp_par tp)) (map_point h (tp_ref tp)) (map_out h o) mode cb
    = rmap (map_answer h) (intersectWithSurface S (tp_par tp) (tp_ref tp) o mode cb)).
  { apply C69_surfaces; auto.
    - apply (like_moved g h); auto.
    - split; auto. 
    - apply W.
    - intros ZP _. destruct W as [_ W].
      destruct (W (proj1 ZP) (proj2 ZP)) as [W1 W2]. split; auto. split; auto.
      destruct L as (_ & Ls & Ld). unfold plane_side. rewrite Ls, Ld. apply (WS (proj1 ZP) (proj2 ZP)). }
  assert (A := isect_in S' (map_par h (tp_par tp)) (map_point h (tp_ref tp)) (map_out h o) o mode cb).
  rewrite Ec in A.
  destruct (intersectWithSurface S (tp_par tp) (tp_ref tp) o mode cb) as [[b oo]| | | |]; cbn [rmap alike] in *;
    destruct (intersectWithSurface S' _ _ o mode cb) as [[b' oo']| | | |]; cbn [alike] in *; auto; try contradiction.
  destruct A as [A1 A2]. unfold map_answer in *. cbn [fst snd] in *. split; cbn [fst snd]; auto.
  intros B. specialize (A2 B). injection A2 as _ ->. destruct oo; cbn [map_out]; auto. rewrite Ep. auto.
Qed.

(** ** frames, momenta *)
Lemma map_dir_vr v : vr (map_dir g v) = vr v.
Proof.
  unfold vr. f_equal. generalize (map_dir_dot g v v). unfold vdot. auto.
Qed.
Lemma map_dir_scale x v : map_dir g (V3 (x * vx v) (x * vy v) (x * vz v))
  = V3 (x * vx (map_dir g v)) (x * vy (map_dir g v)) (x * vz (map_dir g v)).
Proof. unfold map_dir; cbn [vx vy vz]. f_equal; ring. Qed.

Lemma vunit_map v : vunit (map_dir g v) = rmap (map_dir g) (vunit v).
Proof.
  unfold vunit. cbv zeta. rewrite map_dir_vr. unfold rdiv.
  destruct (Req_EM_T (vr v) 0) as [Z|Z]; cbn [bind rmap]; auto. f_equal.
  unfold map_dir; cbn [vx vy vz]. f_equal; field; auto.
Qed.

Lemma qms_map S S' uv mom mass : moved_detector g S S' ->
  computeQMS_uv S' uv (map_dir g mom) mass = computeQMS_uv S uv mom mass.
Proof.
  intros [M U V L G IM OM IT OT]. unfold computeQMS_uv. cbv zeta.
  rewrite IM, OM, IT, OT, G, (mv_normal _ _ _ M), vunit_map, map_dir_vr.
  destruct rdiv; cbn [bind]; auto. destruct rdiv; cbn [bind]; auto. destruct rdiv; cbn [bind]; auto.
  destruct (vunit mom); cbn [bind rmap]; auto. rewrite map_dir_dot. reflexivity.
Qed.

Lemma eloss_map S S' uv mom mass : moved_detector g S S' ->
  computeEnergyLoss_uv S' uv (map_dir g mom) mass = computeEnergyLoss_uv S uv mom mass.
Proof.
  intros [M U V L G IM OM IT OT]. unfold computeEnergyLoss_uv. cbv zeta.
  rewrite IM, OM, IT, OT, G, (mv_normal _ _ _ M), vunit_map, map_dir_vr.
  destruct (vunit mom); cbn [bind rmap]; auto. rewrite map_dir_dot. reflexivity.
Qed.

Lemma mom_turn B B' tp tp' : (forall p, B' (map_point g p) = map_dir g (B p)) -> turned_tp g tp tp' ->
  momentumAtPCA B' (tp_par tp') (tp_ref tp') = rmap (map_dir g) (momentumAtPCA B (tp_par tp) (tp_ref tp)).
Proof.
  intros HB T. destruct (turned_image g tp tp' F T) as (h & L & Fh & ->).
  cbn [map_tp tp_par tp_ref].
  destruct (C69_helix h 0 (tp_par tp) (tp_ref tp)) as (_ & _ & _ & _ & H & _).
  destruct (H B B') as [_ H2].
  { rewrite (like_point _ _ L), HB. reflexivity. }
  rewrite H2. destruct L as (_ & _ & ->). reflexivity.
Qed.

Lemma cls_turn s p p' : same_par p' (map_par g p) ->
  calculateLocalCurvilinearSystem s p'
  = (map_dir g (fst (calculateLocalCurvilinearSystem s p)), map_dir g (snd (calculateLocalCurvilinearSystem s p))).
Proof.
  intros (O & T & D & Z & k & P).
  unfold calculateLocalCurvilinearSystem. cbn [fst snd]. unfold calculateCurvature, calculatePhi0, calculateLambda.
  rewrite O, T, P. unfold map_par, hand, OMEGA, TANL, PHI0; cbn [mk5]. rewrite F.
  fold OMEGA TANL PHI0.
  replace (1 * p PHI0 + m_turn g + 2 * IZR k * PI - 1 * p OMEGA * s)
    with ((p PHI0 - p OMEGA * s + m_turn g) + 2 * IZR k * PI) by ring.
  rewrite cos_2kpi, sin_2kpi, cos_plus, sin_plus.
  f_equal; unfold map_dir, hand; cbn [vx vy vz]; rewrite F; f_equal; ring.
Qed.

Lemma proj_turn U V l :
  length l = 2%nat ->
  calculateLocalToMeasurementProjectionMatrix (map_dir g U) (map_dir g V) (map (map_dir g) l)
  = calculateLocalToMeasurementProjectionMatrix U V l.
Proof.
  destruct l as [|a [|b [|]]]; try discriminate. intros _. cbn [map].
  unfold calculateLocalToMeasurementProjectionMatrix. cbv zeta. rewrite !map_dir_dot. reflexivity.
Qed.

Lemma tangent_turn s p p' : same_par p' (map_par g p) ->
  calculateTangent s p' = map_dir g (calculateTangent s p).
Proof.
  intros (O & T & D & Z & k & P). rewrite <- tangent_map.
  unfold calculateTangent, calculateCurvature, calculatePhi0, calculateLambda. rewrite O, T, P.
  replace (map_par g p PHI0 + 2 * IZR k * PI - map_par g p OMEGA * s)
    with ((map_par g p PHI0 - map_par g p OMEGA * s) + 2 * IZR k * PI) by ring.
  try rewrite cos_2kpi; try rewrite sin_2kpi; try reflexivity.
Qed.

End Turn.
