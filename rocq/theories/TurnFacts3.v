(** Propagators and fit in a turned setup. *)
From Coq Require Import Reals List Bool ZArith Lra Lia FunctionalExtensionality.
From Verif Require Import SpecConst Num Vec Helix Isect Trans Propag Material Traj Fit.
From Verif Require Import NumFacts SpecHelix HelixFacts.
From Verif Require Import SpecSym SymFacts SymFacts2 SymFacts3 SpecTraj SpecTurn TurnFacts TurnFacts2.
Import ListNotations.
Open Scope R_scope.

Section Turn.
Variables (g : motion) (F : m_flip g = false).

Lemma hand1 : hand g = 1. Proof. unfold hand. rewrite F. reflexivity. Qed.

Lemma cross_map a b : vcross (map_dir g a) (map_dir g b) = map_dir g (vcross a b).
Proof.
  assert (S := sc1 (m_turn g)).
  apply vec3_eq; unfold map_dir, vcross; cbn [vx vy vz]; rewrite ?hand1; try ring.
  transitivity ((sin (m_turn g) * sin (m_turn g) + cos (m_turn g) * cos (m_turn g)) * (vx a * vy b - vy a * vx b));
    [ring|rewrite S; ring].
Qed.
Lemma u_map x t : V3 (- x * vy (map_dir g t)) (x * vx (map_dir g t)) 0
  = map_dir g (V3 (- x * vy t) (x * vx t) 0).
Proof. apply vec3_eq; unfold map_dir; cbn [vx vy vz]; rewrite ?hand1; ring. Qed.
Lemma v_map t u : vz u = 0 ->
  V3 (- vz (map_dir g t) * vy (map_dir g u)) (vz (map_dir g t) * vx (map_dir g u))
     (vx (map_dir g t) * vy (map_dir g u) - vy (map_dir g t) * vx (map_dir g u))
  = map_dir g (V3 (- vz t * vy u) (vz t * vx u) (vx t * vy u - vy t * vx u)).
Proof.
  intros _. assert (S := sc1 (m_turn g)).
  apply vec3_eq; unfold map_dir; cbn [vx vy vz]; rewrite ?hand1; try ring.
  transitivity ((sin (m_turn g) * sin (m_turn g) + cos (m_turn g) * cos (m_turn g)) * (vx t * vy u - vy t * vx u));
    [ring|rewrite S; ring].
Qed.
Lemma dx_map a b c q h t n :
  V3 (- (a * vx (map_dir g h) + b * vx (map_dir g t) + c * vx (map_dir g n)) / q)
     (- (a * vy (map_dir g h) + b * vy (map_dir g t) + c * vy (map_dir g n)) / q)
     (- (a * vz (map_dir g h) + b * vz (map_dir g t) + c * vz (map_dir g n)) / q)
  = map_dir g (V3 (- (a * vx h + b * vx t + c * vx n) / q) (- (a * vy h + b * vy t + c * vy n) / q)
                  (- (a * vz h + b * vz t + c * vz n) / q)).
Proof. apply vec3_eq; unfold map_dir; cbn [vx vy vz]; rewrite ?hand1; unfold Rdiv; ring. Qed.

Lemma trans2_map v : vx (map_dir g v) * vx (map_dir g v) + vy (map_dir g v) * vy (map_dir g v)
  = vx v * vx v + vy v * vy v.
Proof. generalize (map_dir_dot g v v). unfold vdot. change (vz (map_dir g v)) with (vz v). lra. Qed.

Lemma helixJacobian_map jac dw qop qp q c1 c2 au1 au2 ts te hn n :
  helixJacobian jac dw qop qp q c1 c2 au1 au2 (map_dir g ts) (map_dir g te) (map_dir g hn) n
  = helixJacobian jac dw qop qp q c1 c2 au1 au2 ts te hn n.
Proof.
  unfold helixJacobian. cbv zeta.
  rewrite (u_map au1 ts), (u_map au2 te).
  rewrite (v_map ts (V3 (- au1 * vy ts) (au1 * vx ts) 0) eq_refl).
  rewrite (v_map te (V3 (- au2 * vy te) (au2 * vx te) 0) eq_refl).
  rewrite !cross_map, dx_map, !map_dir_dot. reflexivity.
Qed.

Lemma analytical_turn : turned_prop g analyticalJacobian analyticalJacobian.
Proof.
  intros jac dw qop ts te B n. unfold analyticalJacobian. cbv zeta.
  rewrite map_dir_vr, (vunit_map g B).
  unfold lineJacobian, vtrans. rewrite !trans2_map.
  destruct Req_EM_T; auto. destruct rdiv; cbn [bind]; auto.
  destruct (vunit B); cbn [bind rmap]; auto.
  destruct rdiv; cbn [bind]; auto. destruct rdiv; cbn [bind]; auto. destruct rdiv; cbn [bind]; auto.
  all: rewrite helixJacobian_map; reflexivity.
Qed.

Lemma simplified_turn :
  turned_prop g (fun jac dw qop ts te B n => Ok (simplifiedJacobian jac dw ts te B))
                (fun jac dw qop ts te B n => Ok (simplifiedJacobian jac dw ts te B)).
Proof. intros jac dw qop ts te B n. reflexivity. Qed.

(** ** curvilinear to L3 *)
Lemma clT a c s : V3 (cos (a + m_turn g) * c) (sin (a + m_turn g) * c) s
  = map_dir g (V3 (cos a * c) (sin a * c) s).
Proof. rewrite cos_plus, sin_plus. apply vec3_eq; unfold map_dir; cbn [vx vy vz]; rewrite ?hand1; ring. Qed.
Lemma clU a : V3 (- sin (a + m_turn g)) (cos (a + m_turn g)) 0 = map_dir g (V3 (- sin a) (cos a) 0).
Proof. rewrite cos_plus, sin_plus. apply vec3_eq; unfold map_dir; cbn [vx vy vz]; rewrite ?hand1; ring. Qed.
Lemma clJ a : V3 (sin (a + m_turn g)) (- cos (a + m_turn g)) 0 = map_dir g (V3 (sin a) (- cos a) 0).
Proof. rewrite cos_plus, sin_plus. apply vec3_eq; unfold map_dir; cbn [vx vy vz]; rewrite ?hand1; ring. Qed.
Lemma clV a c s : V3 (- cos (a + m_turn g) * s) (- sin (a + m_turn g) * s) c
  = map_dir g (V3 (- cos a * s) (- sin a * s) c).
Proof. rewrite cos_plus, sin_plus. apply vec3_eq; unfold map_dir; cbn [vx vy vz]; rewrite ?hand1; ring. Qed.
Lemma clK : V3 0 0 1 = map_dir g (V3 0 0 1).
Proof. apply vec3_eq; unfold map_dir; cbn [vx vy vz]; ring. Qed.

Lemma cl2perigee_turn tp tp' B : turned_tp g tp tp' ->
  curvilinearToPerigeeJacobian (tp_par tp') (map_dir g B) = curvilinearToPerigeeJacobian (tp_par tp) B.
Proof.
  intros T. destruct T as (_ & _ & (O & TL & D & Z & k & P)).
  unfold curvilinearToPerigeeJacobian. cbv zeta. unfold calculateLambda, calculatePhi0, calculateCurvature.
  rewrite O, TL, P. unfold map_par, OMEGA, TANL, PHI0; cbn [mk5]. fold OMEGA TANL PHI0. rewrite hand1, !Rmult_1_l.
  rewrite cos_2kpi, sin_2kpi. rewrite clT, clU, clV, clJ. rewrite vunit_map.
  destruct (vunit B) as [H| | | |]; cbn [bind rmap]; auto.
  assert (EI : vcross (map_dir g (V3 (sin (tp_par tp PHI0)) (- cos (tp_par tp PHI0)) 0)) (V3 0 0 1)
    = map_dir g (vcross (V3 (sin (tp_par tp PHI0)) (- cos (tp_par tp PHI0)) 0) (V3 0 0 1))).
  { rewrite <- cross_map, <- clK. reflexivity. }
  rewrite EI. rewrite !cross_map, !map_dir_dot.
  assert (EK : forall v, vdot (map_dir g v) (V3 0 0 1) = vdot v (V3 0 0 1)).
  { intros v. rewrite <- (map_dir_dot g v (V3 0 0 1)), <- clK. reflexivity. }
  rewrite !EK. change (vz (map_dir g B)) with (vz B). reflexivity.
Qed.

Lemma cl2L3_turn tp tp' B : turned_tp g tp tp' ->
  curvilinearToL3Jacobian (tp_par tp') (map_dir g B) = curvilinearToL3Jacobian (tp_par tp) B.
Proof.
  intros T. unfold curvilinearToL3Jacobian. rewrite (cl2perigee_turn tp tp' B T).
  unfold perigeeToL3Jacobian, calculateTanLambda. destruct T as (_ & _ & (_ & -> & _)). reflexivity.
Qed.

(** ** fit *)
Lemma makePoint_turn d e e' : turned_elem g d e e' -> makePoint e' = makePoint e.
Proof.
  intros [S T SF ME SC DI PR RE CL PJ JA ID]. unfold makePoint, measPart, scatPart.
  rewrite JA, ME, SC, DI, PJ, RE, PR.
  destruct (te_dirs e) as [l|]; cbn [option_map]; auto. rewrite map_length. reflexivity.
Qed.

Lemma makePoints_turn d l l' : Forall2 (turned_elem g d) l l' -> makePoints l' = makePoints l.
Proof.
  induction 1 as [|e e' l l' H Fa IH]; auto. cbn [makePoints]. rewrite (makePoint_turn _ _ _ H), IH. reflexivity.
Qed.

Lemma clear_turn st st' : turned_state g st st' -> turned_state g (clearAll st) (clearAll st').
Proof.
  intros [I H]. unfold clearAll. rewrite I. split; auto. cbn [fs_heap].
  generalize (if_results (fs_if st)). intros l. revert H. generalize (fs_heap st) (fs_heap st').
  induction l as [|r l IH]; intros h h' H; cbn [fold_left]; auto.
  apply IH. clear IH. generalize (snd r). induction H as [|x y h h' Hx Hh IH]; intros n; cbn [hdelete]; [constructor|].
  destruct n; constructor; cbn [both]; auto.
Qed.

Lemma fit_turn G w w' st st' tid : turned_world g w w' -> turned_state g st st' ->
  snd (fit G w' st' tid) = snd (fit G w st tid)
  /\ turned_state g (fst (fit G w st tid)) (fst (fit G w' st' tid)).
Proof.
  intros W S. assert (C := clear_turn st st' S). unfold fit. cbv zeta.
  destruct C as [CI CH]. rewrite CI. assert (Wt := W tid).
  destruct (w tid) as [t|], (w' tid) as [t'|]; cbn [both] in Wt; try contradiction.
  - destruct Wt as [d Wt]. rewrite (makePoints_turn _ _ _ (tt_elems _ _ _ _ Wt)).
    destruct (makePoints (tr_elems t)); cbn [fst snd]; try (split; [auto|split; [auto|exact CH]]; fail).
    destruct (gbl_fit G a) as [rv [[c2 nd] lo]]. cbn [fst snd]. split; auto. split; auto.
  - cbn [fst snd]. split; auto. split; auto.
Qed.

Lemma nth_turn {A} (Q : A -> A -> Prop) l l' : Forall2 Q l l' -> forall label,
  alike Q (elementIndex l label) (elementIndex l' label).
Proof.
  intros H label. unfold elementIndex. destruct (Z.ltb label 0); [exact I|].
  generalize (Z.to_nat label). induction H as [|x y l l' Hx Hl IH]; intros [|n]; cbn [nth_error]; try exact I; auto.
Qed.

Lemma compute_turn d E E' G i points t t' label : turned_env g E E' -> turned_traj g d t t' ->
  alike (turned_fr g) (computeResults E G i points t label) (computeResults E' G i points t' label).
Proof.
  intros EV V. unfold computeResults. destruct (gbl_results G points label) as [[er tc] cv]. cbv zeta.
  eapply alike_bind; [apply nth_turn, V|]. intros e e' _ _ He.
  assert (T := tu_tp _ _ _ _ He). assert (T' := T). destruct T' as (C & R & (O & TL & D & Z & k & P)).
  rewrite R, (ev_bfield _ _ _ EV), (cl2L3_turn _ _ _ T).
  eapply alike_bind; [apply alike_eq; reflexivity|]. intros J ? _ _ <-. cbn [alike].
  split; [auto|]. split; [auto|]. split; [auto|]. split; [auto|].
  split; [reflexivity|]. split; [reflexivity|].
  cbn [fr_tp tp_setCov tp_setRef tp_setPar tp_par tp_default].
  unfold v5add. unfold map_par, OMEGA, TANL, PHI0, D0, Z0 in *; cbn [mk5] in *. rewrite hand1 in *.
  repeat split.
  - unfold OMEGA. rewrite O. cbn [mk5]. ring.
  - unfold TANL. rewrite TL. cbn [mk5]. ring.
  - unfold D0. rewrite D. cbn [mk5]. ring.
  - unfold Z0. rewrite Z. cbn [mk5]. ring.
  - exists k. unfold PHI0. rewrite P. cbn [mk5]. ring.
Qed.

Lemma results_turn E E' G w w' st st' label : turned_env g E E' -> turned_world g w w' -> turned_state g st st' ->
  snd (getResults E' G w' st' label) = snd (getResults E G w st label)
  /\ turned_state g (fst (getResults E G w st label)) (fst (getResults E' G w' st' label)).
Proof.
  intros EV W S. assert (S' := S). destruct S' as [SI SH]. unfold getResults. cbv zeta. rewrite SI.
  destruct (lookup (if_results (fs_if st)) label) as [a|]; [split; auto|].
  destruct (if_fitted (fs_if st)) as [tid|]; [|split; auto].
  assert (Wt := W tid). destruct (w tid) as [t|], (w' tid) as [t'|]; cbn [both] in Wt; try contradiction; [|split; auto].
  destruct (if_traj (fs_if st)) as [points|]; [|split; auto].
  destruct Wt as [d Wt]. generalize (compute_turn d E E' G (fs_if st) points t t' label EV Wt).
  destruct (computeResults E G (fs_if st) points t label), (computeResults E' G (fs_if st) points t' label);
    cbn [alike]; try contradiction; intros Q; cbn [fst snd]; try (split; auto; fail).
  assert (L : length (fs_heap st') = length (fs_heap st)) by (clear -SH; induction SH; cbn [length]; congruence).
  rewrite L. split; auto. split; auto. cbn [fs_heap]. apply Forall2_app; auto.
Qed.

End Turn.
